(** Model of the FITS files of flat-sky workspaces (src/nmt_io.c:395-738), of covariance workspaces
    (nmt_io.c:740-860) and of flat-sky covariance workspaces (nmt_io.c:862-942), with the Python methods
    read_from / write_to of NmtWorkspaceFlat, NmtCovarianceWorkspace and NmtCovarianceWorkspaceFlat.
    CFITSIO is modelled by a list of header-data units.  Binary tables and images store doubles exactly; keywords
    of type TDOUBLE are text with 15 significant digits: the number read back is [rnd] of the number written.
    Every reader is followed by check_fits (an exception if the status is not zero), so that a missing unit, keyword,
    column or pixel always ends in RuntimeError; the status 412 that some readers reset (a number that does not fit
    in an int) does not arise. *)
From Verif Require Import Base M_Bins M_FlatBins M_LinAlg M_Workspace M_Flat M_WspFlat M_Covar M_CovFlat.
Open Scope nat_scope.

Section FITS2.
Context {F : ofield}.
Local Open Scope F_scope.
Notation mat := (list (list F)).
Notation fsinfo := (fsinfo F).
Notation fbins := (fbins F).
Notation cuts := (cuts F).
Notation fwsp := (fwsp F).
Notation cwsp := (cwsp F).
Notation cfwsp := (cfwsp F).

(** ** Files *)
Inductive kval := KI (z : Z) | KD (x : F).
Inductive fcol := FI (v : list Z) | FD (v : list F).
(** u_axes: NAXIS1, NAXIS2; u_ipix: pixels of an image of integers *)
Record unit2 := U2 { u_table : bool; u_name : string; u_keys : list (string * kval); u_nrows : nat; u_cols : list fcol; u_axes : nat * nat; u_pix : list F; u_ipix : list Z }.
Definition file2 := list unit2.
Definition fail {A} : res A := Exn RuntimeError.
(** fits_movnam_hdu *)
Definition mov (f : file2) (table : bool) (name : string) : res unit2 :=
  match find (fun u => Bool.eqb (u_table u) table && String.eqb (u_name u) name) f with Some u => Ok u | None => fail end.
(** fits_read_key; a keyword of the other type is treated as missing *)
Definition key (u : unit2) (k : string) : option kval := match find (fun kv => String.eqb (fst kv) k) (u_keys u) with Some kv => Some (snd kv) | None => None end.
Definition key_i (u : unit2) (k : string) : res Z := match key u k with Some (KI z) => Ok z | _ => fail end.
Definition key_d (u : unit2) (k : string) : res F := match key u k with Some (KD x) => Ok x | _ => fail end.
(** fits_read_col of all rows *)
Definition col_i (u : unit2) (k : nat) : res (list Z) :=
  match nth_error (u_cols u) k with Some (FI v) => if Nat.eqb (length v) (u_nrows u) then Ok v else fail | _ => fail end.
Definition col_d (u : unit2) (k : nat) : res (list F) :=
  match nth_error (u_cols u) k with Some (FD v) => if Nat.eqb (length v) (u_nrows u) then Ok v else fail | _ => fail end.
(** fits_read_pix of n pixels from pixel o on *)
Definition pixels {A} (v : list A) (o n : nat) : res (list A) := if (o + n <=? length v)%nat then Ok (firstn n (skipn o v)) else fail.
(** fits_write_pix of the rows of a matrix *)
Definition rows_out (n m : nat) (A : mat) : res (list F) := do r <- tabM n (fun i => tabM m (fun j => rd2 A (Z.of_nat i) (Z.of_nat j))); Ok (concat r).
Definition image (name : string) (keys : list (string * kval)) (cols rows : nat) (p : list F) : unit2 := U2 false name keys 0 [] (cols, rows) p [].
Definition table (name : string) (keys : list (string * kval)) (n : nat) (cols : list fcol) : unit2 := U2 true name keys n cols (0, 0)%nat [] [].

(** numbers written as keywords *)
Variable rnd : F -> F.
Definition kd (x : F) : kval := KD (rnd x).

(** ** Flat-sky workspaces in memory *)
Variables (pi : F) (fsqrt : F -> F) (trunc : F -> Z).
(** nmt_flatsky_info (namaster.h:298-310); n_ell is the length of ell_min *)
Record fsmem := FSM { m_nx : Z; m_ny : Z; m_npix : Z; m_lx : F; m_ly : F; m_pixsize : F; m_dell : F; m_idell : F; m_ellmin : list F }.
(** nmt_flatsky_info_alloc, nmt_field_flat.c:36-66 *)
Definition mem_fs (s : fsinfo) : fsmem :=
  FSM (Z.of_nat (fs_nx s)) (Z.of_nat (fs_ny s)) (Z.of_nat (fs_nx s * fs_ny s)) (fs_lx s) (fs_ly s)
      (fs_lx s * fs_ly s / fofZ (Z.of_nat (fs_nx s * fs_ny s))) (dell pi s) (1 / dell pi s)
      (tab (n_ell pi fsqrt trunc s) (fun i => fofnat i * dell pi s)).
(** nmt_workspace_flat (namaster.h:505-522).  mw_gsl and mw_perm are the LU factors of the binned matrix *)
Record fwmem := FWM { mw_ncls : Z; mw_teb : Z; mw_lmax : F; mw_cut : cuts; mw_pe1 : Z; mw_pe2 : Z; mw_pb1 : Z; mw_pb2 : Z;
                      mw_fs : fsmem; mw_cells : list Z; mw_unb : mat; mw_bnd : mat; mw_gsl : mat; mw_perm : list Z; mw_bin : fbins }.
(** gsl_linalg_LU_decomp and gsl_linalg_LU_solve *)
Variable lu_dec : mat -> mat * list Z.
Variable lu_back : mat -> list Z -> list F -> res (list F).
(** the structure behind a computed workspace (nmt_master_flat.c:34-68, 111-117, 520-530); flags: pure_e, pure_e, pure_b, pure_b of the two fields.
    Line 50: lmax is the upper edge of the last band (reads in front of the array if there is no band: not modelled). *)
Definition mem_of (flags : Z * Z * Z * Z) (teb : bool) (w : fwsp) : fwmem :=
  let '(pe1, pe2, pb1, pb2) := flags in
  FWM (Z.of_nat (fw_ncls w)) (if teb then 1 else 0)%Z (nth (fw_nb w - 1) (fb_lf (fw_bin w)) 0) (fw_cut w) pe1 pe2 pb1 pb2
      (mem_fs (fw_fs w)) (fw_cells w) (fw_unb w) (fw_bnd w) (fst (lu_dec (fw_bnd w))) (snd (lu_dec (fw_bnd w))) (fw_bin w).
Definition mw_nb (w : fwmem) : nat := length (fb_l0 (mw_bin w)).
Definition mw_ne (w : fwmem) : nat := length (m_ellmin (mw_fs w)).

(** *** Writing *)
(** nmt_io.c:395-421 *)
Definition winfo_out (w : fwmem) : res unit2 :=
  let n1 := (Z.to_nat (mw_ncls w) * mw_nb w)%nat in
  let n2 := (Z.to_nat (mw_ncls w) * mw_ne w)%nat in
  do p <- rows_out n1 n2 (mw_unb w);
  Ok (image "WSP_PRIMARY"
       [("LMAX", kd (mw_lmax w)); ("ELLCUT_X_I", kd (mn_x (mw_cut w))); ("ELLCUT_X_F", kd (mx_x (mw_cut w)));
        ("ELLCUT_Y_I", kd (mn_y (mw_cut w))); ("ELLCUT_Y_F", kd (mx_y (mw_cut w)));
        ("PURE_E1", KI (mw_pe1 w)); ("PURE_E2", KI (mw_pe2 w)); ("PURE_B1", KI (mw_pb1 w)); ("PURE_B2", KI (mw_pb2 w));
        ("IS_TEB", KI (mw_teb w)); ("NCLS", KI (mw_ncls w))]%string n2 n1 p).
(** nmt_io.c:453-480 *)
Definition fsinfo_out (m : fsmem) : unit2 :=
  table "FS_INFO"
    [("NX", KI (m_nx m)); ("NY", KI (m_ny m)); ("NPIX", KI (m_npix m)); ("LX", kd (m_lx m)); ("LY", kd (m_ly m));
     ("PIXSIZE", kd (m_pixsize m)); ("DELL", kd (m_dell m)); ("I_DELL", kd (m_idell m))]%string (length (m_ellmin m)) [FD (m_ellmin m)].
(** nmt_io.c:515-533 *)
Definition ncells_out (n : nat) (c : list Z) : res unit2 :=
  do v <- tabM n (fun i => rd c (Z.of_nat i)); Ok (table "N_CELLS" [] n [FI v]).
(** nmt_io.c:553-596 *)
Definition fbinned_out (w : fwmem) : res (list unit2) :=
  let n := (Z.to_nat (mw_ncls w) * mw_nb w)%nat in
  do p <- rows_out n n (mw_bnd w);
  do g <- rows_out n n (mw_gsl w);
  do q <- tabM n (fun i => rd (mw_perm w) (Z.of_nat i));
  Ok [image "MCM_BINNED" [] n n p; image "MCM_BINNED_GSL" [] n n g; U2 false "MCM_PERM" [] 0 [] (n, 0)%nat [] q].
(** nmt_io.c:645-676 *)
Definition fbins_out (b : fbins) : res unit2 :=
  let n := length (fb_l0 b) in
  do v <- tabM n (fun i => rd (fb_lf b) (Z.of_nat i));
  Ok (table "BINS_SUMMARY" [] n [FD (fb_l0 b); FD v]).
(** nmt_io.c:688-712 *)
Definition workspace_flat_write (w : fwmem) : res file2 :=
  do h1 <- winfo_out w;
  do h3 <- ncells_out (mw_nb w) (mw_cells w);
  do hs <- fbinned_out w;
  do h5 <- fbins_out (mw_bin w);
  Ok (h1 :: fsinfo_out (mw_fs w) :: h3 :: hs ++ [h5]).

(** *** Reading *)
(** nmt_io.c:482-513 *)
Definition fsinfo_in (f : file2) : res fsmem :=
  do u <- mov f true "FS_INFO";
  do nx <- key_i u "NX"; do ny <- key_i u "NY"; do np <- key_i u "NPIX";
  do lx <- key_d u "LX"; do ly <- key_d u "LY"; do px <- key_d u "PIXSIZE"; do d <- key_d u "DELL"; do i <- key_d u "I_DELL";
  do v <- col_d u 0;
  Ok (FSM nx ny np lx ly px d i v).
(** nmt_io.c:535-551 *)
Definition ncells_in (f : file2) : res (list Z) := do u <- mov f true "N_CELLS"; col_i u 0.
(** nmt_io.c:678-697 *)
Definition fbins_in (f : file2) : res fbins :=
  do u <- mov f true "BINS_SUMMARY"; do l0 <- col_d u 0; do lf <- col_d u 1; Ok (FBins l0 lf).
(** image of a square matrix whose size is NAXIS1: nmt_io.c:607-616 and 768-779.  The buffer has NAXIS1^2 elements and receives NAXIS1*NAXIS2
    (overflow if there are more rows than columns; uninitialised elements, [junk], if there are fewer). *)
Variable junk : nat -> F.
Definition square_in (u : unit2) : res mat :=
  let '(n, m) := u_axes u in
  do p <- pixels (u_pix u) 0 (n * m);
  if (n <? m)%nat && (0 <? n)%nat then UB else
  Ok (tab n (fun i => tab n (fun j => nth (i * n + j) p (junk (i * n + j))))).
(** nmt_io.c:598-643 *)
Definition fbinned_in (f : file2) : res (mat * mat * list Z) :=
  do u <- mov f false "MCM_BINNED";
  do B <- square_in u;
  let n := fst (u_axes u) in
  do v <- mov f false "MCM_BINNED_GSL";
  if negb (Nat.eqb (fst (u_axes v)) n && Nat.eqb (snd (u_axes v)) n) then fail else
  do G <- square_in v;
  do x <- mov f false "MCM_PERM";
  do q <- pixels (u_ipix x) 0 n;
  Ok (B, G, q).
(** nmt_io.c:423-451 and 714-738 *)
Definition workspace_flat_read (f : file2) : res fwmem :=
  do u <- mov f false "WSP_PRIMARY";
  do lmax <- key_d u "LMAX";
  do x0 <- key_d u "ELLCUT_X_I"; do x1 <- key_d u "ELLCUT_X_F"; do y0 <- key_d u "ELLCUT_Y_I"; do y1 <- key_d u "ELLCUT_Y_F";
  do pe1 <- key_i u "PURE_E1"; do pe2 <- key_i u "PURE_E2"; do pb1 <- key_i u "PURE_B1"; do pb2 <- key_i u "PURE_B2";
  do teb <- key_i u "IS_TEB"; do ncls <- key_i u "NCLS";
  let '(n2, n1) := u_axes u in
  do unb <- tabM n1 (fun i => pixels (u_pix u) (i * n2) n2);
  do s <- fsinfo_in f;
  do c <- ncells_in f;
  do (BG, q) <- fbinned_in f;
  do b <- fbins_in f;
  Ok (FWM ncls teb lmax (Cuts x0 x1 y0 y1) pe1 pe2 pb1 pb2 s c unb (fst BG) (snd BG) q b).

(** *** Use of a workspace, in terms of the structure in memory *)
(** nmt_couple_cl_l_flat_fast, nmt_master_flat.c:718-802 *)
Definition mem_plane (m : fsmem) : fsinfo := FS (Z.to_nat (m_nx m)) (Z.to_nat (m_ny m)) (m_lx m) (m_ly m).
Definition mem_ring (m : fsmem) (p : nat * nat) : Z := trunc (kmodf pi fsqrt (mem_plane m) (fst p) (snd p) * m_idell m).
Definition mem_mean (m : fsmem) (ells cl : list F) (rows : list nat) (ir : nat) : res F :=
  do v <- lsumM (fun p => if (mem_ring m p =? Z.of_nat ir)%Z then spectrum_at ells cl (kmodf pi fsqrt (mem_plane m) (fst p) (snd p)) else Ok 0) (plane_of (mem_plane m) rows);
  let n := count_cells (mem_plane m) (mem_ring m) rows ir in
  Ok (if (0 <? n)%Z then v / fofZ n else v).
Definition mem_couple_fast (w : fwmem) (ells : list F) (cls : mat) (rows : list nat) : res mat :=
  let n := Z.to_nat (mw_ncls w) in
  do v <- tabM (n * mw_ne w) (fun q => do cl <- rd cls (Z.of_nat (q mod n)); mem_mean (mw_fs w) ells cl rows (q / n));
  tabM n (fun i => tabM (mw_nb w) (fun ib => do r <- rd (mw_unb w) (Z.of_nat (ib * n + i)); sumM (n * mw_ne w) (fun q => do x <- rd r (Z.of_nat q); Ok (x * nth q v 0)))).
(** nmt_decouple_cl_l_flat, nmt_master_flat.c:873-896.  GSL aborts if the sizes do not match *)
Definition mem_decouple (w : fwmem) (cl noise bias : mat) : res mat :=
  let n := Z.to_nat (mw_ncls w) in
  do v <- tabM (n * mw_nb w) (fun r =>
    do x <- rd2 cl (Z.of_nat (r mod n)) (Z.of_nat (r / n)); do y <- rd2 noise (Z.of_nat (r mod n)) (Z.of_nat (r / n)); do z <- rd2 bias (Z.of_nat (r mod n)) (Z.of_nat (r / n));
    Ok (x - y - z));
  if negb (Nat.eqb (length (mw_gsl w)) (n * mw_nb w) && Nat.eqb (length (mw_perm w)) (n * mw_nb w)) then UB else
  do x <- lu_back (mw_gsl w) (mw_perm w) v;
  tabM n (fun i => tabM (mw_nb w) (fun ib => rd x (Z.of_nat (n * ib + i)))).
(** NmtWorkspaceFlat, workspaces.py:513-523 and 563-661; [None]: nothing computed or read yet.  A file that does not exist is [None]. *)
Definition needm (p : option fwmem) : res fwmem := match p with Some w => Ok w | None => Exn AttributeError end.
Definition pf_couple (p : option fwmem) (ells : list F) (cls : mat) (rows : list nat) : res mat :=
  do w <- needm p; do _ <- check_shape (Z.to_nat (mw_ncls w)) (length ells) cls; mem_couple_fast w ells cls rows.
Definition pf_decouple (p : option fwmem) (cl : mat) (bias noise : option mat) : res mat :=
  do w <- needm p;
  do _ <- check_shape (Z.to_nat (mw_ncls w)) (mw_nb w) cl;
  do rb <- match bias with None => Ok (zeros_like cl) | Some x => do _ <- check_shape (Z.to_nat (mw_ncls w)) (mw_nb w) x; Ok x end;
  do rn <- match noise with None => Ok (zeros_like cl) | Some x => do _ <- check_shape (Z.to_nat (mw_ncls w)) (mw_nb w) x; Ok x end;
  mem_decouple w cl rn rb.
Definition pf_write (p : option fwmem) : res file2 := match p with None => Exn RuntimeError | Some w => workspace_flat_write w end.
(** the old contents are freed before the file is opened *)
Definition pf_read (p : option fwmem) (f : option file2) : option fwmem * res unit :=
  match (match f with None => fail | Some f => workspace_flat_read f end) with
  | Ok w => (Some w, Ok tt) | Exn e => (None, Exn e) | UB => (None, UB)
  end.

(** ** Covariance workspaces *)
(** nmt_io.c:740-755 *)
Definition coeffs_out (n : nat) (A : mat) (name : string) : res unit2 := do p <- rows_out n n A; Ok (image name [] n n p).
(** nmt_io.c:757-782 *)
Definition coeffs_in (f : file2) (n : nat) (name : string) : res mat :=
  do u <- mov f false name;
  if negb (Nat.eqb (fst (u_axes u)) n) then fail else square_in u.
Definition pair_out (n : nat) (A : mat * mat) (n1 n2 : string) : res (list unit2) := do a <- coeffs_out n (fst A) n1; do b <- coeffs_out n (snd A) n2; Ok [a; b].
Definition pair_in (f : file2) (n : nat) (n1 n2 : string) : res (mat * mat) := do a <- coeffs_in f n n1; do b <- coeffs_in f n n2; Ok (a, b).
Definition zb (b : bool) : Z := if b then 1%Z else 0%Z.
(** nmt_covar_workspace_write_fits, nmt_io.c:784-816; line 798 overwrites lmax_mask, so the workspace changes: second component *)
Definition covar_write (c : cwsp) : res (file2 * cwsp) :=
  let n := Z.to_nat (cw_lmax c + 1) in
  do a <- pair_out n (cw_00 c) "XI00_1122" "XI00_1221";
  do r <- (if cw_s0 c then Ok [] else
           do x <- pair_out n (cw_02 c) "XI02_1122" "XI02_1221";
           do y <- pair_out n (cw_pp c) "XI22P_1122" "XI22P_1221";
           do z <- pair_out n (cw_mm c) "XI22M_1122" "XI22M_1221";
           Ok (x ++ y ++ z));
  Ok (U2 false "CWSP_PRIMARY" [("LMAX", KI (cw_lmax c)); ("SPIN0_ONLY", KI (zb (cw_s0 c)))]%string 0 [] (0, 0)%nat [] [] :: a ++ r,
      CWsp (cw_lmax c) (Some (cw_lmax c)) (cw_s0 c) (cw_00 c) (cw_02 c) (cw_pp c) (cw_mm c)).
(** nmt_covar_workspace_read_fits, nmt_io.c:818-872: ANY_HDU; a file without SPIN0_ONLY has all the tables; the member lmax_mask is not assigned.
    Tables of size lmax+1 < 0 never match. *)
Definition mov_any (f : file2) (name : string) : res unit2 := match find (fun u => String.eqb (u_name u) name) f with Some u => Ok u | None => fail end.
Definition covar_read (f : file2) (force : bool) : res cwsp :=
  do u <- mov_any f "CWSP_PRIMARY";
  do lmax <- key_i u "LMAX";
  let s0 := if force then true else match key_i u "SPIN0_ONLY" with Ok z => negb (z =? 0)%Z | _ => false end in
  if (lmax + 1 <? 0)%Z then fail else
  let n := Z.to_nat (lmax + 1) in
  do a <- pair_in f n "XI00_1122" "XI00_1221";
  if s0 then Ok (CWsp lmax None true a a a a) else
  do x <- pair_in f n "XI02_1122" "XI02_1221";
  do y <- pair_in f n "XI22P_1122" "XI22P_1221";
  do z <- pair_in f n "XI22M_1122" "XI22M_1221";
  Ok (CWsp lmax None false a x y z).
(** NmtCovarianceWorkspace.write_to, read_from, covariance.py:148-162 and 248-256 *)
Definition pc_write (p : option cwsp) : res (file2 * cwsp) := match p with None => Exn ValueError | Some c => covar_write c end.
Definition pc_read (p : option cwsp) (f : option file2) (force : bool) : option cwsp * res unit :=
  match (match f with None => fail | Some f => covar_read f force end) with
  | Ok w => (Some w, Ok tt) | Exn e => (None, Exn e) | UB => (None, UB)
  end.
(** nmt_io.c:874-908 *)
Definition cflat_write (c : cfwsp) : res file2 :=
  let n := length (fb_l0 (cf_bin c)) in
  do b <- fbins_out (cf_bin c);
  do a <- pair_out n (cf_00 c) "XI00_1122" "XI00_1221";
  do x <- pair_out n (cf_02 c) "XI02_1122" "XI02_1221";
  do y <- pair_out n (cf_pp c) "XI22P_1122" "XI22P_1221";
  do z <- pair_out n (cf_mm c) "XI22M_1122" "XI22M_1221";
  Ok (U2 false "CWSP_PRIMARY" [] 0 [] (0, 0)%nat [] [] :: b :: a ++ x ++ y ++ z).
(** nmt_io.c:910-945 *)
Definition cflat_read (f : file2) : res cfwsp :=
  do _ <- mov f false "CWSP_PRIMARY";
  do b <- fbins_in f;
  let n := length (fb_l0 b) in
  do a <- pair_in f n "XI00_1122" "XI00_1221";
  do x <- pair_in f n "XI02_1122" "XI02_1221";
  do y <- pair_in f n "XI22P_1122" "XI22P_1221";
  do z <- pair_in f n "XI22M_1122" "XI22M_1221";
  Ok (CF b a x y z).
(** NmtCovarianceWorkspaceFlat, covariance.py:277-287 and 341-350 *)
Definition pcf_write (p : option cfwsp) : res file2 := match p with None => Exn ValueError | Some c => cflat_write c end.
Definition pcf_read (p : option cfwsp) (f : option file2) : option cfwsp * res unit :=
  match (match f with None => fail | Some f => cflat_read f end) with
  | Ok w => (Some w, Ok tt) | Exn e => (None, Exn e) | UB => (None, UB)
  end.
End FITS2.
Arguments unit2 : clear implicits. Arguments file2 : clear implicits. Arguments fwmem : clear implicits. Arguments fsmem : clear implicits.
