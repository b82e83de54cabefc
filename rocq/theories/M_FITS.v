(** Model of reading and writing curved-sky workspaces: src/nmt_io.c:5-394.
    CFITSIO is modelled by a list of header-data units and the convention that every routine does
    nothing once the status is non-zero, leaving its output variables as they were.
    Not modelled: the file system, rounding of numbers on disk (doubles are stored exactly). *)
From Coq Require Import DecimalString.
From Verif Require Import Base M_Bins M_LinAlg M_Workspace.
Open Scope Z_scope.

Section FITS.
Context {F : ofield}.
Local Open Scope F_scope.
Notation mat := (list (list F)).
Notation bins := (bins F).
Notation wsp := (wsp F).

(** ** Files *)
Inductive col := CI (v : list Z) | CD (v : list F).
Record hdu := Hdu { h_table : bool; h_name : string; h_keys : list (string * Z); h_nrows : Z; h_cols : list col; h_pix : list F }.
Definition fits := list hdu.
(** reading: current unit and status (true: 0) *)
Definition fpos := (option hdu * bool)%type.
Definition find_hdu (f : fits) (table : bool) (name : string) : option hdu :=
  find (fun h => Bool.eqb (h_table h) table && String.eqb (h_name h) name) f.
(** fits_movnam_hdu *)
Definition movnam (f : fits) (table : bool) (name : string) (p : fpos) : fpos :=
  let '(c, ok) := p in
  if ok then match find_hdu f table name with Some h => (Some h, true) | None => (c, false) end else p.
(** fits_read_key into a variable holding [v] *)
Definition read_key (k : string) (p : fpos) (v : Z) : Z * fpos :=
  match p with
  | (Some h, true) => match find (fun kv => String.eqb (fst kv) k) (h_keys h) with
                      | Some kv => (snd kv, p) | None => (v, (Some h, false)) end
  | (c, _) => (v, (c, false))
  end.
(** fits_get_num_rows *)
Definition num_rows (p : fpos) (v : Z) : Z * fpos :=
  match p with (Some h, true) => (h_nrows h, p) | (c, _) => (v, (c, false)) end.
(** fits_read_col of the first [n] rows into an array holding [v] *)
Definition read_coli (k : nat) (n : Z) (p : fpos) (v : list Z) : list Z * fpos :=
  match p with
  | (Some h, true) => match nth_error (h_cols h) k with
                      | Some (CI x) => if (n <=? Z.of_nat (length x))%Z then (firstn (Z.to_nat n) x, p) else (v, (Some h, false))
                      | _ => (v, (Some h, false)) end
  | (c, _) => (v, (c, false))
  end.
Definition read_cold (k : nat) (n : Z) (p : fpos) (v : list F) : list F * fpos :=
  match p with
  | (Some h, true) => match nth_error (h_cols h) k with
                      | Some (CD x) => if (n <=? Z.of_nat (length x))%Z then (firstn (Z.to_nat n) x, p) else (v, (Some h, false))
                      | _ => (v, (Some h, false)) end
  | (c, _) => (v, (c, false))
  end.
(** fits_read_pix of [n] pixels starting at pixel [o] *)
Definition read_pix (o n : nat) (p : fpos) : res (list F) :=
  match p with
  | (Some h, true) => if (o + n <=? length (h_pix h))%nat then Ok (firstn n (skipn o (h_pix h))) else Exn RuntimeError
  | _ => Exn RuntimeError
  end.

(** ** Writing *)
(** nmt_io.c:5-25: the keywords (the weight normalisation w2 is not among them) and the unbinned matrix *)
Definition zbool (b : bool) : Z := if b then 1%Z else 0%Z.
Definition info_tohdus (w : wsp) : res hdu :=
  let n := Z.to_nat (ncl w * (w_lmax w + 1)) in
  do rows <- tabM n (fun ii => tabM n (fun jj => mcm_rd w (Z.of_nat ii) (Z.of_nat jj)));
  Ok (Hdu false "WSP_PRIMARY"
        [("LMAX", w_lmax w); ("LMAX_FIELDS", w_lmax_fields w); ("LMAX_MASK", w_lmax_mask w); ("IS_TEB", zbool (w_teb w));
         ("NCLS", ncl w); ("NORM_TYPE", w_norm w)]%string 0 [] (concat rows)).
(** nmt_io.c:61-94 *)
Definition l_arr_tohdus (lmax : Z) (fl : list F) (name : string) : res hdu :=
  let n := Z.to_nat (lmax + 1) in
  do v <- tabM n (fun l => rd fl (Z.of_nat l));
  Ok (Hdu true name [] (Z.of_nat n) [CI (tab n Z.of_nat); CD v] []).
(** nmt_io.c:198-220: one row per multipole; later bands overwrite earlier ones *)
Definition put_entry (ii : Z) (t : list (Z * Z * F * F)) (e : entry F) : res (list (Z * Z * F * F)) :=
  wr t (e_ell e) (ii, e_ell e, e_w e, e_f e).
Definition bands_table (b : bins) : res (list (Z * Z * F * F)) :=
  foldM (fun t '(ii, x) => foldM (put_entry (Z.of_nat ii)) t x)
        (repeat ((-1)%Z, (-1)%Z, 0, 0) (Z.to_nat (b_lmax b + 1)))
        (combine (seq 0 (length (b_bands b))) (b_bands b)).
(** nmt_io.c:222-261 *)
Definition bins_tohdus (b : bins) : res hdu :=
  do t <- bands_table b;
  Ok (Hdu true "BANDPOWERS" [("N_BANDS"%string, Z.of_nat (length (b_bands b))); ("ELL_MAX"%string, b_lmax b)]
        (b_lmax b + 1) [CI (map (fun '(i, l, w, f) => i) t); CI (map (fun '(i, l, w, f) => l) t);
                        CD (map (fun '(i, l, w, f) => w) t); CD (map (fun '(i, l, w, f) => f) t)] []).
(** nmt_io.c:264-298: the LU factors and the permutation are written element by element; both are
    represented by the matrix they belong to (see M_LinAlg.v).  i0 is an int. *)
Definition binned_tohdus (w : wsp) : res hdu :=
  let n := (w_ncls w * nbands w)%nat in
  do rows <- tabM n (fun ii => do i0 <- i32 (Z.of_nat (ii * n)); tabM n (fun jj => rd2 (w_mb w) (Z.of_nat ii) (Z.of_nat jj)));
  Ok (Hdu false "MCM_BINNED" [] 0 [] (concat rows)).
(** nmt_io.c:342-364 *)
Definition workspace_write_fits (w : wsp) : res fits :=
  do h1 <- info_tohdus w;
  do h2 <- l_arr_tohdus (w_lmax_fields w) (w_beam w) "BEAMS";
  do h3 <- l_arr_tohdus (w_lmax_mask w) (w_pcl w) "PCL_MASKS";
  do h4 <- bins_tohdus (w_bin w);
  do h5 <- binned_tohdus w;
  Ok [h1; h2; h3; h4; h5].

(** ** Reading *)
(** what the uninitialised variables and fresh allocations contain *)
Record junk := Junk { j_nbands : Z; j_lmax : Z; j_nrows : Z; j_ints : nat -> Z; j_dbls : nat -> F }.
(** nmt_io.c:96-113.  When the table is missing nrows is compared uninitialised; every way on leads to
    an error (report_error at 107 or check_fits after the call). *)
Definition l_arr_fromhdus (f : fits) (lmax_expect : Z) (name : string) : res (list F) :=
  let p := movnam f true name (None, true) in
  match num_rows p 0 with
  | (nrows, (c, true)) =>
      if negb (nrows =? lmax_expect + 1)%Z then Exn RuntimeError
      else match read_cold 1 nrows p [] with (v, (_, true)) => Ok v | _ => Exn RuntimeError end
  | _ => Exn RuntimeError
  end.
(** nmt_io.c:115-151: returns the bins and the status left behind.  An allocation of negative size fails. *)
Definition bins_fromhdus (J : junk) (f : fits) : res (bins * bool) :=
  let p := movnam f true "BANDPOWERS" (None, true) in
  let '(n_bands, p) := read_key "N_BANDS" p (j_nbands J) in
  let '(ell_max, p) := read_key "ELL_MAX" p (j_lmax J) in
  let '(nrows, p) := num_rows p (j_nrows J) in
  if (nrows <? 0)%Z then Exn RuntimeError else
  let n := Z.to_nat nrows in
  let '(bpws, p) := read_coli 0 nrows p (tab n (j_ints J)) in
  let '(ells, p) := read_coli 1 nrows p (tab n (j_ints J)) in
  let '(weights, p) := read_cold 2 nrows p (tab n (j_dbls J)) in
  let '(f_ell, p) := read_cold 3 nrows p (tab n (j_dbls J)) in
  do rows <- zip_rows bpws ells weights f_ell;
  do b <- nmt_bins_create rows ell_max;
  if negb (n_bands =? Z.of_nat (length (b_bands b)))%Z then Exn RuntimeError else Ok (b, snd p).
(** nmt_io.c:153-196, entered with the status left by the previous reader.  *)
Definition band_name (k : nat) : string := ("BINS_BAND_" ++ NilEmpty.string_of_uint (Nat.to_uint k))%string.
Definition old_band (J : junk) (f : fits) (x : fpos * Z) (ii : nat) (nell : Z) : res (list (entry F) * (fpos * Z)) :=
  let '(p, nrows) := x in
  let p := movnam f true (band_name (S ii)) p in
  let '(nrows, p) := num_rows p nrows in
  if negb (nrows =? nell)%Z then Exn RuntimeError else
  let n := Z.to_nat nell in
  let '(ells, p) := read_coli 0 nrows p (tab n (j_ints J)) in
  let '(ws, p) := read_cold 1 nrows p (tab n (j_dbls J)) in
  let '(fs, p) := read_cold 2 nrows p (tab n (j_dbls J)) in
  Ok (map (fun '(l, w, g) => Entry l w g) (combine (combine ells ws) fs), (p, nrows)).
Fixpoint old_bands (J : junk) (f : fits) (x : fpos * Z) (ii : nat) (nells : list Z) : res (list (list (entry F)) * fpos) :=
  match nells with
  | [] => Ok ([], fst x)
  | n :: t => do (b, x') <- old_band J f x ii n; do (bs, p) <- old_bands J f x' (S ii) t; Ok (b :: bs, p)
  end.
Definition bins_fromhdus_old (J : junk) (f : fits) (ok : bool) : res (bins * bool) :=
  let p := movnam f true "BINS_SUMMARY" (None, ok) in
  let '(n_bands, p) := read_key "N_BANDS" p (j_nbands J) in
  let '(ell_max, p) := read_key "ELL_MAX" p (j_lmax J) in
  let '(nrows, p) := num_rows p (j_nrows J) in
  if negb (nrows =? n_bands)%Z then Exn RuntimeError else
  if (n_bands <? 0)%Z then Exn RuntimeError else
  let '(nells, p) := read_coli 0 nrows p (tab (Z.to_nat n_bands) (j_ints J)) in
  do (bs, p) <- old_bands J f (p, nrows) 0 nells;
  Ok (Bins ell_max bs, snd p).
(** nmt_io.c:300-330 *)
Definition binned_fromhdus (f : fits) (n : nat) : res mat :=
  let p := movnam f false "MCM_BINNED" (None, true) in
  do flat <- read_pix 0 (n * n) p;
  tabM n (fun ii => do i0 <- i32 (Z.of_nat (ii * n)); tabM n (fun jj => rd flat (i0 + Z.of_nat jj))).
(** nmt_io.c:27-59 and 366-394.  The member w2 of the new structure is never assigned. *)
Definition workspace_read_fits (J : junk) (f : fits) (w_unbinned : bool) : res wsp :=
  let p := movnam f false "WSP_PRIMARY" (None, true) in
  let '(lmax, p) := read_key "LMAX" p 0 in
  let '(lmaxf, p) := read_key "LMAX_FIELDS" p 0 in
  let '(lmaxm, p) := read_key "LMAX_MASK" p 0 in
  let '(teb, p) := read_key "IS_TEB" p 0 in
  let '(ncls, p) := read_key "NCLS" p 0 in
  if negb (snd p) then Exn RuntimeError else
  let '(norm, p') := read_key "NORM_TYPE" p 0 in
  let norm := if snd p' then norm else 0%Z in
  let n_el := Z.to_nat (ncls * (lmax + 1)) in
  do mcm <- (if w_unbinned then do rows <- tabM n_el (fun ii => read_pix (ii * n_el) n_el p); Ok (Some rows) else Ok None);
  do beam <- l_arr_fromhdus f lmaxf "BEAMS";
  do pcl <- l_arr_fromhdus f lmaxm "PCL_MASKS";
  do (b, ok) <- bins_fromhdus J f;
  do (b, ok) <- (if ok then Ok (b, ok) else bins_fromhdus_old J f ok);
  if negb ok then Exn RuntimeError else
  do mb <- binned_fromhdus f (Z.to_nat ncls * length (b_bands b));
  Ok (Wsp lmax lmaxf lmaxm (negb (teb =? 0)%Z) (Z.to_nat ncls) beam pcl mcm b norm None mb).
End FITS.
Arguments hdu : clear implicits. Arguments fits : clear implicits. Arguments junk : clear implicits.
