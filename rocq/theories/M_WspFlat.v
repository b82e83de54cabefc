(** Model of flat-sky workspaces: src/nmt_master_flat.c (coupling matrix, coupling and decoupling of spectra),
    pymaster/workspaces.py:NmtWorkspaceFlat, and the SWIG wrappers of pymaster/namaster.i.
    Exact arithmetic.  Accumulation loops are written as sums; a list of rows says in which order they are
    processed (the rows are distributed over the threads, whose partial sums are added up afterwards). *)
From Verif Require Import Base M_Utils M_Bins M_FlatBins M_LinAlg M_Workspace M_Flat.
Open Scope nat_scope.

Section WspFlat.
Context {F : ofield}.
Local Open Scope F_scope.
Notation mat := (list (list F)).
Notation fsinfo := (fsinfo F).
Notation fbins := (fbins F).
Notation cuts := (cuts F).
Notation cplx := (cplx F).
Variables (pi : F) (fsqrt : F -> F) (trunc : F -> Z).
Variable ph : nat -> nat -> cplx.

(** nmt_field_flat (namaster.h), without templates.  The beam is the function k -> nmt_k_function_eval(fl->beam,k). *)
Record ffield := FF { ff_fs : fsinfo; ff_spin : Z; ff_pe : bool; ff_pb : bool; ff_mask : list F; ff_beam : F -> F; ff_alms : list (list cplx); ff_mask_only : bool }.
Definition ff_nmaps (f : ffield) : nat := if (ff_spin f =? 0)%Z then 1%nat else 2%nat.
(** field.py:615-737 (NmtFieldFlat), namaster.i:237-334 and nmt_field_flat.c:274-520, without templates and purification.
    [mask] is the flattened mask; a map of another shape is represented by a list of another length.
    beam=None is the constant 1 (nmt_field_flat.c:304-307). *)
Definition times_mask (mask m : list F) : list F := tab (length m) (fun i => nth i m 0 * nth i mask 0).
Definition new_field (nx ny : nat) (lx ly : F) (mask : list F) (maps : option mat) (spin : option Z) (beam : F -> F) (masked : bool) : res ffield :=
  if ((lx <? 0) || (ly <? 0))%bool then Exn ValueError else
  do sp <- match maps with
           | None => match spin with None => Exn ValueError | Some x => Ok x end
           | Some ms =>
               if negb (Nat.eqb (length ms) 1 || Nat.eqb (length ms) 2) then Exn ValueError else
               match spin with
               | None => Ok (if Nat.eqb (length ms) 1 then 0%Z else 2%Z)
               | Some x => if ((negb (x =? 0)%Z && Nat.eqb (length ms) 1) || ((x =? 0)%Z && negb (Nat.eqb (length ms) 1)))%bool then Exn ValueError else Ok x
               end
           end;
  if negb (match maps with None => true | Some ms => forallb (fun m => Nat.eqb (length m) (nx * ny)) ms end) then Exn ValueError else
  if negb ((0 <? lx) && (0 <? ly)) then Exn RuntimeError else
  let s := FS nx ny lx ly in
  match maps with
  | None => Ok (FF s sp false false mask beam [] true)
  | Some ms => do a <- fs_map2alm pi fsqrt ph s sp (if masked then ms else map (times_mask mask) ms); Ok (FF s sp false false mask beam a false)
  end.
(** nmt_master_flat.c:70-77 *)
Definition same_fs (a b : fsinfo) : bool :=
  Nat.eqb (fs_nx a) (fs_nx b) && Nat.eqb (fs_ny a) (fs_ny b) && (fs_lx a =? fs_lx b) && (fs_ly a =? fs_ly b).

(** nmt_workspace_flat (namaster.h); lmax and the purification flags are not used later *)
Record fwsp := FW { fw_ncls : nat; fw_fs : fsinfo; fw_bin : fbins; fw_cut : cuts; fw_cells : list Z; fw_unb : mat; fw_bnd : mat }.
Definition fw_nb (w : fwsp) : nat := length (fb_l0 (fw_bin w)).

(** ** Coupling matrix, nmt_master_flat.c:79-539 *)
(** lines 92-104 *)
Definition matrix_spins (s1 s2 : Z) (teb : bool) : Z * Z :=
  let p := if (s1 =? 0)%Z then (if (s2 =? 0)%Z then (0, 0)%Z else (s2, 0)%Z) else (s1, s2) in
  if teb then (fst p, fst p) else p.
(** lines 163-211: band of every mode of a row; the search starts from the band found last *)
Fixpoint row_bands (s : fsinfo) (b : fbins) (iy : nat) (cols : list nat) (ik : Z) : res (list Z) :=
  match cols with
  | [] => Ok []
  | ix :: t => do ik' <- search_fast b (kmodf pi fsqrt s ix iy) ik; do r <- row_bands s b iy t ik'; Ok (ik' :: r)
  end.
(** i_band_nocut, row by row *)
Definition grid_bands (s : fsinfo) (b : fbins) : res (list (list Z)) := mapM (fun iy => row_bands s b iy (seq 0 (fs_nx s)) 0) (seq 0 (fs_ny s)).
Definition nocut (g : list (list Z)) (m : nat * nat) : Z := nth (fst m) (nth (snd m) g []) (-1)%Z.
(** i_band, lines 203-211; x_out_range, y_out_range of lines 148-163 *)
Definition band (s : fsinfo) (c : cuts) (g : list (list Z)) (m : nat * nat) : Z :=
  if (cut_y c (kyf pi s (snd m)) || cut_x c (kxf pi s (fst m)))%bool then (-1)%Z else nocut g m.
(** lines 215-218 *)
Definition ring (s : fsinfo) (m : nat * nat) : Z := ring_of pi fsqrt trunc s (kmodf pi fsqrt s (fst m) (snd m)).
(** lines 192-193 *)
Definition maskprod (s : fsinfo) (c1 c2 : list cplx) (m : nat * nat) : F :=
  let i := (ix_here (fs_nx s) (fst m) + nhalf s * snd m)%nat in cdot (nth i c1 c0) (nth i c2 c0).
(** lines 219-257 *)
Definition angle (s : fsinfo) (spin : Z) (m : nat * nat) : F * F :=
  let k := kmodf pi fsqrt s (fst m) (snd m) in
  let (c, sn) := if 0 <? k then (kxf pi s (fst m) / k, kyf pi s (snd m) / k) else (1, 0) in rotn (Z.to_nat spin) c sn.
Definition is_origin (m : nat * nat) : bool := Nat.eqb (fst m) 0 && Nat.eqb (snd m) 0.
(** lines 290-292 and 313-317: squared ratio of the wavenumbers *)
Definition kratio (s : fsinfo) (m1 m2 : nat * nat) : F :=
  let kr := if is_origin m1 && is_origin m2 then 1
            else kmodf pi fsqrt s (fst m2) (snd m2) * (if is_origin m1 then 0 else 1 / kmodf pi fsqrt s (fst m1) (snd m1)) in kr * kr.
(** lines 299-305: index of the difference of the two wavevectors *)
Definition diff (n a b : nat) : nat := if (b <=? a)%nat then (a - b)%nat else (a + n - b)%nat.
Definition diff_mode (s : fsinfo) (m1 m2 : nat * nat) : nat * nat := (diff (fs_nx s) (fst m1) (fst m2), diff (fs_ny s) (snd m1) (snd m2)).
(** lines 322-497: how spectrum j at the second mode contributes to spectrum i at the first one *)
Definition sel (p : bool) (x y : F) : F := if p then y else x.
Definition block (ncls : nat) (pe1 pe2 pb1 pb2 : bool) (c1 s1 c2 s2 kr : F) : mat :=
  let e0 := (pe1 || pe2)%bool in let b0 := (pb1 || pb2)%bool in
  match ncls with
  | 1%nat => [[1]]
  | 2%nat => [[sel e0 c1 kr; - sel e0 s1 0]; [sel b0 s1 0; sel b0 c1 kr]]
  | 4%nat =>
      [[sel pe1 c1 kr * sel pe2 c2 kr; - (sel pe1 c1 kr * sel pe2 s2 0); - (sel pe1 s1 0 * sel pe2 c2 kr); sel pe1 s1 0 * sel pe2 s2 0];
       [sel pe1 c1 kr * sel pb2 s2 0; sel pe1 c1 kr * sel pb2 c2 kr; - (sel pe1 s1 0 * sel pb2 s2 0); - (sel pe1 s1 0 * sel pb2 c2 kr)];
       [sel pb1 s1 0 * sel pe2 c2 kr; - (sel pb1 s1 0 * sel pe2 s2 0); sel pb1 c1 kr * sel pe2 c2 kr; - (sel pb1 c1 kr * sel pe2 s2 0)];
       [sel pb1 s1 0 * sel pb2 s2 0; sel pb1 s1 0 * sel pb2 c2 kr; sel pb1 c1 kr * sel pb2 s2 0; sel pb1 c1 kr * sel pb2 c2 kr]]
  | 7%nat =>
      [[1; 0; 0; 0; 0; 0; 0];
       [0; sel e0 c1 kr; - sel e0 s1 0; 0; 0; 0; 0];
       [0; sel b0 s1 0; sel b0 c1 kr; 0; 0; 0; 0];
       [0; 0; 0; sel pe2 c1 kr * sel pe2 c2 kr; - (sel pe2 c1 kr * sel pe2 s2 0); - (sel pe2 s1 0 * sel pe2 c2 kr); sel pe2 s1 0 * sel pe2 s2 0];
       [0; 0; 0; sel pe2 c1 kr * sel pb2 s2 0; sel pe2 c1 kr * sel pb2 c2 kr; - (sel pe2 s1 0 * sel pb2 s2 0); - (sel pe2 s1 0 * sel pb2 c2 kr)];
       [0; 0; 0; sel pb2 s1 0 * sel pe2 c2 kr; - (sel pb2 s1 0 * sel pe2 s2 0); sel pb2 c1 kr * sel pe2 c2 kr; - (sel pb2 c1 kr * sel pe2 s2 0)];
       [0; 0; 0; sel pb2 s1 0 * sel pb2 s2 0; sel pb2 s1 0 * sel pb2 c2 kr; sel pb2 c1 kr * sel pb2 s2 0; sel pb2 c1 kr * sel pb2 c2 kr]]
  | _ => []
  end.
(** contribution of the pair (m1,m2), lines 306-497.  ncls=1 does not look at the angles. *)
Definition pair_block (f1 f2 : ffield) (ncls : nat) (spins : Z * Z) (m1 m2 : nat * nat) : mat :=
  let s := ff_fs f1 in
  let (ca1, sa1) := angle s (fst spins) m1 in let (cb1, sb1) := angle s (fst spins) m2 in
  let (ca2, sa2) := angle s (snd spins) m1 in let (cb2, sb2) := angle s (snd spins) m2 in
  block ncls (ff_pe f1) (ff_pe f2) (ff_pb f1) (ff_pb f2) (ca1 * cb1 + sa1 * sb1) (sa1 * cb1 - ca1 * sb1) (ca2 * cb2 + sa2 * sb2) (sa2 * cb2 - ca2 * sb2) (kratio s m1 m2).
(** mp, line 320 *)
Definition beamprod (f1 f2 : ffield) (m : nat * nat) : F := let k := kmodf pi fsqrt (ff_fs f1) (fst m) (snd m) in ff_beam f1 k * ff_beam f2 k.
Definition row_of (s : fsinfo) (iy : nat) : list (nat * nat) := map (fun ix => (ix, iy)) (seq 0 (fs_nx s)).
Definition plane_of (s : fsinfo) (rows : list nat) : list (nat * nat) := flat_map (row_of s) rows.
(** what the first mode adds to entry (i,j) for the second modes with label [lab] = v *)
Definition gather (s : fsinfo) (lab : nat * nat -> Z) (v : nat) (g : nat * nat -> F) : F :=
  lsum (map (fun m => if (lab m =? Z.of_nat v)%Z then g m else 0) (plane_of s (seq 0 (fs_ny s)))).
Definition raw_entry (f1 f2 : ffield) (ncls : nat) (spins : Z * Z) (cm1 cm2 : list cplx) (rows : list nat) (b1 : nat * nat -> Z) (lab2 : nat * nat -> Z) (ib i v j : nat) : F :=
  let s := ff_fs f1 in
  lsum (map (fun m1 => if (b1 m1 =? Z.of_nat ib)%Z
                       then gather s lab2 v (fun m2 => entry2 (pair_block f1 f2 ncls spins m1 m2) i j * (maskprod s cm1 cm2 (diff_mode s m1 m2) * beamprod f1 f2 m2)) else 0) (plane_of s rows)).
Definition count_cells (s : fsinfo) (lab : nat * nat -> Z) (rows : list nat) (v : nat) : Z :=
  Z.of_nat (length (filter (fun m => (lab m =? Z.of_nat v)%Z) (plane_of s rows))).
(** lines 500-518 *)
Definition fac_norm (s : fsinfo) (n : Z) : F :=
  if (0 <? n)%Z then fofZ 4 * pi * pi / (fs_lx s * fs_lx s * fs_ly s * fs_ly s) / fofZ n else 0.
(** [rows] is the order in which the rows of first modes are processed.  gsl_linalg_LU_decomp does not fail for singular matrices. *)
Definition coupling_matrix (f1 f2 : ffield) (b : fbins) (c : cuts) (teb : bool) (rows : list nat) : res fwsp :=
  if negb (same_fs (ff_fs f1) (ff_fs f2)) then Exn RuntimeError
  else if (teb && negb ((ff_spin f1 =? 0)%Z && negb (ff_spin f2 =? 0)%Z))%bool then Exn RuntimeError
  else
    let ncls := if teb then 7%nat else (ff_nmaps f1 * ff_nmaps f2)%nat in
    let s := ff_fs f1 in
    let spins := matrix_spins (ff_spin f1) (ff_spin f2) teb in
    let nb := length (fb_l0 b) in
    let cm1 := map2alm0 pi ph s (ff_mask f1) in
    let cm2 := map2alm0 pi ph s (ff_mask f2) in
    do g <- grid_bands s b;
    let cells := tab nb (count_cells s (band s c g) rows) in
    let mat_of n lab := tab (ncls * nb) (fun r => tab (ncls * n) (fun q =>
      raw_entry f1 f2 ncls spins cm1 cm2 rows (band s c g) lab (r / ncls) (r mod ncls) (q / ncls) (q mod ncls) * fac_norm s (nth (r / ncls) cells 0%Z))) in
    Ok (FW ncls s b c cells (mat_of (n_ell pi fsqrt trunc s) (ring s)) (mat_of nb (nocut g))).

(** ** Coupling of spectra *)
(** nmt_k_function_alloc(nl,larr,cl,cl[0],0,0) and its evaluation *)
Definition spectrum_at (ells cl : list F) (k : F) : res F := do y0 <- rd cl 0; k_function ells cl y0 0 k.
(** nmt_master_flat.c:718-802; [rows]: order in which the rows are processed *)
Definition ring_sums (s : fsinfo) (ells cl : list F) (rows : list nat) (ir : nat) : res F :=
  lsumM (fun m => if (trunc (kmodf pi fsqrt s (fst m) (snd m) * (1 / dell pi s)) =? Z.of_nat ir)%Z then spectrum_at ells cl (kmodf pi fsqrt s (fst m) (snd m)) else Ok 0) (plane_of s rows).
Definition ring_cells (s : fsinfo) (rows : list nat) (ir : nat) : Z :=
  count_cells s (fun m => trunc (kmodf pi fsqrt s (fst m) (snd m) * (1 / dell pi s))) rows ir.
Definition ring_mean (s : fsinfo) (ells cl : list F) (rows : list nat) (ir : nat) : res F :=
  do v <- ring_sums s ells cl rows ir; let n := ring_cells s rows ir in Ok (if (0 <? n)%Z then v / fofZ n else v).
Definition couple_fast (w : fwsp) (ells : list F) (cls : mat) (rows : list nat) : res mat :=
  let s := fw_fs w in let n := fw_ncls w in
  do v <- tabM (n * n_ell pi fsqrt trunc s) (fun q => do cl <- rd cls (Z.of_nat (q mod n)); ring_mean s ells cl rows (q / n));
  tabM n (fun i => tabM (fw_nb w) (fun ib => do r <- rd (fw_unb w) (Z.of_nat (ib * n + i)); Ok (sum (n * n_ell pi fsqrt trunc s) (fun q => nth q r 0 * nth q v 0)))).
(** nmt_master_flat.c:804-871: average over the modes that are kept, band by band (not reachable from Python) *)
Fixpoint quick_cols (s : fsinfo) (b : fbins) (c : cuts) (ells cl : list F) (iy : nat) (cols : list nat) (ik : Z) : res (list (Z * F)) :=
  match cols with
  | [] => Ok []
  | ix :: t =>
      if cut_x c (kxf pi s ix) then quick_cols s b c ells cl iy t ik
      else
        do ik' <- search_fast b (kmodf pi fsqrt s ix iy) ik;
        if (0 <=? ik')%Z then
          do x <- spectrum_at ells cl (kmodf pi fsqrt s ix iy); do r <- quick_cols s b c ells cl iy t ik'; Ok ((ik', x) :: r)
        else quick_cols s b c ells cl iy t ik'
  end.
Definition quick_mean (w : fwsp) (ells cl : list F) : res (list F) :=
  let s := fw_fs w in
  do u <- mapM (fun iy => if cut_y (fw_cut w) (kyf pi s iy) then Ok [] else quick_cols s (fw_bin w) (fw_cut w) ells cl iy (seq 0 (fs_nx s)) 0) (seq 0 (fs_ny s));
  do (v, n) <- foldM add_update (repeat 0 (fw_nb w), repeat 0%Z (fw_nb w)) (concat u);
  Ok (tab (fw_nb w) (fun i => if (0 <? nth i (fw_cells w) 0%Z)%Z then nth i v 0 / fofZ (nth i (fw_cells w) 0%Z) else 0)).
Definition couple_quick (w : fwsp) (ells : list F) (cls : mat) : res mat :=
  let n := fw_ncls w in
  do v <- tabM n (fun i => do cl <- rd cls (Z.of_nat i); quick_mean w ells cl);
  tabM n (fun i => tabM (fw_nb w) (fun ib => do r <- rd (fw_bnd w) (Z.of_nat (ib * n + i));
    Ok (sum n (fun j => sum (fw_nb w) (fun jb => nth (jb * n + j) r 0 * nth jb (nth j v []) 0))))).

(** ** Decoupling, nmt_master_flat.c:873-896 *)
Definition fdecouple (w : fwsp) (cl noise bias : mat) : res mat :=
  let n := fw_ncls w in
  do v <- tabM (n * fw_nb w) (fun r =>
    do x <- rd2 cl (Z.of_nat (r mod n)) (Z.of_nat (r / n)); do y <- rd2 noise (Z.of_nat (r mod n)) (Z.of_nat (r / n)); do z <- rd2 bias (Z.of_nat (r mod n)) (Z.of_nat (r / n));
    Ok (x - y - z));
  do x <- lu_solve (fw_bnd w) v;
  tabM n (fun i => tabM (fw_nb w) (fun ib => rd x (Z.of_nat (n * ib + i)))).

(** ** NmtWorkspaceFlat; [None]: nothing computed or read yet *)
(** workspaces.py:525-561: the old contents are gone even if the computation fails *)
Definition py_compute (p : option fwsp) (f1 f2 : ffield) (b : fbins) (c : cuts) (teb : bool) (rows : list nat) : option fwsp * res unit :=
  match coupling_matrix f1 f2 b c teb rows with Ok w => (Some w, Ok tt) | Exn e => (None, Exn e) | UB => (None, UB) end.
Definition need (p : option fwsp) : res fwsp := match p with Some w => Ok w | None => Exn AttributeError end.
(** len(x) and len(x[0]) *)
Definition has_shape (n k : nat) (a : mat) : bool := Nat.eqb (length a) n && Nat.eqb (length (hd [] a)) k.
Definition check_shape (n k : nat) (a : mat) : res unit :=
  if negb (Nat.eqb (length a) n) then Exn ValueError else match a with [] => Exn IndexError | _ => if Nat.eqb (length (hd [] a)) k then Ok tt else Exn ValueError end.
(** workspaces.py:575-603, namaster.i:807-826.  Spectra are rectangular arrays (number of columns = length of the first row). *)
Definition py_couple (p : option fwsp) (ells : list F) (cls : mat) (rows : list nat) : res mat :=
  do w <- need p; do _ <- check_shape (fw_ncls w) (length ells) cls; couple_fast w ells cls rows.
(** workspaces.py:605-661, namaster.i:753-785 *)
Definition py_decouple (p : option fwsp) (cl : mat) (bias noise : option mat) : res mat :=
  do w <- need p;
  do _ <- check_shape (fw_ncls w) (fw_nb w) cl;
  do rb <- match bias with None => Ok (zeros_like cl) | Some x => do _ <- check_shape (fw_ncls w) (fw_nb w) x; Ok x end;
  do rn <- match noise with None => Ok (zeros_like cl) | Some x => do _ <- check_shape (fw_ncls w) (fw_nb w) x; Ok x end;
  fdecouple w cl rn rb.

(** ** Coupled spectra, nmt_master_flat.c:898-908 and workspaces.py:942-985 *)
Definition py_coupled_cell (f1 f2 : ffield) (b : fbins) (c : cuts) : res mat :=
  if negb (Nat.eqb (fs_nx (ff_fs f1)) (fs_nx (ff_fs f2)) && Nat.eqb (fs_ny (ff_fs f1)) (fs_ny (ff_fs f2))) then Exn ValueError
  else if (ff_mask_only f1 || ff_mask_only f2)%bool then Exn RuntimeError
  else if negb (same_fs (ff_fs f1) (ff_fs f2)) then Exn RuntimeError
  else fs_alm2cl pi fsqrt (ff_fs f1) b c (ff_alms f1) (ff_alms f2).
End WspFlat.
Arguments ffield : clear implicits. Arguments fwsp : clear implicits.
