(** Model of the flat-sky transforms and of the flat-sky power spectrum estimator: src/flatsky_utils.c, the geometry
    of src/nmt_field_flat.c and the Python wrapper of pymaster/workspaces.py.
    Exact arithmetic.  [pi] is M_PI, [fsqrt] the C square root, [trunc] the conversion to int, and [ph n j] is the
    root of unity exp(-2 pi i j / n) used by FFTW. *)
From Verif Require Import Base M_Utils M_FlatBins.
Open Scope nat_scope.

Section Flat.
Context {F : ofield}.
Local Open Scope F_scope.
Notation mat := (list (list F)).

(** ** Complex numbers (fcomplex) *)
Definition cplx := (F * F)%type.
Definition c0 : cplx := (0, 0).
Definition cadd (x y : cplx) : cplx := (fst x + fst y, snd x + snd y).
Definition csub (x y : cplx) : cplx := (fst x - fst y, snd x - snd y).
Definition cmul (x y : cplx) : cplx := (fst x * fst y - snd x * snd y, fst x * snd y + snd x * fst y).
Definition cscal (a : F) (x : cplx) : cplx := (a * fst x, a * snd x).
Definition conjc (x : cplx) : cplx := (fst x, - snd x).
Definition csum (n : nat) (f : nat -> cplx) : cplx := (sum n (fun i => fst (f i)), sum n (fun i => snd (f i))).
(** creal(x)*creal(y)+cimag(x)*cimag(y) *)
Definition cdot (x y : cplx) : F := fst x * fst y + snd x * snd y.

(** ** Geometry, nmt_field_flat.c:36-64 *)
Record fsinfo := FS { fs_nx : nat; fs_ny : nat; fs_lx : F; fs_ly : F }.
Definition nhalf (s : fsinfo) : nat := (fs_nx s / 2 + 1)%nat.
Definition npix_fs (s : fsinfo) : nat := (fs_nx s * fs_ny s)%nat.
Variables (pi : F) (fsqrt : F -> F) (trunc : F -> Z).
Variable ph : nat -> nat -> cplx.
Definition dkx (s : fsinfo) : F := fofZ 2 * pi / fs_lx s.
Definition dky (s : fsinfo) : F := fofZ 2 * pi / fs_ly s.
(** wavenumber index of array position i on an axis of n pixels: flatsky_utils.c:93-96, 383-384, 390-397 *)
Definition freq (n i : nat) : Z := if (2 * i <=? n)%nat then Z.of_nat i else (- (Z.of_nat n - Z.of_nat i))%Z.
Definition kxf (s : fsinfo) (ix : nat) : F := fofZ (freq (fs_nx s) ix) * dkx s.
Definition kyf (s : fsinfo) (iy : nat) : F := fofZ (freq (fs_ny s) iy) * dky s.
Definition kmodf (s : fsinfo) (ix iy : nat) : F := fsqrt (kxf s ix * kxf s ix + kyf s iy * kyf s iy).
(** nmt_field_flat.c:46-61 *)
Definition fmin2 (a b : F) : F := if a <? b then a else b.
Definition dell (s : fsinfo) : F := fmin2 (dkx s) (dky s).
Definition kmax (s : fsinfo) : F :=
  let kx := dkx s * fofnat (fs_nx s / 2) in let ky := dky s * fofnat (fs_ny s / 2) in fsqrt (ky * ky + kx * kx).
(** the while loop of line 57; [fuel]: the loop ends after kmax/dell rounds (C90_count) *)
Fixpoint count_ell (fuel : nat) (n : nat) (d km : F) : nat :=
  match fuel with O => n | S f => if (fofnat (n + 1) * d <=? km) then count_ell f (n + 1) d km else n end.
Definition n_ell (s : fsinfo) : nat := count_ell (S (Z.to_nat (trunc (kmax s / dell s)))) 0 (dell s) (kmax s).
(** i_ring: nmt_master_flat.c:212-214; (int)(kmod*i_dell) *)
Definition ring_of (s : fsinfo) (k : F) : Z :=
  let r := trunc (k * (1 / dell s)) in if ((r <? 0) || (Z.of_nat (n_ell s) <=? r))%Z then (-1)%Z else r.

(** ** Fourier transform, flatsky_utils.c:192-232.  fftw_plan_dft_r2c_2d(ny,nx,..): unnormalised transform
    of which only the columns 0..nx/2 are stored *)
Definition dft_at (s : fsinfo) (m : list F) (ix iy : nat) : cplx :=
  csum (fs_ny s) (fun y => csum (fs_nx s) (fun x =>
    cscal (nth (x + fs_nx s * y) m 0) (cmul (ph (fs_nx s) ((ix * x) mod fs_nx s)) (ph (fs_ny s) ((iy * y) mod fs_ny s))))).
Definition norm_m2a (s : fsinfo) : F := fs_lx s * fs_ly s / (fofZ 2 * pi * fofnat (fs_nx s) * fofnat (fs_ny s)).
Definition map2alm0 (s : fsinfo) (m : list F) : list cplx :=
  tab (fs_ny s * nhalf s) (fun i => cscal (norm_m2a s) (dft_at s m (i mod nhalf s) (i / nhalf s))).

(** ** Rotation of Q,U into E,B: flatsky_utils.c:77-132 *)
(** cos and sin of the polar angle of the wavevector, lines 104-112 *)
Definition cphi (kx ky : F) : F * F :=
  let k2 := kx * kx + ky * ky in
  if k2 <=? 0 then (1, 0) else let ik := 1 / fsqrt k2 in (kx * ik, ky * ik).
(** lines 114-121: the angle is multiplied by the spin; no iteration if the spin is negative *)
Fixpoint rotn (n : nat) (c s : F) : F * F :=
  match n with
  | O => (1, 0)
  | S m => let (cs, ss) := rotn m c s in (cs * c - ss * s, ss * c + cs * s)
  end.
(** powers of I and -I (cpow, lines 86 and 143) *)
Definition ipow (z : Z) : cplx :=
  match (z mod 4)%Z with 0%Z => (1, 0) | 1%Z => (0, 1) | 2%Z => (- (1), 0) | _ => (0, - (1)) end.
Definition sig (spin z : Z) : cplx := cscal (if (spin =? 0)%Z then 1 else - (1)) (ipow z).
Definition rot_at (s : fsinfo) (spin : Z) (ix iy : nat) : F * F :=
  let (c, sn) := cphi (kxf s ix) (kyf s iy) in rotn (Z.to_nat spin) c sn.
(** line 122-125 *)
Definition eb_of (spin : Z) (r : F * F) (q u : cplx) : cplx * cplx :=
  let g := sig spin spin in
  (cmul g (csub (cscal (fst r) q) (cscal (snd r) u)), cmul g (cadd (cscal (snd r) q) (cscal (fst r) u))).
(** lines 181-183 *)
Definition qu_of (spin : Z) (r : F * F) (e b : cplx) : cplx * cplx :=
  let g := sig spin (- spin) in
  (cmul g (cadd (cscal (fst r) e) (cscal (snd r) b)), cmul g (cadd (cscal (- snd r) e) (cscal (fst r) b))).
(** one iteration of the inner loop *)
Definition rot_step (f : Z -> F * F -> cplx -> cplx -> cplx * cplx) (s : fsinfo) (spin : Z) (iy ix : nat) (st : list cplx * list cplx) : res (list cplx * list cplx) :=
  let index := Z.of_nat (ix + nhalf s * iy) in
  do a <- rd (fst st) index;
  do b <- rd (snd st) index;
  let (x, y) := f spin (rot_at s spin ix iy) a b in
  Ok (upd (fst st) (ix + nhalf s * iy) x, upd (snd st) (ix + nhalf s * iy) y).
(** rows are distributed over the threads: [order] is the order in which they happen to be processed.
    Within a row the columns are processed in order. *)
Definition rot_rows f (s : fsinfo) (spin : Z) (order : list nat) (st : list cplx * list cplx) : res (list cplx * list cplx) :=
  foldM (fun st iy => foldM (fun st ix => rot_step f s spin iy ix st) st (seq 0 (nhalf s))) st order.
Definition qu2eb := rot_rows eb_of.
Definition eb2qu := rot_rows qu_of.
(** fs_map2alm for one field (ntrans=1): one map if spin=0, two otherwise *)
Definition rows_of (s : fsinfo) : list nat := seq 0 (fs_ny s).
Definition fs_map2alm (s : fsinfo) (spin : Z) (maps : mat) : res (list (list cplx)) :=
  if (spin =? 0)%Z then do m <- rd maps 0; Ok [map2alm0 s m]
  else do q <- rd maps 0; do u <- rd maps 1;
       do (e, b) <- qu2eb s spin (rows_of s) (map2alm0 s q, map2alm0 s u); Ok [e; b].

(** ** Power spectra, flatsky_utils.c:356-432 *)
Record cuts := Cuts { mn_x : F; mx_x : F; mn_y : F; mx_y : F }.
Definition cut_x (c : cuts) (k : F) : bool := (mn_x c <=? k) && (k <=? mx_x c).
Definition cut_y (c : cuts) (k : F) : bool := (mn_y c <=? k) && (k <=? mx_y c).
(** column of the half plane holding the mode: lines 391-398 *)
Definition ix_here (nx ix : nat) : nat := if (2 * ix <=? nx)%nat then ix else (nx - ix)%nat.
(** columns of one row.  Returns the updates (band, product) made by this row; ik is the band found last *)
Fixpoint row_cols (s : fsinfo) (b : fbins F) (c : cuts) (a1 a2 : list cplx) (iy : nat) (cols : list nat) (ik : Z) : res (list (Z * F)) :=
  match cols with
  | [] => Ok []
  | ix :: t =>
      if cut_x c (kxf s ix) then row_cols s b c a1 a2 iy t ik
      else
        let index := Z.of_nat (ix_here (fs_nx s) ix + nhalf s * iy) in
        do ik' <- search_fast b (kmodf s ix iy) ik;
        if (0 <=? ik')%Z then
          do x <- rd a1 index;
          do y <- rd a2 index;
          do r <- row_cols s b c a1 a2 iy t ik';
          Ok ((ik', cdot x y) :: r)
        else row_cols s b c a1 a2 iy t ik'
  end.
Definition row_updates (s : fsinfo) (b : fbins F) (c : cuts) (a1 a2 : list cplx) (iy : nat) : res (list (Z * F)) :=
  if cut_y c (kyf s iy) then Ok [] else row_cols s b c a1 a2 iy (seq 0 (fs_nx s)) 0.
(** the two atomic updates of lines 411-414 *)
Definition add_update (st : list F * list Z) (u : Z * F) : res (list F * list Z) :=
  do x <- rd (fst st) (fst u);
  do n <- rd (snd st) (fst u);
  Ok (upd (fst st) (Z.to_nat (fst u)) (x + snd u), upd (snd st) (Z.to_nat (fst u)) (n + 1)%Z).
(** lines 420-425 *)
Definition normalise (s : fsinfo) (v : F) (n : Z) : F :=
  if (n <=? 0)%Z then 0 else v * (fofZ 4 * pi * pi / (fs_lx s * fs_ly s) / fofZ n).
Definition alm2cl_updates (s : fsinfo) (b : fbins F) (ups : list (Z * F)) : res (list F) :=
  let nb := length (fb_l0 b) in
  do (v, n) <- foldM add_update (repeat 0 nb, repeat 0%Z nb) ups;
  Ok (tab nb (fun i => normalise s (nth i v 0) (nth i n 0%Z))).
Definition all_updates (s : fsinfo) (b : fbins F) (c : cuts) (a1 a2 : list cplx) : res (list (Z * F)) :=
  do u <- mapM (row_updates s b c a1 a2) (rows_of s); Ok (concat u).
Definition alm2cl1 (s : fsinfo) (b : fbins F) (c : cuts) (a1 a2 : list cplx) : res (list F) :=
  do u <- all_updates s b c a1 a2; alm2cl_updates s b u.
(** all pairs of components; row i2+nmaps_2*i1 *)
Definition fs_alm2cl (s : fsinfo) (b : fbins F) (c : cuts) (alms1 alms2 : list (list cplx)) : res mat :=
  do r <- mapM (fun a1 => mapM (fun a2 => alm2cl1 s b c a1 a2) alms2) alms1; Ok (concat r).
(** fs_anafast, flatsky_utils.c:434-468: no modes removed *)
Definition no_cut : cuts := Cuts 1 (- (1)) 1 (- (1)).
Definition fs_anafast (s : fsinfo) (b : fbins F) (spin1 spin2 : Z) (maps1 maps2 : mat) : res mat :=
  do a1 <- fs_map2alm s spin1 maps1; do a2 <- fs_map2alm s spin2 maps2; fs_alm2cl s b no_cut a1 a2.
End Flat.
Arguments fsinfo : clear implicits. Arguments cplx : clear implicits. Arguments cuts : clear implicits.
