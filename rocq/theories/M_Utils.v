(** Model of pymaster/utils.py: global parameters, ring and pixel layouts, harmonic coefficient layout,
    reformatting and padding of rectangular maps, iterated harmonic transforms; ring functions of
    src/healpix_extra.c. *)
From Verif Require Import Base.
Open Scope Z_scope.

(** numpy elementwise binary operation on equally long arrays *)
Definition zipw {A B C} (f : A -> B -> C) (x : list A) (y : list B) : list C := map (fun p => f (fst p) (snd p)) (combine x y).

(** ** Default parameters, utils.py:40-129 *)
Section Params.
Context {F : ofield}.
(** Python numbers handed to the setters: floats include infinities and NaN *)
Inductive num := Fin (x : F) | PInf | NInf | NaN.
(** a < b; every comparison with NaN is false *)
Definition num_lt (a b : num) : bool :=
  match a, b with
  | NaN, _ | _, NaN => false
  | Fin x, Fin y => (x <? y)%F
  | NInf, (Fin _ | PInf) | Fin _, PInf => true
  | _, _ => false
  end.
(** int(x) for a non-negative number: rounds towards zero; int(nan) is a ValueError, int(inf) an OverflowError
    (represented by ValueError as well: both leave the setter) *)
Variable ftrunc : F -> Z.
Definition num_int (a : num) : res Z := match a with Fin x => Ok (ftrunc x) | _ => Exn ValueError end.
Record params := Params { sht_calculator : string; n_iter_default : Z; n_iter_mask_default : Z; tol_pinv_default : num }.
(** 62-67; [ducc]: the module ducc0 was found *)
Definition init_params (ducc : bool) (tol0 : F) : params := Params (if ducc then "ducc" else "healpy")%string 3 3 (Fin tol0).
(** 73-85 *)
Definition set_sht_calculator (ducc : bool) (p : params) (name : string) : params * res unit :=
  if negb (String.eqb name "ducc" || String.eqb name "healpy") then (p, Exn KeyError)
  else if String.eqb name "ducc" && negb ducc then (p, Exn ValueError)
  else (Params name (n_iter_default p) (n_iter_mask_default p) (tol_pinv_default p), Ok tt).
(** 88-104 *)
Definition set_n_iter_default (p : params) (n : num) (mask : bool) : params * res unit :=
  if num_lt n (Fin f0) then (p, Exn ValueError)
  else match num_int n with
       | Ok k => (if mask then Params (sht_calculator p) (n_iter_default p) k (tol_pinv_default p)
                  else Params (sht_calculator p) k (n_iter_mask_default p) (tol_pinv_default p), Ok tt)
       | Exn e => (p, Exn e)
       | UB => (p, UB)
       end.
(** 107-117 *)
Definition set_tol_pinv_default (p : params) (t : num) : params * res unit :=
  if num_lt (Fin f1) t || num_lt t (Fin f0) then (p, Exn ValueError)
  else (Params (sht_calculator p) (n_iter_default p) (n_iter_mask_default p) t, Ok tt).
Inductive setting := SetCalc (name : string) | SetIter (n : num) (mask : bool) | SetTol (t : num).
Definition set_step (ducc : bool) (p : params) (c : setting) : params * res unit :=
  match c with
  | SetCalc s => set_sht_calculator ducc p s
  | SetIter n m => set_n_iter_default p n m
  | SetTol t => set_tol_pinv_default p t
  end.
Fixpoint settings (ducc : bool) (p : params) (cs : list setting) : params * list (res unit) :=
  match cs with
  | [] => (p, [])
  | c :: cs => let '(p1, r) := set_step ducc p c in let '(p2, rs) := settings ducc p1 cs in (p2, r :: rs)
  end.
End Params.
Arguments num : clear implicits. Arguments params : clear implicits. Arguments setting : clear implicits.

(** ** Harmonic coefficients, utils.py:439-461 *)
(** mstart[m] = m*(2*lmax+1-m)//2 *)
Definition mstart (lmax m : Z) : Z := m * (2 * lmax + 1 - m) / 2.
Definition mstarts (lmax : Z) : list Z := map (fun m => mstart lmax (Z.of_nat m)) (seq 0 (Z.to_nat (lmax + 1))).
(** np.max of an empty array is a ValueError *)
Definition np_max (l : list Z) : res Z := match l with [] => Exn ValueError | a :: t => Ok (fold_left Z.max t a) end.
Definition nelem (lmax : Z) : res Z := do k <- np_max (mstarts lmax); Ok (k + (lmax + 1)).
(** position of a_lm: ducc0 adds l to mstart[m] *)
Definition alm_index (lmax l m : Z) : res Z := do s <- rd (mstarts lmax) m; Ok (s + l).

(** ** HEALPix rings *)
(** utils.py:168-196, ring number r = 1..4 nside - 1 *)
Definition north (nside r : Z) : Z := if 2 * nside <? r then 4 * nside - r else r.
Definition nphi (nside r : Z) : Z := if north nside r <? nside then 4 * north nside r else 4 * nside.
Definition rings (nside : Z) : list Z := map (fun k => Z.of_nat k + 1) (seq 0 (Z.to_nat (4 * nside - 1))).
Definition nphis (nside : Z) : list Z := map (nphi nside) (rings nside).
(** 143-145: running sums, shifted by one *)
Fixpoint offsets_from (s : Z) (l : list Z) : list Z := match l with [] => [] | n :: t => s :: offsets_from (s + n) t end.
Definition offsets (nside : Z) : list Z := offsets_from 0 (nphis nside).
(** healpix_extra.c:26-53 *)
Definition get_ring_limits (nside iz : Z) : Z * Z :=
  let npix := 12 * nside * nside in
  let ncap := 2 * nside * (nside - 1) in
  if (nside <=? iz) && (iz <=? 3 * nside) then
    let ir := iz - nside + 1 in let ipix1 := ncap + 4 * nside * (ir - 1) in (ipix1, ipix1 + 4 * nside - 1)
  else if iz <? nside then
    let ir := iz in let ipix1 := 2 * ir * (ir - 1) in (ipix1, ipix1 + 4 * ir - 1)
  else
    let ir := 4 * nside - iz in let ipix1 := npix - 2 * ir * (ir + 1) in (ipix1, ipix1 + 4 * ir - 1).
(** healpix_extra.c:85-92: the pixels of the rings irmin..irmax in order *)
Definition strip_pixels (nside irmin irmax : Z) : list Z :=
  flat_map (fun iz => let '(lo, hi) := get_ring_limits nside iz in map (fun k => lo + Z.of_nat k) (seq 0 (Z.to_nat (hi - lo + 1))))
           (map (fun k => irmin + Z.of_nat k) (seq 0 (Z.to_nat (irmax - irmin + 1)))).
(** utils.py:266-273: the resolution is doubled from 2 until it matches the number of pixels; past 65536 the
    constructor raises.  [fuel] bounds the doublings; 16 is enough (healpix_nside below) *)
Fixpoint find_nside (fuel : nat) (nside npix : Z) : res Z :=
  match fuel with
  | O => UB
  | S fuel' =>
      if 12 * nside * nside =? npix then Ok nside
      else if 65536 <? nside * 2 then Exn ValueError else find_nside fuel' (nside * 2) npix
  end.
Definition healpix_nside (npix : Z) : res Z := find_nside 16 2 npix.
Section Ring.
Context {F : ofield}.
Local Open Scope F_scope.
Variable fsqrt : F -> F.
(** conversion of a non-negative double to int *)
Variable ftrunc : F -> Z.
Definition two3 : F := fofZ 66666666 / fofZ 100000000.
(** healpix_extra.c:6-24 *)
Definition ring_num (nside : Z) (z : F) : Z :=
  let n := fofZ nside in
  let half := 1 / fofZ 2 in
  let iring := ftrunc (n * (fofZ 2 - (fofZ 3 / fofZ 2) * z) + half) in
  let iring := if two3 <? z then (let k := ftrunc (n * fsqrt (fofZ 3 * (1 - z)) + half) in if (k =? 0)%Z then 1%Z else k) else iring in
  if z <? - two3 then (let k := ftrunc (n * fsqrt (fofZ 3 * (1 + z)) + half) in let k := if (k =? 0)%Z then 1%Z else k in 4 * nside - k)%Z else iring.
(** healpix_extra.c:457-462: height of ring iz *)
Definition ring_z (nside iz : Z) : F :=
  let dth1 := 1 / (fofZ 3 * fofZ (nside * nside)) in
  let dth2 := fofZ 2 / (fofZ 3 * fofZ nside) in
  if (iz <=? nside - 1)%Z then 1 - fofZ (iz * iz) * dth1
  else if (iz <=? 3 * nside)%Z then fofZ (2 * nside - iz) * dth2
  else - (1) + dth1 * fofZ (4 * nside - iz) * fofZ (4 * nside - iz).
End Ring.

(** ** Rectangular maps *)
Section Rect.
Context {F : ofield}.
Local Open Scope F_scope.
Notation mat := (list (list F)).
(** the part of _SHTInfo and NmtMapInfo that describes how a map is stored.  [Hpx]: nside, weight.
    [Car]: ny, nx, nx_full, flip_th, flip_ph, weight of each ring *)
Inductive minfo :=
| Hpx (nside : Z) (wt : F)
| Car (ny nx nx_full : nat) (flip_th flip_ph : bool) (wts : list F).
(** arrays handed in by the user: one-dimensional or two-dimensional (rows of equal length [k]) *)
Inductive imap := I1 (v : list F) | I2 (k : nat) (rows : mat).
(** utils.py:389-415 for one map.  A HEALPix layout takes one-dimensional maps, a CAR layout two-dimensional ones *)
Definition reform_map (s : minfo) (m : imap) : res (list F) :=
  match s, m with
  | Hpx nside _, I1 v => if (Z.of_nat (length v) =? 12 * nside * nside)%Z then Ok v else Exn ValueError
  | Car ny nx _ fth fph _, I2 k rows =>
      if (Nat.eqb (length rows) ny && Nat.eqb k nx)%bool then
        let rows := if fth then rev rows else rows in
        let rows := if fph then map (@rev F) rows else rows in
        Ok (concat rows)
      else Exn ValueError
  | _, _ => Exn ValueError
  end.
(** utils.py:318-347 (angles in degrees): flips, first colatitude and azimuth, steps.  The world coordinates of
    array pixel (i,j) in a CAR map whose reference is on the equator are (r0 + j*dra, e0 + i*ddec); the reduction
    of right ascension modulo 360 degrees by the WCS library is left out *)
Record car_geom := CarGeom { cg_fth : bool; cg_fph : bool; cg_theta_min : F; cg_phi0 : F; cg_dth : F; cg_dph : F }.
Definition fabs (x : F) : F := if 0 <=? x then x else - x.
Definition fmax (x y : F) : F := if x <? y then y else x.
Definition car_geometry (ny nx : Z) (e0 ddec r0 dra : F) : car_geom :=
  let dec i := e0 + fofZ i * ddec in
  let ra j := r0 + fofZ j * dra in
  let fth := 0 <? ddec in
  let fph := dra <? 0 in
  CarGeom fth fph (fofZ 90 - fmax (dec 0%Z) (dec (ny - 1)%Z)) (if fph then ra (nx - 1)%Z else ra 0%Z) (fabs ddec) (fabs dra).
(** cut a flat array into [n] rows of [k] (numpy reshape) *)
Fixpoint chunks {A} (n k : nat) (v : list A) : list (list A) :=
  match n with O => [] | S n' => firstn k v :: chunks n' k (skipn k v) end.
(** utils.py:199-215: a wrong size makes reshape or the assignment fail with ValueError *)
Definition pad_map (s : minfo) (v : list F) : res (list F) :=
  match s with
  | Hpx _ _ => Ok v
  | Car ny nx nf _ _ _ =>
      if negb (Nat.eqb (length v) (ny * nx)) then Exn ValueError
      else if (nf <? nx)%nat then Exn ValueError
      else Ok (concat (map (fun r => r ++ repeat 0 (nf - nx)) (chunks ny nx v)))
  end.
(** utils.py:217-225 *)
Definition unpad_map (s : minfo) (v : list F) : res (list F) :=
  match s with
  | Hpx _ _ => Ok v
  | Car ny nx nf _ _ _ =>
      if negb (Nat.eqb (length v) (ny * nf)) then Exn ValueError
      else Ok (concat (map (firstn nx) (chunks ny nf v)))
  end.
(** utils.py:227-240: npix//nring columns per ring; reshape fails if the rings do not divide the pixels *)
Definition times_weight (s : minfo) (v : list F) : res (list F) :=
  match s with
  | Hpx _ w => Ok (map (fun x => x * w) v)
  | Car ny _ _ _ _ wts =>
      if Nat.eqb ny 0 then Exn ZeroDivisionError else
      let k := (length v / ny)%nat in
      if negb (Nat.eqb (length v) (ny * k)) then Exn ValueError
      else if negb (Nat.eqb (length wts) ny) then Exn ValueError
      else Ok (concat (zipw (fun r w => map (fun x => x * w) r) (chunks ny k v) wts))
  end.
(** utils.py:242-243 for sets of maps (the sum runs over all components) *)
Definition dot_map (s : minfo) (m1 m2 : mat) : res F :=
  do r <- mapM (times_weight s) (zipw (zipw fmul) m1 m2); Ok (lsum (map lsum r)).

(** utils.py:318-326: what NmtMapInfo checks of the pixel size and the width; [fround] is Python's round,
    [twopi] is 360 degrees in the units of [dph] *)
Variable ftrunc : F -> Z.
Variable fround : F -> Z.
Variable twopi : F.
Definition width_ok (dph : F) (nx : Z) : bool :=
  negb (fofZ 1 / fofZ 100 <? fabs (fofZ (fround (twopi / dph)) - twopi / dph)) &&
  negb (twopi + fofZ 1 / fofZ 10 * dph <? fofZ nx * dph).
(** utils.py:155 *)
Definition nx_full (dph : F) : Z := ftrunc (twopi / dph + 1 / fofZ 2).
End Rect.
Arguments minfo : clear implicits. Arguments imap : clear implicits. Arguments car_geom : clear implicits.

(** ** Iterated transforms, utils.py:860-893 *)
Section M2A.
Context {F : ofield}.
Local Open Scope F_scope.
Notation mat := (list (list F)).
Definition msub : mat -> mat -> mat := zipw (zipw fsub).
(** the transforms of the chosen calculator (ducc0 or healpy) at given spin, pixelisation and lmax; coefficients
    are complex numbers stored as real and imaginary parts *)
Variable m2a a2m : mat -> mat.
Fixpoint refine (n : nat) (m alm : mat) : mat :=
  match n with O => alm | S n' => refine n' m (msub alm (m2a (msub (a2m alm) m))) end.
Definition map2alm (s : minfo F) (n_iter : nat) (maps : mat) : res mat :=
  do m <- mapM (pad_map s) maps; Ok (refine n_iter m (m2a m)).
(** utils.py:896-923 *)
Definition alm2map (s : minfo F) (alm : mat) : res mat := mapM (unpad_map s) (a2m alm).
End M2A.
