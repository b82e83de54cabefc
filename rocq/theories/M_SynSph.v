(** Model of pymaster/utils.py:576-676, synfast_spherical: pixelisation, checks, beams, transforms and layout of the output.
    (Its use of seeds is in M_Syn.) *)
From Verif Require Import Base M_Utils M_Field.
Open Scope Z_scope.

Section SynSph.
Context {F : ofield}.
Local Open Scope F_scope.
Notation mat := (list (list F)).
(** pi, Python's round, conversion of a double to int, weights of the rings (ducc0), by number of rings *)
Variable pi : F.
Variables (fround ftrunc : F -> Z).
Variable ring_wts : nat -> list F.

(** HEALPix, or a WCS with pixel sizes (degrees) dra and ddec whose first pixel is at right ascension r0 and declination e0.
    Left out: projections other than CAR and reference points off the equator, both refused with ValueError *)
Inductive sky := Healpix (nside : Z) | Rect (dra ddec r0 e0 : F).
(** 1E-4 radians in degrees *)
Definition edge_tol : F := fofZ 1 / fofZ 10000 * (fofZ 180 / pi).
Definition fmin (x y : F) : F := if y <? x then y else x.
(** |round(x)-x| > 0.01 *)
Definition off_integer (x : F) : bool := fofZ 1 / fofZ 100 <? fabs (fofZ (fround x) - x).
(** utils.py:612-625 with NmtMapInfo.__init__ (266-361), _SHTInfo.from_rectpix and get_lmax (423-437): layout and default lmax.
    A pixel size of zero makes round(inf) fail with OverflowError: represented by ZeroDivisionError *)
Definition sky_info (x : sky) : res (minfo F * Z) :=
  match x with
  | Healpix nside => do n <- healpix_nside (12 * nside * nside); Ok (Hpx n (fofZ 4 * pi / fofZ (12 * n * n)), 3 * n - 1)%Z
  | Rect dra ddec r0 e0 =>
      if (dra =? 0) || (ddec =? 0) then Exn ZeroDivisionError else
      let dph := fabs dra in
      let dth := fabs ddec in
      let n_ra := fround (fofZ 360 / dph) in
      let n_dec := (fround (fofZ 180 / dth) + 1)%Z in
      if off_integer (fofZ 360 / dph) || off_integer (fofZ 180 / dth) then Exn ValueError else
      let g := car_geometry n_dec n_ra e0 ddec r0 dra in
      let theta_min := cg_theta_min g in
      let theta_max := fofZ 90 - fmin (e0 + fofZ 0 * ddec) (e0 + fofZ (n_dec - 1) * ddec) in
      if (theta_min <? 0) || (fofZ 180 <? theta_max) then Exn ValueError else
      if fofZ 360 + fofZ 1 / fofZ 10 * dph <? fabs (fofZ n_ra * dra) then Exn ValueError else
      if (edge_tol <? fabs theta_min) || (edge_tol <? fabs (theta_max - fofZ 180)) then Exn ValueError else
      Ok (Car (Z.to_nat n_dec) (Z.to_nat n_ra) (Z.to_nat (nx_full ftrunc (fofZ 360) dph)) (cg_fth g) (cg_fph g) (ring_wts (Z.to_nat n_dec)),
          ftrunc (fofZ 180 / fmin dth dph))
  end.
(** utils.py:635: maps per field *)
Definition nmap_of (spin : Z) : nat := if (spin =? 0)%Z then 1%nat else 2%nat.
(** numpy.cumsum *)
Fixpoint cumsum (acc : nat) (l : list nat) : list nat := match l with [] => [] | x :: t => (acc + x)%nat :: cumsum (acc + x) t end.
(** utils.py:636 *)
Definition map_first (nmap : list nat) : list nat := 0%nat :: removelast (cumsum 0 nmap).
(** utils.py:655-658 *)
Definition beam_per (nmap : list nat) (beam : mat) : mat := concat (zipw (fun n b => repeat b n) nmap beam).
(** utils.py:666-674 for one map *)
Definition layout (s : minfo F) (v : list F) : res (imap F) :=
  match s with
  | Hpx n _ => if (Z.of_nat (length v) =? 12 * n * n)%Z then Ok (I1 v) else Exn ValueError
  | Car ny nx _ fth fph _ =>
      if Nat.eqb (length v) (ny * nx) then
        let rows := chunks ny nx v in
        let rows := if fth then rev rows else rows in
        let rows := if fph then map (@rev F) rows else rows in
        Ok (I2 nx rows)
      else Exn ValueError
  end.
(** [synalm]: healpy.synalm with new=False, the coefficients drawn for given spectra and lmax, as real and imaginary parts *)
Variable synalm : mat -> Z -> mat.
Definition synfast (K : calc F) (x : sky) (cls : mat) (spins : list Z) (beam : option mat) (lmax : option Z) : res (list (imap F)) :=
  do (s, lm) <- sky_info x;
  let lmax := opt lmax lm in
  let nfields := length spins in
  if existsb (fun sp => (sp <? 0)%Z) spins then Exn ValueError else
  let nmap := map nmap_of spins in
  let nmaps := list_sum nmap in
  let ncls := ((nmaps * (nmaps + 1)) / 2)%nat in
  if negb (Nat.eqb ncls (length cls)) then Exn ValueError else
  match cls with
  | [] => Exn IndexError
  | c0 :: _ =>
      let lmax := Z.min (Z.of_nat (length c0) - 1) lmax in
      do _ <- nelem lmax;
      let alms := synalm cls lmax in
      do alms <- match beam with
                 | None => Ok alms
                 | Some b =>
                     if negb (Nat.eqb (length b) nfields) then Exn ValueError else
                     match b with
                     | [] => Exn IndexError
                     | b0 :: _ => if (Z.of_nat (length b0) <? lmax + 1)%Z then Exn ValueError else Ok (zipw (almxfl lmax) alms (beam_per nmap b))
                     end
                 end;
      do maps <- mapM (fun p => let '(i0, (n, sp)) := p in isht K sp s lmax (firstn n (skipn i0 alms))) (combine (map_first nmap) (combine nmap spins));
      mapM (layout s) (concat maps)
  end.
End SynSph.
Arguments sky : clear implicits.
