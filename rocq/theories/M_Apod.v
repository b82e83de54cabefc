(** Model of mask apodisation: src/nmt_mask.c, src/nmt_mask_flat.c, the HEALPix disc query of
    src/healpix_extra.c:264-479, the SWIG wrappers pymaster/namaster.i:357-381 and
    pymaster/utils.py: mask_apodization, mask_apodization_flat.
    Errors reported inside a parallel region leave it with longjmp; they are modelled as RuntimeError.
    The parallel execution is modelled in M_ApodPar.v. *)
From Coq Require Import String Permutation.
From Verif Require Import Base M_Utils M_Field.
Open Scope Z_scope.

(** libm and the conversion of double to int, which drops the fractional part *)
Record libm (F : ofield) := Libm { m_pi : F; m_sin : F -> F; m_cos : F -> F; m_asin : F -> F; m_acos : F -> F; m_sqrt : F -> F; m_exp : F -> F; m_trunc : F -> Z }.
Arguments Libm {F}. Arguments m_pi {F}. Arguments m_sin {F}. Arguments m_cos {F}. Arguments m_asin {F}. Arguments m_acos {F}. Arguments m_sqrt {F}. Arguments m_exp {F}. Arguments m_trunc {F}.
Definition range (lo hi : Z) : list Z := map (fun k => lo + Z.of_nat k) (seq 0 (Z.to_nat (hi - lo + 1))).

Section Apod.
Context {F : ofield}.
Local Open Scope F_scope.
Variable M : libm F.
Notation pi := (m_pi M).
Definition dec (a b : Z) : F := fofZ a / fofZ b.
Definition to_int (x : F) : res Z :=
  let z := m_trunc M x in if ((-2147483648 <=? z) && (z <=? 2147483647))%Z then Ok z else UB.

(** *** HEALPix disc query *)
(** healpix_extra.c:264-269 *)
Definition nint (x : F) : Z :=
  if 0 <? x then m_trunc M (x + 1 / fofZ 2) else if x <? 0 then m_trunc M (x - 1 / fofZ 2) else 0%Z.
(** healpix_extra.c:271-277: a%n truncates towards zero *)
Definition modu (a n : Z) : Z := let r := Z.rem a n in if (r <? 0)%Z then (r + n)%Z else r.
(** healpix_extra.c:304-326: first pixel, last pixel, kshift of ring iz *)
Definition ring_geom (nside iz : Z) : Z * Z * Z :=
  let npix := (12 * nside * nside)%Z in
  let ncap := (2 * nside * (nside - 1))%Z in
  (if ((nside <=? iz) && (iz <=? 3 * nside))%bool then
     let ir := iz - nside + 1 in let ipix1 := ncap + 4 * nside * (ir - 1) in (ipix1, ipix1 + 4 * nside - 1, modu ir 2)
   else
     let '(ir, ipix1) := if iz <? nside then (iz, 2 * iz * (iz - 1)) else (4 * nside - iz, npix - 2 * (4 * nside - iz) * (4 * nside - iz + 1)) in
     (ipix1, ipix1 + 4 * ir - 1, 1))%Z.
(** healpix_extra.c:279-382 (conservative = 1); [cap]: room in the list.  The conversions to int of this function are small and not checked *)
Definition wrap (x : F) : F := x - fofZ (m_trunc M (x / (fofZ 2 * pi))) * (fofZ 2 * pi).
Definition in_ring (nside iz : Z) (phi0 dphi : F) (cap : Z) : res (list Z) :=
  let phi_low := wrap (phi0 - dphi) in
  let phi_hi := wrap (phi0 + dphi) in
  let '(ipix1, ipix2, kshift) := ring_geom nside iz in
  let nr := (ipix2 - ipix1 + 1)%Z in
  let out l := if (cap <? Z.of_nat (length l))%Z then Exn RuntimeError else Ok l in
  if fabs (dphi - pi) <? dec 1 1000000 then out (range ipix1 ipix2)
  else
    let shift := 1 / fofZ 2 * fofZ kshift in
    let ip_low := modu (nint (fofZ nr * phi_low / (fofZ 2 * pi) - shift)) nr in
    let ip_hi := modu (nint (fofZ nr * phi_hi / (fofZ 2 * pi) - shift)) nr in
    if (ip_hi <? ip_low)%Z then out (range (ip_low + ipix1) ipix2 ++ range ipix1 (ip_hi + ipix1))
    else out (range (ip_low + ipix1) (ip_hi + ipix1)).
(** healpix_extra.c:397-479; both callers pass inclusive = 1 and an azimuth in [0, 2 pi], which wrap_phi leaves alone; [cap]: *nlist *)
Definition query_disc (nside : Z) (cth0 phi0 radius : F) (cap : Z) : res (list Z) :=
  if ((radius <? 0) || (pi <? radius))%bool then Exn RuntimeError else
  let radius_eff := radius + dec 1071 1000 * pi / (fofZ 4 * fofZ nside) in
  let cosang := m_cos M radius_eff in
  let a := 1 - cth0 * cth0 in
  let rlat1 := m_asin M cth0 + radius_eff in
  let rlat2 := m_asin M cth0 - radius_eff in
  let zmax := if 1 / fofZ 2 * pi <=? rlat1 then 1 else m_sin M rlat1 in
  let irmin := ring_num (m_sqrt M) (m_trunc M) nside zmax in
  let irmin := (if irmin <? 2 then 1 else irmin - 1)%Z in
  let zmin := if rlat2 <=? - (1 / fofZ 2 * pi) then - (1) else m_sin M rlat2 in
  let irmax := ring_num (m_sqrt M) (m_trunc M) nside zmin in
  let irmax := (if 4 * nside - 2 <? irmax then 4 * nside - 1 else irmax + 1)%Z in
  foldM (fun acc iz =>
    let z := ring_z nside iz in
    let b := cosang - z * cth0 in
    let add dphi := do l <- in_ring nside iz phi0 dphi cap; if (cap <? Z.of_nat (length acc + length l))%Z then Exn RuntimeError else Ok (acc ++ l) in
    if cth0 =? 1 then (if 0 <? b then Ok acc else add pi)
    else
      let cosdphi := b / m_sqrt M (a * (1 - z * z)) in
      if fabs cosdphi <=? 1 then add (m_acos M cosdphi)
      else if m_cos M phi0 <? cosdphi then Ok acc else add pi) [] (range irmin irmax).

(** *** Curved sky, nmt_mask.c *)
(** he_pix2vec_ring (chealpix) followed by atan2, nmt_mask.c:31-35: unit vector and azimuth in [0, 2 pi] of each pixel centre *)
Record centre := Centre { v_x : F; v_y : F; v_z : F; v_phi : F }.
Variable centre_of : Z -> Z -> centre.
Definition x2 (u v : centre) : F := 1 - v_x u * v_x v - v_y u * v_y v - v_z u * v_z v.
Inductive apo := C1 | C2 | Smooth.
(** nmt_mask.c:64-73, nmt_mask_flat.c:62-70 *)
Definition window (c2 : bool) (xn : F) : F :=
  if c2 then 1 / fofZ 2 * (1 - m_cos M (xn * pi)) else xn - m_sin M (xn * fofZ 2 * pi) / (fofZ 2 * pi).
Definition radians (aposize : F) : F := aposize * pi / fofZ 180.
(** nmt_mask.c:40-42, 96-98: size of the list of pixels *)
Definition list_size (nside : Z) (r : F) : res Z :=
  do n <- to_int (fofZ 4 * fofZ (12 * nside * nside) * (1 - m_cos M r));
  if (n <? 2)%Z then Exn RuntimeError else Ok n.
(** nmt_mask.c:51-61: smallest squared distance (halved) to a masked pixel of the disc, 1000 if there is none *)
Definition x2dist (nside : Z) (mask : list F) (ip : Z) (disc : list Z) : res F :=
  foldM (fun d ip2 => do m2 <- rd mask ip2; let x := x2 (centre_of nside ip) (centre_of nside ip2) in
                      Ok (if m2 <=? 0 then (if x <? d then x else d) else d)) (fofZ 1000) disc.
(** nmt_mask.c:47-77: new value of pixel ip *)
Definition apodized_pixel (nside : Z) (mask : list F) (aporad : F) (c2 : bool) (lenlist0 : Z) (ip : Z) : res F :=
  do m <- rd mask ip;
  if 0 <? m then
    let c := centre_of nside ip in
    do disc <- query_disc nside (v_z c) (v_phi c) (dec 6 5 * aporad) (lenlist0 / 2);
    do d <- x2dist nside mask ip disc;
    let thr := 1 - m_cos M aporad in
    if d <? thr then
      let f := if d <=? 0 then 0 else window c2 (m_sqrt M (d * (1 / thr))) in Ok (m * f)
    else Ok m
  else Ok m.
(** nmt_mask.c:4-88 *)
Definition apodize_CX (nside : Z) (mask : list F) (aposize : F) (c2 : bool) : res (list F) :=
  let aporad := radians aposize in
  do len <- list_size nside (dec 6 5 * aporad);
  mapM (apodized_pixel nside mask aporad c2 len) (range 0 (12 * nside * nside - 1)).
(** nmt_mask.c:90-128: the discs around masked pixels are set to zero (times zero) *)
Definition smooth_disc (nside : Z) (aporad : F) (lenlist0 : Z) (ip : Z) : res (list Z) :=
  let c := centre_of nside ip in query_disc nside (v_z c) (v_phi c) (dec 5 2 * aporad) (lenlist0 / 2).
Definition zero_at (out : list F) (ip : Z) : res (list F) := do x <- rd out ip; Ok (upd out (Z.to_nat ip) (x * 0)).
Definition apodize_smooth (nside : Z) (mask : list F) (aposize : F) : res (list F) :=
  let aporad := radians aposize in
  do len <- list_size nside (dec 5 2 * aporad);
  foldM (fun out ip =>
    do m <- rd mask ip;
    if m <=? 0 then do disc <- smooth_disc nside aporad len ip; foldM zero_at out disc else Ok out)
    mask (range 0 (12 * nside * nside - 1)).
(** nmt_mask.c:131-145; the type is a string, None stands for an unknown one *)
Definition nmt_apodize_mask (nside : Z) (mask : list F) (aposize : F) (t : option apo) : res (list F) :=
  if aposize <? 0 then Exn RuntimeError
  else if aposize =? 0 then Ok mask
  else match t with
       | Some C1 => apodize_CX nside mask aposize false
       | Some C2 => apodize_CX nside mask aposize true
       | Some Smooth => apodize_smooth nside mask aposize
       | None => Exn RuntimeError
       end.
(** namaster.i:357-369: resolution found by doubling from 1; the assertion fails once it exceeds 65536 *)
Fixpoint apo_nside (fuel : nat) (nside npix : Z) : res Z :=
  match fuel with
  | O => UB
  | S fuel' => if (12 * nside * nside =? npix)%Z then Ok nside else if (65536 <? nside)%Z then Exn RuntimeError else apo_nside fuel' (nside * 2) npix
  end.
Definition apomask (mask : list F) (aposize : F) (t : option apo) : res (list F) :=
  do nside <- apo_nside 18 1 (Z.of_nat (length mask));
  nmt_apodize_mask nside mask aposize t.
(** utils.py:464-546 for one-dimensional masks; fourpi is only used in the pixel weight *)
Definition mask_apodization (K : calc F) (mask : list F) (aposize : F) (t : option apo) : res (list F) :=
  match t with
  | None => Exn ValueError
  | Some ty =>
      do m <- apomask mask aposize t;
      match ty with
      | Smooth =>
          do nside <- healpix_nside (Z.of_nat (length mask));
          let s := Hpx nside (fofZ 4 * pi / fofZ (12 * nside * nside)) in
          let lmax := (3 * nside - 1)%Z in
          let beam := tab (Z.to_nat (lmax + 1)) (fun l => m_exp M (- (1 / fofZ 2) * fofnat l * (fofnat l + 1) * (radians aposize * radians aposize))) in
          do a <- sht K 0 s lmax 3 [m];
          do r <- isht K 0 s lmax [almxfl lmax (nth 0 a []) beam];
          Ok (zipw fmul (nth 0 r []) mask)
      | _ => Ok m
      end
  end.

(** *** Flat sky, nmt_mask_flat.c *)
(** nmt_mask_flat.c:28-40 and 94-106: size of the patch around a pixel and the distance table.  Both steps are lx/nx *)
Definition flat_step (nx : Z) (lx : F) : F := lx / fofZ nx.
Definition rarr (dx dy : F) (npx npy iyy ixx : Z) : F :=
  let y := fofZ (iyy - npy) * dy in let x := fofZ (ixx - npx) * dx in m_sqrt M (x * x + y * y).
(** the loops over the patch, nmt_mask_flat.c:46-58: pixels of the map only ("continue", "break") *)
Definition patch (nx ny npx npy ix iy : Z) : list (Z * Z) :=
  flat_map (fun iyy => if ((0 <=? iy + iyy - npy) && (iy + iyy - npy <? ny))%Z then
              flat_map (fun ixx => if ((0 <=? ix + ixx - npx) && (ix + ixx - npx <? nx))%Z then [(iyy, ixx)] else []) (range 0 (2 * npx)) else [])
           (range 0 (2 * npy)).
Definition flat_rmin (nx ny npx npy : Z) (dx dy : F) (mask : list F) (ix iy : Z) : res F :=
  foldM (fun r p => let '(iyy, ixx) := p in
           do m2 <- rd mask (ix + ixx - npx + nx * (iy + iyy - npy));
           Ok (if m2 <=? 0 then (let d := rarr dx dy npx npy iyy ixx in if d <? r then d else r) else r))
        (fofZ 100000) (patch nx ny npx npy ix iy).
(** nmt_mask_flat.c:42-72 *)
Definition flat_pixel (nx ny npx npy : Z) (dx dy aporad : F) (mask : list F) (c2 : bool) (index : Z) : res F :=
  do m <- rd mask index;
  if 0 <? m then
    do r <- flat_rmin nx ny npx npy dx dy mask (index mod nx) (index / nx);
    if r <? aporad then let f := if r <? 0 then 0 else window c2 (r * (1 / aporad)) in Ok (m * f) else Ok m
  else Ok m.
(** nmt_mask_flat.c:4-81 *)
Definition apodize_flat_CX (nx ny : Z) (lx ly : F) (mask : list F) (aposize : F) (c2 : bool) : res (list F) :=
  let aporad := radians aposize in
  let dx := flat_step nx lx in
  let dy := flat_step nx lx in
  do npx <- to_int (dec 6 5 * aporad / dx);
  do npy <- to_int (dec 6 5 * aporad / dy);
  mapM (flat_pixel nx ny npx npy dx dy aporad mask c2) (range 0 (nx * ny - 1)).
(** nmt_mask_flat.c:83-147: discs around masked pixels set to zero, then fs_map2alm, fs_alter_alm with a Gaussian of full
    width aporad*180*60*2.355/pi arcmin, fs_alm2map ([gauss]) and product with the input *)
Variable gauss : Z -> Z -> F -> F -> F -> list F -> list F.
Definition smooth_flat_mask (nx ny npx npy : Z) (dx dy xthr : F) (mask : list F) : res (list F) :=
  foldM (fun out index =>
    do m <- rd mask index;
    if m <=? 0 then
      let ix := (index mod nx)%Z in let iy := (index / nx)%Z in
      foldM (fun out p => let '(iyy, ixx) := p in
               if rarr dx dy npx npy iyy ixx <=? xthr then zero_at out (ix + ixx - npx + nx * (iy + iyy - npy)) else Ok out)
            out (patch nx ny npx npy ix iy)
    else Ok out) mask (range 0 (nx * ny - 1)).
Definition apodize_flat_smooth (nx ny : Z) (lx ly : F) (mask : list F) (aposize : F) : res (list F) :=
  let aporad := radians aposize in
  let xthr := dec 5 2 * aporad in
  let dx := flat_step nx lx in
  let dy := flat_step nx lx in
  do npx <- to_int (dec 6 5 * xthr / dx);
  do npy <- to_int (dec 6 5 * xthr / dy);
  do m <- smooth_flat_mask nx ny npx npy dx dy xthr mask;
  Ok (zipw fmul mask (gauss nx ny lx ly (aporad * fofZ 180 * fofZ 60 * dec 2355 1000 / pi) m)).
(** nmt_mask_flat.c:149-172 *)
Definition nmt_apodize_mask_flat (nx ny : Z) (lx ly : F) (mask : list F) (aposize : F) (t : option apo) : res (list F) :=
  if aposize <? 0 then Exn RuntimeError
  else if aposize =? 0 then Ok mask
  else match t with
       | Some C1 => apodize_flat_CX nx ny lx ly mask aposize false
       | Some C2 => apodize_flat_CX nx ny lx ly mask aposize true
       | Some Smooth => apodize_flat_smooth nx ny lx ly mask aposize
       | None => Exn RuntimeError
       end.
(** utils.py:549-573 and namaster.i:371-381.  An array that is not two-dimensional raises; mask_in[0] of an empty array too *)
Definition mask_apodization_flat (mask : imap F) (lx ly aposize : F) (t : option apo) : res (imap F) :=
  match mask with
  | I1 _ => Exn ValueError
  | I2 k [] => Exn IndexError
  | I2 k rows =>
      do _ <- guard (0 <? lx) RuntimeError;
      do _ <- guard (0 <? ly) RuntimeError;
      do m <- nmt_apodize_mask_flat (Z.of_nat k) (Z.of_nat (length rows)) lx ly (concat rows) aposize t;
      Ok (I2 k (chunks (length rows) k m))
  end.
End Apod.
Arguments centre : clear implicits.
