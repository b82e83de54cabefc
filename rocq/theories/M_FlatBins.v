(** Model of flat-sky binning: pymaster/bins.py (NmtBinFlat), src/nmt_bins_flat.c and the
    interpolator of src/nmt_field_flat.c:4-34. *)
From Verif Require Import Base M_Bins.
Open Scope nat_scope.

Section FlatBins.
Context {F : ofield}.
Local Open Scope F_scope.

(** nmt_binning_scheme_flat (namaster.h): ell_0_list, ell_f_list *)
Record fbins := FBins { fb_l0 : list F; fb_lf : list F }.
(** bins.py:325-327 and namaster.i:149-155: arrays must have equal length *)
Definition NmtBinFlat (l0 lf : list F) : res fbins :=
  if Nat.eqb (length l0) (length lf) then Ok (FBins l0 lf) else Exn RuntimeError.
Definition fb_n (b : fbins) : Z := Z.of_nat (length (fb_l0 b)).

(** nmt_bins_flat.c:10-16: backwards loop; argument = ilback+1 *)
Fixpoint search_back (l0 : list F) (l : F) (n : nat) : res Z :=
  match n with
  | O => Ok (-1)%Z
  | S m => do x <- rd l0 (Z.of_nat m);
           if l <? x then search_back l0 l m else Ok (Z.of_nat m)
  end.
(** nmt_bins_flat.c:20-26: forwards loop over the remaining upper edges *)
Fixpoint search_fwd (rest : list F) (l : F) (idx : Z) : Z :=
  match rest with
  | [] => (-1)%Z
  | x :: t => if x <=? l then search_fwd t l (idx + 1) else idx
  end.
(** nmt_bins_flat.c:4-32 *)
Definition search_fast (b : fbins) (l : F) (il : Z) : res Z :=
  let il := if (il <? 0)%Z then 0%Z else il in
  do a <- rd (fb_l0 b) il;
  if l <? a then search_back (fb_l0 b) l (Z.to_nat il)
  else
    do z <- rd (fb_lf b) il;
    if z <=? l then Ok (search_fwd (skipn (Z.to_nat (il + 1)) (fb_lf b)) l (il + 1))
    else Ok il.

(** nmt_bins_flat.c:96-105: one spectrum; the band index is carried from one ell to the next.
    -999 marks ells outside every band. *)
Fixpoint unbin_flat1 (b : fbins) (cl : list F) (ells : list F) (ib : Z) : res (list F) :=
  match ells with
  | [] => Ok []
  | l :: t =>
      do ib' <- search_fast b l ib;
      do v <- (if (0 <=? ib')%Z then rd cl ib' else Ok (fofZ (-999)));
      do r <- unbin_flat1 b cl t ib';
      Ok (v :: r)
  end.
(** nmt_bins_flat.c:91-106 *)
Definition nmt_unbin_cls_flat (b : fbins) (cls : list (list F)) (ells : list F) : res (list (list F)) :=
  mapM (fun cl => unbin_flat1 b cl ells 0) cls.

(** GSL linear interpolation at x inside the sampled range: first interval with x < x_(i+1).
    gsl_interp_linear: y_lo + (x-x_lo)/(x_hi-x_lo)*(y_hi-y_lo). *)
Fixpoint interp_lin (xs ys : list F) (x : F) : F :=
  match xs, ys with
  | x0 :: ((x1 :: _) as xt), y0 :: ((y1 :: _) as yt) =>
      if x <? x1 then y0 + (x - x0) / (x1 - x0) * (y1 - y0) else interp_lin xt yt x
  | _, _ => 0
  end.
Fixpoint increasing (xs : list F) : bool :=
  match xs with
  | x0 :: ((x1 :: _) as t) => (x0 <? x1) && increasing t
  | _ => true
  end.
(** nmt_field_flat.c:4-17 and 26-34 for is_const=0.  GSL's default error handler aborts the
    process for fewer than two samples or non-increasing abscissae: [UB]. *)
Definition k_function (xs ys : list F) (y0 yf : F) (k : F) : res F :=
  if (2 <=? length xs)%nat && increasing xs then
    do a <- rd xs 0;
    do z <- rd xs (Z.of_nat (length xs) - 1);
    if k <=? a then Ok y0 else if z <=? k then Ok yf else Ok (interp_lin xs ys k)
  else UB.

Definition half (a b : F) : F := (1 / (1 + 1)) * (a + b).
(** nmt_bins_flat.c:71-89 *)
Definition nmt_bin_cls_flat (b : fbins) (ells : list F) (cls : list (list F)) : res (list (list F)) :=
  mapM (fun cl =>
    do y0 <- rd cl 0;
    do yf <- rd cl (Z.of_nat (length ells) - 1);
    mapM (fun p => k_function ells cl y0 yf (half (fst p) (snd p))) (combine (fb_l0 b) (fb_lf b))) cls.
(** nmt_bins_flat.c:108-114; bins.py:345-354 *)
Definition flat_effective_ells (b : fbins) : list F :=
  map (fun p => half (fst p) (snd p)) (combine (fb_l0 b) (fb_lf b)).

(** bins.py:356-382 *)
Definition flat_bin_cell (b : fbins) (ells : list F) (a : arr F) : res (arr F) :=
  do (oned, cls) <- shape_guard (Z.of_nat (length ells)) a;
  do o <- nmt_bin_cls_flat b ells cls;
  Ok (reshape oned (length (fb_l0 b)) o).
(** bins.py:384-406 *)
Definition flat_unbin_cell (b : fbins) (a : arr F) (ells : list F) : res (arr F) :=
  do (oned, cls) <- shape_guard (fb_n b) a;
  do o <- nmt_unbin_cls_flat b cls ells;
  Ok (reshape oned (length ells) o).

(** nmt_bins_flat.c:41-57: nmt_bins_flat_constant with integer lmax *)
Definition flat_constant (nlb lmax : Z) : fbins :=
  let n := Z.to_nat (Z.quot (lmax - 1) nlb) in
  FBins (tab n (fun i => fofZ (2 + nlb * Z.of_nat i))) (tab n (fun i => fofZ (2 + nlb * (Z.of_nat i + 1)))).
End FlatBins.
Arguments fbins : clear implicits.
Arguments FBins {F}.
