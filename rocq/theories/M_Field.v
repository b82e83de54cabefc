(** Model of pymaster/field.py, class NmtField: constructor, template deprojection, purification, getters,
    compatibility; utils.py: pseudo-inverse, comparison of pixelisations. *)
From Verif Require Import Base M_Utils.
Open Scope Z_scope.

Section Fields.
Context {F : ofield}.
Local Open Scope F_scope.
Notation mat := (list (list F)).
(** external functions: 4 pi, square root, numpy.linalg.eigh (eigenvalues, eigenvectors in columns) and
    numpy.linalg.inv (raises LinAlgError, represented by ValueError, for singular matrices) *)
Variable fourpi : F.
Variable fsqrt : F -> F.
Variable eigh : mat -> list F * mat.
Variable np_inv : mat -> res mat.

(** *** Transforms *)
(** the functions found under nmt_params.sht_calculator (utils.py:846-849): transforms at given spin, pixelisation
    and lmax; coefficients are lists of real and imaginary parts in NmtAlmInfo order *)
Record calc := Calc { c_healpy : bool; c_m2a : Z -> minfo F -> Z -> mat -> mat; c_a2m : Z -> minfo F -> Z -> mat -> mat }.
Definition is_car (s : minfo F) : bool := match s with Car _ _ _ _ _ _ => true | _ => false end.
(** utils.py:822-843: healpy refuses CAR maps; 860-893 *)
Definition sht (K : calc) (spin : Z) (s : minfo F) (lmax n_iter : Z) (maps : mat) : res mat :=
  do m <- mapM (pad_map s) maps;
  if c_healpy K && is_car s then Exn ValueError
  else Ok (refine (c_m2a K spin s lmax) (c_a2m K spin s lmax) (Z.to_nat n_iter) m (c_m2a K spin s lmax m)).
(** utils.py:896-923 *)
Definition isht (K : calc) (spin : Z) (s : minfo F) (lmax : Z) (alm : mat) : res mat :=
  if c_healpy K && is_car s then Exn ValueError else alm2map (c_a2m K spin s lmax) s alm.
(** l of each stored real number: m-major, real and imaginary parts together *)
Definition ells (lmax : Z) : list Z :=
  flat_map (fun m => flat_map (fun l => [Z.of_nat l; Z.of_nat l]) (seq m (Z.to_nat (lmax + 1) - m))) (seq 0 (Z.to_nat (lmax + 1))).
(** healpy.almxfl: multiplies by fl[l], by zero beyond the end of fl *)
Definition almxfl (lmax : Z) (alm fl : list F) : list F := zipw (fun a l => a * nth (Z.to_nat l) fl 0) alm (ells lmax).

(** *** Pseudo-inverse, utils.py:773-800 *)
Definition mg (m : mat) (i j : nat) : F := nth j (nth i m []) 0.
Definition mmul (n : nat) (a b : mat) : mat := tab n (fun i => tab n (fun j => sum n (fun k => mg a i k * mg b k j))).
Definition tr (n : nat) (a : mat) : mat := tab n (fun i => tab n (fun j => mg a j i)).
Definition diag (w : list F) : mat := tab (length w) (fun i => tab (length w) (fun j => if Nat.eqb i j then nth i w 0 else 0)).
Definition maxl (w : list F) : F := match w with [] => 0 | a :: t => fold_left fmax t a end.
(** x >= tol*max for a tolerance that is not <= 0; comparisons with NaN are false *)
Definition good (t : num F) (wmax x : F) : bool := match t with Fin t => t * wmax <=? x | PInf => wmax <? 0 | _ => false end.
Definition tol_le0 (t : num F) : bool := match t with Fin t => t <=? 0 | NInf => true | _ => false end.
(** 1./w of a zero eigenvalue is infinite in numpy and everything after it is NaN: represented by ZeroDivisionError *)
Definition pinvh (M : mat) (t : num F) : res mat :=
  if tol_le0 t then np_inv M
  else
    let '(w, v) := eigh M in
    let n := length M in
    do wi <- mapM (fun x => if good t (maxl w) x then (if x =? 0 then Exn ZeroDivisionError else Ok (1 / x)) else Ok 0) w;
    Ok (mmul n v (mmul n (diag wi) (tr n v))).

(** *** Fields *)
(** what NmtMapInfo takes from a WCS: orientation, length of full rings, ring weights, default lmax and the numbers
    compared by __eq__ (theta_min, theta_max, phi0, d_theta, d_phi) *)
Inductive wcs := NoWcs | Wcs (fth fph : bool) (nxf : nat) (wts : list F) (lm : Z) (angles : list F).
Inductive beam_arg := BNone | BArr (b : list F) | BOther.
Inductive temp_arg := TNone | TArr (t : list (list (imap F))) | TOther.
Record fargs := FArgs {
  a_mask : imap F; a_mask22 : option (imap F); a_mask12 : option (imap F); a_maps : option (list (imap F)); a_spin : option Z;
  a_temp : temp_arg; a_beam : beam_arg; a_pe : bool; a_pb : bool; a_niter : option Z; a_niterm : option Z; a_tol : option (num F);
  a_wcs : wcs; a_lmax : option Z; a_lmaxm : option Z; a_moi : bool; a_lite : bool }.
Record nfield := NField {
  f_info : minfo F; f_angles : list F; f_mask : list F; f_mask_a : option mat; f_lmax : Z; f_lmaxm : Z; f_beam : list F; f_spin : Z; f_nmaps : Z;
  f_pe : bool; f_pb : bool; f_lite : bool; f_niter : Z; f_niterm : Z; f_ntemp : nat;
  f_alm : option mat; f_maps : option mat; f_temp : option (list mat); f_alm_temp : option (list mat);
  f_iM : option mat; f_alphas : option (list F); f_alm_mask : option (list F); f_alm_mask_a : option mat }.

Definition ibin (f : F -> F -> F) (a b : imap F) : res (imap F) :=
  match a, b with
  | I1 x, I1 y => if Nat.eqb (length x) (length y) then Ok (I1 (zipw f x y)) else Exn ValueError
  | I2 k x, I2 k' y => if (Nat.eqb (length x) (length y) && Nat.eqb k k')%bool then Ok (I2 k (zipw (zipw f) x y)) else Exn ValueError
  | _, _ => Exn ValueError
  end.
Definition ivals (a : imap F) : list F := match a with I1 x => x | I2 _ x => concat x end.
Definition imul (c : F) (a : imap F) : imap F := match a with I1 x => I1 (map (fmul c) x) | I2 k x => I2 k (map (map (fmul c)) x) end.
Definition is_some {A} (o : option A) : bool := match o with Some _ => true | None => false end.
(** field.py:153-177: the three components of the weight matrix become half sum, half difference and off-diagonal.
    Arrays of different shapes: numpy broadcasting is left out (ValueError) *)
Definition fmean (l : list F) : F := lsum l / fofnat (length l).
Definition weights (m : imap F) (m22 m12 : option (imap F)) : res (imap F * option (imap F * imap F)) :=
  if is_some m22 || is_some m12 then
    match m22, m12 with
    | Some m22, Some m12 =>
        do s <- ibin fadd m m22;
        do d <- ibin fsub m m22;
        do p <- ibin fmul m m22;
        do q <- ibin fmul m12 m12;
        do det <- ibin fsub p q;
        let scale := fmean (ivals s) in
        if existsb (fun x => x <? - (fofZ 1 / fofZ 100000) * scale) (ivals det) then Exn ValueError
        else let half := 1 / fofZ 2 in Ok (imul half s, Some (imul half d, m12))
    | _, _ => Exn ValueError
    end
  else Ok (m, None).
(** utils.py:266-361: pixelisation and default lmax.  (A two-dimensional mask without WCS is refused by reform_map) *)
Definition map_info (w : wcs) (m : imap F) : res (minfo F * Z * list F) :=
  match w, m with
  | NoWcs, I1 v => do n <- healpix_nside (Z.of_nat (length v)); Ok (Hpx n (fourpi / fofZ (12 * n * n)), 3 * n - 1, [])%Z
  | NoWcs, I2 _ _ => Exn ValueError
  | Wcs _ _ _ _ _ _, I1 _ => Exn ValueError
  | Wcs fth fph nxf wts lm ang, I2 k rows => Ok (Car (length rows) k nxf fth fph wts, lm, ang)
  end.
Definition opt {A} (o : option A) (d : A) : A := match o with Some a => a | None => d end.
(** field.py:195-208 *)
Definition beam_of (b : beam_arg) (lmax : Z) : res (list F) :=
  match b with
  | BNone => Ok (repeat 1 (Z.to_nat (lmax + 1)))
  | BArr b => if (Z.of_nat (length b) <=? lmax)%Z then Exn ValueError else Ok b
  | BOther => Exn ValueError
  end.
(** field.py:227-238; an array of maps of different shapes is refused by reform_map in this model *)
Definition spin_of (n : nat) (spin : option Z) : res Z :=
  if negb (Nat.eqb n 1) && negb (Nat.eqb n 2) then Exn ValueError
  else match spin with
       | None => Ok (if Nat.eqb n 1 then 0 else 2)%Z
       | Some s => if ((negb (s =? 0)%Z && Nat.eqb n 1) || ((s =? 0)%Z && negb (Nat.eqb n 1)))%bool then Exn ValueError else Ok s
       end.
(** field.py:264-276 *)
Definition temps_of (t : temp_arg) (nmaps : nat) (s : minfo F) : res (option (list mat)) :=
  match t with
  | TNone => Ok None
  | TOther => Exn ValueError
  | TArr [] => Exn IndexError
  | TArr ts => if forallb (fun t => Nat.eqb (length t) nmaps) ts then do r <- mapM (mapM (reform_map s)) ts; Ok (Some r) else Exn ValueError
  end.
Definition vmul : list F -> list F -> list F := zipw fmul.
(** field.py:284-288: divide by the mask where it is positive *)
Definition unmask (mask v : list F) : list F := zipw (fun m x => if 0 <? m then x / m else x) mask v.
(** field.py:297-304 *)
Definition apply_mask (mask : list F) (mask_a : option mat) (maps : mat) : mat :=
  match mask_a with
  | None => map (vmul mask) maps
  | Some a =>
      let a0 := nth 0 a [] in let a1 := nth 1 a [] in
      let m0 := nth 0 maps [] in let m1 := nth 1 maps [] in
      zipw (zipw fadd) (map (vmul mask) maps) [zipw fadd (vmul m0 a0) (vmul m1 a1); zipw fsub (vmul m0 a1) (vmul m1 a0)]
  end.
(** field.py:310-327: maps minus a combination of templates *)
Definition minus_temps (alphas : list F) (temps : list mat) (maps : mat) : mat :=
  tab (length maps) (fun c => tab (length (nth c maps [])) (fun p => mg maps c p - sum (length temps) (fun i => nth i alphas 0 * mg (nth i temps []) c p))).
Definition gram (s : minfo F) (temps : list mat) : res mat := mapM (fun t2 => mapM (fun t1 => dot_map s t1 t2) temps) temps.
Definition mvec (n : nat) (m : mat) (v : list F) : list F := tab n (fun i => sum n (fun j => mg m i j * nth j v 0)).
Definition deproject (s : minfo F) (t : num F) (temps : list mat) (maps : mat) : res (mat * list F) :=
  do M <- gram s temps;
  do iM <- pinvh M t;
  do prods <- mapM (fun t => dot_map s t maps) temps;
  Ok (iM, mvec (length temps) iM prods).

(** *** Purification, field.py:468-530 *)
Definition vadd (a b : list F) : res (list F) := if Nat.eqb (length a) (length b) then Ok (zipw fadd a b) else Exn ValueError.
(** alms[ipol] += almxfl(palm[ipol], fl[:lmax+1]) for the components to purify *)
Definition add_pure (pe pb : bool) (lmax : Z) (fl : list F) (alms palm : mat) : res mat :=
  let fl := firstn (Z.to_nat (lmax + 1)) fl in
  do e <- (if pe then vadd (nth 0 alms []) (almxfl lmax (nth 0 palm []) fl) else Ok (nth 0 alms []));
  do b <- (if pb then vadd (nth 1 alms []) (almxfl lmax (nth 1 palm []) fl) else Ok (nth 1 alms []));
  Ok [e; b].
(** product of a spin field with a spin-s mask *)
Definition spin_prod (w u : mat) : mat :=
  let w0 := nth 0 w [] in let w1 := nth 1 w [] in
  let u0 := nth 0 u [] in let u1 := nth 1 u [] in
  [zipw fadd (vmul w0 u0) (vmul w1 u1); zipw fsub (vmul w0 u1) (vmul w1 u0)].
Definition fls (lmaxm : Z) (f : Z -> F) : list F := map (fun l => f (Z.of_nat l)) (seq 0 (Z.to_nat (lmaxm + 1))).
Definition from2 (f : Z -> F) (l : Z) : F := if (l <? 2)%Z then 0 else f l.
Definition fl1 (l : Z) : F := - fsqrt (fofZ ((l + 1) * l)).
Definition fl2 : Z -> F := from2 (fun l => fofZ 2 / fsqrt (fofZ ((l + 2) * (l - 1)))).
Definition fl3 : Z -> F := from2 (fun l => - fsqrt (fofZ ((l + 2) * (l - 1)))).
Definition fl4 : Z -> F := from2 (fun l => 1 / fsqrt (fofZ ((l + 2) * (l + 1) * l * (l - 1)))).
Definition purify (K : calc) (s : minfo F) (lmax lmaxm n_iter : Z) (mask alm_mask : list F) (pe pb : bool) (u : mat) : res (mat * mat) :=
  do alms <- sht K 2 s lmaxm n_iter (map (vmul mask) u);
  let walm := almxfl lmaxm alm_mask (fls lmaxm fl1) in
  let zero := map (fun x => x * 0) walm in
  do w1 <- isht K 1 s lmaxm [walm; zero];
  do palm <- sht K 1 s lmax n_iter (spin_prod w1 u);
  do alms <- add_pure pe pb lmax (fls lmaxm fl2) alms palm;
  let walm := almxfl lmaxm walm (fls lmaxm fl3) in
  do w2 <- isht K 2 s lmaxm [walm; zero];
  do palm <- mapM (fun m => do a <- sht K 0 s lmax n_iter [m]; Ok (nth 0 a [])) (spin_prod w2 u);
  do alms <- add_pure pe pb lmax (fls lmaxm fl4) alms palm;
  do maps <- isht K 2 s lmax alms;
  Ok (alms, maps).

(** *** Constructor, field.py:111-347 *)
Definition field_new (K : calc) (p : params F) (a : fargs) : res nfield :=
  let niterm := opt (a_niterm a) (n_iter_mask_default p) in
  let niter := opt (a_niter a) (n_iter_default p) in
  let tol := opt (a_tol a) (tol_pinv_default p) in
  do (mask, ma) <- weights (a_mask a) (a_mask22 a) (a_mask12 a);
  do (info, ang) <- map_info (a_wcs a) mask;
  let '(s, lm) := info in
  do mask <- reform_map s mask;
  do mask_a <- match ma with None => Ok None | Some (m1, m2) => do r <- mapM (reform_map s) [m1; m2]; Ok (Some r) end;
  let lmax := opt (a_lmax a) lm in
  let lmaxm := opt (a_lmaxm a) lm in
  if ((lmax <=? 0) || (lmaxm <=? 0))%Z then Exn ValueError else
  do beam <- beam_of (a_beam a) lmax;
  let mk spin nt alm maps temp alm_temp iM alphas amask :=
    NField s ang mask mask_a lmax lmaxm beam spin (if (spin =? 0)%Z then 1 else 2)%Z (a_pe a) (a_pb a) (a_lite a) niter niterm nt alm maps temp alm_temp iM alphas amask None in
  match a_maps a with
  | None =>
      match a_spin a with
      | None => Exn ValueError
      | Some spin => if ((spin =? 0)%Z && is_some mask_a)%bool then Exn ValueError else Ok (mk spin 0%nat None None None None None None None)
      end
  | Some maps =>
      do spin <- spin_of (length maps) (a_spin a);
      do maps <- mapM (reform_map s) maps;
      let pure := a_pe a || a_pb a in
      if (pure && negb (spin =? 2)%Z)%bool then Exn ValueError else
      do _ <- (if is_some mask_a then
                 if (spin =? 0)%Z then Exn ValueError
                 else if pure then Exn NotImplementedError
                 else match a_temp a with TNone => Ok tt | _ => Exn NotImplementedError end
               else Ok tt);
      do temps <- temps_of (a_temp a) (length maps) s;
      let um m := if a_moi a then map (unmask mask) m else m in
      let maps_u := um maps in
      let temps_u := match temps with Some t => map um t | None => [] end in
      let maps := if a_moi a then maps else apply_mask mask mask_a maps in
      let mtemps := match temps with Some t => Some (if a_moi a then t else map (map (vmul mask)) t) | None => None end in
      do dep <- match mtemps with Some t => do r <- deproject s tol t maps; Ok (Some r) | None => Ok None end;
      let alphas := match dep with Some (_, al) => al | None => [] end in
      let maps := match mtemps with Some t => minus_temps alphas t maps | None => maps end in
      let maps_u := match mtemps with Some _ => minus_temps alphas temps_u maps_u | None => maps_u end in
      let nt := match mtemps with Some t => length t | None => 0%nat end in
      let keep {A} (x : A) : option A := if a_lite a then None else Some x in
      let iM := match dep with Some (i, _) => Some i | None => None end in
      let als := match dep with Some (_, al) => Some al | None => None end in
      if pure then
        do am <- sht K 0 s lmaxm niterm [mask];
        let amask := nth 0 am [] in
        do (alm, pmaps) <- purify K s lmax lmaxm niter mask amask (a_pe a) (a_pb a) maps_u;
        do alm_temp <- match mtemps with
                       | Some _ => if a_lite a then Ok None else do r <- mapM (fun t => do (x, _) <- purify K s lmax lmaxm niter mask amask (a_pe a) (a_pb a) t; Ok x) temps_u; Ok (Some r)
                       | None => Ok None
                       end;
        Ok (mk spin nt (Some alm) (keep pmaps) (match mtemps with Some t => keep t | None => None end) alm_temp iM als (keep amask))
      else
        do alm <- sht K spin s lmax niter maps;
        do alm_temp <- match mtemps with
                       | Some t => if a_lite a then Ok None else do r <- mapM (sht K spin s lmax niter) t; Ok (Some r)
                       | None => Ok None
                       end;
        Ok (mk spin nt (Some alm) (keep maps) (match mtemps with Some t => keep t | None => None end) alm_temp iM als None)
  end.

(** *** Getters, field.py:370-466 *)
Definition set_alm_mask (f : nfield) (m : option (list F)) (a : option mat) : nfield :=
  NField (f_info f) (f_angles f) (f_mask f) (f_mask_a f) (f_lmax f) (f_lmaxm f) (f_beam f) (f_spin f) (f_nmaps f) (f_pe f) (f_pb f) (f_lite f) (f_niter f) (f_niterm f) (f_ntemp f)
        (f_alm f) (f_maps f) (f_temp f) (f_alm_temp f) (f_iM f) (f_alphas f) m a.
Definition get_mask_alms (K : calc) (f : nfield) : nfield * res (list F) :=
  match f_alm_mask f with
  | Some m => (f, Ok m)
  | None => match sht K 0 (f_info f) (f_lmaxm f) (f_niterm f) [f_mask f] with
            | Ok r => let m := nth 0 r [] in (if f_lite f then f else set_alm_mask f (Some m) (f_alm_mask_a f), Ok m)
            | Exn e => (f, Exn e)
            | UB => (f, UB)
            end
  end.
Definition get_anisotropic_mask_alms (K : calc) (f : nfield) : nfield * res mat :=
  match f_mask_a f with
  | None => (f, Exn ValueError)
  | Some ma =>
      match f_alm_mask_a f with
      | Some m => (f, Ok m)
      | None => match sht K (2 * f_spin f) (f_info f) (f_lmaxm f) (f_niterm f) ma with
                | Ok r => (if f_lite f then f else set_alm_mask f (f_alm_mask f) (Some r), Ok r)
                | Exn e => (f, Exn e)
                | UB => (f, UB)
                end
      end
  end.
Definition stored {A} (o : option A) : res A := match o with Some a => Ok a | None => Exn ValueError end.
Definition get_maps (f : nfield) : res mat := stored (f_maps f).
Definition get_alms (f : nfield) : res mat := stored (f_alm f).
Definition get_templates (f : nfield) : res (list mat) := stored (f_temp f).
Definition get_anisotropic_mask (f : nfield) : res mat := stored (f_mask_a f).

(** *** Comparison: utils.py:363-387, field.py:349-368 *)
Fixpoint leqb (a b : list F) : bool := match a, b with [], [] => true | x :: a, y :: b => (x =? y) && leqb a b | _, _ => false end.
Definition info_eq (s1 : minfo F) (g1 : list F) (s2 : minfo F) (g2 : list F) : bool :=
  match s1, s2 with
  | Hpx n1 _, Hpx n2 _ => (n1 =? n2)%Z
  | Car ny1 nx1 _ _ _ _, Car ny2 nx2 _ _ _ _ => Nat.eqb (ny1 * nx1) (ny2 * nx2) && Nat.eqb nx1 nx2 && Nat.eqb ny1 ny2 && leqb g1 g2
  | _, _ => false
  end.
Definition is_compatible (f g : nfield) (strict : bool) : bool :=
  if strict && negb (info_eq (f_info f) (f_angles f) (f_info g) (f_angles g)) then false
  else if negb (f_lmaxm f =? f_lmaxm g)%Z then false
  else if negb (f_lmax f =? f_lmax g)%Z then false else true.
End Fields.
Arguments calc : clear implicits. Arguments wcs : clear implicits. Arguments beam_arg : clear implicits. Arguments temp_arg : clear implicits. Arguments fargs : clear implicits. Arguments nfield : clear implicits.
