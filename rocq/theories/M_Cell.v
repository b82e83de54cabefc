(** Model of pymaster/field.py, classes NmtFieldCatalog and NmtFieldCatalogClustering, and of pymaster/workspaces.py:
    compute_coupled_cell, deprojection_bias, uncorr_noise_deprojection_bias, compute_full_master. *)
From Verif Require Import Base M_Utils M_Field.
Open Scope Z_scope.

Section Cell.
Context {F : ofield}.
Local Open Scope F_scope.
Notation mat := (list (list F)).
(** external: pi, square root *)
Variables (pi : F) (fsqrt : F -> F).

(** *** Spectra of harmonic coefficients *)
(** healpy.alm2cl: sum over m of a b*, real and imaginary parts separately; coefficients of m > 0 stand for -m too,
    the imaginary part at m = 0 is not read.  Weight of each stored real number *)
Definition alm_wts (lmax : Z) : list F :=
  flat_map (fun m => flat_map (fun _ : nat => if Nat.eqb m 0 then [1; 0] else [fofZ 2; fofZ 2]) (seq m (Z.to_nat (lmax + 1) - m))) (seq 0 (Z.to_nat (lmax + 1))).
Definition alm2cl (lmax : Z) (a b : list F) : res (list F) :=
  let n := length (ells lmax) in
  if (Nat.eqb (length a) n && Nat.eqb (length b) n)%bool then
    Ok (tab (Z.to_nat (lmax + 1)) (fun l => sum n (fun i => if (nth i (ells lmax) 0 =? Z.of_nat l)%Z then nth i (alm_wts lmax) 0 * (nth i a 0 * nth i b 0) else 0) / fofZ (2 * Z.of_nat l + 1)))
  else Exn ValueError.
(** np.array([[hp.alm2cl(a1, a2) for a2 in B] for a1 in A]) *)
Definition cross (lmax : Z) (A B : mat) : res (list mat) := mapM (fun a1 => mapM (alm2cl lmax a1) B) A.

(** *** What compute_coupled_cell and compute_full_master see of a field; [g_nmaps] is None when the attribute was never set *)
Record gfield := GField { g_lmax : Z; g_lmaxm : Z; g_spin : Z; g_nmaps : option Z; g_alm : option mat; g_alm_mask : option (list F); g_Nf : F; g_Nw : F; g_cat : bool; g_beam : list F; g_map : option (nfield F) }.
(** a map-based field: field.py:116-130, no noise terms *)
Definition of_map (f : nfield F) : gfield :=
  GField (f_lmax f) (f_lmaxm f) (f_spin f) (Some (f_nmaps f)) (f_alm f) (f_alm_mask f) 0 0 false (f_beam f) (Some f).

(** *** Catalogues *)
(** ducc0.sht.adjoint_synthesis_general, utils.py:852-857: spin, lmax, values (components by sources), colatitudes, longitudes *)
Variable cat2alm : Z -> Z -> mat -> list F -> list F -> mat.
Variable have_ducc : bool.
(** field.py:898-928 and 1031-1061: the two rows of positions; ragged input is refused too *)
Definition positions_of (pos : mat) (w : list F) (lonlat : bool) : res (list F * list F) :=
  match pos with
  | [p0; p1] =>
      if (Nat.eqb (length p0) (length w) && Nat.eqb (length p1) (length w))%bool then
        let '(th, ph) := if lonlat then (map (fun x => pi / fofZ 2 - pi / fofZ 180 * x) p1, map (fun x => pi / fofZ 180 * x) p0) else (p0, p1) in
        if negb (forallb (fun x => (0 <=? x) && (x <=? pi)) th) then Exn ValueError
        else if negb (forallb (fun x => (0 <=? x) && (x <=? fofZ 2 * pi)) ph) then Exn ValueError
        else Ok (th, ph)
      else Exn ValueError
  | _ => Exn ValueError
  end.
Definition sumsq (v : list F) : F := lsum (map (fun x => x * x) v).
(** field.py:848-971 *)
Definition catalog_new (pos : mat) (w : list F) (field : option mat) (lmax : Z) (lmaxm : option Z) (spin : option Z) (beam : beam_arg F) (weighted lonlat : bool) : res gfield :=
  if negb have_ducc then Exn ValueError else
  do (th, ph) <- positions_of pos w lonlat;
  let Nw := sumsq w / (fofZ 4 * pi) in
  let lmaxm := opt lmaxm lmax in
  let amask := nth 0 (cat2alm 0 lmaxm [w] th ph) [] in
  do beam <- beam_of beam lmax;
  match field with
  | None => match spin with None => Exn ValueError | Some s => Ok (GField lmax lmaxm s None None (Some amask) 0 Nw true beam None) end
  | Some field =>
      let s := match spin with Some s => s | None => if Nat.eqb (length field) 1 then 0 else 2 end%Z in
      let nmaps := (if (s =? 0)%Z then 1 else 2)%nat in
      if (Nat.eqb (length field) nmaps && forallb (fun r => Nat.eqb (length r) (length w)) field)%bool then
        let field := if weighted then field else map (fun r => vmul r w) field in
        let Nf := lsum (map sumsq field) / (fofZ 4 * pi * fofnat nmaps) in
        Ok (GField lmax lmaxm s (Some (Z.of_nat nmaps)) (Some (cat2alm s lmax field th ph)) (Some amask) Nf Nw true beam None)
      else Exn ValueError
  end.
(** field.py:1003-1093.  A vanishing total weight of the randoms gives infinities in numpy: ZeroDivisionError here *)
Definition clustering_new (pos : mat) (w : list F) (posr : mat) (wr : list F) (lmax : Z) (lonlat : bool) : res gfield :=
  if negb have_ducc then Exn ValueError else
  do (th, ph) <- positions_of pos w lonlat;
  do (thr, phr) <- positions_of posr wr lonlat;
  if lsum wr =? 0 then Exn ZeroDivisionError else
  let alpha := lsum w / lsum wr in
  let Nw := alpha * alpha * sumsq wr / (fofZ 4 * pi) in
  let amask := cat2alm 0 lmax [map (fun x => x * alpha) wr] thr phr in
  let alm := zipw (zipw fsub) (cat2alm 0 lmax [w] th ph) amask in
  Ok (GField lmax lmax 0 None (Some alm) (Some (nth 0 amask [])) (sumsq w / (fofZ 4 * pi) + Nw) Nw true (repeat 1 (Z.to_nat (lmax + 1))) None).

(** *** workspaces.py:905-939; [same]: "f2 is f1" *)
Definition compute_coupled_cell (same : bool) (f1 f2 : gfield) : res mat :=
  if negb ((g_lmaxm f1 =? g_lmaxm f2)%Z && (g_lmax f1 =? g_lmax f2)%Z)%bool then Exn ValueError else
  do alm1 <- stored (g_alm f1);
  do alm2 <- stored (g_alm f2);
  let lmax := Z.min (g_lmax f1) (g_lmax f2) in
  let Nf := if same then g_Nf f1 else 0 in
  do cls <- cross lmax alm1 alm2;
  let cls := if Nf =? 0 then cls
             else tab (length alm1) (fun i => let row := nth i cls [] in tab (length row) (fun j => let cl := nth j row [] in if Nat.eqb i j then map (fun x => x - Nf) cl else cl)) in
  Ok (concat cls).

(** *** workspaces.py:664-787 *)
Definition shape_is (m : mat) (r c : nat) : bool := (Nat.eqb (length m) r && forallb (fun x => Nat.eqb (length x) c) m)%bool.
Definition purify_if_needed (K : calc F) (f : nfield F) (n_iter : Z) (mp : mat) : res mat :=
  if (f_pe f || f_pb f)%bool then
    do amask <- snd (get_mask_alms K f);
    do (a, _) <- purify fsqrt K (f_info f) (f_lmax f) (f_lmaxm f) n_iter (f_mask f) amask (f_pe f) (f_pb f) mp;
    Ok a
  else sht K (f_spin f) (f_info f) (f_lmax f) n_iter (map (fun r => vmul r (f_mask f)) mp).
(** [sum_m almxfl(x[m], cl(m, n)) for n < n2] *)
Definition mix (lmax : Z) (n1 n2 : nat) (cl : nat -> nat -> list F) (x : mat) : mat :=
  tab n2 (fun n => tab (length (ells lmax)) (fun i => sum n1 (fun m => nth i (almxfl lmax (nth m x []) (cl m n)) 0))).
(** SHT^-1[C*SHT[v*t]], filtered with f's mask into g's map space *)
Definition filtered (K : calc F) (f g : nfield F) (n_iter : Z) (n1 n2 : nat) (cl : nat -> nat -> list F) (t : mat) : res mat :=
  do x <- sht K (f_spin f) (f_info f) (f_lmax f) n_iter (map (fun r => vmul r (f_mask f)) t);
  isht K (f_spin g) (f_info g) (f_lmax g) (mix (f_lmax f) n1 n2 cl x).
Definition cub (c : list mat) (k l m : nat) : F := nth m (nth l (nth k c []) []) 0.
Definition at2 (p : list (list (list mat))) (i j : nat) : list mat := nth j (nth i p []) [].
Definition otl {A} (o : option (list A)) : list A := match o with Some l => l | None => [] end.
Definition spectra (n1 n2 nl : nat) (f : nat -> nat -> nat -> F) : mat := concat (tab n1 (fun k => tab n2 (fun l => tab nl (f k l)))).
Definition deprojection_bias (K : calc F) (p : params F) (f1 f2 : nfield F) (cl_guess : mat) (n_iter : option Z) : res mat :=
  let n_iter := opt n_iter (n_iter_default p) in
  if negb (is_compatible f1 f2 true) then Exn ValueError else
  let n1 := Z.to_nat (f_nmaps f1) in let n2 := Z.to_nat (f_nmaps f2) in
  let nl := Z.to_nat (f_lmax f1 + 1) in
  if negb (shape_is cl_guess (n1 * n2) nl) then Exn ValueError else
  let clg m n := nth (m * n2 + n) cl_guess [] in
  if (f_lite f1 || f_lite f2)%bool then Exn ValueError else
  let t1 := otl (f_temp f1) in let t2 := otl (f_temp f2) in
  let at1 := otl (f_alm_temp f1) in let at2_ := otl (f_alm_temp f2) in
  let nt1 := f_ntemp f1 in let nt2 := f_ntemp f2 in
  let iM1 := otl (f_iM f1) in let iM2 := otl (f_iM f2) in
  do pff <- (if Nat.ltb 0 nt1 then mapM (fun tj => do z <- filtered K f1 f2 n_iter n1 n2 clg tj; do x <- purify_if_needed K f2 n_iter z; mapM (fun fi => cross (f_lmax f1) fi x) at1) t1 else Ok []);
  do gg <- (if Nat.ltb 0 nt2 then mapM (fun tj => do z <- filtered K f2 f1 n_iter n2 n1 (fun n m => clg m n) tj;
                                                  do pr <- (if Nat.ltb 0 nt1 then mapM (fun ti => dot_map (f_info f1) ti (map (fun r => vmul r (f_mask f1)) z)) t1 else Ok []);
                                                  do x <- purify_if_needed K f1 n_iter z;
                                                  do c <- mapM (fun gi => cross (f_lmax f1) x gi) at2_; Ok (pr, c)) t2 else Ok []);
  do pfg <- (if (Nat.ltb 0 nt1 && Nat.ltb 0 nt2)%bool then mapM (fun fi => mapM (fun gj => cross (f_lmax f1) fi gj) at2_) at1 else Ok []);
  let prod j r := nth j (nth r (map fst gg) []) 0 in
  let pgg := map snd gg in
  Ok (spectra n1 n2 nl (fun k l m =>
        0 - sum nt1 (fun i => sum nt1 (fun j => mg iM1 i j * cub (at2 pff j i) k l m))
        - sum nt2 (fun i => sum nt2 (fun j => mg iM2 i j * cub (at2 pgg j i) k l m))
        + (if (Nat.ltb 0 nt1 && Nat.ltb 0 nt2)%bool then
             sum nt1 (fun i => sum nt1 (fun j => sum nt2 (fun r => sum nt2 (fun s => mg iM1 i j * mg iM2 r s * prod j r * cub (at2 pfg i s) k l m))))
           else 0))).

(** *** workspaces.py:790-854 *)
Definition uncorr_noise_deprojection_bias (K : calc F) (p : params F) (f : nfield F) (map_var : imap F) (n_iter : option Z) : res mat :=
  if f_lite f then Exn ValueError else
  let n_iter := opt n_iter (n_iter_default p) in
  let sig2 := ivals map_var in
  if negb (Nat.eqb (length sig2) (length (f_mask f))) then Exn ValueError else
  let n := Z.to_nat (f_nmaps f) in
  let nl := Z.to_nat (f_lmax f + 1) in
  let nt := f_ntemp f in
  if Nat.eqb nt 0 then Ok (spectra n n nl (fun _ _ _ => 0)) else
  let t := otl (f_temp f) in let at_ := otl (f_alm_temp f) in let iM := otl (f_iM f) in
  let wt := zipw (fun m s => m * m * s) (f_mask f) sig2 in
  do p1 <- mapM (fun fj => do x <- sht K (f_spin f) (f_info f) (f_lmax f) n_iter (map (fun r => vmul r wt) fj);
                           mapM (fun fi => mapM (fun a2 => mapM (fun a1 => alm2cl (f_lmax f) a1 a2) fi) x) at_) t;
  do p2 <- mapM (fun fi => mapM (fun fs => cross (f_lmax f) fi fs) at_) at_;
  do pr <- mapM (fun fj => mapM (fun fr => dot_map (f_info f) fj (map (fun r => vmul r wt) fr)) t) t;
  Ok (spectra n n nl (fun k l m =>
        0 - fofZ 2 * sum nt (fun i => sum nt (fun j => mg iM i j * cub (at2 p1 j i) k l m))
        + sum nt (fun i => sum nt (fun j => sum nt (fun r => sum nt (fun s => mg iM i j * mg iM r s * mg pr j r * cub (at2 p2 i s) k l m)))))).

(** *** workspaces.py:988-1071; [from_fields] and [decouple] are NmtWorkspace.from_fields and decouple_cell (M_Session.v, M_Workspace.v).
    Neither bins nor workspace: SyntaxError, represented by TypeError *)
Definition opt_shape (m : option mat) (r c : nat) : res mat :=
  match m with Some m => if shape_is m r c then Ok m else Exn ValueError | None => Ok (tab r (fun _ => repeat 0 c)) end.
Definition bias_of (K : calc F) (p : params F) (f1 f2 : gfield) (clg : mat) : res mat :=
  match g_map f1, g_map f2 with
  | Some m1, Some m2 => deprojection_bias K p m1 m2 clg None
  | _, _ => Exn ValueError     (* minfo differ, or both None and then the fields are lite *)
  end.
Definition compute_full_master {W B : Type} (from_fields : B -> res W) (decouple : W -> mat -> res mat) (K : calc F) (p : params F)
    (same : bool) (f1 f2 : gfield) (b : option B) (cl_noise cl_guess : option mat) (w : option W) : res mat :=
  match b, w with
  | None, None => Exn TypeError
  | _, _ =>
      if negb ((g_lmaxm f1 =? g_lmaxm f2)%Z && (g_lmax f1 =? g_lmax f2)%Z)%bool then Exn ValueError else
      match g_nmaps f1, g_nmaps f2 with
      | Some n1, Some n2 =>
          let r := Z.to_nat (n1 * n2) in let c := Z.to_nat (g_lmax f1 + 1) in
          do pcln <- opt_shape cl_noise r c;
          do clg <- opt_shape cl_guess r c;
          do pcld <- compute_coupled_cell same f1 f2;
          do pclb <- bias_of K p f1 f2 clg;
          do w <- match w, b with Some w, _ => Ok w | None, Some b => from_fields b | None, None => Exn TypeError end;
          decouple w (zipw (zipw fsub) (zipw (zipw fsub) pcld pclb) pcln)
      | _, _ => Exn AttributeError
      end
  end.
End Cell.
Arguments gfield : clear implicits.
