(** Inversion of the constructor of M_Field.v; shapes. *)
From Verif Require Import Base M_Utils L_Utils M_Field L_Field.
Section LF2.
Context {F : ofield}.
Local Open Scope F_scope.
Add Field FfLFi2 : (fth F).
Notation mat := (list (list F)).
Variable fourpi : F.
Variable fsqrt : F -> F.
Variable eigh : mat -> list F * mat.
Variable np_inv : mat -> res mat.
Notation new := (field_new fourpi fsqrt eigh np_inv).

(** numpy arrays are rectangular *)
Definition rect (m : imap F) : Prop := match m with I1 _ => True | I2 k rows => Forall (fun r => length r = k) rows end.
Definition rect_args (a : fargs F) : Prop :=
  rect (a_mask a) /\ (forall m, a_mask22 a = Some m -> rect m) /\ (forall m, a_mask12 a = Some m -> rect m) /\
  (forall l, a_maps a = Some l -> Forall rect l) /\ (forall t, a_temp a = TArr t -> Forall (Forall rect) t).
Lemma length_reform s m v : rect m -> reform_map s m = Ok v -> length v = npix s.
Proof.
  destruct s as [n w | ny nx nf f1 f2 wts], m as [x | k rows]; cbn [reform_map rect npix]; intros R H; try discriminate H.
  - destruct (Z.eqb_spec (Z.of_nat (length x)) (12 * n * n)) as [E|E]; [|discriminate H]. injection H as <-. lia.
  - destruct (Nat.eqb_spec (length rows) ny) as [E1|E1]; [|discriminate H]. destruct (Nat.eqb_spec k nx) as [E2|E2]; [|discriminate H]. cbn [andb] in H. injection H as <-. subst.
    assert (S0 : shaped (length rows) nx rows) by (split; [reflexivity | exact R]).
    apply length_concat. assert (S1 : shaped (length rows) nx (if f1 then rev rows else rows)) by (destruct f1; [split; [apply rev_length | apply Forall_rev, R] | exact S0]).
    destruct f2; [|exact S1]. eapply shaped_map; [|exact S1]. intros r Hr. rewrite rev_length. exact Hr.
Qed.
Lemma shaped_reform s l r : Forall rect l -> mapM (reform_map s) l = Ok r -> shaped (length l) (npix s) r.
Proof.
  revert r. induction l as [|m l IH]; intros r R H; cbn [mapM] in H.
  - injection H as <-. split; [reflexivity | constructor].
  - apply bind_ok in H as (v & E & H). apply bind_ok in H as (r' & E' & H). injection H as <-. inversion R; subst. destruct (IH r' H2 E') as [L Fa].
    split; [cbn [length]; rewrite L; reflexivity|]. constructor; [eapply length_reform; eassumption | exact Fa].
Qed.
Lemma rect_ibin f a b c : rect a -> rect b -> ibin f a b = Ok c -> rect c.
Proof.
  destruct a as [x|k x], b as [y|k' y]; cbn [ibin rect]; intros Ra Rb H; try discriminate H.
  - destruct (Nat.eqb _ _); [|discriminate H]. injection H as <-. exact I.
  - destruct (Nat.eqb_spec (length x) (length y)) as [E1|E1]; [|discriminate H]. destruct (Nat.eqb_spec k k') as [E2|E2]; [|discriminate H]. cbn [andb] in H. injection H as <-. subst k'. cbn [rect].
    revert y Rb E1. induction x as [|r x IH]; intros [|r' y] Rb E1; try constructor; try discriminate E1.
    + inversion Ra; subst. inversion Rb; subst. cbn [fst snd]. rewrite length_zipw. lia.
    + inversion Ra; subst. inversion Rb; subst. apply IH; [assumption | assumption | cbn [length] in E1; lia].
Qed.
Lemma rect_imul c a : rect a -> rect (imul c a).
Proof. destruct a as [x|k x]; cbn [imul rect]; [auto|]. intro R. rewrite Forall_map. eapply Forall_impl; [|exact R]. intros r Hr. rewrite map_length. exact Hr. Qed.
Lemma rect_weights m m22 m12 m' ma : rect m -> (forall x, m22 = Some x -> rect x) -> (forall x, m12 = Some x -> rect x) -> weights m m22 m12 = Ok (m', ma) ->
  rect m' /\ (forall d o, ma = Some (d, o) -> rect d /\ rect o).
Proof.
  intros R R2 R1 H. unfold weights in H. destruct (is_some m22 || is_some m12) eqn:E.
  - destruct m22 as [m22|]; [|discriminate H]. destruct m12 as [m12|]; [|discriminate H].
    apply bind_ok in H as (x1 & E1 & H). apply bind_ok in H as (x2 & E2 & H). apply bind_ok in H as (x3 & E3 & H). apply bind_ok in H as (x4 & E4 & H). apply bind_ok in H as (x5 & E5 & H).
    cbv zeta in H. destruct (existsb _ _); [discriminate H|]. injection H as <- <-. split.
    + apply rect_imul. eapply rect_ibin; [| |exact E1]; auto.
    + intros d o H. injection H as <- <-. split; [apply rect_imul; eapply rect_ibin; [| |exact E2]; auto | auto].
  - injection H as <- <-. split; [exact R|]. intros; discriminate.
Qed.
Lemma length_map_info w m s lm ang v : rect m -> map_info fourpi w m = Ok (s, lm, ang) -> reform_map s m = Ok v -> length v = npix s.
Proof. intros R _ H. eapply length_reform; eassumption. Qed.

(** shapes after masking *)
Lemma length_vmul (a b : list F) : length (vmul a b) = Nat.min (length a) (length b).
Proof. apply length_zipw. Qed.
Lemma shaped_vmul nc np mask (m : mat) : length mask = np -> shaped nc np m -> shaped nc np (map (vmul mask) m).
Proof. intro L. apply shaped_map. intros r Hr. rewrite length_vmul, L, Hr. apply Nat.min_id. Qed.
Lemma mg_vmul nc np mask (m : mat) c p : length mask = np -> shaped nc np m -> (c < nc)%nat -> (p < np)%nat -> mg (map (vmul mask) m) c p = nth p mask 0 * mg m c p.
Proof.
  intros L S Hc Hp. unfold mg. rewrite (nth_indep _ [] (vmul mask [])) by (rewrite map_length, (proj1 S); exact Hc). rewrite (map_nth (vmul mask) m []).
  apply nth_zipw; [lia|]. rewrite (shaped_nth nc np m c [] S Hc). exact Hp.
Qed.
Lemma shaped_minus nc np al ts (m : mat) : shaped nc np m -> shaped nc np (minus_temps al ts m).
Proof.
  intros S. unfold minus_temps. split; [rewrite length_tab; exact (proj1 S)|]. apply Forall_forall. intros r Hr. apply (In_nth _ _ []) in Hr as (i & Hi & <-). rewrite length_tab in Hi.
  rewrite nth_tab by exact Hi. rewrite length_tab. apply (shaped_nth nc np m i []); [exact S | rewrite <- (proj1 S); exact Hi].
Qed.
Lemma mg_minus nc np al ts (m : mat) c p : shaped nc np m -> (c < nc)%nat -> (p < np)%nat -> mg (minus_temps al ts m) c p = mg m c p - sum (length ts) (fun i => nth i al 0 * mg (nth i ts []) c p).
Proof.
  intros S Hc Hp. unfold minus_temps. unfold mg at 1. rewrite nth_tab by (rewrite (proj1 S); exact Hc). rewrite nth_tab by (rewrite (shaped_nth nc np m c [] S Hc); exact Hp). reflexivity.
Qed.
Lemma mat_eq_mg nc np (x y : mat) : shaped nc np x -> shaped nc np y -> (forall i j, (i < nc)%nat -> (j < np)%nat -> mg x i j = mg y i j) -> x = y.
Proof.
  intros Sx Sy H. apply (list_eq_nth _ _ []); [rewrite (proj1 Sx), (proj1 Sy); reflexivity|]. intros a Ha. rewrite (proj1 Sx) in Ha.
  apply (list_eq_nth _ _ 0); [rewrite (shaped_nth nc np x a [] Sx Ha), (shaped_nth nc np y a [] Sy Ha); reflexivity|]. intros b Hb. rewrite (shaped_nth nc np x a [] Sx Ha) in Hb. apply H; assumption.
Qed.

(** ** The constructor in stages *)
Definition keep {A} (lite : bool) (x : A) : option A := if lite then None else Some x.
(** everything before the maps are looked at *)
Record head := Head { h_s : minfo F; h_ang : list F; h_mask : list F; h_mask_a : option mat; h_lmax : Z; h_lmaxm : Z; h_beam : list F }.
Definition head_of (a : fargs F) : res head :=
  do (mask, ma) <- weights (a_mask a) (a_mask22 a) (a_mask12 a);
  do (info, ang) <- map_info fourpi (a_wcs a) mask;
  let '(s, lm) := info in
  do mask <- reform_map s mask;
  do mask_a <- match ma with None => Ok None | Some (m1, m2) => do r <- mapM (reform_map s) [m1; m2]; Ok (Some r) end;
  let lmax := opt (a_lmax a) lm in
  let lmaxm := opt (a_lmaxm a) lm in
  if ((lmax <=? 0) || (lmaxm <=? 0))%Z then Exn ValueError else
  do beam <- beam_of (a_beam a) lmax;
  Ok (Head s ang mask mask_a lmax lmaxm beam).
Definition field_of (p : params F) (a : fargs F) (h : head) spin nt alm maps temp alm_temp iM als am : nfield F :=
  NField (h_s h) (h_ang h) (h_mask h) (h_mask_a h) (h_lmax h) (h_lmaxm h) (h_beam h) spin (if (spin =? 0)%Z then 1 else 2)%Z (a_pe a) (a_pb a) (a_lite a)
    (opt (a_niter a) (n_iter_default p)) (opt (a_niterm a) (n_iter_mask_default p)) nt alm maps temp alm_temp iM als am None.
(** the data after masking *)
Definition masked (a : fargs F) (h : head) (maps : mat) : mat := if a_moi a then maps else apply_mask (h_mask h) (h_mask_a h) maps.
Definition masked_t (a : fargs F) (h : head) (t : list mat) : list mat := if a_moi a then t else map (map (vmul (h_mask h))) t.
Definition um (a : fargs F) (h : head) (m : mat) : mat := if a_moi a then map (unmask (h_mask h)) m else m.
Definition pure (a : fargs F) : bool := a_pe a || a_pb a.
Definition tol_of (p : params F) (a : fargs F) : num F := opt (a_tol a) (tol_pinv_default p).
Definition anis_ok (a : fargs F) (h : head) (spin : Z) : res unit :=
  if is_some (h_mask_a h) then
    if (spin =? 0)%Z then Exn ValueError else if pure a then Exn NotImplementedError else match a_temp a with TNone => Ok tt | _ => Exn NotImplementedError end
  else Ok tt.
(** checks on maps and templates *)
Definition body_of (a : fargs F) (h : head) (imaps : list (imap F)) : res (Z * mat * option (list mat)) :=
  do spin <- spin_of (length imaps) (a_spin a);
  do maps <- mapM (reform_map (h_s h)) imaps;
  if (pure a && negb (spin =? 2)%Z)%bool then Exn ValueError else
  do _ <- anis_ok a h spin;
  do temps <- temps_of (a_temp a) (length maps) (h_s h);
  Ok (spin, maps, temps).
(** the transforms *)
Definition alms_of (K : calc F) (p : params F) (a : fargs F) (h : head) (spin : Z) (maps maps_u : mat) (temps : option (list mat)) (iM : option mat) (als : option (list F)) : res (nfield F) :=
  let niter := opt (a_niter a) (n_iter_default p) in
  let niterm := opt (a_niterm a) (n_iter_mask_default p) in
  let mt := option_map (masked_t a h) temps in
  let nt := match mt with Some t => length t | None => 0%nat end in
  let tu := match temps with Some t => map (um a h) t | None => [] end in
  let kt := match mt with Some t => keep (a_lite a) t | None => None end in
  if pure a then
    do am <- sht K 0 (h_s h) (h_lmaxm h) niterm [h_mask h];
    let amask := nth 0 am [] in
    do (alm, pmaps) <- purify fsqrt K (h_s h) (h_lmax h) (h_lmaxm h) niter (h_mask h) amask (a_pe a) (a_pb a) maps_u;
    do alm_temp <- match mt with
                   | Some _ => if a_lite a then Ok None else do r <- mapM (fun t => do (x, _) <- purify fsqrt K (h_s h) (h_lmax h) (h_lmaxm h) niter (h_mask h) amask (a_pe a) (a_pb a) t; Ok x) tu; Ok (Some r)
                   | None => Ok None
                   end;
    Ok (field_of p a h spin nt (Some alm) (keep (a_lite a) pmaps) kt alm_temp iM als (keep (a_lite a) amask))
  else
    do alm <- sht K spin (h_s h) (h_lmax h) niter maps;
    do alm_temp <- match mt with
                   | Some t => if a_lite a then Ok None else do r <- mapM (sht K spin (h_s h) (h_lmax h) niter) t; Ok (Some r)
                   | None => Ok None
                   end;
    Ok (field_of p a h spin nt (Some alm) (keep (a_lite a) maps) kt alm_temp iM als None).
Definition clean (eg : mat -> list F * mat) (a : fargs F) (p : params F) (h : head) (maps : mat) (temps : option (list mat)) : res (mat * mat * option mat * option (list F)) :=
  match temps with
  | None => Ok (masked a h maps, um a h maps, None, None)
  | Some t =>
      do (iM, al) <- deproject eg np_inv (h_s h) (tol_of p a) (masked_t a h t) (masked a h maps);
      Ok (minus_temps al (masked_t a h t) (masked a h maps), minus_temps al (map (um a h) t) (um a h maps), Some iM, Some al)
  end.
Definition staged (K : calc F) (p : params F) (a : fargs F) : res (nfield F) :=
  do h <- head_of a;
  match a_maps a with
  | None => match a_spin a with
            | None => Exn ValueError
            | Some spin => if ((spin =? 0)%Z && is_some (h_mask_a h))%bool then Exn ValueError else Ok (field_of p a h spin 0%nat None None None None None None None)
            end
  | Some imaps =>
      do (b, temps) <- body_of a h imaps;
      let '(spin, maps) := b in
      do (c, als) <- clean eigh a p h maps temps;
      let '(c, iM) := c in let '(m, mu) := c in
      alms_of K p a h spin m mu temps iM als
  end.
Lemma new_staged K p a : new K p a = staged K p a.
Proof.
  unfold field_new, staged, head_of. destruct (weights _ _ _) as [[mask ma]|e|]; cbn [bind]; [|reflexivity|reflexivity].
  destruct (map_info _ _ _) as [[[s lm] ang]|e|]; cbn [bind]; [|reflexivity|reflexivity].
  destruct (reform_map s mask) as [mk|e|]; cbn [bind]; [|reflexivity|reflexivity].
  destruct (match ma with None => Ok None | Some (m1, m2) => _ end) as [mask_a|e|]; cbn [bind]; [|reflexivity|reflexivity]. cbv zeta.
  destruct ((opt (a_lmax a) lm <=? 0)%Z || (opt (a_lmaxm a) lm <=? 0)%Z)%bool; cbn [bind]; [reflexivity|].
  destruct (beam_of _ _) as [beam|e|]; cbn [bind]; [|reflexivity|reflexivity]. unfold field_of. cbn [h_s h_ang h_mask h_mask_a h_lmax h_lmaxm h_beam].
  destruct (a_maps a) as [imaps|]; [|reflexivity].
  unfold body_of. cbn [h_s h_mask_a]. destruct (spin_of _ _) as [spin|e|]; cbn [bind]; [|reflexivity|reflexivity].
  destruct (mapM (reform_map s) imaps) as [maps|e|]; cbn [bind]; [|reflexivity|reflexivity].
  fold (pure a). destruct (pure a && negb (spin =? 2)%Z)%bool; cbn [bind]; [reflexivity|]. unfold anis_ok. cbn [h_mask_a].
  match goal with |- bind ?x _ = _ => set (X := x) end. destruct X as [u|e|]; cbn [bind]; [|reflexivity|reflexivity].
  destruct (temps_of _ _ _) as [temps|e|]; cbn [bind]; [|reflexivity|reflexivity].
  unfold clean. destruct temps as [t|].
  - cbn [h_s]. unfold masked, masked_t, um, tol_of. cbn [h_mask h_mask_a].
    destruct (deproject _ _ _ _ _ _) as [[iM al]|e|]; cbn [bind]; [|reflexivity|reflexivity]. unfold alms_of, keep. cbn [h_s h_mask h_lmax h_lmaxm option_map]. unfold masked_t, um. cbn [h_mask]. destruct (pure a); [|reflexivity]. reflexivity.
  - cbn [bind]. unfold alms_of, keep, masked, um. cbn [h_s h_mask h_mask_a h_lmax h_lmaxm option_map]. reflexivity.
Qed.
End LF2.
