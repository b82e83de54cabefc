(** Property C38: which arguments the constructor accepts. *)
From Verif Require Import Base M_Utils L_Utils M_Field L_Field L_Field2 P_Utils P_Field P_Field2 P_Field3 P_Field5.
Section PF6.
Context {F : ofield}.
Local Open Scope F_scope.
Add Field FfPFi6 : (fth F).
Notation mat := (list (list F)).
Variable fourpi : F.
Variable fsqrt : F -> F.
Variable eigh : mat -> list F * mat.
Variable np_inv : mat -> res mat.
Notation new := (field_new fourpi fsqrt eigh np_inv).

Ltac ok := cbn [bind]; eexists; reflexivity.
(** numpy's shape *)
Definition shape (m : imap F) : list nat := match m with I1 x => [length x] | I2 k x => [length x; k] end.
(** a HEALPix map of resolution 2 to 65536, or a two-dimensional array with a WCS; and the default lmax *)
Definition pixels_ok (w : wcs F) (sh : list nat) (lm : Z) : Prop :=
  match w with
  | NoWcs => exists k, (1 <= k <= 16)%Z /\ sh = [Z.to_nat (12 * 2 ^ k * 2 ^ k)] /\ lm = (3 * 2 ^ k - 1)%Z
  | Wcs _ _ _ _ lm' _ => (exists ny nx, sh = [ny; nx]) /\ lm = lm'
  end.
(** one mask, or the three components of a matrix that is nearly nowhere negative definite *)
Definition weights_ok (a : fargs F) : Prop :=
  match a_mask22 a, a_mask12 a with
  | None, None => True
  | Some m22, Some m12 => shape m22 = shape (a_mask a) /\ shape m12 = shape (a_mask a) /\
      let w11 := ivals (a_mask a) in let w22 := ivals m22 in let w12 := ivals m12 in
      let mean := sum (length w11) (fun q => nth q w11 0 + nth q w22 0) / fofnat (length w11) in
      forall q, (q < length w11)%nat -> - (fofZ 1 / fofZ 100000) * mean <= nth q w11 0 * nth q w22 0 - nth q w12 0 * nth q w12 0
  | _, _ => False
  end.
Definition data_ok (a : fargs F) : Prop :=
  let anis := a_mask22 a <> None in
  let sh := shape (a_mask a) in
  match a_maps a with
  | None => exists s, a_spin a = Some s /\ (anis -> s <> 0%Z)
  | Some im => exists s, ((length im = 1%nat /\ s = 0%Z) \/ (length im = 2%nat /\ s <> 0%Z)) /\ (a_spin a = Some s \/ (a_spin a = None /\ s = if Nat.eqb (length im) 1 then 0%Z else 2%Z)) /\
      Forall (fun m => shape m = sh) im /\ (a_pe a || a_pb a = true -> s = 2%Z) /\ (anis -> a_pe a || a_pb a = false /\ a_temp a = TNone /\ s <> 0%Z) /\
      match a_temp a with TNone => True | TOther => False | TArr ts => ts <> [] /\ Forall (fun t => length t = length im /\ Forall (fun m => shape m = sh) t) ts end
  end.
Definition accepts (a : fargs F) : Prop :=
  exists lm, pixels_ok (a_wcs a) (shape (a_mask a)) lm /\ weights_ok a /\ (0 < opt (a_lmax a) lm)%Z /\ (0 < opt (a_lmaxm a) lm)%Z /\
    match a_beam a with BNone => True | BArr b => (opt (a_lmax a) lm < Z.of_nat (length b))%Z | BOther => False end /\ data_ok a.

Lemma ibin_iff f x y : (exists z, ibin f x y = Ok z) <-> shape y = shape x.
Proof.
  destruct x as [x|k x], y as [y|k' y]; cbn [ibin shape]; split; try (intros [z H]; discriminate H); try discriminate.
  - intros [z H]. destruct (Nat.eqb_spec (length x) (length y)); [congruence | discriminate H].
  - intro H. injection H as H. rewrite H, Nat.eqb_refl. eexists; reflexivity.
  - intros [z H]. destruct (Nat.eqb_spec (length x) (length y)); [|discriminate H]. destruct (Nat.eqb_spec k k'); [congruence | discriminate H].
  - intro H. injection H as H1 H2. rewrite H1, H2, !Nat.eqb_refl. eexists; reflexivity.
Qed.
Lemma ibin_val f x y z : rect x -> rect y -> ibin f x y = Ok z -> shape z = shape x /\ rect z /\ ivals z = zipw f (ivals x) (ivals y) /\ length (ivals y) = length (ivals x).
Proof.
  intros Rx Ry H. split; [|split; [exact (rect_ibin _ _ _ _ Rx Ry H)|]].
  - destruct x as [x|k x], y as [y|k' y]; cbn [ibin] in H; try discriminate H.
    + destruct (Nat.eqb_spec (length x) (length y)) as [E|E]; [|discriminate H]. injection H as <-. cbn [shape]. rewrite length_zipw. f_equal. lia.
    + destruct (Nat.eqb_spec (length x) (length y)) as [E|E]; [|discriminate H]. destruct (Nat.eqb k k'); [|discriminate H]. cbn [andb] in H. injection H as <-. cbn [shape]. rewrite length_zipw. f_equal. lia.
  - destruct x as [x|k x], y as [y|k' y]; cbn [ibin] in H; try discriminate H.
    + destruct (Nat.eqb_spec (length x) (length y)) as [E|E]; [|discriminate H]. injection H as <-. cbn [ivals]. auto.
    + destruct (Nat.eqb_spec (length x) (length y)) as [E|E]; [|discriminate H]. destruct (Nat.eqb_spec k k') as [E2|E2]; [|discriminate H]. cbn [andb] in H. injection H as <-. subst k'. cbn [ivals rect] in *. split; [symmetry; apply (zipw_concat f x y k); assumption|].
      rewrite (length_concat (length x) k x) by (split; auto). apply length_concat. split; auto.
Qed.
Lemma shape_imul c (x : imap F) : shape (imul c x) = shape x.
Proof. destruct x; cbn [imul shape]; rewrite map_length; reflexivity. Qed.
Lemma weights_iff a : rect_args a -> (exists r, weights (a_mask a) (a_mask22 a) (a_mask12 a) = Ok r) <-> weights_ok a.
Proof.
  intros (R & R22 & R12 & _). unfold weights_ok, weights. destruct (a_mask22 a) as [m22|], (a_mask12 a) as [m12|]; cbn [is_some orb]; split; try (intros [r H]; discriminate H); try contradiction; eauto.
  - intros [r H]. specialize (R22 _ eq_refl). specialize (R12 _ eq_refl). apply bind_ok in H as (s & Es & H). apply bind_ok in H as (d & Ed & H). apply bind_ok in H as (p & Ep & H). apply bind_ok in H as (q & Eq & H). apply bind_ok in H as (det & Edet & H). cbv zeta in H. destruct (existsb _ _) eqn:EX; [discriminate H|].
    destruct (ibin_val _ _ _ _ R R22 Es) as (_ & _ & Vs & L22). destruct (ibin_val _ _ _ _ R R22 Ep) as (Sp & Rp & Vp & _). destruct (ibin_val _ _ _ _ R12 R12 Eq) as (Sq & Rq & Vq & _). destruct (ibin_val _ _ _ _ Rp Rq Edet) as (_ & _ & Vd & Ld).
    assert (S1 : shape m22 = shape (a_mask a)) by (apply (ibin_iff fadd); eauto). assert (S2 : shape m12 = shape (a_mask a)). { assert (X : shape q = shape p) by (apply (ibin_iff fsub); eauto). rewrite Sq, Sp in X. exact X. }
    split; [exact S1|]. split; [exact S2|]. cbv zeta. intros k Hk.
    assert (L12 : length (ivals m12) = length (ivals (a_mask a))). { rewrite Vp, Vq, !length_zipw in Ld. lia. }
    assert (IN : In (nth k (ivals det) 0) (ivals det)) by (apply nth_In; rewrite Vd, Vp, Vq, !length_zipw; lia).
    assert (G : (nth k (ivals det) 0 <? - (fofZ 1 / fofZ 100000) * fmean (ivals s)) = false) by (rewrite <- not_true_iff_false; intro X; rewrite <- not_true_iff_false in EX; apply EX; apply existsb_exists; eauto).
    unfold fltb in G. apply negb_false_iff in G. change (- (fofZ 1 / fofZ 100000) * fmean (ivals s) <= nth k (ivals det) 0) in G. rewrite Vd in G. rewrite (nth_zipw fsub _ _ k 0 0 0) in G by (rewrite ?Vp, ?Vq, !length_zipw; lia). rewrite Vp, Vq in G. rewrite !(nth_zipw fmul _ _ k 0 0 0) in G by lia.
    assert (MM : fmean (ivals s) = sum (length (ivals (a_mask a))) (fun q => nth q (ivals (a_mask a)) 0 + nth q (ivals m22) 0) / fofnat (length (ivals (a_mask a)))).
    { unfold fmean. rewrite Vs, length_zipw, L22, Nat.min_id. f_equal. rewrite <- (map_id (zipw _ _ _)), (lsum_map_nth _ _ 0), length_zipw, L22, Nat.min_id. apply sum_ext. intros j Hj. rewrite (nth_zipw fadd _ _ j 0 0 0) by lia. reflexivity. }
    rewrite MM in G. exact G.
  - intros (S1 & S2 & D). specialize (R22 _ eq_refl). specialize (R12 _ eq_refl). destruct (proj2 (ibin_iff fadd _ _) S1) as [s Es]. destruct (proj2 (ibin_iff fsub _ _) S1) as [d Ed]. destruct (proj2 (ibin_iff fmul _ _) S1) as [p Ep]. destruct (proj2 (ibin_iff fmul m12 m12) eq_refl) as [q Eq].
    destruct (ibin_val _ _ _ _ R R22 Es) as (_ & _ & Vs & L22). destruct (ibin_val _ _ _ _ R R22 Ep) as (Sp & Rp & Vp & _). destruct (ibin_val _ _ _ _ R12 R12 Eq) as (Sq & Rq & Vq & _).
    assert (SQ : shape q = shape p) by congruence. destruct (proj2 (ibin_iff fsub _ _) SQ) as [det Edet]. destruct (ibin_val _ _ _ _ Rp Rq Edet) as (_ & _ & Vd & Ld). rewrite Es, Ed, Ep, Eq. cbn [bind]. rewrite Edet. cbn [bind]. cbv zeta.
    assert (L12 : length (ivals m12) = length (ivals (a_mask a))). { rewrite Vp, Vq, !length_zipw in Ld. lia. }
    destruct (existsb _ _) eqn:EX; [|eauto]. exfalso. apply existsb_exists in EX as (x & Hx & EX). apply (In_nth _ _ 0) in Hx as (k & Hk & <-). rewrite Vd, Vp, Vq, !length_zipw in Hk.
    assert (MM : fmean (ivals s) = sum (length (ivals (a_mask a))) (fun q => nth q (ivals (a_mask a)) 0 + nth q (ivals m22) 0) / fofnat (length (ivals (a_mask a)))).
    { unfold fmean. rewrite Vs, length_zipw, L22, Nat.min_id. f_equal. rewrite <- (map_id (zipw _ _ _)), (lsum_map_nth _ _ 0), length_zipw, L22, Nat.min_id. apply sum_ext. intros j Hj. rewrite (nth_zipw fadd _ _ j 0 0 0) by lia. reflexivity. }
    cbv zeta in D. specialize (D k ltac:(lia)). rewrite <- MM in D. unfold fltb in EX. rewrite Vd in EX. rewrite (nth_zipw fsub _ _ k 0 0 0) in EX by (rewrite ?Vp, ?Vq, !length_zipw; lia). rewrite Vp, Vq in EX. rewrite !(nth_zipw fmul _ _ k 0 0 0) in EX by lia. unfold fle in D. rewrite D in EX. discriminate EX.
Qed.
Lemma weights_shape a m ma : rect_args a -> weights (a_mask a) (a_mask22 a) (a_mask12 a) = Ok (m, ma) -> shape m = shape (a_mask a) /\ match ma with Some (d, o) => shape d = shape (a_mask a) /\ shape o = shape (a_mask a) /\ a_mask22 a <> None | None => a_mask22 a = None end.
Proof.
  intros R H. assert (W : weights_ok a) by (apply weights_iff; eauto). destruct R as (R & R22 & R12 & _). unfold weights_ok in W. unfold weights in H. destruct (a_mask22 a) as [m22|], (a_mask12 a) as [m12|]; cbn [is_some orb] in H; try contradiction W.
  - destruct W as (S1 & S2 & _). apply bind_ok in H as (s & Es & H). apply bind_ok in H as (d & Ed & H). apply bind_ok in H as (p & Ep & H). apply bind_ok in H as (q & Eq & H). apply bind_ok in H as (det & Edet & H). cbv zeta in H. destruct (existsb _ _); [discriminate H|]. injection H as <- <-. rewrite !shape_imul. destruct (ibin_val _ _ _ _ R (R22 _ eq_refl) Es) as (-> & _). destruct (ibin_val _ _ _ _ R (R22 _ eq_refl) Ed) as (-> & _). repeat split; try assumption. discriminate.
  - injection H as <- <-. split; reflexivity.
Qed.
Lemma pow2_pos k : (1 <= k <= 16)%Z -> (0 < 2 ^ k)%Z.
Proof. intro H. apply Z.pow_pos_nonneg; [reflexivity | lia]. Qed.
Lemma pow2_sq k : (1 <= k <= 16)%Z -> (0 <= 12 * 2 ^ k * 2 ^ k)%Z.
Proof. intro H. pose proof (pow2_pos k H). nia. Qed.
Lemma pow2_inj k k' : (1 <= k <= 16)%Z -> (1 <= k' <= 16)%Z -> (12 * 2 ^ k * 2 ^ k = 12 * 2 ^ k' * 2 ^ k' -> 2 ^ k = 2 ^ k')%Z.
Proof. intros H H'. pose proof (pow2_pos k H). pose proof (pow2_pos k' H'). nia. Qed.
Lemma pixels_iff w (m : imap F) : (exists s lm ang, map_info fourpi w m = Ok (s, lm, ang)) <-> exists lm, pixels_ok w (shape m) lm.
Proof.
  unfold map_info, pixels_ok. destruct w as [|f1 f2 nxf wts lm ang], m as [v|k rows]; cbn [shape]; split.
  - intros (s & lm & ang & H). apply bind_ok in H as (n & En & H). apply C47_accepted_sizes in En as (k & Hk & -> & E). exists (3 * 2 ^ k - 1)%Z, k. split; [exact Hk|]. split; [|reflexivity]. rewrite <- E, Nat2Z.id. reflexivity.
  - intros (lm & k & Hk & E & _). injection E as E. assert (P : (0 < 2 ^ k)%Z) by (apply pow2_pos; exact Hk). assert (EN : healpix_nside (Z.of_nat (length v)) = Ok (2 ^ k)%Z) by (apply C47_accepted_sizes; exists k; split; [exact Hk|]; split; [reflexivity|]; rewrite E, Z2Nat.id by (apply pow2_sq; exact Hk); reflexivity). rewrite EN. cbn [bind]. eexists _, _, _. reflexivity.
  - intros (s & lm & ang & H). discriminate H.
  - intros (lm & k' & _ & E & _). discriminate E.
  - intros (s & lm' & ang' & H). discriminate H.
  - intros (lm' & (ny & nx & E) & _). discriminate E.
  - intros _. exists lm. split; [|reflexivity]. eexists _, _. reflexivity.
  - intros _. eexists _, _, _. reflexivity.
Qed.
Lemma pixels_lm w (m : imap F) s lm ang : map_info fourpi w m = Ok (s, lm, ang) -> pixels_ok w (shape m) lm /\ forall lm', pixels_ok w (shape m) lm' -> lm' = lm.
Proof.
  unfold map_info, pixels_ok. destruct w as [|f1 f2 nxf wts lm0 ang0], m as [v|k rows]; cbn [shape]; intro H; try discriminate H.
  - apply bind_ok in H as (n & En & H). injection H as <- <- <-. apply C47_accepted_sizes in En as (k & Hk & -> & E). split.
    + exists k. split; [exact Hk|]. split; [|reflexivity]. rewrite <- E, Nat2Z.id. reflexivity.
    + intros lm' (k' & Hk' & E' & ->). injection E' as E'. assert (P : (0 < 2 ^ k)%Z) by (apply pow2_pos; exact Hk). assert (P' : (0 < 2 ^ k')%Z) by (apply pow2_pos; exact Hk'). rewrite E', Z2Nat.id in E by (apply pow2_sq; exact Hk'). rewrite (pow2_inj k k' Hk Hk') by (symmetry; exact E). reflexivity.
  - injection H as <- <- <-. split; [split; [eexists _, _; reflexivity | reflexivity]|]. intros lm' [_ ->]. reflexivity.
Qed.
Lemma reform_iff w (m x : imap F) s lm ang : map_info fourpi w m = Ok (s, lm, ang) -> (exists v, reform_map s x = Ok v) <-> shape x = shape m.
Proof.
  unfold map_info. destruct w as [|f1 f2 nxf wts lm0 ang0], m as [v|k rows]; intro H; try discriminate H.
  - apply bind_ok in H as (n & En & H). injection H as <- <- <-. apply C47_accepted_sizes in En as (k & Hk & -> & E). destruct x as [x|k' x]; cbn [reform_map shape]; [|split; [intros [? X]; discriminate X | discriminate]]. rewrite <- E. split.
    + intros [? X]. destruct (Z.eqb_spec (Z.of_nat (length x)) (Z.of_nat (length v))); [f_equal; lia | discriminate X].
    + intro X. injection X as X. rewrite X, Z.eqb_refl. eauto.
  - injection H as <- <- <-. destruct x as [x|k' x]; cbn [reform_map shape]; [split; [intros [? X]; discriminate X | discriminate]|]. split.
    + intros [? X]. destruct (Nat.eqb_spec (length x) (length rows)); [|discriminate X]. destruct (Nat.eqb_spec k' k); [congruence | discriminate X].
    + intro X. injection X as X1 X2. rewrite X1, X2, !Nat.eqb_refl. cbn [andb]. eauto.
Qed.
Lemma mapM_iff {A B} (g : A -> res B) (P : A -> Prop) l : (forall x, (exists v, g x = Ok v) <-> P x) -> ((exists v, mapM g l = Ok v) <-> Forall P l).
Proof.
  intro H. induction l as [|x l IH]; cbn [mapM]; split; [constructor | intros _; eexists; reflexivity | |].
  - intros [v E]. apply bind_ok in E as (y & Ey & E). apply bind_ok in E as (z & Ez & E). constructor; [apply H; eauto | apply IH; eauto].
  - intro Fl. inversion Fl; subst. destruct (proj2 (H x) H2) as [y Ey]. destruct (proj2 IH H3) as [z Ez]. rewrite Ey. cbn [bind]. rewrite Ez. eexists; reflexivity.
Qed.
Lemma spin_iff n sp s : spin_of n sp = Ok s <-> ((n = 1%nat /\ s = 0%Z) \/ (n = 2%nat /\ s <> 0%Z)) /\ (sp = Some s \/ (sp = None /\ s = if Nat.eqb n 1 then 0%Z else 2%Z)).
Proof.
  unfold spin_of. destruct (Nat.eqb_spec n 1) as [E1|E1]; destruct (Nat.eqb_spec n 2) as [E2|E2]; cbn [negb andb]; try lia; destruct sp as [z|].
  - destruct (Z.eqb_spec z 0) as [E|E]; cbn [negb andb orb]; split; intro H; try discriminate H; [injection H as <-; auto | destruct H as [_ [H|[H _]]]; congruence | exfalso; destruct H as [A [H|[H _]]]; [injection H as ->; lia | discriminate H]].
  - split; intro H; [injection H as <-; auto | destruct H as [_ [H|[_ ->]]]; [discriminate H | reflexivity]].
  - destruct (Z.eqb_spec z 0) as [E|E]; cbn [negb andb orb]; split; intro H; try discriminate H; [exfalso; destruct H as [A [H|[H _]]]; [injection H as ->; lia | discriminate H] | injection H as <-; auto | destruct H as [_ [H|[H _]]]; congruence].
  - split; intro H; [injection H as <-; split; [right; split; [exact E2 | discriminate] | auto] | destruct H as [_ [H|[_ ->]]]; [discriminate H | reflexivity]].
  - split; [discriminate | lia].
  - split; [discriminate | lia].
Qed.
(** the first part of the constructor *)
Lemma head_iff a : rect_args a -> (exists h, head_of fourpi a = Ok h) <-> exists lm, pixels_ok (a_wcs a) (shape (a_mask a)) lm /\ weights_ok a /\ (0 < opt (a_lmax a) lm)%Z /\ (0 < opt (a_lmaxm a) lm)%Z /\
    match a_beam a with BNone => True | BArr b => (opt (a_lmax a) lm < Z.of_nat (length b))%Z | BOther => False end.
Proof.
  intro R. split.
  - intros [h H]. unfold head_of in H. apply bind_ok in H as ([m ma] & E1 & H). destruct (weights_shape _ _ _ R E1) as [Sm _]. apply bind_ok in H as ([[s lm] ang] & E2 & H). apply bind_ok in H as (mk & E3 & H). apply bind_ok in H as (mask_a & E4 & H). cbv zeta in H. destruct (_ || _)%bool eqn:E0; [discriminate H|]. apply bind_ok in H as (beam & E5 & H). clear H.
    exists lm. rewrite <- Sm. split; [apply (pixels_lm _ _ _ _ _ E2)|]. split; [apply weights_iff; eauto|]. apply orb_false_elim in E0 as [A B]. apply Z.leb_gt in A, B. split; [exact A|]. split; [exact B|].
    unfold beam_of in E5. destruct (a_beam a) as [|b|]; [exact I | | discriminate E5]. destruct (Z.leb_spec (Z.of_nat (length b)) (opt (a_lmax a) lm)); [discriminate E5 | assumption].
  - intros (lm & PX & W & L1 & L2 & B). unfold head_of. destruct (proj2 (weights_iff a R) W) as [[m ma] E1]. rewrite E1. cbn [bind]. destruct (weights_shape _ _ _ R E1) as [Sm Sa]. destruct (proj2 (pixels_iff (a_wcs a) m)) as (s & lm' & ang & E2); [exists lm; rewrite Sm; exact PX|]. rewrite E2. cbn [bind].
    destruct (pixels_lm _ _ _ _ _ E2) as [_ U]. rewrite Sm in U. specialize (U lm PX). subst lm'. destruct (proj2 (reform_iff _ _ m _ _ _ E2) eq_refl) as [mk E3]. rewrite E3. cbn [bind].
    assert (E4 : exists r, match ma with None => Ok None | Some (m1, m2) => do r <- mapM (reform_map s) [m1; m2]; Ok (Some r) end = Ok r).
    { destruct ma as [[d o]|]; [|ok]. destruct Sa as (Sd & So & _). rewrite <- Sm in Sd, So. destruct (proj2 (reform_iff _ _ d _ _ _ E2) Sd) as [vd Ed]. destruct (proj2 (reform_iff _ _ o _ _ _ E2) So) as [vo Eo]. cbn [mapM]. rewrite Ed, Eo. ok. }
    destruct E4 as [mask_a E4]. rewrite E4. cbn [bind]. cbv zeta. rewrite (proj2 (Z.leb_gt _ _) L1), (proj2 (Z.leb_gt _ _) L2). cbn [orb].
    unfold beam_of. destruct (a_beam a) as [|b|]; [ok | | contradiction]. rewrite (proj2 (Z.leb_gt _ _) B). ok.
Qed.
Lemma head_facts a h : rect_args a -> head_of fourpi a = Ok h -> (forall x, (exists v, reform_map (h_s h) x = Ok v) <-> shape x = shape (a_mask a)) /\ (h_mask_a h <> None <-> a_mask22 a <> None).
Proof.
  intros R H. unfold head_of in H. apply bind_ok in H as ([m ma] & E1 & H). destruct (weights_shape _ _ _ R E1) as [Sm Sa]. apply bind_ok in H as ([[s lm] ang] & E2 & H). apply bind_ok in H as (mk & E3 & H). apply bind_ok in H as (mask_a & E4 & H). cbv zeta in H. destruct (_ || _)%bool eqn:E0; [discriminate H|]. apply bind_ok in H as (beam & E5 & H). injection H as <-. cbn [h_s h_mask_a]. split.
  - intro x. rewrite <- Sm. eapply reform_iff. exact E2.
  - destruct ma as [[d o]|]; [apply bind_ok in E4 as (r & _ & E4); injection E4 as <-; split; [intros _; apply Sa | discriminate] | injection E4 as <-; rewrite Sa; tauto].
Qed.
Lemma body_iff a h im : rect_args a -> head_of fourpi a = Ok h -> a_maps a = Some im -> (exists r, body_of a h im = Ok r) <-> data_ok a.
Proof.
  intros R Eh Em. destruct (head_facts a h R Eh) as [RF AN]. unfold data_ok. rewrite Em. split.
  - intros [[[s m] t] H]. apply body_inv in H as (Es & Er & Ep & Eu & Et). exists s. apply spin_iff in Es as [S1 S2]. split; [exact S1|]. split; [exact S2|]. split; [apply (mapM_iff (reform_map (h_s h)) _ im RF); eauto|].
    split. { intro Pu. unfold pure in Ep. rewrite Pu in Ep. cbn [andb] in Ep. apply negb_false_iff in Ep. apply Z.eqb_eq in Ep. exact Ep. }
    split. { intro A. apply AN in A. unfold anis_ok in Eu. destruct (h_mask_a h); [|contradiction]. cbn [is_some] in Eu. destruct (Z.eqb_spec s 0); [discriminate Eu|]. unfold pure in Eu. destruct (a_pe a || a_pb a); [discriminate Eu|]. destruct (a_temp a); try discriminate Eu. auto. }
    unfold temps_of in Et. destruct (a_temp a) as [|ts|]; [exact I | | discriminate Et]. destruct ts as [|t0 ts]; [discriminate Et|]. split; [discriminate|]. destruct (forallb _ _) eqn:FB; [|discriminate Et]. apply bind_ok in Et as (r & Er' & Et). rewrite forallb_forall in FB.
    assert (FF : Forall (Forall (fun m => shape m = shape (a_mask a))) (t0 :: ts)) by (apply (mapM_iff (mapM (reform_map (h_s h))) _ (t0 :: ts) (fun x => mapM_iff (reform_map (h_s h)) _ x RF)); eauto).
    rewrite Forall_forall in *. intros x Hx. specialize (FB x Hx). apply Nat.eqb_eq in FB. split; [rewrite FB, (mapM_length _ _ _ Er); reflexivity | apply FF, Hx].
  - intros (s & S1 & S2 & SH & P & A & T). unfold body_of. rewrite (proj2 (spin_iff (length im) (a_spin a) s) (conj S1 S2)). cbn [bind]. destruct (proj2 (mapM_iff (reform_map (h_s h)) _ im RF) SH) as [m Er]. rewrite Er. cbn [bind].
    assert (EP : (pure a && negb (s =? 2)%Z)%bool = false) by (unfold pure; destruct (a_pe a || a_pb a); [rewrite P by reflexivity; reflexivity | reflexivity]). rewrite EP.
    assert (EU : anis_ok a h s = Ok tt). { unfold anis_ok. destruct (h_mask_a h) as [ma|] eqn:EM; [|reflexivity]. cbn [is_some]. destruct A as (A1 & A2 & A3); [apply AN; discriminate|]. rewrite (proj2 (Z.eqb_neq _ _) A3). unfold pure. rewrite A1, A2. reflexivity. }
    rewrite EU. cbn [bind]. unfold temps_of. destruct (a_temp a) as [|ts|]; [ok | | contradiction]. destruct T as [T1 T2]. destruct ts as [|t0 ts]; [contradiction|].
    assert (FB : forallb (fun t => Nat.eqb (length t) (length m)) (t0 :: ts) = true) by (apply forallb_forall; intros x Hx; apply Nat.eqb_eq; rewrite Forall_forall in T2; rewrite (mapM_length _ _ _ Er); apply (T2 x Hx)). rewrite FB.
    destruct (proj2 (mapM_iff (mapM (reform_map (h_s h))) _ (t0 :: ts) (fun x => mapM_iff (reform_map (h_s h)) _ x RF))) as [r E]; [eapply Forall_impl; [|exact T2]; intros x [_ Hx]; exact Hx|]. rewrite E. ok.
Qed.
Theorem C38_necessary K p a f : rect_args a -> new K p a = Ok f -> accepts a.
Proof.
  intros R H. rewrite new_staged in H. unfold staged in H. apply bind_ok in H as (h & Eh & H). destruct (proj1 (head_iff a R) (ex_intro _ h Eh)) as (lm & A1 & A2 & A3 & A4 & A5). exists lm. repeat (split; [assumption|]).
  destruct (head_facts a h R Eh) as [RF AN]. destruct (a_maps a) as [im|] eqn:Em.
  - apply bind_ok in H as (r & Eb & _). apply (body_iff a h im R Eh Em). eauto.
  - unfold data_ok. rewrite Em. destruct (a_spin a) as [s|]; [|discriminate H]. exists s. split; [reflexivity|]. intro A. apply AN in A. destruct (Z.eqb_spec s 0); [|assumption]. destruct (h_mask_a h); [discriminate H | contradiction].
Qed.
(** the arrays returned by the transforms have the right sizes *)
Definition full (s : minfo F) : nat := match s with Hpx n _ => npix s | Car ny _ nf _ _ _ => (ny * nf)%nat end.
Definition pix_shape (K : calc F) : Prop := forall spin s lmax a, shaped (length a) (full s) (c_a2m K spin s lmax a).
Definition geometry_ok (w : wcs F) (sh : list nat) : Prop := match w with NoWcs => True | Wcs _ _ nxf wts _ _ => (nth 1 sh 0 <= nxf)%nat /\ length wts = nth 0 sh 0%nat /\ nth 0 sh 0%nat <> 0%nat end.
Lemma pad_ok (s : minfo F) v : length v = npix s -> (match s with Hpx _ _ => True | Car _ nx nf _ _ _ => (nx <= nf)%nat end) -> exists r, pad_map s v = Ok r.
Proof. destruct s as [n w|ny nx nf f1 f2 wts]; intros L H; [eexists; reflexivity|]. apply C48_total; assumption. Qed.
Definition pad_geom (s : minfo F) : Prop := match s with Hpx _ _ => True | Car _ nx nf _ _ _ => (nx <= nf)%nat end.
Lemma mapM_all {A B} (g : A -> res B) l : (forall x, In x l -> exists y, g x = Ok y) -> exists r, mapM g l = Ok r.
Proof. induction l as [|x l IH]; intro H; cbn [mapM]; [eauto|]. destruct (H x (or_introl eq_refl)) as [y Ey]. destruct IH as [r Er]; [intros z Hz; apply H; right; exact Hz|]. rewrite Ey. cbn [bind]. rewrite Er. eexists; reflexivity. Qed.
Lemma sht_ok K spin (s : minfo F) lmax n nc m : (c_healpy K = false \/ is_car s = false) -> pad_geom s -> shaped nc (npix s) m -> exists r, sht K spin s lmax n m = Ok r.
Proof.
  intros HC PG [_ S]. unfold sht. destruct (mapM_all (pad_map s) m) as [r Er]; [intros x Hx; apply pad_ok; [rewrite Forall_forall in S; apply S, Hx | exact PG]|]. rewrite Er. cbn [bind]. assert (E : (c_healpy K && is_car s)%bool = false) by (destruct HC as [-> | ->]; [reflexivity | apply andb_false_r]). rewrite E. ok.
Qed.
Lemma isht_ok K spin (s : minfo F) lmax alm : (c_healpy K = false \/ is_car s = false) -> pix_shape K -> exists r, isht K spin s lmax alm = Ok r.
Proof.
  intros HC PS. unfold isht. assert (E : (c_healpy K && is_car s)%bool = false) by (destruct HC as [-> | ->]; [reflexivity | apply andb_false_r]). rewrite E. unfold alm2map. apply mapM_all. intros x Hx. destruct (PS spin s lmax alm) as [_ S]. rewrite Forall_forall in S. specialize (S x Hx). destruct s as [n w|ny nx nf f1 f2 wts]; cbn [unpad_map full] in *; [ok|]. rewrite S, Nat.eqb_refl. ok.
Qed.
Lemma isht_shaped K spin s lmax alm r : pix_shape K -> pad_geom s -> isht K spin s lmax alm = Ok r -> shaped (length alm) (npix s) r.
Proof.
  intros PS PG H. unfold isht in H. destruct (_ && _)%bool; [discriminate H|]. unfold alm2map in H. destruct (PS spin s lmax alm) as [L S]. split; [rewrite (mapM_length _ _ _ H); exact L|]. apply Forall_forall. intros x Hx. apply (In_nth _ _ []) in Hx as (i & Hi & <-). rewrite (mapM_length _ _ _ H) in Hi.
  assert (N : nth_error (c_a2m K spin s lmax alm) i = Some (nth i (c_a2m K spin s lmax alm) [])) by (apply nth_error_nth'; exact Hi). destruct (mapM_inv _ _ _ H i _ N) as (b & Hb & Nb). rewrite (nth_error_nth _ _ [] Nb). rewrite Forall_forall in S. specialize (S _ (nth_error_In _ _ N)).
  destruct s as [n w|ny nx nf f1 f2 wts]; cbn [unpad_map full npix] in *; [injection Hb as <-; exact S|]. rewrite S, Nat.eqb_refl in Hb. cbn [negb] in Hb. injection Hb as <-. apply length_concat. eapply shaped_map; [|apply (chunks_shaped ny nf); exact S]. intros l Hl. cbv beta. rewrite firstn_length, Hl. cbn [pad_geom] in PG. lia.
Qed.
Lemma add_pure_ok pe pb lmax (fl : list F) alms palm : shaped 2 (n_alm lmax) alms -> shaped 2 (n_alm lmax) palm -> exists r, add_pure pe pb lmax fl alms palm = Ok r /\ shaped 2 (n_alm lmax) r.
Proof.
  intros S1 S2. unfold add_pure. cbv zeta. assert (V : forall i, (i < 2)%nat -> exists v, vadd (nth i alms []) (almxfl lmax (nth i palm []) (firstn (Z.to_nat (lmax + 1)) fl)) = Ok v /\ length v = n_alm lmax).
  { intros i Hi. unfold vadd, almxfl. rewrite length_zipw, (shaped_nth 2 _ alms i [] S1 Hi), (shaped_nth 2 _ palm i [] S2 Hi). fold (n_alm lmax). rewrite Nat.min_id, Nat.eqb_refl. eexists. split; [reflexivity|]. rewrite !length_zipw, (shaped_nth 2 _ alms i [] S1 Hi), (shaped_nth 2 _ palm i [] S2 Hi). fold (n_alm lmax). rewrite !Nat.min_id. reflexivity. }
  assert (L : forall i, (i < 2)%nat -> length (nth i alms []) = n_alm lmax) by (intros; apply (shaped_nth 2 _ alms _ [] S1); assumption).
  destruct (V 0%nat ltac:(lia)) as (v0 & E0 & L0). destruct (V 1%nat ltac:(lia)) as (v1 & E1 & L1).
  destruct pe, pb; rewrite ?E0, ?E1; cbn [bind]; rewrite ?E1; cbn [bind]; eexists; (split; [reflexivity|]); split; try reflexivity; repeat constructor; try assumption; apply L; lia.
Qed.
Lemma purify_ok K s lmax n mask am pe pb u : alm_shape K -> map_shape K -> pix_shape K -> (c_healpy K = false \/ is_car s = false) -> pad_geom s -> length mask = npix s -> shaped 2 (npix s) u ->
  exists alm m, purify fsqrt K s lmax lmax n mask am pe pb u = Ok (alm, m).
Proof.
  intros HK HA PS HC PG Lm Su. unfold purify. destruct (sht_ok K 2 s lmax n 2 (map (vmul mask) u) HC PG (shaped_vmul _ _ _ _ Lm Su)) as [alms E1]. rewrite E1. cbn [bind]. cbv zeta. pose proof (sht_shaped _ _ _ _ _ _ _ HK HA E1) as S1. rewrite map_length, (proj1 Su) in S1.
  set (walm := almxfl lmax am _). set (zero := map _ walm). destruct (isht_ok K 1 s lmax [walm; zero] HC PS) as [w1 W1]. rewrite W1. cbn [bind]. pose proof (isht_shaped _ _ _ _ _ _ PS PG W1) as SW1. cbn [length] in SW1.
  assert (SP : forall w, shaped 2 (npix s) w -> shaped 2 (npix s) (spin_prod w u)).
  { intros w Sw. split; [reflexivity|]. unfold spin_prod, vmul. repeat constructor; rewrite !length_zipw, !(shaped_nth 2 (npix s) _ _ [] Sw), !(shaped_nth 2 (npix s) _ _ [] Su) by lia; lia. }
  destruct (sht_ok K 1 s lmax n 2 _ HC PG (SP w1 SW1)) as [p1 P1]. rewrite P1. cbn [bind]. pose proof (sht_shaped _ _ _ _ _ _ _ HK HA P1) as SP1. change (length (spin_prod w1 u)) with 2%nat in SP1.
  destruct (add_pure_ok pe pb lmax (fls lmax (fl2 fsqrt)) alms p1 S1 SP1) as (a1 & A1 & SA1). rewrite A1. cbn [bind]. match goal with |- context [isht K 2 s lmax [?x; zero]] => set (walm2 := x) end. destruct (isht_ok K 2 s lmax [walm2; zero] HC PS) as [w2 W2]. rewrite W2. cbn [bind]. pose proof (isht_shaped _ _ _ _ _ _ PS PG W2) as SW2. cbn [length] in SW2.
  assert (P2 : exists p2, mapM (fun m => do a <- sht K 0 s lmax n [m]; Ok (nth 0 a [])) (spin_prod w2 u) = Ok p2 /\ shaped 2 (n_alm lmax) p2).
  { destruct (SP w2 SW2) as [L FS]. rewrite Forall_forall in FS. destruct (mapM_all (fun m => do a <- sht K 0 s lmax n [m]; Ok (nth 0 a [])) (spin_prod w2 u)) as [p2 P2].
    - intros x Hx. destruct (sht_ok K 0 s lmax n 1 [x] HC PG) as [r Er]; [split; [reflexivity | repeat constructor; apply FS, Hx]|]. rewrite Er. ok.
    - exists p2. split; [exact P2|]. split; [rewrite (mapM_length _ _ _ P2); exact L|]. apply Forall_forall. intros y Hy. apply (In_nth _ _ []) in Hy as (i & Hi & <-). rewrite (mapM_length _ _ _ P2) in Hi. assert (N : nth_error (spin_prod w2 u) i = Some (nth i (spin_prod w2 u) [])) by (apply nth_error_nth'; exact Hi). destruct (mapM_inv _ _ _ P2 i _ N) as (b & Hb & Nb). rewrite (nth_error_nth _ _ [] Nb). apply bind_ok in Hb as (r & Hr & Hb). injection Hb as <-.
      pose proof (sht_shaped _ _ _ _ _ _ _ HK HA Hr) as SR. apply (shaped_nth 1 (n_alm lmax) r 0 [] SR). lia. }
  destruct P2 as (p2 & P2 & SP2). rewrite P2. cbn [bind]. destruct (add_pure_ok pe pb lmax (fls lmax (fl4 fsqrt)) a1 p2 SA1 SP2) as (a2 & A2 & SA2). rewrite A2. cbn [bind]. destruct (isht_ok K 2 s lmax a2 HC PS) as [m2 M2]. rewrite M2. cbn [bind]. eexists _, _. reflexivity.
Qed.
(** ... and it accepts them all, provided the matrix of template products can be inverted *)
Theorem C38_sufficient K p a : rect_args a -> accepts a -> (c_healpy K = false \/ a_wcs a = NoWcs) -> geometry_ok (a_wcs a) (shape (a_mask a)) ->
  (a_temp a = TNone \/ forall M, exists P, pinvh eigh np_inv M (opt (a_tol a) (tol_pinv_default p)) = Ok P) ->
  (a_pe a || a_pb a = false \/ (a_lmax a = a_lmaxm a /\ alm_shape K /\ map_shape K /\ pix_shape K)) -> exists f, new K p a = Ok f.
Proof.
  intros R (lm & A1 & A2 & A3 & A4 & A5 & D) HC GE TM PU. destruct (proj2 (head_iff a R)) as [h Eh]; [exists lm; repeat (split; [assumption|]); assumption|].
  destruct (head_facts a h R Eh) as [RF AN]. destruct (head_mask fourpi a h R Eh) as [Lm La]. rewrite new_staged. unfold staged. rewrite Eh. cbn [bind].
  destruct (a_maps a) as [im|] eqn:Em.
  2:{ unfold data_ok in D. rewrite Em in D. destruct D as (s & -> & D). destruct (Z.eqb_spec s 0) as [E0|E0]; [|cbn [andb]; ok]. destruct (h_mask_a h); [|cbn [andb is_some]; ok]. exfalso. apply D; [apply AN; discriminate | exact E0]. }
  destruct (proj2 (body_iff a h im R Eh Em) D) as [[[spin maps] tm] Eb]. rewrite Eb. cbn [bind]. destruct (body_shapes a h im _ _ _ R Em Eb) as (Sm & St & Nc).
  assert (HG : (c_healpy K = false \/ is_car (h_s h) = false) /\ pad_geom (h_s h) /\ wf_info (h_s h) /\ (a_lmax a = a_lmaxm a -> h_lmax h = h_lmaxm h)).
  { clear - R Eh HC GE. unfold head_of in Eh. apply bind_ok in Eh as ([m ma] & E1 & H). destruct (weights_shape _ _ _ R E1) as [Sm _]. apply bind_ok in H as ([[s lm] ang] & E2 & H). apply bind_ok in H as (mk & E3 & H). apply bind_ok in H as (mask_a & E4 & H). cbv zeta in H. destruct (_ || _)%bool eqn:E0; [discriminate H|]. apply bind_ok in H as (beam & E5 & H). injection H as <-. cbn [h_s h_lmax h_lmaxm].
    unfold map_info in E2. rewrite <- Sm in GE. destruct (a_wcs a) as [|f1 f2 nxf wts lm0 ang0], m as [v|k rows]; try discriminate E2.
    - apply bind_ok in E2 as (n & En & E2). injection E2 as <- <- <-. split; [right; reflexivity|]. split; [exact I|]. split; [exact I|]. intros ->. reflexivity.
    - injection E2 as <- <- <-. cbn [geometry_ok shape nth] in GE. destruct GE as (G1 & G2 & G3). split; [destruct HC as [HC|HC]; [left; exact HC | discriminate HC]|]. split; [exact G1|]. split; [split; assumption|]. intros ->. reflexivity. }
  destruct HG as (HC' & PG & WF & EL).
  assert (Sa : shaped (length im) (npix (h_s h)) (masked a h maps)).
  { apply masked_shaped; auto. destruct (h_mask_a h) as [ma|] eqn:EM; [right | left; reflexivity]. apply body_inv in Eb as (Es & _ & _ & Eu & _). unfold anis_ok in Eu. rewrite EM in Eu. cbn [is_some] in Eu. apply spin_iff in Es as [[[E1 E2]|[E1 E2]] _]; [|exact E1]. rewrite E2 in Eu. discriminate Eu. }
  assert (Su : shaped (length im) (npix (h_s h)) (um a h maps)).
  { unfold um. destruct (a_moi a); [|exact Sm]. eapply shaped_map; [|exact Sm]. intros r Hr. unfold unmask. rewrite length_zipw. lia. }
  (* cleaning *)
  assert (CL : exists m mu iM als, clean np_inv eigh a p h maps tm = Ok (m, mu, iM, als) /\ shaped (length im) (npix (h_s h)) m /\ shaped (length im) (npix (h_s h)) mu).
  { unfold clean. destruct tm as [t|]; [|eexists _, _, _, _; split; [reflexivity|]; split; assumption]. destruct (St t eq_refl) as [St' Lt]. destruct (masked_t_shaped a h _ t Lm St') as [Smt Lmt].
    assert (DE : exists iM al, deproject eigh np_inv (h_s h) (tol_of p a) (masked_t a h t) (masked a h maps) = Ok (iM, al)).
    { unfold deproject. destruct (gram_eq (h_s h) (length im) (masked_t a h t) Smt WF) as (M & EM & _). rewrite EM. cbn [bind]. destruct TM as [TM|TM]; [exfalso; apply body_inv in Eb as (_ & _ & _ & _ & Et); rewrite TM in Et; discriminate Et|]. destruct (TM M) as [P EP]. unfold tol_of. rewrite EP. cbn [bind]. rewrite (prods_eq (h_s h) (length im) _ _ Smt Sa WF). cbn [bind]. eexists _, _. reflexivity. }
    destruct DE as (iM & al & DE). rewrite DE. cbn [bind]. eexists _, _, _, _. split; [reflexivity|]. split; apply shaped_minus; assumption. }
  destruct CL as (m & mu & iM & als & CL & S1 & S2). rewrite CL. cbn [bind]. unfold alms_of. unfold pure. destruct (a_pe a || a_pb a) eqn:EP.
  - destruct PU as [PU|(PL & HK & HA & PS)]; [discriminate PU|]. destruct (sht_ok K 0 (h_s h) (h_lmaxm h) (opt (a_niterm a) (n_iter_mask_default p)) 1 [h_mask h] HC' PG) as [am EA]; [split; [reflexivity | repeat constructor; exact Lm]|]. rewrite EA. cbn [bind]. cbv zeta.
    assert (N2 : length im = 2%nat). { apply body_inv in Eb as (Es & _ & Ep & _ & _). unfold pure in Ep. rewrite EP in Ep. cbn [andb] in Ep. apply negb_false_iff in Ep. apply Z.eqb_eq in Ep. apply spin_iff in Es as [[[E1 E2]|[E1 E2]] _]; [lia | exact E1]. }
    rewrite N2 in *. rewrite (EL PL). destruct (purify_ok K (h_s h) (h_lmaxm h) (opt (a_niter a) (n_iter_default p)) (h_mask h) (nth 0 am []) (a_pe a) (a_pb a) mu HK HA PS HC' PG Lm S2) as (alm & pm & E). rewrite E. cbn [bind].
    destruct tm as [t|]; cbn [option_map]; [|ok]. destruct (a_lite a); [ok|]. destruct (St t eq_refl) as [St' _].
    destruct (mapM_all (fun t => do (x, _) <- purify fsqrt K (h_s h) (h_lmaxm h) (h_lmaxm h) (opt (a_niter a) (n_iter_default p)) (h_mask h) (nth 0 am []) (a_pe a) (a_pb a) t; Ok x) (map (um a h) t)) as [r Er]; [|rewrite Er; ok].
    intros x Hx. apply in_map_iff in Hx as (y & <- & Hy). destruct (purify_ok K (h_s h) (h_lmaxm h) (opt (a_niter a) (n_iter_default p)) (h_mask h) (nth 0 am []) (a_pe a) (a_pb a) (um a h y) HK HA PS HC' PG Lm) as (alm' & pm' & E'); [unfold um; destruct (a_moi a); [|apply St', Hy]; eapply shaped_map; [|apply St', Hy]; intros r Hr; unfold unmask; rewrite length_zipw; lia|]. rewrite E'. ok.
  - destruct (sht_ok K spin (h_s h) (h_lmax h) (opt (a_niter a) (n_iter_default p)) (length im) m HC' PG S1) as [alm E]. rewrite E. cbn [bind]. destruct tm as [t|]; cbn [option_map]; [|ok]. destruct (a_lite a); [ok|]. destruct (St t eq_refl) as [St' _]. destruct (masked_t_shaped a h _ t Lm St') as [Smt _].
    destruct (mapM_all (sht K spin (h_s h) (h_lmax h) (opt (a_niter a) (n_iter_default p))) (masked_t a h t)) as [r Er]; [intros x Hx; apply (sht_ok _ _ _ _ _ (length im)); auto|]. rewrite Er. ok.
Qed.
(** what the field says about itself *)
Theorem C38_consistent K p a f im : rect_args a -> new K p a = Ok f -> a_maps a = Some im -> f_nmaps f = Z.of_nat (length im) /\ (f_spin f = 0%Z <-> length im = 1%nat) /\ (forall s, a_spin a = Some s -> f_spin f = s) /\
  (a_spin a = None -> f_spin f = if Nat.eqb (length im) 1 then 0%Z else 2%Z) /\ (alm_shape K -> map_shape K -> forall alm, get_alms f = Ok alm -> length alm = length im).
Proof.
  intros R H Em. rewrite new_staged in H. unfold staged in H. apply bind_ok in H as (h & Eh & H). rewrite Em in H. apply bind_ok in H as ([[spin maps] tm] & Eb & H). apply bind_ok in H as ([[[m mu] iM] als] & Ec & H). destruct (body_shapes a h im _ _ _ R Em Eb) as (Sm & St & Nc). destruct (body_inv _ _ _ _ _ _ Eb) as (Es & _ & Ep & Eu & _). apply spin_iff in Es as [S1 S2].
  assert (LM : length m = length im). { assert (X : length (masked a h maps) = length im). { unfold masked. destruct (a_moi a); [apply (proj1 Sm)|]. unfold apply_mask. unfold anis_ok in Eu. destruct (h_mask_a h) as [ma|]; [|rewrite map_length; apply (proj1 Sm)]. cbn [is_some] in Eu. rewrite length_zipw, map_length, (proj1 Sm). cbn [length]. destruct S1 as [[_ ->]|[E _]]; [discriminate Eu|]. lia. }
    unfold clean in Ec. destruct tm; [|injection Ec as <- _ _ _; exact X]. apply bind_ok in Ec as ([iM' al] & _ & Ec). injection Ec as <- _ _ _. unfold minus_temps. rewrite length_tab. exact X. }
  assert (G : f_spin f = spin /\ f_nmaps f = (if (spin =? 0)%Z then 1 else 2)%Z /\ (alm_shape K -> map_shape K -> forall alm, get_alms f = Ok alm -> length alm = length im)).
  { unfold alms_of in H. destruct (pure a) eqn:EP.
    - apply bind_ok in H as (am & _ & H). apply bind_ok in H as ([alm pm] & Epu & H). apply bind_ok in H as (? & _ & H). injection H as <-. split; [reflexivity|]. split; [reflexivity|]. intros HK HA alm' Ha. cbn [get_alms f_alm field_of stored] in Ha. unfold get_alms in Ha. cbn [f_alm field_of stored] in Ha. injection Ha as <-.
      cbn [andb] in Ep. apply negb_false_iff in Ep. apply Z.eqb_eq in Ep. subst spin. destruct S1 as [[_ X]|[X _]]; [discriminate X|]. rewrite X.
      unfold purify in Epu. apply bind_ok in Epu as (z1 & _ & H). cbv zeta in H. apply bind_ok in H as (w1 & _ & H). apply bind_ok in H as (p1 & _ & H). apply bind_ok in H as (a1 & A1 & H). apply bind_ok in H as (w2 & _ & H). apply bind_ok in H as (p2 & _ & H). apply bind_ok in H as (a2 & A2 & H). apply bind_ok in H as (m2 & _ & H). injection H as <- <-. unfold add_pure in A2. cbv zeta in A2. apply bind_ok in A2 as (e & _ & A2). apply bind_ok in A2 as (b & _ & A2). injection A2 as <-. reflexivity.
    - apply bind_ok in H as (alm & Ea & H). apply bind_ok in H as (? & _ & H). injection H as <-. split; [reflexivity|]. split; [reflexivity|]. intros HK HA alm' Ha. unfold get_alms in Ha. cbn [f_alm field_of stored] in Ha. injection Ha as <-. rewrite (proj1 (sht_shaped _ _ _ _ _ _ _ HK HA Ea)). exact LM. }
  destruct G as (-> & -> & G). split; [|split; [|split; [|split; [|exact G]]]].
  - destruct S1 as [[E1 ->]|[E1 E2]]; rewrite E1; [reflexivity|]. rewrite (proj2 (Z.eqb_neq _ _) E2). reflexivity.
  - lia.
  - intros s Hs. destruct S2 as [S2|[S2 _]]; congruence.
  - intro Hs. destruct S2 as [S2|[_ S2]]; congruence.
Qed.
(** asking for a lite field changes nothing but what is stored *)
Theorem C38_lite K p a f : a_lite a = false -> new K p a = Ok f -> exists f', new K p (set_lite a true) = Ok f' /\ get_alms f' = get_alms f /\ get_maps f' = Exn ValueError /\ get_templates f' = Exn ValueError /\
  f_mask f' = f_mask f /\ f_info f' = f_info f /\ f_spin f' = f_spin f /\ f_nmaps f' = f_nmaps f /\ f_lmax f' = f_lmax f /\ f_lmaxm f' = f_lmaxm f /\ f_beam f' = f_beam f /\ f_lite f' = true /\ snd (get_mask_alms K f') = snd (get_mask_alms K f).
Proof.
  intros Li H. rewrite new_staged in *. unfold staged in *. change (head_of fourpi (set_lite a true)) with (head_of fourpi a). apply bind_ok in H as (h & Eh & H). rewrite Eh. cbn [bind a_maps a_spin set_lite]. destruct (a_maps a) as [im|].
  - change (body_of (set_lite a true) h im) with (body_of a h im). apply bind_ok in H as ([[spin maps] tm] & Eb & H). rewrite Eb. cbn [bind]. change (clean np_inv eigh (set_lite a true) p h maps tm) with (clean np_inv eigh a p h maps tm). apply bind_ok in H as ([[[m mu] iM] als] & Ec & H). rewrite Ec. cbn [bind].
    unfold alms_of in *. change (pure (set_lite a true)) with (pure a). cbn [a_lite set_lite a_niter a_niterm a_pe a_pb]. destruct (pure a).
    + apply bind_ok in H as (am & Ea & H). rewrite Ea. cbn [bind]. cbv zeta in H. apply bind_ok in H as ([alm pm] & Epu & H). rewrite Epu. cbn [bind]. apply bind_ok in H as (at1 & _ & H). injection H as <-. destruct tm as [t|]; cbn [option_map bind]; (eexists; split; [reflexivity|]); repeat (split; [reflexivity|]); unfold get_mask_alms; cbn [field_of f_alm_mask keep a_lite set_lite f_info f_lmaxm f_niterm f_mask a_niterm]; rewrite ?Li, Ea; reflexivity.
    + apply bind_ok in H as (alm & Ea & H). rewrite Ea. cbn [bind]. apply bind_ok in H as (at1 & _ & H). injection H as <-. destruct tm as [t|]; cbn [option_map bind]; (eexists; split; [reflexivity|]); repeat (split; [reflexivity|]); unfold get_mask_alms; cbn [field_of f_alm_mask keep a_lite set_lite f_info f_lmaxm f_niterm f_mask a_niterm]; destruct (sht K 0 (h_s h) (h_lmaxm h) (opt (a_niterm a) (n_iter_mask_default p)) [h_mask h]); reflexivity.
  - destruct (a_spin a) as [spin|]; [|discriminate H]. destruct (_ && _)%bool; [discriminate H|]. injection H as <-. eexists; split; [reflexivity|]; repeat (split; [reflexivity|]); unfold get_mask_alms; cbn [field_of f_alm_mask keep a_lite set_lite f_info f_lmaxm f_niterm f_mask a_niterm]; destruct (sht K 0 (h_s h) (h_lmaxm h) (opt (a_niterm a) (n_iter_mask_default p)) [h_mask h]); reflexivity.
Qed.
End PF6.
