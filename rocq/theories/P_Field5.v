(** Properties C38 (what the constructor accepts), C66-C68 (purification). *)
From Verif Require Import Base M_Utils L_Utils M_Field L_Field L_Field2 P_Utils P_Field P_Field2 P_Field3.
Section PF5.
Context {F : ofield}.
Local Open Scope F_scope.
Add Field FfPFi5 : (fth F).
Notation mat := (list (list F)).
Variable fourpi : F.
Variable fsqrt : F -> F.
Variable eigh : mat -> list F * mat.
Variable np_inv : mat -> res mat.
Notation new := (field_new fourpi fsqrt eigh np_inv).

(** the same arguments with other purification flags *)
Definition set_pure (a : fargs F) (pe pb : bool) : fargs F :=
  FArgs (a_mask a) (a_mask22 a) (a_mask12 a) (a_maps a) (a_spin a) (a_temp a) (a_beam a) pe pb (a_niter a) (a_niterm a) (a_tol a) (a_wcs a) (a_lmax a) (a_lmaxm a) (a_moi a) (a_lite a).
Definition set_lite (a : fargs F) (lite : bool) : fargs F :=
  FArgs (a_mask a) (a_mask22 a) (a_mask12 a) (a_maps a) (a_spin a) (a_temp a) (a_beam a) (a_pe a) (a_pb a) (a_niter a) (a_niterm a) (a_tol a) (a_wcs a) (a_lmax a) (a_lmaxm a) (a_moi a) lite.

(** number of stored real numbers of a set of spherical-harmonic coefficients *)
Definition n_alm (lmax : Z) : nat := length (ells lmax).
Lemma length_flat2 (l : list nat) : length (flat_map (fun l => [Z.of_nat l; Z.of_nat l]) l) = (2 * length l)%nat.
Proof. induction l as [|x l IH]; [reflexivity|]. cbn [flat_map app length]. rewrite IH. lia. Qed.
Lemma n_alm_lt l1 l2 : (0 <= l1 < l2)%Z -> (n_alm l1 < n_alm l2)%nat.
Proof.
  intro H. unfold n_alm, ells. replace (Z.to_nat (l1 + 1)) with (S (Z.to_nat l1)) by lia. replace (Z.to_nat (l2 + 1)) with (S (Z.to_nat l2)) by lia. assert (L : (Z.to_nat l1 < Z.to_nat l2)%nat) by lia. revert L. generalize (Z.to_nat l1) (Z.to_nat l2). clear. intros n m L.
  assert (G : forall n s N, length (flat_map (fun m => flat_map (fun l => [Z.of_nat l; Z.of_nat l]) (seq m (N - m))) (seq s n)) = fold_right (fun m acc => 2 * (N - m) + acc)%nat 0%nat (seq s n)).
  { clear. induction n as [|n IH]; intros s N; [reflexivity|]. cbn [seq flat_map fold_right]. rewrite app_length, IH, length_flat2, seq_length. reflexivity. }
  rewrite !G. assert (M : forall k s N N', (N <= N')%nat -> (fold_right (fun m acc => 2 * (N - m) + acc) 0 (seq s k) <= fold_right (fun m acc => 2 * (N' - m) + acc) 0 (seq s k))%nat).
  { clear. induction k as [|k IH]; intros s N N' H; [reflexivity|]. cbn [seq fold_right]. specialize (IH (S s) N N' H). lia. }
  assert (A : forall k k' s N, (k <= k')%nat -> (fold_right (fun m acc => 2 * (N - m) + acc) 0 (seq s k) <= fold_right (fun m acc => 2 * (N - m) + acc) 0 (seq s k'))%nat).
  { clear. induction k as [|k IH]; intros [|k'] s N H; cbn [seq fold_right]; try lia. specialize (IH k' (S s) N ltac:(lia)). lia. }
  cbn [seq fold_right]. specialize (M n 1%nat (S n) (S m) ltac:(lia)). specialize (A n m 1%nat (S m) ltac:(lia)). lia.
Qed.
(** the transforms return one array of coefficients per component: what ducc0 and healpy do *)
Definition alm_shape (K : calc F) : Prop := forall spin s lmax m, shaped (length m) (n_alm lmax) (c_m2a K spin s lmax m).
Lemma refine_shaped (m2a a2m : mat -> mat) n nc k m alm : (forall x, shaped (length x) k (m2a x)) -> (forall x, length (a2m x) = length x) -> length m = nc -> shaped nc k alm -> shaped nc k (refine m2a a2m n m alm).
Proof.
  intros HM HA Lm. revert alm. induction n as [|n IH]; intros alm S; [exact S|]. cbn [refine]. apply IH. pose proof (HM (msub (a2m alm) m)) as S2. unfold msub in *. rewrite length_zipw, HA, (proj1 S), Lm, Nat.min_id in S2.
  clear - S S2. destruct S as [L1 F1], S2 as [L2 F2]. split; [rewrite length_zipw, L1, L2; apply Nat.min_id|]. revert L1 F1 L2 F2. generalize (m2a (zipw (zipw fsub) (a2m alm) m)). revert nc. induction alm as [|x alm IH]; intros nc [|y l] L1 F1 L2 F2; cbn [length] in *; try constructor; try (subst nc; discriminate L2).
  - inversion F1; subst. inversion F2; subst. cbn [fst snd]. rewrite length_zipw. lia.
  - inversion F1; subst. inversion F2; subst. apply (IH (length alm)); auto.
Qed.
Definition map_shape (K : calc F) : Prop := forall spin s lmax a, length (c_a2m K spin s lmax a) = length a.
Lemma sht_shaped K spin s lmax n m r : alm_shape K -> map_shape K -> sht K spin s lmax n m = Ok r -> shaped (length m) (n_alm lmax) r.
Proof.
  intros HK HA H. unfold sht in H. apply bind_ok in H as (pm & Ep & H). destruct (_ && _)%bool; [discriminate H|]. injection H as <-. rewrite <- (mapM_length _ _ _ Ep). apply refine_shaped; [intro; apply HK | intro; apply HA | reflexivity | apply HK].
Qed.
Lemma add_pure_len pe pb lmax (fl : list F) alms palm n : pe || pb = true -> shaped 2 n alms -> shaped 2 (n_alm lmax) palm -> n <> n_alm lmax -> forall r, add_pure pe pb lmax fl alms palm <> Ok r.
Proof.
  intros P S1 S2 N r H. unfold add_pure in H. cbv zeta in H. assert (V : forall i, (i < 2)%nat -> vadd (nth i alms []) (almxfl lmax (nth i palm []) (firstn (Z.to_nat (lmax + 1)) fl)) = Exn ValueError).
  { intros i Hi. unfold vadd, almxfl. rewrite length_zipw. rewrite (shaped_nth 2 n alms i [] S1 Hi), (shaped_nth 2 _ palm i [] S2 Hi). fold (n_alm lmax). rewrite Nat.min_id. rewrite (proj2 (Nat.eqb_neq _ _) N). reflexivity. }
  destruct pe; [rewrite (V 0%nat) in H by lia; discriminate H|]. cbn [bind] in H. destruct pb; [|discriminate P]. rewrite (V 1%nat) in H by lia. discriminate H.
Qed.
(** ** C67 *)
Theorem C67_different_lmax K p a h : alm_shape K -> map_shape K -> a_pe a || a_pb a = true -> a_maps a <> None -> head_of fourpi a = Ok h -> h_lmax h <> h_lmaxm h -> forall f, new K p a <> Ok f.
Proof.
  intros HK HA Pu Nm Eh Nl f H. rewrite new_staged in H. unfold staged in H. rewrite Eh in H. cbn [bind] in H. destruct (a_maps a) as [im|]; [|contradiction]. apply bind_ok in H as ([[spin maps] tm] & Eb & H). apply bind_ok in H as ([[[m mu] iM] als] & Ec & H).
  unfold alms_of in H. change (pure a) with (a_pe a || a_pb a) in H. rewrite Pu in H. apply bind_ok in H as (am & Ea & H). apply bind_ok in H as ([alm pm] & Ep & H). clear H. unfold purify in Ep. apply bind_ok in Ep as (alms & E1 & Ep). cbv zeta in Ep. apply bind_ok in Ep as (w1 & _ & Ep). apply bind_ok in Ep as (palm & E2 & Ep). apply bind_ok in Ep as (alms2 & E3 & Ep). clear Ep.
  pose proof (sht_shaped _ _ _ _ _ _ _ HK HA E2) as S2. cbn [spin_prod length] in S2. pose proof (sht_shaped _ _ _ _ _ _ _ HK HA E1) as S1. rewrite map_length in S1.
  assert (L2 : length mu = 2%nat).
  { destruct (body_inv _ _ _ _ _ _ Eb) as (Es & Er & Ep & _ & _). unfold pure in Ep. rewrite Pu in Ep. cbn [andb] in Ep. apply negb_false_iff in Ep. apply Z.eqb_eq in Ep. subst spin.
    assert (Li : length im = 2%nat). { unfold spin_of in Es. destruct (Nat.eqb_spec (length im) 1) as [X|X]; cbn [negb andb] in Es. - destruct (a_spin a) as [sp|]; [|discriminate Es]. destruct (sp =? 0)%Z eqn:Z0; cbn [negb andb orb] in Es; [injection Es as ->; discriminate Z0 | discriminate Es]. - destruct (Nat.eqb_spec (length im) 2) as [Y|Y]; [exact Y | discriminate Es]. }
    assert (Lm : length maps = 2%nat) by (rewrite (mapM_length _ _ _ Er); exact Li). assert (LU : length (um a h maps) = 2%nat) by (unfold um; destruct (a_moi a); rewrite ?map_length; exact Lm).
    unfold L_Field2.clean in Ec. destruct tm as [t|]; [|injection Ec as _ <- _ _; exact LU]. apply bind_ok in Ec as ([iM' al] & _ & Ec). injection Ec as _ <- _ _. unfold minus_temps. rewrite length_tab. exact LU. }
  rewrite L2 in S1. eapply (add_pure_len (a_pe a) (a_pb a) (h_lmax h) _ alms palm (n_alm (h_lmaxm h)) Pu S1 S2); [|exact E3].
  assert (P0 : (0 < h_lmax h)%Z /\ (0 < h_lmaxm h)%Z).
  { clear - Eh. unfold head_of in Eh. apply bind_ok in Eh as ([mask ma] & E1 & Eh). apply bind_ok in Eh as ([[s lm] ang] & E2 & Eh). apply bind_ok in Eh as (mk & E3 & Eh). apply bind_ok in Eh as (mask_a & E4 & Eh). cbv zeta in Eh. destruct (_ || _)%bool eqn:E0; [discriminate Eh|]. apply bind_ok in Eh as (beam & E5 & Eh). injection Eh as <-. cbn [h_lmax h_lmaxm]. apply orb_false_elim in E0 as [A B]. apply Z.leb_gt in A, B. split; assumption. }
  destruct (Z.lt_total (h_lmax h) (h_lmaxm h)) as [Q|[Q|Q]]; [| contradiction |].
  - pose proof (n_alm_lt (h_lmax h) (h_lmaxm h)). lia.
  - pose proof (n_alm_lt (h_lmaxm h) (h_lmax h)). lia.
Qed.

(** ** C66 *)
Lemma add_pure_keeps pe pb lmax (fl : list F) alms palm r : add_pure pe pb lmax fl alms palm = Ok r -> (pe = false -> nth 0 r [] = nth 0 alms []) /\ (pb = false -> nth 1 r [] = nth 1 alms []).
Proof.
  unfold add_pure. cbv zeta. intro H. apply bind_ok in H as (e & Ee & H). apply bind_ok in H as (b & Eb & H). injection H as <-. cbn [nth]. split; intros ->; congruence.
Qed.
Lemma purify_keeps K s lmax lmaxm n mask am pe pb u alm m : purify fsqrt K s lmax lmaxm n mask am pe pb u = Ok (alm, m) ->
  exists alms, sht K 2 s lmaxm n (map (vmul mask) u) = Ok alms /\ (pe = false -> nth 0 alm [] = nth 0 alms []) /\ (pb = false -> nth 1 alm [] = nth 1 alms []).
Proof.
  intro H. unfold purify in H. apply bind_ok in H as (alms & E1 & H). cbv zeta in H. apply bind_ok in H as (w1 & _ & H). apply bind_ok in H as (p1 & _ & H). apply bind_ok in H as (a1 & A1 & H). apply bind_ok in H as (w2 & _ & H). apply bind_ok in H as (p2 & _ & H). apply bind_ok in H as (a2 & A2 & H). apply bind_ok in H as (m2 & _ & H). injection H as <- <-.
  exists alms. split; [exact E1|]. destruct (add_pure_keeps _ _ _ _ _ _ _ A1) as [X1 Y1]. destruct (add_pure_keeps _ _ _ _ _ _ _ A2) as [X2 Y2]. split; intro Z; [rewrite X2, X1 by exact Z | rewrite Y2, Y1 by exact Z]; reflexivity.
Qed.
Lemma vmul_minus nc np (mask al : list F) (t : list mat) m : length mask = np -> (forall x, In x t -> shaped nc np x) -> shaped nc np m ->
  map (vmul mask) (minus_temps al t m) = minus_temps al (map (map (vmul mask)) t) (map (vmul mask) m).
Proof.
  intros L St Sm. apply (mat_eq_mg nc np); [apply shaped_vmul; [exact L | apply shaped_minus; exact Sm] | apply shaped_minus, shaped_vmul; assumption |]. intros i j Hi Hj.
  rewrite (mg_vmul nc np) by (auto using shaped_minus). rewrite !(mg_minus nc np) by (auto using shaped_vmul). rewrite (mg_vmul nc np) by assumption. rewrite map_length.
  rewrite (sum_ext (length t) (fun i0 => nth i0 al 0 * mg (nth i0 (map (map (vmul mask)) t) []) i j) (fun k => nth j mask 0 * (nth k al 0 * mg (nth k t []) i j))).
  - rewrite sum_mul_l. ring.
  - intros k Hk. rewrite (nth_indep _ [] (map (vmul mask) [])) by (rewrite map_length; exact Hk). rewrite (map_nth (map (vmul mask)) t []). rewrite (mg_vmul nc np) by (auto using nth_In). ring.
Qed.
(** what the transforms of a purified field start from: the coefficients of the field that is not purified *)
Lemma pure_vs_plain K p a pe pb f1 f0 : rect_args a -> a_moi a = false -> pe || pb = true -> new K p (set_pure a pe pb) = Ok f1 -> new K p (set_pure a false false) = Ok f0 -> f_lmax f1 = f_lmaxm f1 -> a_maps a <> None ->
  exists h am mu alms alm m2, f_mask f1 = h_mask h /\ f_info f1 = h_s h /\ f_lmaxm f1 = h_lmaxm h /\ h_lmax h = h_lmaxm h /\ length mu = 2%nat /\ sht K 0 (h_s h) (h_lmaxm h) (opt (a_niterm a) (n_iter_mask_default p)) [h_mask h] = Ok am /\ get_alms f0 = Ok alms /\ get_alms f1 = Ok alm /\ length alm = 2%nat /\
    sht K 2 (h_s h) (h_lmaxm h) (opt (a_niter a) (n_iter_default p)) (map (vmul (h_mask h)) mu) = Ok alms /\
    purify fsqrt K (h_s h) (h_lmax h) (h_lmaxm h) (opt (a_niter a) (n_iter_default p)) (h_mask h) (nth 0 am []) pe pb mu = Ok (alm, m2).
Proof.
  intros R Mo Pu H1 H0 EL Nm. rewrite new_staged in H1, H0. unfold staged in H1, H0. change (head_of fourpi (set_pure a pe pb)) with (head_of fourpi a) in H1. change (head_of fourpi (set_pure a false false)) with (head_of fourpi a) in H0. destruct (head_of fourpi a) as [h|e|] eqn:Eh; [|discriminate H1|discriminate H1]. cbn [bind a_maps set_pure] in H1, H0. destruct (a_maps a) as [im|] eqn:Em; [|contradiction].
  apply bind_ok in H1 as ([[spin maps] tm] & Eb & H1). apply bind_ok in H1 as ([[[m mu] iM] als] & Ec & H1). apply bind_ok in H0 as ([[spin0 maps0] tm0] & Eb0 & H0). apply bind_ok in H0 as ([[[m0 mu0] iM0] als0] & Ec0 & H0).
  destruct (head_mask fourpi a h R Eh) as [Lm La]. assert (R1 : rect_args (set_pure a pe pb)) by exact R. destruct (body_shapes _ h im _ _ _ R1 Em Eb) as (Sm & St & Nc).
  destruct (body_inv _ _ _ _ _ _ Eb) as (Es & Er & Ep & Eu & Et). destruct (body_inv _ _ _ _ _ _ Eb0) as (Es0 & Er0 & _ & _ & Et0). cbn [a_spin a_temp set_pure] in *. rewrite Es in Es0. injection Es0 as <-. rewrite Er in Er0. injection Er0 as <-. rewrite Et in Et0. injection Et0 as <-.
  unfold pure in Ep. cbn [a_pe a_pb set_pure] in Ep. rewrite Pu in Ep. cbn [andb] in Ep. apply negb_false_iff in Ep. apply Z.eqb_eq in Ep. subst spin.
  assert (NA : h_mask_a h = None). { unfold anis_ok in Eu. destruct (h_mask_a h); [|reflexivity]. cbn [is_some] in Eu. unfold pure in Eu. cbn [a_pe a_pb set_pure] in Eu. rewrite Pu in Eu. discriminate Eu. }
  assert (KEY : map (vmul (h_mask h)) mu = m0).
  { unfold L_Field2.clean in Ec, Ec0. destruct tm as [t|].
    - change (masked_t (set_pure a pe pb) h t) with (masked_t a h t) in Ec. change (masked_t (set_pure a false false) h t) with (masked_t a h t) in Ec0. change (masked (set_pure a pe pb) h maps) with (masked a h maps) in Ec. change (masked (set_pure a false false) h maps) with (masked a h maps) in Ec0. change (tol_of p (set_pure a pe pb)) with (tol_of p a) in Ec. change (tol_of p (set_pure a false false)) with (tol_of p a) in Ec0.
      apply bind_ok in Ec as ([iM' al] & Ed & Ec). apply bind_ok in Ec0 as ([iM0' al0] & Ed0 & Ec0). rewrite Ed in Ed0. injection Ed0 as <- <-. injection Ec as _ <- _ _. injection Ec0 as <- _ _ _.
      unfold masked, masked_t. rewrite Mo, NA. cbn [apply_mask]. destruct (St t eq_refl) as [St' _]. rewrite <- (vmul_minus (length im) (npix (h_s h))) by assumption. f_equal.
      assert (U : forall x, um (set_pure a pe pb) h x = x) by (intro x; unfold um; cbn [a_moi set_pure]; rewrite Mo; reflexivity). rewrite U. f_equal. rewrite <- (map_id t) at 2. apply map_ext. exact U.
    - injection Ec as _ <- _ _. injection Ec0 as <- _ _ _. unfold masked, um. cbn [a_moi set_pure]. rewrite Mo, NA. reflexivity. }
  unfold alms_of in H1, H0. unfold pure in H1, H0. cbn [a_pe a_pb set_pure] in H1, H0. rewrite Pu in H1. cbn [orb] in H0. apply bind_ok in H1 as (am & Ea & H1). apply bind_ok in H1 as ([alm pm] & Epu & H1). apply bind_ok in H1 as (at1 & _ & H1). injection H1 as <-. apply bind_ok in H0 as (alms & E0 & H0). apply bind_ok in H0 as (at0 & _ & H0). injection H0 as <-.
  assert (LM : length mu = 2%nat).
  { assert (Li : length im = 2%nat). { unfold spin_of in Es. destruct Nc as [X|X]; [|exact X]. rewrite X in Es. cbn [Nat.eqb negb andb] in Es. destruct (a_spin a) as [sp|]; [|discriminate Es]. destruct (sp =? 0)%Z eqn:Z0; cbn [negb andb orb] in Es; [injection Es as ->; discriminate Z0 | discriminate Es]. }
    assert (LU : length (um (set_pure a pe pb) h maps) = 2%nat) by (unfold um; destruct (a_moi _); rewrite ?map_length, (proj1 Sm); exact Li).
    unfold L_Field2.clean in Ec. destruct tm as [t|]; [|injection Ec as _ <- _ _; exact LU]. apply bind_ok in Ec as ([iM' al] & _ & Ec). injection Ec as _ <- _ _. unfold minus_temps. rewrite length_tab. exact LU. }
  cbn [f_lmax f_lmaxm field_of] in EL. exists h, am, mu, alms, alm, pm. cbn [f_mask f_info f_lmaxm field_of get_alms stored f_alm]. repeat (split; [reflexivity || assumption|]).
  split. { unfold purify in Epu. apply bind_ok in Epu as (z1 & _ & H). cbv zeta in H. apply bind_ok in H as (w1 & _ & H). apply bind_ok in H as (p1 & _ & H). apply bind_ok in H as (a1 & A1 & H). apply bind_ok in H as (w2 & _ & H). apply bind_ok in H as (p2 & _ & H). apply bind_ok in H as (a2 & A2 & H). apply bind_ok in H as (m2 & _ & H). injection H as <- <-. unfold add_pure in A2. cbv zeta in A2. apply bind_ok in A2 as (e & _ & A2). apply bind_ok in A2 as (b & _ & A2). injection A2 as <-. reflexivity. }
  split; [rewrite KEY, <- EL; exact E0 | exact Epu].
Qed.
Theorem C66_other_component K p a pe pb f1 f0 alm1 alm0 : rect_args a -> a_moi a = false -> pe || pb = true -> a_maps a <> None -> new K p (set_pure a pe pb) = Ok f1 -> new K p (set_pure a false false) = Ok f0 -> f_lmax f1 = f_lmaxm f1 ->
  get_alms f1 = Ok alm1 -> get_alms f0 = Ok alm0 -> (pe = false -> nth 0 alm1 [] = nth 0 alm0 []) /\ (pb = false -> nth 1 alm1 [] = nth 1 alm0 []).
Proof.
  intros R Mo Pu Nm H1 H0 EL G1 G0. destruct (pure_vs_plain K p a pe pb f1 f0 R Mo Pu H1 H0 EL Nm) as (h & am & mu & alms & alm & m2 & _ & _ & _ & _ & _ & _ & A0 & A1 & _ & E0 & E1). rewrite A0 in G0. injection G0 as <-. rewrite A1 in G1. injection G1 as <-.
  destruct (purify_keeps _ _ _ _ _ _ _ _ _ _ _ _ E1) as (alms' & E2 & X & Y). rewrite E0 in E2. injection E2 as <-. split; assumption.
Qed.
(** ** C68 *)
Definition zeros (v : list F) : Prop := Forall (eq 0) v.
Definition all_zero (m : mat) : Prop := Forall zeros m.
(** transforms take zero to zero *)
Definition zero_to_zero (K : calc F) : Prop := forall spin s lmax m, all_zero m -> all_zero (c_m2a K spin s lmax m) /\ all_zero (c_a2m K spin s lmax m).
Lemma zeros_zipw_l (f : F -> F -> F) v : forall w, (forall x, f 0 x = 0) -> zeros v -> zeros (zipw f v w).
Proof. induction v as [|x v IH]; intros [|y w] Hf Z; try (constructor; fail). inversion Z; subst. rewrite zipw_cons. constructor; [symmetry; apply Hf | apply IH; assumption]. Qed.
Lemma zeros_zipw2 (f : F -> F -> F) v : forall w, f 0 0 = 0 -> zeros v -> zeros w -> zeros (zipw f v w).
Proof. induction v as [|x v IH]; intros [|y w] Hf Z Z'; try (constructor; fail). inversion Z; subst. inversion Z'; subst. rewrite zipw_cons. constructor; [symmetry; exact Hf | apply IH; assumption]. Qed.
Lemma all_zero_msub a : forall b, all_zero a -> all_zero b -> all_zero (msub a b).
Proof. induction a as [|x a IH]; intros [|y b] Za Zb; try (constructor; fail). inversion Za; subst. inversion Zb; subst. unfold msub. rewrite zipw_cons. constructor; [apply zeros_zipw2; auto; ring | apply IH; assumption]. Qed.
Lemma refine_zero (m2a a2m : mat -> mat) n m alm : (forall x, all_zero x -> all_zero (m2a x) /\ all_zero (a2m x)) -> all_zero m -> all_zero alm -> all_zero (refine m2a a2m n m alm).
Proof. intros H Zm. revert alm. induction n as [|n IH]; intros alm Z; [exact Z|]. cbn [refine]. apply IH. apply all_zero_msub; [exact Z|]. apply H. apply all_zero_msub; [apply H; exact Z | exact Zm]. Qed.
Lemma in_chunks {A} n k (v : list A) r x : In r (chunks n k v) -> In x r -> In x v.
Proof. revert v. induction n as [|n IH]; intros v Hr Hx; cbn [chunks] in Hr; [contradiction|]. destruct Hr as [<-|Hr]; [rewrite <- (firstn_skipn k v); apply in_or_app; left; exact Hx|]. rewrite <- (firstn_skipn k v). apply in_or_app. right. apply IH; assumption. Qed.
Lemma zeros_in (v : list F) : zeros v <-> forall x, In x v -> x = 0.
Proof. unfold zeros. rewrite Forall_forall. split; intros H x Hx; symmetry; apply H, Hx. Qed.
Lemma pad_zero s v r : pad_map s v = Ok r -> zeros v -> zeros r.
Proof.
  destruct s as [n w | ny nx nf f1 f2 wts]; cbn [pad_map]; intros H Z; [injection H as <-; exact Z|]. destruct (negb _); [discriminate H|]. destruct (_ <? _)%nat; [discriminate H|]. injection H as <-. rewrite zeros_in in *. intros x Hx. apply in_concat in Hx as (l & Hl & Hx). apply in_map_iff in Hl as (c & <- & Hc). apply in_app_or in Hx as [Hx|Hx]; [apply Z; eapply in_chunks; eassumption | apply repeat_spec in Hx; exact Hx].
Qed.
Lemma unpad_zero s v r : unpad_map s v = Ok r -> zeros v -> zeros r.
Proof.
  destruct s as [n w | ny nx nf f1 f2 wts]; cbn [unpad_map]; intros H Z; [injection H as <-; exact Z|]. destruct (negb _); [discriminate H|]. injection H as <-. rewrite zeros_in in *. intros x Hx. apply in_concat in Hx as (l & Hl & Hx). apply in_map_iff in Hl as (c & <- & Hc). apply Z. eapply in_chunks; [exact Hc|]. rewrite <- (firstn_skipn nx c). apply in_or_app. left. exact Hx.
Qed.
Lemma mapM_zero g l r : (forall v r, g v = Ok r -> zeros v -> zeros r) -> mapM g l = Ok r -> all_zero l -> all_zero r.
Proof. intros G. revert r. induction l as [|v l IH]; intros r H Z; cbn [mapM] in H; [injection H as <-; constructor|]. apply bind_ok in H as (x & Ex & H). apply bind_ok in H as (y & Ey & H). injection H as <-. inversion Z; subst. constructor; [eapply G; eassumption | apply IH; assumption]. Qed.
Lemma sht_zero K spin s lmax n m r : zero_to_zero K -> sht K spin s lmax n m = Ok r -> all_zero m -> all_zero r.
Proof.
  intros ZK H Z. unfold sht in H. apply bind_ok in H as (pm & Ep & H). destruct (_ && _)%bool; [discriminate H|]. injection H as <-. assert (Zp : all_zero pm) by (eapply mapM_zero; [apply pad_zero | exact Ep | exact Z]). apply refine_zero; [intros x Hx; apply ZK, Hx | exact Zp | apply ZK, Zp].
Qed.
Lemma isht_zero K spin s lmax m r : zero_to_zero K -> isht K spin s lmax m = Ok r -> all_zero m -> all_zero r.
Proof. intros ZK H Z. unfold isht in H. destruct (_ && _)%bool; [discriminate H|]. unfold alm2map in H. eapply mapM_zero; [apply unpad_zero | exact H | apply ZK, Z]. Qed.
Lemma nth_zero (m : mat) i : all_zero m -> zeros (nth i m []).
Proof. intro Z. destruct (Nat.lt_ge_cases i (length m)) as [H|H]; [|rewrite nth_overflow by exact H; constructor]. unfold all_zero in Z; rewrite Forall_forall in Z. apply Z, nth_In, H. Qed.
Lemma almxfl_zero lmax (v fl : list F) : zeros v -> zeros (almxfl lmax v fl).
Proof.
  intro Z. unfold almxfl. revert v Z. generalize (ells lmax). intros l v. revert l. induction v as [|x v IH]; intros [|y l] Z; try (constructor; fail). inversion Z; subst. rewrite zipw_cons. constructor; [ring | apply IH; assumption].
Qed.
Lemma vadd_zero (a b r : list F) : vadd a b = Ok r -> zeros b -> r = a.
Proof.
  unfold vadd. destruct (Nat.eqb_spec (length a) (length b)) as [L|L]; [|discriminate]. intros H Z. injection H as <-. revert b L Z. induction a as [|x a IH]; intros [|y b] L Z; try discriminate L; [reflexivity|]. inversion Z; subst. rewrite zipw_cons. f_equal; [ring|]. apply IH; [injection L as L; exact L | assumption].
Qed.
Lemma add_pure_zero pe pb lmax (fl : list F) alms palm r : add_pure pe pb lmax fl alms palm = Ok r -> all_zero palm -> r = [nth 0 alms []; nth 1 alms []].
Proof.
  unfold add_pure. cbv zeta. intros H Z. apply bind_ok in H as (e & Ee & H). apply bind_ok in H as (b & Eb & H). injection H as <-. f_equal; [|f_equal].
  - destruct pe; [|congruence]. eapply vadd_zero; [exact Ee | apply almxfl_zero, nth_zero, Z].
  - destruct pb; [|congruence]. eapply vadd_zero; [exact Eb | apply almxfl_zero, nth_zero, Z].
Qed.
Lemma spin_prod_zero w u : all_zero w -> all_zero (spin_prod w u).
Proof.
  intro Z. unfold spin_prod, vmul. repeat constructor; apply zeros_zipw2; try ring; apply zeros_zipw_l; try (intro; ring); apply nth_zero, Z.
Qed.
(** a mask whose multipoles with l >= 1 vanish *)
Definition monopole_only (lmax : Z) (alm : list F) : Prop := forall i, (i < length alm)%nat -> (0 < nth i (ells lmax) 0)%Z -> nth i alm 0 = 0.
Lemma monopole_walm lmaxm alm : fsqrt 0 = 0 -> (0 <= lmaxm)%Z -> monopole_only lmaxm alm -> zeros (almxfl lmaxm alm (fls lmaxm (fl1 fsqrt))).
Proof.
  intros S0 Hl M. rewrite zeros_in. intros x Hx. apply (In_nth _ _ 0) in Hx as (i & Hi & <-). unfold almxfl in *. rewrite length_zipw in Hi. rewrite (nth_zipw _ _ _ i 0 0%Z 0) by lia. assert (P : (0 <= nth i (ells lmaxm) 0)%Z).
  { assert (IN : In (nth i (ells lmaxm) 0%Z) (ells lmaxm)) by (apply nth_In; lia). unfold ells in IN at 2. apply in_flat_map in IN as (m & _ & IN). apply in_flat_map in IN as (l & _ & IN). cbn [In] in IN. lia. }
  destruct (Z.eq_dec (nth i (ells lmaxm) 0%Z) 0) as [E|E].
  - rewrite E. cbn [Z.to_nat]. unfold fls. replace (Z.to_nat (lmaxm + 1)) with (S (Z.to_nat lmaxm)) by lia. cbn [seq map nth]. unfold fl1. cbn [Z.of_nat Z.add Z.mul]. change (fofZ 0 : F) with (0 : F). rewrite S0. ring.
  - rewrite (M i) by lia. ring.
Qed.
Theorem C68_uniform_mask K p a pe pb f1 f0 am : rect_args a -> a_moi a = false -> pe || pb = true -> a_maps a <> None -> new K p (set_pure a pe pb) = Ok f1 -> new K p (set_pure a false false) = Ok f0 -> f_lmax f1 = f_lmaxm f1 ->
  alm_shape K -> map_shape K -> zero_to_zero K -> fsqrt 0 = 0 -> snd (get_mask_alms K f1) = Ok am -> monopole_only (f_lmaxm f1) am -> get_alms f1 = get_alms f0.
Proof.
  intros R Mo Pu Nm H1 H0 EL HK HA ZK S0 GA MO. pose proof H1 as H1'. destruct (pure_vs_plain K p a pe pb f1 f0 R Mo Pu H1 H0 EL Nm) as (h & am' & mu & alms & alm & m2 & EM & EI & ELM & ELL & LM & EA & A0 & A1 & L2 & E0 & E1). rewrite A0, A1. f_equal.
  (* the multipoles used are those returned by get_mask_alms *)
  assert (AM : am = nth 0 am' []).
  { rewrite new_staged in H1'. unfold staged in H1'. apply bind_ok in H1' as (h' & Eh & H). cbn [a_maps set_pure] in H. destruct (a_maps a) as [im|]; [|contradiction]. apply bind_ok in H as ([[spin maps] tm] & Eb & H). apply bind_ok in H as ([[[m mu'] iM] als] & Ec & H). unfold alms_of in H. unfold pure in H. cbn [a_pe a_pb set_pure] in H. rewrite Pu in H. apply bind_ok in H as (am2 & Ea & H). apply bind_ok in H as ([alm2 pm] & Ep & H). apply bind_ok in H as (at1 & _ & H). injection H as <-.
    cbn [f_mask f_info f_lmaxm field_of] in EM, EI, ELM. rewrite EM, EI, ELM in Ea. cbn [a_niterm set_pure] in Ea. rewrite EA in Ea. injection Ea as <-. unfold get_mask_alms in GA. cbn [f_alm_mask field_of f_info f_lmaxm f_niterm f_mask f_lite a_lite a_niterm set_pure] in GA. unfold keep in GA. destruct (a_lite a); cbn [snd] in GA; [|injection GA as <-; reflexivity]. rewrite EM, EI, ELM, EA in GA. cbn [snd] in GA. injection GA as <-. reflexivity. }
  rewrite ELM, AM in MO. unfold purify in E1. apply bind_ok in E1 as (z1 & Z1 & H). rewrite E0 in Z1. injection Z1 as <-. cbv zeta in H. set (walm := almxfl (h_lmaxm h) (nth 0 am' []) (fls (h_lmaxm h) (fl1 fsqrt))) in *.
  assert (P0 : (0 <= h_lmaxm h)%Z).
  { clear - H1 ELM. rewrite new_staged in H1. unfold staged in H1. apply bind_ok in H1 as (h' & Eh & H). assert (E : f_lmaxm f1 = h_lmaxm h').
    { clear Eh. destruct (a_maps (set_pure a pe pb)). - apply bind_ok in H as ([[spin maps] tm] & Eb & H). apply bind_ok in H as ([[[m mu'] iM] als] & Ec & H). unfold alms_of in H. destruct (pure _). + apply bind_ok in H as (? & _ & H). apply bind_ok in H as ([? ?] & _ & H). apply bind_ok in H as (? & _ & H). injection H as <-. reflexivity. + apply bind_ok in H as (? & _ & H). apply bind_ok in H as (? & _ & H). injection H as <-. reflexivity.
      - destruct (a_spin _); [|discriminate H]. destruct (_ && _)%bool; [discriminate H|]. injection H as <-. reflexivity. }
    rewrite <- ELM, E. unfold head_of in Eh. apply bind_ok in Eh as ([mask ma] & E1 & Eh). apply bind_ok in Eh as ([[s lm] ang] & E2 & Eh). apply bind_ok in Eh as (mk & E3 & Eh). apply bind_ok in Eh as (mask_a & E4 & Eh). cbv zeta in Eh. destruct (_ || _)%bool eqn:EZ; [discriminate Eh|]. apply bind_ok in Eh as (beam & E5 & Eh). injection Eh as <-. cbn [h_lmaxm] in *. apply orb_false_elim in EZ as [_ B]. apply Z.leb_gt in B. cbn [a_lmaxm set_pure] in *. lia. }
  assert (ZW : zeros walm) by (apply monopole_walm; assumption).
  assert (Z2 : zeros (map (fun x => x * 0) walm)) by (rewrite zeros_in; intros x Hx; apply in_map_iff in Hx as (y & <- & _); ring).
  apply bind_ok in H as (w1 & W1 & H). assert (Zw1 : all_zero w1) by (eapply isht_zero; [exact ZK | exact W1 | repeat constructor; assumption]).
  apply bind_ok in H as (p1 & P1 & H). assert (Zp1 : all_zero p1) by (eapply sht_zero; [exact ZK | exact P1 | apply spin_prod_zero; exact Zw1]). apply bind_ok in H as (a1 & AA1 & H).
  apply bind_ok in H as (w2 & W2 & H). assert (Zw2 : all_zero w2) by (eapply isht_zero; [exact ZK | exact W2 | repeat constructor; [apply almxfl_zero; exact ZW | assumption]]).
  apply bind_ok in H as (p2 & P2 & H). assert (Zp2 : all_zero p2). { eapply mapM_zero; [|exact P2 | apply spin_prod_zero; exact Zw2]. intros v r Hv Zv. apply bind_ok in Hv as (y & Ey & Hv). injection Hv as <-. apply nth_zero. eapply sht_zero; [exact ZK | exact Ey | repeat constructor; exact Zv]. }
  apply bind_ok in H as (a2 & AA2 & H). apply bind_ok in H as (m3 & _ & H). injection H as <- <-. rewrite (add_pure_zero _ _ _ _ _ _ _ AA2 Zp2), (add_pure_zero _ _ _ _ _ _ _ AA1 Zp1). cbn [nth].
  pose proof (sht_shaped _ _ _ _ _ _ _ HK HA E0) as [L _]. rewrite map_length in L.
  rewrite LM in L. destruct alms as [|x [|y [|]]]; try discriminate L. reflexivity.
Qed.
End PF5.
