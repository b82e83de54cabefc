(** Properties C36 (second application) and C37 (maps multiplied by the mask beforehand). *)
From Verif Require Import Base M_Utils L_Utils M_Field L_Field L_Field2 P_Utils P_Field P_Field2.
Section PF3.
Context {F : ofield}.
Local Open Scope F_scope.
Add Field FfPFi3 : (fth F).
Notation mat := (list (list F)).
Variable fourpi : F.
Variable fsqrt : F -> F.
Variable eigh : mat -> list F * mat.
Variable np_inv : mat -> res mat.
Notation new := (field_new fourpi fsqrt eigh np_inv).
Notation solver_ok := (solver_ok eigh np_inv).

Lemma reform_I1 n w (m : mat) nc : shaped nc (npix (Hpx n w)) m -> (0 <= n)%Z -> mapM (reform_map (Hpx n w)) (map I1 m) = Ok m.
Proof.
  intros [_ S] Hn. induction m as [|v m IH]; [reflexivity|]. inversion S; subst. cbn [map mapM reform_map]. cbn [npix] in H1. rewrite H1. rewrite Z2Nat.id by lia. rewrite Z.eqb_refl. cbn [bind]. rewrite IH by assumption. reflexivity.
Qed.
Lemma minus_zero nc np al (t : list mat) m : shaped nc np m -> (forall k, (k < length t)%nat -> nth k al 0 = 0) -> minus_temps al t m = m.
Proof.
  intros S Z. apply (mat_eq_mg nc np); [apply shaped_minus; exact S | exact S|]. intros i j Hi Hj. rewrite (mg_minus nc np) by assumption. rewrite sum_zero; [ring|]. intros k Hk. rewrite Z by exact Hk. ring.
Qed.
Lemma mapM_const {A B} (g : A -> res B) l (y : B) r : (forall x, In x l -> g x = Ok y) -> mapM g l = Ok r -> r = map (fun _ => y) l.
Proof.
  intros H. rewrite (mapM_ok g (fun _ => y) l H). intro E. injection E as <-. reflexivity.
Qed.
(** deprojecting what has been deprojected *)
Theorem C36_idempotent K p a f temps maps M : rect_args a -> a_wcs a = NoWcs -> new K p a = Ok f -> a_pe a = false -> a_pb a = false -> a_lite a = false ->
  get_templates f = Ok temps -> get_maps f = Ok maps -> gram (f_info f) temps = Ok M -> solver_ok (length temps) (opt (a_tol a) (tol_pinv_default p)) M ->
  (forall q, (q < npix (f_info f))%nat -> 0 <= pw (f_info f) q) ->
  exists f', new K p (set_data a (map I1 maps) (TArr (map (map I1) temps)) true) = Ok f' /\ get_maps f' = Ok maps /\ get_alms f' = get_alms f /\ get_templates f' = Ok temps /\
    f_alm_temp f' = f_alm_temp f /\ forall als k, f_alphas f' = Some als -> (k < length temps)%nat -> nth k als 0 = 0.
Proof.
  intros R W H Pe Pb Li Gt Gm EM SO WP. pose proof (C35_orthogonal fourpi fsqrt eigh np_inv K p a f temps maps M R H Pe Pb Gt Gm EM SO WP) as OR.
  destruct (a_maps a) as [im|] eqn:Em.
  2:{ rewrite new_staged in H. unfold staged in H. apply bind_ok in H as (h & Eh & H). rewrite Em in H. destruct (a_spin a); [|discriminate H]. destruct (_ && _)%bool; [discriminate H|]. injection H as <-. discriminate Gm. }
  rewrite new_staged in *. unfold staged in *. apply bind_ok in H as (h & Eh & H). rewrite Em in H. apply bind_ok in H as ([[spin m0] tm] & Eb & H). apply bind_ok in H as ([[[m mu] iM] als] & Ec & H).
  rewrite head_set_data, Eh. cbn [bind a_maps set_data]. destruct (body_inv _ _ _ _ _ _ Eb) as (Es & Er & Ep & Eu & Etm). destruct (head_mask fourpi a h R Eh) as [Lm La]. destruct (body_shapes a h im _ _ _ R Em Eb) as (Sm & St & Nc).
  assert (EF : f_info f = h_s h /\ f_temp f = (match tm with Some t => keep (a_lite a) (masked_t a h t) | None => None end) /\ f_maps f = keep (a_lite a) m).
  { unfold alms_of in H. unfold pure in H. rewrite Pe, Pb in H. cbn [orb] in H. apply bind_ok in H as (alm & _ & H). apply bind_ok in H as (at_ & _ & H). injection H as <-. destruct tm; repeat split; reflexivity. }
  destruct EF as (Ei & Etf & Emf). rewrite Ei in *. unfold get_templates in Gt. unfold get_maps in Gm. rewrite Etf in Gt. rewrite Emf in Gm. rewrite Li in *. cbn [keep stored] in *. destruct tm as [tm|]; [|discriminate Gt]. cbn [stored] in Gt. injection Gt as <-. injection Gm as ->.
  destruct (St tm eq_refl) as [St' Lt]. pose proof (temps_no_anis _ _ _ _ _ _ Eb) as NA. destruct (masked_t_shaped a h _ tm Lm St') as [Smt Lmt].
  cbn [L_Field2.clean] in Ec. apply bind_ok in Ec as ([iM' al] & Ed & Ec). injection Ec as Em' <- <- <-.
  assert (WF : wf_info (h_s h)) by (eapply (gram_wf _ (length im)); [exact Smt | rewrite Lmt; exact Lt | lia | exact EM]).
  assert (Sa : shaped (length im) (npix (h_s h)) (masked a h m0)) by (apply masked_shaped; auto).
  assert (Sc : shaped (length im) (npix (h_s h)) maps) by (rewrite <- Em'; apply shaped_minus; exact Sa).
  (* HEALPix *)
  assert (HP : exists n w, h_s h = Hpx n w /\ (0 <= n)%Z).
  { clear - Eh W. unfold head_of in Eh. apply bind_ok in Eh as ([mask ma] & E1 & Eh). apply bind_ok in Eh as ([[s lm] ang] & E2 & Eh). apply bind_ok in Eh as (mk & E3 & Eh). apply bind_ok in Eh as (mask_a & E4 & Eh). cbv zeta in Eh. destruct (_ || _)%bool; [discriminate Eh|]. apply bind_ok in Eh as (beam & E5 & Eh). injection Eh as <-. cbn [h_s].
    unfold map_info in E2. rewrite W in E2. destruct mask as [v|]; [|discriminate E2]. apply bind_ok in E2 as (n & En & E2). injection E2 as <- <- <-. eexists _, _. split; [reflexivity|]. apply C47_accepted_sizes in En as (k & _ & -> & _). apply Z.pow_nonneg. lia. }
  destruct HP as (n & w & HP & Hn). set (a' := set_data a (map I1 maps) (TArr (map (map I1) (masked_t a h tm))) true).
  assert (Lc : length (map (@I1 F) maps) = length im) by (rewrite map_length; exact (proj1 Sc)).
  assert (RT : mapM (mapM (reform_map (h_s h))) (map (map I1) (masked_t a h tm)) = Ok (masked_t a h tm)).
  { rewrite HP in *. clear - Smt Hn. induction (masked_t a h tm) as [|x l IH]; [reflexivity|]. cbn [map mapM]. rewrite (reform_I1 n w x (length im)) by (try exact Hn; apply Smt; left; reflexivity). cbn [bind]. rewrite IH by (intros y Hy; apply Smt; right; exact Hy). reflexivity. }
  assert (Eb' : body_of a' h (map I1 maps) = Ok (spin, maps, Some (masked_t a h tm))).
  { unfold body_of. rewrite Lc. cbn [a_spin set_data a' a_temp]. rewrite Es. cbn [bind]. rewrite HP at 1. rewrite (reform_I1 n w maps (length im)) by (try exact Hn; rewrite <- HP; exact Sc). cbn [bind]. change (pure a') with (pure a). rewrite Ep. unfold anis_ok. rewrite NA. cbn [is_some bind].
    unfold temps_of. rewrite RT. destruct (masked_t a h tm) as [|x l] eqn:EL; [cbn [length] in Lmt; congruence|]. cbn [map].
    assert (FB : forallb (fun t => Nat.eqb (length t) (length maps)) (map I1 x :: map (map (@I1 F)) l) = true).
    { apply forallb_forall. change (map I1 x :: map (map (@I1 F)) l) with (map (map (@I1 F)) (x :: l)). intros y Hy. apply in_map_iff in Hy as (z & <- & Hz). rewrite map_length. apply Nat.eqb_eq. rewrite (proj1 (Smt _ Hz)). rewrite (proj1 Sc). reflexivity. }
    rewrite FB. reflexivity. }
  rewrite Eb'. cbn [bind L_Field2.clean]. change (tol_of p a') with (tol_of p a). change (masked_t a' h (masked_t a h tm)) with (masked_t a h tm). change (masked a' h maps) with maps.
  destruct (deproject_inv eigh np_inv _ _ _ _ _ _ _ Smt Sa WF Ed) as (M' & EM' & LM & VM & EP & VA). rewrite EM in EM'. injection EM' as <-.
  assert (ED : deproject eigh np_inv (h_s h) (tol_of p a) (masked_t a h tm) maps = Ok (iM', mvec (length (masked_t a h tm)) iM' (map (fun _ => 0) (masked_t a h tm)))).
  { unfold deproject. rewrite EM. cbn [bind]. rewrite EP. cbn [bind]. rewrite (mapM_ok _ (fun _ => 0) _ OR). reflexivity. }
  rewrite ED. cbn [bind].
  assert (Z : forall k, (k < length (masked_t a h tm))%nat -> nth k (mvec (length (masked_t a h tm)) iM' (map (fun _ => 0) (masked_t a h tm))) 0 = 0).
  { intros k Hk. unfold mvec. rewrite nth_tab by exact Hk. apply sum_zero. intros j Hj. rewrite (nth_map' (fun _ => 0) _ [] j Hj). ring. }
  rewrite (minus_zero (length im) (npix (h_s h)) _ _ maps Sc Z).
  unfold alms_of in *. change (pure a') with (pure a) in *. unfold pure in *. rewrite Pe, Pb in *. cbn [orb option_map] in *. change (a_lite a') with (a_lite a). rewrite Li in *.
  change (masked_t a' h (masked_t a h tm)) with (masked_t a h tm). change (opt (a_niter a') (n_iter_default p)) with (opt (a_niter a) (n_iter_default p)).
  apply bind_ok in H as (alm & Ea & H). apply bind_ok in H as (at_ & Et & H). injection H as <-. rewrite Ea. cbn [bind]. rewrite Et. cbn [bind].
  eexists. split; [reflexivity|]. unfold get_maps, get_alms, get_templates, field_of. cbn [f_maps f_alm f_temp f_alm_temp f_alphas keep stored]. repeat (split; [reflexivity|]). intros als k E Hk. injection E as <-. apply Z. exact Hk.
Qed.

(** ** C37: multiplying by the mask beforehand *)
Lemma ibin_reform (f : F -> F -> F) s x y z v : rect x -> rect y -> ibin f x y = Ok z -> reform_map s x = Ok v -> exists u, reform_map s y = Ok u /\ reform_map s z = Ok (zipw f v u).
Proof.
  intros Rx Ry H Hv. assert (G : (exists u, reform_map s y = Ok u) /\ z = iop f x y).
  { destruct x as [x|k x], y as [y|k' y]; cbn [ibin] in H; try discriminate H.
    - destruct (Nat.eqb_spec (length x) (length y)) as [E|E]; [|discriminate H]. injection H as <-. split; [|reflexivity]. destruct s; cbn [reform_map] in *; [|discriminate Hv]. rewrite <- E. destruct (_ =? _)%Z; [eexists; reflexivity | discriminate Hv].
    - destruct (Nat.eqb_spec (length x) (length y)) as [E1|E1]; [|discriminate H]. destruct (Nat.eqb_spec k k') as [E2|E2]; [|discriminate H]. cbn [andb] in H. injection H as <-. split; [|reflexivity]. destruct s; cbn [reform_map] in *; [discriminate Hv|]. rewrite <- E1, <- E2. destruct (_ && _)%bool; [eexists; reflexivity | discriminate Hv]. }
  destruct G as [[u Hu] ->]. exists u. split; [exact Hu|]. apply reform_op; assumption.
Qed.
Lemma ibin_reforms s (mask : imap F) mk l l' : rect mask -> Forall rect l -> mapM (ibin fmul mask) l = Ok l' -> reform_map s mask = Ok mk -> exists m, mapM (reform_map s) l = Ok m /\ mapM (reform_map s) l' = Ok (map (vmul mk) m).
Proof.
  intros Rm R H Hm. revert l' H. induction l as [|x l IH]; intros l' H; cbn [mapM] in H.
  - injection H as <-. exists []. split; reflexivity.
  - apply bind_ok in H as (z & Ez & H). apply bind_ok in H as (l'' & E & H). injection H as <-. inversion R; subst. destruct (ibin_reform fmul s mask x z mk Rm H1 Ez Hm) as (u & Eu & Ew). destruct (IH H2 l'' E) as (m & E1 & E2).
    exists (u :: m). cbn [mapM]. rewrite Eu, Ew. cbn [bind]. rewrite E1, E2. cbn [bind]. split; reflexivity.
Qed.
(** the user multiplies every map and every template by the mask *)
Definition premultiplied (mask : imap F) (t t' : temp_arg F) : Prop :=
  match t, t' with
  | TArr t, TArr t' => mapM (mapM (ibin fmul mask)) t = Ok t'
  | TNone, TNone => True
  | _, _ => False
  end.
Lemma unmask_vmul (mk v : list F) : (forall x, In x mk -> 0 < x) -> length mk = length v -> unmask mk (vmul mk v) = v.
Proof.
  revert v. induction mk as [|x mk IH]; intros [|y v] P L; try discriminate L; [reflexivity|]. unfold unmask, vmul. rewrite !zipw_cons. f_equal.
  - assert (PX : 0 < x) by (apply P; left; reflexivity). unfold flt in PX; rewrite PX; fold (flt (0:F) x) in PX. field. apply fpos_neq. exact PX.
  - apply IH; [intros z Hz; apply P; right; exact Hz | injection L as L; exact L].
Qed.
Lemma in_reform s (m : imap F) v x : reform_map s m = Ok v -> In x v -> In x (ivals m).
Proof.
  destruct s as [n w | ny nx nf f1 f2 wts], m as [y | k y]; cbn [reform_map ivals]; intros H Hx; try discriminate H.
  - destruct (_ =? _)%Z; [|discriminate H]. injection H as <-. exact Hx.
  - destruct (_ && _)%bool; [|discriminate H]. injection H as <-. apply in_concat in Hx as (r & Hr & Hx). apply in_concat.
    assert (G : forall r0 : list F, In r0 (if f1 then rev y else y) -> In r0 y) by (intros r0; destruct f1; [apply in_rev | auto]).
    destruct f2; [|exists r; auto]. apply in_map_iff in Hr as (r0 & <- & Hr0). exists r0. split; [auto|]. apply in_rev. exact Hx.
Qed.
Theorem C37_premultiplied K p a im im' t' : rect_args a -> a_mask22 a = None -> a_mask12 a = None -> a_moi a = false -> a_maps a = Some im -> mapM (ibin fmul (a_mask a)) im = Ok im' -> premultiplied (a_mask a) (a_temp a) t' ->
  ((a_pe a = false /\ a_pb a = false) \/ (forall x, In x (ivals (a_mask a)) -> 0 < x)) ->
  new K p (set_data a im' t' true) = new K p a.
Proof.
  intros R N22 N12 Mo Em Em' Et Pu. rewrite !new_staged. unfold staged. rewrite head_set_data. destruct (head_of fourpi a) as [h|e|] eqn:Eh; cbn [bind]; [|reflexivity|reflexivity]. rewrite Em. cbn [a_maps set_data].
  destruct (head_mask fourpi a h R Eh) as [Lm _].
  assert (HM : reform_map (h_s h) (a_mask a) = Ok (h_mask h) /\ h_mask_a h = None).
  { clear - Eh N22 N12. unfold head_of in Eh. rewrite N22, N12 in Eh. cbn [weights is_some orb bind] in Eh. apply bind_ok in Eh as ([[s lm] ang] & E2 & Eh). apply bind_ok in Eh as (mk & E3 & Eh). cbn [bind] in Eh. cbv zeta in Eh. destruct (_ || _)%bool; [discriminate Eh|]. apply bind_ok in Eh as (beam & E5 & Eh). injection Eh as <-. split; [exact E3 | reflexivity]. }
  destruct HM as [HM NA]. destruct R as (R1 & _ & _ & R4 & R5). destruct (ibin_reforms (h_s h) (a_mask a) (h_mask h) im im' R1 (R4 _ Em) Em' HM) as (m & E1 & E2).
  pose proof (shaped_reform _ _ _ (R4 _ Em) E1) as Sm.
  set (a' := set_data a im' t' true).
  assert (L' : length im' = length im) by (rewrite (mapM_length _ _ _ Em'); reflexivity).
  assert (TT : temps_of t' (length (map (vmul (h_mask h)) m)) (h_s h) = (do t <- temps_of (a_temp a) (length m) (h_s h); Ok (option_map (map (map (vmul (h_mask h)))) t))).
  { rewrite map_length. unfold premultiplied in Et. destruct (a_temp a) as [|ts|] eqn:Eat, t' as [|ts'|]; try contradiction Et; [reflexivity|].
    specialize (R5 _ eq_refl).
    assert (G : forall l l', Forall (Forall rect) l -> mapM (mapM (ibin fmul (a_mask a))) l = Ok l' -> forallb (fun t => Nat.eqb (length t) (length m)) l' = forallb (fun t => Nat.eqb (length t) (length m)) l /\ exists r, mapM (mapM (reform_map (h_s h))) l = Ok r /\ mapM (mapM (reform_map (h_s h))) l' = Ok (map (map (vmul (h_mask h))) r)).
    { induction l as [|x l IH]; intros l' Rl H; cbn [mapM] in H.
      - injection H as <-. split; [reflexivity|]. exists []. split; reflexivity.
      - apply bind_ok in H as (z & Ez & H). apply bind_ok in H as (l'' & E & H). injection H as <-. inversion Rl; subst. destruct (IH l'' H2 E) as (F1 & r & Er & Er'). destruct (ibin_reforms (h_s h) (a_mask a) (h_mask h) x z R1 H1 Ez HM) as (u & Eu & Ew).
        cbn [forallb]. rewrite F1, (mapM_length _ _ _ Ez). split; [reflexivity|]. exists (u :: r). cbn [mapM]. rewrite Eu, Ew. cbn [bind]. rewrite Er, Er'. cbn [bind]. split; reflexivity. }
    destruct (G ts ts' R5 Et) as (F1 & r & Er & Er'). unfold temps_of. destruct ts as [|t0 ts].
    - cbn [mapM] in Et. injection Et as <-. reflexivity.
    - destruct ts' as [|t0' ts']; [apply mapM_length in Et; discriminate Et|]. rewrite F1. set (B := forallb (fun t => Nat.eqb (length t) (length m)) (t0 :: ts)). destruct B; cbn [bind]; [|reflexivity]. rewrite Er, Er'. reflexivity. }
  unfold body_of. rewrite L'. cbn [a_spin set_data a' a_temp]. destruct (spin_of _ _) as [spin|e|]; cbn [bind]; [|reflexivity|reflexivity]. rewrite E1, E2. cbn [bind].
  change (pure a') with (pure a). destruct (pure a && negb (spin =? 2)%Z)%bool; [reflexivity|]. unfold anis_ok. rewrite NA. cbn [is_some bind]. cbn [a_temp set_data a']. rewrite TT.
  destruct (temps_of (a_temp a) (length m) (h_s h)) as [tm|e|] eqn:Etm; cbn [bind]; [|reflexivity|reflexivity].
  assert (Mk : masked a' h (map (vmul (h_mask h)) m) = masked a h m) by (unfold masked; rewrite Mo, NA; reflexivity).
  assert (Mt : forall t, masked_t a' h (map (map (vmul (h_mask h))) t) = masked_t a h t) by (intro t; unfold masked_t; rewrite Mo; reflexivity).
  assert (St : forall t, tm = Some t -> forall x, In x t -> shaped (length m) (npix (h_s h)) x) by (intros t ->; apply (temps_shaped _ _ _ _ R5 Etm)).
  assert (Mu : pure a = true -> forall x, shaped (length m) (npix (h_s h)) x -> um a' h (map (vmul (h_mask h)) x) = um a h x).
  { intros Hp x Sx. destruct Pu as [[P1 P2]|Pu]; [unfold pure in Hp; rewrite P1, P2 in Hp; discriminate Hp|]. unfold um. rewrite Mo. cbn [a_moi set_data a']. rewrite map_map. rewrite <- (map_id x) at 2. apply map_ext_in. intros v Hv. apply unmask_vmul.
    - intros y Hy. apply Pu. eapply in_reform; eassumption.
    - rewrite Lm. destruct Sx as [_ Sx]. rewrite Forall_forall in Sx. symmetry. apply Sx. exact Hv. }
  unfold L_Field2.clean. destruct tm as [t|]; cbn [option_map].
  - rewrite Mk, Mt. change (tol_of p a') with (tol_of p a). destruct (deproject _ _ _ _ _ _) as [[iM al]|e|]; cbn [bind]; [|reflexivity|reflexivity]. unfold alms_of. change (pure a') with (pure a). cbn [option_map]. rewrite Mt.
    destruct (pure a) eqn:Hp; [|reflexivity]. rewrite !Mu by (auto; rewrite (proj1 Sm); exact Sm).
    assert (MU : map (um a' h) (map (map (vmul (h_mask h))) t) = map (um a h) t) by (rewrite map_map; apply map_ext_in; intros x Hx; apply Mu; [reflexivity | apply (St t eq_refl x Hx)]).
    rewrite MU. reflexivity.
  - cbn [bind]. rewrite Mk. unfold alms_of. change (pure a') with (pure a). cbn [option_map]. destruct (pure a) eqn:Hp; [|reflexivity]. rewrite Mu by (auto; rewrite (proj1 Sm); exact Sm). reflexivity.
Qed.
End PF3.
