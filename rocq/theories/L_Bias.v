(** What a field with templates stores, in terms of one linear operation on maps. *)
From Verif Require Import Base M_Utils L_Utils M_Field L_Field L_Field2 P_Utils P_Field P_Field2 P_Field5 P_Field6 M_Cell L_Cell P_Cell L_Lin L_Lin2.
Section LBias.
Context {F : ofield}.
Local Open Scope F_scope.
Add Field FfLB : (fth F).
Notation mat := (list (list F)).
Variable fourpi : F.
Variable fsqrt : F -> F.
Variable eigh : mat -> list F * mat.
Variable np_inv : mat -> res mat.
Notation new := (field_new fourpi fsqrt eigh np_inv).
Notation head := (@head F).

(** the multipoles of a map with the mask of a field *)
Definition ana (K : calc F) (p : params F) (a : fargs F) (h : head) (spin : Z) (u : mat) : res mat :=
  let niter := opt (a_niter a) (n_iter_default p) in
  if pure a then
    do am <- sht K 0 (h_s h) (h_lmaxm h) (opt (a_niterm a) (n_iter_mask_default p)) [h_mask h];
    do (x, _) <- purify fsqrt K (h_s h) (h_lmax h) (h_lmaxm h) niter (h_mask h) (nth 0 am []) (a_pe a) (a_pb a) u; Ok x
  else sht K spin (h_s h) (h_lmax h) niter (map (vmul (h_mask h)) u).
Lemma ana_lc K p a h spin nc N co (xs ys : nat -> mat) : linear K -> (0 < N)%nat -> length (h_mask h) = npix (h_s h) -> (pure a = true -> nc = 2%nat) ->
  (forall k, (k < N)%nat -> shaped nc (npix (h_s h)) (xs k)) -> (forall k, (k < N)%nat -> ana K p a h spin (xs k) = Ok (ys k)) ->
  ana K p a h spin (lc nc (npix (h_s h)) N co xs) = Ok (lc nc (n_alm (h_lmax h)) N co ys) /\ forall k, (k < N)%nat -> shaped nc (n_alm (h_lmax h)) (ys k).
Proof.
  intros LK HN Lm P2 Sx H. unfold ana in *. cbv zeta in *. destruct (pure a) eqn:P.
  - specialize (P2 eq_refl). subst nc. destruct (sht K 0 _ _ _ [h_mask h]) as [am|e|] eqn:Eam; try (specialize (H 0%nat HN); discriminate H). cbn [bind] in *.
    assert (La : length (nth 0 am []) = n_alm (h_lmaxm h)) by exact (row_sht K _ _ _ _ [] am LK Lm Eam).
    destruct (purify_lc fsqrt K (h_s h) (h_lmax h) (h_lmaxm h) (opt (a_niter a) (n_iter_default p)) (h_mask h) (nth 0 am []) (a_pe a) (a_pb a) N co xs ys LK HN P Lm La Sx) as [(m & E) S].
    + intros k Hk. specialize (H k Hk). apply bind_ok in H as ([x m] & E & H). injection H as <-. exists m. exact E.
    + rewrite E. cbn [bind]. split; [reflexivity | exact S].
  - split.
    + rewrite vmul_lc by assumption. apply sht_lc; [exact LK | exact HN | intros; apply shaped_vmul; auto | exact H].
    + intros k Hk. eapply sht_shape; [exact LK | | apply (H k Hk)]. apply shaped_vmul; auto.
Qed.
Lemma vmul_comm (a b : list F) : vmul a b = vmul b a.
Proof. unfold vmul. revert b. induction a as [|x a IH]; intros [|y b]; try reflexivity. rewrite !zipw_cons. f_equal; [ring | apply IH]. Qed.
Lemma map_vmul_comm (m : list F) (u : mat) : map (fun r => vmul r m) u = map (vmul m) u.
Proof. apply map_ext. intro r. apply vmul_comm. Qed.

(** a field made of maps *)
Lemma field_facts K p a im f : rect_args a -> a_maps a = Some im -> a_moi a = false -> f_lite f = false -> f_mask_a f = None -> new K p a = Ok f ->
  exists h spin (maps : mat) temps, head_of fourpi a = Ok h /\ spin_of (length im) (a_spin a) = Ok spin /\ mapM (reform_map (h_s h)) im = Ok maps /\ temps_of (a_temp a) (length im) (h_s h) = Ok temps /\
    shaped (length im) (npix (h_s h)) maps /\ length (h_mask h) = npix (h_s h) /\ (pure a = true -> length im = 2%nat) /\ (0 < length im)%nat /\
    f_info f = h_s h /\ f_mask f = h_mask h /\ f_lmax f = h_lmax h /\ f_lmaxm f = h_lmaxm h /\ f_spin f = spin /\ Z.to_nat (f_nmaps f) = length im /\ f_niter f = opt (a_niter a) (n_iter_default p) /\
    (forall z, purify_if_needed fsqrt K f (f_niter f) z = ana K p a h spin z) /\
    exists alm, f_alm f = Some alm /\
    match temps with
    | None => f_ntemp f = 0%nat /\ ana K p a h spin maps = Ok alm
    | Some t => f_ntemp f = length t /\ (0 < length t)%nat /\ (forall x, In x t -> shaped (length im) (npix (h_s h)) x) /\ wf_info (h_s h) /\ f_temp f = Some (map (map (vmul (h_mask h))) t) /\
        exists iM T M al, f_iM f = Some iM /\ f_alm_temp f = Some T /\ mapM (ana K p a h spin) t = Ok T /\ ana K p a h spin (minus_temps al t maps) = Ok alm /\
          gram (h_s h) (map (map (vmul (h_mask h))) t) = Ok M /\ length M = length t /\ (forall i j, (i < length t)%nat -> (j < length t)%nat -> mg M i j = mg M j i) /\ pinvh eigh np_inv M (tol_of p a) = Ok iM /\
          forall b, (b < length t)%nat -> nth b al 0 = sum (length t) (fun c => mg iM b c * ip (length im) (npix (h_s h)) (pw (h_s h)) (mg (map (vmul (h_mask h)) (nth c t []))) (mg (map (vmul (h_mask h)) maps)))
    end.
Proof.
  intros R Em Moi Lite Iso H. rewrite new_staged in H. unfold staged in H. rewrite Em in H. apply bind_ok in H as (h & Eh & H). apply bind_ok in H as ([[spin maps] temps] & Eb & H). apply bind_ok in H as ([[[m mu] iM] als] & Ec & H).
  destruct (head_mask fourpi a h R Eh) as [Lm _]. destruct (body_shapes a h im spin maps temps R Em Eb) as (Sm & St & N12).
  pose proof Eb as Eb0. unfold body_of in Eb0. apply bind_ok in Eb0 as (sp & Es & Eb0). apply bind_ok in Eb0 as (m0 & Er & Eb0). destruct (pure a && negb (sp =? 2)%Z)%bool eqn:P2; [discriminate Eb0|]. apply bind_ok in Eb0 as (u & Eu & Eb0). apply bind_ok in Eb0 as (t' & Et & Eb0). injection Eb0 as -> -> ->.
  rewrite (proj1 Sm) in Et.
  assert (Nsp : (if (spin =? 0)%Z then 1%nat else 2%nat) = length im).
  { clear -Es N12. unfold spin_of in Es. destruct N12 as [E|E]; rewrite E in *; cbn [Nat.eqb negb andb orb] in Es; destruct (a_spin a) as [s|]; [| injection Es as <-; reflexivity | | injection Es as <-; reflexivity].
    - destruct (s =? 0)%Z eqn:Z0; cbn [negb andb orb] in Es; [injection Es as <-; rewrite Z0; reflexivity | discriminate Es].
    - destruct (s =? 0)%Z eqn:Z0; cbn [negb andb orb] in Es; [discriminate Es | injection Es as <-; rewrite Z0; reflexivity]. }
  assert (P2' : pure a = true -> length im = 2%nat). { intro P. rewrite P in P2. cbn [andb] in P2. apply negb_false_iff, Z.eqb_eq in P2. subst spin. symmetry. exact Nsp. }
  assert (HA : h_mask_a h = None /\ a_lite a = false).
  { unfold alms_of in H. cbv zeta in H. destruct (pure a).
    - apply bind_ok in H as (am & Eam & H). apply bind_ok in H as ([alm pm] & Ep & H). apply bind_ok in H as (alt & Ealt & H). injection H as <-. split; assumption.
    - apply bind_ok in H as (alm & Ep & H). apply bind_ok in H as (alt & Ealt & H). injection H as <-. split; assumption. }
  destruct HA as [HA AL]. unfold clean, masked, um, masked_t in Ec. rewrite Moi in Ec. unfold apply_mask in Ec. rewrite HA in Ec.
  assert (Hn : Z.to_nat (if (spin =? 0)%Z then 1 else 2)%Z = length im) by (rewrite <- Nsp; destruct (spin =? 0)%Z; reflexivity).
  exists h, spin, maps, temps. repeat (split; [first [assumption | reflexivity | lia]|]).
  assert (Common : f_info f = h_s h /\ f_mask f = h_mask h /\ f_lmax f = h_lmax h /\ f_lmaxm f = h_lmaxm h /\ f_spin f = spin /\ Z.to_nat (f_nmaps f) = length im /\ f_niter f = opt (a_niter a) (n_iter_default p) /\ f_pe f = a_pe a /\ f_pb f = a_pb a /\
     (pure a = true -> exists am, sht K 0 (h_s h) (h_lmaxm h) (opt (a_niterm a) (n_iter_mask_default p)) [h_mask h] = Ok am /\ f_alm_mask f = Some (nth 0 am []))).
  { unfold alms_of in H. cbv zeta in H. destruct (pure a).
    - apply bind_ok in H as (am & Eam & H). apply bind_ok in H as ([alm pm] & Ep & H). apply bind_ok in H as (alt & Ealt & H). injection H as <-. cbn [field_of f_info f_mask f_lmax f_lmaxm f_spin f_nmaps f_niter f_pe f_pb f_alm_mask]. repeat (split; [first [reflexivity | assumption]|]). intros _. exists am. unfold keep. rewrite AL. auto.
    - apply bind_ok in H as (alm & Ep & H). apply bind_ok in H as (alt & Ealt & H). injection H as <-. cbn [field_of f_info f_mask f_lmax f_lmaxm f_spin f_nmaps f_niter f_pe f_pb f_alm_mask]. repeat (split; [first [reflexivity | assumption]|]). intro X. discriminate X. }
  destruct Common as (C1 & C2 & C3 & C4 & C5 & C6 & C7 & C8 & C9 & C10). repeat (split; [assumption|]).
  split. { intro z. unfold purify_if_needed, ana. cbv zeta. rewrite C1, C2, C3, C4, C5, C7, C8, C9. fold (pure a). destruct (pure a).
    - destruct (C10 eq_refl) as (am & Eam & Em'). unfold get_mask_alms. rewrite Em'. cbn [snd bind]. rewrite Eam. reflexivity.
    - rewrite map_vmul_comm. reflexivity. }
  destruct temps as [t|].
  - destruct (St t eq_refl) as [St' Lt]. apply bind_ok in Ec as ([iM' al] & Ed & Ec). injection Ec as <- <- <- <-.
    assert (WF : wf_info (h_s h)). { unfold deproject in Ed. apply bind_ok in Ed as (M & EM & _). eapply (gram_wf (h_s h) (length im) (map (map (vmul (h_mask h))) t)); [|rewrite map_length; exact Lt | lia | exact EM]. intros x Hx. apply in_map_iff in Hx as (y & <- & Hy). apply shaped_vmul; auto. }
    assert (Svt : forall x, In x (map (map (vmul (h_mask h))) t) -> shaped (length im) (npix (h_s h)) x) by (intros x Hx; apply in_map_iff in Hx as (y & <- & Hy); apply shaped_vmul; auto).
    destruct (deproject_inv eigh np_inv (h_s h) (length im) _ _ _ _ _ Svt (shaped_vmul _ _ _ _ Lm Sm) WF Ed) as (M & EM & LM & VM & EP & Al). rewrite map_length in LM, VM, Al.
    assert (Nt : forall c, (c < length t)%nat -> nth c (map (map (vmul (h_mask h))) t) [] = map (vmul (h_mask h)) (nth c t [])) by (intros c Hc; rewrite (nth_indep _ [] (map (vmul (h_mask h)) [])) by (rewrite map_length; exact Hc); apply map_nth).
    assert (Smv : forall al', minus_temps al' (map (map (vmul (h_mask h))) t) (map (vmul (h_mask h)) maps) = map (vmul (h_mask h)) (minus_temps al' t maps)).
    { intro al'. apply (mat_eq_mg (length im) (npix (h_s h))); [apply shaped_minus, shaped_vmul; assumption | apply shaped_vmul; [exact Lm | apply shaped_minus; exact Sm]|]. intros c q Hc Hq. rewrite (mg_minus (length im) (npix (h_s h))) by (try assumption; apply shaped_vmul; assumption). rewrite !(mg_vmul (length im) (npix (h_s h))) by (try assumption; apply shaped_minus; exact Sm). rewrite (mg_minus (length im) (npix (h_s h))) by assumption. rewrite map_length.
      rewrite (sum_ext (length t) _ (fun i => nth q (h_mask h) 0 * (nth i al' 0 * mg (nth i t []) c q))). 2:{ intros i Hi. rewrite Nt by exact Hi. rewrite (mg_vmul (length im) (npix (h_s h))) by (try assumption; apply St', nth_In, Hi). ring. }
      rewrite sum_mul_l. ring. }
    assert (Um : map (um a h) t = t) by (unfold um; rewrite Moi; apply map_id).
    assert (Res : exists alm T, f_alm f = Some alm /\ f_ntemp f = length t /\ f_temp f = Some (map (map (vmul (h_mask h))) t) /\ f_iM f = Some iM' /\ f_alm_temp f = Some T /\ mapM (ana K p a h spin) t = Ok T /\ ana K p a h spin (minus_temps al t maps) = Ok alm).
    { unfold alms_of in H. cbv zeta in H. cbn [option_map] in H. unfold masked_t in H. rewrite Moi in H. rewrite Um in H. rewrite AL in H. unfold ana. cbv zeta. destruct (pure a).
      - apply bind_ok in H as (am & Eam & H). apply bind_ok in H as ([alm pm] & Ep & H). apply bind_ok in H as (alt & Ealt & H). apply bind_ok in Ealt as (r & Er' & Ealt). injection Ealt as <-. injection H as <-. cbn [field_of f_alm f_ntemp f_temp f_iM f_alm_temp]. unfold keep. try rewrite AL. exists alm, r. rewrite map_length. rewrite map_id in Ep. rewrite Eam. cbn [bind]. rewrite Ep. cbn [bind]. repeat split; try reflexivity. exact Er'.
      - apply bind_ok in H as (alm & Ep & H). apply bind_ok in H as (alt & Ealt & H). apply bind_ok in Ealt as (r & Er' & Ealt). injection Ealt as <-. injection H as <-. cbn [field_of f_alm f_ntemp f_temp f_iM f_alm_temp]. unfold keep. try rewrite AL. exists alm, r. rewrite map_length. rewrite Smv in Ep. rewrite Ep. repeat split; try reflexivity. rewrite <- Er'. clear. induction t as [|x t IH]; [reflexivity|]. cbn [map mapM]. rewrite IH. reflexivity. }
    destruct Res as (alm & T & R1 & R2 & R3 & R4 & R5 & R6 & R7). exists alm. split; [exact R1|]. split; [exact R2|]. split; [lia|]. split; [exact St'|]. split; [exact WF|]. split; [exact R3|].
    exists iM', T, M, al. repeat (split; [assumption|]). split; [intros i j Hi Hj; rewrite !VM by assumption; apply ip_sym|]. split; [exact EP|]. intros b Hb. rewrite (Al b Hb). apply sum_ext. intros c Hc. rewrite Nt by exact Hc. reflexivity.
  - injection Ec as <- <- <- <-. unfold alms_of in H. cbv zeta in H. cbn [option_map] in H. unfold ana. cbv zeta. destruct (pure a).
    + apply bind_ok in H as (am & Eam & H). apply bind_ok in H as ([alm pm] & Ep & H). cbn [bind] in H. injection H as <-. exists alm. cbn [field_of f_alm f_ntemp]. rewrite Eam. cbn [bind]. rewrite Ep. auto.
    + apply bind_ok in H as (alm & Ep & H). cbn [bind] in H. injection H as <-. exists alm. cbn [field_of f_alm f_ntemp]. auto.
Qed.
End LBias.
