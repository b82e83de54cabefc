(** Properties C35-C36: template deprojection. *)
From Verif Require Import Base M_Utils L_Utils M_Field L_Field L_Field2.
Section PF.
Context {F : ofield}.
Local Open Scope F_scope.
Add Field FfPFi : (fth F).
Notation mat := (list (list F)).
Variable fourpi : F.
Variable fsqrt : F -> F.
Variable eigh : mat -> list F * mat.
Variable np_inv : mat -> res mat.
Notation new := (field_new fourpi fsqrt eigh np_inv).
Notation clean := (clean np_inv eigh).

(** what is assumed of the linear algebra at the matrix [M] of template products: numpy.linalg.inv returns the
    inverse, or numpy.linalg.eigh an orthonormal eigen-decomposition in which every eigenvalue is either exactly zero
    or above the threshold tol_pinv*max *)
Definition solver_ok (n : nat) (t : num F) (M : mat) : Prop :=
  if tol_le0 t then forall P, np_inv M = Ok P -> inverse n M P
  else eigen n M (fst (eigh M)) (snd (eigh M)) /\
       forall k, (k < n)%nat -> nth k (fst (eigh M)) 0 = 0 \/ good t (maxl (fst (eigh M))) (nth k (fst (eigh M)) 0) = true.
Lemma pinv_cases n t M P : length M = n -> pinvh eigh np_inv M t = Ok P -> solver_ok n t M ->
  inverse n M P \/ exists w v wi, eigen n M w v /\ inverted n w wi /\ forall a b, (a < n)%nat -> (b < n)%nat -> mg P a b = sum n (fun k => mg v a k * nth k wi 0 * mg v b k).
Proof.
  intros L H S. unfold pinvh in H. unfold solver_ok in S. destruct (tol_le0 t); [left; apply S, H|]. destruct (eigh M) as [w v]. cbn [fst snd] in S. destruct S as [E G]. rewrite L in H.
  apply bind_ok in H as (wi & Hw & H). injection H as <-. right. exists w, v, wi. split; [exact E|].
  assert (Lw : length wi = n) by (rewrite (mapM_length _ _ _ Hw); apply (proj1 E)). split.
  - split; [exact Lw|]. intros k Hk. destruct (G k Hk) as [Z|Z]; [left; exact Z|]. right.
    assert (N : nth_error w k = Some (nth k w 0)) by (apply nth_error_nth'; rewrite (proj1 E); exact Hk).
    destruct (mapM_inv _ _ _ Hw k _ N) as (b & Hb & Nb). cbv beta in Hb. rewrite Z in Hb. destruct (nth k w 0 =? 0) eqn:E0; [discriminate Hb|]. injection Hb as <-. apply feqb_neq in E0.
    rewrite (nth_error_nth _ _ 0 Nb). field. exact E0.
  - intros a b Ha Hb. apply pinv_entry; assumption.
Qed.
Lemma in_shaped nc np (t : list mat) i : (forall x, In x t -> shaped nc np x) -> (i < length t)%nat -> shaped nc np (nth i t []).
Proof. intros H Hi. apply H, nth_In, Hi. Qed.
Lemma gram_eq s nc (t : list mat) : (forall x, In x t -> shaped nc (npix s) x) -> wf_info s -> exists M, gram s t = Ok M /\ length M = length t /\
  forall a b, (a < length t)%nat -> (b < length t)%nat -> mg M a b = ip nc (npix s) (pw s) (mg (nth b t [])) (mg (nth a t [])).
Proof.
  intros S WF. unfold gram. exists (map (fun t2 => map (fun t1 => ip nc (npix s) (pw s) (mg t1) (mg t2)) t) t).
  split; [|split].
  - apply mapM_ok. intros x Hx. apply mapM_ok. intros y Hy. apply dot_map_eq; auto.
  - apply map_length.
  - intros a b Ha Hb. unfold mg at 1. rewrite (nth_indep _ [] ((fun t2 => map (fun t1 => ip nc (npix s) (pw s) (mg t1) (mg t2)) t) [])) by (rewrite map_length; exact Ha).
    rewrite (map_nth (fun t2 => map (fun t1 => ip nc (npix s) (pw s) (mg t1) (mg t2)) t) t []).
    rewrite (nth_indep _ 0 ((fun t1 => ip nc (npix s) (pw s) (mg t1) (mg (nth a t []))) [])) by (rewrite map_length; exact Hb).
    apply (map_nth (fun t1 => ip nc (npix s) (pw s) (mg t1) (mg (nth a t [])))).
Qed.
Lemma prods_eq s nc (t : list mat) (m : mat) : (forall x, In x t -> shaped nc (npix s) x) -> shaped nc (npix s) m -> wf_info s ->
  mapM (fun x => dot_map s x m) t = Ok (map (fun x => ip nc (npix s) (pw s) (mg x) (mg m)) t).
Proof. intros S Sm WF. apply mapM_ok. intros x Hx. apply dot_map_eq; auto. Qed.
Lemma nth_map' {A} (g : A -> F) (t : list A) d i : (i < length t)%nat -> nth i (map g t) 0 = g (nth i t d).
Proof. intro H. rewrite (nth_indep _ 0 (g d)) by (rewrite map_length; exact H). apply map_nth. Qed.
(** what [deproject] computes *)
Lemma deproject_inv s nc tol (t : list mat) (m iM : mat) al : (forall x, In x t -> shaped nc (npix s) x) -> shaped nc (npix s) m -> wf_info s -> deproject eigh np_inv s tol t m = Ok (iM, al) ->
  exists M, gram s t = Ok M /\ length M = length t /\ (forall a b, (a < length t)%nat -> (b < length t)%nat -> mg M a b = ip nc (npix s) (pw s) (mg (nth b t [])) (mg (nth a t []))) /\
  pinvh eigh np_inv M tol = Ok iM /\ forall b, (b < length t)%nat -> nth b al 0 = sum (length t) (fun c => mg iM b c * ip nc (npix s) (pw s) (mg (nth c t [])) (mg m)).
Proof.
  intros S Sm WF H. destruct (gram_eq s nc t S WF) as (M & EM & LM & VM). unfold deproject in H. rewrite EM in H. cbn [bind] in H. apply bind_ok in H as (P & EP & H).
  rewrite (prods_eq s nc t m S Sm WF) in H. cbn [bind] in H. injection H as <- <-. exists M. split; [exact EM|]. split; [exact LM|]. split; [exact VM|]. split; [exact EP|].
  intros b Hb. unfold mvec. rewrite nth_tab by exact Hb. apply sum_ext. intros c Hc. f_equal. apply (nth_map' (fun x => ip nc (npix s) (pw s) (mg x) (mg m)) t [] c Hc).
Qed.
Lemma clean_orthogonal s nc tol (t : list mat) (m iM : mat) al M : (forall x, In x t -> shaped nc (npix s) x) -> shaped nc (npix s) m -> wf_info s -> deproject eigh np_inv s tol t m = Ok (iM, al) ->
  gram s t = Ok M -> solver_ok (length t) tol M -> (forall p, (p < npix s)%nat -> 0 <= pw s p) -> forall x, In x t -> dot_map s x (minus_temps al t m) = Ok 0.
Proof.
  intros S Sm WF H EM SO WP x Hx. destruct (deproject_inv s nc tol t m iM al S Sm WF H) as (M' & EM' & LM & VM & EP & VA). rewrite EM in EM'. injection EM' as <-.
  rewrite (dot_map_eq s nc) by (auto using shaped_minus). f_equal. apply (In_nth _ _ []) in Hx as (a & Ha & <-).
  rewrite (ip_ext _ _ _ _ _ (mg (nth a t [])) (fun c p => mg m c p - sum (length t) (fun i => nth i al 0 * mg (nth i t []) c p))) by (intros; try reflexivity; apply (mg_minus nc (npix s)); assumption).
  rewrite ip_sub_r, (ip_lin_r nc (npix s) (pw s) (mg (nth a t [])) (length t) (fun i => nth i al 0) (fun i => mg (nth i t []))). cbv beta.
  rewrite (sum_ext (length t) _ (fun b => mg M a b * sum (length t) (fun c => mg iM b c * ip nc (npix s) (pw s) (mg (nth c t [])) (mg m)))).
  2:{ intros b Hb. rewrite VA, VM by assumption. rewrite (ip_sym _ _ _ (mg (nth a t []))). ring. }
  destruct (pinv_cases _ _ _ _ LM EP SO) as [[I1 I2]|(w & v & wi & E & INV & VP)].
  - rewrite (mat_assoc (length t) M iM (fun c => ip nc (npix s) (pw s) (mg (nth c t [])) (mg m)) a Ha I1).
    ring.
  - apply (residual_zero (length t) nc (npix s) (pw s) (fun k => mg (nth k t [])) M w wi v iM VM E INV VP (mg m) a WP Ha).
Qed.

(** ** What a successfully built field contains *)
Lemma temps_shaped (ta : temp_arg F) n s (t : list mat) : (forall x, ta = TArr x -> Forall (Forall rect) x) -> temps_of ta n s = Ok (Some t) -> (forall x, In x t -> shaped n (npix s) x) /\ (length t <> 0)%nat.
Proof.
  intros R H. destruct ta as [|ts|]; cbn [temps_of] in H; try discriminate H. specialize (R ts eq_refl). destruct ts as [|t0 ts]; [discriminate H|].
  destruct (forallb _ (t0 :: ts)) eqn:FB; [|discriminate H]. apply bind_ok in H as (r & Hr & H). injection H as <-. rewrite forallb_forall in FB. rewrite Forall_forall in R. split.
  - intros x Hx. apply (In_nth _ _ []) in Hx as (i & Hi & <-). rewrite (mapM_length _ _ _ Hr) in Hi. assert (N : nth_error (t0 :: ts) i = Some (nth i (t0 :: ts) [])) by (apply nth_error_nth'; exact Hi).
    destruct (mapM_inv _ _ _ Hr i _ N) as (b & Hb & Nb). rewrite (nth_error_nth _ _ [] Nb). specialize (FB _ (nth_error_In _ _ N)). apply Nat.eqb_eq in FB. rewrite <- FB. eapply shaped_reform; [|exact Hb]. apply R. eapply nth_error_In. exact N.
  - rewrite (mapM_length _ _ _ Hr). discriminate.
Qed.
Lemma head_mask (a : fargs F) (h : head) : rect_args a -> head_of fourpi a = Ok h -> length (h_mask h) = npix (h_s h) /\ (forall ma, h_mask_a h = Some ma -> shaped 2 (npix (h_s h)) ma).
Proof.
  intros (R & R22 & R12 & _) H. unfold head_of in H. apply bind_ok in H as ([mask ma] & E1 & H). destruct (rect_weights _ _ _ _ _ R R22 R12 E1) as [Rm Ra].
  apply bind_ok in H as ([[s lm] ang] & E2 & H). apply bind_ok in H as (mk & E3 & H). apply bind_ok in H as (mask_a & E4 & H). cbv zeta in H. destruct (_ || _)%bool; [discriminate H|]. apply bind_ok in H as (beam & E5 & H). injection H as <-. cbn [h_mask h_s h_mask_a]. split.
  - eapply length_reform; eassumption.
  - intros m ->. destruct ma as [[d o]|]; [|discriminate E4]. destruct (Ra d o eq_refl) as [Rd Ro]. apply bind_ok in E4 as (r & Er & E4). injection E4 as <-. apply (shaped_reform (h_s (Head s ang mk None 0 0 []))  [d; o] r); [repeat constructor; assumption | exact Er].
Qed.
Lemma body_shapes (a : fargs F) (h : head) im spin maps temps : rect_args a -> a_maps a = Some im -> body_of a h im = Ok (spin, maps, temps) ->
  shaped (length im) (npix (h_s h)) maps /\ (forall t, temps = Some t -> (forall x, In x t -> shaped (length im) (npix (h_s h)) x) /\ (length t <> 0)%nat) /\ (length im = 1 \/ length im = 2)%nat.
Proof.
  intros (_ & _ & _ & R & RT) Em H. unfold body_of in H. apply bind_ok in H as (sp & Es & H). apply bind_ok in H as (m & Er & H). destruct (_ && _)%bool; [discriminate H|]. apply bind_ok in H as (u & Eu & H). apply bind_ok in H as (t & Et & H). injection H as <- <- <-.
  pose proof (shaped_reform _ _ _ (R _ Em) Er) as Sm. split; [exact Sm|]. rewrite (proj1 Sm) in Et. split.
  - intros t' ->. eapply temps_shaped; [exact RT | exact Et].
  - unfold spin_of in Es. destruct (Nat.eqb_spec (length im) 1); [auto|]. destruct (Nat.eqb_spec (length im) 2); [auto|]. discriminate Es.
Qed.
Lemma masked_shaped (a : fargs F) (h : head) nc (m : mat) : length (h_mask h) = npix (h_s h) -> (forall ma, h_mask_a h = Some ma -> shaped 2 (npix (h_s h)) ma) -> shaped nc (npix (h_s h)) m -> (h_mask_a h = None \/ nc = 2%nat) -> shaped nc (npix (h_s h)) (masked a h m).
Proof.
  intros Lm La S C. unfold masked. destruct (a_moi a); [exact S|]. unfold apply_mask. destruct (h_mask_a h) as [ma|]; [|apply shaped_vmul; assumption].
  destruct C as [C| ->]; [discriminate C|]. specialize (La ma eq_refl). pose proof (shaped_vmul 2 _ (h_mask h) m Lm S) as S2. destruct m as [|m0 [|m1 [|]]]; destruct S as [L Fm]; try discriminate L. destruct ma as [|a0 [|a1 [|]]]; destruct La as [L2 Fa]; try discriminate L2.
  inversion Fm; subst. inversion H2; subst. inversion Fa; subst. inversion H6; subst. cbn [map nth]. rewrite !zipw_cons. split; [reflexivity|].
  repeat constructor; rewrite ?length_zipw, ?length_vmul, ?length_zipw, ?length_vmul; lia.
Qed.
(** the parts of a field built from maps without purification *)
Lemma unpure_inv K p (a : fargs F) f im : rect_args a -> new K p a = Ok f -> a_maps a = Some im -> a_pe a = false -> a_pb a = false ->
  exists h spin maps temps m mu iM als alm, head_of fourpi a = Ok h /\ body_of a h im = Ok (spin, maps, temps) /\ clean a p h maps temps = Ok (m, mu, iM, als) /\
    sht K spin (h_s h) (h_lmax h) (opt (a_niter a) (n_iter_default p)) m = Ok alm /\ f_info f = h_s h /\ f_mask f = h_mask h /\ f_mask_a f = h_mask_a h /\ f_spin f = spin /\
    f_alm f = Some alm /\ f_maps f = keep (a_lite a) m /\ f_temp f = match temps with Some t => keep (a_lite a) (masked_t a h t) | None => None end /\ f_alphas f = als /\ f_iM f = iM.
Proof.
  intros R H Em Pe Pb. rewrite new_staged in H. unfold staged in H. apply bind_ok in H as (h & Eh & H). rewrite Em in H. apply bind_ok in H as ([[spin maps] temps] & Eb & H). apply bind_ok in H as ([[[m mu] iM] als] & Ec & H).
  unfold alms_of in H. assert (P : pure a = false) by (unfold pure; rewrite Pe, Pb; reflexivity). rewrite P in H. apply bind_ok in H as (alm & Ea & H). apply bind_ok in H as (at_ & _ & H). injection H as <-.
  exists h, spin, maps, temps, m, mu, iM, als, alm. cbn [field_of f_info f_mask f_mask_a f_spin f_alm f_maps f_temp f_alphas f_iM]. repeat (split; [assumption || reflexivity|]). destruct temps; split; reflexivity || (split; reflexivity).
Qed.
Lemma masked_t_shaped (a : fargs F) (h : head) nc (t : list mat) : length (h_mask h) = npix (h_s h) -> (forall x, In x t -> shaped nc (npix (h_s h)) x) -> (forall x, In x (masked_t a h t) -> shaped nc (npix (h_s h)) x) /\ length (masked_t a h t) = length t.
Proof.
  intros L S. unfold masked_t. destruct (a_moi a); [auto|]. split; [|apply map_length]. intros x Hx. apply in_map_iff in Hx as (y & <- & Hy). apply shaped_vmul; auto.
Qed.
Lemma no_anis_temps (a : fargs F) (h : head) spin (t : list mat) u n s : anis_ok a h spin = Ok u -> temps_of (a_temp a) n s = Ok (Some t) -> h_mask_a h = None.
Proof.
  unfold anis_ok. destruct (h_mask_a h); cbn [is_some]; [|auto]. destruct (spin =? 0)%Z; [discriminate|]. destruct (pure a); [discriminate|]. destruct (a_temp a); [|discriminate|discriminate]. discriminate.
Qed.
Lemma temps_no_anis (a : fargs F) (h : head) im spin maps t : body_of a h im = Ok (spin, maps, Some t) -> h_mask_a h = None.
Proof.
  intro H. unfold body_of in H. apply bind_ok in H as (sp & Es & H). apply bind_ok in H as (m & Er & H). destruct (_ && _)%bool; [discriminate H|]. apply bind_ok in H as (u & Eu & H). apply bind_ok in H as (t' & Et & H). injection H as _ _ ->. eapply no_anis_temps; eassumption.
Qed.
Lemma gram_wf s nc (t : list mat) M : (forall x, In x t -> shaped nc (npix s) x) -> (length t <> 0)%nat -> (nc <> 0)%nat -> gram s t = Ok M -> wf_info s.
Proof.
  intros S Lt Hn H. destruct t as [|x t]; [contradiction|]. destruct nc as [|nc]; [contradiction|]. unfold gram in H. cbn [mapM] in H. apply bind_ok in H as (r & Hr & _). apply bind_ok in Hr as (d & Hd & _). eapply (dot_map_wf s nc (npix s) x x d); [apply S; left; reflexivity | apply S; left; reflexivity | exact Hd].
Qed.

(** ** C35 *)
Theorem C35_orthogonal K p (a : fargs F) f temps maps M : rect_args a -> new K p a = Ok f -> a_pe a = false -> a_pb a = false ->
  get_templates f = Ok temps -> get_maps f = Ok maps -> gram (f_info f) temps = Ok M -> solver_ok (length temps) (opt (a_tol a) (tol_pinv_default p)) M ->
  (forall q, (q < npix (f_info f))%nat -> 0 <= pw (f_info f) q) -> forall t, In t temps -> dot_map (f_info f) t maps = Ok 0.
Proof.
  intros R H Pe Pb Gt Gm EM SO WP t Ht. destruct (a_maps a) as [im|] eqn:Em.
  2:{ rewrite new_staged in H. unfold staged in H. apply bind_ok in H as (h & Eh & H). rewrite Em in H. destruct (a_spin a); [|discriminate H]. destruct (_ && _)%bool; [discriminate H|]. injection H as <-. discriminate Gm. }
  destruct (unpure_inv K p a f im R H Em Pe Pb) as (h & spin & m0 & tm & m & mu & iM & als & alm & Eh & Eb & Ec & Ea & Ei & _ & _ & _ & _ & Fm & Ft & _ & _).
  unfold get_templates in Gt. rewrite Ft in Gt. destruct tm as [tm|]; [|discriminate Gt]. unfold get_maps in Gm. rewrite Fm in Gm. unfold keep in *. destruct (a_lite a); [discriminate Gm|]. cbn [stored] in *. injection Gt as <-. injection Gm as <-. rewrite Ei in *.
  destruct (head_mask a h R Eh) as [Lm La]. destruct (body_shapes a h im _ _ _ R Em Eb) as (Sm & St & Nc). destruct (St tm eq_refl) as [St' Lt].
  destruct (masked_t_shaped a h _ tm Lm St') as [Smt Lmt]. pose proof (temps_no_anis _ _ _ _ _ _ Eb) as NA.
  cbn [L_Field2.clean] in Ec. apply bind_ok in Ec as ([iM' al] & Ed & Ec). injection Ec as <- <- <- <-.
  assert (WF : wf_info (h_s h)) by (eapply (gram_wf _ (length im)); [exact Smt | rewrite Lmt; exact Lt | lia | exact EM]).
  eapply (clean_orthogonal (h_s h) (length im)); [exact Smt | apply masked_shaped; auto | exact WF | exact Ed | exact EM | exact SO | exact WP | exact Ht].
Qed.
End PF.
