(** Property C36: what deprojection leaves invariant. *)
From Verif Require Import Base M_Utils L_Utils M_Field L_Field L_Field2 P_Field.
Section PF2.
Context {F : ofield}.
Local Open Scope F_scope.
Add Field FfPFi2 : (fth F).
Notation mat := (list (list F)).
(** pixel by pixel operations on two input arrays of the same shape *)
Definition iop (f : F -> F -> F) (x y : imap F) : imap F :=
  match x, y with I1 x, I1 y => I1 (zipw f x y) | I2 k x, I2 _ y => I2 k (zipw (zipw f) x y) | _, _ => x end.
Lemma zipw_app {A B C} (f : A -> B -> C) x x' : forall y y', length x = length y -> zipw f (x ++ x') (y ++ y') = zipw f x y ++ zipw f x' y'.
Proof. induction x as [|a x IH]; intros [|b y] y' L; try discriminate L; [reflexivity|]. cbn [app]. rewrite !zipw_cons. cbn [app]. f_equal. apply IH. injection L as L. exact L. Qed.
Lemma zipw_rev {A B C} (f : A -> B -> C) x : forall y, length x = length y -> zipw f (rev x) (rev y) = rev (zipw f x y).
Proof. induction x as [|a x IH]; intros [|b y] L; try discriminate L; [reflexivity|]. cbn [rev]. rewrite zipw_cons. cbn [rev]. injection L as L. rewrite zipw_app, IH by (rewrite ?rev_length; exact L). reflexivity. Qed.
Lemma zipw_concat {A B C} (f : A -> B -> C) x : forall y k, length x = length y -> Forall (fun r => length r = k) x -> Forall (fun r => length r = k) y -> zipw f (concat x) (concat y) = concat (zipw (zipw f) x y).
Proof.
  induction x as [|a x IH]; intros [|b y] k L Fx Fy; try discriminate L; [reflexivity|]. cbn [concat]. rewrite zipw_cons. cbn [concat]. inversion Fx; subst. inversion Fy; subst. injection L as L.
  rewrite zipw_app by congruence. f_equal. eapply IH; eassumption.
Qed.
Lemma zipw_map_rev {A B C} (f : A -> B -> C) x : forall y k, length x = length y -> Forall (fun r => length r = k) x -> Forall (fun r => length r = k) y -> zipw (zipw f) (map (@rev A) x) (map (@rev B) y) = map (@rev C) (zipw (zipw f) x y).
Proof.
  induction x as [|a x IH]; intros [|b y] k L Fx Fy; try discriminate L; [reflexivity|]. cbn [map]. rewrite !zipw_cons. cbn [map]. inversion Fx; subst. inversion Fy; subst. injection L as L.
  rewrite zipw_rev by congruence. f_equal. eapply IH; eassumption.
Qed.
Lemma Forall_maprev {A} k (x : list (list A)) : Forall (fun r => length r = k) x -> Forall (fun r => length r = k) (map (@rev A) x).
Proof. intro H. rewrite Forall_map. eapply Forall_impl; [|exact H]. intros r Hr. rewrite rev_length. exact Hr. Qed.
Lemma reform_op (f : F -> F -> F) s x y v u : rect x -> rect y -> reform_map s x = Ok v -> reform_map s y = Ok u -> reform_map s (iop f x y) = Ok (zipw f v u).
Proof.
  destruct s as [n w | ny nx nf f1 f2 wts], x as [x | k x], y as [y | k' y]; cbn [reform_map rect iop]; intros Rx Ry Hx Hy; try discriminate Hx; try discriminate Hy.
  - destruct (Z.eqb_spec (Z.of_nat (length x)) (12 * n * n)) as [E|E]; [|discriminate Hx]. destruct (Z.eqb_spec (Z.of_nat (length y)) (12 * n * n)) as [E'|E']; [|discriminate Hy].
    injection Hx as <-. injection Hy as <-. rewrite length_zipw. replace (Nat.min (length x) (length y)) with (length x) by lia. rewrite E, Z.eqb_refl. reflexivity.
  - destruct (Nat.eqb_spec (length x) ny) as [E1|E1]; [|discriminate Hx]. destruct (Nat.eqb_spec k nx) as [E2|E2]; [|discriminate Hx]. destruct (Nat.eqb_spec (length y) ny) as [E3|E3]; [|discriminate Hy]. destruct (Nat.eqb_spec k' nx) as [E4|E4]; [|discriminate Hy]. cbn [andb] in *.
    rewrite length_zipw. replace (Nat.min (length x) (length y)) with ny by lia. rewrite Nat.eqb_refl. cbn [andb]. injection Hx as <-. injection Hy as <-. f_equal. subst.
    destruct f1, f2; cbn [andb].
    + rewrite <- zipw_rev, <- (zipw_map_rev f _ _ nx), <- (zipw_concat f _ _ nx); rewrite ?map_length, ?rev_length; auto using Forall_rev, Forall_maprev.
    + rewrite <- zipw_rev, <- (zipw_concat f _ _ nx); rewrite ?map_length, ?rev_length; auto using Forall_rev, Forall_maprev.
    + rewrite <- (zipw_map_rev f _ _ nx), <- (zipw_concat f _ _ nx); rewrite ?map_length, ?rev_length; auto using Forall_rev, Forall_maprev.
    + rewrite <- (zipw_concat f _ _ nx); auto.
Qed.
Lemma rect_iop (f : F -> F -> F) s x y v u : rect x -> rect y -> reform_map s x = Ok v -> reform_map s y = Ok u -> rect (iop f x y).
Proof.
  destruct s as [n w | ny nx nf f1 f2 wts], x as [x | k x], y as [y | k' y]; cbn [reform_map rect iop]; intros Rx Ry Hx Hy; try discriminate Hx; try discriminate Hy; [exact I|].
  destruct (Nat.eqb_spec (length x) ny) as [E1|E1]; [|discriminate Hx]. destruct (Nat.eqb_spec k nx) as [E2|E2]; [|discriminate Hx]. destruct (Nat.eqb_spec (length y) ny) as [E3|E3]; [|discriminate Hy]. destruct (Nat.eqb_spec k' nx) as [E4|E4]; [|discriminate Hy]. subst k k' ny. clear Hx Hy.
  revert y Ry E3. induction x as [|r x IH]; intros [|r' y] Ry E3; try discriminate E3; [constructor|]. inversion Rx as [|? ? Hr Hx]. inversion Ry as [|? ? Hr' Hy]. rewrite zipw_cons. constructor; [rewrite length_zipw; lia|]. injection E3 as E3. apply IH; assumption.
Qed.
(** maps plus a combination of templates, as a user would compute it with numpy: maps + sum_k beta_k template_k *)
Definition axpy (b : F) (m t : list (imap F)) : list (imap F) := zipw (iop (fun x y => x + b * y)) m t.
Definition add_temps (bs : list F) (ts : list (list (imap F))) (m : list (imap F)) : list (imap F) := fold_left (fun m bt => axpy (fst bt) m (snd bt)) (combine bs ts) m.
Lemma reform_axpy b s nc m t vm vt : length m = nc -> length t = nc -> Forall rect m -> Forall rect t -> mapM (reform_map s) m = Ok vm -> mapM (reform_map s) t = Ok vt ->
  length (axpy b m t) = nc /\ Forall rect (axpy b m t) /\ exists r, mapM (reform_map s) (axpy b m t) = Ok r /\ forall c q, (c < nc)%nat -> (q < npix s)%nat -> mg r c q = mg vm c q + b * mg vt c q.
Proof.
  revert nc t vm vt. induction m as [|x m IH]; intros nc [|y t] vm vt Lm Lt Rm Rt Hm Ht; cbn [length] in Lm, Lt; subst nc; try discriminate Lt; unfold axpy.
  - split; [reflexivity|]. split; [constructor|]. exists []. split; [reflexivity|]. intros; lia.
  - cbn [mapM] in Hm, Ht. apply bind_ok in Hm as (vx & Ex & Hm). apply bind_ok in Hm as (vm' & Em & Hm). apply bind_ok in Ht as (vy & Ey & Ht). apply bind_ok in Ht as (vt' & Et & Ht). injection Hm as <-. injection Ht as <-.
    inversion Rm; subst. inversion Rt; subst. injection Lt as Lt. destruct (IH (length m) t vm' vt' eq_refl Lt H2 H4 Em Et) as (L & R & r & Er & Vr). unfold axpy in *. rewrite zipw_cons. cbn [length mapM].
    split; [rewrite L; reflexivity|]. split; [constructor; [eapply rect_iop; eassumption | exact R]|].
    rewrite (reform_op _ s x y vx vy) by assumption. cbn [bind]. rewrite Er. cbn [bind]. eexists. split; [reflexivity|]. intros [|c] q Hc Hq; unfold mg; cbn [nth].
    + apply (nth_zipw (fun x y => x + b * y)); [rewrite (length_reform s x vx) by assumption; exact Hq | rewrite (length_reform s y vy) by assumption; exact Hq].
    + apply Vr; [lia | exact Hq].
Qed.
Lemma reform_add_temps s nc ts : forall bs m vm vts, length bs = length ts -> length m = nc -> Forall (fun t => length t = nc) ts -> Forall rect m -> Forall (Forall rect) ts -> mapM (reform_map s) m = Ok vm -> mapM (mapM (reform_map s)) ts = Ok vts ->
  length (add_temps bs ts m) = nc /\ Forall rect (add_temps bs ts m) /\ exists r, mapM (reform_map s) (add_temps bs ts m) = Ok r /\
  forall c q, (c < nc)%nat -> (q < npix s)%nat -> mg r c q = mg vm c q + sum (length ts) (fun k => nth k bs 0 * mg (nth k vts []) c q).
Proof.
  induction ts as [|t ts IH]; intros [|b bs] m vm vts Lb Lm Lt Rm Rt Hm Hv; try discriminate Lb.
  - cbn [add_temps combine fold_left]. split; [exact Lm|]. split; [exact Rm|]. exists vm. split; [exact Hm|]. intros. cbn [length sum]. ring.
  - unfold add_temps. cbn [combine fold_left fst snd]. fold (add_temps bs ts (axpy b m t)). cbn [mapM] in Hv. apply bind_ok in Hv as (vt & Et & Hv). apply bind_ok in Hv as (vts' & Ets & Hv). injection Hv as <-.
    inversion Lt; subst. inversion Rt; subst. injection Lb as Lb. destruct (reform_axpy b s (length m) m t vm vt eq_refl H1 Rm H3 Hm Et) as (L1 & R1 & r1 & E1 & V1).
    destruct (IH bs (axpy b m t) r1 vts' Lb L1 H2 R1 H4 E1 Ets) as (L2 & R2 & r2 & E2 & V2). split; [exact L2|]. split; [exact R2|]. exists r2. split; [exact E2|]. intros c q Hc Hq. rewrite V2, V1 by assumption. cbn [length]. rewrite sum_S_l. cbn [nth]. ring.
Qed.

Variable fourpi : F.
Variable fsqrt : F -> F.
Variable eigh : mat -> list F * mat.
Variable np_inv : mat -> res mat.
Notation new := (field_new fourpi fsqrt eigh np_inv).
Notation solver_ok := (solver_ok eigh np_inv).
(** the same arguments with other data *)
Definition set_data (a : fargs F) (m : list (imap F)) (t : temp_arg F) (moi : bool) : fargs F :=
  FArgs (a_mask a) (a_mask22 a) (a_mask12 a) (Some m) (a_spin a) t (a_beam a) (a_pe a) (a_pb a) (a_niter a) (a_niterm a) (a_tol a) (a_wcs a) (a_lmax a) (a_lmaxm a) moi (a_lite a).
Definition set_maps (a : fargs F) (m : list (imap F)) : fargs F := set_data a m (a_temp a) (a_moi a).
Lemma head_set_data a m t moi : head_of fourpi (set_data a m t moi) = head_of fourpi a.
Proof. reflexivity. Qed.
Lemma temps_inv (ta : temp_arg F) ts n s t : ta = TArr ts -> temps_of ta n s = Ok (Some t) -> Forall (fun t => length t = n) ts /\ mapM (mapM (reform_map s)) ts = Ok t.
Proof.
  intros -> H. cbn [temps_of] in H. destruct ts as [|t0 ts]; [discriminate H|]. destruct (forallb _ _) eqn:FB; [|discriminate H]. apply bind_ok in H as (r & Hr & H). injection H as <-. split; [|exact Hr].
  apply Forall_forall. rewrite forallb_forall in FB. intros x Hx. apply Nat.eqb_eq, FB, Hx.
Qed.
Lemma temps_none (ta : temp_arg F) ts n s : ta = TArr ts -> temps_of ta n s = Ok None -> False.
Proof. intros -> H. cbn [temps_of] in H. destruct ts; [discriminate H|]. destruct (forallb _ _); [|discriminate H]. apply bind_ok in H as (r & Hr & H). discriminate H. Qed.
Lemma body_inv (a : fargs F) (h : head) im spin maps temps : body_of a h im = Ok (spin, maps, temps) ->
  spin_of (length im) (a_spin a) = Ok spin /\ mapM (reform_map (h_s h)) im = Ok maps /\ (pure a && negb (spin =? 2)%Z)%bool = false /\ anis_ok a h spin = Ok tt /\ temps_of (a_temp a) (length maps) (h_s h) = Ok temps.
Proof.
  intro H. unfold body_of in H. apply bind_ok in H as (sp & Es & H). apply bind_ok in H as (m & Er & H). destruct (_ && _)%bool eqn:EP; [discriminate H|]. apply bind_ok in H as ([] & Eu & H). apply bind_ok in H as (t & Et & H). injection H as <- <- <-. repeat (split; [assumption|]). assumption.
Qed.
Lemma mg_masked a h nc (m : mat) c q : h_mask_a h = None -> length (h_mask h) = npix (h_s h) -> shaped nc (npix (h_s h)) m -> (c < nc)%nat -> (q < npix (h_s h))%nat ->
  mg (masked a h m) c q = (if a_moi a then 1 else nth q (h_mask h) 0) * mg m c q.
Proof.
  intros NA L S Hc Hq. unfold masked. destruct (a_moi a); [ring|]. rewrite NA. cbn [apply_mask]. apply (mg_vmul nc (npix (h_s h))); assumption.
Qed.
Lemma nth_masked_t a h nc (t : list mat) k c q : length (h_mask h) = npix (h_s h) -> (forall x, In x t -> shaped nc (npix (h_s h)) x) -> (k < length t)%nat -> (c < nc)%nat -> (q < npix (h_s h))%nat ->
  mg (nth k (masked_t a h t) []) c q = (if a_moi a then 1 else nth q (h_mask h) 0) * mg (nth k t []) c q.
Proof.
  intros L S Hk Hc Hq. unfold masked_t. destruct (a_moi a); [ring|]. rewrite (nth_indep _ [] (map (vmul (h_mask h)) [])) by (rewrite map_length; exact Hk). rewrite (map_nth (map (vmul (h_mask h))) t []). apply (mg_vmul nc (npix (h_s h))); try assumption. apply S, nth_In, Hk.
Qed.
Lemma alms_unpure K p a h spin m mu temps iM als f : alms_of fsqrt K p a h spin m mu temps iM als = Ok f -> a_pe a = false -> a_pb a = false -> forall m' mu' iM' als', m' = m ->
  exists f', alms_of fsqrt K p a h spin m' mu' temps iM' als' = Ok f' /\ f_maps f' = f_maps f /\ f_alm f' = f_alm f /\ f_temp f' = f_temp f /\ f_alm_temp f' = f_alm_temp f /\ f_alphas f' = als' /\ f_iM f' = iM'.
Proof.
  intros H Pe Pb m' mu' iM' als' ->. unfold alms_of in *. unfold pure in *. rewrite Pe, Pb in *. cbn [orb] in *. apply bind_ok in H as (alm & Ea & H). apply bind_ok in H as (at_ & Et & H). injection H as <-. rewrite Ea. cbn [bind]. rewrite Et. cbn [bind]. eexists. split; [reflexivity|]. repeat split; reflexivity.
Qed.

(** ** C36 *)
Theorem C36_template_amplitude K p a f im ts bs temps M : rect_args a -> new K p a = Ok f -> a_pe a = false -> a_pb a = false -> a_maps a = Some im -> a_temp a = TArr ts -> length bs = length ts ->
  get_templates f = Ok temps -> gram (f_info f) temps = Ok M -> solver_ok (length temps) (opt (a_tol a) (tol_pinv_default p)) M -> (forall q, (q < npix (f_info f))%nat -> 0 < pw (f_info f) q) ->
  exists f', new K p (set_maps a (add_temps bs ts im)) = Ok f' /\ get_maps f' = get_maps f /\ get_alms f' = get_alms f /\ get_templates f' = get_templates f /\ f_alm_temp f' = f_alm_temp f.
Proof.
  intros R H Pe Pb Em Et Lb Gt EM SO WP.
  rewrite new_staged in *. unfold staged in *. apply bind_ok in H as (h & Eh & H). rewrite Em in H. apply bind_ok in H as ([[spin maps] tm] & Eb & H). apply bind_ok in H as ([[[m mu] iM] als] & Ec & H).
  unfold set_maps. rewrite head_set_data, Eh. cbn [bind a_maps set_data]. destruct (body_inv _ _ _ _ _ _ Eb) as (Es & Er & Ep & Eu & Etm). destruct (head_mask fourpi a h R Eh) as [Lm La]. destruct (body_shapes a h im _ _ _ R Em Eb) as (Sm & St & Nc).
  destruct tm as [tm|]; [|exfalso; eapply temps_none; eassumption]. destruct (St tm eq_refl) as [St' Lt]. pose proof (temps_no_anis _ _ _ _ _ _ Eb) as NA.
  destruct (temps_inv _ ts _ _ _ Et Etm) as [Ft Ets]. rewrite (proj1 Sm) in Ft.
  assert (Ltt : length tm = length ts) by (rewrite (mapM_length _ _ _ Ets); reflexivity).
  assert (Ei : f_info f = h_s h /\ f_temp f = keep (a_lite a) (masked_t a h tm)).
  { unfold alms_of in H. unfold pure in H. rewrite Pe, Pb in H. cbn [orb] in H. apply bind_ok in H as (alm & _ & H). apply bind_ok in H as (at_ & _ & H). injection H as <-. split; reflexivity. }
  destruct Ei as [Ei Etf]. rewrite Ei in *. unfold get_templates in Gt. rewrite Etf in Gt. unfold keep in Gt. destruct (a_lite a); [discriminate Gt|]. cbn [stored] in Gt. injection Gt as <-.
  destruct (masked_t_shaped a h _ tm Lm St') as [Smt Lmt].
  destruct R as (R1 & R2 & R3 & R4 & R5).
  destruct (reform_add_temps (h_s h) (length im) ts bs im maps tm Lb eq_refl Ft (R4 _ Em) (R5 _ Et) Er Ets) as (L' & R' & maps' & Er' & V').
  assert (Sm' : shaped (length im) (npix (h_s h)) maps') by (rewrite <- L'; eapply shaped_reform; eassumption).
  assert (Eb' : body_of (set_data a (add_temps bs ts im) (a_temp a) (a_moi a)) h (add_temps bs ts im) = Ok (spin, maps', Some tm)).
  { unfold body_of. rewrite L'. cbn [a_spin set_data a_temp]. rewrite Es. cbn [bind]. rewrite Er'. cbn [bind]. unfold pure in *. cbn [a_pe a_pb set_data]. rewrite Ep. unfold anis_ok in *. cbn [a_temp set_data]. unfold pure in *. cbn [a_pe a_pb set_data]. rewrite Eu. cbn [bind]. rewrite (proj1 Sm'), <- (proj1 Sm), Etm. reflexivity. }
  rewrite Eb'. cbn [bind L_Field2.clean] in *. apply bind_ok in Ec as ([iM' al] & Ed & Ec). injection Ec as <- <- <- <-.
  set (a' := set_data a (add_temps bs ts im) (a_temp a) (a_moi a)) in *.
  change (masked_t a' h tm) with (masked_t a h tm). change (tol_of p a') with (tol_of p a). change (masked a' h maps') with (masked a h maps').
  assert (WF : wf_info (h_s h)) by (eapply (gram_wf _ (length im)); [exact Smt | rewrite Lmt; exact Lt | lia | exact EM]).
  assert (Sa : shaped (length im) (npix (h_s h)) (masked a h maps)) by (apply masked_shaped; auto). assert (Sa' : shaped (length im) (npix (h_s h)) (masked a h maps')) by (apply masked_shaped; auto).
  destruct (deproject_inv eigh np_inv _ _ _ _ _ _ _ Smt Sa WF Ed) as (M' & EM' & LM & VM & EP & VA). rewrite EM in EM'. injection EM' as <-.
  assert (Ed' : exists al', deproject eigh np_inv (h_s h) (tol_of p a) (masked_t a h tm) (masked a h maps') = Ok (iM', al')).
  { unfold deproject. rewrite EM. cbn [bind]. rewrite EP. cbn [bind]. rewrite (prods_eq _ _ _ _ Smt Sa' WF). cbn [bind]. eexists. reflexivity. }
  destruct Ed' as [al' Ed']. rewrite Ed'. cbn [bind].
  destruct (deproject_inv eigh np_inv _ _ _ _ _ _ _ Smt Sa' WF Ed') as (M'' & EM'' & _ & _ & _ & VA'). clear EM'' M''.
  set (n := length (masked_t a h tm)) in *. set (t := fun k => mg (nth k (masked_t a h tm) [])).
  assert (VM' : forall c q, (c < length im)%nat -> (q < npix (h_s h))%nat -> mg (masked a h maps') c q = mg (masked a h maps) c q + sum n (fun k => nth k bs 0 * t k c q)).
  { intros c q Hc Hq. rewrite !(mg_masked a h (length im)), V' by assumption. rewrite Lmt, Ltt.
    rewrite (sum_ext (length ts) (fun k => nth k bs 0 * t k c q) (fun k => (if a_moi a then 1 else nth q (h_mask h) 0) * (nth k bs 0 * mg (nth k tm []) c q))).
    - rewrite sum_mul_l. ring.
    - intros k Hk. unfold t. rewrite (nth_masked_t a h (length im)) by (try assumption; lia). ring. }
  assert (VPR : forall c, (c < n)%nat -> ip (length im) (npix (h_s h)) (pw (h_s h)) (t c) (mg (masked a h maps')) = ip (length im) (npix (h_s h)) (pw (h_s h)) (t c) (mg (masked a h maps)) + sum n (fun j => mg M c j * nth j bs 0)).
  { intros c Hc. rewrite (ip_ext _ _ _ _ _ (t c) (fun i j => mg (masked a h maps) i j - sum n (fun k => (- nth k bs 0) * t k i j))).
    - rewrite ip_sub_r, (ip_lin_r _ _ _ (t c) n (fun k => - nth k bs 0) t). rewrite (sum_ext n _ (fun j => (- (1)) * (mg M c j * nth j bs 0))).
      + rewrite sum_mul_l. ring.
      + intros j Hj. rewrite VM by assumption. rewrite (ip_sym _ _ _ (t c)). unfold t. ring.
    - intros; reflexivity.
    - intros i j Hi Hj. rewrite VM' by assumption. rewrite (sum_ext n (fun k => - nth k bs 0 * t k i j) (fun k => (- (1)) * (nth k bs 0 * t k i j))) by (intros; ring). rewrite sum_mul_l. ring. }
  assert (VAL : forall b, (b < n)%nat -> nth b al' 0 = nth b al 0 + sum n (fun i => mg iM' b i * sum n (fun j => mg M i j * nth j bs 0))).
  { intros b Hb. rewrite VA, VA' by exact Hb. rewrite <- sum_add. apply sum_ext. intros c Hc. change (mg (nth c (masked_t a h tm) [])) with (t c). rewrite VPR by exact Hc. ring. }
  assert (EQ : minus_temps al' (masked_t a h tm) (masked a h maps') = minus_temps al (masked_t a h tm) (masked a h maps)).
  { apply (mat_eq_mg (length im) (npix (h_s h))); [apply shaped_minus; exact Sa' | apply shaped_minus; exact Sa|]. intros c q Hc Hq. rewrite !(mg_minus (length im) (npix (h_s h))) by assumption. rewrite VM' by assumption. fold n.
    assert (Z : sum n (fun k => (nth k bs 0 - sum n (fun i => mg iM' k i * sum n (fun j => mg M i j * nth j bs 0))) * t k c q) = 0).
    { destruct (pinv_cases eigh np_inv _ _ _ _ LM EP SO) as [[I1 I2]|(w & v & wi & E & INV & VP)].
      - apply sum_zero. intros k Hk. rewrite (mat_assoc n iM' M (fun j => nth j bs 0) k Hk I2). ring.
      - apply (left_over_zero n (length im) (npix (h_s h)) (pw (h_s h)) t M w wi v iM' VM E INV VP (fun k => nth k bs 0) c q WP Hc Hq). }
    rewrite (sum_ext n (fun i => nth i al' 0 * mg (nth i (masked_t a h tm) []) c q) (fun i => (nth i al 0 * t i c q + nth i bs 0 * t i c q) - (nth i bs 0 - sum n (fun i' => mg iM' i i' * sum n (fun j => mg M i' j * nth j bs 0))) * t i c q)).
    - rewrite sum_sub, sum_add, Z. unfold t. ring.
    - intros k Hk. rewrite VAL by exact Hk. unfold t. ring. }
  destruct (alms_unpure _ _ _ _ _ _ _ _ _ _ _ H Pe Pb (minus_temps al' (masked_t a h tm) (masked a h maps')) (minus_temps al' (map (um a h) tm) (um a h maps')) (Some iM') (Some al') EQ) as (f' & Ef' & G1 & G2 & G3 & G4 & _ & _).
  exists f'. split; [exact Ef'|]. unfold get_maps, get_alms, get_templates. rewrite G1, G2, G3, G4. repeat split; reflexivity.
Qed.
End PF2.
