(** Families of fields with the same mask and templates; the algebra of the bias. *)
From Verif Require Import Base M_Utils L_Utils M_Field L_Field L_Field2 P_Utils P_Field P_Field2 P_Field5 P_Field6 M_Cell L_Cell P_Cell L_Lin L_Lin2 L_Bias.
Section LBias2.
Context {F : ofield}.
Local Open Scope F_scope.
Add Field FfLB2 : (fth F).
Notation mat := (list (list F)).
Variable fourpi : F.
Variable fsqrt : F -> F.
Variable eigh : mat -> list F * mat.
Variable np_inv : mat -> res mat.
Notation new := (field_new fourpi fsqrt eigh np_inv).
Notation head := (@head F).

Lemma new_static K p a f : new K p a = Ok f -> exists h, head_of fourpi a = Ok h /\ f_info f = h_s h /\ f_mask_a f = h_mask_a h /\ f_lite f = a_lite a /\ f_lmax f = h_lmax h.
Proof.
  intro H. rewrite new_staged in H. unfold staged in H. apply bind_ok in H as (h & Eh & H). exists h. split; [exact Eh|]. destruct (a_maps a) as [im|].
  - apply bind_ok in H as ([[spin maps] temps] & Eb & H). apply bind_ok in H as ([[[m mu] iM] als] & Ec & H). unfold alms_of in H. cbv zeta in H. destruct (pure a).
    + apply bind_ok in H as (am & Eam & H). apply bind_ok in H as ([alm pm] & Ep & H). apply bind_ok in H as (alt & Ealt & H). injection H as <-. auto.
    + apply bind_ok in H as (alm & Ep & H). apply bind_ok in H as (alt & Ealt & H). injection H as <-. auto.
  - destruct (a_spin a) as [spin|]; [|discriminate H]. destruct (_ && _)%bool; [discriminate H|]. injection H as <-. auto.
Qed.
Lemma head_lmax a h : head_of fourpi a = Ok h -> (0 < h_lmax h)%Z.
Proof.
  intro H. unfold head_of in H. apply bind_ok in H as ([mask ma] & E1 & H). apply bind_ok in H as ([[s lm] ang] & E2 & H). apply bind_ok in H as (mk & E3 & H). apply bind_ok in H as (mask_a & E4 & H). cbv zeta in H. destruct (_ || _)%bool eqn:E; [discriminate H|]. apply bind_ok in H as (beam & E5 & H). injection H as <-. cbn [h_lmax].
  apply orb_false_iff in E as [E _]. apply Z.leb_gt in E. exact E.
Qed.
(** pseudo-inverses of symmetric matrices are symmetric *)
Definition inv_sym : Prop := forall M P n, np_inv M = Ok P -> length M = n -> (forall i j, (i < n)%nat -> (j < n)%nat -> mg M i j = mg M j i) -> forall i j, (i < n)%nat -> (j < n)%nat -> mg P i j = mg P j i.
Lemma pinvh_sym M tol P n : inv_sym -> length M = n -> (forall i j, (i < n)%nat -> (j < n)%nat -> mg M i j = mg M j i) -> pinvh eigh np_inv M tol = Ok P -> forall i j, (i < n)%nat -> (j < n)%nat -> mg P i j = mg P j i.
Proof.
  intros IS L S H i j Hi Hj. unfold pinvh in H. destruct (tol_le0 tol); [eapply IS; eassumption|]. destruct (eigh M) as [w v]. cbv zeta in H. apply bind_ok in H as (wi & _ & H). rewrite L in H. injection H as <-.
  assert (E : forall i j, (i < n)%nat -> (j < n)%nat -> mg (mmul n v (mmul n (diag wi) (tr n v))) i j = sum n (fun k => mg v i k * sum n (fun l => mg (diag wi) k l * mg v j l))).
  { intros a b Ha Hb. unfold mmul at 1. rewrite mg_tab by assumption. apply sum_ext. intros k Hk. f_equal. unfold mmul. rewrite mg_tab by assumption. apply sum_ext. intros l Hl. unfold tr. rewrite mg_tab by assumption. reflexivity. }
  rewrite !E by assumption. assert (D : forall k l, mg (diag wi) k l = mg (diag wi) l k).
  { intros k l. unfold diag. destruct (Nat.lt_ge_cases k (length wi)) as [Hk|Hk]; destruct (Nat.lt_ge_cases l (length wi)) as [Hl|Hl]; [| | |]; try (rewrite !(mg_out (length wi) (length wi)) by (try apply shaped_tab2; lia); reflexivity).
    rewrite !mg_tab by assumption. rewrite (Nat.eqb_sym l k). destruct (Nat.eqb_spec k l) as [->|]; reflexivity. }
  rewrite (sum_ext n _ (fun k => sum n (fun l => mg v i k * (mg (diag wi) k l * mg v j l)))) by (intros; rewrite sum_mul_l; reflexivity). rewrite sum_swap. apply sum_ext. intros k Hk. rewrite <- sum_mul_l. apply sum_ext. intros l Hl. rewrite (D k l). ring.
Qed.

(** the fields made of the maps [im k], cleaned of templates and not *)
Lemma family K p a t N (im : nat -> list (imap F)) (f u : nat -> nfield F) (s : nat -> mat) j nc : linear K -> inv_sym -> (j < N)%nat ->
  (forall k, (k < N)%nat -> length (im k) = nc) -> (forall k, (k < N)%nat -> rect_args (set_data a (im k) t false)) ->
  (forall k, (k < N)%nat -> new K p (set_data a (im k) t false) = Ok (f k)) -> (forall k, (k < N)%nat -> new K p (set_data a (im k) TNone false) = Ok (u k)) ->
  f_lite (f j) = false -> f_mask_a (f j) = None -> (forall k, (k < N)%nat -> mapM (reform_map (f_info (f j))) (im k) = Ok (s k)) ->
  exists (h : head) spin (t0 T : list mat) (iM : mat), (0 < h_lmax h)%Z /\ length (h_mask h) = npix (h_s h) /\ (pure a = true -> nc = 2%nat) /\ (0 < nc)%nat /\
    (f_info (f j) = h_s h /\ f_mask (f j) = h_mask h /\ f_lmax (f j) = h_lmax h /\ f_spin (f j) = spin /\ Z.to_nat (f_nmaps (f j)) = nc) /\
    (forall z, purify_if_needed fsqrt K (f j) (f_niter (f j)) z = ana fsqrt K p a h spin z) /\
    f_ntemp (f j) = length t0 /\ (0 < length t0 -> wf_info (h_s h))%nat /\ (forall x, In x t0 -> shaped nc (npix (h_s h)) x) /\
    otl (f_temp (f j)) = map (map (vmul (h_mask h))) t0 /\ otl (f_alm_temp (f j)) = T /\ otl (f_iM (f j)) = iM /\ mapM (ana fsqrt K p a h spin) t0 = Ok T /\
    (forall i j, (i < length t0)%nat -> (j < length t0)%nat -> mg iM i j = mg iM j i) /\
    (forall i, (i < length t0)%nat -> shaped nc (n_alm (h_lmax h)) (nth i T [])) /\
    forall k, (k < N)%nat -> exists x y, f_alm (f k) = Some x /\ f_alm (u k) = Some y /\ f_lmax (f k) = h_lmax h /\ f_lmax (u k) = h_lmax h /\ shaped nc (npix (h_s h)) (s k) /\ shaped nc (n_alm (h_lmax h)) x /\ shaped nc (n_alm (h_lmax h)) y /\
      ana fsqrt K p a h spin (s k) = Ok y /\
      forall c q, mg x c q = mg y c q - sum (length t0) (fun b => sum (length t0) (fun d => mg iM b d * ip nc (npix (h_s h)) (pw (h_s h)) (mg (map (vmul (h_mask h)) (nth d t0 []))) (mg (map (vmul (h_mask h)) (s k)))) * mg (nth b T []) c q).
Proof.
  intros LK IS Hj Ln Rt Hf Hu Lite Iso Hs.
  destruct (new_static _ _ _ _ (Hf j Hj)) as (h & Eh & Ei & Ea & El & Elm). rewrite head_set_data in Eh.
  assert (St : forall k, (k < N)%nat -> f_lite (f k) = false /\ f_mask_a (f k) = None /\ f_lite (u k) = false /\ f_mask_a (u k) = None).
  { intros k Hk. destruct (new_static _ _ _ _ (Hf k Hk)) as (h1 & Eh1 & _ & A1 & A2 & _). destruct (new_static _ _ _ _ (Hu k Hk)) as (h2 & Eh2 & _ & B1 & B2 & _). rewrite head_set_data in Eh1, Eh2. assert (h1 = h) by congruence. assert (h2 = h) by congruence. subst h1 h2. rewrite A1, A2, B1, B2. cbn [set_data a_lite] in *. rewrite El in Lite. rewrite Ea in Iso. auto. }
  assert (Rn : forall k, (k < N)%nat -> rect_args (set_data a (im k) TNone false)). { intros k Hk. destruct (Rt k Hk) as (R1 & R2 & R3 & R4 & _). repeat split; try assumption. intros x X. discriminate X. }
  assert (An : forall t' h' spin' z im', ana fsqrt K p (set_data a im' t' false) h' spin' z = ana fsqrt K p a h' spin' z) by reflexivity.
  assert (Pu : forall t' im', pure (set_data a im' t' false) = pure a) by reflexivity.
  destruct (St j Hj) as (Sj1 & Sj2 & _). destruct (field_facts fourpi fsqrt eigh np_inv K p _ (im j) (f j) (Rt j Hj) eq_refl eq_refl Sj1 Sj2 (Hf j Hj)) as (h' & spin & mp & temps & E1 & E2 & E3 & E4 & E5 & E6 & E7 & E8 & G1 & G2 & G3 & G4 & G5 & G6 & G7 & G8 & alm & G9 & G10).
  rewrite head_set_data in E1. assert (h' = h) by congruence. subst h'. clear E1. rewrite (Ln j Hj) in *. change (a_spin (set_data a (im j) t false)) with (a_spin a) in E2. change (a_temp (set_data a (im j) t false)) with t in E4. rewrite Pu in E7.
  assert (FU : forall k, (k < N)%nat -> exists y, f_alm (u k) = Some y /\ f_lmax (u k) = h_lmax h /\ shaped nc (npix (h_s h)) (s k) /\ ana fsqrt K p a h spin (s k) = Ok y /\ shaped nc (n_alm (h_lmax h)) y).
  { intros k Hk. destruct (St k Hk) as (_ & _ & S3 & S4). destruct (field_facts fourpi fsqrt eigh np_inv K p _ (im k) (u k) (Rn k Hk) eq_refl eq_refl S3 S4 (Hu k Hk)) as (h1 & sp1 & mp1 & tm1 & X1 & X2 & X3 & X4 & X5 & X6 & X7 & X8 & Y1 & Y2 & Y3 & Y4 & Y5 & Y6 & Y7 & Y8 & y & Y9 & Y10).
    rewrite head_set_data in X1. assert (h1 = h) by congruence. subst h1. rewrite (Ln k Hk) in *. change (a_spin (set_data a (im k) TNone false)) with (a_spin a) in X2. assert (Esp : sp1 = spin) by congruence. cbn [set_data a_temp temps_of] in X4. injection X4 as <-. destruct Y10 as [_ Y10]. rewrite An, Esp in Y10. rewrite <- G1, (Hs k Hk) in X3. injection X3 as <-. exists y. repeat (split; [assumption|]).
    pose proof (ana_lc fsqrt K p a h spin nc 1 (fun _ => 1) (fun _ => s k) (fun _ => y) LK Nat.lt_0_1 E6 E7 (fun _ _ => X5) (fun _ _ => Y10)) as [_ Z]. apply (Z 0%nat). lia. }
  assert (Hl : (0 < h_lmax h)%Z) by (eapply head_lmax; exact Eh).
  destruct temps as [t0|].
  - destruct G10 as (N1 & N2 & N3 & N4 & N5 & iM & T & M & al & N6 & N7 & N8 & _ & NG & NL & NS & NP & _).
    assert (N8' : mapM (ana fsqrt K p a h spin) t0 = Ok T) by exact N8.
    assert (ST : forall i, (i < length t0)%nat -> ana fsqrt K p a h spin (nth i t0 []) = Ok (nth i T []) /\ shaped nc (n_alm (h_lmax h)) (nth i T [])).
    { intros i Hi. pose proof (mapM_nth' _ _ _ [] [] i N8' Hi) as E. split; [exact E|]. pose proof (ana_lc fsqrt K p a h spin nc 1 (fun _ => 1) (fun _ => nth i t0 []) (fun _ => nth i T []) LK Nat.lt_0_1 E6 E7 (fun _ _ => N3 _ (nth_In t0 [] Hi)) (fun _ _ => E)) as [_ Z]. apply (Z 0%nat). lia. }
    exists h, spin, t0, T, iM. split; [exact Hl|]. split; [exact E6|]. split; [exact E7|]. split; [exact E8|]. split; [auto|]. split; [exact G8|]. split; [exact N1|]. split; [intros _; exact N4|]. split; [exact N3|]. rewrite N5, N7, N6. split; [reflexivity|]. split; [reflexivity|]. split; [reflexivity|]. split; [exact N8'|].
    split; [eapply pinvh_sym; [exact IS | exact NL | exact NS | exact NP]|]. split; [intros i Hi; apply ST; exact Hi|].
    intros k Hk. destruct (FU k Hk) as (y & U1 & U2 & U3 & U4 & U5). destruct (St k Hk) as (S3 & S4 & _).
    destruct (field_facts fourpi fsqrt eigh np_inv K p _ (im k) (f k) (Rt k Hk) eq_refl eq_refl S3 S4 (Hf k Hk)) as (h1 & sp1 & mp1 & tm1 & X1 & X2 & X3 & X4 & X5 & X6 & X7 & X8 & Y1 & Y2 & Y3 & Y4 & Y5 & Y6 & Y7 & Y8 & x & Y9 & Y10).
    rewrite head_set_data in X1. assert (h1 = h) by congruence. subst h1. rewrite (Ln k Hk) in *. change (a_spin (set_data a (im k) t false)) with (a_spin a) in X2. change (a_temp (set_data a (im k) t false)) with t in X4. assert (Esp : sp1 = spin) by congruence. assert (tm1 = Some t0) by congruence. subst tm1. destruct Y10 as (_ & _ & _ & _ & _ & iM1 & T1 & M1 & al1 & _ & _ & _ & V4 & VG & _ & _ & VP & Val).
    assert (M1 = M) by congruence. subst M1. change (tol_of p (set_data a (im k) t false)) with (tol_of p a) in VP. change (tol_of p (set_data a (im j) t false)) with (tol_of p a) in NP. assert (iM1 = iM) by congruence. subst iM1. rewrite An, Esp in V4. rewrite <- G1, (Hs k Hk) in X3. injection X3 as <-.
    set (co := fun i => match i with O => 1 | S b => 0 - nth b al1 0 end). set (xs := fun i => match i with O => s k | S b => nth b t0 [] end). set (ys := fun i => match i with O => y | S b => nth b T [] end).
    assert (E : minus_temps al1 t0 (s k) = lc nc (npix (h_s h)) (S (length t0)) co xs).
    { apply (mat_eq_mg nc (npix (h_s h))); [apply shaped_minus; exact U3 | apply lc_shaped|]. intros c q Hc Hq. rewrite (mg_minus nc (npix (h_s h))) by assumption. rewrite mg_lc by assumption. rewrite sum_S_l. cbn [co xs]. rewrite (sum_ext (length t0) (fun k0 => (0 - nth k0 al1 0) * mg (nth k0 t0 []) c q) (fun b => 0 - nth b al1 0 * mg (nth b t0 []) c q)) by (intros; ring). rewrite sum_sub. rewrite (sum_zero (length t0) (fun _ => 0)) by reflexivity. ring. }
    destruct (ana_lc fsqrt K p a h spin nc (S (length t0)) co xs ys LK (Nat.lt_0_succ _) E6 E7) as [L1 L2].
    { intros [|b] Hb; [exact U3 | apply N3, nth_In; lia]. } { intros [|b] Hb; [exact U4 | apply ST; lia]. }
    rewrite E, L1 in V4. injection V4 as <-. eexists. exists y. split; [exact Y9|]. split; [exact U1|]. split; [exact Y3|]. split; [exact U2|]. split; [exact U3|]. split; [apply lc_shaped|]. split; [exact U5|]. split; [exact U4|].
    intros c q. rewrite mg_lc_all by exact L2. rewrite sum_S_l. cbn [co ys]. rewrite (sum_ext (length t0) (fun k0 => (0 - nth k0 al1 0) * mg (nth k0 T []) c q) (fun b => 0 - nth b al1 0 * mg (nth b T []) c q)) by (intros; ring). rewrite sum_sub. rewrite (sum_zero (length t0) (fun _ => 0)) by reflexivity.
    rewrite (sum_ext (length t0) (fun b => nth b al1 0 * mg (nth b T []) c q) (fun b => sum (length t0) (fun d => mg iM b d * ip nc (npix (h_s h)) (pw (h_s h)) (mg (map (vmul (h_mask h)) (nth d t0 []))) (mg (map (vmul (h_mask h)) (s k)))) * mg (nth b T []) c q)) by (intros b Hb; rewrite (Val b Hb); reflexivity). ring.
  - destruct G10 as (N1 & N2). exists h, spin, [], [], (otl (f_iM (f j))). split; [exact Hl|]. split; [exact E6|]. split; [exact E7|]. split; [exact E8|]. split; [auto|]. split; [exact G8|]. split; [exact N1|]. split; [intro X; inversion X|]. split; [intros x []|].
    assert (TN : t = TNone). { clear -E4. destruct t as [|ts|]; [reflexivity | exfalso; eapply temps_none; [reflexivity | exact E4] | discriminate E4]. } subst t.
    assert (FT : f_temp (f j) = None /\ f_alm_temp (f j) = None).
    { pose proof (Hf j Hj) as H. rewrite new_staged in H. unfold staged in H. rewrite head_set_data, Eh in H. cbn [bind] in H. change (a_maps (set_data a (im j) TNone false)) with (Some (im j)) in H. apply bind_ok in H as ([[spin' maps'] temps'] & Eb & H). apply bind_ok in H as ([[[m' mu'] iM'] als'] & Ec & H). unfold body_of in Eb. apply bind_ok in Eb as (? & _ & Eb). apply bind_ok in Eb as (? & _ & Eb). destruct (_ && _)%bool in Eb; [discriminate Eb|]. apply bind_ok in Eb as (? & _ & Eb). cbn [set_data a_temp temps_of bind] in Eb. injection Eb as _ _ <-.
      unfold alms_of in H. cbv zeta in H. cbn [option_map] in H. destruct (pure _); [apply bind_ok in H as (am & _ & H); apply bind_ok in H as ([alm' pm] & _ & H) | apply bind_ok in H as (alm' & _ & H)]; cbn [bind] in H; injection H as <-; split; reflexivity. }
    destruct FT as [FT1 FT2]. rewrite FT1, FT2. split; [reflexivity|]. split; [reflexivity|]. split; [reflexivity|]. split; [reflexivity|]. split; [intros ? ? X; inversion X|]. split; [intros ? X; inversion X|].
    intros k Hk. destruct (FU k Hk) as (y & U1 & U2 & U3 & U4 & U5). assert (f k = u k) by (pose proof (Hf k Hk); pose proof (Hu k Hk); congruence). rewrite H. exists y, y. repeat (split; [assumption|]). intros c q. cbn [length sum]. ring.
Qed.

(** *** bilinear algebra *)
Lemma spectrum_minus_l lmax n (co : nat -> F) (xs : nat -> list F) (a a0 b : list F) l : (forall i, nth i a 0 = nth i a0 0 - sum n (fun k => co k * nth i (xs k) 0)) -> spectrum lmax a b l = spectrum lmax a0 b l - sum n (fun k => co k * spectrum lmax (xs k) b l).
Proof.
  intro H. rewrite (spectrum_lin_l lmax (S n) (fun i => match i with O => 1 | S k => 0 - co k end) (fun i => match i with O => a0 | S k => xs k end) a b l).
  - rewrite sum_S_l. rewrite (sum_ext n (fun k => (0 - co k) * spectrum lmax (xs k) b l) (fun k => 0 - co k * spectrum lmax (xs k) b l)) by (intros; ring). rewrite sum_sub. rewrite (sum_zero n (fun _ => 0)) by reflexivity. ring.
  - intro i. rewrite H, sum_S_l. rewrite (sum_ext n (fun k => (0 - co k) * nth i (xs k) 0) (fun k => 0 - co k * nth i (xs k) 0)) by (intros; ring). rewrite sum_sub. rewrite (sum_zero n (fun _ => 0)) by reflexivity. ring.
Qed.
Lemma spectrum_minus_r lmax n (co : nat -> F) (xs : nat -> list F) (a b b0 : list F) l : (forall i, nth i b 0 = nth i b0 0 - sum n (fun k => co k * nth i (xs k) 0)) -> spectrum lmax a b l = spectrum lmax a b0 l - sum n (fun k => co k * spectrum lmax a (xs k) l).
Proof. intro H. rewrite spectrum_sym, (spectrum_minus_l lmax n co xs b b0 a l H), spectrum_sym. f_equal. apply sum_ext. intros k _. rewrite spectrum_sym. reflexivity. Qed.
Lemma half N n (pr : nat -> F) (iM : mat) (P : nat -> nat -> F) (S : nat -> nat -> F) (Z : nat -> nat -> F) :
  (forall a b, (a < n)%nat -> (b < n)%nat -> Z a b = sum N (fun k => pr k * P k b * S k a)) ->
  sum N (fun k => pr k * sum n (fun a => sum n (fun b => mg iM a b * P k b) * S k a)) = sum n (fun a => sum n (fun b => mg iM a b * Z a b)).
Proof.
  intro H. rewrite (sum_ext N _ (fun k => sum n (fun a => sum n (fun b => mg iM a b * (pr k * P k b * S k a))))).
  - rewrite sum_swap. apply sum_ext. intros a Ha. rewrite sum_swap. apply sum_ext. intros b Hb. rewrite sum_mul_l, (H a b Ha Hb). reflexivity.
  - intros k _. rewrite <- sum_mul_l. apply sum_ext. intros a _. rewrite <- sum_mul_r, <- sum_mul_l. apply sum_ext. intros b _. ring.
Qed.
Lemma bias_algebra lmax l N n1 n2 (pr : nat -> F) (x1 y1 x2 y2 T1 T2 Z1 Z2 : nat -> list F) (iM1 iM2 : mat) (P1 P2 : nat -> nat -> F) (pd : nat -> nat -> F) :
  (forall k q, (k < N)%nat -> nth q (x1 k) 0 = nth q (y1 k) 0 - sum n1 (fun a => sum n1 (fun b => mg iM1 a b * P1 k b) * nth q (T1 a) 0)) ->
  (forall k q, (k < N)%nat -> nth q (x2 k) 0 = nth q (y2 k) 0 - sum n2 (fun a => sum n2 (fun b => mg iM2 a b * P2 k b) * nth q (T2 a) 0)) ->
  (forall b q, (b < n1)%nat -> nth q (Z1 b) 0 = sum N (fun k => pr k * P1 k b * nth q (y2 k) 0)) ->
  (forall b q, (b < n2)%nat -> nth q (Z2 b) 0 = sum N (fun k => pr k * P2 k b * nth q (y1 k) 0)) ->
  (forall b d, (b < n1)%nat -> (d < n2)%nat -> pd b d = sum N (fun k => pr k * P2 k d * P1 k b)) ->
  (forall r s, (r < n2)%nat -> (s < n2)%nat -> mg iM2 r s = mg iM2 s r) ->
  sum N (fun k => pr k * spectrum lmax (x1 k) (x2 k) l) = sum N (fun k => pr k * spectrum lmax (y1 k) (y2 k) l) +
    (0 - sum n1 (fun i => sum n1 (fun j => mg iM1 i j * spectrum lmax (T1 i) (Z1 j) l)) - sum n2 (fun i => sum n2 (fun j => mg iM2 i j * spectrum lmax (Z2 j) (T2 i) l))
     + sum n1 (fun i => sum n1 (fun j => sum n2 (fun r => sum n2 (fun s => mg iM1 i j * mg iM2 r s * pd j r * spectrum lmax (T1 i) (T2 s) l))))).
Proof.
  intros H1 H2 HZ1 HZ2 Hpd Sy. set (a1 := fun k a => sum n1 (fun b => mg iM1 a b * P1 k b)). set (a2 := fun k a => sum n2 (fun b => mg iM2 a b * P2 k b)).
  rewrite (sum_ext N (fun k => pr k * spectrum lmax (x1 k) (x2 k) l) (fun k => pr k * spectrum lmax (y1 k) (y2 k) l - pr k * sum n2 (fun c => a2 k c * spectrum lmax (y1 k) (T2 c) l) - pr k * sum n1 (fun a => a1 k a * spectrum lmax (T1 a) (y2 k) l) + pr k * sum n1 (fun a => a1 k a * sum n2 (fun c => a2 k c * spectrum lmax (T1 a) (T2 c) l)))).
  - rewrite sum_add, !sum_sub. unfold a1, a2.
    rewrite (half N n1 pr iM1 P1 (fun k a => spectrum lmax (T1 a) (y2 k) l) (fun a b => spectrum lmax (T1 a) (Z1 b) l)) by (intros a b Ha Hb; apply spectrum_lin_r; intro q; apply HZ1; exact Hb).
    rewrite (half N n2 pr iM2 P2 (fun k a => spectrum lmax (y1 k) (T2 a) l) (fun a b => spectrum lmax (Z2 b) (T2 a) l)) by (intros a b Ha Hb; apply spectrum_lin_l; intro q; apply HZ2; exact Hb).
    rewrite (half N n1 pr iM1 P1 (fun k a => sum n2 (fun c => sum n2 (fun b => mg iM2 c b * P2 k b) * spectrum lmax (T1 a) (T2 c) l)) (fun a b => sum n2 (fun r => sum n2 (fun s => mg iM2 r s * pd b r * spectrum lmax (T1 a) (T2 s) l)))).
    + rewrite (sum_ext n1 (fun i => sum n1 (fun j => sum n2 (fun r => sum n2 (fun s => mg iM1 i j * mg iM2 r s * pd j r * spectrum lmax (T1 i) (T2 s) l)))) (fun a => sum n1 (fun b => mg iM1 a b * sum n2 (fun r => sum n2 (fun s => mg iM2 r s * pd b r * spectrum lmax (T1 a) (T2 s) l))))).
      * ring.
      * intros i _. apply sum_ext. intros j _. rewrite <- sum_mul_l. apply sum_ext. intros r _. rewrite <- sum_mul_l. apply sum_ext. intros s _. ring.
    + intros a b Ha Hb. rewrite (sum_ext N _ (fun k => sum n2 (fun c => sum n2 (fun d => mg iM2 c d * (pr k * P2 k d * P1 k b) * spectrum lmax (T1 a) (T2 c) l)))).
      * rewrite (sum_swap n2 n2 (fun r s => mg iM2 r s * pd b r * spectrum lmax (T1 a) (T2 s) l)). rewrite (sum_swap N n2). apply sum_ext. intros c Hc. rewrite (sum_swap N n2). apply sum_ext. intros d Hd. rewrite (Sy d c Hd Hc), (Hpd b d Hb Hd). rewrite <- sum_mul_l, <- sum_mul_r. reflexivity.
      * intros k _. rewrite <- sum_mul_l. apply sum_ext. intros c _. rewrite <- sum_mul_r, <- sum_mul_l. apply sum_ext. intros d _. ring.
  - intros k Hk. rewrite (spectrum_minus_l lmax n1 (a1 k) T1 (x1 k) (y1 k) (x2 k) l) by (intro q; apply H1; exact Hk). rewrite (spectrum_minus_r lmax n2 (a2 k) T2 (y1 k) (x2 k) (y2 k) l) by (intro q; apply H2; exact Hk).
    rewrite (sum_ext n1 (fun k0 => a1 k k0 * spectrum lmax (T1 k0) (x2 k) l) (fun a => a1 k a * spectrum lmax (T1 a) (y2 k) l - a1 k a * sum n2 (fun c => a2 k c * spectrum lmax (T1 a) (T2 c) l))) by (intros a _; rewrite (spectrum_minus_r lmax n2 (a2 k) T2 (T1 a) (x2 k) (y2 k) l) by (intro q; apply H2; exact Hk); ring).
    rewrite sum_sub. ring.
Qed.
End LBias2.
