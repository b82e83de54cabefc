(** Property C92, continued: the row m2 = m3 = 0.  Here the symbols are known in closed form, so that the relations of
    P_Wigner.v are theorems, and the recursion of drc3jj (utils.c:143-343) is compared with the closed form that
    drc3jj_000 (utils.c:82-132) evaluates for scalar fields. *)
From Coq Require Import Reals Lra.
From Verif Require Import Base FieldR M_Bins M_LinAlg M_Workspace M_MCM L_Bins L_Bins2 L_Bins3 P_Bins L_LinAlg L_Workspace P_Workspace L_MCM L_MCM2 L_MCM3 P_MCM L_Legendre P_Legendre M_Wigner P_Wigner.
Open Scope Z_scope.

Section Statements.
Context {F : ofield}.
Local Open Scope F_scope.
Add Field FfPW2 : (fth F).
Variables (fsqrt : F -> F) (big : F).
Notation huge := (huge fsqrt big).
Notation tiny := (tiny fsqrt big).
Notation sqrt_laws := (sqrt_laws fsqrt big).

(** ** Bounds *)
Fixpoint p4 (k : nat) : F := match k with O => 1 | S j => (1 + 1 + 1 + 1) * p4 j end.
Lemma p4_add a b : p4 (a + b) = p4 a * p4 b.
Proof. induction a as [|a IH]; cbn [p4 Nat.add]; [ring | rewrite IH; ring]. Qed.
Lemma four_nonneg : 0 <= (1 + 1 + 1 + 1 : F).
Proof. replace (1 + 1 + 1 + 1 : F) with (fofnat 4 : F) by (cbn; ring). apply fofnat_nonneg. Qed.
Lemma two_nonneg : 0 <= (1 + 1 : F).
Proof. replace (1 + 1 : F) with (fofnat 2 : F) by (cbn; ring). apply fofnat_nonneg. Qed.
Lemma p4_nonneg k : 0 <= p4 k.
Proof. induction k as [|k IH]; cbn [p4]; [apply f0_le_1 | apply fmul_nonneg; [apply four_nonneg | exact IH]]. Qed.
Lemma cb_le k : (cb k : F) <= p4 k.
Proof.
  induction k as [|k IH]; [apply fle_refl|]. apply fle_trans with ((1 + 1 + 1 + 1) * cb k : F); [|cbn [p4]; apply fle_mul_l; [apply four_nonneg | exact IH]].
  cbn [cb]. pose proof (fofnat_neq0 (F:=F) k) as N. apply fle_sub_0.
  replace ((1 + 1 + 1 + 1) * cb k - cb k * ((1 + 1) * ((1 + 1) * fofnat k + 1)) / fofnat (S k) : F) with ((1 + 1) * cb k / fofnat (S k) : F) by (rewrite fS in *; field; exact N).
  apply fdiv_nonneg; [apply fmul_nonneg; [apply two_nonneg | apply cb_nonneg] | apply fofnat_pos].
Qed.
Lemma cb_ge k : p4 k <= fofnat (2 * k + 1) * cb k.
Proof.
  induction k as [|k IH]; [cbn; replace ((0 + 1) * 1 : F) with (1 : F) by ring; apply fle_refl|]. 
  apply fle_trans with ((1 + 1 + 1 + 1) * (fofnat (2 * k + 1) * cb k) : F); [cbn [p4]; apply fle_mul_l; [apply four_nonneg | exact IH]|].
  cbn [cb]. pose proof (fofnat_neq0 (F:=F) k) as N. apply fle_sub_0. rewrite !two_m_1.
  replace (((1 + 1) * fofnat (S k) + 1) * (cb k * ((1 + 1) * ((1 + 1) * fofnat k + 1)) / fofnat (S k)) - (1 + 1 + 1 + 1) * (((1 + 1) * fofnat k + 1) * cb k) : F)
    with ((1 + 1) * ((1 + 1) * fofnat k + 1) * cb k / fofnat (S k) : F) by (rewrite fS in *; field; exact N).
  apply fdiv_nonneg; [|apply fofnat_pos]. apply fmul_nonneg; [|apply cb_nonneg]. rewrite <- two_m_1. apply fmul_nonneg; [apply two_nonneg | apply fofnat_nonneg].
Qed.
Lemma fmul_le (x y u v : F) : 0 <= x -> 0 <= u -> x <= y -> u <= v -> x * u <= y * v.
Proof.
  intros Hx Hu H1 H2. apply fle_trans with (x * v); [apply fle_mul_l; assumption|]. replace (x * v) with (v * x) by ring. replace (y * v) with (v * y) by ring.
  apply fle_mul_l; [eapply fle_trans; eassumption | exact H1].
Qed.
(** a squared symbol is at least 1 / (2g+1)^4 unless it is zero *)
Lemma T3_lower p q r : let g := (p + q + r)%nat in
  1 <= (fofnat (2 * g + 1) * fofnat (2 * g + 1) * (fofnat (2 * g + 1) * fofnat (2 * g + 1)) : F) * (cb p * cb q * cb r / (fofnat (2 * g + 1) * cb g)).
Proof.
  intro g. assert (N1 : (fofnat (2 * g + 1) : F) <> 0) by (replace (2 * g + 1)%nat with (S (2 * g)) by lia; apply fofnat_neq0). pose proof (cb_neq0 (F:=F) g) as N2.
  assert (P : 0 < (cb g : F)) by (apply fle_neq_lt; [apply cb_nonneg | congruence]).
  apply fle_trans with (p4 g / cb g).
  - apply fle_trans with (cb g / cb g : F); [replace (cb g / cb g : F) with (1 : F) by (field; exact N2); apply fle_refl | apply fdiv_le; [exact P | apply cb_le]].
  - replace (fofnat (2 * g + 1) * fofnat (2 * g + 1) * (fofnat (2 * g + 1) * fofnat (2 * g + 1)) * (cb p * cb q * cb r / (fofnat (2 * g + 1) * cb g)) : F)
      with ((fofnat (2 * g + 1) * cb p) * (fofnat (2 * g + 1) * cb q) * (fofnat (2 * g + 1) * cb r) / cb g : F) by (field; split; assumption).
    apply fdiv_le; [exact P|]. unfold g at 1. rewrite !p4_add.
    assert (K : forall k, (k <= g)%nat -> p4 k <= fofnat (2 * g + 1) * cb k).
    { intros k Hk. eapply fle_trans; [apply cb_ge|]. replace (fofnat (2 * k + 1) * cb k : F) with (cb k * fofnat (2 * k + 1) : F) by ring. replace (fofnat (2 * g + 1) * cb k : F) with (cb k * fofnat (2 * g + 1) : F) by ring.
      apply fle_mul_l; [apply cb_nonneg | rewrite <- !fofZ_of_nat; apply fofZ_le; lia]. }
    repeat apply fmul_le; try apply fmul_nonneg; try apply p4_nonneg; apply K; unfold g; lia.
Qed.

Lemma fofZ_0 : (fofZ 0 : F) = 0. Proof. reflexivity. Qed.
Section Row.
Variables (l2 l3 : Z).
Hypotheses (H2 : (0 <= l2)%Z) (H3 : (0 <= l3)%Z).
(** (L l2 l3; 0 0 0) *)
Definition row0 (L : Z) : F := if Z.odd (l2 + l3 + L) then 0 else eps ((l2 + l3 + L) / 2) * fsqrt (T3 l2 l3 L).
Lemma row0_odd L : Z.odd (l2 + l3 + L) = true -> row0 L = 0.
Proof. clear. intro H. unfold row0. rewrite H. reflexivity. Qed.
Lemma row0_even L g : (l2 + l3 + L = 2 * g)%Z -> row0 L = eps g * fsqrt (T3 l2 l3 L).
Proof. clear. intro H. unfold row0. rewrite H. replace (Z.odd (2 * g)) with false by (rewrite Z.odd_mul; reflexivity). replace (2 * g / 2)%Z with g by (rewrite Z.mul_comm, Z.div_mul; lia). reflexivity. Qed.
Lemma row0_sq L : sqrt_laws -> (0 <= L)%Z -> row0 L * row0 L = T3 l2 l3 L.
Proof using H2 H3.
  intros SL HL. destruct (parity (l2 + l3 + L)) as [[g G]|O]; [|rewrite row0_odd, T3_odd by exact O; ring].
  rewrite (row0_even L g G). transitivity (eps g * eps g * (fsqrt (T3 l2 l3 L) * fsqrt (T3 l2 l3 L))); [ring|]. rewrite eps_sq. rewrite (sl_sq _ _ SL) by (apply T3_nonneg; assumption). ring.
Qed.
(** the relation between next-to-neighbouring symbols, squared *)
Lemma T3_next L g : (l2 + l3 + L + 1 = 2 * g)%Z -> (Z.abs (l2 - l3) < L < l2 + l3)%Z ->
  fofZ (L * L * Asq l2 l3 0 0 (L + 1)) * T3 l2 l3 (L + 1) = (fofZ ((L + 1) * (L + 1) * Asq l2 l3 0 0 L) * T3 l2 l3 (L - 1) : F).
Proof.
  clear fsqrt big H2 H3. intros G HL. rewrite (T3_even l2 l3 (L + 1) g), (T3_even l2 l3 (L - 1) (g - 1)) by lia.
  set (a := (g - 1 - l2)%Z). set (b := (g - 1 - l3)%Z). set (c := (g - 1 - L)%Z).
  replace (g - l2)%Z with (a + 1)%Z by (unfold a; lia). replace (g - l3)%Z with (b + 1)%Z by (unfold b; lia). replace (g - (L + 1))%Z with c by (unfold c; lia). replace (g - 1 - (L - 1))%Z with (c + 1)%Z by (unfold c; lia).
  replace (Asq l2 l3 0 0 (L + 1)) with (4 * (a + 1) * (b + 1) * (2 * c + 1) * (2 * g + 1) * ((L + 1) * (L + 1)))%Z by (unfold Asq; replace L with (2 * g - 1 - l2 - l3)%Z by lia; unfold a, b, c; replace L with (2 * g - 1 - l2 - l3)%Z by lia; ring).
  replace (Asq l2 l3 0 0 L) with ((2 * a + 1) * (2 * b + 1) * (2 * (c + 1)) * (2 * g) * (L * L))%Z by (unfold Asq; replace L with (2 * g - 1 - l2 - l3)%Z by lia; unfold a, b, c; replace L with (2 * g - 1 - l2 - l3)%Z by lia; ring).
  pose proof (cz_rec (F:=F) a) as Ra. pose proof (cz_rec (F:=F) b) as Rb. pose proof (cz_rec (F:=F) c) as Rc. pose proof (cz_rec (F:=F) (g - 1)) as Rg.
  replace (g - 1 + 1)%Z with g in Rg by lia. replace (2 * (g - 1) + 1)%Z with (2 * g - 1)%Z by lia.
  pose proof (cz_neq0 (F:=F) g ltac:(lia)) as N1. pose proof (cz_neq0 (F:=F) (g - 1) ltac:(lia)) as N2.
  assert (N3 : (fofZ (2 * g + 1) : F) <> 0) by (apply fofZ_neq0; lia). assert (N4 : (fofZ (2 * g - 1) : F) <> 0) by (apply fofZ_neq0; lia).
  assert (N5 : (fofZ g : F) <> 0) by (apply fofZ_neq0; lia).
  clearbody a b c. repeat rewrite fofZ_mul in *. repeat rewrite fofZ_add in *. repeat rewrite fofZ_sub in *. repeat rewrite fofZ_mul in *.
  replace (fofZ 4 : F) with (1 + 1 + 1 + 1 : F) in * by (cbn; ring). replace (fofZ 2 : F) with (1 + 1 : F) in * by (cbn; ring). rewrite fofZ_1 in *.
  set (x := fofZ L) in *. set (A' := fofZ a) in *. set (B' := fofZ b) in *. set (C' := fofZ c) in *. set (G' := fofZ g) in *.
  set (ca := cz a) in *. set (ca1 := cz (a + 1)) in *. set (cb_ := cz b) in *. set (cb1 := cz (b + 1)) in *. set (cc := cz c) in *. set (cc1 := cz (c + 1)) in *. set (cg := cz g) in *. set (cg1 := cz (g - 1)) in *.
  clearbody x A' B' C' G' ca ca1 cb_ cb1 cc cc1 cg cg1.
  transitivity (x * x * (x + 1) * (x + 1) * (1 + 1 + 1 + 1) * ((A' + 1) * ca1) * ((B' + 1) * cb1) * ((1 + 1) * C' + 1) * cc / cg); [field; split; assumption|].
  rewrite Ra, Rb. symmetry.
  transitivity (x * x * (x + 1) * (x + 1) * ((1 + 1) * A' + 1) * ((1 + 1) * B' + 1) * ca * cb_ * (1 + 1) * (1 + 1) * ((C' + 1) * cc1) * G' / (((1 + 1) * G' - 1) * cg1)); [field; split; assumption|].
  rewrite Rc. assert (D2 : (1 + 1 : F) <> 0) by (replace (1 + 1 : F) with (fofnat 2 : F) by (cbn; ring); apply fofnat_neq0).
  replace (((1 + 1) * G' - 1) * cg1) with (G' * cg / (1 + 1)) by (rewrite Rg; field; exact D2).
  field. repeat split; assumption.
Qed.

Lemma lo0 : l1min l2 l3 0 0 = Z.abs (l2 - l3). Proof. clear. unfold l1min, m1. lia. Qed.
Lemma row0_row : sqrt_laws -> is_row fsqrt l2 l3 0 0 row0.
Proof using H2 H3.
  intro SL. assert (D0 : forall L, D l2 l3 0 0 L = 0%Z) by (intro; unfold D; ring). constructor; rewrite ?lo0; unfold l1max.
  - intros L HL. rewrite D0. destruct (parity (l2 + l3 + L)) as [[g G]|O].
    { rewrite (row0_odd (L + 1)) by (replace (l2 + l3 + (L + 1))%Z with (1 + 2 * g)%Z by lia; rewrite Z.odd_add_mul_2; reflexivity).
      rewrite (row0_odd (L - 1)) by (replace (l2 + l3 + (L - 1))%Z with (1 + 2 * (g - 1))%Z by lia; rewrite Z.odd_add_mul_2; reflexivity). rewrite fofZ_0. ring. }
    destruct (parity (l2 + l3 + L + 1)) as [[g G]|O'].
    2:{ exfalso. replace (l2 + l3 + L + 1)%Z with (Z.succ (l2 + l3 + L)) in O' by lia. rewrite Z.odd_succ, <- Z.negb_odd, O in O'. discriminate. }
    assert (X : (Z.abs (l2 - l3) < L < l2 + l3)%Z).
    { assert (L <> Z.abs (l2 - l3) /\ L <> l2 + l3)%Z; [|lia]. split; intros ->; revert G; lia. }
    rewrite (row0_even (L + 1) g), (row0_even (L - 1) (g - 1)) by lia.
    assert (Ee : (eps (g - 1) : F) = - eps g).
    { unfold eps. replace (g - 1)%Z with (Z.pred g) by lia. rewrite Z.odd_pred, <- Z.negb_odd. destruct (Z.odd g); cbn; ring. }
    rewrite Ee, fofZ_0.
    assert (Q : fofZ L * A fsqrt l2 l3 0 0 (L + 1) * fsqrt (T3 l2 l3 (L + 1)) = fofZ (L + 1) * A fsqrt l2 l3 0 0 L * fsqrt (T3 l2 l3 (L - 1))).
    { pose proof (T3_next L g ltac:(lia) X) as R.
      assert (Pr : proper l2 l3 0 0) by (unfold proper; lia).
      assert (A1 : 0 <= (fofZ (Asq l2 l3 0 0 (L + 1)) : F)) by (apply flt_le; apply fofZ_pos; apply (Asq_pos l2 l3 0 0 Pr); rewrite lo0; unfold l1max; lia).
      assert (A2 : 0 <= (fofZ (Asq l2 l3 0 0 L) : F)) by (apply flt_le; apply fofZ_pos; apply (Asq_pos l2 l3 0 0 Pr); rewrite lo0; unfold l1max; lia).
      pose proof (T3_nonneg (F:=F) l2 l3 (L + 1) ltac:(lia) ltac:(lia) ltac:(lia)) as T1. pose proof (T3_nonneg (F:=F) l2 l3 (L - 1) ltac:(lia) ltac:(lia) ltac:(lia)) as T2.
      assert (P : forall z x y, (0 <= z)%Z -> 0 <= x -> 0 <= y -> 0 <= fofZ z * fsqrt x * fsqrt y).
      { intros z x y Hz Hx Hy. repeat apply fmul_nonneg; [replace (0 : F) with (fofZ 0 : F) by reflexivity; apply fofZ_le; exact Hz | apply (sl_pos _ _ SL); exact Hx | apply (sl_pos _ _ SL); exact Hy]. }
      assert (S2 : forall z x y, 0 <= x -> 0 <= y -> fofZ z * fsqrt x * fsqrt y * (fofZ z * fsqrt x * fsqrt y) = fofZ z * fofZ z * x * y).
      { intros z x y Hx Hy. transitivity (fofZ z * fofZ z * (fsqrt x * fsqrt x) * (fsqrt y * fsqrt y)); [ring|]. rewrite !(sl_sq _ _ SL) by assumption. reflexivity. }
      rewrite !fofZ_mul in R. unfold A.
      apply fle_antisym; apply le_of_sq; try (apply P; first [lia | assumption]); rewrite !S2 by assumption; rewrite R; apply fle_refl. }
    transitivity (eps g * (fofZ L * A fsqrt l2 l3 0 0 (L + 1) * fsqrt (T3 l2 l3 (L + 1)) - fofZ (L + 1) * A fsqrt l2 l3 0 0 L * fsqrt (T3 l2 l3 (L - 1)))); [ring | rewrite Q; ring].
  - intro E. rewrite row0_odd; [cbn; ring|]. replace (l2 + l3 + 1)%Z with (1 + 2 * l3)%Z by lia. rewrite Z.odd_add_mul_2. reflexivity.
  - unfold nfin. rewrite lo0. unfold l1max. set (lo := Z.abs (l2 - l3)).
    rewrite <- (T3_norm (F:=F) (Z.to_nat lo + Z.to_nat (l2 + l3 - lo + 1)) (Z.to_nat l2) (Z.to_nat l3)) by (unfold lo; lia). rewrite sum_plus.
    match goal with |- _ = ?a + ?b => replace a with (0 : F) end.
    + match goal with |- _ = 0 + ?b => replace (0 + b) with b by ring end. apply sum_ext. intros k Hk.
      replace (Z.of_nat (Z.to_nat lo + k)) with (lo + Z.of_nat k)%Z by (unfold lo; lia). rewrite !Z2Nat.id by lia.
      replace (fofnat (2 * (Z.to_nat lo + k) + 1) : F) with (fofZ (2 * (lo + Z.of_nat k) + 1) : F) by (rewrite <- fofZ_of_nat; f_equal; unfold lo; lia).
      rewrite <- (row0_sq (lo + Z.of_nat k) SL) by (unfold lo; lia). ring.
    + symmetry. apply sum_zero. intros k Hk. rewrite !Z2Nat.id by lia. replace (T3 l2 l3 (Z.of_nat k)) with (0 : F); [ring|]. symmetry. unfold lo in Hk.
      destruct (Z.le_ge_cases l2 l3) as [M|M]; [rewrite T3_rot; apply T3_out; lia | rewrite T3_swap, T3_rot; apply T3_out; lia].
  - rewrite (row0_even (l2 + l3) (l2 + l3)) by lia. replace (l2 - l3 + 0 + 0)%Z with (l2 + l3 + 2 * (- l3))%Z by lia. rewrite Z.odd_add_mul_2.
    assert (P : 0 < fsqrt (T3 l2 l3 (l2 + l3))).
    { apply (sq_pos _ _ SL). apply fle_neq_lt; [apply T3_nonneg; lia|]. intro E. symmetry in E. rewrite (T3_even l2 l3 (l2 + l3) (l2 + l3)) in E by lia.
      assert (N : (fofZ (2 * (l2 + l3) + 1) * cz (l2 + l3) : F) <> 0) by (intro X; apply fmul_eq_0 in X; destruct X as [X|X]; [revert X; apply fofZ_neq0; lia | revert X; apply cz_neq0; lia]).
      assert (E' : (cz (l2 + l3 - l2) * cz (l2 + l3 - l3) * cz (l2 + l3 - (l2 + l3)) : F) = 0).
      { set (d := (fofZ (2 * (l2 + l3) + 1) * cz (l2 + l3) : F)) in *. set (u := (cz (l2 + l3 - l2) * cz (l2 + l3 - l3) * cz (l2 + l3 - (l2 + l3)) : F)) in *. clearbody d u. transitivity (u / d * d); [field; exact N | rewrite E; ring]. }
      apply fmul_eq_0 in E'. destruct E' as [E'|E']; [apply fmul_eq_0 in E'; destruct E' as [E'|E']|]; revert E'; apply cz_neq0; lia. }
    unfold eps. destruct (Z.odd (l2 + l3)); [replace (- (- (1) * fsqrt (T3 l2 l3 (l2 + l3)))) with (fsqrt (T3 l2 l3 (l2 + l3))) by ring | replace (1 * fsqrt (T3 l2 l3 (l2 + l3))) with (fsqrt (T3 l2 l3 (l2 + l3))) by ring]; exact P.
Qed.
Lemma row0_moderate : sqrt_laws -> fofZ ((2 * (l2 + l3) + 1) * (2 * (l2 + l3) + 1)) < huge -> moderate fsqrt big l2 l3 0 0 row0.
Proof using H2 H3.
  intros SL Hb L HL. rewrite lo0 in HL. unfold l1max in HL. destruct (parity (l2 + l3 + L)) as [[g G]|O]; [right | left; apply row0_odd; exact O].
  set (K := (fofZ ((2 * (l2 + l3) + 1) * (2 * (l2 + l3) + 1)) : F)) in *.
  assert (P1 : 0 < tiny) by (apply tiny_pos; exact SL). assert (P2 : 0 < huge) by (apply huge_pos; exact SL). assert (P3 : 0 < K) by (apply fofZ_pos; nia).
  assert (T : 1 <= K * K * T3 l2 l3 L).
  { rewrite (T3_even l2 l3 L g) by lia. destruct (Z_of_nat_complete (g - l2) ltac:(lia)) as [p Ep]. destruct (Z_of_nat_complete (g - l3) ltac:(lia)) as [q Eq]. destruct (Z_of_nat_complete (g - L) ltac:(lia)) as [r Er].
    rewrite Ep, Eq, Er. replace g with (Z.of_nat (p + q + r)) by lia. rewrite !cz_nat. pose proof (T3_lower p q r) as X. cbv zeta in X.
    replace (2 * Z.of_nat (p + q + r) + 1)%Z with (Z.of_nat (2 * (p + q + r) + 1)) by lia. rewrite fofZ_of_nat. set (t := cb p * cb q * cb r / (fofnat (2 * (p + q + r) + 1) * cb (p + q + r))) in *.
    assert (Pt : 0 <= t). { unfold t. apply fdiv_nonneg; [repeat apply fmul_nonneg; apply cb_nonneg|]. apply fmul_pos; [replace (2 * (p + q + r) + 1)%nat with (S (2 * (p + q + r))) by lia; apply fofnat_pos | apply fle_neq_lt; [apply cb_nonneg | intro E0; apply (cb_neq0 (F:=F) (p + q + r)); congruence]]. }
    eapply fle_trans; [exact X|]. set (f := fofnat (2 * (p + q + r) + 1)) in *.
    replace (f * f * (f * f) * t) with (t * (f * f * (f * f))) by ring. replace (K * K * t) with (t * (K * K)) by ring. apply fle_mul_l; [exact Pt|].
    assert (Fk : f * f <= K). { unfold f, K. rewrite <- fofZ_of_nat, <- fofZ_mul. apply fofZ_le. assert (Z.of_nat (2 * (p + q + r) + 1) <= 2 * (l2 + l3) + 1)%Z by lia. nia. }
    apply fmul_le; try apply fsqr_nonneg; exact Fk. }
  assert (TK : tiny * K < 1).
  { apply flt_sub_0. replace (1 - tiny * K) with ((huge - K) / huge) by (unfold M_Wigner.tiny; field; apply fpos_neq; exact P2). apply fdiv_pos; [apply (proj1 (flt_sub_0 _ _)); exact Hb | exact P2]. }
  apply lt_of_sq; [apply flt_le; exact P1 | apply fabs_nonneg|]. rewrite abs_sq, (row0_sq L SL) by lia. set (t := T3 l2 l3 L) in *.
  assert (P4 : 0 < tiny * K) by (apply fmul_pos; assumption).
  assert (U : tiny * K * (tiny * K) < 1).
  { apply fle_lt_trans with (tiny * K * 1); [apply fle_mul_l; apply flt_le; assumption | replace (tiny * K * 1) with (tiny * K) by ring; exact TK]. }
  assert (P5 : 0 < t).
  { apply fle_neq_lt; [apply T3_nonneg; lia|]. intro E. rewrite <- E in T. replace (K * K * 0) with (0 : F) in T by ring. pose proof (f0_lt_1 (F:=F)) as N. apply flt_not_le in N. exact (N T). }
  apply fle_lt_trans with (tiny * tiny * (K * K * t)).
  - replace (tiny * tiny) with (tiny * tiny * 1) at 1 by ring. apply fle_mul_l; [apply fsqr_nonneg | exact T].
  - apply flt_sub_0. replace (t - tiny * tiny * (K * K * t)) with (t * (1 - tiny * K * (tiny * K))) by ring. apply fmul_pos; [exact P5 | apply (proj1 (flt_sub_0 _ _)); exact U].
Qed.

Lemma J0_row0 fexp flog L : sqrt_laws -> libm_laws fsqrt fexp flog -> (Z.abs (l2 - l3) <= L <= l2 + l3)%Z -> J0 fsqrt fexp flog l2 l3 L = row0 L.
Proof using H2 H3.
  intros SL LL HL. pose proof (J0_sq fsqrt fexp flog 0 (fun _ _ _ _ _ => 0) l2 l3 L LL ltac:(lia) ltac:(lia) ltac:(lia)) as Q. unfold P_MCM.J0 in *.
  replace (tri l2 l3 L) with true in * by (symmetry; unfold tri; apply andb_true_iff; rewrite !Z.leb_le; lia).
  assert (X : forall z p, 0 < p -> eps z * p * (eps z * p) = T3 l2 l3 L -> eps z * p = eps z * fsqrt (T3 l2 l3 L)).
  { intros z p Pp E. rewrite (sqrt_unique fsqrt big SL p (T3 l2 l3 L) Pp); [reflexivity|]. rewrite <- E. transitivity (eps z * eps z * (p * p)); [ring | rewrite eps_sq; ring]. }
  destruct (Z.eqb_spec (Z.min l2 l3) 0) as [M|M].
  - rewrite (row0_even L L) by lia. assert (P : 0 < fsqrt (fofZ (L + l2 + l3 + 1))) by (apply (sq_pos _ _ SL); apply fofZ_pos; lia).
    replace (eps L / fsqrt (fofZ (L + l2 + l3 + 1))) with (eps L * (1 / fsqrt (fofZ (L + l2 + l3 + 1)))) in * by (field; apply fpos_neq; exact P).
    apply X; [apply fdiv_pos; [apply f0_lt_1 | exact P] | exact Q].
  - unfold row0. replace (l2 + l3 + L)%Z with (L + l2 + l3)%Z by lia. destruct (Z.odd (L + l2 + l3)); [reflexivity|]. cbv zeta in *. apply X; [apply (ll_exp0 _ _ _ LL) | exact Q].
Qed.
End Row.

(** ** Property C92, scalar row: unconditional *)
Theorem C92_scalar_row l2 l3 : sqrt_laws -> (0 <= l2)%Z -> (0 <= l3)%Z -> is_row fsqrt l2 l3 0 0 (row0 l2 l3).
Proof. intros SL H2 H3. exact (row0_row l2 l3 H2 H3 SL). Qed.
(** drc3jj with m2 = m3 = 0 stores (-1)^g sqrt T(l2, l3, L), where T is the ratio of central binomial coefficients
    binom(2g-2L, g-L) binom(2g-2l2, g-l2) binom(2g-2l3, g-l3) / ((2g+1) binom(2g, g)), 2g = l2+l3+L *)
Theorem C92_scalar l2 l3 size t0 : sqrt_laws -> (0 <= l2)%Z -> (0 <= l3)%Z -> (2 * Z.min l2 l3 + 1 <= size)%Z ->
  fofZ ((2 * (l2 + l3) + 1) * (2 * (l2 + l3) + 1)) < huge ->
  exists t, drc3jj_values fsqrt big l2 l3 0 0 size t0 = Ok (Z.abs (l2 - l3), t) /\
    forall L, (Z.abs (l2 - l3) <= L <= l2 + l3)%Z -> t (L - Z.abs (l2 - l3))%Z = Some (row0 l2 l3 L).
Proof.
  intros SL H2 H3 Sz Hb.
  destruct (C92_symbols fsqrt big l2 l3 0 0 size (row0 l2 l3) t0 SL ltac:(unfold proper; lia) (row0_row l2 l3 H2 H3 SL) (row0_moderate l2 l3 H2 H3 SL Hb)) as [t [E T]].
  { unfold nfin, l1max. rewrite lo0. lia. }
  rewrite lo0 in *. exists t. split; [exact E | exact T].
Qed.
(** the two routines agree: the calculation of scalar coefficients may use either *)
Theorem C92_routines_agree fexp flog junk (c : conf F) (b : buf F) l2 l3 t0 : sqrt_laws -> libm_laws fsqrt fexp flog -> (0 <= l2 <= c_lmax c)%Z -> (0 <= l3 <= c_lmax c)%Z ->
  (Z.min l2 l3 <= c_lmm c)%Z -> Z.of_nat (length b) = bsize c -> fofZ ((2 * (l2 + l3) + 1) * (2 * (l2 + l3) + 1)) < huge ->
  exists b' t, drc3jj_000 fsqrt fexp flog junk c l2 l3 b = Ok (Z.abs (l2 - l3), b') /\ drc3jj_values fsqrt big l2 l3 0 0 (bsize c) t0 = Ok (Z.abs (l2 - l3), t) /\
    forall L, (Z.abs (l2 - l3) <= L <= l2 + l3)%Z -> (L <= c_lmm c)%Z ->
      exists v, buf_rd b' (L - Z.abs (l2 - l3))%Z = Ok v /\ t (L - Z.abs (l2 - l3))%Z = Some v.
Proof.
  intros SL LL H2 H3 Hm Hb Hh.
  destruct (C92_scalar l2 l3 (bsize c) t0 SL ltac:(lia) ltac:(lia) ltac:(unfold bsize; lia) Hh) as [t [E T]].
  destruct (drc000_ok fsqrt fexp flog junk c l2 l3 b ltac:(lia) ltac:(lia) Hm Hb) as [b' [E' [_ T']]].
  exists b', t. split; [exact E'|]. split; [exact E|]. intros L HL Lm. exists (row0 l2 l3 L). split; [|apply T; exact HL].
  rewrite T' by exact HL. f_equal. rewrite (w000_J0 fsqrt fexp flog 0 (fun _ _ _ _ _ => 0) junk c l2 l3 L); [apply J0_row0; first [lia | assumption] | lia | lia | unfold tri; apply andb_true_iff; rewrite !Z.leb_le; lia | exact Lm].
Qed.
End Statements.

(** ** A concrete case: l2 = 700, l3 = 1000 with the constants of the code *)
Section Example.
Notation R' := R_field.
Example C92_scalar_case : sqrt_laws (F:=R') sqrt bigR /\ libm_laws (F:=R') sqrt exp ln /\ flt (F:=R_field) (fofZ ((2 * (700 + 1000) + 1) * (2 * (700 + 1000) + 1))) (huge (F:=R') sqrt bigR) /\
  exists t, drc3jj_values (F:=R') sqrt bigR 700 1000 0 0 1401 (fun _ => None) = Ok (300, t) /\
    t 0 = Some (row0 (F:=R') sqrt 700 1000 300) /\ t 1 = Some (0%R : R') /\ row0 (F:=R') sqrt 700 1000 300 <> 0%R.
Proof.
  assert (Hh : flt (F:=R_field) (fofZ ((2 * (700 + 1000) + 1) * (2 * (700 + 1000) + 1))) (huge (F:=R') sqrt bigR)).
  { apply R_lt. rewrite P_Apod4.fofZ_IZR. unfold huge. change ((2 * (700 + 1000) + 1) * (2 * (700 + 1000) + 1))%Z with 11566801%Z.
    replace 11566801%R with (sqrt (11566801 * 11566801)) by (apply sqrt_square; lra). apply sqrt_lt_1; [lra | |]; unfold bigR; [apply (IZR_le 0); discriminate|].
    rewrite <- mult_IZR. apply IZR_lt. reflexivity. }
  split; [exact sqrt_lawsR|]. split; [exact libm_lawsR|]. split; [exact Hh|].
  destruct (C92_scalar (F:=R') sqrt bigR 700 1000 1401 (fun _ => None) sqrt_lawsR ltac:(lia) ltac:(lia) ltac:(lia) Hh) as [t [E T]].
  exists t. split; [exact E|]. split; [exact (T 300 ltac:(lia))|]. split; [exact (T 301 ltac:(lia))|].
  intro Z0. pose proof (row0_sq (F:=R') sqrt bigR 700 1000 ltac:(lia) ltac:(lia) 300 sqrt_lawsR ltac:(lia)) as Q. rewrite Z0 in Q.
  rewrite (T3_even 700 1000 300 1000) in Q by lia. change (1000 - 1000)%Z with 0%Z in Q. change (cz 0) with (f1 : R') in Q.
  assert (Nz : forall z, (0 <= z)%Z -> (cz z : R') <> 0%R) by (intros z Hz; exact (cz_neq0 (F:=R') z Hz)).
  assert (N1 : (fofZ (2 * 1000 + 1) : R') <> 0%R) by (apply (fofZ_neq0 (F:=R')); lia).
  pose proof (Nz (1000 - 700)%Z ltac:(lia)) as N2. pose proof (Nz (1000 - 300)%Z ltac:(lia)) as N3. pose proof (Nz 1000%Z ltac:(lia)) as N4.
  set (x := cz (1000 - 700)) in *. set (y := cz (1000 - 300)) in *. set (z := cz 1000) in *. set (w := fofZ (2 * 1000 + 1)) in *. clearbody x y z w.
  change (0 * 0 = x * 1 * y / (w * z))%R in Q.
  assert (K : (x * y = 0)%R) by (transitivity (x * 1 * y / (w * z) * (w * z))%R; [field; split; assumption | rewrite <- Q; ring]).
  apply Rmult_integral in K. destruct K as [K|K]; [exact (N2 K) | exact (N3 K)].
Qed.
End Example.

Print Assumptions C92_scalar_row.
Print Assumptions C92_scalar.
Print Assumptions C92_routines_agree.
