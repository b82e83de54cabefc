(** Property C92, continued: the row of Wigner-3j symbols of P_Wigner.v exists for all admissible quantum numbers, and
    has the symmetries of the symbols. *)
From Coq Require Import Reals Lra.
From Verif Require Import Base FieldR P_Apod4 M_MCM L_MCM M_LinAlg L_LinAlg M_Wigner P_MCM P_MCM2 P_Aniso P_Legendre P_Wigner P_Wigner2 L_Racah.
Open Scope Z_scope.

Section Exists.
Context {F : ofield}.
Local Open Scope F_scope.
Add Field FfPW3 : (fth F).
Variables (fsqrt : F -> F) (big : F).
Notation sqrt_laws := (sqrt_laws fsqrt big).
Notation two := (1 + 1 : F).

Lemma fofZ_nonneg z : (0 <= z)%Z -> 0 <= (fofZ z : F). Proof. exact (fofZ_le 0 z). Qed.
(** exchanging (l2,m2) and (l3,-m3) *)
Lemma row_swap l2 l3 m2 m3 (g : Z -> F) : is_row fsqrt l3 l2 (- m3) (- m2) g -> is_row fsqrt l2 l3 m2 m3 g.
Proof.
  intros [H1 H2 H3 H4].
  assert (Elo : l1min l3 l2 (- m3) (- m2) = l1min l2 l3 m2 m3) by (unfold l1min, m1; lia). assert (Ehi : l1max l3 l2 = l1max l2 l3) by (unfold l1max; lia).
  assert (EA : forall L, A fsqrt l3 l2 (- m3) (- m2) L = A fsqrt l2 l3 m2 m3 L) by (intro L; unfold A; do 2 f_equal; unfold Asq; ring).
  assert (ED : forall L, D l3 l2 (- m3) (- m2) L = D l2 l3 m2 m3 L) by (intro L; unfold D; ring).
  assert (En : nfin l3 l2 (- m3) (- m2) = nfin l2 l3 m2 m3) by (unfold nfin; lia). rewrite En, Elo in H3. rewrite Elo in H1, H2. rewrite Ehi in H1, H4. constructor.
  - intros L HL. specialize (H1 L HL). rewrite !EA, ED in H1. exact H1.
  - intro E. specialize (H2 E). rewrite EA in H2. replace (- m2 - - m3)%Z with (m3 - m2)%Z in H2 by lia. exact H2.
  - exact H3.
  - replace (l3 - l2 + - m3 + - m2)%Z with (- (l2 - l3 + m2 + m3))%Z in H4 by lia. rewrite Z.odd_opp in H4. exact H4.
Qed.

Section Row.
Variables (l2 l3 m2 m3 : Z).
Notation lo := (l1min l2 l3 m2 m3).
Notation hi := (l1max l2 l3).
Notation n := (nfin l2 l3 m2 m3).
Notation A := (A fsqrt l2 l3 m2 m3).
Notation D := (D l2 l3 m2 m3).
Hypotheses (SL : sqrt_laws) (Pr : proper l2 l3 m2 m3).
Fixpoint prodA (k : nat) : F := match k with O => 1 | S j => A (lo + Z.of_nat (S j)) * prodA j end.
Section FromSolution.
Variable h : Z -> F.
(** the relations without square roots *)
Hypothesis HR : forall L, (lo <= L <= hi)%Z -> fofZ L * h (L + 1)%Z + fofZ (2 * L + 1) * fofZ (D L) * h L + fofZ (L + 1) * fofZ (Asq l2 l3 m2 m3 L) * h (L - 1)%Z = 0.
Hypothesis HR0 : lo = 0%Z -> h 1%Z + fofZ (m3 - m2) * h 0%Z = 0.
Hypothesis Hstop : h (hi + 1)%Z = 0.
Hypothesis Hlo : h lo <> 0.
Lemma prodA_neq0 k : (lo + Z.of_nat k <= hi)%Z -> prodA k <> 0.
Proof using SL Pr h.
  clear Hlo Hstop HR0 HR.
  induction k as [|k IH]; intro H; [apply f1_neq_0|]. cbn [prodA]. apply mul_nz; [|apply IH; lia]. apply (A_neq0 fsqrt big l2 l3 m2 m3 SL Pr). lia.
Qed.
Definition g0 (L : Z) : F := h L / prodA (Z.to_nat (L - lo)).
Lemma A_sq L : (lo <= L <= hi)%Z -> A L * A L = fofZ (Asq l2 l3 m2 m3 L).
Proof using SL Pr h.
  clear Hlo Hstop HR0 HR.
  intro H. unfold P_Wigner.A. apply (sl_sq _ _ SL). apply fofZ_nonneg. destruct (Z.eq_dec L lo) as [-> |N].
  - replace (Asq l2 l3 m2 m3 lo) with 0%Z; [lia|]. symmetry. unfold Asq, l1min, m1. destruct (Z.max_spec (Z.abs (l2 - l3)) (Z.abs (- m2 - m3))) as [[_ ->]|[_ ->]]; rewrite !Z.abs_square; ring.
  - apply Z.lt_le_incl. apply (Asq_pos l2 l3 m2 m3 Pr). lia.
Qed.
Lemma g0_up L : (lo <= L <= hi)%Z -> A (L + 1) * g0 (L + 1)%Z = h (L + 1)%Z / prodA (Z.to_nat (L - lo)).
Proof using SL Pr Hstop.
  clear Hlo HR0 HR.
  intro H. destruct (Z.eq_dec L hi) as [-> |N].
  - rewrite (A_hi fsqrt big l2 l3 m2 m3 SL), Hstop. pose proof (prodA_neq0 (Z.to_nat (hi - lo)) ltac:(lia)). field. assumption.
  - unfold g0. replace (Z.to_nat (L + 1 - lo)) with (S (Z.to_nat (L - lo))) by lia. cbn [prodA]. replace (lo + Z.of_nat (S (Z.to_nat (L - lo))))%Z with (L + 1)%Z by lia.
    pose proof (prodA_neq0 (Z.to_nat (L - lo)) ltac:(lia)). pose proof (A_neq0 fsqrt big l2 l3 m2 m3 SL Pr (L + 1) ltac:(lia)). field. split; assumption.
Qed.
Lemma g0_down L : (lo <= L <= hi)%Z -> A L * g0 (L - 1)%Z = fofZ (Asq l2 l3 m2 m3 L) * h (L - 1)%Z / prodA (Z.to_nat (L - lo)).
Proof using SL Pr h.
  clear Hlo Hstop HR0 HR.
  intro H. pose proof (prodA_neq0 (Z.to_nat (L - lo)) ltac:(lia)) as N1. destruct (Z.eq_dec L lo) as [E|N].
  - rewrite <- A_sq by lia. rewrite E, (A_lo fsqrt big l2 l3 m2 m3 SL). rewrite E in N1. field. exact N1.
  - rewrite <- A_sq by lia. unfold g0. replace (Z.to_nat (L - lo)) with (S (Z.to_nat (L - 1 - lo))) in * by lia. cbn [prodA] in *. replace (lo + Z.of_nat (S (Z.to_nat (L - 1 - lo))))%Z with L in * by lia.
    pose proof (prodA_neq0 (Z.to_nat (L - 1 - lo)) ltac:(lia)). pose proof (A_neq0 fsqrt big l2 l3 m2 m3 SL Pr L ltac:(lia)). field. split; assumption.
Qed.
Lemma g0_rec L : (lo <= L <= hi)%Z -> fofZ L * A (L + 1) * g0 (L + 1)%Z + fofZ (2 * L + 1) * fofZ (D L) * g0 L + fofZ (L + 1) * A L * g0 (L - 1)%Z = 0.
Proof using SL Pr Hstop HR.
  clear Hlo HR0.
  intro H. transitivity (fofZ L * (A (L + 1) * g0 (L + 1)%Z) + fofZ (2 * L + 1) * fofZ (D L) * g0 L + fofZ (L + 1) * (A L * g0 (L - 1)%Z)); [ring|].
  rewrite g0_up, g0_down by exact H. unfold g0. pose proof (prodA_neq0 (Z.to_nat (L - lo)) ltac:(lia)) as N1.
  transitivity ((fofZ L * h (L + 1)%Z + fofZ (2 * L + 1) * fofZ (D L) * h L + fofZ (L + 1) * fofZ (Asq l2 l3 m2 m3 L) * h (L - 1)%Z) / prodA (Z.to_nat (L - lo))); [field; exact N1|].
  rewrite (HR L H). field. exact N1.
Qed.
Lemma g0_rec0 : lo = 0%Z -> A 1 * g0 1%Z + fofZ (m3 - m2) * g0 0%Z = 0.
Proof using SL Pr Hstop HR0.
  clear Hlo HR.
  intro E. pose proof (lo_hi l2 l3 m2 m3 Pr) as H. pose proof (g0_up 0 ltac:(lia)) as U. change (0 + 1)%Z with 1%Z in U. rewrite U. unfold g0. rewrite E. change (Z.to_nat (0 - 0)) with 0%nat. cbn [prodA].
  transitivity (h 1%Z + fofZ (m3 - m2) * h 0%Z); [field; apply f1_neq_0 | exact (HR0 E)].
Qed.
Lemma h_hi : h hi <> 0.
Proof using SL Pr Hstop HR Hlo.
  clear HR0.
  intro E. apply Hlo. pose proof (lo_hi l2 l3 m2 m3 Pr) as H. pose proof (lo_0 l2 l3 m2 m3) as H0.
  assert (B : forall k, (Z.of_nat k <= hi - lo)%Z -> h (hi - Z.of_nat k)%Z = 0 /\ h (hi - Z.of_nat k + 1)%Z = 0).
  { induction k as [|k IH]; intro Hk; [rewrite Z.sub_0_r; split; assumption|]. destruct (IH ltac:(lia)) as [I1 I2]. set (L := (hi - Z.of_nat k)%Z) in *.
    replace (hi - Z.of_nat (S k))%Z with (L - 1)%Z by lia. replace (L - 1 + 1)%Z with L by lia. split; [|exact I1].
    pose proof (HR L ltac:(unfold L; lia)) as R. rewrite I1, I2 in R.
    assert (N1 : (fofZ (L + 1) : F) <> 0) by (apply fofZ_neq0; unfold L; lia). assert (N2 : (fofZ (Asq l2 l3 m2 m3 L) : F) <> 0) by (apply fofZ_neq0; pose proof (Asq_pos l2 l3 m2 m3 Pr L ltac:(unfold L; lia)); lia).
    assert (Q : fofZ (L + 1) * fofZ (Asq l2 l3 m2 m3 L) * h (L - 1)%Z = 0) by (rewrite <- R; ring). apply fmul_eq_0 in Q. destruct Q as [Q|Q]; [|exact Q]. exfalso. apply fmul_eq_0 in Q. tauto. }
  destruct (B (Z.to_nat (hi - lo)) ltac:(lia)) as [B1 _]. replace (hi - Z.of_nat (Z.to_nat (hi - lo)))%Z with lo in B1 by lia. exact B1.
Qed.
Definition nrm : F := sum (Z.to_nat n) (fun i => fofZ (2 * (lo + Z.of_nat i) + 1) * g0 (lo + Z.of_nat i)%Z * g0 (lo + Z.of_nat i)%Z).
Lemma term_nonneg i : 0 <= fofZ (2 * (lo + Z.of_nat i) + 1) * g0 (lo + Z.of_nat i)%Z * g0 (lo + Z.of_nat i)%Z.
Proof using.
  clear Hlo Hstop HR0 HR.
  pose proof (lo_0 l2 l3 m2 m3). replace (fofZ (2 * (lo + Z.of_nat i) + 1) * g0 (lo + Z.of_nat i)%Z * g0 (lo + Z.of_nat i)%Z) with (fofZ (2 * (lo + Z.of_nat i) + 1) * (g0 (lo + Z.of_nat i)%Z * g0 (lo + Z.of_nat i)%Z)) by ring.
  apply fmul_nonneg; [apply fofZ_nonneg; lia | apply fsqr_nonneg].
Qed.
Lemma nrm_pos : 0 < nrm.
Proof using SL Pr Hlo.
  clear Hstop HR0 HR.
  unfold nrm. pose proof (n_pos l2 l3 m2 m3 Pr) as Hn. replace (Z.to_nat n) with (S (Z.to_nat n - 1)) by lia.
  rewrite sum_S_l. replace (0 : F) with (0 + 0 : F) by ring. apply flt_le_add.
  - pose proof (lo_0 l2 l3 m2 m3). change (Z.of_nat 0) with 0%Z. rewrite Z.add_0_r. replace (g0 lo) with (h lo). 2:{ unfold g0. rewrite Z.sub_diag. cbn. field. apply f1_neq_0. }
    replace (fofZ (2 * lo + 1) * h lo * h lo) with (fofZ (2 * lo + 1) * (h lo * h lo)) by ring. apply fmul_pos; [apply fofZ_pos; lia|].
    apply fle_neq_lt; [apply fsqr_nonneg|]. intro E. symmetry in E. apply fmul_eq_0 in E. tauto.
  - apply sum_nonneg. intros i _. apply (term_nonneg (S i)).
Qed.
Definition rowof (L : Z) : F := (if Bool.eqb (Z.odd (l2 - l3 + m2 + m3)) (0 <=? g0 hi) then - (1) else 1) * g0 L / fsqrt nrm.
Lemma from_solution : is_row fsqrt l2 l3 m2 m3 rowof.
Proof using SL Pr Hstop HR HR0 Hlo.
  pose proof (lo_hi l2 l3 m2 m3 Pr) as H. pose proof nrm_pos as HN. pose proof (sq_pos fsqrt big SL _ HN) as HS. pose proof (sl_sq _ _ SL _ (flt_le _ _ HN)) as SQ. set (r := fsqrt nrm) in *.
  assert (Nr : r <> 0) by (apply fpos_neq; exact HS).
  assert (Ng : g0 hi <> 0). { intro E. apply h_hi. pose proof (prodA_neq0 (Z.to_nat (hi - lo)) ltac:(lia)) as N1. unfold g0 in E. transitivity (h hi / prodA (Z.to_nat (hi - lo)) * prodA (Z.to_nat (hi - lo))); [field; exact N1 | rewrite E; ring]. }
  unfold rowof. fold r. set (s := if Bool.eqb (Z.odd (l2 - l3 + m2 + m3)) (0 <=? g0 hi) then - (1) else 1).
  assert (Sg : s * s = 1 /\ 0 < (if Z.odd (l2 - l3 + m2 + m3) then - (s * g0 hi) else s * g0 hi)).
  { unfold s. destruct (trichotomy (g0 hi) Ng) as [P|P].
    - replace (0 <=? g0 hi)%F with true by (symmetry; apply flt_le; exact P). destruct (Z.odd (l2 - l3 + m2 + m3)); cbn [Bool.eqb]; (split; [ring|]).
      + replace (- (- (1) * g0 hi)) with (g0 hi) by ring. exact P.
      + replace (1 * g0 hi) with (g0 hi) by ring. exact P.
    - replace (0 <=? g0 hi)%F with false by (symmetry; apply not_true_iff_false; apply flt_not_le in P; exact P). destruct (Z.odd (l2 - l3 + m2 + m3)); cbn [Bool.eqb]; (split; [ring|]).
      + replace (- (1 * g0 hi)) with (- g0 hi) by ring. apply opp_pos. exact P.
      + replace (- (1) * g0 hi) with (- g0 hi) by ring. apply opp_pos. exact P. }
  destruct Sg as (S2 & Sp). constructor.
  - intros L HL. transitivity (s / r * (fofZ L * A (L + 1) * g0 (L + 1)%Z + fofZ (2 * L + 1) * fofZ (D L) * g0 L + fofZ (L + 1) * A L * g0 (L - 1)%Z)); [field; exact Nr|]. rewrite (g0_rec L HL). field. exact Nr.
  - intro E. transitivity (s / r * (A 1 * g0 1%Z + fofZ (m3 - m2) * g0 0%Z)); [field; exact Nr|]. rewrite (g0_rec0 E). field. exact Nr.
  - rewrite (sum_ext _ _ (fun i => (1 / nrm) * (fofZ (2 * (lo + Z.of_nat i) + 1) * g0 (lo + Z.of_nat i)%Z * g0 (lo + Z.of_nat i)%Z))).
    + rewrite sum_mul_l. change (1 / nrm * nrm = 1). field. apply fpos_neq. exact HN.
    + intros i _. set (a := fofZ (2 * (lo + Z.of_nat i) + 1)). set (b := g0 (lo + Z.of_nat i)%Z). rewrite <- SQ. transitivity ((s * s) * (a * b * b) / (r * r)); [field; exact Nr|]. rewrite S2. field. exact Nr.
  - destruct (Z.odd (l2 - l3 + m2 + m3)).
    + replace (- (s * g0 hi / r)) with (- (s * g0 hi) / r) by (field; exact Nr). apply fdiv_pos; assumption.
    + apply fdiv_pos; assumption.
Qed.
End FromSolution.
End Row.

Definition half (l2 l3 m2 m3 : Z) : Z -> F := rowof l2 l3 m2 m3 (hsol l2 l3 (- m2 - m3) (Z.to_nat (m2 + l2))).
Lemma exists_half l2 l3 m2 m3 : sqrt_laws -> proper l2 l3 m2 m3 -> (l2 - l3 <= - m2 - m3)%Z -> is_row fsqrt l2 l3 m2 m3 (half l2 l3 m2 m3).
Proof.
  intros SL Pr Hm. destruct Pr as [P2 P3]. set (m1' := (- m2 - m3)%Z). assert (El : l1min l2 l3 m2 m3 = Z.max (l3 - l2) m1') by (unfold l1min, m1, m1'; lia).
  destruct (solution (F:=F) l2 l3 m1' Hm ltac:(unfold m1'; lia) m2 m3 ltac:(unfold m1'; lia) P2 P3) as (E & S & N). unfold half. fold m1'. set (h := hsol l2 l3 m1' (Z.to_nat (m2 + l2))) in *. rewrite <- El in N.
  apply (from_solution l2 l3 m2 m3 SL (conj P2 P3) h).
  - intros L [H1 H2]. pose proof (lo_0 l2 l3 m2 m3) as H0. pose proof (E L ltac:(lia)) as R. unfold K in R. unfold D, Asq. fold m1'. unfold l1max in H2.
    destruct (Z.eqb_spec L 0) as [E0|N0].
    + assert (l2 = l3) as <- by (unfold l1min in *; lia). assert (M0 : m1' = 0%Z) by (unfold m1', l1min, m1 in *; lia). rewrite M0, E0.
      match goal with |- ?a * ?b + _ * ?c * _ + _ * ?e * _ = 0 => replace a with (0 : F) by reflexivity; replace c with (0 : F) by (rewrite <- fofZ_0; f_equal; ring); replace e with (0 : F) by (rewrite <- fofZ_0; f_equal; ring) end. ring.
    + set (x := fofZ L) in *. assert (N1 : x <> 0) by (apply fofZ_neq0; exact N0).
      assert (N2 : x + 1 <> 0). { intro Q. apply (fne (F:=F) (L + 1) ltac:(lia)). rewrite fofZ_add, fofZ_1. exact Q. }
      assert (N3 : two * x + 1 <> 0). { intro Q. apply (fne (F:=F) (2 * L + 1) ltac:(lia)). rewrite fofZ_add, fofZ_mul, z2, fofZ_1. exact Q. }
      assert (R' : h (L + 1)%Z = ((x + 1) * (two * x + 1)) * (fofZ (m2 - m3) * h L - (- (fofZ m1' * fofZ (l2 - l3) * fofZ (l2 + l3 + 1)) / (x * (x + 1)) * h L + qF l2 l3 m1' x / (x * (two * x + 1)) * h (L - 1)%Z))).
      { rewrite <- R. field. repeat split; assumption. }
      rewrite R'. unfold qF. repeat rewrite ?fofZ_add, ?fofZ_mul, ?fofZ_sub. rewrite fofZ_1, !z2. fold x. field. repeat split; assumption.
  - intro E0. pose proof (E 0%Z ltac:(lia)) as R. rewrite K_0 in R. rewrite R. rewrite !fofZ_sub. ring.
  - apply S. unfold l1max. lia.
  - exact N.
Qed.
(** the symbol (L l2 l3; -m2-m3 m2 m3) *)
Definition sym3j (l2 l3 m2 m3 L : Z) : F :=
  if ((Z.abs m2 <=? l2) && (Z.abs m3 <=? l3) && (l1min l2 l3 m2 m3 <=? L) && (L <=? l1max l2 l3))%Z then
    if (l2 - l3 <=? - m2 - m3)%Z then half l2 l3 m2 m3 L else half l3 l2 (- m3) (- m2) L
  else 0.
(** what it means that a table holds the Wigner-3j symbols: they satisfy the relations, and are zero otherwise *)
Record symbols (w3j : Z -> Z -> Z -> Z -> Z -> F) : Prop := {
  sy_row : forall l2 l3 m2 m3, proper l2 l3 m2 m3 -> is_row fsqrt l2 l3 m2 m3 (w3j l2 l3 m2 m3);
  sy_proper : forall l2 l3 m2 m3 L, ~ proper l2 l3 m2 m3 -> w3j l2 l3 m2 m3 L = 0;
  sy_range : forall l2 l3 m2 m3 L, ~ (l1min l2 l3 m2 m3 <= L <= l1max l2 l3)%Z -> w3j l2 l3 m2 m3 L = 0 }.
Lemma row_ext l2 l3 m2 m3 (g g' : Z -> F) : sqrt_laws -> proper l2 l3 m2 m3 -> (forall L, (l1min l2 l3 m2 m3 <= L <= l1max l2 l3)%Z -> g' L = g L) -> is_row fsqrt l2 l3 m2 m3 g -> is_row fsqrt l2 l3 m2 m3 g'.
Proof.
  intros SL Pr E [H1 H2 H3 H4]. pose proof (lo_hi l2 l3 m2 m3 Pr) as LH. pose proof (lo_0 l2 l3 m2 m3) as L0. constructor.
  - intros L HL. rewrite <- (H1 L HL), (E L) by lia. f_equal; [f_equal|].
    + destruct (Z.eq_dec L (l1max l2 l3)) as [-> |N]; [rewrite (A_hi fsqrt big l2 l3 m2 m3 SL); ring | rewrite (E (L + 1)%Z) by lia; reflexivity].
    + destruct (Z.eq_dec L (l1min l2 l3 m2 m3)) as [-> |N]; [rewrite (A_lo fsqrt big l2 l3 m2 m3 SL); ring | rewrite (E (L - 1)%Z) by lia; reflexivity].
  - intro Z0. rewrite <- (H2 Z0), (E 0%Z) by lia. f_equal. destruct (Z.eq_dec (l1max l2 l3) 0) as [Em|N]; [|rewrite (E 1%Z) by lia; reflexivity].
    pose proof (A_hi fsqrt big l2 l3 m2 m3 SL) as A1. rewrite Em in A1. change (0 + 1)%Z with 1%Z in A1. rewrite A1. ring.
  - rewrite <- H3. apply sum_ext. intros i Hi. rewrite E; [reflexivity|]. unfold nfin in Hi. lia.
  - rewrite (E (l1max l2 l3)) by lia. exact H4.
Qed.
Lemma sym3j_symbols : sqrt_laws -> symbols sym3j.
Proof.
  intros SL. constructor.
  - intros l2 l3 m2 m3 Pr. assert (X : is_row fsqrt l2 l3 m2 m3 (if (l2 - l3 <=? - m2 - m3)%Z then half l2 l3 m2 m3 else half l3 l2 (- m3) (- m2))).
    { destruct (Z.leb_spec (l2 - l3) (- m2 - m3)) as [H|H]; [apply exists_half; assumption|]. apply row_swap. apply exists_half; [exact SL | destruct Pr; split; lia | lia]. }
    eapply row_ext; [exact SL | exact Pr | | exact X]. intros L [HL1 HL2]. unfold sym3j. destruct Pr as [P2 P3]. apply Z.leb_le in P2, P3, HL1, HL2. rewrite P2, P3, HL1, HL2. cbn [andb].
    destruct (l2 - l3 <=? - m2 - m3)%Z; reflexivity.
  - intros l2 l3 m2 m3 L N. unfold sym3j. replace ((Z.abs m2 <=? l2) && (Z.abs m3 <=? l3))%Z with false; [reflexivity|]. symmetry. apply andb_false_iff. rewrite !Z.leb_gt. unfold proper in N. lia.
  - intros l2 l3 m2 m3 L N. unfold sym3j. destruct ((Z.abs m2 <=? l2) && (Z.abs m3 <=? l3))%Z; [|reflexivity]. cbn [andb].
    replace ((l1min l2 l3 m2 m3 <=? L) && (L <=? l1max l2 l3))%Z with false. 2:{ symmetry. apply andb_false_iff. rewrite !Z.leb_gt. lia. } reflexivity.
Qed.
Theorem C92_exists : sqrt_laws -> exists w3j, symbols w3j.
Proof. intro SL. exists sym3j. exact (sym3j_symbols SL). Qed.

(** ** Symmetries *)
Notation eps := (P_MCM.eps (F:=F)).
Lemma eps_next z : eps (z + 1) = - eps z.
Proof. unfold P_MCM.eps. replace (z + 1)%Z with (Z.succ z) by lia. rewrite Z.odd_succ, <- Z.negb_odd. destruct (Z.odd z); cbn; ring. Qed.
Lemma eps_1 z : eps z * eps z = 1. Proof. unfold P_MCM.eps. destruct (Z.odd z); ring. Qed.
Lemma eps_2 z : eps (z + z) = 1. Proof. unfold P_MCM.eps. replace (z + z)%Z with (2 * z)%Z by lia. rewrite Z.odd_mul. reflexivity. Qed.
Lemma odd_same x y : Z.even (x + y) = true -> Z.odd x = Z.odd y.
Proof. rewrite Z.even_add, <- !Z.negb_odd. destruct (Z.odd x), (Z.odd y); cbn; congruence. Qed.
Lemma row_mirror l2 l3 m2 m3 k2 k3 p2 p3 (g : Z -> F) :
  l1min k2 k3 p2 p3 = l1min l2 l3 m2 m3 -> (k2 + k3 = l2 + l3)%Z -> (forall L, Asq k2 k3 p2 p3 L = Asq l2 l3 m2 m3 L) -> (forall L, D k2 k3 p2 p3 L = - D l2 l3 m2 m3 L)%Z ->
  (p3 - p2 = - (m3 - m2))%Z -> Z.odd (k2 - k3 + p2 + p3) = Z.odd (l2 - l3 + m2 + m3) ->
  is_row fsqrt l2 l3 m2 m3 g -> is_row fsqrt k2 k3 p2 p3 (fun L => eps (L + (l2 + l3)) * g L).
Proof.
  intros Elo Ehi EA ED Em Eo [H1 H2 H3 H4].
  assert (EA' : forall L, A fsqrt k2 k3 p2 p3 L = A fsqrt l2 l3 m2 m3 L) by (intro L; unfold A; rewrite EA; reflexivity).
  assert (Eh : l1max k2 k3 = l1max l2 l3) by exact Ehi. assert (En : nfin k2 k3 p2 p3 = nfin l2 l3 m2 m3) by (unfold nfin; rewrite Eh, Elo; reflexivity).
  constructor.
  - rewrite Elo, Eh. intros L HL. rewrite !EA', ED, fofZ_opp. pose proof (eps_next (L - 1 + (l2 + l3))) as P1. pose proof (eps_next (L + (l2 + l3))) as P2.
    replace (L - 1 + (l2 + l3) + 1)%Z with (L + (l2 + l3))%Z in P1 by lia. replace (L + (l2 + l3) + 1)%Z with (L + 1 + (l2 + l3))%Z in P2 by lia. rewrite P2, P1.
    transitivity (eps (L - 1 + (l2 + l3)) * (fofZ L * A fsqrt l2 l3 m2 m3 (L + 1) * g (L + 1)%Z + fofZ (2 * L + 1) * fofZ (D l2 l3 m2 m3 L) * g L + fofZ (L + 1) * A fsqrt l2 l3 m2 m3 L * g (L - 1)%Z)); [ring|].
    rewrite (H1 L HL). ring.
  - rewrite Elo. intro E. rewrite EA', Em, fofZ_opp. pose proof (eps_next (0 + (l2 + l3))) as P2. replace (0 + (l2 + l3) + 1)%Z with (1 + (l2 + l3))%Z in P2 by lia. rewrite P2.
    transitivity (- eps (0 + (l2 + l3)) * (A fsqrt l2 l3 m2 m3 1 * g 1%Z + fofZ (m3 - m2) * g 0%Z)); [ring|]. rewrite (H2 E). ring.
  - rewrite En, Elo. rewrite <- H3. apply sum_ext. intros i _. set (L := (l1min l2 l3 m2 m3 + Z.of_nat i)%Z). transitivity (eps (L + (l2 + l3)) * eps (L + (l2 + l3)) * (fofZ (2 * L + 1) * g L * g L)); [ring|]. rewrite eps_1. ring.
  - rewrite Eh, Eo. replace (eps (l1max l2 l3 + (l2 + l3))) with (1 : F) by (symmetry; apply eps_2). replace (1 * g (l1max l2 l3)) with (g (l1max l2 l3)) by ring. exact H4.
Qed.
Lemma mirror_eq (w : Z -> Z -> Z -> Z -> Z -> F) l2 l3 m2 m3 k2 k3 p2 p3 L : sqrt_laws -> symbols w ->
  l1min k2 k3 p2 p3 = l1min l2 l3 m2 m3 -> (k2 + k3 = l2 + l3)%Z -> (proper k2 k3 p2 p3 <-> proper l2 l3 m2 m3) ->
  (proper l2 l3 m2 m3 -> is_row fsqrt k2 k3 p2 p3 (fun L => eps (L + (l2 + l3)) * w l2 l3 m2 m3 L)) ->
  w k2 k3 p2 p3 L = eps (L + l2 + l3) * w l2 l3 m2 m3 L.
Proof.
  intros SL [W1 W2 W3] Elo Ehi EP Hr. assert (Eh : l1max k2 k3 = l1max l2 l3) by exact Ehi. rewrite <- Z.add_assoc.
  destruct (Z_le_dec (Z.abs m2) l2) as [P2|P2]; [destruct (Z_le_dec (Z.abs m3) l3) as [P3|P3]|].
  2,3: (rewrite (W2 l2 l3 m2 m3), (W2 k2 k3 p2 p3); [ring | |]; [rewrite EP|]; unfold proper; lia).
  assert (Pr : proper l2 l3 m2 m3) by (split; assumption).
  destruct (Z_le_dec (l1min l2 l3 m2 m3) L) as [R1|R1]; [destruct (Z_le_dec L (l1max l2 l3)) as [R2|R2]|].
  2,3: (rewrite (W3 l2 l3 m2 m3), (W3 k2 k3 p2 p3); [ring | |]; rewrite ?Elo, ?Eh; lia).
  rewrite (C92_unique fsqrt big k2 k3 p2 p3 _ (w k2 k3 p2 p3) SL (proj2 EP Pr) (Hr Pr) (W1 _ _ _ _ (proj2 EP Pr)) L ltac:(rewrite Elo, Eh; lia)). reflexivity.
Qed.
(** exchange of two columns *)
Theorem C92_exchange (w : Z -> Z -> Z -> Z -> Z -> F) l2 l3 m2 m3 L : sqrt_laws -> symbols w -> w l3 l2 m3 m2 L = eps (L + l2 + l3) * w l2 l3 m2 m3 L.
Proof.
  intros SL W. apply mirror_eq; [exact SL | exact W | unfold l1min, m1; lia | lia | unfold proper; tauto|]. intro Pr.
  apply (row_mirror l2 l3 m2 m3); [unfold l1min, m1; lia | lia | intro; unfold Asq; ring | intro; unfold D; ring | lia | apply odd_same | exact (sy_row w W _ _ _ _ Pr)].
  replace (l3 - l2 + m3 + m2 + (l2 - l3 + m2 + m3))%Z with (2 * (m2 + m3))%Z by lia. rewrite Z.even_mul. reflexivity.
Qed.
(** change of sign of all m *)
Theorem C92_reflection (w : Z -> Z -> Z -> Z -> Z -> F) l2 l3 m2 m3 L : sqrt_laws -> symbols w -> w l2 l3 (- m2)%Z (- m3)%Z L = eps (L + l2 + l3) * w l2 l3 m2 m3 L.
Proof.
  intros SL W. apply mirror_eq; [exact SL | exact W | unfold l1min, m1; lia | lia | unfold proper; rewrite !Z.abs_opp; tauto|]. intro Pr.
  apply (row_mirror l2 l3 m2 m3); [unfold l1min, m1; lia | lia | intro; unfold Asq; ring | intro; unfold D; ring | lia | apply odd_same | exact (sy_row w W _ _ _ _ Pr)].
  replace (l2 - l3 + - m2 + - m3 + (l2 - l3 + m2 + m3))%Z with (2 * (l2 - l3))%Z by lia. rewrite Z.even_mul. reflexivity.
Qed.
(** the row with m2 = m3 = 0 *)
Theorem C92_parity_zero (w : Z -> Z -> Z -> Z -> Z -> F) fexp flog l2 l3 L : sqrt_laws -> libm_laws fsqrt fexp flog -> symbols w -> (0 <= l2)%Z -> (0 <= l3)%Z -> (Z.abs (l2 - l3) <= L <= l2 + l3)%Z ->
  w l2 l3 0%Z 0%Z L = P_MCM.J0 fsqrt fexp flog l2 l3 L.
Proof.
  intros SL LL W H2 H3 HL. assert (Pr : proper l2 l3 0 0) by (unfold proper; lia).
  rewrite (C92_unique fsqrt big l2 l3 0 0 (row0 fsqrt l2 l3) (w l2 l3 0%Z 0%Z) SL Pr (C92_scalar_row fsqrt big l2 l3 SL H2 H3) (sy_row w W _ _ _ _ Pr) L ltac:(unfold l1min, l1max, m1; lia)).
  symmetry. apply (J0_row0 fsqrt big l2 l3 H2 H3); assumption.
Qed.

(** ** (0 l l; 0 s -s) *)
Lemma diag_lo l s : (0 <= l)%Z -> l1min l l s (- s) = 0%Z. Proof. intro H. unfold l1min, m1. lia. Qed.
Lemma prodA_sq l s k : sqrt_laws -> (Z.abs s <= l)%Z -> (Z.of_nat k <= l + l)%Z -> prodA l l s (- s) k * prodA l l s (- s) k = Qp l l 0 k.
Proof.
  intros SL Hs. assert (Hl : (0 <= l)%Z) by lia. assert (Pr : proper l l s (- s)) by (unfold proper; lia). induction k as [|k IH]; intro Hk; [cbn; ring|]. cbn [prodA Qp]. rewrite <- IH by lia.
  rewrite (diag_lo l s Hl). replace (Z.max (l - l) 0) with 0%Z by lia. set (L := (0 + Z.of_nat (S k))%Z).
  transitivity (A fsqrt l l s (- s) L * A fsqrt l l s (- s) L * (prodA l l s (- s) k * prodA l l s (- s) k)); [ring|]. f_equal.
  rewrite (A_sq l l s (- s) SL Pr (fun _ => 0) L) by (rewrite (diag_lo l s Hl); unfold l1max, L; lia).
  unfold Asq, qF. rewrite <- !fofZ_mul, <- !fofZ_sub, <- !fofZ_mul. f_equal. replace (- s - - s)%Z with 0%Z by lia. reflexivity.
Qed.
Lemma prodA_pos l s k : sqrt_laws -> (Z.abs s <= l)%Z -> (Z.of_nat k <= l + l)%Z -> 0 < prodA l l s (- s) k.
Proof.
  intros SL Hs. assert (Hl : (0 <= l)%Z) by lia. assert (Pr : proper l l s (- s)) by (unfold proper; lia). induction k as [|k IH]; intro Hk; [apply f0_lt_1|]. cbn [prodA].
  apply fmul_pos; [|apply IH; lia]. unfold A. apply (sq_pos fsqrt big SL). apply fofZ_pos. apply (Asq_pos l l s (- s) Pr). rewrite (diag_lo l s Hl). unfold l1max. lia.
Qed.
Theorem C92_diagonal (w : Z -> Z -> Z -> Z -> Z -> F) l s : sqrt_laws -> symbols w -> (Z.abs s <= l)%Z -> w l l s (- s)%Z 0%Z = eps (l - s) / fsqrt (fofZ (2 * l + 1)).
Proof.
  intros SL W Hs. assert (Hl : (0 <= l)%Z) by lia. assert (Pr : proper l l s (- s)) by (unfold proper; lia). pose proof (diag_lo l s Hl) as L0.
  pose proof (sy_row w W l l s (- s)%Z Pr) as G.
  pose proof (exists_half l l s (- s) SL Pr ltac:(lia)) as G'.
  rewrite (C92_unique fsqrt big l l s (- s) _ _ SL Pr G' G 0%Z ltac:(rewrite L0; unfold l1max; lia)). pose proof (ir_sign _ _ _ _ _ _ G') as Sg. clear G G'.
  unfold half in *. replace (- s - - s)%Z with 0%Z in * by lia. set (k := Z.to_nat (s + l)) in *. set (h := hsol l l 0 k) in *.
  replace (l - l + s + - s)%Z with 0%Z in Sg by lia. cbn [Z.odd] in Sg. unfold l1max in Sg.
  pose proof (hsol_norm (F:=F) l Hl k ltac:(lia)) as HN. pose proof (hsol_sign (F:=F) l Hl k ltac:(lia)) as HS. fold h in HN, HS. replace (Z.max (l - l) 0) with 0%Z in HN, HS by lia.
  destruct (hsol_eig (F:=F) l Hl k ltac:(lia)) as (_ & _ & N0). fold h in N0. replace (Z.max (l - l) 0) with 0%Z in N0 by lia.
  assert (EN : nrm l l s (- s) h = fofZ (2 * l + 1) * (h 0%Z * h 0%Z)).
  { transitivity (ipn l l 0 (Z.to_nat (l + l - 0 + 1)) h h).
    - unfold nrm, ipn, nfin, l1max. rewrite L0. apply sum_ext. intros i Hi. unfold g0. rewrite L0. replace (Z.max (l - l) 0) with 0%Z by lia. replace (Z.to_nat (0 + Z.of_nat i - 0)) with i by lia.
      rewrite <- (prodA_sq l s i SL Hs) by lia. pose proof (fpos_neq _ (prodA_pos l s i SL Hs ltac:(lia))) as Np. field. exact Np.
    - rewrite HN. replace (l + l + 1)%Z with (2 * l + 1)%Z by lia. ring. }
  set (n1 := fofZ (2 * l + 1) : F) in *. assert (Pn : 0 < n1) by (apply fofZ_pos; lia).
  assert (Ph : 0 < h 0%Z * h 0%Z) by (apply fle_neq_lt; [apply fsqr_nonneg | intro Q; symmetry in Q; apply fmul_eq_0 in Q; tauto]).
  assert (PN : 0 < nrm l l s (- s) h) by (rewrite EN; apply fmul_pos; assumption).
  pose proof (sq_pos fsqrt big SL _ PN) as Pr'. pose proof (sl_sq _ _ SL _ (flt_le _ _ PN)) as Qr. pose proof (prodA_pos l s (Z.to_nat (l + l)) SL Hs ltac:(lia)) as Pp.
  unfold rowof in *. set (sg := if Bool.eqb _ _ then - (1) else 1 : F) in *. assert (Sq : sg * sg = 1) by (unfold sg; destruct (Bool.eqb _ _); ring). clearbody sg.
  unfold g0 in *. rewrite L0 in *. replace (Z.to_nat (l + l - 0)) with (Z.to_nat (l + l)) in Sg by lia. change (Z.to_nat (0 - 0)) with 0%nat. cbn [prodA].
  set (p := prodA l l s (- s) (Z.to_nat (l + l))) in *. set (r := fsqrt (nrm l l s (- s) h)) in *. set (a := h 0%Z) in *. set (b := h (l + l)%Z) in *.
  assert (Nr : r <> 0) by (apply fpos_neq; exact Pr'). assert (Np : p <> 0) by (apply fpos_neq; exact Pp).
  assert (Ee : eps (l - s) = if Nat.odd k then - (1) else 1).
  { unfold P_MCM.eps. replace (Z.odd (l - s)) with (Nat.odd k); [reflexivity|]. rewrite <- (Nat2Z.id k) at 1. rewrite <- Nat.negb_even, <- Z.negb_even. f_equal. unfold k. rewrite Nat2Z.id.
    assert (Ez : forall n, Nat.even n = Z.even (Z.of_nat n)). { clear. induction n as [|n IH]; [reflexivity|]. rewrite Nat.even_succ, <- Nat.negb_even, IH. replace (Z.of_nat (S n)) with (Z.succ (Z.of_nat n)) by lia. rewrite Z.even_succ, <- Z.negb_even. reflexivity. }
    rewrite Ez. replace (Z.of_nat (Z.to_nat (s + l))) with (s + l)%Z by lia. rewrite Z.even_add, Z.even_sub. destruct (Z.even s), (Z.even l); reflexivity. }
  set (e := eps (l - s)) in *. assert (Qe : e * e = 1) by (unfold e; apply eps_1).
  assert (Pe : 0 < e * (a * b)). { rewrite Ee. destruct (Nat.odd k); [replace (- (1) * (a * b)) with (- (a * b)) by ring | replace (1 * (a * b)) with (a * b) by ring]; exact HS. }
  clearbody e. set (c := e * (sg * a / r)).
  assert (Cp : 0 < c).
  { assert (Y : 0 < c * (sg * (b / p) / r)). { replace (c * (sg * (b / p) / r)) with ((sg * sg) * (e * (a * b)) / (p * (r * r))) by (unfold c; field; split; assumption). rewrite Sq. replace (1 * (e * (a * b))) with (e * (a * b)) by ring. apply fdiv_pos; [exact Pe|]. repeat apply fmul_pos; assumption. }
    set (y := sg * (b / p) / r) in *. assert (Ny : y <> 0) by (apply fpos_neq; exact Sg). replace c with (c * y / y) by (field; exact Ny). apply fdiv_pos; assumption. }
  assert (Cs : 1 / n1 = c * c).
  { transitivity ((e * e) * (sg * sg) * (a * a) / (r * r)); [|unfold c; field; exact Nr]. rewrite Qe, Sq. rewrite Qr, EN. field. split; [|apply fpos_neq; exact Pn]. intro Q. apply N0. exact Q. }
  pose proof (sl_sq _ _ SL n1 (flt_le _ _ Pn)) as Q1. pose proof (sq_pos fsqrt big SL n1 Pn) as P1. set (t := fsqrt n1) in *. assert (Nt : t <> 0) by (apply fpos_neq; exact P1).
  assert (Ct : c * t = 1).
  { assert (X : (c * t - 1) * (c * t + 1) = 0). { transitivity (c * c * (t * t) - 1); [ring|]. rewrite Q1, <- Cs. field. apply fpos_neq. exact Pn. }
    apply fmul_eq_0 in X. destruct X as [X|X]; [apply fsub_0_eq; exact X|]. exfalso. apply (fpos_neq (c * t + 1)); [|exact X]. replace (0 : F) with (0 + 0 : F) by ring. apply flt_le_add; [apply fmul_pos; assumption | apply flt_le; apply f0_lt_1]. }
  transitivity (e * c). { unfold c. transitivity ((e * e) * (sg * a / r)); [rewrite Qe; field; repeat split; first [exact Nr | apply f1_neq_0] | ring]. }
  replace c with (c * t / t) by (field; exact Nt). rewrite Ct. field. exact Nt.
Qed.
(** hence the hypotheses on the symbols in the theorems on coupling matrices hold *)
Lemma symbols_sym (w : Z -> Z -> Z -> Z -> Z -> F) s : sqrt_laws -> symbols w -> w3j_sym w s.
Proof.
  intros SL W. constructor; intros l l' l1 _.
  - pose proof (C92_reflection w l' l (- s) s l1 SL W) as Q. rewrite Z.opp_involutive in Q. rewrite Q, (C92_exchange w l l' s (- s)%Z l1 SL W).
    replace (l1 + l' + l)%Z with (l1 + l + l')%Z by lia. transitivity (eps (l1 + l + l') * eps (l1 + l + l') * w l l' s (- s)%Z l1); [ring | rewrite eps_1; ring].
  - exact (C92_exchange w l l' s s l1 SL W).
Qed.
Lemma symbols_laws (w : Z -> Z -> Z -> Z -> Z -> F) fexp flog : sqrt_laws -> libm_laws fsqrt fexp flog -> symbols w -> laws fsqrt fexp flog w.
Proof.
  intros SL LL W. constructor; [exact (sl_sq _ _ SL) | exact (sl_pos _ _ SL) | exact (ll_exp _ _ _ LL) | exact (ll_exp0 _ _ _ LL) | exact (ll_log _ _ _ LL)|].
  intros s l H. apply (C92_diagonal w l s SL W). lia.
Qed.

(** drc3jj computes the symbols for all quantum numbers whose symbols are not below the range *)
Theorem C92_all (w : Z -> Z -> Z -> Z -> Z -> F) l2 l3 m2 m3 size t0 : sqrt_laws -> symbols w -> moderate fsqrt big l2 l3 m2 m3 (w l2 l3 m2 m3) -> (nfin l2 l3 m2 m3 <= size)%Z ->
  exists t, drc3jj_values fsqrt big l2 l3 m2 m3 size t0 = Ok (l1min l2 l3 m2 m3, t) /\
    forall L, (l1min l2 l3 m2 m3 <= L <= l1max l2 l3)%Z -> t (L - l1min l2 l3 m2 m3)%Z = Some (w l2 l3 m2 m3 L).
Proof.
  intros SL W Mo Sz. destruct (Z_le_dec (Z.abs m2) l2) as [P2|P2]; [destruct (Z_le_dec (Z.abs m3) l3) as [P3|P3]|].
  - apply C92_symbols; [exact SL | split; assumption | apply (sy_row w W); split; assumption | exact Mo | exact Sz].
  - destruct (C92_improper fsqrt big l2 l3 m2 m3 size t0 ltac:(unfold proper; lia) Sz) as [t [E T]]. exists t. split; [exact E|]. intros L HL. rewrite (T L HL), (sy_proper w W) by (unfold proper; lia). reflexivity.
  - destruct (C92_improper fsqrt big l2 l3 m2 m3 size t0 ltac:(unfold proper; lia) Sz) as [t [E T]]. exists t. split; [exact E|]. intros L HL. rewrite (T L HL), (sy_proper w W) by (unfold proper; lia). reflexivity.
Qed.
(** ** Coupling matrices, with the symbols themselves in place of their textbook properties *)
Section Coupling.
Variables (fexp flog : F -> F) (pi : F) (w : Z -> Z -> Z -> Z -> Z -> F).
Theorem C92_full_sky i M : sqrt_laws -> libm_laws fsqrt fexp flog -> symbols w -> pi <> 0 -> fields_ok i -> full_sky pi i -> (n_lt i <= 0)%Z -> n_teb i = false -> gives fsqrt fexp flog pi w i M ->
  purified i = false \/ one_spin0 i \/ (n_spin1 i = 2%Z /\ n_spin2 i = 2%Z) ->
  forall r l k l', (r < nspec i)%nat -> (k < nspec i)%nat -> upto i l -> upto i l' ->
  el i M r l k l' = if Nat.eqb r k && Nat.eqb l l' && (Z.max (n_spin1 i) (n_spin2 i) <=? Z.of_nat l)%Z then 1 else 0.
Proof. intros SL LL W. exact (C24_full_sky_identity fsqrt fexp flog pi w i M (symbols_laws w fexp flog SL LL W)). Qed.
Theorem C92_anisotropic_symmetric j M : sqrt_laws -> symbols w -> afields_ok j -> agives (by_name pi w) j M ->
  forall r l k l', (r < nspec (iso j))%nat -> (k < nspec (iso j))%nat -> upto (iso j) l -> upto (iso j) l' ->
  fofZ (2 * Z.of_nat l + 1) * el (iso j) M r l k l' = fofZ (2 * Z.of_nat l' + 1) * el (iso j) M k l' r l.
Proof. intros SL W H. exact (C25_symmetric_up_to_2l1 fsqrt fexp flog pi w j M H (symbols_sym w _ SL W) (symbols_sym w _ SL W)). Qed.
Theorem C92_isotropic_limit j M N : sqrt_laws -> libm_laws fsqrt fexp flog -> symbols w -> afields_ok j -> polarless j -> (j_spin1 j <> 0%Z \/ j_spin2 j <> 0%Z) ->
  agives (called pi w) j M -> gives fsqrt fexp flog pi w (iso j) N ->
  forall r l k l', (r < nspec (iso j))%nat -> (k < nspec (iso j))%nat -> upto (iso j) l -> upto (iso j) l' ->
  el (iso j) M r l k l' = eps (j_spin1 j + j_spin2 j) * el (iso j) N r l k l'.
Proof.
  intros SL LL W H P S. apply (C25_isotropic_limit fsqrt fexp flog pi w j M N H P S (symbols_sym w _ SL W) (symbols_sym w _ SL W)).
  intros _ l l' l1 Hl Hl' T. apply (C92_parity_zero w fexp flog l l' l1 SL LL W Hl Hl'). unfold tri in T. apply andb_true_iff in T. rewrite !Z.leb_le in T. exact T.
Qed.
End Coupling.
End Exists.

(** ** A concrete case: the symbols over the reals *)
Notation R' := R_field.
Example C92_exists_case : symbols (F:=R') sqrt (sym3j (F:=R') sqrt) /\ sym3j (F:=R') sqrt 2 2 1 (-1) 0 = (- (1) / sqrt 5)%R /\ sym3j (F:=R') sqrt 2 2 0 0 0 = (1 / sqrt 5)%R /\
  proper 2 2 1 (-1) /\ l1min 2 2 1 (-1) = 0.
Proof.
  pose proof (sym3j_symbols (F:=R') sqrt bigR sqrt_lawsR) as W. split; [exact W|]. split; [|split; [|split; [unfold proper; lia | reflexivity]]].
  - pose proof (C92_diagonal (F:=R') sqrt bigR _ 2 1 sqrt_lawsR W ltac:(lia)) as Q. rewrite P_Apod4.fofZ_IZR in Q. exact Q.
  - pose proof (C92_diagonal (F:=R') sqrt bigR _ 2 0 sqrt_lawsR W ltac:(lia)) as Q. rewrite P_Apod4.fofZ_IZR in Q. exact Q.
Qed.

Print Assumptions C92_exists.
Print Assumptions C92_exchange.
Print Assumptions C92_reflection.
Print Assumptions C92_parity_zero.
Print Assumptions C92_diagonal.
Print Assumptions C92_all.
Print Assumptions C92_full_sky.
Print Assumptions C92_anisotropic_symmetric.
Print Assumptions C92_isotropic_limit.
