(** Property C92: drc3jj (utils.c:143-343) returns the Wigner-3j symbols.

    The symbols are characterised here as a row g of numbers, indexed by l1, that satisfies the three-term recursion in
    l1 known from the theory of angular momentum, the orthogonality relation sum (2 l1 + 1) g^2 = 1 and the phase
    convention at the largest l1; these fix the row. *)
From Coq Require Import Reals Lra.
From Verif Require Import Base FieldR P_Apod4 M_MCM L_MCM M_LinAlg L_LinAlg M_Wigner.
Open Scope Z_scope.

Section Statements.
Context {F : ofield}.
Local Open Scope F_scope.
Add Field FfPW : (fth F).
Variables (fsqrt : F -> F) (big : F).
Notation huge := (huge fsqrt big).
Notation srhuge := (srhuge fsqrt big).
Notation tiny := (tiny fsqrt big).
Notation srtiny := (srtiny fsqrt big).

Record sqrt_laws : Prop := { sl_sq : forall x : F, 0 <= x -> fsqrt x * fsqrt x = x; sl_pos : forall x : F, 0 <= x -> 0 <= fsqrt x; sl_big : 0 < big }.

Section Row.
Variables (l2 l3 m2 m3 : Z).
Notation M1 := (- m2 - m3)%Z.
(** the range of l1 *)
Notation lo := (l1min l2 l3 m2 m3).
Notation hi := (l1max l2 l3).
Notation n := (nfin l2 l3 m2 m3).
(** A(L)^2 = (L^2 - (l2-l3)^2) ((l2+l3+1)^2 - L^2) (L^2 - m1^2) *)
Definition Asq (L : Z) : Z := ((L * L - (l2 - l3) * (l2 - l3)) * ((l2 + l3 + 1) * (l2 + l3 + 1) - L * L) * (L * L - M1 * M1))%Z.
Definition A (L : Z) : F := fsqrt (fofZ (Asq L)).
(** m1 (l3 (l3+1) - l2 (l2+1)) + L (L+1) (m3 - m2) *)
Definition D (L : Z) : Z := (M1 * (l3 * (l3 + 1) - l2 * (l2 + 1)) + L * (L + 1) * (m3 - m2))%Z.
Record is_row (g : Z -> F) : Prop := {
  (** L A(L+1) g(L+1) + (2L+1) D(L) g(L) + (L+1) A(L) g(L-1) = 0 *)
  ir_rec : forall L, (lo <= L <= hi)%Z -> fofZ L * A (L + 1) * g (L + 1)%Z + fofZ (2 * L + 1) * fofZ (D L) * g L + fofZ (L + 1) * A L * g (L - 1)%Z = 0;
  (** the same divided by L, for L = 0 *)
  ir_rec0 : lo = 0%Z -> A 1 * g 1%Z + fofZ (m3 - m2) * g 0%Z = 0;
  ir_norm : sum (Z.to_nat n) (fun i => fofZ (2 * (lo + Z.of_nat i) + 1) * g (lo + Z.of_nat i)%Z * g (lo + Z.of_nat i)%Z) = 1;
  ir_sign : 0 < (if Z.odd (l2 - l3 + m2 + m3) then - g hi else g hi) }.
(** the quantum numbers of a symbol that is not zero for a trivial reason *)
Definition proper : Prop := (Z.abs m2 <= l2)%Z /\ (Z.abs m3 <= l3)%Z.
(** no symbol of the row is below the square root of the range of doubles (about 1e-154), unless it is zero *)
Definition moderate (g : Z -> F) : Prop := forall L, (lo <= L <= hi)%Z -> g L = 0 \/ tiny < fabs (g L).

Section Proof.
Variables (size : Z) (g : Z -> F).
Hypotheses (SL : sqrt_laws) (Pr : proper) (G : is_row g) (Mo : moderate g).
Notation gi i := (g (lo + i)%Z).

(** ** Numbers *)
Lemma fdiv_pos (x y : F) : 0 < x -> 0 < y -> 0 < x / y.
Proof.
  clear. intros Hx Hy. apply fle_neq_lt; [apply fdiv_nonneg; [apply flt_le; exact Hx | exact Hy]|]. intro E. apply (fpos_neq _ Hx).
  transitivity (x / y * y); [field; apply fpos_neq; exact Hy | rewrite <- E; ring].
Qed.
Lemma fdiv_le (x y z : F) : 0 < z -> x <= y -> x / z <= y / z.
Proof. clear. intros Hz H. apply fle_sub_0. replace (y / z - x / z) with ((y - x) / z) by (field; apply fpos_neq; exact Hz). apply fdiv_nonneg; [apply (proj1 (fle_sub_0 _ _)); exact H | exact Hz]. Qed.
Lemma lo_0 : (0 <= lo)%Z. Proof. clear. unfold l1min. lia. Qed.
Lemma lo_hi : (lo <= hi)%Z. Proof using Pr. clear - Pr. destruct Pr. unfold l1min, l1max, m1. lia. Qed.
Lemma n_eq : n = (hi - lo + 1)%Z. Proof. reflexivity. Qed.
Lemma n_pos : (1 <= n)%Z. Proof using Pr. clear - Pr. pose proof lo_hi. unfold nfin. lia. Qed.
Lemma sq_0 : fsqrt 0 = 0.
Proof using SL. clear - SL. pose proof (sl_sq SL 0 (fle_refl 0)) as E. apply fmul_eq_0 in E. tauto. Qed.
Lemma sq_neq0 x : 0 < x -> fsqrt x <> 0.
Proof using SL. clear - SL. intros H E. pose proof (sl_sq SL x (flt_le _ _ H)) as Q. rewrite E in Q. apply (fpos_neq _ H). rewrite <- Q. ring. Qed.
Lemma sq_pos x : 0 < x -> 0 < fsqrt x.
Proof using SL. clear - SL. intros H. apply fle_neq_lt; [apply (sl_pos SL); apply flt_le; exact H | intro E; apply (sq_neq0 x H); congruence]. Qed.
Lemma huge_pos : 0 < huge. Proof using SL. clear - SL. apply sq_pos. apply (sl_big SL). Qed.
Lemma srhuge_pos : 0 < srhuge. Proof using SL. clear - SL. apply sq_pos. apply huge_pos. Qed.
Lemma srhuge_sq : srhuge * srhuge = huge. Proof using SL. clear - SL. apply (sl_sq SL). apply flt_le. apply huge_pos. Qed.
Lemma srtiny_sq : srtiny * srtiny = tiny.
Proof using SL. clear - SL. unfold M_Wigner.tiny, M_Wigner.srtiny. rewrite <- srhuge_sq. field. apply fpos_neq. apply srhuge_pos. Qed.
Lemma srtiny_neq0 : srtiny <> 0.
Proof using SL. clear - SL. intro E. unfold M_Wigner.srtiny in E. apply (f1_neq_0 (F:=F)). transitivity (1 / srhuge * srhuge); [field; apply fpos_neq; apply srhuge_pos | rewrite E; ring]. Qed.
Lemma tiny_pos : 0 < tiny.
Proof using SL. clear - SL. unfold M_Wigner.tiny. apply fdiv_pos; [apply f0_lt_1 | apply huge_pos]. Qed.
Lemma abs_sq (x : F) : fabs x * fabs x = x * x.
Proof. unfold fabs. destruct (0 <=? x); ring. Qed.
Lemma lt_of_sq (a b : F) : 0 <= a -> 0 <= b -> a * a < b * b -> a < b.
Proof.
  intros Ha Hb H. apply flt_not_le. intro L. apply flt_not_le in H. apply H.
  apply fle_trans with (b * a); [apply fle_mul_l; assumption|]. replace (b * a) with (a * b) by ring. apply fle_mul_l; assumption.
Qed.
Lemma le_of_sq (a b : F) : 0 <= a -> 0 <= b -> a * a <= b * b -> a <= b.
Proof.
  intros Ha Hb H. destruct (fle_total a b) as [L|L]; [exact L|]. destruct (feq_dec a b) as [-> |N]; [apply fle_refl|]. exfalso.
  assert (P : b < a) by (apply fle_neq_lt; [exact L | congruence]). assert (Pa : 0 < a) by (eapply fle_lt_trans; eassumption).
  assert (Q : b * b < a * a). { apply flt_sub_0. replace (a * a - b * b) with ((a - b) * (a + b)) by ring. apply fmul_pos; [apply (proj1 (flt_sub_0 _ _)); exact P|].
    replace (0 : F) with (0 + 0 : F) by ring. apply flt_le_add; assumption. }
  apply flt_not_le in Q. exact (Q H).
Qed.

(** ** The coefficients *)
Lemma a_fwd L : fsqrt (fofZ (a1 l2 l3 L * a2 m2 m3 L)) = A L.
Proof. clear. unfold A. do 2 f_equal. unfold a1, a2, m1, Asq. ring. Qed.
Lemma a_bwd L : fsqrt (fofZ (a1s l2 l3 (L + 1) * a2s m2 m3 (L + 1))) = A L.
Proof. clear. unfold A. do 2 f_equal. unfold a1s, a2s, m1, Asq. ring. Qed.
Lemma a_bwd' L : fsqrt (fofZ (a1s l2 l3 L * a2s m2 m3 L)) = A (L - 1).
Proof. clear. rewrite <- a_bwd. replace (L - 1 + 1)%Z with L by lia. reflexivity. Qed.
Lemma dv_D L : dv l2 l3 m2 m3 (L + 1) = D L.
Proof. clear. unfold dv, D, m1. ring. Qed.
Lemma Asq_pos L : (lo < L <= hi)%Z -> (0 < Asq L)%Z.
Proof using Pr.
  clear - Pr. unfold l1min, l1max, m1. intros [H1 H2]. destruct Pr as [P2 P3]. unfold Asq.
  assert (X1 : (Z.abs (l2 - l3) < L)%Z) by lia. assert (X2 : (Z.abs M1 < L)%Z) by lia.
  repeat apply Z.mul_pos_pos; nia.
Qed.
Lemma A_neq0 L : (lo < L <= hi)%Z -> A L <> 0.
Proof using SL Pr. clear - SL Pr. intro H. apply sq_neq0. apply fofZ_pos. apply Asq_pos. exact H. Qed.
Lemma A_lo : A lo = 0.
Proof using SL.
  clear - SL. unfold A. replace (Asq lo) with 0%Z; [exact sq_0|]. symmetry. unfold Asq, l1min, m1.
  destruct (Z.max_spec (Z.abs (l2 - l3)) (Z.abs M1)) as [[_ ->]|[_ ->]].
  - rewrite !Z.abs_square. ring.
  - rewrite !Z.abs_square. ring.
Qed.
Lemma A_hi : A (hi + 1) = 0.
Proof using SL. clear - SL. unfold A, l1max. replace (Asq (l2 + l3 + 1)) with 0%Z; [exact sq_0|]. unfold Asq. ring. Qed.

(** forward relations *)
Lemma rel_fwd i : (2 <= i <= n - 1)%Z ->
  let L := (lo + i)%Z in
  gi i = - fofZ (L + L - 1) * fofZ (dv l2 l3 m2 m3 L) / (fofZ (L - 1) * A L) * gi (i - 1) + - fofZ L * A (L - 1) / (fofZ (L - 1) * A L) * gi (i - 2).
Proof using SL Pr G.
  clear - SL Pr G. intros Hi L. pose proof lo_0 as P0. rewrite n_eq in Hi. pose proof (ir_rec g G (L - 1) ltac:(unfold L; lia)) as R.
  replace (L - 1 + 1)%Z with L in R by lia. replace (L - 1 - 1)%Z with (lo + (i - 2))%Z in R by (unfold L; lia).
  replace (dv l2 l3 m2 m3 L) with (D (L - 1)) by (rewrite <- (dv_D (L - 1)); f_equal; lia). replace (2 * (L - 1) + 1)%Z with (L + L - 1)%Z in R by lia.
  assert (N1 : A L <> 0) by (apply A_neq0; unfold L; lia). assert (N2 : (fofZ (L - 1) : F) <> 0) by (apply fofZ_neq0; unfold L; lia).
  change (gi i) with (g L). set (x := gi (i - 1)) in *. set (y := gi (i - 2)) in *.
  replace (g (L - 1)%Z) with x in R by (unfold x; f_equal; unfold L; lia).
  transitivity (fofZ (L - 1) * A L * g L / (fofZ (L - 1) * A L)); [field; split; assumption|].
  replace (fofZ (L - 1) * A L * g L) with (- (fofZ (L + L - 1) * fofZ (D (L - 1)) * x + fofZ L * A (L - 1) * y))
    by (transitivity (fofZ (L - 1) * A L * g L - 0); [rewrite <- R; ring | ring]).
  field. split; assumption.
Qed.
Lemma rel_fwd1 : (1 <= n - 1)%Z ->
  gi 1 = (if (1 <? lo + 1)%Z then - fofZ (lo + 1 + (lo + 1) - 1) * fofZ (dv l2 l3 m2 m3 (lo + 1)) / (fofZ (lo + 1 - 1) * A (lo + 1))
          else - fofZ (lo + 1 + (lo + 1) - 1) * fofZ (lo + 1) * fofZ (m3 - m2) / A (lo + 1)) * gi 0.
Proof using SL Pr G.
  clear - SL Pr G. intros Hi. pose proof lo_0 as P0. rewrite n_eq in Hi. assert (N1 : A (lo + 1) <> 0) by (apply A_neq0; lia). rewrite Z.add_0_r.
  destruct (Z.ltb_spec 1 (lo + 1)) as [H|H].
  - pose proof (ir_rec g G lo ltac:(lia)) as R. rewrite A_lo in R. rewrite dv_D. replace (lo + 1 - 1)%Z with lo by lia. replace (lo + 1 + (lo + 1) - 1)%Z with (2 * lo + 1)%Z by lia.
    assert (N2 : (fofZ lo : F) <> 0) by (apply fofZ_neq0; lia).
    transitivity (fofZ lo * A (lo + 1) * gi 1 / (fofZ lo * A (lo + 1))); [field; split; assumption|].
    replace (fofZ lo * A (lo + 1) * gi 1) with (- (fofZ (2 * lo + 1) * fofZ (D lo) * g lo)); [field; split; assumption|].
    transitivity (fofZ lo * A (lo + 1) * gi 1 - 0); [rewrite <- R; ring | ring].
  - assert (E : lo = 0%Z) by lia. pose proof (ir_rec0 g G E) as R. rewrite E in *. change (0 + 1)%Z with 1%Z in *. change (1 + 1 - 1)%Z with 1%Z. rewrite fofZ_1.
    transitivity (A 1 * g 1%Z / A 1); [field; exact N1|]. replace (A 1 * g 1%Z) with (- (fofZ (m3 - m2) * g 0%Z)); [field; exact N1|].
    transitivity (A 1 * g 1%Z - 0); [rewrite <- R; ring | ring].
Qed.
(** backward relations; l1 = L + 1 in the code *)
Lemma rel_bwd j : (1 <= j <= n - 1)%Z ->
  let l1 := (hi + 2 - j)%Z in
  gi (n - 1 - j) = - fofZ (l1 + l1 - 1) * fofZ (dv l2 l3 m2 m3 l1) / (fofZ l1 * A (l1 - 1)) * gi (n - j) + - fofZ (l1 - 1) * A l1 / (fofZ l1 * A (l1 - 1)) * gi (n + 1 - j).
Proof using SL Pr G.
  clear - SL Pr G. intros Hi l1. pose proof lo_0 as P0. pose proof n_eq as En. pose proof (ir_rec g G (l1 - 1) ltac:(unfold l1; lia)) as R.
  replace (l1 - 1 + 1)%Z with l1 in R by lia. replace (2 * (l1 - 1) + 1)%Z with (l1 + l1 - 1)%Z in R by lia.
  replace (dv l2 l3 m2 m3 l1) with (D (l1 - 1)) by (rewrite <- (dv_D (l1 - 1)); f_equal; lia).
  assert (N1 : A (l1 - 1) <> 0) by (apply A_neq0; unfold l1; lia). assert (N2 : (fofZ l1 : F) <> 0) by (apply fofZ_neq0; unfold l1; lia).
  set (x := gi (n - j)). set (y := gi (n + 1 - j)). set (z := gi (n - 1 - j)).
  replace (g l1) with y in R by (unfold y; f_equal; unfold l1; lia). replace (g (l1 - 1 - 1)%Z) with z in R by (unfold z; f_equal; unfold l1; lia).
  replace (g (l1 - 1)%Z) with x in R by (unfold x; f_equal; unfold l1; lia).
  transitivity (fofZ l1 * A (l1 - 1) * z / (fofZ l1 * A (l1 - 1))); [field; split; assumption|].
  replace (fofZ l1 * A (l1 - 1) * z) with (- (fofZ (l1 - 1) * A l1 * y + fofZ (l1 + l1 - 1) * fofZ (D (l1 - 1)) * x))
    by (transitivity (fofZ l1 * A (l1 - 1) * z - 0); [rewrite <- R; ring | ring]).
  field. split; assumption.
Qed.

(** ** Sums and sizes *)
Definition S_ (i : Z) : F := sum (Z.to_nat i) (fun k => fofZ (2 * (lo + Z.of_nat k) + 1) * gi (Z.of_nat k) * gi (Z.of_nat k)).
Lemma S_step i : (0 <= i)%Z -> S_ (i + 1) = S_ i + fofZ (2 * (lo + i) + 1) * gi i * gi i.
Proof. clear. intro H. unfold S_. replace (Z.to_nat (i + 1)) with (S (Z.to_nat i)) by lia. cbn [sum]. rewrite Z2Nat.id by lia. reflexivity. Qed.
Lemma S_0 : S_ 0 = 0. Proof. reflexivity. Qed.
Lemma S_n : S_ n = 1. Proof using G. exact (ir_norm g G). Qed.
(** no symbol exceeds one *)
Lemma gi_le1 i : (0 <= i < n)%Z -> gi i * gi i <= 1.
Proof using G.
  clear - G. intro Hi. rewrite <- S_n. unfold S_. pose proof lo_0 as P0.
  assert (T : forall k, 0 <= fofZ (2 * (lo + Z.of_nat k) + 1) * gi (Z.of_nat k) * gi (Z.of_nat k)).
  { intro k. replace (fofZ (2 * (lo + Z.of_nat k) + 1) * gi (Z.of_nat k) * gi (Z.of_nat k)) with (fofZ (2 * (lo + Z.of_nat k) + 1) * (gi (Z.of_nat k) * gi (Z.of_nat k))) by ring.
    apply fmul_nonneg; [apply flt_le; apply fofZ_pos; lia | apply fsqr_nonneg]. }
  apply fle_trans with (fofZ (2 * (lo + i) + 1) * gi i * gi i).
  - replace (gi i * gi i) with (1 * (gi i * gi i)) at 1 by ring. replace (fofZ (2 * (lo + i) + 1) * gi i * gi i) with (gi i * gi i * fofZ (2 * (lo + i) + 1)) by ring.
    replace (1 * (gi i * gi i)) with (gi i * gi i * 1) by ring. apply fle_mul_l; [apply fsqr_nonneg|]. rewrite <- fofZ_1. apply fofZ_le. lia.
  - replace (Z.to_nat n) with (Z.to_nat i + S (Z.to_nat n - Z.to_nat i - 1))%nat by lia. rewrite sum_plus, sum_S_l.
    rewrite Nat.add_0_r, Z2Nat.id by lia. set (t := fofZ (2 * (lo + i) + 1) * gi i * gi i).
    replace t with (0 + (t + 0)) at 1 by ring. apply fle_add; [apply sum_nonneg; intros; apply T | apply fle_add_l; apply sum_nonneg; intros; apply T].
Qed.
(** neighbouring symbols do not both vanish; neither does the first one *)
Lemma first_neq0 : gi 0 <> 0.
Proof using SL Pr G.
  clear - SL Pr G. intro E. pose proof n_pos as Pn.
  assert (Z0 : forall k : nat, (Z.of_nat k <= n - 1)%Z -> gi (Z.of_nat k) = 0).
  { induction k as [k IH] using lt_wf_ind. intro Hk. destruct k as [|[|k]]; [exact E | |].
    - change (Z.of_nat 1) with 1%Z. rewrite (rel_fwd1 ltac:(lia)), E. ring.
    - rewrite (rel_fwd (Z.of_nat (S (S k))) ltac:(lia)). replace (Z.of_nat (S (S k)) - 1)%Z with (Z.of_nat (S k)) by lia. replace (Z.of_nat (S (S k)) - 2)%Z with (Z.of_nat k) by lia.
      rewrite (IH (S k)), (IH k) by lia. ring. }
  apply (f1_neq_0 (F:=F)). rewrite <- S_n. unfold S_. apply sum_zero. intros k Hk. rewrite Z0 by lia. ring.
Qed.
Lemma pair_neq0 i : (1 <= i <= n - 1)%Z -> gi i * gi i + gi (i - 1) * gi (i - 1) <> 0.
Proof using SL Pr G.
  clear - SL Pr G. intros Hi E.
  assert (Q : gi i = 0 /\ gi (i - 1) = 0).
  { assert (A0 : forall u v : F, u * u + v * v = 0 -> u = 0).
    { intros u v H. assert (X : u * u = 0). { apply fle_antisym; [|apply fsqr_nonneg]. rewrite <- H. replace (u * u) with (u * u + 0) at 1 by ring. apply fle_add_l. apply fsqr_nonneg. } apply fmul_eq_0 in X. tauto. }
    split; [apply (A0 _ _ E)|]. apply (A0 (gi (i - 1)) (gi i)). rewrite <- E. ring. }
  assert (Z0 : forall k : nat, (Z.of_nat k <= i - 1)%Z -> gi (i - 1 - Z.of_nat k) = 0 /\ gi (i - Z.of_nat k) = 0).
  { induction k as [|k IH]; intro Hk; [rewrite !Z.sub_0_r; tauto|]. destruct (IH ltac:(lia)) as [I1 I2].
    replace (i - Z.of_nat (S k))%Z with (i - 1 - Z.of_nat k)%Z by lia. split; [|exact I1].
    pose proof (rel_bwd (n - 1 - (i - 1 - Z.of_nat (S k))) ltac:(lia)) as R. cbv zeta in R.
    replace (n - 1 - (n - 1 - (i - 1 - Z.of_nat (S k))))%Z with (i - 1 - Z.of_nat (S k))%Z in R by lia.
    replace (n - (n - 1 - (i - 1 - Z.of_nat (S k))))%Z with (i - 1 - Z.of_nat k)%Z in R by lia.
    replace (n + 1 - (n - 1 - (i - 1 - Z.of_nat (S k))))%Z with (i - Z.of_nat k)%Z in R by lia.
    rewrite R, I1, I2. ring. }
  destruct (Z0 (Z.to_nat (i - 1)) ltac:(lia)) as [I1 _]. rewrite Z2Nat.id in I1 by lia. replace (i - 1 - (i - 1))%Z with 0%Z in I1 by lia. exact (first_neq0 I1).
Qed.
Lemma last_neq0 : gi (n - 1) <> 0.
Proof using Pr G.
  clear - Pr G. intro E. pose proof (ir_sign g G) as P. replace hi with (lo + (n - 1))%Z in P by (pose proof n_eq; lia). rewrite E in P.
  assert (Q : (0 : F) < 0) by (destruct (Z.odd _); [replace (0 : F) with (- 0 : F) at 2 by ring; exact P | exact P]). exact (flt_irrefl _ Q).
Qed.
(** the scale factors of the two series *)
Definition al : F := srtiny / gi 0.
Definition be : F := srtiny / gi (n - 1).
Lemma al_0 : al * gi 0 = srtiny.
Proof using SL Pr G. clear - SL Pr G. unfold al. field. apply first_neq0. Qed.
Lemma be_n : be * gi (n - 1) = srtiny.
Proof using Pr G. clear - Pr G. unfold be. field. apply last_neq0. Qed.
Lemma al_neq0 : al <> 0.
Proof using SL Pr G. clear - SL Pr G. intro E. apply srtiny_neq0. rewrite <- al_0, E. ring. Qed.
Lemma be_neq0 : be <> 0.
Proof using SL Pr G. clear - SL Pr G. intro E. apply srtiny_neq0. rewrite <- be_n, E. ring. Qed.
(** no value of either series needs rescaling *)
Lemma no_rescale i k : (0 <= i < n)%Z -> (0 <= k < n)%Z -> gi k <> 0 -> (srhuge <=? fabs (srtiny / gi k * gi i))%F = false.
Proof using SL G Mo.
  clear - SL G Mo. intros Hi Hk N. destruct (srhuge <=? _)%F eqn:E; [exfalso|reflexivity]. change (srhuge <= fabs (srtiny / gi k * gi i)) in E.
  destruct (Mo (lo + k)%Z ltac:(pose proof n_eq; lia)) as [Q|Q]; [exact (N Q)|].
  pose proof srhuge_pos as P1. pose proof tiny_pos as P2. pose proof huge_pos as P3.
  assert (X : fabs (srtiny / gi k * gi i) < srhuge).
  { apply lt_of_sq; [apply fabs_nonneg | apply flt_le; exact P1|]. rewrite abs_sq, srhuge_sq.
    assert (K2 : tiny * tiny < gi k * gi k).
    { rewrite <- (abs_sq (gi k)). apply flt_le_trans with (tiny * fabs (gi k)).
      - apply flt_sub_0. replace (tiny * fabs (gi k) - tiny * tiny) with (tiny * (fabs (gi k) - tiny)) by ring. apply fmul_pos; [exact P2 | apply (proj1 (flt_sub_0 _ _)); exact Q].
      - replace (tiny * fabs (gi k)) with (fabs (gi k) * tiny) by ring. apply fle_mul_l; [apply fabs_nonneg | apply flt_le; exact Q]. }
    assert (Pk : 0 < gi k * gi k) by (eapply fle_lt_trans; [|exact K2]; apply fsqr_nonneg).
    replace (srtiny / gi k * gi i * (srtiny / gi k * gi i)) with (tiny * (gi i * gi i) / (gi k * gi k)) by (rewrite <- srtiny_sq; field; exact N).
    apply fle_lt_trans with (tiny * 1 / (gi k * gi k)).
    - apply fdiv_le; [exact Pk|]. apply fle_mul_l; [apply flt_le; exact P2 | apply gi_le1; exact Hi].
    - apply flt_sub_0. replace (huge - tiny * 1 / (gi k * gi k)) with ((gi k * gi k - tiny * tiny) * (huge / (gi k * gi k))).
      + apply fmul_pos; [apply (proj1 (flt_sub_0 _ _)); exact K2 | apply fdiv_pos; assumption].
      + unfold M_Wigner.tiny. field. split; first [exact N | apply fpos_neq; exact P3]. }
  apply flt_not_le in X. exact (X E).
Qed.

(** ** Array operations *)
Hypothesis Sz : (n <= size)%Z.
Lemma rd_ok (t : thr (F:=F)) i v : (0 <= i < n)%Z -> t i = Some v -> t_rd size t i = Ok v.
Proof using Sz. clear - Sz. intros H E. unfold t_rd. replace ((0 <=? i) && (i <? size))%Z with true by (symmetry; apply andb_true_iff; rewrite Z.leb_le, Z.ltb_lt; lia). rewrite E. reflexivity. Qed.
Lemma wr_ok (t : thr (F:=F)) i (v : F) : (0 <= i < n)%Z -> t_wr size t i v = Ok (fun j => if (j =? i)%Z then Some v else t j).
Proof using Sz. clear - Sz. intros H. unfold t_wr. replace ((0 <=? i) && (i <? size))%Z with true by (symmetry; apply andb_true_iff; rewrite Z.leb_le, Z.ltb_lt; lia). reflexivity. Qed.
Lemma map_ok f k : forall a (t : thr (F:=F)) (v : Z -> F), (0 <= a)%Z -> (a + Z.of_nat k <= n)%Z -> (forall j, (a <= j < a + Z.of_nat k)%Z -> t j = Some (v j)) ->
  exists t', t_map size f a k t = Ok t' /\ (forall j, (a <= j < a + Z.of_nat k)%Z -> t' j = Some (f (v j))) /\ (forall j, ~ (a <= j < a + Z.of_nat k)%Z -> t' j = t j).
Proof using Sz.
  clear - Sz. induction k as [|k IH]; intros a t v Ha Hn Hv.
  - exists t. split; [reflexivity|]. split; [intros; lia | reflexivity].
  - cbn [t_map]. rewrite (rd_ok t a (v a)) by (try apply Hv; lia). cbn [bind]. rewrite wr_ok by lia. cbn [bind].
    destruct (IH (a + 1)%Z (fun j => if (j =? a)%Z then Some (f (v a)) else t j) v ltac:(lia) ltac:(lia)) as [t' [E [I1 I2]]].
    { intros j Hj. replace (j =? a)%Z with false by (symmetry; apply Z.eqb_neq; lia). apply Hv. lia. }
    exists t'. split; [exact E|]. split.
    + intros j Hj. destruct (Z.eq_dec j a) as [-> |N]; [|apply I1; lia]. rewrite I2 by lia. rewrite Z.eqb_refl. reflexivity.
    + intros j Hj. rewrite I2 by lia. replace (j =? a)%Z with false by (symmetry; apply Z.eqb_neq; lia). reflexivity.
Qed.

(** ** The forward series computes al * g *)
Record FI (i : Z) (s : fw (F:=F)) : Prop := {
  fi_lstep : f_lstep s = i; fi_l1 : f_l1 s = (lo + i)%Z; fi_newfac : f_newfac s = A (lo + i);
  fi_thr : forall j, (0 <= j <= i)%Z -> f_thr s j = Some (al * gi j);
  fi_x : (1 <= i)%Z -> f_x s = Some (al * gi i);
  fi_sum1 : f_sum1 s = al * al * S_ (i + 1); fi_sumfor : (2 <= i)%Z -> f_sumfor s = Some (al * al * S_ i) }.
Lemma FI_0 t : exists s, fw0 fsqrt big l2 l3 m2 m3 size t = Ok s /\ FI 0 s /\ f_conv s = true.
Proof using SL Pr G Sz.
  clear - SL Pr G Sz. pose proof n_pos as Pn. unfold fw0. rewrite wr_ok by lia. cbn [bind]. eexists. split; [reflexivity|]. split; [|reflexivity].
  constructor; cbn [f_lstep f_l1 f_newfac f_thr f_x f_sum1 f_sumfor]; try lia; try reflexivity.
  - rewrite Z.add_0_r, A_lo. reflexivity.
  - intros j Hj. replace j with 0%Z by lia. rewrite Z.eqb_refl, al_0. reflexivity.
  - rewrite S_step, S_0 by lia. rewrite <- srtiny_sq, <- al_0. replace (2 * (lo + 0) + 1)%Z with (lo + lo + 1)%Z by lia. ring.
Qed.
Lemma FI_step i s : (0 <= i < n - 1)%Z -> FI i s -> exists s', fstep fsqrt big l2 l3 m2 m3 size s = Ok s' /\ FI (i + 1) s'.
Proof using SL Pr G Mo Sz.
  clear - SL Pr G Mo Sz. intros Hi I. destruct I as [I1 I2 I3 I4 I5 I6 I7]. pose proof lo_0 as P0.
  unfold fstep. rewrite I1, I2, I3, a_fwd. cbv zeta. replace (lo + i + 1)%Z with (lo + (i + 1))%Z by lia.
  destruct (Z.eq_dec i 0) as [-> |N].
  - change (0 + 1 <=? 1)%Z with true. change (0 + 1)%Z with 1%Z. change (1 <? 1)%Z with false. cbv iota.
    set (c1 := if (1 <? lo + 1)%Z then - fofZ (lo + 1 + (lo + 1) - 1) * fofZ (dv l2 l3 m2 m3 (lo + 1)) / (fofZ (lo + 1 - 1) * A (lo + 1)) else - fofZ (lo + 1 + (lo + 1) - 1) * fofZ (lo + 1) * fofZ (m3 - m2) / A (lo + 1)).
    assert (Ec : exists co d, (if (1 <? lo + 1)%Z then (- fofZ (lo + 1 + (lo + 1) - 1) * fofZ (dv l2 l3 m2 m3 (lo + 1)) / (fofZ (lo + 1 - 1) * A (lo + 1)), f_c1old s, Some (fofZ (lo + 1 - 1) * A (lo + 1)))
      else (- fofZ (lo + 1 + (lo + 1) - 1) * fofZ (lo + 1) * fofZ (m3 - m2) / A (lo + 1), f_c1old s, f_denom s)) = (c1, co, d)) by (unfold c1; destruct (1 <? lo + 1)%Z; eexists; eexists; reflexivity).
    destruct Ec as [co [d Ec]]. rewrite Ec. rewrite wr_ok by lia. cbn [bind]. eexists. split; [reflexivity|].
    assert (E1 : srtiny * c1 = al * gi 1). { rewrite <- al_0. rewrite (rel_fwd1 ltac:(lia)). fold c1. ring. }
    constructor; cbn [f_lstep f_l1 f_newfac f_thr f_x f_sum1 f_sumfor]; try lia; try reflexivity.
    + intros j Hj. destruct (Z.eqb_spec j 1) as [-> |N]; [rewrite E1; reflexivity | apply I4; lia].
    + rewrite E1. reflexivity.
    + rewrite I6. change (0 + 1)%Z with 1%Z. change (1 + 1)%Z with (1 + 1)%Z. rewrite (S_step 1) by lia. replace (2 * (lo + 1) + 1)%Z with (lo + 1 + (lo + 1) + 1)%Z by lia.
      transitivity (al * al * S_ 1 + fofZ (lo + 1 + (lo + 1) + 1) * ((srtiny * c1) * (srtiny * c1))); [rewrite <- srtiny_sq; ring | rewrite E1; ring].
  - replace (1 <? lo + (i + 1))%Z with true by (symmetry; apply Z.ltb_lt; lia). replace (1 <? i + 1)%Z with true by (symmetry; apply Z.ltb_lt; lia).
    replace (i + 1 <=? 1)%Z with false by (symmetry; apply Z.leb_gt; lia). cbv iota. cbn [need bind].
    replace (i + 1 - 1)%Z with i by lia. replace (i + 1 - 2)%Z with (i - 1)%Z by lia.
    rewrite (rd_ok _ i (al * gi i)) by (try apply I4; lia). cbn [bind]. rewrite (rd_ok _ (i - 1) (al * gi (i - 1))) by (try apply I4; lia). cbn [bind].
    pose proof (rel_fwd (i + 1) ltac:(lia)) as R. cbv zeta in R. replace (i + 1 - 1)%Z with i in R by lia. replace (i + 1 - 2)%Z with (i - 1)%Z in R by lia.
    replace (lo + (i + 1) - 1)%Z with (lo + i)%Z in R |- * by lia.
    match goal with |- context [t_wr size (f_thr s) (i + 1) ?x] => assert (E1 : x = al * gi (i + 1)) by (rewrite R; ring); rewrite E1 end.
    rewrite wr_ok by lia. cbn [bind].
    assert (T : forall j, (0 <= j <= i + 1)%Z -> (if (j =? i + 1)%Z then Some (al * gi (i + 1)) else f_thr s j) = Some (al * gi j)).
    { intros j Hj. destruct (Z.eqb_spec j (i + 1)) as [-> |N']; [reflexivity | apply I4; lia]. }
    assert (X : f_sum1 s + fofZ (lo + (i + 1) + (lo + (i + 1)) + 1) * (al * gi (i + 1)) * (al * gi (i + 1)) = al * al * S_ (i + 1 + 1)).
    { rewrite I6, (S_step (i + 1)) by lia. replace (2 * (lo + (i + 1)) + 1)%Z with (lo + (i + 1) + (lo + (i + 1)) + 1)%Z by lia. ring. }
    destruct (Z.ltb_spec (i + 1) (n - 1)) as [H|H].
    + replace (srhuge <=? fabs (al * gi (i + 1)))%F with false by (symmetry; apply (no_rescale (i + 1) 0); [lia | lia | apply first_neq0]).
      cbn [bind need]. eexists. split; [reflexivity|].
      constructor; cbn [f_lstep f_l1 f_newfac f_thr f_x f_sum1 f_sumfor]; try lia; try reflexivity; [exact T | exact X | intros _; rewrite I6; reflexivity].
    + eexists. split; [reflexivity|].
      constructor; cbn [f_lstep f_l1 f_newfac f_thr f_x f_sum1 f_sumfor]; try lia; try reflexivity; [exact T | exact X | intros _; rewrite I6; reflexivity].
Qed.
(** the loop ends early only after two steps *)
Lemma conv_step i s s' : (0 <= i < n - 1)%Z -> FI i s -> fstep fsqrt big l2 l3 m2 m3 size s = Ok s' -> i = 0%Z -> f_conv s' = f_conv s.
Proof using SL Pr G Mo Sz.
  clear - SL Pr G Mo Sz. intros Hi I E E0. unfold fstep in E. rewrite (fi_lstep _ _ I), E0 in E. change (0 + 1)%Z with 1%Z in E. change (1 <=? 1)%Z with true in E. cbv zeta in E.
  destruct (if (1 <? f_l1 s + 1)%Z then _ else _) as [[c1 co] d] in E. rewrite wr_ok in E by lia. cbn [bind] in E. injection E as <-. reflexivity.
Qed.
Lemma fwd_ok k : forall i s, (0 <= i <= n - 1)%Z -> (n - 1 - i < Z.of_nat k)%Z -> FI i s -> (i <= 1 -> f_conv s = true)%Z ->
  exists i' s', fwd fsqrt big l2 l3 m2 m3 size k s = Ok s' /\ FI i' s' /\ (i <= i' <= n - 1)%Z /\ (i' = (n - 1) \/ 2 <= i')%Z.
Proof using SL Pr G Mo Sz.
  clear - SL Pr G Mo Sz. induction k as [|k IH]; intros i s Hi Hk I C; [lia|]. cbn [fwd]. rewrite (fi_lstep _ _ I).
  destruct ((i <? n - 1)%Z && f_conv s)%bool eqn:B.
  - apply andb_true_iff in B. destruct B as [B1 B2]. apply Z.ltb_lt in B1. destruct (FI_step i s ltac:(lia) I) as [s1 [E1 I1]]. rewrite E1. cbn [bind].
    destruct (IH (i + 1)%Z s1 ltac:(lia) ltac:(lia) I1) as [i' [s' [E' [I' [H' D']]]]].
    + intro L. assert (i = 0%Z) by lia. rewrite (conv_step i s s1 ltac:(lia) I E1 H). exact B2.
    + exists i', s'. split; [exact E'|]. split; [exact I'|]. split; [lia | exact D'].
  - exists i, s. split; [reflexivity|]. split; [exact I|]. split; [lia|]. apply andb_false_iff in B. destruct B as [B|B]; [apply Z.ltb_ge in B; lia|].
    destruct (Z.le_gt_cases i 1) as [L|L]; [rewrite (C L) in B; discriminate | lia].
Qed.

(** ** The backward series computes be * g *)
Section Backward.
Variables (e : Z).
Hypotheses (He : (2 <= e <= n - 1)%Z).
Notation ns2 := (n - e - 1 + 3)%Z.
(** after j steps, all but the last one *)
Record BI (j : Z) (b : bw (F:=F)) : Prop := {
  bi_lstep : b_lstep b = j; bi_l1 : b_l1 b = (hi + 2 - j)%Z; bi_newfac : (1 <= j)%Z -> b_newfac b = A (hi + 1 - j);
  bi_thr : forall k, (n - 1 - j <= k <= n - 1)%Z -> b_thr b k = Some (be * gi k);
  bi_low : forall k, (0 <= k < n - 1 - j)%Z -> (k <= e)%Z -> b_thr b k = Some (al * gi k);
  bi_sum2 : b_sum2 b = be * be * (1 - S_ (n - 1 - j)); bi_sumbac : (1 <= j)%Z -> b_sumbac b = Some (be * be * (1 - S_ (n - j))) }.
Lemma BI_step j b : (0 <= j)%Z -> (j + 1 < ns2 - 1)%Z -> BI j b -> exists b', bstep fsqrt big l2 l3 m2 m3 size ns2 b = Ok b' /\ BI (j + 1) b'.
Proof using SL Pr G Mo Sz He.
  clear - SL Pr G Mo Sz He. intros Hj Hj' I. destruct I as [I1 I2 I3 I4 I5 I6 I7]. pose proof lo_0 as P0. pose proof n_eq as En.
  pose proof (rel_bwd (j + 1) ltac:(lia)) as R. cbv zeta in R.
  replace (hi + 2 - (j + 1))%Z with (hi + 1 - j)%Z in R by lia. replace (n - 1 - (j + 1))%Z with (n - 2 - j)%Z in R by lia. replace (n - (j + 1))%Z with (n - 1 - j)%Z in R by lia. replace (n + 1 - (j + 1))%Z with (n - j)%Z in R by lia.
  unfold bstep. rewrite I1, I2. cbv zeta. replace (hi + 2 - j - 1)%Z with (hi + 1 - j)%Z by lia. rewrite a_bwd'.
  replace (hi + 1 - j - 1)%Z with (hi - j)%Z in R |- * by lia.
  assert (X : be * be * (1 - S_ (n - 1 - j)) + fofZ (hi + 1 - j + (hi + 1 - j) - 3) * (be * gi (n - 2 - j)) * (be * gi (n - 2 - j)) = be * be * (1 - S_ (n - 2 - j))).
  { replace (n - 1 - j)%Z with (n - 2 - j + 1)%Z by lia. rewrite (S_step (n - 2 - j)) by lia. replace (2 * (lo + (n - 2 - j)) + 1)%Z with (hi + 1 - j + (hi + 1 - j) - 3)%Z by lia. ring. }
  destruct (Z.eq_dec j 0) as [-> |N].
  - change (0 + 1 <=? 1)%Z with true. cbv iota. rewrite !Z.sub_0_r in *. rewrite wr_ok by lia. cbn [bind]. eexists. split; [reflexivity|].
    match goal with |- context [srtiny * ?c] => assert (E1 : srtiny * c = be * gi (n - 2)) by (rewrite <- be_n, R, A_hi; set (u := gi (n - 1)); clearbody u; 
      assert (N1 : A hi <> 0) by (apply A_neq0; lia); assert (N2 : (fofZ (hi + 1) : F) <> 0) by (apply fofZ_neq0; lia); field; split; assumption) end.
    constructor; cbn [b_lstep b_l1 b_newfac b_y b_sum2 b_sumbac b_thr]; try lia; try reflexivity.
    + intros _. f_equal. lia.
    + intros k Hk. destruct (Z.eqb_spec k (n - 2)) as [-> |Nk]; [rewrite E1; reflexivity | apply I4; lia].
    + intros k Hk Ke. replace (k =? n - 2)%Z with false by (symmetry; apply Z.eqb_neq; lia). apply I5; lia.
    + rewrite I6. replace (n - 1 - (0 + 1))%Z with (n - 2)%Z by lia. rewrite <- X.
      match goal with |- context [tiny * _ * ?c * ?c] => transitivity (be * be * (1 - S_ (n - 1)) + fofZ (hi + 1 + (hi + 1) - 3) * (srtiny * c) * (srtiny * c)) end; [rewrite <- srtiny_sq; ring | rewrite E1; reflexivity].
    + intros _. rewrite I6. replace (n - (0 + 1))%Z with (n - 1)%Z by lia. reflexivity.
  - replace (j + 1 <=? 1)%Z with false by (symmetry; apply Z.leb_gt; lia). cbv iota.
    replace (n - (j + 1))%Z with (n - 1 - j)%Z by lia. replace (n + 1 - (j + 1))%Z with (n - j)%Z by lia.
    rewrite (rd_ok _ (n - 1 - j) (be * gi (n - 1 - j))) by (try apply I4; lia). cbn [bind]. rewrite (rd_ok _ (n - j) (be * gi (n - j))) by (try apply I4; lia). cbn [bind].
    replace (negb (j + 1 =? ns2 - 1)%Z) with true by (symmetry; apply negb_true_iff; apply Z.eqb_neq; lia). cbv iota.
    rewrite I3 by lia. replace (n - 1 - j - 1)%Z with (n - 2 - j)%Z by lia.
    match goal with |- context [t_wr size (b_thr b) (n - 2 - j) ?y] => assert (E1 : y = be * gi (n - 2 - j)) by (rewrite R; ring); rewrite E1 end.
    rewrite wr_ok by lia. cbn [bind].
    replace (srhuge <=? fabs (be * gi (n - 2 - j)))%F with false by (symmetry; apply (no_rescale (n - 2 - j) (n - 1)); [lia | lia | apply last_neq0]).
    cbn [bind]. eexists. split; [reflexivity|].
    constructor; cbn [b_lstep b_l1 b_newfac b_y b_sum2 b_sumbac b_thr]; try lia; try reflexivity.
    + intros _. f_equal. lia.
    + intros k Hk. destruct (Z.eqb_spec k (n - 2 - j)) as [-> |Nk]; [reflexivity | apply I4; lia].
    + intros k Hk Ke. replace (k =? n - 2 - j)%Z with false by (symmetry; apply Z.eqb_neq; lia). apply I5; lia.
    + rewrite I6. replace (n - 1 - (j + 1))%Z with (n - 2 - j)%Z by lia. exact X.
    + intros _. rewrite I6. replace (n - (j + 1))%Z with (n - 1 - j)%Z by lia. reflexivity.
Qed.
Lemma BI_last b : BI (ns2 - 2) b -> exists b', bstep fsqrt big l2 l3 m2 m3 size ns2 b = Ok b' /\
  b_lstep b' = (ns2 - 1)%Z /\ b_y b' = Some (be * gi (e - 2)) /\ b_sumbac b' = b_sumbac b /\ b_thr b' = b_thr b.
Proof using SL Pr G Mo Sz He.
  clear - SL Pr G Mo Sz He. intros I. destruct I as [I1 I2 I3 I4 I5 I6 I7]. pose proof lo_0 as P0. pose proof n_eq as En. set (j := (ns2 - 2)%Z) in *.
  pose proof (rel_bwd (j + 1) ltac:(unfold j; lia)) as R. cbv zeta in R.
  replace (hi + 2 - (j + 1))%Z with (hi + 1 - j)%Z in R by lia. replace (n - 1 - (j + 1))%Z with (e - 2)%Z in R by (unfold j; lia). replace (n - (j + 1))%Z with (n - 1 - j)%Z in R by lia. replace (n + 1 - (j + 1))%Z with (n - j)%Z in R by lia.
  unfold bstep. rewrite I1, I2. cbv zeta. replace (hi + 2 - j - 1)%Z with (hi + 1 - j)%Z by lia. rewrite a_bwd'.
  replace (hi + 1 - j - 1)%Z with (hi - j)%Z in R |- * by lia.
  replace (j + 1 <=? 1)%Z with false by (symmetry; apply Z.leb_gt; unfold j; lia). cbv iota.
  replace (n - (j + 1))%Z with (n - 1 - j)%Z by lia. replace (n + 1 - (j + 1))%Z with (n - j)%Z by lia.
  rewrite (rd_ok _ (n - 1 - j) (be * gi (n - 1 - j))) by (try apply I4; unfold j; lia). cbn [bind]. rewrite (rd_ok _ (n - j) (be * gi (n - j))) by (try apply I4; unfold j; lia). cbn [bind].
  replace (negb (j + 1 =? ns2 - 1)%Z) with false by (symmetry; apply negb_false_iff; apply Z.eqb_eq; unfold j; lia). cbv iota.
  rewrite I3 by (unfold j; lia). eexists. split; [reflexivity|]. cbn [b_lstep b_y b_sumbac b_thr]. split; [unfold j; lia|]. split; [|split; reflexivity]. f_equal. rewrite R. ring.
Qed.
Lemma bwd_ok k : forall j b, (0 <= j <= ns2 - 2)%Z -> (ns2 - 1 - j <= Z.of_nat k)%Z -> BI j b ->
  exists b', bwd fsqrt big l2 l3 m2 m3 size ns2 k b = Ok b' /\ b_lstep b' = (ns2 - 1)%Z /\ b_y b' = Some (be * gi (e - 2)) /\ b_sumbac b' = Some (be * be * (1 - S_ e)) /\
  (forall k, (e - 1 <= k <= n - 1)%Z -> b_thr b' k = Some (be * gi k)) /\ (forall k, (0 <= k < e - 1)%Z -> b_thr b' k = Some (al * gi k)).
Proof using SL Pr G Mo Sz He.
  clear - SL Pr G Mo Sz He. induction k as [|k IH]; intros j b Hj Hk I; [lia|]. cbn [bwd]. rewrite (bi_lstep _ _ I).
  replace (j <? ns2 - 1)%Z with true by (symmetry; apply Z.ltb_lt; lia).
  destruct (Z.eq_dec j (ns2 - 2)) as [-> |N].
  - destruct (BI_last b I) as [b' [E [L [Y [Sb T]]]]]. rewrite E. cbn [bind]. exists b'. split.
    + destruct k; cbn [bwd]; [reflexivity|]. rewrite L, Z.ltb_irrefl. reflexivity.
    + split; [exact L|]. split; [exact Y|]. split; [rewrite Sb, (bi_sumbac _ _ I) by lia; do 3 f_equal; f_equal; lia|]. rewrite T.
      split; intros q Hq; [apply (bi_thr _ _ I); lia | apply (bi_low _ _ I); lia].
  - destruct (BI_step j b ltac:(lia) ltac:(lia) I) as [b1 [E1 I1]]. rewrite E1. cbn [bind]. apply (IH (j + 1)%Z b1); [lia | lia | exact I1].
Qed.
End Backward.

(** ** Matching: a common factor remains *)
Lemma matched_ok e s : (2 <= e <= n - 1)%Z -> FI e s ->
  exists c t, c <> 0 /\ matched fsqrt big l2 l3 m2 m3 size s = Ok (c * c, t) /\ forall k, (0 <= k < n)%Z -> t k = Some (c * gi k).
Proof using SL Pr G Mo Sz.
  clear - SL Pr G Mo Sz. intros He I. destruct I as [I1 I2 I3 I4 I5 I6 I7]. unfold matched. rewrite I1, I5, I7 by lia. cbn [need bind].
  rewrite (rd_ok _ (e - 1) (al * gi (e - 1))) by (try apply I4; lia). cbn [bind]. rewrite (rd_ok _ (e - 2) (al * gi (e - 2))) by (try apply I4; lia). cbn [bind].
  rewrite wr_ok by lia. cbn [bind]. set (t0 := fun j => if (j =? n - 1)%Z then Some srtiny else f_thr s j).
  destruct (bwd_ok e He (Z.to_nat (n - e - 1 + 3)) 0 (Bw 0 (hi + 2) (f_newfac s) None (tiny * fofZ (hi + hi + 1)) None t0) ltac:(lia) ltac:(lia)) as [b [E [B1 [B2 [B3 [B4 B5]]]]]].
  { constructor; cbn [b_lstep b_l1 b_newfac b_y b_sum2 b_sumbac b_thr]; try lia.
    - intros k Hk. unfold t0. replace k with (n - 1)%Z by lia. rewrite Z.eqb_refl, be_n. reflexivity.
    - intros k Hk Ke. unfold t0. replace (k =? n - 1)%Z with false by (symmetry; apply Z.eqb_neq; lia). apply I4. lia.
    - rewrite Z.sub_0_r. rewrite <- S_n. replace n with (n - 1 + 1)%Z at 1 by lia. rewrite (S_step (n - 1)) by lia. rewrite <- srtiny_sq, <- be_n.
      replace (2 * (lo + (n - 1)) + 1)%Z with (hi + hi + 1)%Z by (pose proof n_eq; lia). ring. }
  rewrite E. cbn [bind]. rewrite B1, B2, B3. cbn [need bind].
  replace (n - (n - e - 1 + 3 - 1))%Z with (e - 1)%Z by lia. replace (n + 1 - (n - e - 1 + 3 - 1))%Z with e by lia.
  rewrite (rd_ok _ (e - 1) (be * gi (e - 1))) by (try apply B4; lia). cbn [bind]. rewrite (rd_ok _ e (be * gi e)) by (try apply B4; lia). cbn [bind].
  pose proof al_neq0 as Na. pose proof be_neq0 as Nb.
  assert (Q : gi e * gi e + gi (e - 1) * gi (e - 1) + gi (e - 2) * gi (e - 2) <> 0).
  { intro Q. apply (pair_neq0 e ltac:(lia)). apply fle_antisym.
    - rewrite <- Q. set (u := gi e * gi e + gi (e - 1) * gi (e - 1)). replace u with (u + 0) at 1 by ring. apply fle_add_l. apply fsqr_nonneg.
    - replace (0 : F) with (0 + 0 : F) by ring. apply fle_add; apply fsqr_nonneg. }
  set (ra := (al * gi e * (be * gi e) + al * gi (e - 1) * (be * gi (e - 1)) + al * gi (e - 2) * (be * gi (e - 2))) / (al * gi e * (al * gi e) + al * gi (e - 1) * (al * gi (e - 1)) + al * gi (e - 2) * (al * gi (e - 2)))).
  assert (Er : ra = be / al).
  { unfold ra. set (q := gi e * gi e + gi (e - 1) * gi (e - 1) + gi (e - 2) * gi (e - 2)) in *.
    replace (al * gi e * (be * gi e) + al * gi (e - 1) * (be * gi (e - 1)) + al * gi (e - 2) * (be * gi (e - 2))) with (al * be * q) by (unfold q; ring).
    replace (al * gi e * (al * gi e) + al * gi (e - 1) * (al * gi (e - 1)) + al * gi (e - 2) * (al * gi (e - 2))) with (al * al * q) by (unfold q; ring).
    clearbody q. field. split; assumption. }
  rewrite Er. clearbody ra. clear Er ra. cbv zeta. replace (n - (n - e - 1 + 3) + 1)%Z with (e - 1)%Z by lia. replace (e - 1 + 1 - 1)%Z with (e - 1)%Z by lia.
  destruct (fabs (be / al) <? 1)%F.
  - destruct (map_ok (fun v => v * (1 / (be / al))) (Z.to_nat (n - (e - 1))) (e - 1) (b_thr b) (fun k => be * gi k) ltac:(lia) ltac:(lia)) as [t [Et [T1 T2]]].
    { intros k Hk. apply B4. lia. }
    exists al, t. split; [exact Na|]. rewrite Et. cbn [bind]. split.
    + do 2 f_equal. transitivity (al * al * (1 - S_ e) + al * al * S_ e); [field; split; assumption | ring].
    + intros k Hk. destruct (Z.le_gt_cases (e - 1) k) as [L|L]; [rewrite T1 by lia; f_equal; field; split; assumption | rewrite T2 by lia; apply B5; lia].
  - destruct (map_ok (fun v => v * (be / al)) (Z.to_nat (e - 1)) 0 (b_thr b) (fun k => al * gi k) ltac:(lia) ltac:(lia)) as [t [Et [T1 T2]]].
    { intros k Hk. apply B5. lia. }
    exists be, t. split; [exact Nb|]. rewrite Et. cbn [bind]. split.
    + do 2 f_equal. transitivity (be * be * S_ e + be * be * (1 - S_ e)); [field; exact Na | ring].
    + intros k Hk. destruct (Z.le_gt_cases (e - 1) k) as [L|L]; [rewrite T2 by lia; apply B4; lia | rewrite T1 by lia; f_equal; field; exact Na].
Qed.

(** ** Normalisation *)
Lemma sign2_odd : sign2 l2 l3 m2 m3 = if Z.odd (l2 - l3 + m2 + m3) then (-1)%Z else 1%Z.
Proof.
  clear. unfold sign2. replace (l2 + m2 - l3 + m3)%Z with (l2 - l3 + m2 + m3)%Z by lia. set (z := (l2 - l3 + m2 + m3)%Z). clearbody z.
  rewrite Zmod_odd. rewrite <- (Z.abs_spec z) || idtac. replace (Z.odd (Z.abs z)) with (Z.odd z) by (destruct z; reflexivity). destruct (Z.odd z); reflexivity.
Qed.
Lemma fabs_pos (x : F) : 0 < x -> fabs x = x.
Proof. clear. intro H. unfold fabs. replace (0 <=? x) with true; [reflexivity|]. symmetry. apply flt_le. exact H. Qed.
Lemma fabs_neg (x : F) : x < 0 -> fabs x = - x.
Proof. clear. intro H. unfold fabs. replace (0 <=? x) with false; [reflexivity|]. symmetry. apply flt_not_le in H. destruct (0 <=? x) eqn:E; [contradiction (H E) | reflexivity]. Qed.
Lemma trichotomy (x : F) : x <> 0 -> 0 < x \/ x < 0.
Proof. clear. intro N. destruct (fle_total 0 x) as [H|H]; [left | right]; apply fle_neq_lt; congruence. Qed.
Lemma opp_pos (x : F) : x < 0 -> 0 < - x.
Proof. clear. intro H. replace (- x) with (0 - x) by ring. apply (proj1 (flt_sub_0 _ _)). exact H. Qed.
Lemma sqrt_unique c x : 0 < c -> x = c * c -> fsqrt x = c.
Proof using SL.
  clear - SL. intros H ->. pose proof (sl_sq SL (c * c) (fsqr_nonneg c)) as Q. pose proof (sl_pos SL (c * c) (fsqr_nonneg c)) as P.
  apply fle_antisym; apply le_of_sq; try assumption; try (apply flt_le; exact H); rewrite Q; apply fle_refl.
Qed.
Lemma sqrt_abs c : c <> 0 -> fsqrt (c * c) = fabs c.
Proof using SL.
  clear - SL. intro N. destruct (trichotomy c N) as [H|H]; [rewrite (fabs_pos c H); apply sqrt_unique; [exact H | reflexivity]|].
  rewrite (fabs_neg c H). apply sqrt_unique; [apply opp_pos; exact H | ring].
Qed.
Lemma normalised_ok c t : c <> 0 -> (forall k, (0 <= k < n)%Z -> t k = Some (c * gi k)) ->
  exists t', normalised fsqrt big l2 l3 m2 m3 size (c * c) t = Ok t' /\ forall k, (0 <= k < n)%Z -> t' k = Some (gi k).
Proof using SL Pr G Mo Sz.
  clear - SL Pr G Mo Sz. intros N T. pose proof n_pos as Pn. unfold normalised. rewrite (rd_ok t (n - 1) (c * gi (n - 1))) by (try apply T; lia). cbn [bind].
  rewrite sqrt_abs by exact N. rewrite sign2_odd.
  pose proof (ir_sign g G) as P. replace hi with (lo + (n - 1))%Z in P by (pose proof n_eq; lia).
  set (cn := if ((if (c * gi (n - 1) <? 0)%F then (-1) else 1) * (if Z.odd (l2 - l3 + m2 + m3) then (-1) else 1) <=? 0)%Z then - (1 / fabs c) else 1 / fabs c).
  assert (Ec : cn = 1 / c).
  { assert (PP : forall x y : F, 0 < x -> 0 < y -> (x * y <? 0)%F = false).
    { intros x y Hx Hy. pose proof (fmul_pos x y Hx Hy) as H. unfold fltb. apply negb_false_iff. apply flt_le. exact H. }
    assert (PN : forall x y : F, 0 < x -> y < 0 -> (x * y <? 0)%F = true).
    { intros x y Hx Hy. pose proof (fmul_pos x (- y) Hx (opp_pos y Hy)) as H. unfold fltb. apply negb_true_iff. destruct (0 <=? x * y) eqn:E; [|reflexivity]. exfalso.
      apply flt_not_le in H. apply H. replace (x * - y) with (0 - x * y) by ring. change (0 <= x * y) in E. apply fle_sub_0. replace (0 - (0 - x * y)) with (x * y) by ring. exact E. }
    assert (Nm : - c <> 0) by (intro E0; apply N; replace c with (- - c) by ring; rewrite E0; ring).
    unfold cn. clear cn. set (y := gi (n - 1)) in *. clearbody y. destruct (trichotomy c N) as [Hc|Hc]; [rewrite (fabs_pos c Hc) | rewrite (fabs_neg c Hc)]; destruct (Z.odd _).
    - rewrite PN by (try exact Hc; replace y with (- - y) by ring; apply flt_sub_0; replace (0 - - - y) with (- y) by ring; exact P). reflexivity.
    - rewrite PP by assumption. reflexivity.
    - replace (c * y) with (- c * - y) by ring. rewrite PP by (first [apply opp_pos; exact Hc | exact P]). cbn [Z.mul Z.leb Z.compare]. field. repeat split; first [exact N | exact Nm].
    - replace (c * y) with (y * c) by ring. rewrite PN by assumption. cbn [Z.mul Z.leb Z.compare]. field. repeat split; first [exact N | exact Nm]. }
  rewrite Ec. clearbody cn. clear cn Ec P.
  destruct (1 <=? fabs (1 / c))%F.
  - destruct (map_ok (fun v => v * (1 / c)) (Z.to_nat n) 0 t (fun k => c * gi k) ltac:(lia) ltac:(lia)) as [t' [Et [T1 _]]]; [intros; apply T; lia|].
    exists t'. split; [exact Et|]. intros k Hk. rewrite T1 by lia. f_equal. field. exact N.
  - destruct (map_ok (fun v => flush (tiny / fabs (1 / c)) v * (1 / c)) (Z.to_nat n) 0 t (fun k => c * gi k) ltac:(lia) ltac:(lia)) as [t' [Et [T1 _]]]; [intros; apply T; lia|].
    exists t'. split; [exact Et|]. intros k Hk. rewrite T1 by lia. f_equal. unfold flush.
    destruct (fabs (c * gi k) <? tiny / fabs (1 / c))%F eqn:E; [|field; exact N].
    destruct (Mo (lo + k)%Z ltac:(pose proof n_eq; lia)) as [Q|Q]; [rewrite Q; ring|]. exfalso.
    assert (Ab : fabs (c * gi k) = fabs c * fabs (gi k)).
    { clear. assert (Ap : forall x : F, 0 <= fabs x) by (intro; apply fabs_nonneg). apply fle_antisym; apply le_of_sq; try apply Ap; try (apply fmul_nonneg; apply Ap);
        (rewrite abs_sq; replace (fabs c * fabs (gi k) * (fabs c * fabs (gi k))) with (fabs c * fabs c * (fabs (gi k) * fabs (gi k))) by ring; rewrite !abs_sq;
         replace (c * gi k * (c * gi k)) with (c * c * (gi k * gi k)) by ring; apply fle_refl). }
    assert (Ai : fabs (1 / c) = 1 / fabs c).
    { destruct (trichotomy c N) as [H|H].
      - rewrite (fabs_pos c H). apply fabs_pos. apply fdiv_pos; [apply f0_lt_1 | exact H].
      - rewrite (fabs_neg c H). pose proof (opp_pos c H) as H'. pose proof (fdiv_pos 1 (- c) f0_lt_1 H') as K. rewrite fabs_neg; [field; split; first [exact N | apply fpos_neq; exact H']|].
        apply flt_sub_0. replace (0 - 1 / c) with (1 / - c) by (field; split; first [exact N | apply fpos_neq; exact H']). exact K. }
    assert (Pc : 0 < fabs c). { apply fle_neq_lt; [apply fabs_nonneg|]. intro Z0. apply N. apply fabs_eq0. congruence. }
    rewrite Ab, Ai in E. unfold fltb in E. apply negb_true_iff in E.
    assert (L : tiny / (1 / fabs c) <= fabs c * fabs (gi k)).
    { replace (tiny / (1 / fabs c)) with (fabs c * tiny) by (set (u := tiny); clearbody u; field; repeat split; first [apply fpos_neq; exact Pc | apply f1_neq_0]). apply fle_mul_l; apply flt_le; assumption. }
    unfold fle in L. rewrite L in E. discriminate.
Qed.

(** ** The whole function *)
Lemma one_symbol : n = 1%Z -> gi 0 = fofZ (sign2 l2 l3 m2 m3) / fsqrt (fofZ (lo + l2 + l3 + 1)).
Proof using SL Pr G.
  clear - SL Pr G. intro E. pose proof lo_0 as P0. pose proof n_eq as En. assert (Eh : hi = lo) by lia. assert (El : (lo + l2 + l3 + 1 = 2 * lo + 1)%Z) by (unfold l1max in Eh; lia). rewrite El.
  pose proof (ir_sign g G) as P. rewrite Eh in P. rewrite Z.add_0_r. pose proof S_n as Q. rewrite E in Q. change 1%Z with (0 + 1)%Z in Q. rewrite S_step, S_0 in Q by lia. rewrite !Z.add_0_r in Q.
  rewrite sign2_odd. set (w := (fofZ (2 * lo + 1) : F)) in *. assert (Pw : 0 < w) by (apply fofZ_pos; lia). pose proof (sq_pos w Pw) as Ps. pose proof (sl_sq SL w (flt_le _ _ Pw)) as Qs. clearbody w.
  pose proof (fpos_neq _ Ps) as Ns.
  assert (K : forall x, 0 < x -> w * x * x = 1 -> x = 1 / fsqrt w).
  { intros x Px Hx. pose proof (fpos_neq _ Px) as Nx. rewrite (sqrt_unique (1 / x) w).
    - field. split; [exact Nx | apply f1_neq_0].
    - apply fdiv_pos; [apply f0_lt_1 | exact Px].
    - transitivity (w * x * x * (1 / x * (1 / x))); [field; exact Nx | rewrite Hx; ring]. }
  destruct (Z.odd _).
  - assert (H : - g lo = 1 / fsqrt w) by (apply K; [exact P | rewrite <- Q; ring]). transitivity (- - g lo); [ring|]. rewrite H. change (-1)%Z with (- (1))%Z. rewrite fofZ_opp, fofZ_1. field. exact Ns.
  - rewrite fofZ_1. apply K; [exact P | rewrite <- Q; ring].
Qed.
Lemma values_ok t0 : exists t, drc3jj_values fsqrt big l2 l3 m2 m3 size t0 = Ok (lo, t) /\ forall k, (0 <= k < n)%Z -> t k = Some (gi k).
Proof using SL Pr G Mo Sz.
  clear - SL Pr G Mo Sz. pose proof n_pos as Pn. pose proof n_eq as En. unfold drc3jj_values.
  replace ((l2 - Z.abs m2 <? 0) || (l3 - Z.abs m3 <? 0))%Z with false by (symmetry; apply orb_false_iff; rewrite !Z.ltb_ge; destruct Pr; lia).
  replace (hi - lo <? 0)%Z with false by (symmetry; apply Z.ltb_ge; lia).
  destruct (Z.eqb_spec hi lo) as [Eh|Nh].
  - rewrite wr_ok by lia. cbn [bind]. eexists. split; [reflexivity|]. intros k Hk. replace k with 0%Z by lia. cbn [Z.eqb]. rewrite one_symbol by lia. reflexivity.
  - replace (size <? n)%Z with false by (symmetry; apply Z.ltb_ge; lia).
    destruct (FI_0 t0) as [s0 [E0 [I0 C0]]]. rewrite E0. cbn [bind].
    destruct (fwd_ok (Z.to_nat n) 0 s0 ltac:(lia) ltac:(lia) I0 (fun _ => C0)) as [e [s [E [I [He D]]]]]. rewrite E. cbn [bind].
    assert (X : exists c t, c <> 0 /\ (if (2 <? n)%Z then matched fsqrt big l2 l3 m2 m3 size s else Ok (f_sum1 s, f_thr s)) = Ok (c * c, t) /\ forall k, (0 <= k < n)%Z -> t k = Some (c * gi k)).
    { destruct (Z.ltb_spec 2 n) as [H|H]; [apply (matched_ok e); [lia | exact I]|]. assert (Ee : e = 1%Z) by lia. rewrite Ee in I. assert (E2 : n = (1 + 1)%Z) by lia.
      exists al, (f_thr s). split; [exact al_neq0|]. split; [|intros k Hk; apply (fi_thr _ _ I); lia]. rewrite (fi_sum1 _ _ I), <- E2, S_n. do 2 f_equal. ring. }
    destruct X as [c [t [Nc [Em T]]]]. rewrite Em. cbn [bind]. destruct (normalised_ok c t Nc T) as [t' [E' T']]. rewrite E'. cbn [bind].
    exists t'. split; [reflexivity | exact T'].
Qed.
End Proof.

(** The row is fixed by these relations. *)
Lemma unique (SL : sqrt_laws) (Pr : proper) (g g' : Z -> F) : is_row g -> is_row g' -> forall L, (lo <= L <= hi)%Z -> g' L = g L.
Proof.
  intros G G'. pose proof (lo_0) as P0. pose proof (n_pos Pr) as Pn. pose proof n_eq as En. pose proof (first_neq0 g SL Pr G) as N0. set (r := g' (lo + 0)%Z / g (lo + 0)%Z).
  assert (E : forall k : nat, (Z.of_nat k <= n - 1)%Z -> g' (lo + Z.of_nat k)%Z = r * g (lo + Z.of_nat k)%Z).
  { induction k as [k IH] using lt_wf_ind. intro Hk. destruct k as [|[|k]].
    - change (Z.of_nat 0) with 0%Z. unfold r. field. exact N0.
    - change (Z.of_nat 1) with 1%Z. rewrite (rel_fwd1 g SL Pr G ltac:(lia)), (rel_fwd1 g' SL Pr G' ltac:(lia)).
      pose proof (IH 0%nat ltac:(lia) ltac:(lia)) as I. change (Z.of_nat 0) with 0%Z in I. rewrite I. ring.
    - rewrite (rel_fwd g SL Pr G (Z.of_nat (S (S k))) ltac:(lia)), (rel_fwd g' SL Pr G' (Z.of_nat (S (S k))) ltac:(lia)).
      replace (Z.of_nat (S (S k)) - 1)%Z with (Z.of_nat (S k)) by lia. replace (Z.of_nat (S (S k)) - 2)%Z with (Z.of_nat k) by lia.
      rewrite (IH (S k)), (IH k) by lia. ring. }
  assert (R2 : r * r = 1).
  { transitivity (r * r * S_ g n); [rewrite (S_n g G); ring|]. rewrite <- (S_n g' G'). unfold S_. rewrite <- sum_mul_l. symmetry. apply sum_ext. intros k Hk. rewrite (E k) by lia. ring. }
  assert (Eh : g' hi = r * g hi).
  { replace hi with (lo + Z.of_nat (Z.to_nat (n - 1)))%Z by lia. apply E. lia. }
  assert (R1 : r = 1).
  { assert (Q : (r - 1) * (r + 1) = 0) by (transitivity (r * r - 1); [ring | rewrite R2; ring]). apply fmul_eq_0 in Q. destruct Q as [Q|Q]; [transitivity (r - 1 + 1); [ring | rewrite Q; ring]|]. exfalso.
    pose proof (ir_sign g G) as S1. pose proof (ir_sign g' G') as S2. rewrite Eh in S2. replace r with (- (1) : F) in S2 by (transitivity (r + 1 - 1 - (r + 1)); [rewrite Q; ring | transitivity (- (1) : F); [ring | transitivity (r - (r + 1)); [ring | rewrite Q; ring]]]).
    assert (PO : forall x : F, 0 < x -> 0 < - x -> False).
    { intros x H1 H2. assert (H : 0 < x + - x) by (replace (0 : F) with (0 + 0 : F) by ring; apply flt_le_add; [exact H1 | apply flt_le; exact H2]).
      replace (x + - x) with (0 : F) in H by ring. exact (flt_irrefl _ H). }
    destruct (Z.odd _); apply (PO _ S1).
    - replace (- - g hi) with (- (- (1) * g hi)) by ring. exact S2.
    - replace (- g hi) with (- (1) * g hi) by ring. exact S2. }
  intros L HL. replace L with (lo + Z.of_nat (Z.to_nat (L - lo)))%Z by lia. rewrite (E (Z.to_nat (L - lo))) by lia. rewrite R1. ring.
Qed.

(** ** Property C92 *)
(** whatever the array holds at first, drc3jj returns the smallest l1 and fills the array with the row; no access is
    out of bounds, no variable is used before it has a value *)
Theorem C92_symbols size (g : Z -> F) t0 : sqrt_laws -> proper -> is_row g -> moderate g -> (n <= size)%Z ->
  exists t, drc3jj_values fsqrt big l2 l3 m2 m3 size t0 = Ok (lo, t) /\ forall L, (lo <= L <= hi)%Z -> t (L - lo)%Z = Some (g L).
Proof.
  intros SL Pr G Mo Sz. destruct (values_ok size g SL Pr G Mo Sz t0) as [t [E T]]. exists t. split; [exact E|].
  intros L HL. rewrite T by (rewrite n_eq; lia). do 2 f_equal. lia.
Qed.
(** at most one row satisfies the relations *)
Theorem C92_unique (g g' : Z -> F) : sqrt_laws -> proper -> is_row g -> is_row g' -> forall L, (lo <= L <= hi)%Z -> g' L = g L.
Proof. intros SL Pr. exact (unique SL Pr g g'). Qed.
(** symbols with |m| > l are zero *)
Theorem C92_improper size t0 : ~ proper -> (n <= size)%Z ->
  exists t, drc3jj_values fsqrt big l2 l3 m2 m3 size t0 = Ok (lo, t) /\ forall L, (lo <= L <= hi)%Z -> t (L - lo)%Z = Some 0.
Proof.
  intros Pr Sz. unfold drc3jj_values.
  replace ((l2 - Z.abs m2 <? 0) || (l3 - Z.abs m3 <? 0))%Z with true.
  2:{ symmetry. apply orb_true_iff. rewrite !Z.ltb_lt. unfold proper in Pr. lia. }
  match goal with |- context [do t <- ?z (Z.to_nat (hi - lo + 1)) 0%Z t0; _] => set (zero := z) end.
  assert (X : forall k i (t : thr (F:=F)), (0 <= i)%Z -> (i + Z.of_nat k <= size)%Z ->
    exists t', zero k i t = Ok t' /\ (forall j, (i <= j < i + Z.of_nat k)%Z -> t' j = Some 0) /\ (forall j, (j < i)%Z -> t' j = t j)).
  { induction k as [|k IH]; intros i t Hi Hk; [exists t; split; [reflexivity | split; [intros; lia | reflexivity]]|].
    unfold zero. cbn beta iota. fold zero. rewrite (wr_ok (i + 1 + Z.of_nat k)) || idtac. unfold t_wr.
    replace ((0 <=? i) && (i <? size))%Z with true by (symmetry; apply andb_true_iff; rewrite Z.leb_le, Z.ltb_lt; lia). cbn [bind].
    destruct (IH (i + 1)%Z (fun j => if (j =? i)%Z then Some 0 else t j) ltac:(lia) ltac:(lia)) as [t' [E [T1 T2]]].
    exists t'. split; [exact E|]. split.
    - intros j Hj. destruct (Z.eq_dec j i) as [-> |N]; [rewrite T2, Z.eqb_refl by lia; reflexivity | apply T1; lia].
    - intros j Hj. rewrite T2 by lia. replace (j =? i)%Z with false by (symmetry; apply Z.eqb_neq; lia). reflexivity. }
  destruct (Z.le_gt_cases 0 n) as [P|P].
  - destruct (X (Z.to_nat (hi - lo + 1)) 0%Z t0 ltac:(lia) ltac:(unfold nfin in *; lia)) as [t' [E [T _]]]. rewrite E. cbn [bind]. exists t'. split; [reflexivity|].
    intros L HL. apply T. unfold nfin in P. lia.
  - replace (Z.to_nat (hi - lo + 1)) with 0%nat by (unfold nfin in P; lia). exists t0. split; [reflexivity|]. intros L HL. unfold nfin in P. lia.
Qed.
(** the coupling code calls drc3jj with an array that is long enough, and what it then reads, in the model of
    M_MCM.v where the symbols are a parameter, is what drc3jj stores *)
Theorem C92_in_coupling (w3j : Z -> Z -> Z -> Z -> Z -> F) (c : conf F) (b : buf F) t0 :
  sqrt_laws -> proper -> is_row (w3j l2 l3 m2 m3) -> moderate (w3j l2 l3 m2 m3) -> (Z.min l2 l3 <= c_lmm c)%Z -> Z.of_nat (length b) = bsize c ->
  exists b' t, drc3jj (F:=F) w3j c l2 l3 m2 m3 b = Ok (lo, b') /\ drc3jj_values fsqrt big l2 l3 m2 m3 (bsize c) t0 = Ok (lo, t) /\
    forall L, (lo <= L <= hi)%Z -> exists v, buf_rd b' (L - lo)%Z = Ok v /\ t (L - lo)%Z = Some v.
Proof.
  intros SL Pr G Mo Hm Hb. pose proof Pr as [P2 P3].
  assert (Sz : (n <= bsize c)%Z) by (unfold nfin, l1max, l1min, bsize; lia).
  destruct (C92_symbols (bsize c) (w3j l2 l3 m2 m3) t0 SL Pr G Mo Sz) as [t [E T]].
  destruct (drc3jj_ok w3j c l2 l3 m2 m3 b ltac:(lia) ltac:(lia) Hm Hb) as [b' [E' [_ T']]].
  exists b', t. split; [exact E'|]. split; [exact E|]. intros L HL. exists (w3j l2 l3 m2 m3 L). split; [|apply T; exact HL].
  specialize (T' L HL). unfold g3j in T'. replace ((l2 - Z.abs m2 <? 0) || (l3 - Z.abs m3 <? 0))%Z with false in T' by (symmetry; apply orb_false_iff; rewrite !Z.ltb_ge; lia). exact T'.
Qed.
End Row.
End Statements.

(** ** A concrete case: (L 1 1; 0 1 -1) = 1/sqrt 3, 1/sqrt 6, 1/sqrt 30 for L = 0, 1, 2 *)
Section Example.
Definition bigR : R := IZR (895 * 10 ^ 304).
Definition rowR (L : Z) : R := (if L =? 0 then / sqrt 3 else if L =? 1 then / (sqrt 2 * sqrt 3) else if L =? 2 then / (sqrt 2 * sqrt 3 * sqrt 5) else 0)%R.
Lemma sqrt_lawsR : sqrt_laws (F:=R_field) sqrt bigR.
Proof.
  constructor.
  - intros x H. apply R_le in H. exact (sqrt_sqrt x H).
  - intros x H. apply R_le. apply sqrt_pos.
  - apply R_lt. unfold bigR. apply (IZR_lt 0). reflexivity.
Qed.
Lemma s2 : (sqrt 2 * sqrt 2 = 2)%R. Proof. apply sqrt_sqrt. lra. Qed.
Lemma s3 : (sqrt 3 * sqrt 3 = 3)%R. Proof. apply sqrt_sqrt. lra. Qed.
Lemma s5 : (sqrt 5 * sqrt 5 = 5)%R. Proof. apply sqrt_sqrt. lra. Qed.
Lemma p2 : (0 < sqrt 2)%R. Proof. apply sqrt_lt_R0. lra. Qed.
Lemma p3 : (0 < sqrt 3)%R. Proof. apply sqrt_lt_R0. lra. Qed.
Lemma p5 : (0 < sqrt 5)%R. Proof. apply sqrt_lt_R0. lra. Qed.
Lemma AR z (x : R) : (0 <= x)%R -> (x * x = IZR (Asq 1 1 1 (-1) z))%R -> A (F:=R_field) sqrt 1 1 1 (-1) z = x.
Proof. intros P E. unfold A. rewrite fofZ_IZR, <- E. exact (sqrt_square x P). Qed.
Example C92_case : proper 1 1 1 (-1) /\ is_row (F:=R_field) sqrt 1 1 1 (-1) rowR /\ moderate (F:=R_field) sqrt bigR 1 1 1 (-1) rowR /\
  exists t, drc3jj_values (F:=R_field) sqrt bigR 1 1 1 (-1) 3 (fun _ => None) = Ok (0, t) /\
    t 0 = Some (/ sqrt 3)%R /\ t 1 = Some (/ (sqrt 2 * sqrt 3))%R /\ t 2 = Some (/ (sqrt 2 * sqrt 3 * sqrt 5))%R.
Proof.
  pose proof s2 as E2. pose proof s3 as E3. pose proof s5 as E5. pose proof p2 as P2. pose proof p3 as P3. pose proof p5 as P5.
  assert (Pr : proper 1 1 1 (-1)) by (unfold proper; lia).
  assert (A0 : A (F:=R_field) sqrt 1 1 1 (-1) 0 = 0%R) by (apply AR; [lra | cbn; ring]).
  assert (A1 : A (F:=R_field) sqrt 1 1 1 (-1) 1 = (2 * sqrt 2)%R) by (apply AR; [lra | change (IZR (Asq 1 1 1 (-1) 1)) with 8%R; replace (2 * sqrt 2 * (2 * sqrt 2))%R with (4 * (sqrt 2 * sqrt 2))%R by ring; rewrite E2; ring]).
  assert (A2 : A (F:=R_field) sqrt 1 1 1 (-1) 2 = (4 * sqrt 5)%R) by (apply AR; [lra | change (IZR (Asq 1 1 1 (-1) 2)) with 80%R; replace (4 * sqrt 5 * (4 * sqrt 5))%R with (16 * (sqrt 5 * sqrt 5))%R by ring; rewrite E5; ring]).
  assert (A3 : A (F:=R_field) sqrt 1 1 1 (-1) 3 = 0%R) by (apply AR; [lra | cbn; ring]).
  assert (G : is_row (F:=R_field) sqrt 1 1 1 (-1) rowR).
  { constructor.
    - change (l1min 1 1 1 (-1)) with 0%Z. change (l1max 1 1) with 2%Z. intros L HL. assert (X : (L = 0 \/ L = 1 \/ L = 2)%Z) by lia. rewrite !fofZ_IZR. destruct X as [-> |[-> | ->]].
      + change (0 + 1)%Z with 1%Z. change (D 1 1 1 (-1) 0) with 0%Z. rewrite A0. match goal with |- @eq _ ?a ?b => change (@eq R a b) end. cbn -[rowR sqrt A]. ring.
      + change (1 + 1)%Z with 2%Z. change (1 - 1)%Z with 0%Z. change (D 1 1 1 (-1) 1) with (-4)%Z. rewrite A1, A2. unfold rowR. cbn [Z.eqb Pos.eqb]. change (2 * 1 + 1)%Z with 3%Z.
        match goal with |- @eq _ ?a ?b => change (@eq R a b) end. cbn -[sqrt].
        transitivity ((4 - 12 + 4 * (sqrt 2 * sqrt 2)) / (sqrt 2 * sqrt 3))%R; [field; lra | rewrite E2; field; lra].
      + change (2 + 1)%Z with 3%Z. change (2 - 1)%Z with 1%Z. change (D 1 1 1 (-1) 2) with (-12)%Z. rewrite A3, A2. unfold rowR. cbn [Z.eqb Pos.eqb]. change (2 * 2 + 1)%Z with 5%Z.
        match goal with |- @eq _ ?a ?b => change (@eq R a b) end. cbn -[sqrt].
        transitivity ((-60 + 12 * (sqrt 5 * sqrt 5)) / (sqrt 2 * sqrt 3 * sqrt 5))%R; [field; lra | rewrite E5; field; lra].
    - intros _. rewrite A1, fofZ_IZR. unfold rowR. cbn [Z.eqb Pos.eqb]. match goal with |- @eq _ ?a ?b => change (@eq R a b) end. cbn -[sqrt]. field. lra.
    - change (l1min 1 1 1 (-1)) with 0%Z. change (Z.to_nat (nfin 1 1 1 (-1))) with 3%nat. cbn [sum]. rewrite !fofZ_IZR. unfold rowR. cbn [Z.of_nat Z.add Z.mul Pos.mul Pos.add Pos.succ Pos.of_succ_nat Z.eqb Pos.eqb].
      match goal with |- @eq _ ?a ?b => change (@eq R a b) end. cbn -[sqrt].
      transitivity (/ (sqrt 3 * sqrt 3) + 3 / (sqrt 2 * sqrt 2 * (sqrt 3 * sqrt 3)) + 5 / (sqrt 2 * sqrt 2 * (sqrt 3 * sqrt 3) * (sqrt 5 * sqrt 5)))%R; [field; lra | rewrite E2, E3, E5; field].
    - change (l1max 1 1) with 2%Z. change (Z.odd (1 - 1 + 1 + -1)) with false. apply R_lt. unfold rowR. cbn [Z.eqb Pos.eqb]. apply Rinv_0_lt_compat. repeat apply Rmult_lt_0_compat; assumption. }
  assert (Bg : (1000 < sqrt bigR)%R).
  { replace 1000%R with (sqrt (1000 * 1000)) by (apply sqrt_square; lra). apply sqrt_lt_1; [lra | |]; unfold bigR; [apply (IZR_le 0); discriminate|].
    rewrite <- mult_IZR. apply IZR_lt. reflexivity. }
  assert (B2 : (sqrt 2 < 2)%R) by nra. assert (B3 : (sqrt 3 < 2)%R) by nra. assert (B5 : (sqrt 5 < 3)%R) by nra.
  assert (Q1 : (0 < sqrt 2 * sqrt 3 < 4)%R) by (clear - P2 P3 B2 B3; split; [apply Rmult_lt_0_compat; assumption | nra]).
  assert (Q2 : (0 < sqrt 2 * sqrt 3 * sqrt 5 < 12)%R) by (clear - Q1 P5 B5; split; [apply Rmult_lt_0_compat; tauto | nra]).
  assert (Mo : moderate (F:=R_field) sqrt bigR 1 1 1 (-1) rowR).
  { intros L HL. right. change (l1min 1 1 1 (-1)) with 0%Z in HL. change (l1max 1 1) with 2%Z in HL. assert (X : (L = 0 \/ L = 1 \/ L = 2)%Z) by lia. apply R_lt. unfold tiny, huge.
    assert (K : forall y, (0 < y < 1000)%R -> (1 / sqrt bigR < fabs (F:=R_field) (Rinv y))%R).
    { intros y Hy. assert (Q : (0 < / y)%R) by (apply Rinv_0_lt_compat; lra). rewrite (fabs_pos (F:=R_field)) by (apply R_lt; exact Q). unfold Rdiv. rewrite Rmult_1_l. apply Rinv_lt_contravar; [apply Rmult_lt_0_compat; lra | lra]. }
    destruct X as [-> |[-> | ->]]; unfold rowR; cbn [Z.eqb Pos.eqb]; apply K; split; lra. }
  split; [exact Pr|]. split; [exact G|]. split; [exact Mo|].
  destruct (C92_symbols (F:=R_field) sqrt bigR 1 1 1 (-1) 3 rowR (fun _ => None) sqrt_lawsR Pr G Mo ltac:(reflexivity || (cbv; discriminate))) as [t [E T]].
  exists t. split; [exact E|]. split; [exact (T 0%Z ltac:(cbv; split; discriminate))|]. split; [exact (T 1%Z ltac:(cbv; split; discriminate)) | exact (T 2%Z ltac:(cbv; split; discriminate))].
Qed.
End Example.

Print Assumptions C92_symbols.
Print Assumptions C92_unique.
Print Assumptions C92_improper.
Print Assumptions C92_in_coupling.
