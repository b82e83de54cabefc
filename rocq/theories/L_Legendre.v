(** Legendre polynomials and the expansion of their products (the formula of F. Neumann and Adams), over any
    ordered field; lemmas for C91. *)
From Verif Require Import Base.
Open Scope Z_scope.

Section Legendre.
Context {F : ofield}.
Local Open Scope F_scope.
Add Field FfLeg : (fth F).

(** the Legendre polynomials by Bonnet's recursion: [legs x n] = (P_n, P_(n+1)) *)
Fixpoint legs (x : F) (n : nat) : F * F :=
  match n with
  | O => (1, x)
  | S m => let '(a, b) := legs x m in (b, (fofnat (2 * m + 3) * x * b - fofnat (S m) * a) / fofnat (S (S m)))
  end.
Definition leg (x : F) (n : nat) : F := fst (legs x n).
Lemma leg_0 x : leg x 0 = 1. Proof. reflexivity. Qed.
Lemma leg_1 x : leg x 1 = x. Proof. reflexivity. Qed.
Lemma legs_snd x n : snd (legs x n) = leg x (S n).
Proof. unfold leg. cbn [legs]. destruct (legs x n). reflexivity. Qed.
Lemma leg_SS x n : fofnat (S (S n)) * leg x (S (S n)) = fofnat (2 * n + 3) * x * leg x (S n) - fofnat (S n) * leg x n.
Proof.
  rewrite <- (legs_snd x (S n)). cbn [legs]. rewrite <- (legs_snd x n). unfold leg. destruct (legs x n) as [a b]. cbn [fst snd].
  field. apply fofnat_neq0.
Qed.
Lemma two_m_1 m : (fofnat (2 * m + 1) : F) = (1 + 1) * fofnat m + 1.
Proof. rewrite fofnat_add, fofnat_mul. cbn [fofnat]. ring. Qed.
Lemma fS m : (fofnat (S m) : F) = fofnat m + 1.
Proof. replace (S m) with (m + 1)%nat by lia. rewrite fofnat_add. cbn [fofnat]. ring. Qed.
Lemma leg_rec x m : fofnat (S m) * leg x (S m) = fofnat (2 * m + 1) * x * leg x m - fofnat m * leg x (pred m).
Proof.
  destruct m as [|m]; [cbn [pred]; rewrite leg_1, leg_0; cbn [fofnat Nat.mul Nat.add]; ring|]. rewrite leg_SS. replace (2 * S m + 1)%nat with (2 * m + 3)%nat by lia. reflexivity.
Qed.
Lemma leg_at_1 n : leg 1 n = 1.
Proof.
  assert (H : leg 1 n = 1 /\ leg 1 (S n) = 1); [|apply H]. induction n as [|n [A B]]; [split; reflexivity|]. split; [exact B|].
  assert (E : fofnat (S (S n)) * leg 1 (S (S n)) = fofnat (S (S n)) * 1).
  { rewrite leg_SS, A, B. replace (2 * n + 3)%nat with (2 * S n + 1)%nat by lia. rewrite two_m_1, !fS. ring. }
  apply fsub_0_eq.
  assert (Z0 : fofnat (S (S n)) * (leg 1 (S (S n)) - 1) = 0) by (transitivity (fofnat (S (S n)) * leg 1 (S (S n)) - fofnat (S (S n)) * 1); [ring | rewrite E; ring]).
  apply fmul_eq_0 in Z0. destruct Z0 as [Z0|Z0]; [|exact Z0]. exfalso. exact (fofnat_neq0 _ Z0).
Qed.

(** central binomial coefficients (2k)!/k!^2, zero for negative k *)
Fixpoint cb (k : nat) : F := match k with O => 1 | S j => cb j * ((1 + 1) * ((1 + 1) * fofnat j + 1)) / fofnat (S j) end.
Definition cz (z : Z) : F := if (z <? 0)%Z then 0 else cb (Z.to_nat z).
Lemma cz_nat k : cz (Z.of_nat k) = cb k.
Proof. unfold cz. replace (Z.of_nat k <? 0)%Z with false by (symmetry; apply Z.ltb_ge; lia). rewrite Nat2Z.id. reflexivity. Qed.
Lemma cz_neg z : (z < 0)%Z -> cz z = 0.
Proof. intro H. unfold cz. apply Z.ltb_lt in H. rewrite H. reflexivity. Qed.
Lemma cb_neq0 k : cb k <> 0.
Proof.
  induction k as [|k IH]; cbn [cb]; [apply f1_neq_0|]. intro E.
  assert (Z0 : cb k * ((1 + 1) * ((1 + 1) * fofnat k + 1)) = 0).
  { transitivity (cb k * ((1 + 1) * ((1 + 1) * fofnat k + 1)) / fofnat (S k) * fofnat (S k)); [field; apply fofnat_neq0 | rewrite E; ring]. }
  apply fmul_eq_0 in Z0. destruct Z0 as [Z0|Z0]; [exact (IH Z0)|]. rewrite <- two_m_1 in Z0.
  replace (1 + 1 : F) with (fofnat 2 : F) in Z0 by (cbn; ring). rewrite <- fofnat_mul in Z0. replace (2 * (2 * k + 1))%nat with (S (4 * k + 1)) in Z0 by lia.
  exact (fofnat_neq0 _ Z0).
Qed.
Lemma cz_neq0 z : (0 <= z)%Z -> cz z <> 0.
Proof. intro H. destruct (Z_of_nat_complete z H) as [k ->]. rewrite cz_nat. apply cb_neq0. Qed.
Lemma cz_rec z : fofZ (z + 1) * cz (z + 1) = (1 + 1) * ((1 + 1) * fofZ z + 1) * cz z.
Proof.
  destruct (Z.lt_trichotomy z (-1)) as [H|[-> |H]].
  - rewrite !cz_neg by lia. ring.
  - change (-1 + 1)%Z with 0%Z. rewrite (cz_neg (-1)) by lia. change (fofZ 0 : F) with (0 : F). ring.
  - destruct (Z_of_nat_complete z ltac:(lia)) as [k ->]. replace (Z.of_nat k + 1)%Z with (Z.of_nat (S k)) by lia.
    rewrite !cz_nat, !fofZ_of_nat. cbn [cb]. field. apply fofnat_neq0.
Qed.

(** squares of (a b c; 0 0 0): with J = a + b + c = 2 g, cb(g-a) cb(g-b) cb(g-c) / ((2g+1) cb(g)) *)
Definition T3 (a b c : Z) : F :=
  if Z.odd (a + b + c) then 0 else
  let g := ((a + b + c) / 2)%Z in cz (g - a) * cz (g - b) * cz (g - c) / (fofZ (2 * g + 1) * cz g).
Lemma T3_even a b c g : (a + b + c = 2 * g)%Z -> T3 a b c = cz (g - a) * cz (g - b) * cz (g - c) / (fofZ (2 * g + 1) * cz g).
Proof.
  intro H. unfold T3. rewrite H. replace (Z.odd (2 * g)) with false by (rewrite Z.odd_mul; reflexivity). cbv zeta.
  replace (2 * g / 2)%Z with g by (rewrite Z.mul_comm, Z.div_mul; lia). reflexivity.
Qed.
Lemma T3_odd a b c : Z.odd (a + b + c) = true -> T3 a b c = 0.
Proof. intro H. unfold T3. rewrite H. reflexivity. Qed.
Lemma parity z : (exists g, z = 2 * g)%Z \/ Z.odd z = true.
Proof. destruct (Z.odd z) eqn:E; [auto|left]. exists (z / 2)%Z. rewrite <- Z.negb_even in E. apply negb_false_iff in E. apply Z.even_spec in E. destruct E as [k ->]. rewrite Z.mul_comm, Z.div_mul; lia. Qed.
Lemma T3_swap a b c : T3 a b c = T3 b a c.
Proof.
  destruct (parity (a + b + c)) as [[g G]|O]; [|rewrite !T3_odd by (try exact O; rewrite (Z.add_comm b a); exact O); reflexivity].
  rewrite (T3_even a b c g), (T3_even b a c g) by lia. f_equal. ring.
Qed.
Lemma T3_rot a b c : T3 a b c = T3 a c b.
Proof.
  destruct (parity (a + b + c)) as [[g G]|O]; [|rewrite !T3_odd by (try exact O; replace (a + c + b)%Z with (a + b + c)%Z by lia; exact O); reflexivity].
  rewrite (T3_even a b c g), (T3_even a c b g) by lia. f_equal. ring.
Qed.
(** zero outside the triangle *)
Lemma T3_out a b c : (0 <= a)%Z -> (0 <= b)%Z -> (a + b < c)%Z -> T3 a b c = 0.
Proof.
  intros Ha Hb H. destruct (parity (a + b + c)) as [[g G]|O]; [|apply T3_odd; exact O].
  rewrite (T3_even a b c g) by lia. rewrite (cz_neg (g - c)) by lia.
  field. split; first [apply cz_neq0; lia | apply fofZ_neq0; lia].
Qed.
Lemma T3_0 n c : (0 <= n)%Z -> (0 <= c)%Z -> T3 0 n c = if (n =? c)%Z then 1 / fofZ (2 * n + 1) else 0.
Proof.
  intros Hn Hc. destruct (Z.eqb_spec n c) as [<-|N].
  - rewrite (T3_even 0 n n n) by lia. rewrite Z.sub_0_r, Z.sub_diag. change (cz 0) with (1 : F).
    field. split; first [apply cz_neq0; lia | apply fofZ_neq0; lia].
  - destruct (Z.lt_ge_cases n c) as [L|L]; [apply T3_out; lia|]. rewrite T3_rot. apply T3_out; lia.
Qed.
(** the recursion in the first argument *)
Lemma T3_rec m n L : (0 <= m)%Z -> (0 <= n)%Z -> (0 <= L)%Z ->
  fofZ (m + 1) * fofZ (2 * L + 1) * T3 (m + 1) n L + fofZ m * fofZ (2 * L + 1) * T3 (m - 1) n L
  = fofZ (2 * m + 1) * (fofZ L * T3 m n (L - 1) + fofZ (L + 1) * T3 m n (L + 1)).
Proof.
  intros Hm Hn HL. destruct (parity (m + 1 + n + L)) as [[g G]|O].
  2:{ rewrite (T3_odd (m + 1)) by exact O. rewrite (T3_odd (m - 1)), (T3_odd m n (L - 1)), (T3_odd m n (L + 1)); [ring | | |];
      [replace (m + n + (L + 1))%Z with (m + 1 + n + L)%Z by lia; exact O
      |replace (m + n + (L - 1))%Z with (m + 1 + n + L + -2)%Z by lia; rewrite Z.odd_add, O; reflexivity
      |replace (m - 1 + n + L)%Z with (m + 1 + n + L + -2)%Z by lia; rewrite Z.odd_add, O; reflexivity]. }
  rewrite (T3_even (m + 1) n L g), (T3_even (m - 1) n L (g - 1)), (T3_even m n (L - 1) (g - 1)), (T3_even m n (L + 1) g) by lia.
  set (p := (g - (m + 1))%Z). set (q := (g - n)%Z). set (r := (g - L)%Z).
  assert (EG : g = (p + q + r)%Z) by lia. assert (EL : L = (p + q)%Z) by lia. assert (Em : m = (q + r - 1)%Z) by lia.
  replace (g - 1 - (m - 1))%Z with (p + 1)%Z by lia. replace (g - 1 - n)%Z with (q - 1)%Z by lia. replace (g - 1 - L)%Z with (r - 1)%Z by lia.
  replace (g - 1 - m)%Z with p by lia. replace (g - 1 - (L - 1))%Z with r by lia. replace (g - m)%Z with (p + 1)%Z by lia. replace (g - (L + 1))%Z with (r - 1)%Z by lia.
  pose proof (cz_rec p) as RP. pose proof (cz_rec (q - 1)) as RQ. pose proof (cz_rec (r - 1)) as RR. pose proof (cz_rec (g - 1)) as RG.
  replace (q - 1 + 1)%Z with q in RQ by lia. replace (r - 1 + 1)%Z with r in RR by lia. replace (g - 1 + 1)%Z with g in RG by lia.
  assert (NG : cz g <> 0) by (apply cz_neq0; lia). assert (NG' : cz (g - 1) <> 0) by (apply cz_neq0; lia).
  assert (Ng : (fofZ g : F) <> 0) by (apply fofZ_neq0; lia). assert (Ng1 : (fofZ (2 * g + 1) : F) <> 0) by (apply fofZ_neq0; lia).
  assert (Ng2 : (fofZ (2 * (g - 1) + 1) : F) <> 0) by (apply fofZ_neq0; lia).
  assert (odd0 : forall z, (fofZ (2 * z + 1) : F) <> 0) by (intro z; apply fofZ_neq0; lia).
  assert (two : (fofZ 2 : F) = 1 + 1) by (cbn; ring).
  assert (N2 : (1 + 1 : F) <> 0) by (rewrite <- two; apply fofZ_neq0; lia).
  pose proof (odd0 p) as Np. pose proof (odd0 (q - 1)%Z) as Nq. pose proof (odd0 (r - 1)%Z) as Nr.
  assert (EP : cz p = fofZ (p + 1) * cz (p + 1) / ((1 + 1) * fofZ (2 * p + 1))).
  { rewrite RP. rewrite fofZ_add, fofZ_mul, two, fofZ_1 in Np |- *. field. split; assumption. }
  assert (EQ : cz (q - 1) = fofZ q * cz q / ((1 + 1) * fofZ (2 * (q - 1) + 1))).
  { rewrite RQ. rewrite fofZ_add, fofZ_mul, two, fofZ_1 in Nq |- *. field. split; assumption. }
  assert (ER : cz (r - 1) = fofZ r * cz r / ((1 + 1) * fofZ (2 * (r - 1) + 1))).
  { rewrite RR. rewrite fofZ_add, fofZ_mul, two, fofZ_1 in Nr |- *. field. split; assumption. }
  assert (EG' : cz (g - 1) = fofZ g * cz g / ((1 + 1) * fofZ (2 * (g - 1) + 1))).
  { rewrite RG. rewrite fofZ_add, fofZ_mul, two, fofZ_1 in Ng2 |- *. field. split; assumption. }
  rewrite EP, EQ, ER, EG'. clear EP EQ ER EG' RP RQ RR RG NG'. clearbody p q r. subst L m. 
  generalize dependent (cz g). generalize (cz (p + 1)) (cz q) (cz r). intros a b c e Ne. subst g.
  rewrite ?fofZ_add, ?fofZ_mul, ?fofZ_sub, ?fofZ_add, ?fofZ_mul, ?two, ?fofZ_1 in *.
  revert Ng Ng1 Ng2 Np Nq Nr. generalize (fofZ p : F) (fofZ q : F) (fofZ r : F). clear - N2 Ne. intros p q r. intros.
  field. repeat split; assumption.
Qed.

(** ** Products of Legendre polynomials *)
Lemma sum_shift n (f : nat -> F) : sum n (fun i => f (S i)) = sum n f + f n - f 0%nat.
Proof. assert (E : sum (S n) f = sum n f + f n) by reflexivity. rewrite sum_S_l in E. transitivity (f 0%nat + sum n (fun i => f (S i)) - f 0%nat); [ring | rewrite E; ring]. Qed.
Definition expand (x : F) (N m n : nat) : F := sum N (fun L => fofnat (2 * L + 1) * T3 (Z.of_nat m) (Z.of_nat n) (Z.of_nat L) * leg x L).
Lemma expand_rec x N m n : (m + n + 1 < N)%nat ->
  fofnat (S m) * expand x N (S m) n = fofnat (2 * m + 1) * x * expand x N m n - fofnat m * expand x N (pred m) n.
Proof.
  intro HN. set (t := fun L => T3 (Z.of_nat m) (Z.of_nat n) L).
  assert (X : x * expand x N m n = sum N (fun L => (fofnat L * t (Z.of_nat L - 1)%Z + fofnat (S L) * t (Z.of_nat L + 1)%Z) * leg x L)).
  { unfold expand. rewrite <- sum_mul_l.
    transitivity (sum N (fun L => (fofnat (S L) * t (Z.of_nat L) * leg x (S L)) + (fofnat L * t (Z.of_nat L) * leg x (pred L)))).
    - apply sum_ext. intros L HL. pose proof (leg_rec x L) as B. fold (t (Z.of_nat L)).
      transitivity (t (Z.of_nat L) * (fofnat (S L) * leg x (S L) + fofnat L * leg x (pred L))); [rewrite B; ring | ring].
    - rewrite sum_add.
      pose proof (sum_shift N (fun L => fofnat L * t (Z.of_nat L - 1)%Z * leg x L)) as S1. cbv beta in S1.
      rewrite (sum_ext N (fun i => fofnat (S i) * t (Z.of_nat (S i) - 1)%Z * leg x (S i)) (fun L => fofnat (S L) * t (Z.of_nat L) * leg x (S L))) in S1
        by (intros L HL; replace (Z.of_nat (S L) - 1)%Z with (Z.of_nat L) by lia; reflexivity).
      pose proof (sum_shift N (fun L => fofnat L * t (Z.of_nat L) * leg x (pred L))) as S2. cbv beta in S2.
      rewrite (sum_ext N (fun i => fofnat (S i) * t (Z.of_nat (S i)) * leg x (pred (S i))) (fun L => fofnat (S L) * t (Z.of_nat L + 1)%Z * leg x L)) in S2
        by (intros L HL; cbn [pred]; replace (Z.of_nat (S L)) with (Z.of_nat L + 1)%Z by lia; reflexivity).
      assert (Z1 : t (Z.of_nat N - 1)%Z = 0) by (apply T3_out; lia). assert (Z2 : t (Z.of_nat N) = 0) by (apply T3_out; lia).
      rewrite Z1 in S1. rewrite Z2 in S2. change (fofnat 0 : F) with (0 : F) in S1, S2.
      rewrite S1. replace (sum N (fun L => fofnat L * t (Z.of_nat L) * leg x (pred L))) with (sum N (fun L => fofnat (S L) * t (Z.of_nat L + 1)%Z * leg x L)) by (rewrite S2; ring).
      transitivity (sum N (fun L => fofnat L * t (Z.of_nat L - 1)%Z * leg x L) + sum N (fun L => fofnat (S L) * t (Z.of_nat L + 1)%Z * leg x L)); [ring|].
      rewrite <- sum_add. apply sum_ext. intros L HL. ring. }
  transitivity (fofnat (2 * m + 1) * (x * expand x N m n) - fofnat m * expand x N (pred m) n); [|ring]. rewrite X. clear X.
  unfold expand. rewrite <- !sum_mul_l, <- sum_sub. apply sum_ext. intros L HL.
  pose proof (T3_rec (Z.of_nat m) (Z.of_nat n) (Z.of_nat L) ltac:(lia) ltac:(lia) ltac:(lia)) as R.
  replace (Z.of_nat m + 1)%Z with (Z.of_nat (S m)) in R by lia. replace (2 * Z.of_nat L + 1)%Z with (Z.of_nat (2 * L + 1)) in R by lia.
  replace (2 * Z.of_nat m + 1)%Z with (Z.of_nat (2 * m + 1)) in R by lia. rewrite !fofZ_of_nat in R.
  replace (fofZ (Z.of_nat L + 1) : F) with (fofnat (S L) : F) in R by (rewrite <- fofZ_of_nat; f_equal; lia).
  assert (Q : fofnat m * fofnat (2 * L + 1) * T3 (Z.of_nat m - 1) (Z.of_nat n) (Z.of_nat L) = fofnat m * fofnat (2 * L + 1) * T3 (Z.of_nat (pred m)) (Z.of_nat n) (Z.of_nat L)).
  { destruct m as [|m]; [cbn [fofnat]; ring|]. replace (Z.of_nat (S m) - 1)%Z with (Z.of_nat (pred (S m))) by lia. reflexivity. }
  rewrite Q in R. clear Q.
  transitivity (fofnat (S m) * fofnat (2 * L + 1) * T3 (Z.of_nat (S m)) (Z.of_nat n) (Z.of_nat L) * leg x L); [ring|].
  transitivity ((fofnat (2 * m + 1) * (fofnat L * t (Z.of_nat L - 1)%Z + fofnat (S L) * t (Z.of_nat L + 1)%Z)
     - fofnat m * fofnat (2 * L + 1) * T3 (Z.of_nat (pred m)) (Z.of_nat n) (Z.of_nat L)) * leg x L); [unfold t; rewrite <- R; ring | ring].
Qed.
Theorem leg_product x N m n : (m + n < N)%nat -> leg x m * leg x n = expand x N m n.
Proof.
  revert N. induction m as [m IH] using lt_wf_ind. intros N HN. destruct m as [|m].
  - rewrite leg_0. unfold expand. rewrite (sum_single N n); [|lia|].
    + cbn [Z.of_nat]. rewrite T3_0 by lia. rewrite Z.eqb_refl. replace (2 * Z.of_nat n + 1)%Z with (Z.of_nat (2 * n + 1)) by lia. rewrite fofZ_of_nat.
      replace (2 * n + 1)%nat with (S (2 * n)) by lia. field. apply fofnat_neq0.
    + intros j Hj Nj. cbn [Z.of_nat]. rewrite T3_0 by lia. replace (Z.of_nat n =? Z.of_nat j)%Z with false by (symmetry; apply Z.eqb_neq; lia). ring.
  - pose proof (expand_rec x N m n ltac:(lia)) as R. pose proof (leg_rec x m) as B.
    rewrite <- (IH m ltac:(lia) N ltac:(lia)) in R.
    assert (P : fofnat m * expand x N (pred m) n = fofnat m * (leg x (pred m) * leg x n)).
    { destruct m as [|m]; [cbn [fofnat]; ring|]. rewrite <- (IH (pred (S m)) ltac:(cbn; lia) N ltac:(cbn; lia)). reflexivity. }
    rewrite P in R.
    assert (Z0 : fofnat (S m) * (leg x (S m) * leg x n - expand x N (S m) n) = 0).
    { transitivity (fofnat (S m) * leg x (S m) * leg x n - fofnat (S m) * expand x N (S m) n); [ring|]. rewrite R, B. ring. }
    apply fmul_eq_0 in Z0. destruct Z0 as [Z0|Z0]; [exfalso; exact (fofnat_neq0 _ Z0) | apply fsub_0_eq; exact Z0].
Qed.
(** at x = 1 *)
Lemma T3_norm N m n : (m + n < N)%nat -> sum N (fun L => fofnat (2 * L + 1) * T3 (Z.of_nat m) (Z.of_nat n) (Z.of_nat L)) = 1.
Proof.
  intro H. pose proof (leg_product 1 N m n H) as P. rewrite !leg_at_1 in P. replace (1 * 1 : F) with (1 : F) in P by ring. rewrite P.
  unfold expand. apply sum_ext. intros L _. rewrite leg_at_1. ring.
Qed.
End Legendre.
