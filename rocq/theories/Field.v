(** Ordered fields: the numbers of the model.

    NaMaster computes in IEEE doubles.  Every theorem of this development is
    about exact arithmetic: the number type is an arbitrary ordered field with
    a decidable order.  The two instances used are the canonical rationals [Qc]
    (computable: all [Example]s and witnesses are evaluated there) and the
    reals of the standard library (only in files that need trigonometry). *)
From Coq Require Export List Arith ZArith Lia Bool Field Ring.
From Coq Require Import QArith Qcanon.
Export ListNotations.
Close Scope Q_scope.
Close Scope Qc_scope.

Record ofield : Type := OField {
  car :> Type;
  f0 : car; f1 : car;
  fadd : car -> car -> car;
  fmul : car -> car -> car;
  fsub : car -> car -> car;
  fopp : car -> car;
  fdiv : car -> car -> car;
  finv : car -> car;
  fleb : car -> car -> bool;
  fth : field_theory f0 f1 fadd fmul fsub fopp fdiv finv (@eq car);
  fleb_total : forall x y, fleb x y = true \/ fleb y x = true;
  fleb_antisym : forall x y, fleb x y = true -> fleb y x = true -> x = y;
  fleb_trans : forall x y z, fleb x y = true -> fleb y z = true -> fleb x z = true;
  fleb_add : forall x y z, fleb x y = true -> fleb (fadd x z) (fadd y z) = true;
  fleb_mul : forall x y, fleb f0 x = true -> fleb f0 y = true -> fleb f0 (fmul x y) = true
}.

Arguments f0 {_}. Arguments f1 {_}.
Arguments fadd {_}. Arguments fmul {_}. Arguments fsub {_}. Arguments fopp {_}.
Arguments fdiv {_}. Arguments finv {_}. Arguments fleb {_}.

Declare Scope F_scope.
Delimit Scope F_scope with F.
Bind Scope F_scope with car.
Notation "x + y" := (fadd x y) : F_scope.
Notation "x * y" := (fmul x y) : F_scope.
Notation "x - y" := (fsub x y) : F_scope.
Notation "- x" := (fopp x) : F_scope.
Notation "x / y" := (fdiv x y) : F_scope.
Notation "/ x" := (finv x) : F_scope.
Notation "0" := f0 : F_scope.
Notation "1" := f1 : F_scope.
Notation "x <=? y" := (fleb x y) : F_scope.
(** strict comparison [x < y] as evaluated by the C and Python code *)
Definition fltb {F : ofield} (x y : F) : bool := negb (fleb y x).
Notation "x <? y" := (fltb x y) : F_scope.
Definition feqb {F : ofield} (x y : F) : bool := fleb x y && fleb y x.
Notation "x =? y" := (feqb x y) : F_scope.
(** propositional order *)
Definition fle {F : ofield} (x y : F) : Prop := fleb x y = true.
Definition flt {F : ofield} (x y : F) : Prop := fltb x y = true.
Notation "x <= y" := (fle x y) : F_scope.
Notation "x < y" := (flt x y) : F_scope.

(** integers as field elements: the C conversion (double)n *)
Fixpoint fofnat {F : ofield} (n : nat) : F :=
  match n with O => f0 | S m => (fofnat m + f1)%F end.
Fixpoint fofpos {F : ofield} (p : positive) : F :=
  match p with
  | xH => f1
  | xO q => let x := fofpos q in (x + x)%F
  | xI q => let x := fofpos q in (x + x + f1)%F
  end.
Definition fofZ {F : ofield} (z : Z) : F :=
  match z with Z0 => f0 | Zpos p => fofpos p | Zneg p => (- fofpos p)%F end.

(** ** Rational instance *)
Definition Qc_leb (x y : Qc) : bool := Qle_bool x y.

Lemma Qc_leb_le x y : Qc_leb x y = true <-> (x <= y)%Qc.
Proof. unfold Qc_leb, Qcle. apply Qle_bool_iff. Qed.

Definition Qc_field : ofield.
Proof.
  refine (OField Qc (Q2Qc 0) (Q2Qc 1) Qcplus Qcmult Qcminus Qcopp Qcdiv Qcinv Qc_leb Qcft _ _ _ _ _).
  - intros x y. rewrite !Qc_leb_le. destruct (Qclt_le_dec x y) as [H|H].
    + left. apply Qclt_le_weak. exact H.
    + right. exact H.
  - intros x y. rewrite !Qc_leb_le. apply Qcle_antisym.
  - intros x y z. rewrite !Qc_leb_le. apply Qcle_trans.
  - intros x y z. rewrite !Qc_leb_le. intro H.
    apply Qcplus_le_compat; [exact H | apply Qcle_refl].
  - intros x y. rewrite !Qc_leb_le. intros Hx Hy.
    replace (Q2Qc 0) with (Q2Qc 0 * y)%Qc by ring.
    apply Qcmult_le_compat_r; assumption.
Defined.

(** literals and observation for examples *)
Definition q (n : Z) (d : positive) : Qc_field := Q2Qc (Qmake n d).
Definition qz (n : Z) : Qc_field := Q2Qc (Qmake n 1).
Definition out (x : Qc_field) : Q := this x.
Lemma out_inj (x y : Qc_field) : out x = out y -> x = y.
Proof. intro H. apply Qc_is_canon. unfold out in H. rewrite H. reflexivity. Qed.

(** ** Elementary facts *)
Section Facts.
Context {F : ofield}.
Open Scope F_scope.
Add Field Ff : (fth F).

Lemma f1_neq_0 : (f1 : F) <> f0.
Proof. exact (F_1_neq_0 (fth F)). Qed.

Lemma fle_refl (x : F) : x <= x.
Proof. unfold fle. destruct (fleb_total F x x); assumption. Qed.
Lemma fle_trans (x y z : F) : x <= y -> y <= z -> x <= z.
Proof. apply fleb_trans. Qed.
Lemma fle_antisym (x y : F) : x <= y -> y <= x -> x = y.
Proof. apply fleb_antisym. Qed.
Lemma fle_total (x y : F) : x <= y \/ y <= x.
Proof. apply fleb_total. Qed.
Lemma fle_lt_dec (x y : F) : {x <= y} + {y < x}.
Proof. unfold fle, flt, fltb. destruct (fleb x y); auto. Qed.
Lemma flt_le (x y : F) : x < y -> x <= y.
Proof.
  unfold flt, fltb. intro H. destruct (fle_total x y) as [E|E]; [exact E|].
  unfold fle in E. rewrite E in H. discriminate.
Qed.
Lemma flt_not_le (x y : F) : x < y <-> ~ (y <= x).
Proof. unfold flt, fltb, fle. destruct (fleb y x); simpl; intuition congruence. Qed.
Lemma fle_not_lt (x y : F) : x <= y <-> ~ (y < x).
Proof. unfold flt, fltb, fle. destruct (fleb x y); simpl; intuition congruence. Qed.
Lemma flt_irrefl (x : F) : ~ x < x.
Proof. rewrite flt_not_le. intro H. apply H, fle_refl. Qed.
Lemma flt_neq (x y : F) : x < y -> x <> y.
Proof. intros H E. subst. exact (flt_irrefl _ H). Qed.
Lemma fle_neq_lt (x y : F) : x <= y -> x <> y -> x < y.
Proof. intros H N. rewrite flt_not_le. intro H'. apply N, fle_antisym; assumption. Qed.
Lemma flt_le_trans (x y z : F) : x < y -> y <= z -> x < z.
Proof. rewrite !flt_not_le. intros H1 H2 H3. apply H1. eapply fle_trans; eassumption. Qed.
Lemma fle_lt_trans (x y z : F) : x <= y -> y < z -> x < z.
Proof. rewrite !flt_not_le. intros H1 H2 H3. apply H2. eapply fle_trans; eassumption. Qed.
Lemma flt_trans (x y z : F) : x < y -> y < z -> x < z.
Proof. intros H1 H2. eapply flt_le_trans; [exact H1 | apply flt_le; exact H2]. Qed.

Lemma feqb_eq (x y : F) : (x =? y) = true <-> x = y.
Proof.
  unfold feqb. rewrite andb_true_iff. split.
  - intros [H1 H2]. apply fle_antisym; assumption.
  - intros ->. split; apply fle_refl.
Qed.
Lemma feqb_neq (x y : F) : (x =? y) = false <-> x <> y.
Proof. rewrite <- feqb_eq. destruct (x =? y); intuition congruence. Qed.
Lemma feq_dec (x y : F) : {x = y} + {x <> y}.
Proof. destruct (x =? y) eqn:E; [left; apply feqb_eq; exact E | right; apply feqb_neq; exact E]. Qed.

Lemma fle_add_r (x y z : F) : x <= y -> x + z <= y + z.
Proof. apply fleb_add. Qed.
Lemma fle_add_l (x y z : F) : x <= y -> z + x <= z + y.
Proof. intro H. replace (z + x) with (x + z) by ring. replace (z + y) with (y + z) by ring. apply fle_add_r, H. Qed.
Lemma fle_add (a b c d : F) : a <= b -> c <= d -> a + c <= b + d.
Proof. intros H1 H2. eapply fle_trans; [apply fle_add_r, H1 | apply fle_add_l, H2]. Qed.
Lemma fle_sub_0 (x y : F) : x <= y <-> 0 <= y - x.
Proof.
  split; intro H.
  - replace (0 : F) with (x + - x) by ring. replace (y - x) with (y + - x) by ring. apply fle_add_r, H.
  - replace x with (0 + x) by ring. replace y with ((y - x) + x) by ring. apply fle_add_r, H.
Qed.
Lemma flt_add_r (x y z : F) : x < y -> x + z < y + z.
Proof.
  rewrite !flt_not_le. intros H H'. apply H.
  replace y with ((y + z) + - z) by ring. replace x with ((x + z) + - z) by ring. apply fle_add_r, H'.
Qed.
Lemma flt_le_add (a b c d : F) : a < b -> c <= d -> a + c < b + d.
Proof. intros H1 H2. eapply flt_le_trans; [apply flt_add_r, H1 | apply fle_add_l, H2]. Qed.
Lemma flt_sub_0 (x y : F) : x < y <-> 0 < y - x.
Proof.
  split; intro H.
  - replace (0 : F) with (x + - x) by ring. replace (y - x) with (y + - x) by ring. apply flt_add_r, H.
  - replace x with (0 + x) by ring. replace y with ((y - x) + x) by ring. apply flt_add_r, H.
Qed.
Lemma fmul_nonneg (x y : F) : 0 <= x -> 0 <= y -> 0 <= x * y.
Proof. apply fleb_mul. Qed.
Lemma fle_mul_l (x y z : F) : 0 <= z -> x <= y -> z * x <= z * y.
Proof.
  intros Hz H. apply fle_sub_0. replace (z * y - z * x) with (z * (y - x)) by ring.
  apply fmul_nonneg; [exact Hz | apply (proj1 (fle_sub_0 _ _)), H].
Qed.
Lemma fopp_nonneg (x : F) : x <= 0 -> 0 <= - x.
Proof. intro H. replace (- x) with (0 - x) by ring. apply (proj1 (fle_sub_0 _ _)), H. Qed.
Lemma fsqr_nonneg (x : F) : 0 <= x * x.
Proof.
  destruct (fle_total 0 x) as [H|H].
  - apply fmul_nonneg; exact H.
  - replace (x * x) with ((- x) * (- x)) by ring. apply fmul_nonneg; apply fopp_nonneg, H.
Qed.
Lemma f0_le_1 : (0 : F) <= 1.
Proof. replace (1 : F) with (1 * 1 : F) by ring. apply fsqr_nonneg. Qed.
Lemma f0_lt_1 : (0 : F) < 1.
Proof. apply fle_neq_lt; [apply f0_le_1 | intro H; apply f1_neq_0; auto]. Qed.
Lemma fmul_eq_0 (x y : F) : x * y = 0 -> x = 0 \/ y = 0.
Proof.
  intro H. destruct (feq_dec x 0) as [E|E]; [left; exact E | right].
  replace y with (/ x * (x * y)) by (field; exact E). rewrite H. ring.
Qed.
Lemma fmul_pos (x y : F) : 0 < x -> 0 < y -> 0 < x * y.
Proof.
  intros Hx Hy. apply fle_neq_lt.
  - apply fmul_nonneg; apply flt_le; assumption.
  - intro H. symmetry in H. apply fmul_eq_0 in H.
    destruct H as [H|H]; subst; eapply flt_irrefl; eassumption.
Qed.
Lemma fpos_neq (x : F) : 0 < x -> x <> 0.
Proof. intros H E. subst. exact (flt_irrefl _ H). Qed.
Lemma finv_neq0 (x : F) : x <> 0 -> / x <> 0.
Proof. intros H E. apply f1_neq_0. replace (1 : F) with (x * / x) by (field; exact H). rewrite E. ring. Qed.
Lemma finv_pos (x : F) : 0 < x -> 0 < / x.
Proof.
  intro H. assert (N := fpos_neq _ H).
  replace (/ x) with (x * (/ x * / x)) by (field; exact N).
  apply fmul_pos; [exact H |]. apply fle_neq_lt; [apply fsqr_nonneg |].
  intro E. symmetry in E. apply fmul_eq_0 in E. destruct E as [E|E]; exact (finv_neq0 _ N E).
Qed.
Lemma fdiv_nonneg (x y : F) : 0 <= x -> 0 < y -> 0 <= x / y.
Proof.
  intros Hx Hy. replace (x / y) with (x * / y) by (field; apply fpos_neq, Hy).
  apply fmul_nonneg; [exact Hx | apply flt_le, finv_pos, Hy].
Qed.
Lemma fadd_nonneg (x y : F) : 0 <= x -> 0 <= y -> 0 <= x + y.
Proof. intros. replace (0 : F) with (0 + 0 : F) by ring. apply fle_add; assumption. Qed.
Lemma fofnat_nonneg n : (0 : F) <= fofnat n.
Proof. induction n as [|n IH]; simpl; [apply fle_refl | apply fadd_nonneg; [exact IH | apply f0_le_1]]. Qed.
Lemma fofnat_pos n : (0 : F) < fofnat (S n).
Proof.
  simpl. eapply fle_lt_trans; [apply (fofnat_nonneg n)|].
  replace (fofnat n : F) with (0 + fofnat n : F) at 1 by ring.
  replace (fofnat n + 1 : F) with (1 + fofnat n : F) by ring.
  apply flt_add_r, f0_lt_1.
Qed.
Lemma fofnat_neq0 n : (fofnat (S n) : F) <> 0.
Proof. apply fpos_neq, fofnat_pos. Qed.
Lemma fofnat_add n m : (fofnat (n + m) : F) = fofnat n + fofnat m.
Proof. induction n as [|n IH]; simpl; [ring | rewrite IH; ring]. Qed.
Lemma fofnat_mul n m : (fofnat (n * m) : F) = fofnat n * fofnat m.
Proof. induction n as [|n IH]; simpl; [ring | rewrite fofnat_add, IH; ring]. Qed.
Lemma fofnat_le n m : (n <= m)%nat -> (fofnat n : F) <= fofnat m.
Proof.
  intro H. replace m with ((m - n) + n)%nat by lia. rewrite fofnat_add.
  replace (fofnat n : F) with (0 + fofnat n : F) at 1 by ring. apply fle_add_r, fofnat_nonneg.
Qed.
Lemma fofnat_lt n m : (n < m)%nat -> (fofnat n : F) < fofnat m.
Proof.
  intro H. eapply flt_le_trans; [|apply fofnat_le; exact H]. simpl.
  replace (fofnat n : F) with (0 + fofnat n : F) at 1 by ring.
  replace (fofnat n + 1 : F) with (1 + fofnat n : F) by ring. apply flt_add_r, f0_lt_1.
Qed.
Lemma fofnat_inj n m : (fofnat n : F) = fofnat m -> n = m.
Proof.
  intro H. destruct (Nat.lt_trichotomy n m) as [L|[E|L]]; [|exact E|];
    apply (@fofnat_lt) in L; rewrite H in L; exfalso; eapply flt_irrefl; exact L.
Qed.
Lemma fofpos_nat p : (fofpos p : F) = fofnat (Pos.to_nat p).
Proof.
  induction p as [p IH|p IH|]; cbn [fofpos].
  - rewrite IH, Pos2Nat.inj_xI. change (S (2 * Pos.to_nat p)) with (S (Pos.to_nat p + (Pos.to_nat p + 0))).
    cbn [fofnat]. rewrite Nat.add_0_r, fofnat_add. ring.
  - rewrite IH, Pos2Nat.inj_xO. cbn [Nat.mul]. rewrite Nat.add_0_r, fofnat_add. ring.
  - change (Pos.to_nat 1) with 1%nat. cbn [fofnat]. ring.
Qed.
Lemma fofZ_of_nat n : (fofZ (Z.of_nat n) : F) = fofnat n.
Proof.
  destruct n as [|n]; [reflexivity|]. change (Z.of_nat (S n)) with (Z.pos (Pos.of_succ_nat n)).
  cbn [fofZ]. rewrite fofpos_nat, SuccNat2Pos.id_succ. reflexivity.
Qed.
Lemma fofZ_diff a b : (fofZ (Z.of_nat a - Z.of_nat b) : F) = fofnat a - fofnat b.
Proof.
  destruct (Nat.le_ge_cases b a) as [H|H].
  - replace (Z.of_nat a - Z.of_nat b)%Z with (Z.of_nat (a - b)) by lia. rewrite fofZ_of_nat.
    replace a with ((a - b) + b)%nat at 2 by lia. rewrite fofnat_add. ring.
  - assert (O : forall z, (fofZ (- z) : F) = - fofZ z).
    { intros [|p|p]; cbn [fofZ Z.opp]; ring. }
    replace (Z.of_nat a - Z.of_nat b)%Z with (- Z.of_nat (b - a))%Z by lia. rewrite O, fofZ_of_nat.
    replace b with ((b - a) + a)%nat at 2 by lia. rewrite fofnat_add. ring.
Qed.
Lemma Z_diff z : exists a b, z = (Z.of_nat a - Z.of_nat b)%Z.
Proof. exists (Z.to_nat z), (Z.to_nat (- z)). lia. Qed.
Lemma fofZ_add x y : (fofZ (x + y) : F) = fofZ x + fofZ y.
Proof.
  destruct (Z_diff x) as [a [b ->]], (Z_diff y) as [c [d ->]].
  replace (Z.of_nat a - Z.of_nat b + (Z.of_nat c - Z.of_nat d))%Z with (Z.of_nat (a + c) - Z.of_nat (b + d))%Z by lia.
  rewrite !fofZ_diff, !fofnat_add. ring.
Qed.
Lemma fofZ_mul x y : (fofZ (x * y) : F) = fofZ x * fofZ y.
Proof.
  destruct (Z_diff x) as [a [b ->]], (Z_diff y) as [c [d ->]].
  replace ((Z.of_nat a - Z.of_nat b) * (Z.of_nat c - Z.of_nat d))%Z
    with (Z.of_nat (a * c + b * d) - Z.of_nat (a * d + b * c))%Z by nia.
  rewrite !fofZ_diff, !fofnat_add, !fofnat_mul. ring.
Qed.
Lemma fofZ_opp x : (fofZ (- x) : F) = - fofZ x.
Proof. destruct x; cbn [fofZ Z.opp]; ring. Qed.
Lemma fofZ_sub x y : (fofZ (x - y) : F) = fofZ x - fofZ y.
Proof. unfold Z.sub. rewrite fofZ_add, fofZ_opp. ring. Qed.
Lemma fofZ_1 : (fofZ 1 : F) = 1.
Proof. reflexivity. Qed.
Lemma fofZ_pos x : (0 < x)%Z -> (0 : F) < fofZ x.
Proof. intro H. destruct (Z_of_nat_complete x) as [n ->]; [lia|]. rewrite fofZ_of_nat. destruct n; [lia | apply fofnat_pos]. Qed.
Lemma fofZ_le x y : (x <= y)%Z -> (fofZ x : F) <= fofZ y.
Proof.
  intro H. apply fle_sub_0. rewrite <- fofZ_sub. destruct (Z_of_nat_complete (y - x)) as [n E]; [lia|].
  rewrite E, fofZ_of_nat. apply fofnat_nonneg.
Qed.
Lemma fofZ_lt x y : (x < y)%Z -> (fofZ x : F) < fofZ y.
Proof. intro H. apply flt_sub_0. rewrite <- fofZ_sub. apply fofZ_pos. lia. Qed.
Lemma fofZ_inj x y : (fofZ x : F) = fofZ y -> x = y.
Proof.
  intro H. destruct (Z.lt_trichotomy x y) as [L|[E|L]]; [|exact E|];
    apply fofZ_lt in L; rewrite H in L; exfalso; eapply flt_irrefl; exact L.
Qed.
Lemma fofZ_neq0 x : x <> 0%Z -> (fofZ x : F) <> 0.
Proof. intros H E. apply H, fofZ_inj. exact E. Qed.
Lemma fdiv_add (x y z : F) : z <> 0 -> (x + y) / z = x / z + y / z.
Proof. intro H. field. exact H. Qed.
Lemma fsub_0_eq (x y : F) : x - y = 0 -> x = y.
Proof. intro H. replace x with ((x - y) + y) by ring. rewrite H. ring. Qed.

End Facts.
