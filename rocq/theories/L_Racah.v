(** Existence of the Wigner-3j symbols: for every admissible l2, l3, m2, m3 the relations [is_row] of P_Wigner.v have a
    solution.  With g = h / (A(lo+1) ... A(L)) they read K h = (m2 - m3) h for an operator K with rational coefficients
    that depends on l2, l3 and m1 only.  An operator that raises m2 - m3 by 2 leads from the solution with m2 = -l2,
    a product, to all others.  No code is modelled here. *)
From Verif Require Import Base M_LinAlg L_LinAlg M_Wigner P_Wigner.
Open Scope Z_scope.

Section Racah.
Context {F : ofield}.
Local Open Scope F_scope.
Add Field FfRac : (fth F).
Notation two := (1 + 1 : F).

Section Operator.
Variables (l2 l3 m1 : Z).
Notation u := (fofZ (l2 - l3) : F).
Notation v := (fofZ (l2 + l3 + 1) : F).
Notation m := (fofZ m1 : F).
Definition qF (x : F) : F := (x * x - u * u) * (v * v - x * x) * (x * x - m * m).
Definition K (f : Z -> F) (L : Z) : F := let x := fofZ L in
  f (L + 1)%Z / ((x + 1) * (two * x + 1)) + (if (L =? 0)%Z then 0 else - (m * u * v) / (x * (x + 1)) * f L + qF x / (x * (two * x + 1)) * f (L - 1)%Z).
Definition lam (L : Z) : F := fofZ L * (fofZ L + 1).
Definition c0 : F := two - two * (u * u + v * v + m * m).
Definition times (f : Z -> F) (L : Z) : F := lam L * f L.
(** [K, [K, lam]] = 2 K^2 + 4 lam + c0 *)
Definition AW (f : Z -> F) (L : Z) : Prop :=
  K (K (times f)) L - two * K (times (K f)) L + times (K (K f)) L = two * K (K f) L + (two * two) * times f L + c0 * f L.
Lemma fne z : (z <> 0)%Z -> (fofZ z : F) <> 0. Proof. intro H. apply fofZ_neq0. exact H. Qed.
Lemma AW_2 f L : (2 <= L)%Z -> AW f L.
Proof.
  intro H. unfold AW, times, K, lam. replace (L =? 0)%Z with false by (symmetry; apply Z.eqb_neq; lia). replace (L + 1 =? 0)%Z with false by (symmetry; apply Z.eqb_neq; lia). replace (L - 1 =? 0)%Z with false by (symmetry; apply Z.eqb_neq; lia).
  replace (L - 1 + 1)%Z with L by lia. replace (L + 1 - 1)%Z with L by lia. replace (L + 1 + 1)%Z with (L + 2)%Z by lia. replace (L - 1 - 1)%Z with (L - 2)%Z by lia.
  pose proof (fne L ltac:(lia)) as N0. pose proof (fne (L + 1) ltac:(lia)) as N1. pose proof (fne (L + 2) ltac:(lia)) as N2. pose proof (fne (L - 1) ltac:(lia)) as N3.
  pose proof (fne (2 * L + 1) ltac:(lia)) as N4. pose proof (fne (2 * L + 3) ltac:(lia)) as N5. pose proof (fne (2 * L - 1) ltac:(lia)) as N6.
  rewrite ?fofZ_mul, ?fofZ_add, ?fofZ_sub, ?fofZ_mul in *. replace (fofZ 2 : F) with two in * by (cbn; ring). replace (fofZ 3 : F) with (two + 1) in * by (cbn; ring). rewrite !fofZ_1 in *.
  unfold qF, c0. rewrite !fofZ_add, !fofZ_sub, fofZ_1.
  set (x := fofZ L) in *. set (U := fofZ l2 - fofZ l3). set (V := fofZ l2 + fofZ l3 + 1). set (M := fofZ m1). set (f0 := f L). set (fa := f (L + 1)%Z). set (fb := f (L + 2)%Z). set (fc := f (L - 1)%Z). set (fd := f (L - 2)%Z).
  clearbody x U V M f0 fa fb fc fd. clear H.
  assert (N2' : x + 1 + 1 <> 0) by (intro E; apply N2; rewrite <- E; ring). assert (N5' : two * (x + 1) + 1 <> 0) by (intro E; apply N5; rewrite <- E; ring). assert (N6' : two * (x - 1) + 1 <> 0) by (intro E; apply N6; rewrite <- E; ring).
  assert (N7 : x - 1 + 1 <> 0) by (intro E; apply N0; rewrite <- E; ring).
  field. repeat split; assumption.
Qed.

(** ** The range of L *)
Notation lo := (Z.max (l3 - l2) m1).
Hypothesis Hm : (l2 - l3 <= m1)%Z.
Lemma lo_nonneg : (0 <= lo)%Z. Proof using Hm. lia. Qed.
Lemma qF_lo : qF (fofZ lo) = 0.
Proof using. clear. unfold qF. destruct (Z.max_spec (l3 - l2) m1) as [[_ ->]|[_ ->]]; [ring|]. rewrite !fofZ_sub. ring. Qed.
Lemma lo0_um : lo = 0%Z -> (u = 0 /\ m = 0).
Proof using Hm. intro E. assert (l2 - l3 = 0)%Z as -> by lia. assert (m1 = 0)%Z as -> by lia. split; reflexivity. Qed.
Lemma lo1_um : lo = 1%Z -> (u = - (1)) \/ m = 1.
Proof using Hm. intro E. destruct (Z.max_spec (l3 - l2) m1) as [[_ E']|[_ E']]; rewrite E' in E; [right; rewrite E; apply fofZ_1 | left]. replace (l2 - l3)%Z with (- (1))%Z by lia. rewrite fofZ_opp, fofZ_1. reflexivity. Qed.
Lemma two_neq : two <> 0. Proof using. clear. intro E. apply (fne 2 ltac:(lia)). rewrite <- E. cbn. ring. Qed.
Lemma three_neq : two + 1 <> 0. Proof using. clear. intro E. apply (fne 3 ltac:(lia)). rewrite <- E. cbn. ring. Qed.
Lemma five_neq : two * two + 1 <> 0. Proof using. clear. intro E. apply (fne 5 ltac:(lia)). rewrite <- E. cbn. ring. Qed.
Lemma three_neq' : 1 + two <> 0. Proof using. clear. intro E. apply three_neq. rewrite <- E. ring. Qed.
Lemma five_neq' : 1 + two * two <> 0. Proof using. clear. intro E. apply five_neq. rewrite <- E. ring. Qed.
Lemma mul_nz (a b : F) : a <> 0 -> b <> 0 -> a * b <> 0. Proof using. clear. intros Ha Hb E. apply fmul_eq_0 in E. tauto. Qed.
Lemma pos_nz (a : F) : 0 < a -> a <> 0. Proof using. clear. apply fpos_neq. Qed.
Lemma add_pos (a b : F) : 0 < a -> 0 < b -> 0 < a + b. Proof using. clear. intros Ha Hb. replace (0 : F) with (0 + 0 : F) by ring. apply flt_le_add; [exact Ha | apply flt_le; exact Hb]. Qed.
Ltac posn := first [apply f0_lt_1 | apply add_pos; posn | apply fmul_pos; posn].
Ltac nz := repeat split; first [assumption | apply pos_nz; posn].
Lemma z0 : (fofZ 0 : F) = 0. Proof using. reflexivity. Qed.
Lemma z2 : (fofZ 2 : F) = two. Proof using. cbn. ring. Qed.
(** K at 0, 1 and 2 *)
Lemma K_0 f : K f 0 = f 1%Z.
Proof using. unfold K. cbn [Z.eqb]. rewrite z0. change (0 + 1)%Z with 1%Z. field. repeat split; apply f1_neq_0. Qed.
Lemma K_1 f : K f 1 = f 2%Z / (two * (two + 1)) - m * u * v / two * f 1%Z + qF 1 / (two + 1) * f 0%Z.
Proof using.
  unfold K. change (1 =? 0)%Z with false. cbv iota. rewrite fofZ_1. change (1 + 1)%Z with 2%Z. change (1 - 1)%Z with 0%Z.
  pose proof two_neq. pose proof three_neq. assert (two * 1 + 1 <> 0) by (intro E; apply three_neq; rewrite <- E; ring). field. nz.
Qed.
Lemma K_2 f : K f 2 = f 3%Z / ((two + 1) * (two * two + 1)) - m * u * v / (two * (two + 1)) * f 2%Z + qF two / (two * (two * two + 1)) * f 1%Z.
Proof using.
  unfold K. change (2 =? 0)%Z with false. cbv iota. rewrite z2. change (2 + 1)%Z with 3%Z. change (2 - 1)%Z with 1%Z.
  pose proof two_neq. pose proof three_neq. pose proof five_neq. field. nz.
Qed.
Lemma AW_all f L : (lo <= L)%Z -> AW f L.
Proof using Hm.
  intro H. destruct (Z_le_gt_dec 2 L) as [H2|H2]; [apply AW_2; exact H2|]. pose proof lo_nonneg as H0.
  pose proof two_neq as N2. pose proof three_neq as N3. pose proof five_neq as N5.
  assert (L = 1 \/ L = 0)%Z as [-> | ->] by lia.
  - unfold AW, times. rewrite !K_1, !K_2, ?K_0, ?K_1. unfold lam. rewrite !fofZ_1, !z2, !z0. replace (fofZ 3 : F) with (two + 1) by (cbn; ring). unfold c0.
    assert (lo = 1 \/ lo = 0)%Z as [E|E] by lia.
    + pose proof qF_lo as Q. rewrite E, fofZ_1 in Q. rewrite Q. unfold qF in *. destruct (lo1_um E) as [E'|E']; rewrite E'; generalize (f 0%Z) (f 1%Z) (f 2%Z) (f 3%Z); intros; field; nz.
    + destruct (lo0_um E) as [-> ->]. unfold qF. destruct (lo0_um E) as [-> ->]. generalize (f 0%Z) (f 1%Z) (f 2%Z) (f 3%Z); intros; field; nz.
  - assert (E : lo = 0%Z) by lia. unfold AW, times. rewrite !K_0, !K_1. unfold lam, c0, qF. rewrite !fofZ_1, !z2, !z0. destruct (lo0_um E) as [-> ->]. generalize (f 0%Z) (f 1%Z) (f 2%Z); intros; field; nz.
Qed.

(** ** Raising the eigenvalue *)

Lemma K_ext f f' L : (lo <= L)%Z -> (forall k, (lo <= k)%Z -> f k = f' k) -> K f L = K f' L.
Proof using Hm.
  intros H E. unfold K. rewrite (E (L + 1)%Z), (E L) by lia. destruct (Z.eqb_spec L 0) as [_|N]; [reflexivity|].
  destruct (Z.eq_dec L lo) as [-> |N']; [|rewrite (E (L - 1)%Z) by lia; reflexivity]. rewrite qF_lo. pose proof lo_nonneg. pose proof (fne lo N) as N0.
  assert (N1 : two * fofZ lo + 1 <> 0). { intro Q. apply (fne (2 * lo + 1) ltac:(lia)). rewrite fofZ_add, fofZ_mul, z2, fofZ_1. exact Q. }
  f_equal. f_equal. field. split; assumption.
Qed.
Lemma K_lin (a b : F) f f' L : (lo <= L)%Z -> K (fun k => a * f k + b * f' k) L = a * K f L + b * K f' L.
Proof using Hm.
  intro H. pose proof lo_nonneg. unfold K. set (x := fofZ L).
  assert (N1 : x + 1 <> 0). { intro Q. apply (fne (L + 1) ltac:(lia)). rewrite fofZ_add, fofZ_1. exact Q. }
  assert (N2 : two * x + 1 <> 0). { intro Q. apply (fne (2 * L + 1) ltac:(lia)). rewrite fofZ_add, fofZ_mul, z2, fofZ_1. exact Q. }
  destruct (Z.eqb_spec L 0) as [_|N]; [field; split; assumption|]. pose proof (fne L N) as N0. fold x in N0. field. repeat split; assumption.
Qed.
Definition eig (th : F) (h : Z -> F) : Prop := forall L, (lo <= L)%Z -> K h L = th * h L.
Definition kap (th : F) : F := (two * th * th + c0) / (two * two).
Definition ww (th : F) (h : Z -> F) (L : Z) : F := 1 * times h L + kap th * h L.
Definition up (th : F) (h : Z -> F) (L : Z) : F := 1 * K (ww th h) L + - (th - two) * ww th h L.
Lemma ww_quad th h L : eig th h -> (lo <= L)%Z -> K (K (ww th h)) L = two * th * K (ww th h) L + (two * two - th * th) * ww th h L.
Proof using Hm.
  intros E H.
  assert (KK : K (K h) L = th * th * h L).
  { rewrite (K_ext (K h) (fun k => th * h k + 0 * h k) L H); [|intros k Hk; rewrite (E k Hk); ring]. rewrite K_lin by exact H. rewrite (E L H). ring. }
  assert (KT : K (times (K h)) L = th * K (times h) L).
  { rewrite (K_ext (times (K h)) (fun k => th * times h k + 0 * h k) L H); [|intros k Hk; unfold times; rewrite (E k Hk); ring]. rewrite K_lin by exact H. ring. }
  assert (TK : times (K (K h)) L = th * th * times h L) by (unfold times; rewrite KK; ring).
  assert (KW : forall k, (lo <= k)%Z -> K (ww th h) k = K (times h) k + kap th * th * h k).
  { intros k Hk. unfold ww. rewrite K_lin by exact Hk. rewrite (E k Hk). ring. }
  assert (KKW : K (K (ww th h)) L = K (K (times h)) L + kap th * th * th * h L).
  { rewrite (K_ext (K (ww th h)) (fun k => 1 * K (times h) k + kap th * th * h k) L H); [|intros k Hk; rewrite (KW k Hk); ring]. rewrite K_lin by exact H. rewrite (E L H). ring. }
  pose proof (AW_all h L H) as Q. unfold AW in Q. rewrite KK, KT, TK in Q.
  rewrite KKW, (KW L H). unfold ww. set (a := K (K (times h)) L) in *. set (b := K (times h) L) in *. set (t := times h L) in *. set (y := h L) in *.
  assert (Qa : a = two * (th * b) - th * th * t + two * (th * th * y) + two * two * t + c0 * y) by (transitivity (a - two * (th * b) + th * th * t + (two * (th * b) - th * th * t)); [ring | rewrite Q; ring]).
  rewrite Qa. assert (Qc : c0 = two * two * kap th - two * th * th) by (unfold kap; field; nz). rewrite Qc. ring.
Qed.
Lemma up_eig th h : eig th h -> eig (th + two) (up th h).
Proof using Hm. intros E L H. unfold up at 1. rewrite K_lin by exact H. rewrite (ww_quad th h L E H). unfold up. ring. Qed.
Definition down (th : F) (h : Z -> F) (L : Z) : F := 1 * K (ww th h) L + - (th + two) * ww th h L.
Lemma down_eig th h : eig th h -> eig (th - two) (down th h).
Proof using Hm. intros E L H. unfold down at 1. rewrite K_lin by exact H. rewrite (ww_quad th h L E H). unfold down. ring. Qed.
Notation hi := (l2 + l3)%Z.
Definition stops (h : Z -> F) : Prop := forall L, (hi < L)%Z -> h L = 0.
Hypothesis Hh : (lo <= hi)%Z.
Lemma K_stops h : stops h -> stops (K h).
Proof using Hm Hh.
  intros S L H. pose proof lo_nonneg. unfold K. rewrite (S (L + 1)%Z), (S L) by lia. set (x := fofZ L).
  assert (N1 : x + 1 <> 0). { intro Q. apply (fne (L + 1) ltac:(lia)). rewrite fofZ_add, fofZ_1. exact Q. }
  assert (N2 : two * x + 1 <> 0). { intro Q. apply (fne (2 * L + 1) ltac:(lia)). rewrite fofZ_add, fofZ_mul, z2, fofZ_1. exact Q. }
  destruct (Z.eqb_spec L 0) as [_|N]; [field; split; assumption|]. pose proof (fne L N) as N0. fold x in N0.
  destruct (Z.eq_dec L (hi + 1)) as [E|N'].
  - replace (qF x) with (0 : F); [field; repeat split; assumption|]. unfold qF, x. rewrite E. ring.
  - rewrite (S (L - 1)%Z) by lia. field. repeat split; assumption.
Qed.
Lemma up_stops th h : stops h -> stops (up th h).
Proof using Hm Hh.
  intros S L H. unfold up. assert (W : stops (ww th h)) by (intros k Hk; unfold ww, times; rewrite (S k Hk); ring).
  rewrite (K_stops _ W L H), (W L H). ring.
Qed.
(** the first value *)
Lemma K_lo f : (fofZ lo + 1) * K f lo = f (lo + 1)%Z / (two * fofZ lo + 1) + (if (l3 - l2 <=? m1)%Z then - (u * v) else m * v) * f lo.
Proof using Hm.
  pose proof lo_nonneg. unfold K. rewrite qF_lo. set (x := fofZ lo).
  assert (N1 : x + 1 <> 0). { intro Q. apply (fne (lo + 1) ltac:(lia)). rewrite fofZ_add, fofZ_1. exact Q. }
  assert (N2 : two * x + 1 <> 0). { intro Q. apply (fne (2 * lo + 1) ltac:(lia)). rewrite fofZ_add, fofZ_mul, z2, fofZ_1. exact Q. }
  destruct (Z.eqb_spec lo 0) as [E0|N].
  - destruct (lo0_um E0) as [-> ->]. destruct (l3 - l2 <=? m1)%Z; field; split; assumption.
  - pose proof (fne lo N) as N0. fold x in N0. destruct (Z.leb_spec (l3 - l2) m1) as [C|C].
    + assert (X : x = m) by (unfold x; f_equal; lia). rewrite <- X. field. repeat split; assumption.
    + assert (X : u = - x). { unfold x. rewrite <- fofZ_opp. f_equal. lia. } rewrite X. field. repeat split; assumption.
Qed.
Lemma up_lo th h : eig th h ->
  up th h lo = (if (l3 - l2 <=? m1)%Z then (m + 1 + th - u + v) * (m + 1 + th + u - v) else (th + 1 - u - v - m) * (th + 1 - u + v + m)) * h lo.
Proof using Hm.
  intros E. pose proof lo_nonneg. pose proof (E lo ltac:(lia)) as E0. pose proof (K_lo h) as H1. pose proof (K_lo (ww th h)) as H2. rewrite E0 in H1.
  assert (N1 : (fofZ lo + 1 : F) <> 0). { intro Q. apply (fne (lo + 1) ltac:(lia)). rewrite fofZ_add, fofZ_1. exact Q. }
  assert (N2 : (two * fofZ lo + 1 : F) <> 0). { intro Q. apply (fne (2 * lo + 1) ltac:(lia)). rewrite fofZ_add, fofZ_mul, z2, fofZ_1. exact Q. }
  assert (Z1 : (lam (lo + 1)%Z : F) = lam lo + two * (fofZ lo + 1)) by (unfold lam; rewrite fofZ_add, fofZ_1; ring).
  set (dd := if (l3 - l2 <=? m1)%Z then - (u * v) else m * v) in *.
  assert (W1 : ww th h (lo + 1)%Z / (two * fofZ lo + 1) = (lam lo + two * (fofZ lo + 1) + kap th) * ((fofZ lo + 1) * (th * h lo) - dd * h lo)).
  { rewrite H1. unfold ww, times. rewrite Z1. field. exact N2. }
  rewrite W1 in H2.
  assert (Kw : K (ww th h) lo = (lam lo + kap th) * th * h lo + two * ((fofZ lo + 1) * th - dd) * h lo).
  { transitivity ((fofZ lo + 1) * K (ww th h) lo / (fofZ lo + 1)); [field; exact N1|]. rewrite H2. unfold ww, times. field. exact N1. }
  unfold up. rewrite Kw. unfold ww, times, kap, c0, lam, dd.
  destruct (Z.leb_spec (l3 - l2) m1) as [C|C].
  - replace lo with m1 by lia. field. nz.
  - assert (X : u = - fofZ lo). { rewrite <- fofZ_opp. f_equal. lia. } rewrite X. field. nz.
Qed.
(** ** The solution for m2 = - l2 *)
Definition X0 (L : Z) : F := let x := fofZ L in - ((x + 1 - u) * (x + 1 + m) * (v - x - 1)).
Fixpoint prodX (k : nat) : F := match k with O => 1 | S j => X0 (lo + Z.of_nat j) * prodX j end.
Definition h0 (L : Z) : F := prodX (Z.to_nat (L - lo)).
Lemma h0_next L : (lo <= L)%Z -> h0 (L + 1) = X0 L * h0 L.
Proof using. intro H. unfold h0. replace (Z.to_nat (L + 1 - lo)) with (S (Z.to_nat (L - lo))) by lia. cbn [prodX]. repeat f_equal. lia. Qed.
Lemma h0_lo : h0 lo = 1. Proof using. unfold h0. rewrite Z.sub_diag. reflexivity. Qed.
Lemma h0_stops : stops h0.
Proof using Hh.
  intros L H. unfold h0. assert (Hk : (Z.to_nat (hi - lo) < Z.to_nat (L - lo))%nat) by lia. revert Hk. generalize (Z.to_nat (L - lo)) as k. clear L H.
  induction k as [|k IH]; intro Hk; [lia|]. cbn [prodX]. destruct (Nat.eq_dec k (Z.to_nat (hi - lo))) as [-> |N].
  - replace (lo + Z.of_nat (Z.to_nat (hi - lo)))%Z with hi by lia. unfold X0. rewrite !fofZ_add, fofZ_1. ring.
  - rewrite IH by lia. ring.
Qed.
Lemma h0_eig : eig (m - u - v + 1) h0.
Proof using Hm.
  intros L H. pose proof lo_nonneg. unfold K. rewrite h0_next by exact H. set (x := fofZ L).
  assert (N1 : x + 1 <> 0). { intro Q. apply (fne (L + 1) ltac:(lia)). rewrite fofZ_add, fofZ_1. exact Q. }
  assert (N2 : two * x + 1 <> 0). { intro Q. apply (fne (2 * L + 1) ltac:(lia)). rewrite fofZ_add, fofZ_mul, z2, fofZ_1. exact Q. }
  destruct (Z.eqb_spec L 0) as [E0|N].
  - assert (El : lo = 0%Z) by lia. unfold X0. fold x. assert (Ex : x = 0) by (unfold x; rewrite E0; reflexivity). rewrite Ex in *. destruct (lo0_um El) as [-> ->]. field. nz.
  - pose proof (fne L N) as N0. fold x in N0.
    assert (Q : qF x * h0 (L - 1)%Z = - ((x + u) * (x - m) * (v + x)) * h0 L).
    { destruct (Z.eq_dec L lo) as [E|N'].
      - unfold x. rewrite E, qF_lo. destruct (Z.max_spec (l3 - l2) m1) as [[_ ->]|[_ ->]]; [ring | rewrite !fofZ_sub; ring].
      - pose proof (h0_next (L - 1) ltac:(lia)) as R. replace (L - 1 + 1)%Z with L in R by lia. rewrite R. unfold X0. rewrite (fofZ_sub L 1), fofZ_1. fold x. unfold qF. ring. }
    replace (qF x / (x * (two * x + 1)) * h0 (L - 1)%Z) with (qF x * h0 (L - 1)%Z / (x * (two * x + 1))) by (field; split; assumption).
    rewrite Q. unfold X0. fold x. field. repeat split; assumption.
Qed.
(** ** All solutions *)
Definition th_ (k : nat) : F := fofZ (m1 + 2 * (Z.of_nat k - l2)).
Fixpoint hsol (k : nat) : Z -> F := match k with O => h0 | S j => up (th_ j) (hsol j) end.
Lemma solution m2 m3 : (m1 + m2 + m3 = 0)%Z -> (Z.abs m2 <= l2)%Z -> (Z.abs m3 <= l3)%Z ->
  let h := hsol (Z.to_nat (m2 + l2)) in eig (fofZ (m2 - m3)) h /\ stops h /\ h lo <> 0.
Proof using Hm Hh.
  intros Em H2 H3. cbv zeta. assert (Ek : m2 = (- l2 + Z.of_nat (Z.to_nat (m2 + l2)))%Z) by lia. revert m3 Em H2 H3 Ek. generalize (Z.to_nat (m2 + l2)) as k. intros k m3. revert m2 m3.
  induction k as [|k IH]; intros m2 m3 Em H2 H3 Ek.
  - cbn [hsol]. split; [|split; [exact h0_stops | rewrite h0_lo; apply f1_neq_0]]. replace (fofZ (m2 - m3)) with (m - u - v + 1); [exact h0_eig|].
    rewrite <- !fofZ_sub. rewrite <- fofZ_1, <- fofZ_add. f_equal. lia.
  - destruct (IH (m2 - 1)%Z (m3 + 1)%Z) as (E & S & N); try lia. cbn [hsol]. set (h := hsol k) in *.
    replace (fofZ (m2 - 1 - (m3 + 1))) with (th_ k) in E by (unfold th_; f_equal; lia). set (th := th_ k) in *.
    split; [|split; [apply up_stops; exact S|]].
    + replace (fofZ (m2 - m3)) with (th + two); [apply up_eig; exact E|]. unfold th, th_. rewrite <- z2, <- fofZ_add. f_equal. lia.
    + rewrite (up_lo th h E). intro Q. apply fmul_eq_0 in Q. destruct Q as [Q|Q]; [|exact (N Q)].
      assert (T : th = fofZ (m2 - m3 - 2)) by (unfold th, th_; f_equal; lia).
      destruct (l3 - l2 <=? m1)%Z; apply fmul_eq_0 in Q; rewrite T, <- fofZ_1, <- ?fofZ_add, <- ?fofZ_sub, <- ?fofZ_add, <- ?fofZ_sub, <- ?fofZ_add, <- ?fofZ_sub in Q; destruct Q as [Q|Q]; (eapply fne; [|exact Q]; lia).
Qed.

(** ** Norms *)
Lemma ww_stops th h : stops h -> stops (ww th h).
Proof using. intros S k Hk. unfold ww, times. rewrite (S k Hk). ring. Qed.
Lemma down_stops th h : stops h -> stops (down th h).
Proof using Hm Hh. intros S L H. unfold down. pose proof (ww_stops th h S) as W. rewrite (K_stops _ W L H), (W L H). ring. Qed.
Lemma Kw_lo th h : eig th h -> K (ww th h) lo = (lam lo + kap th) * th * h lo + two * ((fofZ lo + 1) * th - (if (l3 - l2 <=? m1)%Z then - (u * v) else m * v)) * h lo.
Proof using Hm.
  intros E. pose proof lo_nonneg. pose proof (E lo ltac:(lia)) as E0. pose proof (K_lo h) as H1. pose proof (K_lo (ww th h)) as H2. rewrite E0 in H1.
  assert (N1 : (fofZ lo + 1 : F) <> 0). { intro Q. apply (fne (lo + 1) ltac:(lia)). rewrite fofZ_add, fofZ_1. exact Q. }
  assert (N2 : (two * fofZ lo + 1 : F) <> 0). { intro Q. apply (fne (2 * lo + 1) ltac:(lia)). rewrite fofZ_add, fofZ_mul, z2, fofZ_1. exact Q. }
  assert (Z1 : (lam (lo + 1)%Z : F) = lam lo + two * (fofZ lo + 1)) by (unfold lam; rewrite fofZ_add, fofZ_1; ring).
  set (dd := if (l3 - l2 <=? m1)%Z then - (u * v) else m * v) in *.
  assert (W1 : ww th h (lo + 1)%Z / (two * fofZ lo + 1) = (lam lo + two * (fofZ lo + 1) + kap th) * ((fofZ lo + 1) * (th * h lo) - dd * h lo)).
  { rewrite H1. unfold ww, times. rewrite Z1. field. exact N2. }
  rewrite W1 in H2.
  transitivity ((fofZ lo + 1) * K (ww th h) lo / (fofZ lo + 1)); [field; exact N1|]. rewrite H2. unfold ww, times. field. exact N1.
Qed.
Lemma down_lo th h : eig th h ->
  down th h lo = (if (l3 - l2 <=? m1)%Z then (u + v) * (u + v) - (th - m - 1) * (th - m - 1) else (v - m) * (v - m) - (th - 1 + u) * (th - 1 + u)) * h lo.
Proof using Hm.
  intros E. unfold down. rewrite (Kw_lo th h E). unfold ww, times, kap, c0, lam.
  destruct (Z.leb_spec (l3 - l2) m1) as [C|C].
  - replace lo with m1 by lia. field. nz.
  - assert (X : u = - fofZ lo). { rewrite <- fofZ_opp. f_equal. lia. } rewrite X. field. nz.
Qed.
(** the last value *)
Lemma up_hi th h : (1 <= hi)%Z -> eig th h -> stops h -> up th h hi = ((v - 1 - th) * (v - 1 - th) - (u + m) * (u + m)) * h hi.
Proof using Hm Hh.
  intros H1 E S. pose proof lo_nonneg. pose proof (E hi Hh) as E0. pose proof (ww_stops th h S) as SW. unfold up.
  set (x := fofZ hi : F). assert (Xv : v = x + 1) by (unfold x; rewrite fofZ_add, fofZ_1; reflexivity).
  assert (N0 : x <> 0) by (apply fne; lia).
  assert (N1 : x + 1 <> 0). { intro Q. apply (fne (hi + 1) ltac:(lia)). rewrite fofZ_add, fofZ_1. exact Q. }
  assert (N2 : two * x + 1 <> 0). { intro Q. apply (fne (2 * hi + 1) ltac:(lia)). rewrite fofZ_add, fofZ_mul, z2, fofZ_1. exact Q. }
  unfold K in E0 |- *. rewrite (S (hi + 1)%Z) in E0 by lia. rewrite (SW (hi + 1)%Z) by lia. replace (hi =? 0)%Z with false in * by (symmetry; apply Z.eqb_neq; lia). fold x in E0 |- *.
  set (B := qF x / (x * (two * x + 1))) in *.
  assert (EB : B * h (hi - 1)%Z = th * h hi - (- (m * u * v) / (x * (x + 1)) * h hi)). { rewrite <- E0. field. repeat split; assumption. }
  assert (WB : B * ww th h (hi - 1)%Z = (lam hi - two * x + kap th) * (B * h (hi - 1)%Z)).
  { unfold ww, times. assert (Z1 : (lam (hi - 1)%Z : F) = lam hi - two * x) by (unfold lam; rewrite (fofZ_sub hi 1), fofZ_1; fold x; ring). rewrite Z1. ring. }
  transitivity (- (m * u * v) / (x * (x + 1)) * ww th h hi + B * ww th h (hi - 1)%Z + - (th - two) * ww th h hi); [field; repeat split; assumption|].
  rewrite WB, EB. unfold ww, times, kap, c0, lam. fold x. rewrite Xv. field. repeat split; first [assumption | nz].
Qed.
Fixpoint Qp (k : nat) : F := match k with O => 1 | S j => qF (fofZ (lo + Z.of_nat (S j))) * Qp j end.
Lemma qF_neq0 L : (lo < L <= hi)%Z -> (qF (fofZ L) : F) <> 0.
Proof using Hm Hh.
  intros [A B]. unfold qF. rewrite <- !fofZ_mul, <- !fofZ_sub, <- !fofZ_mul. apply fne.
  assert (X1 : (Z.abs (l2 - l3) < L)%Z) by lia. assert (X2 : (Z.abs m1 < L)%Z) by lia. apply Z.neq_mul_0. split; [apply Z.neq_mul_0; split|]; nia.
Qed.
Lemma Qp_neq0 k : (lo + Z.of_nat k <= hi)%Z -> Qp k <> 0.
Proof using Hm Hh. induction k as [|k IH]; intro H; [apply f1_neq_0|]. cbn [Qp]. apply mul_nz; [apply qF_neq0; lia | apply IH; lia]. Qed.
Notation Li i := (lo + Z.of_nat i)%Z.
Definition ipn (n : nat) (f g : Z -> F) : F := sum n (fun i => fofZ (2 * Li i + 1) * f (Li i) * g (Li i) / Qp i).
Notation ip := (ipn (Z.to_nat (hi - lo + 1))).
Lemma green N f g : (lo + Z.of_nat N <= hi)%Z ->
  ipn (S N) (K f) g - ipn (S N) f (K g) = (f (Li N + 1)%Z * g (Li N) - f (Li N) * g (Li N + 1)%Z) / (fofZ (Li N + 1) * Qp N).
Proof using Hm Hh.
  pose proof lo_nonneg as H0.
  assert (T : forall L, (lo <= L)%Z -> fofZ (2 * L + 1) * (K f L * g L - f L * K g L) =
     (f (L + 1)%Z * g L - f L * g (L + 1)%Z) / fofZ (L + 1) + (if (L =? 0)%Z then 0 else qF (fofZ L) / fofZ L * (f (L - 1)%Z * g L - f L * g (L - 1)%Z))).
  { intros L HL. unfold K. rewrite !fofZ_add, fofZ_mul, z2, fofZ_1. set (x := fofZ L).
    assert (N1 : x + 1 <> 0). { intro Q. apply (fne (L + 1) ltac:(lia)). rewrite fofZ_add, fofZ_1. exact Q. }
    assert (N2 : two * x + 1 <> 0). { intro Q. apply (fne (2 * L + 1) ltac:(lia)). rewrite fofZ_add, fofZ_mul, z2, fofZ_1. exact Q. }
    destruct (Z.eqb_spec L 0) as [_|N']; [field; split; assumption|]. pose proof (fne L N') as N0. fold x in N0. field. repeat split; assumption. }
  assert (I : forall n, (lo + Z.of_nat n <= hi)%Z -> ipn (S n) (K f) g - ipn (S n) f (K g) = ipn n (K f) g - ipn n f (K g) + fofZ (2 * Li n + 1) * (K f (Li n) * g (Li n) - f (Li n) * K g (Li n)) / Qp n).
  { intros n Hn. unfold ipn. cbn [sum]. pose proof (Qp_neq0 n Hn). field. assumption. }
  induction N as [|N IH]; intro H.
  - rewrite I by exact H. rewrite T by lia. replace (Li 0) with lo by lia. cbn [Qp]. unfold ipn. cbn [sum].
    assert (N1 : (fofZ (lo + 1) : F) <> 0) by (apply fne; lia).
    destruct (Z.eqb_spec lo 0) as [_|N']; [field; repeat split; first [assumption | apply f1_neq_0]|]. rewrite qF_lo. pose proof (fne lo N') as N0. field. repeat split; first [assumption | apply f1_neq_0].
  - rewrite I by exact H. rewrite IH by lia. rewrite T by lia. cbn [Qp]. replace (Li (S N) =? 0)%Z with false by (symmetry; apply Z.eqb_neq; lia).
    replace (Li (S N) - 1)%Z with (Li N) by lia. replace (Li N + 1)%Z with (Li (S N)) by lia. pose proof (Qp_neq0 N ltac:(lia)) as N1. pose proof (qF_neq0 (Li (S N)) ltac:(lia)) as N2.
    assert (N3 : (fofZ (Li (S N)) : F) <> 0) by (apply fne; lia). assert (N4 : (fofZ (Li (S N) + 1) : F) <> 0) by (apply fne; lia).
    set (q := qF (fofZ (Li (S N)))) in *. set (x := fofZ (Li (S N))) in *. field. repeat split; assumption.
Qed.
Lemma K_sym f g : stops f -> stops g -> ip (K f) g = ip f (K g).
Proof using Hm Hh.
  intros Sf Sg. apply fsub_0_eq. replace (Z.to_nat (hi - lo + 1)) with (S (Z.to_nat (hi - lo))) by lia. rewrite green by lia.
  replace (Li (Z.to_nat (hi - lo))) with hi by lia. rewrite (Sf (hi + 1)%Z), (Sg (hi + 1)%Z) by lia.
  pose proof (Qp_neq0 (Z.to_nat (hi - lo)) ltac:(lia)) as N1. pose proof lo_nonneg. assert (N4 : (fofZ (hi + 1) : F) <> 0) by (apply fne; lia). field. split; assumption.
Qed.
Lemma ipn_ext n f f' g g' : (forall L, (lo <= L)%Z -> f L = f' L) -> (forall L, (lo <= L)%Z -> g L = g' L) -> ipn n f g = ipn n f' g'.
Proof using. intros E E'. apply sum_ext. intros i _. rewrite E, E' by lia. reflexivity. Qed.
Lemma ip_lin (a b : F) f f' g : ip (fun L => a * f L + b * f' L) g = a * ip f g + b * ip f' g.
Proof using Hm Hh.
  assert (X : forall n, (lo + Z.of_nat n <= hi + 1)%Z -> ipn n (fun L => a * f L + b * f' L) g = a * ipn n f g + b * ipn n f' g).
  { induction n as [|n IH]; intro H; [unfold ipn; cbn; ring|]. unfold ipn in *. cbn [sum]. rewrite IH by lia. pose proof (Qp_neq0 n ltac:(lia)). field. assumption. }
  apply X. lia.
Qed.
Lemma ip_comm f g : ip f g = ip g f.
Proof using Hm Hh. apply sum_ext. intros i Hi. pose proof (Qp_neq0 i ltac:(lia)). field. assumption. Qed.
Lemma ip_lin_r (a b : F) f f' g : ip g (fun L => a * f L + b * f' L) = a * ip g f + b * ip g f'.
Proof using Hm Hh. rewrite (ip_comm g), ip_lin, (ip_comm f), (ip_comm f'). reflexivity. Qed.
Lemma ip_eig_l th f g : eig th f -> ip (K f) g = th * ip f g.
Proof using Hm Hh. intro E. rewrite (ipn_ext _ (K f) (fun L => th * f L + 0 * f L) g g); [rewrite ip_lin; ring | intros L H; rewrite (E L H); ring | reflexivity]. Qed.
Lemma orthogonal a b f g : eig a f -> eig b g -> stops f -> stops g -> a <> b -> ip f g = 0.
Proof using Hm Hh.
  intros Ef Eg Sf Sg N. pose proof (K_sym f g Sf Sg) as Q. rewrite (ip_eig_l a f g Ef), (ip_comm f (K g)), (ip_eig_l b g f Eg), (ip_comm g f) in Q.
  assert (Q' : (a - b) * ip f g = 0) by (transitivity (a * ip f g - b * ip f g); [ring | rewrite Q; ring]). apply fmul_eq_0 in Q'. destruct Q' as [Q'|Q']; [|exact Q']. exfalso. apply N. apply fsub_0_eq. exact Q'.
Qed.
Lemma eig_zero th f : eig th f -> f lo = 0 -> forall L, (lo <= L)%Z -> f L = 0.
Proof using Hm Hh.
  intros E Z0. pose proof lo_nonneg as H0. assert (X : forall n, f (Li n) = 0 /\ f (Li n + 1)%Z = 0).
  { induction n as [|n [I1 I2]].
    - replace (Li 0) with lo by lia. split; [exact Z0|]. pose proof (K_lo f) as Q. rewrite (E lo ltac:(lia)), Z0 in Q.
      assert (N2 : (two * fofZ lo + 1 : F) <> 0). { intro Q'. apply (fne (2 * lo + 1) ltac:(lia)). rewrite fofZ_add, fofZ_mul, z2, fofZ_1. exact Q'. }
      transitivity (f (lo + 1)%Z / (two * fofZ lo + 1) * (two * fofZ lo + 1)); [field; exact N2|]. replace (f (lo + 1)%Z / (two * fofZ lo + 1)) with (0 : F); [ring|].
      symmetry. set (dd := if (l3 - l2 <=? m1)%Z then _ else _) in Q. transitivity (f (lo + 1)%Z / (two * fofZ lo + 1) + dd * 0); [ring | rewrite <- Q; ring].
    - replace (Li (S n)) with (Li n + 1)%Z by lia. split; [exact I2|]. set (L := (Li n + 1)%Z) in *. pose proof (E L ltac:(lia)) as Q. unfold K in Q. replace (L =? 0)%Z with false in Q by (symmetry; apply Z.eqb_neq; lia).
      replace (L - 1)%Z with (Li n) in Q by lia. rewrite I1, I2 in Q. set (x := fofZ L) in *.
      assert (N1 : x + 1 <> 0). { intro Q'. apply (fne (L + 1) ltac:(lia)). rewrite fofZ_add, fofZ_1. exact Q'. }
      assert (N2 : two * x + 1 <> 0). { intro Q'. apply (fne (2 * L + 1) ltac:(lia)). rewrite fofZ_add, fofZ_mul, z2, fofZ_1. exact Q'. }
      assert (N0 : x <> 0) by (apply fne; lia).
      transitivity (((x + 1) * (two * x + 1)) * (f (L + 1)%Z / ((x + 1) * (two * x + 1)))); [field; split; assumption|].
      replace (f (L + 1)%Z / ((x + 1) * (two * x + 1))) with (0 : F); [ring|]. symmetry.
      transitivity (f (L + 1)%Z / ((x + 1) * (two * x + 1)) + (- (m * u * v) / (x * (x + 1)) * 0 + qF x / (x * (two * x + 1)) * 0)); [ring | rewrite Q; ring]. }
  intros L HL. destruct (X (Z.to_nat (L - lo))) as [X1 _]. replace (Li (Z.to_nat (L - lo))) with L in X1 by lia. exact X1.
Qed.
Lemma eig_prop th f h : eig th f -> eig th h -> h lo <> 0 -> forall L, (lo <= L)%Z -> f L = f lo / h lo * h L.
Proof using Hm Hh.
  intros Ef Eh N L HL. assert (E : eig th (fun L => h lo * f L + - f lo * h L)).
  { intros k Hk. rewrite K_lin by exact Hk. rewrite (Ef k Hk), (Eh k Hk). ring. }
  pose proof (eig_zero th _ E ltac:(cbv beta; ring) L HL) as Q. cbv beta in Q. transitivity ((h lo * f L + - f lo * h L + f lo * h L) / h lo); [field; exact N|]. rewrite Q. field. exact N.
Qed.
(** the norm of the raised vector *)
Lemma up_norm th h : eig th h -> stops h -> h lo <> 0 -> ip (up th h) (up th h) = - (down (th + two) (up th h) lo / h lo) * ip h h.
Proof using Hm Hh.
  intros E S N. set (h1 := up th h) in *. pose proof (up_eig th h E : eig (th + two) h1) as E1. pose proof (up_stops th h S : stops h1) as S1. set (th1 := th + two) in *.
  set (w := ww th h). set (w1 := ww th1 h1). pose proof (ww_stops th h S : stops w) as Sw. pose proof (ww_stops th1 h1 S1 : stops w1) as Sw1.
  assert (O : ip h h1 = 0). { apply (orthogonal th th1); try assumption. unfold th1. intro Q. apply two_neq. transitivity (th + two - th); [ring | rewrite <- Q; ring]. }
  assert (A1 : ip h1 h1 = two * two * ip w h1).
  { transitivity (ip (fun L => 1 * K w L + - (th - two) * w L) h1); [reflexivity|]. rewrite ip_lin, (K_sym w h1 Sw S1), (ip_comm w (K h1)), (ip_eig_l th1 h1 w E1), (ip_comm h1 w). unfold th1. ring. }
  assert (A2 : forall a x y, ip (ww a x) y = ip (times x) y + kap a * ip x y) by (intros a x y; unfold ww; rewrite ip_lin; ring).
  assert (A3 : ip (times h) h1 = ip h (times h1)).
  { apply sum_ext. intros i Hi. unfold times. pose proof (Qp_neq0 i ltac:(lia)). field. assumption. }
  assert (A4 : ip (down th1 h1) h = - (two * two) * ip w1 h).
  { transitivity (ip (fun L => 1 * K w1 L + - (th1 + two) * w1 L) h); [reflexivity|]. rewrite ip_lin, (K_sym w1 h Sw1 S), (ip_comm w1 (K h)), (ip_eig_l th h w1 E), (ip_comm h w1). unfold th1. ring. }
  assert (A5 : ip (down th1 h1) h = down th1 h1 lo / h lo * ip h h).
  { assert (Ed : eig th (down th1 h1)) by (replace th with (th1 - two) by (unfold th1; ring); apply down_eig; exact E1).
    rewrite (ipn_ext _ (down th1 h1) (fun L => down th1 h1 lo / h lo * h L + 0 * h L) h h); [rewrite ip_lin; ring | intros L HL; rewrite (eig_prop th _ h Ed E N L HL); ring | reflexivity]. }
  rewrite A1. unfold w. rewrite (A2 th), A3, O. unfold w1 in A4. rewrite (A2 th1), (ip_comm h1 h), O, (ip_comm (times h1) h) in A4.
  transitivity (- (- (two * two) * (ip h (times h1) + kap th1 * 0))); [ring|]. rewrite <- A4, A5. ring.
Qed.
End Operator.

(** ** l2 = l3 and m1 = 0: the value at L = 0 *)
Section Diagonal.
Variable l : Z.
Hypothesis Hl : (0 <= l)%Z.
Notation hi := (l + l)%Z.
Notation lo := (Z.max (l - l) 0).
Notation v := (fofZ (l + l + 1) : F).
Notation hs := (hsol l l 0).
Lemma lo_is : lo = 0%Z. Proof using. lia. Qed.
Lemma Ha : (l - l <= 0)%Z. Proof using. lia. Qed.
Lemma Hb : (lo <= hi)%Z. Proof using Hl. lia. Qed.
Notation ip := (ipn l l 0 (Z.to_nat (hi - lo + 1))).
Lemma start_norm : ip (h0 l l 0) (h0 l l 0) = v.
Proof using Hl.
  set (P := fun i => h0 l l 0 (lo + Z.of_nat i) * h0 l l 0 (lo + Z.of_nat i) / Qp l l 0 i).
  assert (P0 : P 0%nat = 1). { unfold P. replace (lo + Z.of_nat 0)%Z with lo by lia. rewrite h0_lo. cbn. field. apply f1_neq_0. }
  assert (PS : forall N, (Z.of_nat N < hi)%Z -> (v + fofZ (Z.of_nat N) + 1) * P (S N) = (v - fofZ (Z.of_nat N) - 1) * P N).
  { intros N HN. unfold P. replace (lo + Z.of_nat (S N))%Z with (lo + Z.of_nat N + 1)%Z by lia. rewrite (h0_next l l 0 (lo + Z.of_nat N)) by lia. cbn [Qp].
    pose proof (Qp_neq0 l l 0 Ha Hb N ltac:(lia)) as N1. pose proof (qF_neq0 l l 0 Ha Hb (Z.of_nat N + 1) ltac:(lia)) as N2.
    replace (lo + Z.of_nat (S N))%Z with (Z.of_nat N + 1)%Z by lia. replace (lo + Z.of_nat N)%Z with (Z.of_nat N) by lia.
    unfold X0, qF in *. replace (l - l)%Z with 0%Z in * by lia. rewrite z0 in *. rewrite (fofZ_add (Z.of_nat N) 1), fofZ_1 in *. set (x := fofZ (Z.of_nat N)) in *. set (V := v) in *. set (y := h0 l l 0 (Z.of_nat N)) in *. set (q := Qp l l 0 N) in *.
    set (XX := - ((x + 1 - 0) * (x + 1 + 0) * (V - x - 1))) in *. set (qq := ((x + 1) * (x + 1) - 0 * 0) * (V * V - (x + 1) * (x + 1)) * ((x + 1) * (x + 1) - 0 * 0)) in *.
    assert (Key : (V + x + 1) * XX * XX = (V - x - 1) * qq) by (unfold XX, qq; ring). clearbody XX qq.
    transitivity ((V + x + 1) * XX * XX * (y * y) / (qq * q)); [field; split; assumption|]. rewrite Key. field. split; assumption. }
  assert (S : forall N, (Z.of_nat N <= hi)%Z -> sum (S N) (fun i => fofZ (2 * Z.of_nat i + 1) * P i) = v - (v - fofZ (Z.of_nat N) - 1) * P N).
  { induction N as [|N IH]; intro HN.
    - cbn [sum]. rewrite P0. change (2 * Z.of_nat 0 + 1)%Z with 1%Z. change (Z.of_nat 0) with 0%Z. rewrite fofZ_1, z0. ring.
    - change (sum (S (S N)) (fun i => fofZ (2 * Z.of_nat i + 1) * P i)) with (sum (S N) (fun i => fofZ (2 * Z.of_nat i + 1) * P i) + fofZ (2 * Z.of_nat (S N) + 1) * P (S N)).
      rewrite IH by lia. rewrite <- PS by lia. replace (Z.of_nat (S N)) with (Z.of_nat N + 1)%Z by lia. rewrite (fofZ_add (2 * _) 1), fofZ_mul, (fofZ_add (Z.of_nat N) 1), z2, fofZ_1. ring. }
  unfold ipn. replace (Z.to_nat (hi - lo + 1)) with (Datatypes.S (Z.to_nat hi)) by lia.
  rewrite (sum_ext _ _ (fun i => fofZ (2 * Z.of_nat i + 1) * P i)).
  - rewrite S by lia. replace (Z.of_nat (Z.to_nat hi)) with hi by lia. rewrite (fofZ_add hi 1), fofZ_1. ring.
  - intros i Hi. unfold P. replace (lo + Z.of_nat i)%Z with (Z.of_nat i) by lia. pose proof (Qp_neq0 l l 0 Ha Hb i ltac:(lia)). field. assumption.
Qed.
Lemma hsol_eig k : (Z.of_nat k <= hi)%Z -> eig l l 0 (th_ l 0 k) (hs k) /\ stops l l (hs k) /\ hs k lo <> 0.
Proof using Hl.
  intro H. destruct (solution l l 0 Ha Hb (Z.of_nat k - l) (l - Z.of_nat k) ltac:(lia) ltac:(lia) ltac:(lia)) as (E & S & N). replace (Z.to_nat (Z.of_nat k - l + l)) with k in * by lia.
  split; [|split; assumption]. replace (th_ l 0 k) with (fofZ (Z.of_nat k - l - (l - Z.of_nat k)) : F) by (unfold th_; f_equal; lia). exact E.
Qed.
Definition rho (k : nat) : F := let t := th_ l 0 k + 1 in t * t - v * v.
Lemma hsol_lo k : (Z.of_nat k < hi)%Z -> hs (S k) lo = rho k * hs k lo.
Proof using Hl.
  intro H. destruct (hsol_eig k ltac:(lia)) as (E & _ & _). cbn [hsol]. rewrite (up_lo l l 0 Ha _ _ E). f_equal. replace (l - l <=? 0)%Z with true by (symmetry; apply Z.leb_le; lia).
  unfold rho. replace (l - l)%Z with 0%Z by lia. rewrite z0. ring.
Qed.
Lemma hsol_norm k : (Z.of_nat k <= hi)%Z -> ip (hs k) (hs k) = v * hs k lo * hs k lo.
Proof using Hl.
  induction k as [|k IH]; intro H; [cbn [hsol]; rewrite start_norm, h0_lo; ring|]. destruct (hsol_eig k ltac:(lia)) as (E & S & N). specialize (IH ltac:(lia)).
  pose proof (hsol_lo k ltac:(lia)) as R. cbn [hsol] in *. rewrite (up_norm l l 0 Ha Hb _ _ E S N), IH.
  pose proof (down_lo l l 0 Ha _ _ (up_eig l l 0 Ha _ _ E)) as D. rewrite D, R. replace (l - l <=? 0)%Z with true by (symmetry; apply Z.leb_le; lia). unfold rho. replace (l - l)%Z with 0%Z by lia. rewrite z0. field. replace lo with 0%Z in N by lia. replace (Z.max 0 0) with 0%Z by lia. exact N.
Qed.
Lemma hsol_sign k : (Z.of_nat k <= hi)%Z -> 0 < (if Nat.odd k then - (hs k lo * hs k hi) else hs k lo * hs k hi).
Proof using Hl.
  induction k as [|k IH]; intro H.
  - cbn [Nat.odd Nat.even negb hsol]. rewrite h0_lo. replace (1 * h0 l l 0 hi) with (h0 l l 0 hi) by ring. unfold h0. replace (hi - lo)%Z with (2 * l)%Z by lia.
    assert (X : forall n, (Z.of_nat n <= 2 * l)%Z -> 0 < (if Nat.odd n then - prodX l l 0 n else prodX l l 0 n)).
    { induction n as [|n IH]; intro Hn; [apply f0_lt_1|]. specialize (IH ltac:(lia)). cbn [prodX].
      assert (Y : 0 < - X0 l l 0 (lo + Z.of_nat n)). { unfold X0. replace (l - l)%Z with 0%Z by lia. replace (Z.max 0 0 + Z.of_nat n)%Z with (Z.of_nat n) by lia. rewrite z0.
        match goal with |- 0 < ?t => replace t with (fofZ ((Z.of_nat n + 1) * (Z.of_nat n + 1) * (2 * l - Z.of_nat n)) : F) end.
        - apply fofZ_pos. assert (0 < (Z.of_nat n + 1) * (Z.of_nat n + 1))%Z by nia. nia.
        - rewrite !fofZ_mul, !fofZ_sub, !fofZ_add, fofZ_mul, z2, fofZ_1. ring. }
      rewrite Nat.odd_succ, <- Nat.negb_odd. destruct (Nat.odd n); cbn [negb].
      - replace (X0 l l 0 (lo + Z.of_nat n) * prodX l l 0 n) with (- X0 l l 0 (lo + Z.of_nat n) * (- prodX l l 0 n)) by ring. apply fmul_pos; assumption.
      - replace (- (X0 l l 0 (lo + Z.of_nat n) * prodX l l 0 n)) with (- X0 l l 0 (lo + Z.of_nat n) * prodX l l 0 n) by ring. apply fmul_pos; assumption. }
    specialize (X (Z.to_nat (2 * l)) ltac:(lia)). replace (Nat.odd (Z.to_nat (2 * l))) with false in X; [exact X|]. symmetry.
    replace (Z.to_nat (2 * l)) with (2 * Z.to_nat l)%nat by lia. rewrite Nat.odd_mul. reflexivity.
  - specialize (IH ltac:(lia)). destruct (hsol_eig k ltac:(lia)) as (E & S & N). pose proof (hsol_lo k ltac:(lia)) as R. rewrite R. cbn [hsol]. rewrite (up_hi l l 0 Ha Hb _ _ ltac:(lia) E S).
    set (a := hs k lo) in *. set (b := hs k hi) in *.
    assert (P1 : 0 < - rho k). { unfold rho, th_. match goal with |- 0 < ?t => replace t with (fofZ ((2 * l + 1) * (2 * l + 1) - (2 * (Z.of_nat k - l) + 1) * (2 * (Z.of_nat k - l) + 1)) : F) end.
      - apply fofZ_pos. nia.
      - rewrite <- fofZ_1, <- !fofZ_add, <- !fofZ_mul, <- !fofZ_sub, <- fofZ_opp. f_equal. lia. }
    replace (l - l)%Z with 0%Z by lia. rewrite z0. set (c := v - 1 - th_ l 0 k).
    assert (P2 : 0 < c * c - (0 + 0) * (0 + 0)). { unfold c, th_. match goal with |- 0 < ?t => replace t with (fofZ ((4 * l - 2 * Z.of_nat k) * (4 * l - 2 * Z.of_nat k)) : F) end.
      - apply fofZ_pos. nia.
      - replace (0 : F) with (fofZ 0 : F) by reflexivity. rewrite <- fofZ_1, <- !fofZ_add, <- !fofZ_sub, <- !fofZ_mul, <- !fofZ_sub. f_equal. lia. }
    rewrite Nat.odd_succ, <- Nat.negb_odd. destruct (Nat.odd k); cbn [negb].
    + replace (rho k * a * ((c * c - (0 + 0) * (0 + 0)) * b)) with (- rho k * (c * c - (0 + 0) * (0 + 0)) * (- (a * b))) by ring. apply fmul_pos; [apply fmul_pos|]; assumption.
    + replace (- (rho k * a * ((c * c - (0 + 0) * (0 + 0)) * b))) with (- rho k * (c * c - (0 + 0) * (0 + 0)) * (a * b)) by ring. apply fmul_pos; [apply fmul_pos|]; assumption.
Qed.
End Diagonal.
End Racah.
