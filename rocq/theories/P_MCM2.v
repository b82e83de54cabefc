(** Properties C23, C24 and C26: exchange of the fields, linearity and full sky, Toeplitz. *)
From Verif Require Import Base M_Bins M_LinAlg M_Workspace M_MCM L_Bins L_Bins2 L_Bins3 P_Bins L_LinAlg L_Workspace P_Workspace L_MCM L_MCM2 L_MCM3 P_MCM.
Open Scope Z_scope.

Section Statements.
Context {F : ofield}.
Local Open Scope F_scope.
Add Field FfPM2 : (fth F).
Notation mat := (list (list F)).
Variables (fsqrt fexp flog : F -> F) (pi : F).
Variable w3j : Z -> Z -> Z -> Z -> Z -> F.
Notation gives := (gives fsqrt fexp flog pi w3j).
Notation msum := (msum pi).
Notation cfg := (cfg pi).
Notation J0 := (J0 fsqrt fexp flog).
Notation J3 := (J3 w3j).
Notation Jp := (Jp fsqrt w3j).
Notation JP := (JP fsqrt w3j).
Notation C21 := (C21_symmetric_up_to_2l1 fsqrt fexp flog pi w3j).

(** ** C23: exchanging the two fields *)
(** the call with the fields exchanged *)
Definition swapped (i : minp (F:=F)) : minp :=
  MInp (n_spin2 i) (n_spin1 i) (n_pe2 i) (n_pb2 i) (n_pe1 i) (n_pb1 i) (n_lmm i) (n_pcl i) (n_bin i) (n_b2 i) (n_b1 i)
       (n_norm i) (n_w2 i) (n_teb i) (n_lt i) (n_lex i) (n_dl i).
(** EE, EB, BE, BB -> EE, BE, EB, BB *)
Definition flip (n r : nat) : nat := if Nat.eqb n 4 then match r with 1 => 2 | 2 => 1 | x => x end%nat else r.
Lemma swapped_ok (i : minp (F:=F)) : fields_ok i -> n_teb i = false -> fields_ok (swapped i).
Proof. intros H T. destruct H. constructor; cbn; try assumption. intro Q. congruence. Qed.
Lemma swapped_spec (i : minp (F:=F)) : n_teb i = false -> nspec (swapped i) = nspec i.
Proof. intro T. unfold nspec. cbn. rewrite T. destruct (n_spin1 i =? 0)%Z, (n_spin2 i =? 0)%Z; reflexivity. Qed.
Lemma swapped_pure (i : minp (F:=F)) : purified (swapped i) = purified i.
Proof. unfold purified. cbn. destruct (n_pe1 i), (n_pb1 i), (n_pe2 i), (n_pb2 i); reflexivity. Qed.
Lemma flip_lt (i : minp (F:=F)) r : (r < nspec i)%nat -> (flip (nspec i) r < nspec i)%nat.
Proof. unfold flip. destruct (Nat.eqb_spec (nspec i) 4) as [E|E]; [|lia]. rewrite E. destruct r as [|[|[|r]]]; lia. Qed.

Theorem C23_exchange_of_fields i M M' : fields_ok i -> (n_lt i <= 0)%Z -> n_teb i = false ->
  purified i = false \/ n_spin1 i = n_spin2 i \/ one_spin0 i ->
  gives i M -> gives (swapped i) M' ->
  forall r k l l', (r < nspec i)%nat -> (k < nspec i)%nat -> upto i l -> upto i l' ->
  el (swapped i) M' (flip (nspec i) r) l (flip (nspec i) k) l' = el i M r l k l'.
Proof.
  intros H T Te Hc G G' r k l l' Hr Hk Hl Hl'.
  pose proof (swapped_ok i H Te) as H'. pose proof (swapped_spec i Te) as NS. pose proof (swapped_pure i) as PS.
  assert (T' : (n_lt (swapped i) <= 0)%Z) by exact T. assert (Te' : n_teb (swapped i) = false) by exact Te.
  assert (MS : forall f, msum (swapped i) f = msum i f) by reflexivity.
  assert (U : forall x, upto i x -> upto (swapped i) x) by (intros x Hx; exact Hx).
  (* without purification it is enough to look at l <= l' *)
  assert (Red : purified i = false -> (forall l l', (l <= l')%nat -> upto i l' -> el (swapped i) M' (flip (nspec i) r) l (flip (nspec i) k) l' = 1 * el i M r l k l') ->
     el (swapped i) M' (flip (nspec i) r) l (flip (nspec i) k) l' = el i M r l k l').
  { intros P A. transitivity (1 * el i M r l k l'); [|ring].
    revert l l' Hl Hl'. apply (by_transpose fsqrt fexp flog pi w3j (swapped i) i M' M 1 (flip (nspec i) r) (flip (nspec i) k) r k); try assumption.
    - rewrite PS. exact P. - reflexivity.
    - rewrite NS. apply flip_lt; assumption. - rewrite NS. apply flip_lt; assumption. }
  destruct (Z.eq_dec (n_spin1 i) 0) as [S1|S1]; destruct (Z.eq_dec (n_spin2 i) 0) as [S2|S2].
  - pose proof (spins_1 i Te S1 S2) as N. pose proof (spin0_unpure fsqrt fexp flog pi i H S1 S2) as P. rewrite N in *. unfold flip in *. cbn [Nat.eqb] in *.
    assert (r = 0%nat) as -> by lia. assert (k = 0%nat) as -> by lia. apply Red; [exact P|]. intros x y L Hy.
    rewrite (C20_formula_00 fsqrt fexp flog pi w3j i M x y H G T Te S1 S2 L Hy).
    rewrite (C20_formula_00 fsqrt fexp flog pi w3j (swapped i) M' x y H' G' T' Te' S2 S1 L Hy). rewrite MS. ring.
  - assert (O : one_spin0 i) by (left; auto). assert (O' : one_spin0 (swapped i)) by (right; cbn; auto).
    pose proof (spins_2 i Te O) as N. rewrite N in *. unfold flip in *. cbn [Nat.eqb] in *.
    destruct (Nat.eq_dec r k) as [->|Ne].
    + destruct (purified i) eqn:P.
      * pose proof (C20_formula_pure_02 fsqrt fexp flog pi w3j i M l l' k H G T Te O P Hl Hl' Hr) as A.
        pose proof (C20_formula_pure_02 fsqrt fexp flog pi w3j (swapped i) M' l l' k H' G' T' Te' O' PS Hl Hl' Hr) as B.
        cbv zeta in A, B. rewrite A, B, MS. cbn [swapped n_pe1 n_pe2 n_pb1 n_pb2].
        rewrite (orb_comm (n_pe2 i)), (orb_comm (n_pb2 i)). reflexivity.
      * apply Red; [reflexivity|]. intros x y L Hy.
        pose proof (C20_formula_0s fsqrt fexp flog pi w3j i M x y k H G T Te O P L Hy Hr) as A.
        pose proof (C20_formula_0s fsqrt fexp flog pi w3j (swapped i) M' x y k H' G' T' Te' O' PS L Hy Hr) as B.
        cbv zeta in A, B. rewrite A, B, MS. cbn [swapped n_spin1 n_spin2]. rewrite (Z.add_comm (n_spin2 i)). ring.
    + destruct (C20_spin0_spinS fsqrt fexp flog pi w3j i M l l' H G Te O Hl Hl') as [A1 [A2 _]].
      destruct (C20_spin0_spinS fsqrt fexp flog pi w3j (swapped i) M' l l' H' G' Te' O' Hl Hl') as [B1 [B2 _]].
      destruct r as [|[|r]], k as [|[|k]]; try lia; congruence.
  - assert (O : one_spin0 i) by (right; auto). assert (O' : one_spin0 (swapped i)) by (left; cbn; auto).
    pose proof (spins_2 i Te O) as N. rewrite N in *. unfold flip in *. cbn [Nat.eqb] in *.
    destruct (Nat.eq_dec r k) as [->|Ne].
    + destruct (purified i) eqn:P.
      * pose proof (C20_formula_pure_02 fsqrt fexp flog pi w3j i M l l' k H G T Te O P Hl Hl' Hr) as A.
        pose proof (C20_formula_pure_02 fsqrt fexp flog pi w3j (swapped i) M' l l' k H' G' T' Te' O' PS Hl Hl' Hr) as B.
        cbv zeta in A, B. rewrite A, B, MS. cbn [swapped n_pe1 n_pe2 n_pb1 n_pb2].
        rewrite (orb_comm (n_pe2 i)), (orb_comm (n_pb2 i)). reflexivity.
      * apply Red; [reflexivity|]. intros x y L Hy.
        pose proof (C20_formula_0s fsqrt fexp flog pi w3j i M x y k H G T Te O P L Hy Hr) as A.
        pose proof (C20_formula_0s fsqrt fexp flog pi w3j (swapped i) M' x y k H' G' T' Te' O' PS L Hy Hr) as B.
        cbv zeta in A, B. rewrite A, B, MS. cbn [swapped n_spin1 n_spin2]. rewrite (Z.add_comm (n_spin2 i)). ring.
    + destruct (C20_spin0_spinS fsqrt fexp flog pi w3j i M l l' H G Te O Hl Hl') as [A1 [A2 _]].
      destruct (C20_spin0_spinS fsqrt fexp flog pi w3j (swapped i) M' l l' H' G' Te' O' Hl Hl') as [B1 [B2 _]].
      destruct r as [|[|r]], k as [|[|k]]; try lia; congruence.
  - pose proof (spins_4 i Te S1 S2) as N. rewrite N in *. cbn [flip Nat.eqb] in *.
    pose proof (C20_spinS_spinS_zeros fsqrt fexp flog pi w3j i M l l' H G Te S1 S2 Hl Hl') as Z0.
    pose proof (C20_spinS_spinS_zeros fsqrt fexp flog pi w3j (swapped i) M' l l' H' G' Te' S2 S1 Hl Hl') as Z0'.
    destruct (purified i) eqn:P.
    + assert (E12 : n_spin1 i = n_spin2 i).
      { destruct Hc as [Q|[Q|[[Q1 Q2]|[Q1 Q2]]]]; [discriminate | exact Q | contradiction | contradiction]. }
      assert (E2 : n_spin1 i = 2%Z).
      { unfold purified in P. rewrite <- orb_assoc in P. apply orb_true_iff in P. destruct P as [P|P]; [apply (fo_p1 i H P) | rewrite E12; apply (fo_p2 i H P)]. }
      assert (E2' : n_spin2 i = 2%Z) by lia.
      assert (A : forall a b, _) by (intros a b; exact (C20_formula_pure_22 fsqrt fexp flog pi w3j i M l l' a b H G T Te E2 E2' P Hl Hl')).
      assert (B : forall a b, _) by (intros a b; exact (C20_formula_pure_22 fsqrt fexp flog pi w3j (swapped i) M' l l' a b H' G' T' Te' E2' E2 PS Hl Hl')).
      cbv zeta in A, B. cbn [swapped n_pe1 n_pe2 n_pb1 n_pb2] in B.
      assert (MM : forall (ok : bool) (s x : F) (f g : Z -> F) (ev : Z -> F), (if ok then s * x * msum (swapped i) (fun l1 => ev l1 * (f l1 * g l1)) else 0) = (if ok then s * x * msum i (fun l1 => ev l1 * (g l1 * f l1)) else 0)).
      { intros ok s x f g ev. rewrite MS. destruct ok; [|reflexivity]. f_equal. apply (msum_ext fsqrt fexp flog pi w3j). intros l1 _. ring. }
      assert (MM' : forall (ok : bool) (x : F) (f g : Z -> F) (ev : Z -> F), (if ok then x * msum (swapped i) (fun l1 => ev l1 * (f l1 * g l1)) else 0) = (if ok then x * msum i (fun l1 => ev l1 * (g l1 * f l1)) else 0)).
      { intros ok x f g ev. rewrite MS. destruct ok; [|reflexivity]. f_equal. apply (msum_ext fsqrt fexp flog pi w3j). intros l1 _. ring. }
      destruct (A false false) as [a1 a2], (A false true) as [a3 a4], (A true false) as [a5 a6], (A true true) as [a7 a8].
      destruct (B false false) as [b1 b2], (B false true) as [b3 b4], (B true false) as [b5 b6], (B true true) as [b7 b8].
      clear A B. cbn [b2n negb Nat.mul Nat.add Bool.eqb] in *.
      rewrite MM' in b1, b3, b5, b7. rewrite MM in b2, b4, b6, b8.
      do 4 (destruct r as [|r]; [do 4 (destruct k as [|k]; [first
        [ rewrite Z0, Z0' by (cbn; tauto); reflexivity | congruence ]|]); lia|]). lia.
    + apply Red; [reflexivity|]. clear l l' Hl Hl' Z0 Z0' Red. intros l l' L Hl'.
      assert (Hl : upto i l) by (unfold upto in *; lia).
      pose proof (C20_spinS_spinS_zeros fsqrt fexp flog pi w3j i M l l' H G Te S1 S2 Hl Hl') as Z0.
      pose proof (C20_spinS_spinS_zeros fsqrt fexp flog pi w3j (swapped i) M' l l' H' G' Te' S2 S1 Hl Hl') as Z0'.
      destruct (C20_spinS_spinS_symmetry fsqrt fexp flog pi w3j i M l l' H G Te P S1 S2 Hl Hl') as [Y1 [Y2 [Y3 [Y4 [Y5 Y6]]]]].
      destruct (C20_spinS_spinS_symmetry fsqrt fexp flog pi w3j (swapped i) M' l l' H' G' Te' PS S2 S1 Hl Hl') as [X1 [X2 [X3 [X4 [X5 X6]]]]].
      destruct (C20_formula_ss fsqrt fexp flog pi w3j i M l l' H G T Te S1 S2 P L Hl') as [Fp Fm].
      destruct (C20_formula_ss fsqrt fexp flog pi w3j (swapped i) M' l l' H' G' T' Te' S2 S1 PS L Hl') as [Fp' Fm'].
      cbn [swapped n_spin1 n_spin2] in Fp', Fm'. rewrite (Z.add_comm (n_spin2 i)) in Fp', Fm'.
      assert (MM : forall (x : F) (f g : Z -> F) (ev : Z -> F), x * msum (swapped i) (fun l1 => ev l1 * (f l1 * g l1)) = x * msum i (fun l1 => ev l1 * (g l1 * f l1))).
      { intros x f g ev. rewrite MS. f_equal. apply (msum_ext fsqrt fexp flog pi w3j). intros l1 _. ring. }
      rewrite MM in Fp', Fm'.
      do 4 (destruct r as [|r]; [do 4 (destruct k as [|k]; [cbv iota; first
        [ rewrite Z0, Z0' by (cbn; tauto); ring
        | rewrite ?X1, ?X2, ?X3, ?Y1, ?Y2, ?Y3, Fp, Fp'; ring
        | rewrite ?X4, ?X5, ?X6, ?Y4, ?Y5, ?Y6, Fm, Fm'; ring ]|]); lia|]). lia.
Qed.
(** ** C24 *)
Lemma four_pi : pi <> 0 -> (1 + 1 + 1 + 1) * pi <> 0 :> F.
Proof.
  intros Hpi E. apply fmul_eq_0 in E. destruct E as [E|E]; [|contradiction]. revert E.
  replace (1 + 1 + 1 + 1 : F) with (fofnat 4 : F) by (cbn; ring). apply fofnat_neq0.
Qed.
Lemma coef_junk junk junk' (c : conf F) pure a ip p q l1 : (0 <= p <= c_lmax c)%Z -> (0 <= q <= c_lmax c)%Z -> tri p q l1 = true -> (l1 <= c_lmm c)%Z ->
  coef fsqrt fexp flog junk w3j c pure a ip p q l1 = coef fsqrt fexp flog junk' w3j c pure a ip p q l1.
Proof.
  intros Hp Hq Ht Hm. unfold tri in Ht. apply andb_true_iff in Ht. rewrite !Z.leb_le in Ht. unfold coef.
  rewrite (wv_junk fsqrt fexp flog w3j junk junk') by assumption. reflexivity.
Qed.
Definition cv (junk : Z -> F) (i : minp) (a : fam) (ip : nat) (p q l1 : Z) : F :=
  if tri p q l1 then coef fsqrt fexp flog junk w3j (cfg i) (purified i) a ip p q l1 else 0.
Lemma key_range (i : minp (F:=F)) l l' p q : upto i l -> upto i l' -> key (cfg i) (Z.of_nat l) (Z.of_nat l') = (p, q) ->
  (0 <= p <= n_lmax i)%Z /\ (0 <= q <= n_lmax i)%Z.
Proof. unfold upto, key. intros Hl Hl' K. destruct (c_pany (cfg i)); injection K as <- <-; lia. Qed.
Lemma exact_el_any junk i M : fields_ok i -> gives i M -> (n_lt i <= 0)%Z ->
  forall r l k l', (r < nspec i)%nat -> (k < nspec i)%nat -> upto i l -> upto i l' ->
    el i M r l k l' = fofZ (2 * Z.of_nat l' + 1) * sign_overall (cfg i) * tabv (cfg i) r k (fun a ip =>
      if computed (cfg i) (Z.of_nat l) (Z.of_nat l') then
        let '(p, q) := key (cfg i) (Z.of_nat l) (Z.of_nat l') in msum i (cv junk i a ip p q) else 0).
Proof.
  intros H G T r l k l' Hr Hk Hl Hl'. destruct (exact_el fsqrt fexp flog pi w3j i M H G T) as [junk' V]. rewrite V by assumption. f_equal.
  apply tabv_ext. intros a ip. destruct (computed _ _ _); [|reflexivity]. destruct (key (cfg i) (Z.of_nat l) (Z.of_nat l')) as [p q] eqn:K.
  destruct (key_range i l l' p q Hl Hl' K) as [Hp Hq]. apply (msum_ext fsqrt fexp flog pi w3j). intros l1 Hl1. unfold cv.
  destruct (tri p q l1) eqn:Et; [|reflexivity]. apply coef_junk; try assumption. apply Hl1.
Qed.
Lemma tabv_lin (c : conf F) r k f g h (a b : F) : (forall x ip, f x ip = a * g x ip + b * h x ip) -> tabv c r k f = a * tabv c r k g + b * tabv c r k h.
Proof.
  intro H. unfold tabv. induction (table c) as [|[[[[r' k'] sg] x] ip] T IH]; [cbn; ring|]. rewrite !lsum_cons, IH.
  destruct (Nat.eqb r r' && Nat.eqb k k'); [rewrite H|]; ring.
Qed.
(** the same call with another mask spectrum *)
Definition with_pcl (i : minp) (p : list F) : minp :=
  MInp (n_spin1 i) (n_spin2 i) (n_pe1 i) (n_pb1 i) (n_pe2 i) (n_pb2 i) (n_lmm i) p (n_bin i) (n_b1 i) (n_b2 i)
       (n_norm i) (n_w2 i) (n_teb i) (n_lt i) (n_lex i) (n_dl i).
Theorem C24_linear_in_mask_spectrum i x y z (a b : F) Mx My Mz : pi <> 0 -> fields_ok (with_pcl i x) -> fields_ok (with_pcl i y) -> fields_ok (with_pcl i z) -> (n_lt i <= 0)%Z ->
  (forall n, nth n z 0 = a * nth n x 0 + b * nth n y 0) -> gives (with_pcl i x) Mx -> gives (with_pcl i y) My -> gives (with_pcl i z) Mz ->
  forall r l k l', (r < nspec i)%nat -> (k < nspec i)%nat -> upto i l -> upto i l' ->
  el i Mz r l k l' = a * el i Mx r l k l' + b * el i My r l k l'.
Proof.
  intros Hpi Hx Hy Hz T Hn Gx Gy Gz r l k l' Hr Hk Hl Hl'.
  change (el (with_pcl i z) Mz r l k l' = a * el (with_pcl i x) Mx r l k l' + b * el (with_pcl i y) My r l k l').
  rewrite (exact_el_any (fun _ => 0) _ _ Hz Gz T r l k l' Hr Hk Hl Hl'), (exact_el_any (fun _ => 0) _ _ Hx Gx T r l k l' Hr Hk Hl Hl'),
          (exact_el_any (fun _ => 0) _ _ Hy Gy T r l k l' Hr Hk Hl Hl').
  set (c := cfg (with_pcl i z)).
  assert (EQ : forall p, sign_overall (cfg (with_pcl i p)) = sign_overall c /\ (forall g, tabv (cfg (with_pcl i p)) r k g = tabv c r k g) /\
     computed (cfg (with_pcl i p)) (Z.of_nat l) (Z.of_nat l') = computed c (Z.of_nat l) (Z.of_nat l') /\
     key (cfg (with_pcl i p)) (Z.of_nat l) (Z.of_nat l') = key c (Z.of_nat l) (Z.of_nat l')) by (intro p; repeat split).
  destruct (EQ x) as [X1 [X2 [X3 X4]]]. destruct (EQ y) as [Y1 [Y2 [Y3 Y4]]]. rewrite X1, X2, X3, X4, Y1, Y2, Y3, Y4. clear EQ X1 X2 X3 X4 Y1 Y2 Y3 Y4.
  transitivity (fofZ (2 * Z.of_nat l' + 1) * sign_overall c * (a * tabv c r k (fun a0 ip => if computed c (Z.of_nat l) (Z.of_nat l') then
        let '(p, q) := key c (Z.of_nat l) (Z.of_nat l') in msum (with_pcl i x) (cv (fun _ => 0) (with_pcl i x) a0 ip p q) else 0)
     + b * tabv c r k (fun a0 ip => if computed c (Z.of_nat l) (Z.of_nat l') then
        let '(p, q) := key c (Z.of_nat l) (Z.of_nat l') in msum (with_pcl i y) (cv (fun _ => 0) (with_pcl i y) a0 ip p q) else 0))).
  - f_equal. apply tabv_lin. intros f ip. destruct (computed c (Z.of_nat l) (Z.of_nat l')); [|ring]. destruct (key c (Z.of_nat l) (Z.of_nat l')) as [p q].
    unfold P_MCM.msum. cbn [with_pcl n_lmm]. rewrite <- !sum_mul_l, <- sum_add. apply sum_ext. intros j Hj. unfold pmask. cbn [with_pcl n_pcl]. rewrite Hn.
    change (cv (fun _ => 0) (with_pcl i x) f ip p q (Z.of_nat j)) with (cv (fun _ => 0) (with_pcl i z) f ip p q (Z.of_nat j)).
    change (cv (fun _ => 0) (with_pcl i y) f ip p q (Z.of_nat j)) with (cv (fun _ => 0) (with_pcl i z) f ip p q (Z.of_nat j)).
    pose proof (four_pi Hpi) as D. set (d := (1 + 1 + 1 + 1) * pi) in *. clearbody d. field. exact D.
  - ring.
Qed.
(** full sky: laws of libm and the textbook value of (l l 0; s -s 0) *)
Record laws : Prop := {
  la_sq : forall x : F, 0 <= x -> fsqrt x * fsqrt x = x; la_sqrt0 : forall x : F, 0 <= x -> 0 <= fsqrt x;
  la_exp : forall x y, fexp (x + y) = fexp x * fexp y; la_exp0 : forall x, 0 < fexp x; la_log : forall x, 0 < x -> fexp (flog x) = x;
  la_w3j : forall s l, (0 <= s <= l)%Z -> w3j l l s (- s) 0 = eps (l - s) / fsqrt (fofZ (2 * l + 1)) }.
Lemma exp_0 : laws -> fexp 0 = 1.
Proof.
  intro L. pose proof (la_exp L 0 0) as E. replace (0 + 0 : F) with (0 : F) in E by ring. pose proof (la_exp0 L 0) as P.
  apply fsub_0_eq. assert (Z0 : fexp 0 * (fexp 0 - 1) = 0) by (transitivity (fexp 0 * fexp 0 - fexp 0); [ring | rewrite <- E; ring]).
  apply fmul_eq_0 in Z0. destruct Z0 as [Z0|Z0]; [|exact Z0]. exfalso. apply (fpos_neq _ P Z0).
Qed.
Lemma sq_eq (x y : F) : 0 <= x -> 0 <= y -> x * x = y * y -> x = y.
Proof.
  intros Hx Hy E. apply fsub_0_eq. assert (Z0 : (x - y) * (x + y) = 0) by (transitivity (x * x - y * y); [ring | rewrite E; ring]).
  apply fmul_eq_0 in Z0. destruct Z0 as [Z0|Z0]; [exact Z0|].
  assert (A : x = 0). { apply fle_antisym; [|exact Hx]. replace x with (- y) by (transitivity (x + y - y); [rewrite Z0; ring | ring]). pose proof (fle_add_r 0 y (- y) Hy) as Q. replace (0 + - y : F) with (- y) in Q by ring. replace (y + - y : F) with (0 : F) in Q by ring. exact Q. }
  rewrite A in *. replace y with (0 + y : F) by ring. rewrite Z0. ring.
Qed.
Lemma lnfac_S n : (0 <= n)%Z -> lnfac flog (n + 1) = lnfac flog n + (if (n =? 0)%Z then 0 else flog (fofZ (n + 1))).
Proof.
  intro H. destruct (Z_of_nat_complete n H) as [m ->]. replace (Z.of_nat m + 1)%Z with (Z.of_nat (S m)) by lia.
  rewrite <- !(lfac_lnfac fsqrt fexp flog w3j), fofZ_of_nat. destruct m as [|m]; [cbn; ring|]. reflexivity.
Qed.
Lemma J0_diag l : laws -> (0 <= l)%Z -> J0 l l 0 = eps l / fsqrt (fofZ (2 * l + 1)).
Proof.
  intros L Hl. unfold P_MCM.J0. replace (tri l l 0) with true by (symmetry; unfold tri; apply andb_true_iff; rewrite !Z.leb_le; lia).
  rewrite Z.min_id. destruct (Z.eqb_spec l 0) as [->|N]; [reflexivity|].
  replace (0 + l + l)%Z with (2 * l)%Z by lia. replace (Z.odd (2 * l)) with false by (rewrite Z.odd_mul; reflexivity). cbv zeta.
  replace (2 * l / 2)%Z with l by (rewrite Z.mul_comm, Z.div_mul; lia).
  replace (2 * l - 2 * 0)%Z with (2 * l)%Z by lia. rewrite Z.sub_diag. replace (l - l)%Z with 0%Z by lia. rewrite !Z.sub_0_r.
  rewrite lnfac_S by lia. replace (2 * l =? 0)%Z with false by (symmetry; apply Z.eqb_neq; lia).
  change (lnfac flog 0) with (0 : F).
  assert (P : (0 : F) < fofZ (2 * l + 1)) by (apply fofZ_pos; lia). set (n := fofZ (2 * l + 1)) in *.
  assert (D : (1 + 1 : F) <> 0) by (replace (1 + 1 : F) with (fofnat 2 : F) by (cbn; ring); apply fofnat_neq0).
  match goal with |- eps l * fexp ?x = _ => replace x with (- (flog n / (1 + 1))) by (field; exact D) end.
  set (e := fexp (- (flog n / (1 + 1)))). pose proof (la_exp0 L (- (flog n / (1 + 1)))) as Pe. fold e in Pe.
  assert (S : e * e * n = 1).
  { unfold e. rewrite <- (la_exp L). rewrite <- (la_log L n P) at 3. rewrite <- (la_exp L).
    match goal with |- fexp ?x = _ => replace x with (0 : F) by (field; exact D) end. apply exp_0; exact L. }
  assert (Q : fsqrt n <> 0). { intro Q. pose proof (la_sq L n (flt_le _ _ P)) as Q2. rewrite Q in Q2. apply (fpos_neq _ P). rewrite <- Q2. ring. }
  assert (E : e = 1 / fsqrt n).
  { apply sq_eq; [apply flt_le; exact Pe | |].
    - apply fdiv_nonneg; [apply f0_le_1|]. apply fle_neq_lt; [apply (la_sqrt0 L); apply flt_le; exact P | congruence].
    - replace (1 / fsqrt n * (1 / fsqrt n)) with (1 / (fsqrt n * fsqrt n)) by (field; exact Q). rewrite (la_sq L) by (apply flt_le; exact P).
      rewrite <- S. field. apply fpos_neq; exact P. }
  rewrite E. field. exact Q.
Qed.
Lemma J3_diag s l : laws -> (0 <= s)%Z -> (0 <= l)%Z -> J3 s l l 0 = if (s <=? l)%Z then eps (l - s) / fsqrt (fofZ (2 * l + 1)) else 0.
Proof.
  intros L Hs Hl. unfold P_MCM.J3. replace (tri l l 0) with true by (symmetry; unfold tri; apply andb_true_iff; rewrite !Z.leb_le; lia).
  cbn [andb]. destruct (Z.leb_spec s l); cbn [andb]; [apply (la_w3j L); lia | reflexivity].
Qed.
Lemma tri0 l l' : tri (Z.of_nat l) (Z.of_nat l') 0 = Nat.eqb l l'.
Proof. apply eq_true_iff_eq. unfold tri. rewrite andb_true_iff, !Z.leb_le, Nat.eqb_eq. lia. Qed.
(** a spectrum with the single value 4 pi at l = 0, as for two unit masks *)
Definition full_sky (i : minp) : Prop := nth 0 (n_pcl i) 0 = (1 + 1 + 1 + 1) * pi /\ forall n, (0 < n)%nat -> nth n (n_pcl i) 0 = 0.
Lemma msum_full_sky i f : pi <> 0 -> fields_ok i -> full_sky i -> msum i f = f 0%Z.
Proof.
  intros Hpi H [A B]. pose proof (fo_lmm i H). destruct (valid_bins_facts _ (fo_bins i H)) as [_ [_ P]]. unfold n_lmax in *.
  unfold P_MCM.msum. rewrite (sum_single _ 0%nat); [|lia|].
  - unfold pmask. rewrite A. change (2 * 0 + 1)%nat with 1%nat. pose proof (four_pi Hpi) as D. set (d := (1 + 1 + 1 + 1) * pi) in *. clearbody d.
    replace (fofnat 1 : F) with (1 : F) by (cbn; ring). change (Z.of_nat 0) with 0%Z. field. exact D.
  - intros j Hj Nj. unfold pmask. rewrite B by lia. pose proof (four_pi Hpi) as D. set (d := (1 + 1 + 1 + 1) * pi) in *. clearbody d. field. exact D.
Qed.
Lemma eps_mul a b : eps a * eps b = (eps (a + b) : F).
Proof. unfold eps. rewrite Z.odd_add. destruct (Z.odd a), (Z.odd b); cbn; ring. Qed.
Lemma eps_odd a b : Z.odd a = Z.odd b -> eps a = (eps b : F).
Proof. unfold eps. intros ->. reflexivity. Qed.
(** sum rule used by every block: the diagonal value *)
Lemma diag_value (s s' l : Z) (x y : F) : laws -> (0 <= l)%Z -> x = eps (l - s) / fsqrt (fofZ (2 * l + 1)) -> y = eps (l - s') / fsqrt (fofZ (2 * l + 1)) ->
  eps (s + s') * fofZ (2 * l + 1) * (x * y) = 1.
Proof.
  intros L Hl -> ->. assert (P : (0 : F) < fofZ (2 * l + 1)) by (apply fofZ_pos; lia). set (n := fofZ (2 * l + 1)) in *.
  assert (Q : fsqrt n <> 0). { intro Q. pose proof (la_sq L n (flt_le _ _ P)) as Q2. rewrite Q in Q2. apply (fpos_neq _ P). rewrite <- Q2. ring. }
  transitivity (eps (s + s') * (eps (l - s) * eps (l - s')) * (n / (fsqrt n * fsqrt n))); [field; exact Q|].
  rewrite (la_sq L) by (apply flt_le; exact P). rewrite !eps_mul. rewrite (eps_odd _ 0).
  - change (eps 0) with (1 : F). field. apply fpos_neq; exact P.
  - replace (s + s' + (l - s + (l - s')))%Z with (2 * l)%Z by lia. rewrite Z.odd_mul. reflexivity.
Qed.
Lemma J0_off l l' : l <> l' -> J0 (Z.of_nat l) (Z.of_nat l') 0 = 0.
Proof. intro N. unfold P_MCM.J0. rewrite tri0. apply Nat.eqb_neq in N. rewrite N. reflexivity. Qed.
Lemma J3_off s l l' : l <> l' -> J3 s (Z.of_nat l) (Z.of_nat l') 0 = 0.
Proof. intro N. unfold P_MCM.J3. rewrite tri0. apply Nat.eqb_neq in N. rewrite N. reflexivity. Qed.
Lemma Jp_0 b l l' : JP b l l' 0 = J3 2 l l' 0.
Proof. destruct b; [|reflexivity]. unfold P_MCM.JP, P_MCM.Jp. rewrite !andb_false_r. ring. Qed.
Definition ident (i : minp (F:=F)) (r l k l' : nat) : F :=
  if Nat.eqb r k && Nat.eqb l l' && (Z.max (n_spin1 i) (n_spin2 i) <=? Z.of_nat l)%Z then 1 else 0.
Lemma ident_sym i r l k l' : ident i r l k l' = ident i r l' k l.
Proof. unfold ident. rewrite (Nat.eqb_sym l' l). destruct (Nat.eqb_spec l l') as [->|]; [reflexivity|]. rewrite !andb_false_r. reflexivity. Qed.
Lemma by_sym_ident i M r k : fields_ok i -> gives i M -> purified i = false -> (r < nspec i)%nat -> (k < nspec i)%nat ->
  (forall l l', (l <= l')%nat -> upto i l' -> el i M r l k l' = ident i r l k l') ->
  forall l l', upto i l -> upto i l' -> el i M r l k l' = ident i r l k l'.
Proof.
  intros H G P Hr Hk A l l' Hl Hl'. destruct (Nat.le_gt_cases l l') as [L|L]; [apply A; assumption|].
  pose proof (C21 i M r k l l' H G P Hr Hk Hl Hl') as X. rewrite (A l' l) in X by (try lia; assumption).
  assert (Z0 : forall u v : nat, u <> v -> ident i r u k v = 0).
  { intros u v N. unfold ident. apply Nat.eqb_neq in N. rewrite N, andb_false_r. reflexivity. }
  rewrite Z0 in X by lia. rewrite Z0 by lia. replace (fofZ (2 * Z.of_nat l' + 1) * 0) with (0 : F) in X by ring. apply fmul_eq_0 in X.
  destruct X as [X|X]; [|exact X]. exfalso. revert X. apply fofZ_neq0. lia.
Qed.

Lemma J0_diag0 l : laws -> (0 <= l)%Z -> J0 l l 0 = eps (l - 0) / fsqrt (fofZ (2 * l + 1)).
Proof. intros. rewrite Z.sub_0_r. apply J0_diag; assumption. Qed.
Lemma J3_diag1 s l : laws -> (0 <= s <= l)%Z -> J3 s l l 0 = eps (l - s) / fsqrt (fofZ (2 * l + 1)).
Proof. intros La H. rewrite J3_diag by (try exact La; lia). replace (s <=? l)%Z with true by (symmetry; apply Z.leb_le; lia). reflexivity. Qed.
Lemma J3_diag2 s l : laws -> (0 <= l < s)%Z -> J3 s l l 0 = 0.
Proof. intros La H. rewrite J3_diag by (try exact La; lia). replace (s <=? l)%Z with false by (symmetry; apply Z.leb_gt; lia). reflexivity. Qed.
Lemma pure_one (i : minp (F:=F)) : fields_ok i -> one_spin0 i -> purified i = true -> (n_spin1 i + n_spin2 i = 2)%Z.
Proof.
  intros H S P. pose proof (fo_p1 i H) as F1. pose proof (fo_p2 i H) as F2. unfold purified in P. rewrite <- orb_assoc in P. apply orb_true_iff in P.
  destruct S as [[S1 S2]|[S1 S2]]; destruct P as [P|P]; [specialize (F1 P) | specialize (F2 P) | specialize (F1 P) | specialize (F2 P)]; lia.
Qed.
Lemma full_sky_0s i M : laws -> pi <> 0 -> fields_ok i -> full_sky i -> (n_lt i <= 0)%Z -> n_teb i = false -> gives i M -> one_spin0 i ->
  forall r l k l', (r < 2)%nat -> (k < 2)%nat -> upto i l -> upto i l' -> el i M r l k l' = ident i r l k l'.
Proof.
  intros La Hpi H FS T Te G O r l k l' Hr Hk Hl Hl'. pose proof (spins_2 i Te O) as N.
  pose proof (fun f => msum_full_sky i f Hpi H FS) as MF. pose proof (fo_s1 i H) as Q1. pose proof (fo_s2 i H) as Q2.
  assert (MX : Z.max (n_spin1 i) (n_spin2 i) = (n_spin1 i + n_spin2 i)%Z) by (destruct O as [[? ?]|[? ?]]; lia).
  destruct (Nat.eq_dec r k) as [<-|Ne]; cycle 1.
  { destruct (C20_spin0_spinS fsqrt fexp flog pi w3j i M l l' H G Te O Hl Hl') as [A1 [A2 _]]. unfold ident. apply Nat.eqb_neq in Ne as Ne'. rewrite Ne'. cbn [andb].
    destruct r as [|[|r]], k as [|[|k]]; try lia; assumption. }
  destruct (purified i) eqn:P.
  - pose proof (pure_one i H O P) as E2. pose proof (C20_formula_pure_02 fsqrt fexp flog pi w3j i M l l' r H G T Te O P Hl Hl' Hr) as A. cbv zeta in A.
    rewrite A, MF, Jp_0. unfold ident. rewrite MX, E2, Nat.eqb_refl. cbn [andb].
    destruct (Nat.eqb_spec l l') as [<-|N']; cbn [andb]; [|rewrite J0_off by exact N'; destruct (_ && _); ring].
    replace (2 <=? Z.of_nat l)%Z with (2 <=? l)%nat by (apply eq_true_iff_eq; rewrite Nat.leb_le, Z.leb_le; lia).
    destruct (Nat.leb_spec 2 l) as [L|L]; cbn [andb]; [|reflexivity].
    etransitivity; [|exact (diag_value 2 0 (Z.of_nat l) _ _ La ltac:(lia) (J3_diag1 2 (Z.of_nat l) La ltac:(lia)) (J0_diag0 (Z.of_nat l) La ltac:(lia)))].
    change (eps (2 + 0)) with (1 : F). ring.
  - revert l l' Hl Hl'. apply by_sym_ident; try assumption; try (rewrite N; lia). intros l l' L Hl'.
    pose proof (C20_formula_0s fsqrt fexp flog pi w3j i M l l' r H G T Te O P L Hl' Hr) as A. cbv zeta in A. rewrite A, MF.
    unfold ident. rewrite MX, Nat.eqb_refl. cbn [andb]. set (s := (n_spin1 i + n_spin2 i)%Z) in *.
    destruct (Nat.eqb_spec l l') as [<-|N']; cbn [andb]; [|rewrite J0_off by exact N'; ring].
    destruct (Z.leb_spec s (Z.of_nat l)) as [L2|L2]; [|rewrite J3_diag2 by (try exact La; lia); ring].
    etransitivity; [|exact (diag_value s 0 (Z.of_nat l) _ _ La ltac:(lia) (J3_diag1 s (Z.of_nat l) La ltac:(lia)) (J0_diag0 (Z.of_nat l) La ltac:(lia)))].
    rewrite Z.add_0_r. reflexivity.
Qed.
Lemma even_diag l : even (Z.of_nat l) (Z.of_nat l) 0 = (1 : F) /\ odd (Z.of_nat l) (Z.of_nat l) 0 = (0 : F).
Proof. unfold even, odd. replace (0 + Z.of_nat l + Z.of_nat l)%Z with (2 * Z.of_nat l)%Z by lia. rewrite Z.odd_mul. split; reflexivity. Qed.
Lemma full_sky_ss i M : laws -> pi <> 0 -> fields_ok i -> full_sky i -> (n_lt i <= 0)%Z -> n_teb i = false -> gives i M -> n_spin1 i <> 0%Z -> n_spin2 i <> 0%Z ->
  purified i = false -> forall r l k l', (r < 4)%nat -> (k < 4)%nat -> upto i l -> upto i l' -> el i M r l k l' = ident i r l k l'.
Proof.
  intros La Hpi H FS T Te G S1 S2 P r l k l' Hr Hk Hl Hl'. pose proof (spins_4 i Te S1 S2) as N.
  pose proof (fun f => msum_full_sky i f Hpi H FS) as MF. pose proof (fo_s1 i H) as Q1. pose proof (fo_s2 i H) as Q2.
  revert l l' Hl Hl'. apply by_sym_ident; try assumption; try (rewrite N; lia). intros l l' L Hl'. assert (Hl : upto i l) by (unfold upto in *; lia).
  pose proof (C20_spinS_spinS_zeros fsqrt fexp flog pi w3j i M l l' H G Te S1 S2 Hl Hl') as Z0.
  destruct (C20_spinS_spinS_symmetry fsqrt fexp flog pi w3j i M l l' H G Te P S1 S2 Hl Hl') as [Y1 [Y2 [Y3 [Y4 [Y5 Y6]]]]].
  destruct (C20_formula_ss fsqrt fexp flog pi w3j i M l l' H G T Te S1 S2 P L Hl') as [Fp Fm]. cbv beta zeta in Fp, Fm. rewrite MF in Fp, Fm.
  assert (Vm : el i M 0 l 3 l' = 0).
  { rewrite Fm. destruct (Nat.eq_dec l l') as [<-|N']; [|rewrite (J3_off (n_spin1 i)) by exact N'; ring]. destruct (even_diag l) as [_ ->]. ring. }
  assert (Vp : el i M 0 l 0 l' = ident i 0 l 0 l').
  { rewrite Fp. unfold ident. cbn [Nat.eqb andb]. destruct (Nat.eqb_spec l l') as [<-|N']; cbn [andb]; [|rewrite (J3_off (n_spin1 i)) by exact N'; ring].
    destruct (even_diag l) as [-> _]. destruct (Z.leb_spec (Z.max (n_spin1 i) (n_spin2 i)) (Z.of_nat l)) as [L2|L2].
    - etransitivity; [|exact (diag_value (n_spin1 i) (n_spin2 i) (Z.of_nat l) _ _ La ltac:(lia) (J3_diag1 (n_spin1 i) (Z.of_nat l) La ltac:(lia)) (J3_diag1 (n_spin2 i) (Z.of_nat l) La ltac:(lia)))]. ring.
    - destruct (Z.le_gt_cases (n_spin1 i) (Z.of_nat l)); [rewrite (J3_diag2 (n_spin2 i)) by (try exact La; lia) | rewrite (J3_diag2 (n_spin1 i)) by (try exact La; lia)]; ring. }
  assert (Id : forall x, ident i x l x l' = ident i 0 l 0 l') by (intro x; unfold ident; rewrite !Nat.eqb_refl; reflexivity).
  assert (I0 : forall x y, Nat.eqb x y = false -> ident i x l y l' = 0) by (intros x y Q; unfold ident; rewrite Q; reflexivity).
  destruct r as [|[|[|[|r]]]]; try lia; destruct k as [|[|[|[|k]]]]; try lia.
  all: try (rewrite I0 by reflexivity; apply Z0; cbn; tauto).
  all: try (rewrite I0 by reflexivity; rewrite ?Y4, ?Y5, ?Y6, Vm; ring).
  all: try exact Vp; rewrite Id, ?Y1, ?Y2, ?Y3; exact Vp.
Qed.
Lemma full_sky_22 i M : laws -> pi <> 0 -> fields_ok i -> full_sky i -> (n_lt i <= 0)%Z -> n_teb i = false -> gives i M -> n_spin1 i = 2%Z -> n_spin2 i = 2%Z ->
  purified i = true -> forall r l k l', (r < 4)%nat -> (k < 4)%nat -> upto i l -> upto i l' -> el i M r l k l' = ident i r l k l'.
Proof.
  intros La Hpi H FS T Te G S1 S2 P r l k l' Hr Hk Hl Hl'. assert (N1 : n_spin1 i <> 0%Z) by lia. assert (N2 : n_spin2 i <> 0%Z) by lia.
  pose proof (fun f => msum_full_sky i f Hpi H FS) as MF.
  pose proof (C20_spinS_spinS_zeros fsqrt fexp flog pi w3j i M l l' H G Te N1 N2 Hl Hl') as Z0.
  assert (A : forall a b, _) by (intros a b; exact (C20_formula_pure_22 fsqrt fexp flog pi w3j i M l l' a b H G T Te S1 S2 P Hl Hl')). cbv beta zeta in A.
  assert (A' : forall a b : bool, el i M (2 * b2n a + b2n b) l (2 * b2n a + b2n b) l' = ident i 0 l 0 l' /\ el i M (2 * b2n a + b2n b) l (2 * b2n (negb a) + b2n (negb b)) l' = 0).
  { intros a b. destruct (A a b) as [A1 A2]. rewrite A1, A2, !MF, !Jp_0. unfold ident. rewrite S1, S2. change (Z.max 2 2) with 2%Z. cbn [Nat.eqb andb].
    replace (2 <=? Z.of_nat l)%Z with (2 <=? l)%nat by (apply eq_true_iff_eq; rewrite Nat.leb_le, Z.leb_le; lia).
    destruct (Nat.eqb_spec l l') as [<-|N']; cbn [andb].
    - destruct (even_diag l) as [-> ->]. destruct (Nat.leb_spec 2 l) as [L2|L2]; cbn [andb]; [|split; reflexivity]. split; [|ring].
      etransitivity; [|exact (diag_value 2 2 (Z.of_nat l) _ _ La ltac:(lia) (J3_diag1 2 (Z.of_nat l) La ltac:(lia)) (J3_diag1 2 (Z.of_nat l) La ltac:(lia)))].
      change (eps (2 + 2)) with (1 : F). ring.
    - rewrite J3_off by exact N'. destruct (_ && _); split; ring. }
  assert (Id : forall x, ident i x l x l' = ident i 0 l 0 l') by (intro x; unfold ident; rewrite !Nat.eqb_refl; reflexivity).
  assert (I0 : forall x y, Nat.eqb x y = false -> ident i x l y l' = 0) by (intros x y Q; unfold ident; rewrite Q; reflexivity).
  destruct (A' false false) as [a1 a2], (A' false true) as [a3 a4], (A' true false) as [a5 a6], (A' true true) as [a7 a8].
  clear A A'. cbn [b2n negb Nat.mul Nat.add] in *.
  do 4 (destruct r as [|r]; [do 4 (destruct k as [|k]; [first
    [ rewrite I0 by reflexivity; apply Z0; cbn; tauto | rewrite I0 by reflexivity; assumption | assumption | rewrite Id; assumption ]|]); lia|]). lia.
Qed.
Theorem C24_full_sky_identity i M : laws -> pi <> 0 -> fields_ok i -> full_sky i -> (n_lt i <= 0)%Z -> n_teb i = false -> gives i M ->
  purified i = false \/ one_spin0 i \/ (n_spin1 i = 2%Z /\ n_spin2 i = 2%Z) ->
  forall r l k l', (r < nspec i)%nat -> (k < nspec i)%nat -> upto i l -> upto i l' ->
  el i M r l k l' = if Nat.eqb r k && Nat.eqb l l' && (Z.max (n_spin1 i) (n_spin2 i) <=? Z.of_nat l)%Z then 1 else 0.
Proof.
  intros La Hpi H FS T Te G Hc r l k l' Hr Hk Hl Hl'. change (el i M r l k l' = ident i r l k l').
  pose proof (fun f => msum_full_sky i f Hpi H FS) as MF.
  destruct (Z.eq_dec (n_spin1 i) 0) as [S1|S1]; destruct (Z.eq_dec (n_spin2 i) 0) as [S2|S2].
  - pose proof (spins_1 i Te S1 S2) as N. rewrite N in *. assert (r = 0%nat) as -> by lia. assert (k = 0%nat) as -> by lia.
    pose proof (spin0_unpure fsqrt fexp flog pi i H S1 S2) as P. revert l l' Hl Hl'. apply by_sym_ident; try assumption; try (rewrite N; lia).
    intros l l' L Hl'. rewrite (C20_formula_00 fsqrt fexp flog pi w3j i M l l' H G T Te S1 S2 L Hl'), MF. unfold ident. rewrite S1, S2. cbn [Nat.eqb andb].
    destruct (Nat.eqb_spec l l') as [<-|N']; cbn [andb]; [|rewrite J0_off by exact N'; ring].
    replace (Z.max 0 0 <=? Z.of_nat l)%Z with true by (symmetry; apply Z.leb_le; lia).
    etransitivity; [|exact (diag_value 0 0 (Z.of_nat l) _ _ La ltac:(lia) (J0_diag0 (Z.of_nat l) La ltac:(lia)) (J0_diag0 (Z.of_nat l) La ltac:(lia)))].
    change (eps (0 + 0)) with (1 : F). ring.
  - assert (O : one_spin0 i) by (left; auto). pose proof (spins_2 i Te O) as N. rewrite N in *. apply full_sky_0s; assumption.
  - assert (O : one_spin0 i) by (right; auto). pose proof (spins_2 i Te O) as N. rewrite N in *. apply full_sky_0s; assumption.
  - pose proof (spins_4 i Te S1 S2) as N. rewrite N in *. destruct (purified i) eqn:P; [|apply full_sky_ss; assumption].
    destruct Hc as [Q|[[[Q1 Q2]|[Q1 Q2]]|[Q1 Q2]]]; [discriminate | contradiction | contradiction |]. apply full_sky_22; assumption.
Qed.
(** ** C26: Toeplitz approximation *)
(** the accepted parameters *)
Theorem C26_accepted_parameters lt lex dl lmax pure :
  toeplitz_sanity lt lex dl lmax pure = Ok tt <-> ((0 < lt)%Z -> pure = false /\ (0 < lex <= lt)%Z /\ (lt < lmax)%Z /\ (0 <= dl < lmax)%Z).
Proof.
  unfold toeplitz_sanity. destruct (Z.ltb_spec 0 lt) as [A|A]; [|split; [intros; lia | reflexivity]].
  destruct pure; [split; [discriminate | intro Q; destruct (Q A); discriminate]|].
  destruct (Z.leb_spec lex 0); cbn [orb]; [split; [discriminate | intro Q; specialize (Q A); lia]|].
  destruct (Z.ltb_spec dl 0); [split; [discriminate | intro Q; specialize (Q A); lia]|].
  destruct (Z.ltb_spec lt lex); [split; [discriminate | intro Q; specialize (Q A); lia]|].
  destruct (Z.leb_spec lmax lt), (Z.leb_spec lmax lex), (Z.leb_spec lmax dl); cbn [orb];
    (split; [first [discriminate | intros _ _; repeat split; lia] | first [reflexivity | intro Q; specialize (Q A); lia]]).
Qed.
Theorem C26_rejected_parameters junk i : toeplitz_sanity (n_lt i) (n_lex i) (n_dl i) (n_lmax i) (purified i) <> Ok tt ->
  mcompute fsqrt fexp flog pi w3j junk i = Exn ValueError.
Proof.
  intro H. unfold mcompute. fold (purified i). unfold toeplitz_sanity in *.
  destruct (0 <? n_lt i)%Z; [|exfalso; apply H; reflexivity]. destruct (purified i); [reflexivity|].
  destruct (_ || _); [reflexivity|]. destruct (_ <? _)%Z; [reflexivity|]. destruct (_ || _); [reflexivity|]. exfalso. apply H. reflexivity.
Qed.
(** the same call without the approximation *)
Definition exactly (i : minp (F:=F)) : minp :=
  MInp (n_spin1 i) (n_spin2 i) (n_pe1 i) (n_pb1 i) (n_pe2 i) (n_pb2 i) (n_lmm i) (n_pcl i) (n_bin i) (n_b1 i) (n_b2 i)
       (n_norm i) (n_w2 i) (n_teb i) (-1) (-1) (-1).
(** rows and columns that the approximation leaves exact: the diagonal, everything below l_exact,
    and up to l_toeplitz the band of width dl_band (away from the lower corner) *)
Theorem C26_exact_region i M N : fields_ok i -> (0 < n_lt i)%Z -> gives i M -> gives (exactly i) N ->
  forall r k l l', (r < nspec i)%nat -> (k < nspec i)%nat -> upto i l -> upto i l' ->
  (Z.max (n_spin1 i) (n_spin2 i) <= Z.of_nat (Nat.min l l'))%Z ->
  let p := Z.of_nat (Nat.min l l') in let q := Z.of_nat (Nat.max l l') in
  p = q \/ (p < n_lex i)%Z \/ ((p <= n_lt i)%Z /\ (q - p <= n_dl i)%Z /\ (q - p < n_lmax i - n_lt i)%Z) ->
  el i M r l k l' = el (exactly i) N r l k l'.
Proof.
  intros H T G G' r k l l' Hr Hk Hl Hl' Hs p q Hc.
  assert (H' : fields_ok (exactly i)) by (destruct H; constructor; assumption).
  destruct (gives_inv fsqrt fexp flog pi w3j i M H G) as [TS _]. destruct (proj1 (C26_accepted_parameters _ _ _ _ _) TS T) as [P [[B1 B2] [B3 B4]]].
  destruct (gives_el fsqrt fexp flog pi w3j i M H G) as [junk [xi [V [_ X]]]]. rewrite V by assumption.
  rewrite (exact_el_any junk (exactly i) N H' G' ltac:(cbn; lia) r l k l' Hr Hk Hl Hl').
  change (sign_overall (cfg (exactly i))) with (sign_overall (cfg i)). f_equal.
  change (tabv (cfg (exactly i)) r k) with (tabv (cfg i) r k).
  assert (C : cfg_ok (cfg i)).
  { eapply cfg_ok_of; try eassumption; try exact w3j; try exact fsqrt. }
  assert (TO : table_ok (cfg i)).
  { apply (table_ok_cfg fsqrt fexp flog); [exact C| |]; cbn.
    + intro E1. pose proof (fo_p1 i H) as Q. destruct (n_pe1 i), (n_pb1 i); cbn in Q; try (split; reflexivity); specialize (Q eq_refl); lia.
    + intro E1. pose proof (fo_p2 i H) as Q. destruct (n_pe2 i), (n_pb2 i); cbn in Q; try (split; reflexivity); specialize (Q eq_refl); lia. }
  assert (K : key (cfg i) (Z.of_nat l) (Z.of_nat l') = (p, q)).
  { unfold key, c_pany. cbn. fold (purified i). rewrite P. unfold p, q. f_equal; lia. }
  assert (K' : key (cfg (exactly i)) (Z.of_nat l) (Z.of_nat l') = (p, q)) by exact K.
  assert (LS : (lstart (cfg i) <= p)%Z).
  { unfold p. unfold lstart. destruct (c_has (cfg i) K00); [lia|]. etransitivity; [|exact Hs]. pose proof (fo_s1 i H). pose proof (fo_s2 i H). unfold c_s1, c_s2. cbn.
    destruct (Z.eqb_spec (n_spin1 i) 0), (Z.eqb_spec (n_spin2 i) 0); lia. }
  assert (LS' : (lstart (cfg (exactly i)) <= p)%Z) by exact LS.
  unfold upto in Hl, Hl'.
  assert (PQ : (0 <= p <= q)%Z /\ (q <= n_lmax i)%Z) by (unfold p, q; lia).
  assert (C1 : computed (cfg i) (Z.of_nat l) (Z.of_nat l') = true).
  { unfold computed. rewrite K. rewrite !andb_true_iff, !Z.leb_le. split; [split; [split; lia|cbn; lia]|]. unfold lend. cbn [cfg c_lt c_lex c_lmax c_dl].
    replace (0 <? n_lt i)%Z with true by (symmetry; apply Z.ltb_lt; exact T).
    destruct (Z.leb_spec p (n_lex i)); [lia|]. destruct (Z.leb_spec p (n_lt i)); lia. }
  assert (C2 : computed (cfg (exactly i)) (Z.of_nat l) (Z.of_nat l') = true).
  { unfold computed. rewrite K'. rewrite !andb_true_iff, !Z.leb_le. split; [split; [split; lia|cbn; exact (proj2 (conj I (Z.le_trans _ _ _ (proj2 (proj1 PQ)) (proj2 PQ))))]|].
    unfold lend. cbn. change (n_lmax (exactly i)) with (n_lmax i). lia. }
  assert (NC : in_corner (cfg i) (Z.of_nat l) (Z.of_nat l') = false).
  { unfold in_corner. cbn [cfg c_lmax c_lex c_lt]. replace (Z.max (Z.of_nat l) (Z.of_nat l')) with q by (unfold q; lia).
    replace (Z.min (Z.of_nat l) (Z.of_nat l')) with p by (unfold p; lia). apply not_true_is_false. rewrite !andb_true_iff, !Z.leb_le. lia. }
  unfold tabv. apply lsum_ext. intros [[[[r' k'] sg] a] ip] Hin. apply TO in Hin. destruct Hin as [Ha Hip].
  rewrite X by (try assumption; right; split; assumption).
  rewrite (xi_msum fsqrt fexp flog pi w3j) by exact H. rewrite C1, C2, K, K'. reflexivity.
Qed.
End Statements.
