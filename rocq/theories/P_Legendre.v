(** Property C91: the coupling matrix of two scalar fields multiplies angular correlation functions.

    The Wigner-3j symbols of scalar fields come from drc3jj_000 (utils.c:82-132, modelled in M_MCM.v down to the
    table of log-factorials), so that nothing is assumed about them here: only the laws of sqrt, exp and log. *)
From Coq Require Import Reals.
From Verif Require Import Base FieldR M_Bins M_LinAlg M_Workspace M_MCM L_Bins L_Bins2 L_Bins3 P_Bins L_LinAlg L_Workspace P_Workspace L_MCM L_MCM2 L_MCM3 P_MCM P_MCM2 L_MCM4 P_MCM3 L_Legendre.
Open Scope Z_scope.

Section Statements.
Context {F : ofield}.
Local Open Scope F_scope.
Add Field FfPL : (fth F).
Variables (fsqrt fexp flog : F -> F) (pi : F).
Variable w3j : Z -> Z -> Z -> Z -> Z -> F.
Notation J0 := (J0 fsqrt fexp flog).
Notation gives := (gives fsqrt fexp flog pi w3j).
Notation mcompute := (mcompute fsqrt fexp flog pi w3j).

(** laws of libm *)
Record libm_laws : Prop := {
  ll_sq : forall x : F, 0 <= x -> fsqrt x * fsqrt x = x;
  ll_exp : forall x y, fexp (x + y) = fexp x * fexp y; ll_exp0 : forall x, 0 < fexp x; ll_log : forall x, 0 < x -> fexp (flog x) = x }.

(** ** The values computed by drc3jj_000 *)
Definition fac (n : nat) : F := fofnat (fact n).
Lemma fac_S n : fac (S n) = fofnat (S n) * fac n.
Proof. unfold fac. rewrite <- fofnat_mul. reflexivity. Qed.
Lemma fac_neq0 n : fac n <> 0.
Proof. unfold fac. pose proof (lt_O_fact n). destruct (fact n); [lia | apply fofnat_neq0]. Qed.
Lemma cb_fac k : (cb k : F) = fac (2 * k) / (fac k * fac k).
Proof.
  induction k as [|k IH]; [|cbn [cb]; rewrite IH].
  { change (fac (2 * 0)) with (fofnat 1 : F). change (fac 0) with (fofnat 1 : F). replace (fofnat 1 : F) with (1 : F) by (cbn [fofnat]; ring). cbn [cb]. field. apply f1_neq_0. }
  replace (2 * S k)%nat with (S (S (2 * k))) by lia. rewrite !fac_S. pose proof (fac_neq0 k) as N. pose proof (fofnat_neq0 (F:=F) k) as N1.
  replace (fofnat (S (S (2 * k))) : F) with ((1 + 1) * fofnat (S k) : F) by (rewrite !fS, fofnat_mul; cbn [fofnat]; ring).
  replace (fofnat (S (2 * k)) : F) with ((1 + 1) * fofnat k + 1 : F) by (rewrite !fS, fofnat_mul; cbn [fofnat]; ring).
  field. split; assumption.
Qed.
Lemma ll_exp_0 : libm_laws -> fexp 0 = 1.
Proof.
  intro L. pose proof (ll_exp L 0 0) as E. replace (0 + 0 : F) with (0 : F) in E by ring. pose proof (ll_exp0 L 0) as P.
  apply fsub_0_eq. assert (Z0 : fexp 0 * (fexp 0 - 1) = 0) by (transitivity (fexp 0 * fexp 0 - fexp 0); [ring | rewrite <- E; ring]).
  apply fmul_eq_0 in Z0. destruct Z0 as [Z0|Z0]; [|exact Z0]. exfalso. apply (fpos_neq _ P Z0).
Qed.
Lemma exp_lnfac n : libm_laws -> fexp (lnfac flog (Z.of_nat n)) = fac n.
Proof.
  intro L. induction n as [|n IH]; [change (lnfac flog (Z.of_nat 0)) with (0 : F); rewrite (ll_exp_0 L); unfold fac; cbn; ring|].
  replace (Z.of_nat (S n)) with (Z.of_nat n + 1)%Z by lia. rewrite (lnfac_S fsqrt fexp flog pi w3j) by lia. rewrite (ll_exp L), IH, fac_S.
  destruct (Z.eqb_spec (Z.of_nat n) 0) as [E|E].
  - rewrite (ll_exp_0 L). replace n with 0%nat by lia. cbn [fofnat]. ring.
  - replace (Z.of_nat n + 1)%Z with (Z.of_nat (S n)) by lia. rewrite fofZ_of_nat, (ll_log L) by apply fofnat_pos. ring.
Qed.
Lemma eps_sq z : (eps z * eps z : F) = 1.
Proof. unfold eps. destruct (Z.odd z); ring. Qed.
(** the square of every value of drc3jj_000 is the square of the 3j symbol *)
Lemma J0_sq a b c : libm_laws -> (0 <= a)%Z -> (0 <= b)%Z -> (0 <= c)%Z -> J0 a b c * J0 a b c = T3 a b c.
Proof.
  intros L Ha Hb Hc. unfold P_MCM.J0. destruct (tri a b c) eqn:Et.
  2:{ apply andb_false_iff in Et. rewrite !Z.leb_gt in Et. replace (0 * 0 : F) with (0 : F) by ring. symmetry. destruct Et as [Et|Et]; [|apply T3_out; lia].
      destruct (Z.le_ge_cases a b) as [M|M].
      - rewrite T3_rot. apply T3_out; lia.
      - rewrite T3_swap, T3_rot. apply T3_out; lia. }
  unfold tri in Et. apply andb_true_iff in Et. rewrite !Z.leb_le in Et. destruct Et as [E1 E2].
  destruct (Z.eqb_spec (Z.min a b) 0) as [M|M].
  - set (n := fofZ (c + a + b + 1)). assert (P : (0 : F) < n) by (apply fofZ_pos; lia).
    assert (Q : fsqrt n <> 0). { intro Q. pose proof (ll_sq L n (flt_le _ _ P)) as Q2. rewrite Q in Q2. apply (fpos_neq _ P). rewrite <- Q2. ring. }
    transitivity (eps c * eps c / (fsqrt n * fsqrt n)); [field; exact Q|]. rewrite eps_sq, (ll_sq L) by (apply flt_le; exact P). unfold n.
    destruct (Z.le_ge_cases a b) as [H|H].
    + replace a with 0%Z in * by lia. rewrite T3_0 by lia. replace (b =? c)%Z with true by (symmetry; apply Z.eqb_eq; lia). f_equal. f_equal. lia.
    + replace b with 0%Z in * by lia. rewrite T3_swap, T3_0 by lia. replace (a =? c)%Z with true by (symmetry; apply Z.eqb_eq; lia). f_equal. f_equal. lia.
  - destruct (parity (c + a + b)) as [[g G]|O].
    2:{ rewrite O. rewrite T3_odd by (replace (a + b + c)%Z with (c + a + b)%Z by lia; exact O). ring. }
    rewrite G. replace (Z.odd (2 * g)) with false by (rewrite Z.odd_mul; reflexivity). cbv zeta.
    replace (2 * g / 2)%Z with g by (rewrite Z.mul_comm, Z.div_mul; lia). rewrite (T3_even a b c g) by lia.
    destruct (Z_of_nat_complete (g - a) ltac:(lia)) as [p Ep]. destruct (Z_of_nat_complete (g - b) ltac:(lia)) as [q Eq]. destruct (Z_of_nat_complete (g - c) ltac:(lia)) as [r Er].
    destruct (Z_of_nat_complete g ltac:(lia)) as [gn Eg].
    rewrite Ep, Eq, Er. replace (2 * g - 2 * a)%Z with (Z.of_nat (2 * p)) by lia. replace (2 * g - 2 * b)%Z with (Z.of_nat (2 * q)) by lia. replace (2 * g - 2 * c)%Z with (Z.of_nat (2 * r)) by lia.
    replace (2 * g + 1)%Z with (Z.of_nat (S (2 * gn))) by lia. rewrite Eg. rewrite !cz_nat, fofZ_of_nat, !cb_fac.
    assert (D : (1 + 1 : F) <> 0) by (replace (1 + 1 : F) with (fofnat 2 : F) by (cbn; ring); apply fofnat_neq0).
    set (l := fun n : nat => lnfac flog (Z.of_nat n)). set (x := 1 / (1 + 1) * (lnfac flog (Z.of_nat (2 * r)) + _ + _ - _) + _).
    transitivity (eps (Z.of_nat gn) * eps (Z.of_nat gn) * (fexp x * fexp x)); [ring|]. rewrite eps_sq. 
    set (y := (l (S (2 * gn)) + l p + l p + l q + l q + l r + l r)).
    assert (E : fexp x * fexp x * fexp y = fexp (l (2 * r)%nat + l (2 * p)%nat + l (2 * q)%nat + l gn + l gn)).
    { rewrite <- !(ll_exp L). f_equal. unfold x, y, l. field. exact D. }
    unfold y, l in E. rewrite !(ll_exp L), !exp_lnfac in E by exact L. rewrite !fac_S in E.
    pose proof (fac_neq0 p) as Np. pose proof (fac_neq0 q) as Nq. pose proof (fac_neq0 r) as Nr. pose proof (fac_neq0 gn) as Ng. pose proof (fac_neq0 (2 * gn)) as Ng2. pose proof (fofnat_neq0 (F:=F) (2 * gn)) as N1.
    set (e := fexp x * fexp x) in *. clearbody e.
    transitivity (e * (fofnat (S (2 * gn)) * fac (2 * gn) * fac p * fac p * fac q * fac q * fac r * fac r) / (fofnat (S (2 * gn)) * fac (2 * gn) * fac p * fac p * fac q * fac q * fac r * fac r)).
    + field. repeat split; assumption.
    + rewrite E. field. repeat split; assumption.
Qed.

(** ** Vocabulary *)
(** two scalar fields, exact calculation, a matrix that can be retrieved *)
Record scalar (i : minp (F:=F)) : Prop := {
  sc_ok : fields_ok i; sc_1 : n_spin1 i = 0%Z; sc_2 : n_spin2 i = 0%Z; sc_teb : n_teb i = false; sc_lt : (n_lt i <= 0)%Z; sc_size : (n_lmax i < 46340)%Z }.
Definition nell (i : minp (F:=F)) : nat := Z.to_nat (n_lmax i + 1).
Definition nmask (i : minp (F:=F)) : nat := Z.to_nat (n_lmm i + 1).
(** the angular correlation function of a spectrum: sum of (2l+1)/(4 pi) c_l P_l(cos theta) *)
Definition corr (n : nat) (c : nat -> F) (x : F) : F := sum n (fun l => fofnat (2 * l + 1) / ((1 + 1 + 1 + 1) * pi) * c l * leg x l).
Definition mask_cl (i : minp (F:=F)) (l : nat) : F := nth l (n_pcl i) 0.
(** the input spectrum times both beams *)
Definition beamed (i : minp (F:=F)) (c : list F) (l : nat) : F := nth l (n_b1 i) 0 * nth l (n_b2 i) 0 * nth l c 0.

Lemma spec_1 i : scalar i -> nspec i = 1%nat.
Proof. intros [_ A B C _ _]. unfold nspec. rewrite A, B, C. reflexivity. Qed.
Lemma unpure i : scalar i -> purified i = false.
Proof.
  intros [H A B _ _ _]. unfold purified. rewrite <- orb_assoc. destruct (n_pe1 i || n_pb1 i) eqn:E1; [pose proof (fo_p1 i H E1); lia|].
  destruct (n_pe2 i || n_pb2 i) eqn:E2; [pose proof (fo_p2 i H E2); lia | reflexivity].
Qed.
Lemma el_T3 i M l l' : libm_laws -> scalar i -> gives i M -> upto i l -> upto i l' ->
  el i M 0 l 0 l' = fofZ (2 * Z.of_nat l' + 1) * msum pi i (fun l1 => T3 (Z.of_nat l) (Z.of_nat l') l1).
Proof.
  intros L S G Hl Hl'. pose proof (spec_1 i S) as N. pose proof (unpure i S) as P. destruct S as [H A B C D Sz].
  assert (Q : forall u v, (u <= v)%nat -> upto i v -> el i M 0 u 0 v = fofZ (2 * Z.of_nat v + 1) * msum pi i (fun l1 => T3 (Z.of_nat u) (Z.of_nat v) l1)).
  { intros u v Huv Hv. rewrite (C20_formula_00 fsqrt fexp flog pi w3j i M u v H G D C A B Huv Hv). apply (f_equal (fmul _)). unfold msum. apply sum_ext. intros l1 Hl1. rewrite J0_sq by (exact L || lia). reflexivity. }
  destruct (Nat.le_gt_cases l l') as [Le|Le]; [apply Q; assumption|].
  pose proof (C21_symmetric_up_to_2l1 fsqrt fexp flog pi w3j i M 0 0 l l' H G P ltac:(rewrite N; lia) ltac:(rewrite N; lia) Hl Hl') as X.
  rewrite (Q l' l) in X by (lia || assumption).
  assert (MX : msum pi i (fun l1 => T3 (Z.of_nat l') (Z.of_nat l) l1) = msum pi i (fun l1 => T3 (Z.of_nat l) (Z.of_nat l') l1))
    by (unfold msum; apply sum_ext; intros; rewrite T3_swap; reflexivity).
  rewrite MX in X.
  set (m := msum pi i _) in *. set (a := fofZ (2 * Z.of_nat l + 1)) in *. set (b := fofZ (2 * Z.of_nat l' + 1)) in *.
  assert (Na : a <> 0) by (apply fofZ_neq0; lia). transitivity (a * el i M 0 l 0 l' / a); [field; exact Na|]. rewrite X. field. exact Na.
Qed.
(** what couple_cell returns *)
Lemma coupled junk i w k c : libm_laws -> scalar i -> mcompute junk i = Ok w -> length c = k -> (nell i <= k)%nat ->
  exists o, couple_cell (obj w) (A2 k [c]) = Ok (A2 (nell i) [o]) /\ length o = nell i /\
  forall l, (l < nell i)%nat -> nth l o 0 = sum (nell i) (fun l' => fofnat (2 * l' + 1) * sum (nmask i) (fun l1 => pmask pi i l1 * T3 (Z.of_nat l) (Z.of_nat l') (Z.of_nat l1)) * beamed i c l').
Proof.
  intros L S E Hc Hk. pose proof (spec_1 i S) as N. pose proof (unpure i S) as P. pose proof (sc_ok i S) as H. pose proof (sc_size i S) as Sz.
  destruct (valid_bins_facts _ (fo_bins i H)) as [_ [_ P0]]. fold (n_lmax i) in P0.
  assert (T : toeplitz_sanity (n_lt i) (n_lex i) (n_dl i) (n_lmax i) (purified i) = Ok tt).
  { unfold P_MCM.mcompute in E. fold (purified i) in E. destruct (toeplitz_sanity _ _ _ _ _) as [[]| |]; [reflexivity | discriminate | discriminate]. }
  destruct (mcompute_built fsqrt fexp flog pi w3j junk i H T) as [st [Em Eb]]. pose proof E as E'. rewrite Eb in E'. injection E' as <-.
  pose proof (built_valid fsqrt fexp flog pi w3j i st H) as V. set (j := built pi i st) in *.
  assert (Nj : i_ncls j = 1%nat) by exact N. assert (Lj : i_nell j = nell i) by reflexivity.
  assert (GM : get_coupling_matrix (obj (mk j)) = Ok (i_mcm j)).
  { apply get_mk; [exact V|]. unfold int_ok, i_nrows. rewrite Nj, Lj. unfold nell. rewrite Nat.mul_1_l. rewrite Z2Nat.id by lia. nia. }
  assert (G : gives i (i_mcm j)) by (exists junk, (mk j); split; assumption).
  destruct (C12_couple_is_matrix j (mk j) k [c] V (compute_ok j V)) as [o [Eo [So Fo]]].
  { rewrite Nj. split; [reflexivity|]. intros r [<-|[]]. exact Hc. }
  { rewrite Lj. exact Hk. }
  rewrite Nj, Lj in *. destruct So as [So1 So2]. destruct o as [|o [|]]; try discriminate. exists o. split; [exact Eo|]. split; [apply So2; left; reflexivity|].
  intros l Hl. specialize (Fo (i_mcm j) GM 0%nat l ltac:(lia) Hl). change (entry2 [o] 0 l) with (nth l o 0) in Fo. rewrite Fo. apply sum_ext. intros l' Hl'.
  cbn [sum]. unfold nell in Hl, Hl'. assert (Ul : upto i l) by (unfold upto; lia). assert (Ul' : upto i l') by (unfold upto; lia).
  pose proof (el_T3 i (i_mcm j) l l' L S G Ul Ul') as X. unfold el in X. rewrite N in X. rewrite X.
  unfold beamed. change (i_b1 j) with (n_b1 i). change (i_b2 j) with (n_b2 i). change (entry2 [c] 0 l') with (nth l' c 0).
  replace (2 * Z.of_nat l' + 1)%Z with (Z.of_nat (2 * l' + 1)) by lia. rewrite fofZ_of_nat. unfold msum, nmask. ring.
Qed.
Lemma pmask_corr i l : pmask pi i l = fofnat (2 * l + 1) / ((1 + 1 + 1 + 1) * pi) * mask_cl i l \/ pi = 0.
Proof.
  destruct (feq_dec pi 0) as [E|N]; [right; exact E|left]. unfold pmask, mask_cl.
  assert (D : (1 + 1 + 1 + 1 : F) <> 0) by (replace (1 + 1 + 1 + 1 : F) with (fofnat 4 : F) by (cbn; ring); apply fofnat_neq0).
  set (f := (1 + 1 + 1 + 1 : F)) in *. clearbody f. field. split; assumption.
Qed.
Lemma pmask_eq i l : pi <> 0 -> pmask pi i l = fofnat (2 * l + 1) / ((1 + 1 + 1 + 1) * pi) * mask_cl i l.
Proof. intro H. destruct (pmask_corr i l); [assumption|contradiction]. Qed.

(** ** Statements *)
(** If the input spectrum vanishes from the multipole kc on and the spectrum of the masks from km on, and all
    multipoles reached from there are below lmax, then the correlation function of the coupled spectrum is, at every
    angle, the product of the correlation function of the masks and that of the (beamed) input. *)
Theorem C91_correlation junk i w k c kc km : libm_laws -> pi <> 0 -> scalar i -> mcompute junk i = Ok w -> length c = k -> (nell i <= k)%nat ->
  (forall l, (kc <= l)%nat -> nth l c 0 = 0) -> (forall l, (km <= l)%nat -> mask_cl i l = 0) -> (Z.of_nat (kc + km) <= n_lmax i + 2)%Z ->
  exists o, couple_cell (obj w) (A2 k [c]) = Ok (A2 (nell i) [o]) /\ length o = nell i /\
  forall x, corr (nell i) (fun l => nth l o 0) x = corr (nmask i) (mask_cl i) x * corr (nell i) (beamed i c) x.
Proof.
  intros L Hpi S E Hc Hk Kc Km Hb. destruct (coupled junk i w k c L S E Hc Hk) as [o [Eo [Lo Fo]]]. exists o. split; [exact Eo|]. split; [exact Lo|]. intro x.
  set (d := (1 + 1 + 1 + 1) * pi). assert (D : d <> 0) by (unfold d; apply four_pi; exact Hpi).
  unfold corr. fold d. set (n := nell i) in *. set (m := nmask i).
  transitivity (sum n (fun l => sum n (fun l' => sum m (fun l1 => fofnat (2 * l + 1) / d * leg x l * (fofnat (2 * l' + 1) * (pmask pi i l1 * T3 (Z.of_nat l) (Z.of_nat l') (Z.of_nat l1)) * beamed i c l'))))).
  { apply sum_ext. intros l Hl. rewrite (Fo l Hl). rewrite <- sum_mul_l, <- sum_mul_r. apply sum_ext. intros l' Hl'.
    transitivity (fofnat (2 * l + 1) / d * leg x l * (fofnat (2 * l' + 1) * beamed i c l') * sum m (fun l1 => pmask pi i l1 * T3 (Z.of_nat l) (Z.of_nat l') (Z.of_nat l1))).
    - fold m. ring.
    - rewrite <- sum_mul_l. apply sum_ext. intros. ring. }
  rewrite sum_swap.
  transitivity (sum n (fun l' => sum m (fun l1 => fofnat (2 * l' + 1) / d * beamed i c l' * pmask pi i l1 * (leg x l' * leg x l1)))).
  - apply sum_ext. intros l' Hl'. rewrite sum_swap. apply sum_ext. intros l1 Hl1.
    destruct (Nat.le_gt_cases kc l') as [A|A].
    { unfold beamed. rewrite (Kc l' A). replace (nth l' (n_b1 i) 0 * nth l' (n_b2 i) 0 * 0) with (0 : F) by ring. rewrite sum_zero; [field; exact D|]. intros. field. exact D. }
    destruct (Nat.le_gt_cases km l1) as [B|B].
    { rewrite (pmask_eq i l1 Hpi), (Km l1 B). fold d. rewrite sum_zero; [field; exact D|]. intros. field. exact D. }
    rewrite (leg_product x n l' l1) by (unfold n, nell; lia). unfold expand. rewrite <- sum_mul_l. apply sum_ext. intros l Hl.
    rewrite (T3_swap (Z.of_nat l)), (T3_rot (Z.of_nat l')). field. exact D.
  - rewrite <- (sum_mul_l n). apply sum_ext. intros l' Hl'.
    transitivity (fofnat (2 * l' + 1) / d * beamed i c l' * leg x l' * sum m (fun l => fofnat (2 * l + 1) / d * mask_cl i l * leg x l)); [|ring].
    rewrite <- sum_mul_l. apply sum_ext. intros l1 Hl1. rewrite (pmask_eq i l1 Hpi). fold d. ring.
Qed.
(** the case of zero separation: variance of the masked field = mean squared mask times variance of the field *)
Corollary C91_variance junk i w k c kc km : libm_laws -> pi <> 0 -> scalar i -> mcompute junk i = Ok w -> length c = k -> (nell i <= k)%nat ->
  (forall l, (kc <= l)%nat -> nth l c 0 = 0) -> (forall l, (km <= l)%nat -> mask_cl i l = 0) -> (Z.of_nat (kc + km) <= n_lmax i + 2)%Z ->
  exists o, couple_cell (obj w) (A2 k [c]) = Ok (A2 (nell i) [o]) /\
  let total n (f : nat -> F) := sum n (fun l => fofnat (2 * l + 1) / ((1 + 1 + 1 + 1) * pi) * f l) in
  total (nell i) (fun l => nth l o 0) = total (nmask i) (mask_cl i) * total (nell i) (beamed i c).
Proof.
  intros L Hpi S E Hc Hk Kc Km Hb. destruct (C91_correlation junk i w k c kc km L Hpi S E Hc Hk Kc Km Hb) as [o [Eo [_ Fo]]]. exists o. split; [exact Eo|].
  intro total. assert (T : forall n f, corr n f 1 = total n f). { intros n f. unfold corr, total. apply sum_ext. intros l _. rewrite leg_at_1. ring. }
  rewrite <- !T. apply Fo.
Qed.
(** White noise: wherever the multipoles l' with |l - l'| < km are all below lmax, the coupled spectrum of a constant
    N is N times the mean squared mask. *)
Theorem C91_white junk i w k c km a : libm_laws -> pi <> 0 -> scalar i -> mcompute junk i = Ok w -> length c = k -> (nell i <= k)%nat ->
  (forall l, (l < nell i)%nat -> beamed i c l = a) -> (forall l, (km <= l)%nat -> mask_cl i l = 0) ->
  exists o, couple_cell (obj w) (A2 k [c]) = Ok (A2 (nell i) [o]) /\
  forall l, (Z.of_nat (l + km) <= n_lmax i + 1)%Z -> upto i l ->
  nth l o 0 = a * sum (nmask i) (fun l1 => fofnat (2 * l1 + 1) / ((1 + 1 + 1 + 1) * pi) * mask_cl i l1).
Proof.
  intros L Hpi S E Hc Hk Ha Km. destruct (coupled junk i w k c L S E Hc Hk) as [o [Eo [Lo Fo]]]. exists o. split; [exact Eo|]. intros l Hl Ul.
  unfold upto in Ul. rewrite Fo by (unfold nell; lia). set (n := nell i) in *. set (m := nmask i).
  transitivity (sum n (fun l' => sum m (fun l1 => a * (pmask pi i l1 * (fofnat (2 * l' + 1) * T3 (Z.of_nat l) (Z.of_nat l') (Z.of_nat l1)))))).
  { apply sum_ext. intros l' Hl'. rewrite (Ha l' Hl'). fold m.
    transitivity (a * fofnat (2 * l' + 1) * sum m (fun l1 => pmask pi i l1 * T3 (Z.of_nat l) (Z.of_nat l') (Z.of_nat l1))); [ring|].
    rewrite <- sum_mul_l. apply sum_ext. intros. ring. }
  rewrite sum_swap, <- sum_mul_l. apply sum_ext. intros l1 Hl1. rewrite <- (pmask_eq i l1 Hpi), !sum_mul_l. f_equal.
  destruct (Nat.le_gt_cases km l1) as [B|B].
  { rewrite (pmask_eq i l1 Hpi), (Km l1 B). ring. }
  rewrite (sum_ext n _ (fun l' => fofnat (2 * l' + 1) * T3 (Z.of_nat l) (Z.of_nat l1) (Z.of_nat l'))) by (intros; rewrite T3_rot; reflexivity).
  rewrite T3_norm by (unfold n, nell; lia). ring.
Qed.
Lemma cb_nonneg k : 0 <= (cb k : F).
Proof.
  induction k as [|k IH]; cbn [cb]; [apply f0_le_1|]. apply fdiv_nonneg; [|apply fofnat_pos]. apply fmul_nonneg; [exact IH|].
  rewrite <- two_m_1. replace (1 + 1 : F) with (fofnat 2 : F) by (cbn; ring). rewrite <- fofnat_mul. apply fofnat_nonneg.
Qed.
Lemma cz_nonneg z : 0 <= (cz z : F).
Proof. unfold cz. destruct (z <? 0)%Z; [apply fle_refl | apply cb_nonneg]. Qed.
Lemma T3_nonneg a b c : (0 <= a)%Z -> (0 <= b)%Z -> (0 <= c)%Z -> 0 <= (T3 a b c : F).
Proof.
  clear. intros Ha Hb Hc. destruct (parity (a + b + c)) as [[g G]|O]; [|rewrite T3_odd by exact O; apply fle_refl].
  rewrite (T3_even a b c g) by lia. apply fdiv_nonneg.
  - repeat apply fmul_nonneg; apply cz_nonneg.
  - apply fle_neq_lt; [apply fmul_nonneg; [apply flt_le; apply fofZ_pos; lia | apply cz_nonneg]|].
    intro X. symmetry in X. apply fmul_eq_0 in X. destruct X as [X|X]; [revert X; apply fofZ_neq0; lia | revert X; apply cz_neq0; lia].
Qed.
(** Whatever the band limits: if the spectrum of the masks is nowhere negative, as it is for two equal masks, a
    spectrum between 0 and N is coupled into one between 0 and N times the mean squared mask. *)
Theorem C91_bounded junk i w k c a : libm_laws -> 0 < pi -> scalar i -> mcompute junk i = Ok w -> length c = k -> (nell i <= k)%nat ->
  (forall l, (l < nell i)%nat -> 0 <= beamed i c l /\ beamed i c l <= a) -> (forall l, 0 <= mask_cl i l) -> 0 <= a ->
  exists o, couple_cell (obj w) (A2 k [c]) = Ok (A2 (nell i) [o]) /\
  forall l, upto i l -> 0 <= nth l o 0 /\ nth l o 0 <= a * sum (nmask i) (fun l1 => fofnat (2 * l1 + 1) / ((1 + 1 + 1 + 1) * pi) * mask_cl i l1).
Proof.
  intros L Ppi S E Hc Hk Ha Km A0. assert (Hpi : pi <> 0) by (apply fpos_neq; exact Ppi).
  destruct (coupled junk i w k c L S E Hc Hk) as [o [Eo [Lo Fo]]]. exists o. split; [exact Eo|]. intros l Ul.
  unfold upto in Ul. rewrite Fo by (unfold nell; lia). set (n := nell i) in *. set (m := nmask i).
  assert (PM : forall l1, 0 <= pmask pi i l1).
  { intro l1. unfold pmask. apply fdiv_nonneg; [apply fmul_nonneg; [apply Km | apply fofnat_nonneg]|].
    replace (1 + 1 + 1 + 1 : F) with (fofnat 4 : F) by (cbn; ring). apply fmul_pos; [apply fofnat_pos | exact Ppi]. }
  assert (TN : forall l' l1, 0 <= T3 (Z.of_nat l) (Z.of_nat l') (Z.of_nat l1)) by (intros; apply T3_nonneg; lia).
  assert (SN : forall l', 0 <= fofnat (2 * l' + 1) * sum m (fun l1 => pmask pi i l1 * T3 (Z.of_nat l) (Z.of_nat l') (Z.of_nat l1))).
  { intro l'. apply fmul_nonneg; [apply fofnat_nonneg|]. apply sum_nonneg. intros. apply fmul_nonneg; auto. }
  split; [apply sum_nonneg; intros l' Hl'; apply fmul_nonneg; [apply SN | apply Ha; exact Hl']|].
  apply fle_trans with (sum n (fun l' => fofnat (2 * l' + 1) * sum m (fun l1 => pmask pi i l1 * T3 (Z.of_nat l) (Z.of_nat l') (Z.of_nat l1)) * a)).
  { apply sum_le. intros l' Hl'. fold m. apply fle_mul_l; [apply SN | apply Ha; exact Hl']. }
  rewrite sum_mul_r. replace (a * sum m (fun l1 => fofnat (2 * l1 + 1) / ((1 + 1 + 1 + 1) * pi) * mask_cl i l1)) with (sum m (fun l1 => pmask pi i l1) * a)
    by (rewrite (sum_ext m (fun l1 => pmask pi i l1) _ (fun l1 _ => pmask_eq i l1 Hpi)); ring).
  match goal with |- ?x * a <= ?y * a => replace (x * a) with (a * x) by ring; replace (y * a) with (a * y) by ring end. apply fle_mul_l; [exact A0|].
  rewrite (sum_ext n _ (fun l' => sum m (fun l1 => pmask pi i l1 * (fofnat (2 * l' + 1) * T3 (Z.of_nat l) (Z.of_nat l') (Z.of_nat l1)))))
    by (intros l' _; rewrite <- sum_mul_l; apply sum_ext; intros; ring).
  rewrite sum_swap. apply sum_le. intros l1 Hl1. rewrite sum_mul_l.
  replace (pmask pi i l1) with (pmask pi i l1 * 1) at 2 by ring. apply fle_mul_l; [apply PM|].
  rewrite <- (T3_norm (n + (l + l1 + 1)) l l1) by lia. rewrite sum_plus.
  rewrite (sum_ext n _ (fun l' => fofnat (2 * l' + 1) * T3 (Z.of_nat l) (Z.of_nat l1) (Z.of_nat l'))) by (intros; rewrite T3_rot; reflexivity).
  set (u := sum n _). replace u with (u + 0) at 1 by ring. apply fle_add_l. apply sum_nonneg. intros. apply fmul_nonneg; [apply fofnat_nonneg|]. apply T3_nonneg; lia.
Qed.
End Statements.

(** ** A concrete case: a mask with a dipole, over the real numbers *)
Section Example.
Local Notation R' := R_field.
Lemma libm_lawsR : libm_laws (F:=R') sqrt exp ln.
Proof.
  constructor.
  - intros x H. apply R_le in H. apply sqrt_sqrt. exact H.
  - intros x y. apply exp_plus.
  - intro x. apply R_lt. apply exp_pos.
  - intros x H. apply R_lt in H. apply exp_ln. exact H.
Qed.
Definition dipole (b : bins R') : minp :=
  MInp (F:=R') 0 0 false false false false 3 [(PI : R'); (PI / 9)%R; 0%R; 0%R] b [1; 1; 1; 1]%R [1; 1; 1; 1]%R 0 (1%R : R') false (-1) (-1) (-1).
(** spectra 1, 2, 3 at l = 0, 1, 2 (correlation functions multiply) and 1 everywhere (white noise: the mean squared
    mask is 1/4 + 1/12 = 1/3) *)
Example C91_case : exists (i : minp (F:=R')) w, libm_laws (F:=R') sqrt exp ln /\ (PI : R') <> f0 /\ scalar i /\ mcompute (F:=R') sqrt exp ln PI w3R (fun _ => f0) i = Ok w /\ nell i = 4%nat /\
  (exists o, couple_cell (obj w) (A2 4 [[1; 2; 3; 0]%R : list R']) = Ok (A2 4 [o]) /\
    forall x, corr (F:=R') PI 4 (fun l => nth l o f0) x = fmul (o:=R') (corr (F:=R') PI 4 (fun l => nth l [PI; (PI / 9)%R; 0%R; 0%R] 0%R) x) (corr (F:=R') PI 4 (fun l => nth l [1; 2; 3; 0]%R 0%R) x)) /\
  (exists o, couple_cell (obj w) (A2 4 [[1; 1; 1; 1]%R : list R']) = Ok (A2 4 [o]) /\
    forall l, (l <= 2)%nat -> nth l o (f0 : R') = (1 / 3)%R).
Proof.
  destruct (linear_valid (F:=R_field) sqrt exp ln w3R PI 3 1 ltac:(lia) ltac:(lia)) as [b [_ [V E]]].
  assert (O : fields_ok (dipole b)).
  { constructor; unfold n_lmax; cbn [dipole n_bin n_lmm n_b1 n_b2 n_pcl n_spin1 n_spin2 n_pe1 n_pb1 n_pe2 n_pb2 n_teb]; rewrite ?E; try lia; try discriminate; try (cbn; lia); try reflexivity. exact V. }
  assert (S : scalar (dipole b)).
  { constructor; try reflexivity; try exact O; unfold n_lmax; cbn [dipole n_lt n_bin]; rewrite ?E; lia. }
  assert (N : nell (dipole b) = 4%nat) by (unfold nell, n_lmax; cbn [dipole n_bin]; rewrite E; reflexivity).
  destruct (mcompute_built (F:=R') sqrt exp ln PI w3R (fun _ => f0) (dipole b) O eq_refl) as [st [_ Ew]].
  exists (dipole b), (mk (built (F:=R') PI (dipole b) st)). split; [exact libm_lawsR|]. split; [exact pi_neq|]. split; [exact S|]. split; [exact Ew|]. split; [exact N|].
  assert (Km : forall l, (2 <= l)%nat -> mask_cl (dipole b) l = f0) by (intros [|[|[|[|[|l]]]]] H; try lia; reflexivity).
  split.
  - destruct (C91_correlation (F:=R') sqrt exp ln PI w3R (fun _ => f0) (dipole b) _ 4 [1; 2; 3; 0]%R 3 2 libm_lawsR pi_neq S Ew eq_refl ltac:(rewrite N; lia)) as [o [Eo [_ Fo]]].
    + intros [|[|[|[|[|l]]]]] H; try lia; reflexivity.
    + exact Km.
    + unfold n_lmax. cbn [dipole n_bin]. rewrite E. lia.
    + rewrite N in *. exists o. split; [exact Eo|]. intro x. rewrite (Fo x). unfold nmask. cbn [dipole n_lmm]. change (Z.to_nat (3 + 1)) with 4%nat.
      f_equal. unfold corr. apply sum_ext. intros l Hl. do 2 f_equal. unfold beamed. cbn [dipole n_b1 n_b2].
      destruct l as [|[|[|[|l]]]]; try lia; cbn [nth]; match goal with |- @eq _ ?a ?c => change (@eq R a c) end; cbn; ring.
  - destruct (C91_white (F:=R') sqrt exp ln PI w3R (fun _ => f0) (dipole b) _ 4 [1; 1; 1; 1]%R 2 (1%R : R') libm_lawsR pi_neq S Ew eq_refl ltac:(rewrite N; lia)) as [o [Eo Fo]].
    + rewrite N. intros l Hl. unfold beamed. cbn [dipole n_b1 n_b2]. destruct l as [|[|[|[|l]]]]; try lia; cbn [nth]; match goal with |- @eq _ ?a ?c => change (@eq R a c) end; cbn; ring.
    + exact Km.
    + rewrite N in *. exists o. split; [exact Eo|]. intros l Hl. rewrite (Fo l) by (unfold upto, n_lmax; cbn [dipole n_bin]; rewrite E; lia).
      unfold nmask, mask_cl. cbn [dipole n_lmm n_pcl]. change (Z.to_nat (3 + 1)) with 4%nat. cbn [sum nth Nat.mul Nat.add fofnat].
      match goal with |- @eq _ ?a ?c => change (@eq R a c) end. cbn. pose proof PI_neq0. field. exact H.
Qed.
End Example.

Print Assumptions C91_correlation.
Print Assumptions C91_variance.
Print Assumptions C91_white.
Print Assumptions C91_bounded.
