(** Property C25: mode-coupling matrices of anisotropic masks. *)
From Coq Require Import Reals Lra.
From Verif Require Import Base M_Bins M_LinAlg M_Workspace M_MCM L_Bins L_Bins2 L_Bins3 P_Bins L_LinAlg L_Workspace P_Workspace L_MCM L_MCM2 L_MCM3 L_MCM4 P_MCM P_MCM2 FieldR P_MCM3.
Open Scope Z_scope.

Section Statements.
Context {F : ofield}.
Local Open Scope F_scope.
Add Field FfPA : (fth F).
Notation mat := (list (list F)).
Notation bins := (bins F).
Notation wsp := (wsp F).
Variables (fsqrt fexp flog : F -> F) (pi : F).
Variable w3j : Z -> Z -> Z -> Z -> Z -> F.

(** the arguments of compute_coupling_matrix when a field has an anisotropic mask
    (workspaces.py:262-318): pseudo-spectra of the mask alms, named after the two fields' components *)
Record ainp := AInp {
  j_spin1 : Z; j_spin2 : Z; j_an1 : bool; j_an2 : bool; j_lmm : Z;
  j_00 : list F; j_0e : list F; j_0b : list F; j_e0 : list F; j_b0 : list F; j_ee : list F; j_eb : list F; j_be : list F; j_bb : list F;
  j_bin : bins; j_b1 : list F; j_b2 : list F; j_norm : Z; j_w2 : F }.
(** the call made by compute_coupling_matrix (workspaces.py:309-318) *)
Definition called (j : ainp) : res wsp :=
  comp_coupling_matrix_anisotropic pi w3j (j_spin1 j) (j_spin2 j) (j_an1 j) (j_an2 j) (b_lmax (j_bin j)) (j_lmm j)
    (j_00 j) (j_0e j) (j_0b j) (j_e0 j) (j_b0 j) (j_ee j) (j_eb j) (j_be j) (j_bb j) (j_b1 j) (j_b2 j) (j_bin j) (j_norm j) (j_w2 j).
(** the C function with every spectrum in the parameter of the same name *)
Definition by_name (j : ainp) : res wsp :=
  nmt_compute_coupling_matrix_anisotropic pi w3j (j_spin1 j) (j_spin2 j) (j_an1 j) (j_an2 j) (b_lmax (j_bin j)) (j_lmm j)
    (j_00 j) (j_0e j) (j_e0 j) (j_0b j) (j_b0 j) (j_ee j) (j_eb j) (j_be j) (j_bb j) (j_b1 j) (j_b2 j) (j_bin j) (j_norm j) (j_w2 j).
(** the isotropic call with the same masks *)
Definition iso (j : ainp) : minp :=
  MInp (j_spin1 j) (j_spin2 j) false false false false (j_lmm j) (j_00 j) (j_bin j) (j_b1 j) (j_b2 j) (j_norm j) (j_w2 j) false (-1) (-1) (-1).
Record afields_ok (j : ainp) : Prop := {
  af_iso : fields_ok (iso j);
  af_len : forall x, In x [j_0e j; j_0b j; j_e0 j; j_b0 j; j_ee j; j_eb j; j_be j; j_bb j] -> Z.of_nat (length x) = (j_lmm j + 1)%Z }.
Definition agives (f : ainp -> res wsp) (j : ainp) (M : mat) : Prop := exists w, f j = Ok w /\ get_coupling_matrix (obj w) = Ok M.
(** 0b and e0 exchanged *)
Definition crossed (j : ainp) : ainp :=
  AInp (j_spin1 j) (j_spin2 j) (j_an1 j) (j_an2 j) (j_lmm j) (j_00 j) (j_0e j) (j_e0 j) (j_0b j) (j_b0 j) (j_ee j) (j_eb j) (j_be j) (j_bb j)
       (j_bin j) (j_b1 j) (j_b2 j) (j_norm j) (j_w2 j).
Lemma crossed_ok j : afields_ok j -> afields_ok (crossed j).
Proof. intros [A B]. constructor; [exact A|]. cbn in B |- *. intros x Hx. apply B. tauto. Qed.

(** The wrapper hands every spectrum over under the wrong name in two cases *)
Theorem C25_wrapper_exchanges_0b_and_e0 j : afields_ok j -> called j = by_name (crossed j).
Proof.
  intros [A B]. unfold called, comp_coupling_matrix_anisotropic, by_name. pose proof (fo_b1 _ A) as B1. pose proof (fo_b2 _ A) as B2. pose proof (fo_pcl _ A) as B3.
  unfold n_lmax in B1, B2. cbn in B1, B2, B3. rewrite B1, B2, !Z.eqb_refl. cbn [guard bind].
  replace (forallb _ _) with true; [reflexivity|]. symmetry. apply forallb_forall. intros x Hx. apply Z.eqb_eq. destruct Hx as [<-|Hx]; [exact B3|]. apply B. exact Hx.
Qed.

(** ** Closed form *)
Definition ac (j : ainp) : aconf F :=
  AConf (b_lmax (j_bin j)) (j_lmm j) (j_spin1 j) (j_spin2 j) (j_an1 j) (j_an2 j) (j_00 j) (j_0e j) (j_e0 j) (j_0b j) (j_b0 j) (j_ee j) (j_eb j) (j_be j) (j_bb j).
Lemma ac_ok j : afields_ok j -> acfg_ok (ac j).
Proof.
  intros [A B]. destruct (valid_bins_facts _ (fo_bins _ A)) as [_ [_ P]]. pose proof (fo_lmm _ A) as L. unfold n_lmax in L. cbn in P, L.
  constructor; cbn [ac a_lmax a_lmm a_spin1 a_spin2 a_00 a_0e a_e0 a_0b a_b0 a_ee a_eb a_be a_bb].
  - lia.
  - split; [apply (fo_s1 _ A) | apply (fo_s2 _ A)].
  - intros x Hx. destruct Hx as [<-|Hx]; [apply (fo_pcl _ A)|]. apply B. cbn in Hx |- *. tauto.
Qed.
Lemma ac_nspec j : c_ncls (to_conf (ac j)) = nspec (iso j).
Proof. unfold c_ncls, nspec. cbn. destruct (j_spin1 j =? 0)%Z, (j_spin2 j =? 0)%Z; reflexivity. Qed.
Definition abuilt (j : ainp) (M : mat) : inputs :=
  Inputs (nspec (iso j)) false (b_lmax (j_bin j)) (j_lmm j) (j_norm j) (j_w2 j) (scaled pi (j_00 j)) (j_bin j) (j_b1 j) (j_b2 j) M.
Lemma by_name_built j : afields_ok j -> exists M, a_mcm pi w3j (ac j) = Ok M /\ valid (abuilt j M) /\ by_name j = Ok (mk (abuilt j M)).
Proof.
  intro H. destruct (a_mcm_ok pi w3j (ac j) (ac_ok j H)) as [M [E [S _]]]. exists M. split; [exact E|].
  rewrite ac_nspec in S. cbn zeta in S. cbn [ac a_lmax] in S. pose proof (af_iso j H) as A.
  assert (V : valid (abuilt j M)).
  { unfold valid, abuilt, i_nrows, i_nell. cbn [i_ncls i_bin i_lmaxf i_b1 i_b2 i_mcm].
    split; [apply (nspec_pos pi)|]. split; [apply (fo_bins _ A)|]. split; [lia|]. split; [apply (fo_b1 _ A)|]. split; [apply (fo_b2 _ A)|]. exact S. }
  split; [exact V|]. unfold by_name, nmt_compute_coupling_matrix_anisotropic. rewrite Z.ltb_irrefl. fold (ac j). rewrite E. cbn [bind].
  rewrite ac_nspec. apply (compute_ok (abuilt j M) V).
Qed.
Lemma agives_exists j : afields_ok j -> (Z.of_nat (nspec (iso j)) * (b_lmax (j_bin j) + 1) <= 46341)%Z -> exists M, agives by_name j M.
Proof.
  intros H L. destruct (by_name_built j H) as [M [_ [V E]]]. exists M, (mk (abuilt j M)). split; [exact E|].
  apply (get_mk (abuilt j M) V). unfold int_ok, i_nrows, i_nell, abuilt. cbn [i_ncls i_bin].
  destruct (valid_bins_facts _ (fo_bins _ (af_iso j H))) as [_ [_ P]]. cbn in P. nia.
Qed.
Lemma agives_el j M : afields_ok j -> agives by_name j M ->
  forall r l k l', (r < nspec (iso j))%nat -> (k < nspec (iso j))%nat -> upto (iso j) l -> upto (iso j) l' ->
  el (iso j) M r l k l' = if ((a_start (ac j) <=? Z.of_nat l) && (a_start (ac j) <=? Z.of_nat l'))%Z then a_el pi w3j (ac j) r l k l' else 0.
Proof.
  intros H [w [E G]] r l k l' Hr Hk Hl Hl'. destruct (by_name_built j H) as [M' [EM [V EB]]].
  rewrite EB in E. injection E as <-. apply (get_inv fsqrt fexp flog pi (abuilt j M') M V) in G. subst M. cbn [abuilt i_mcm].
  destruct (a_mcm_ok pi w3j (ac j) (ac_ok j H)) as [M2 [E2 [_ X]]]. assert (M' = M2) by congruence. subst M2.
  unfold el. rewrite <- ac_nspec in *. apply X; assumption.
Qed.
Lemma l1s_comm (c : conf F) l2 l3 : l1s c l2 l3 = l1s c l3 l2.
Proof. unfold l1s. replace (Z.abs (l2 - l3)) with (Z.abs (l3 - l2)) by lia. replace (l2 + l3)%Z with (l3 + l2)%Z by lia. reflexivity. Qed.
Lemma in_l1s (c : conf F) l2 l3 l1 : In l1 (l1s c l2 l3) -> (Z.abs (l2 - l3) <= l1 <= l2 + l3)%Z /\ (l1 <= c_lmm c)%Z.
Proof. unfold l1s. intro H. apply filter_In in H. destruct H as [H1 H2]. apply in_zrange in H1. apply Z.leb_le in H2. split; assumption. Qed.

(** ** Symmetries *)
(** exchanging the two fields, with all their spectra, exchanges EB and BE and nothing else *)
Definition aswap (j : ainp) : ainp :=
  AInp (j_spin2 j) (j_spin1 j) (j_an2 j) (j_an1 j) (j_lmm j) (j_00 j) (j_e0 j) (j_b0 j) (j_0e j) (j_0b j) (j_ee j) (j_be j) (j_eb j) (j_bb j)
       (j_bin j) (j_b2 j) (j_b1 j) (j_norm j) (j_w2 j).
Lemma aswap_ok j : afields_ok j -> afields_ok (aswap j).
Proof.
  intros [A B]. constructor; [exact (swapped_ok (iso j) A eq_refl)|]. intros x Hx. apply B. cbn in Hx |- *. tauto.
Qed.
Lemma fourways (s : Z) (P : Prop) : (s = 0%Z -> P) -> (s <> 0%Z -> P) -> P.
Proof. destruct (Z.eq_dec s 0); auto. Qed.
Lemma lt4 r : (r < 4)%nat -> r = 0%nat \/ r = 1%nat \/ r = 2%nat \/ r = 3%nat.
Proof. lia. Qed.
Lemma lt2 r : (r < 2)%nat -> r = 0%nat \/ r = 1%nat.
Proof. lia. Qed.
Lemma pick_swap j l2 l3 l1 r k : (r < nspec (iso j))%nat -> (k < nspec (iso j))%nat ->
  pick r k (a_terms pi w3j (ac j) l2 l3 l1)
  = pick (flip (nspec (iso j)) r) (flip (nspec (iso j)) k) (a_terms pi w3j (ac (aswap j)) l2 l3 l1).
Proof.
  intros Hr Hk. unfold nspec in *. cbn [iso n_teb n_spin1 n_spin2] in *. unfold a_terms. cbn [ac aswap a_spin1 a_spin2 a_an1 a_an2 a_00 a_0e a_e0 a_0b a_b0 a_ee a_eb a_be a_bb j_spin1 j_spin2 j_an1 j_an2 j_00 j_0e j_0b j_e0 j_b0 j_ee j_eb j_be j_bb].
  rewrite (Z.add_comm (j_spin2 j) (j_spin1 j)), (andb_comm (j_an2 j)).
  generalize (g3j w3j l2 l3 (j_spin1 j) (- j_spin1 j) l1) (g3j w3j l2 l3 (j_spin2 j) (- j_spin2 j) l1) (Wa w3j (j_an1 j) (j_spin1 j) l2 l3 l1) (Wa w3j (j_an2 j) (j_spin2 j) l2 l3 l1).
  intros w1 w2 w1a w2a. unfold a_entries. cbn [ac aswap a_spin1 a_spin2 j_spin1 j_spin2].
  destruct (j_spin1 j =? 0)%Z, (j_spin2 j =? 0)%Z, (Z.odd (l1 + l2 + l3)); unfold flip; cbn [Nat.eqb].
  1,2: cbn; reflexivity.
  1,2,3,4: destruct (lt2 r Hr) as [-> | ->], (lt2 k Hk) as [-> | ->]; unfold pick; cbn [map Nat.eqb andb lsum fold_right]; ring.
  all: destruct (lt4 r Hr) as [-> | [-> | [-> | ->]]], (lt4 k Hk) as [-> | [-> | [-> | ->]]]; unfold pick; cbn [map Nat.eqb andb lsum fold_right]; ring.
Qed.
Theorem C25_exchange_of_fields j M N : afields_ok j -> agives by_name j M -> agives by_name (aswap j) N ->
  forall r l k l', (r < nspec (iso j))%nat -> (k < nspec (iso j))%nat -> upto (iso j) l -> upto (iso j) l' ->
  el (iso j) M r l k l' = el (iso j) N (flip (nspec (iso j)) r) l (flip (nspec (iso j)) k) l'.
Proof.
  intros H G G' r l k l' Hr Hk Hl Hl'. pose proof (swapped_spec (iso j) eq_refl) as NS. change (swapped (iso j)) with (iso (aswap j)) in NS.
  assert (FB : forall r, (r < nspec (iso j))%nat -> (flip (nspec (iso j)) r < nspec (iso j))%nat).
  { intros x Hx. unfold flip. destruct (Nat.eqb_spec (nspec (iso j)) 4) as [E|_]; [|exact Hx]. rewrite E in *. destruct x as [|[|[|x]]]; lia. }
  rewrite (agives_el j M H G) by assumption.
  replace (el (iso j) N (flip (nspec (iso j)) r) l (flip (nspec (iso j)) k) l') with (el (iso (aswap j)) N (flip (nspec (iso j)) r) l (flip (nspec (iso j)) k) l')
    by (unfold el; rewrite NS; reflexivity).
  rewrite (agives_el (aswap j) N (aswap_ok j H) G') by (rewrite ?NS; try apply FB; assumption).
  replace (a_start (ac (aswap j))) with (a_start (ac j)) by (unfold a_start; cbn; lia).
  destruct ((a_start (ac j) <=? Z.of_nat l) && (a_start (ac j) <=? Z.of_nat l'))%Z; [|reflexivity].
  unfold a_el. f_equal. change (l1s (to_conf (ac (aswap j))) (Z.of_nat l) (Z.of_nat l')) with (l1s (to_conf (ac j)) (Z.of_nat l) (Z.of_nat l')).
  apply lsum_ext. intros l1 _. apply pick_swap; assumption.
Qed.

(** column exchange rules of the 3j symbols *)
Record w3j_sym (s : Z) : Prop := {
  ws_opp : forall l l' l1, (Z.abs (l - l') <= l1 <= l + l')%Z -> w3j l' l s (- s) l1 = w3j l l' s (- s) l1;
  ws_same : forall l l' l1, (Z.abs (l - l') <= l1 <= l + l')%Z -> w3j l' l s s l1 = eps (l1 + l + l') * w3j l l' s s l1 }.
Lemma two_neq0 : (1 + 1 : F) <> 0.
Proof. replace (1 + 1 : F) with (fofnat 2 : F) by (cbn; ring). apply fofnat_neq0. Qed.
(** with those, (2l+1) M is symmetric: one theorem for all sixteen blocks and any spectra *)
Theorem C25_symmetric_up_to_2l1 j M : afields_ok j -> w3j_sym (j_spin1 j) -> w3j_sym (j_spin2 j) -> agives by_name j M ->
  forall r l k l', (r < nspec (iso j))%nat -> (k < nspec (iso j))%nat -> upto (iso j) l -> upto (iso j) l' ->
  fofZ (2 * Z.of_nat l + 1) * el (iso j) M r l k l' = fofZ (2 * Z.of_nat l' + 1) * el (iso j) M k l' r l.
Proof.
  intros H W1 W2 G r l k l' Hr Hk Hl Hl'. rewrite !(agives_el j M H G) by assumption. rewrite (andb_comm (a_start (ac j) <=? Z.of_nat l')%Z).
  destruct ((a_start (ac j) <=? Z.of_nat l) && (a_start (ac j) <=? Z.of_nat l'))%Z; [|ring]. unfold a_el. rewrite (l1s_comm _ (Z.of_nat l') (Z.of_nat l)).
  assert (E : lsum (map (fun l1 => pick r k (a_terms pi w3j (ac j) (Z.of_nat l) (Z.of_nat l') l1)) (l1s (to_conf (ac j)) (Z.of_nat l) (Z.of_nat l')))
            = lsum (map (fun l1 => pick k r (a_terms pi w3j (ac j) (Z.of_nat l') (Z.of_nat l) l1)) (l1s (to_conf (ac j)) (Z.of_nat l) (Z.of_nat l')))).
  2:{ rewrite E. ring. }
  apply lsum_ext. intros l1 Hl1. apply in_l1s in Hl1. destruct Hl1 as [Hl1 _]. set (x := Z.of_nat l) in *. set (y := Z.of_nat l') in *.
  assert (GO : forall s, w3j_sym s -> g3j w3j y x s (- s) l1 = g3j w3j x y s (- s) l1).
  { intros s Ws. unfold g3j. rewrite Z.abs_opp, (orb_comm (y - Z.abs s <? 0)%Z). destruct ((x - Z.abs s <? 0) || (y - Z.abs s <? 0))%Z; [reflexivity | apply (ws_opp s Ws); exact Hl1]. }
  assert (GA : forall an s, w3j_sym s -> Wa w3j an s y x l1 = eps (l1 + x + y) * Wa w3j an s x y l1).
  { intros an s Ws. unfold Wa. destruct an; [|ring]. replace (lo3j y x s s) with (lo3j x y s s) by (unfold lo3j; lia). destruct (l1 <? lo3j x y s s)%Z; [ring|].
    unfold g3j. rewrite (orb_comm (y - Z.abs s <? 0)%Z). destruct ((x - Z.abs s <? 0) || (y - Z.abs s <? 0))%Z; [ring | apply (ws_same s Ws); exact Hl1]. }
  assert (Z0 : w3j_sym 0 -> Z.odd (l1 + x + y) = true -> g3j w3j x y 0 (- 0) l1 = 0).
  { intros Ws Od. unfold g3j. destruct ((x - Z.abs 0 <? 0) || (y - Z.abs (- 0) <? 0))%Z; [reflexivity|]. cbn [Z.opp].
    pose proof (ws_opp 0 Ws x y l1 Hl1) as A1. pose proof (ws_same 0 Ws x y l1 Hl1) as A2. cbn [Z.opp] in A1. rewrite A1 in A2. unfold eps in A2. rewrite Od in A2.
    assert (T : (1 + 1) * w3j x y 0 0 l1 = 0) by (transitivity (w3j x y 0 0 l1 + w3j x y 0 0 l1); [ring | rewrite A2 at 1; ring]).
    apply fmul_eq_0 in T. destruct T as [T|T]; [exfalso; exact (two_neq0 T) | exact T]. }
  unfold a_terms. rewrite !GO, !GA by assumption. replace (l1 + y + x)%Z with (l1 + x + y)%Z by lia.
  unfold nspec in *. unfold a_entries. cbn [iso n_teb n_spin1 n_spin2 ac a_spin1 a_spin2 a_an1 a_an2 a_00 a_0e a_e0 a_0b a_b0 a_ee a_eb a_be a_bb] in *.
  unfold eps. destruct (Z.eqb_spec (j_spin1 j) 0) as [S1|S1], (Z.eqb_spec (j_spin2 j) 0) as [S2|S2].
  - reflexivity.
  - destruct (Z.odd (l1 + x + y)) eqn:Od; [rewrite S1 in W1 |- *; rewrite (Z0 W1 eq_refl)|];
    destruct (lt2 r Hr) as [-> | ->], (lt2 k Hk) as [-> | ->]; unfold pick; cbn [map Nat.eqb andb lsum fold_right]; ring.
  - destruct (Z.odd (l1 + x + y)) eqn:Od; [rewrite S2 in W2 |- *; rewrite (Z0 W2 eq_refl)|];
    destruct (lt2 r Hr) as [-> | ->], (lt2 k Hk) as [-> | ->]; unfold pick; cbn [map Nat.eqb andb lsum fold_right]; ring.
  - destruct (Z.odd (l1 + x + y)) eqn:Od; destruct (lt4 r Hr) as [-> | [-> | [-> | ->]]], (lt4 k Hk) as [-> | [-> | [-> | ->]]];
      unfold pick; cbn [map Nat.eqb andb lsum fold_right]; ring.
Qed.
(** ** Masks without anisotropy *)
Definition polarless (j : ainp) : Prop := forall x, In x [j_0e j; j_0b j; j_e0 j; j_b0 j; j_ee j; j_eb j; j_be j; j_bb j] -> forall n, nth n x 0 = 0.
Definition par (n r k : nat) (l l' l1 : Z) : F :=
  if Nat.eqb n 4 then
    if Nat.eqb r k then even l l' l1
    else if Nat.eqb (r + k) 3 then (if Nat.eqb r 0 || Nat.eqb k 0 then odd l l' l1 else - odd l l' l1) else 0
  else if Nat.eqb r k then 1 else 0.
Lemma div_assoc (a b c : F) : a * b / c = a * (b / c).
Proof. rewrite !(Fdiv_def (fth F)). ring. Qed.
Lemma polarless_el j M : afields_ok j -> polarless j -> agives by_name j M -> (j_spin1 j <> 0%Z \/ j_spin2 j <> 0%Z) ->
  forall r l k l', (r < nspec (iso j))%nat -> (k < nspec (iso j))%nat -> upto (iso j) l -> upto (iso j) l' ->
  el (iso j) M r l k l' = fofZ (2 * Z.of_nat l' + 1) * msum pi (iso j) (fun l1 => par (nspec (iso j)) r k (Z.of_nat l) (Z.of_nat l') l1
     * (J3 w3j (j_spin1 j) (Z.of_nat l) (Z.of_nat l') l1 * J3 w3j (j_spin2 j) (Z.of_nat l) (Z.of_nat l') l1)).
Proof.
  intros H P G S r l k l' Hr Hk Hl Hl'. rewrite (agives_el j M H G) by assumption. unfold a_start. cbn [ac a_spin1 a_spin2].
  set (x := Z.of_nat l) in *. set (y := Z.of_nat l') in *. destruct (ac_spin _ (ac_ok j H)) as [P1 P2]. cbn in P1, P2. pose proof (ac_lmax _ (ac_ok j H)) as PL. cbn in PL.
  destruct (Z.leb_spec (Z.max (j_spin1 j) (j_spin2 j)) x) as [Lx|Lx], (Z.leb_spec (Z.max (j_spin1 j) (j_spin2 j)) y) as [Ly|Ly]; cbn [andb].
  2,3,4: symmetry; transitivity (fofZ (2 * y + 1) * 0 : F); [|ring]; f_equal; apply sum_zero; intros i _; unfold J3;
    destruct (Z.leb_spec (j_spin1 j) x), (Z.leb_spec (j_spin1 j) y), (Z.leb_spec (j_spin2 j) x), (Z.leb_spec (j_spin2 j) y); try lia; rewrite ?andb_false_r; cbn [andb]; ring.
  unfold a_el. fold x y. f_equal.
  rewrite (lsum_support fsqrt fexp flog w3j _ (l1s (to_conf (ac j)) x y) (Z.to_nat (j_lmm j + 1))).
  2:{ unfold l1s. apply NoDup_filter, NoDup_zrange. }
  2:{ intros z Hz. apply in_l1s in Hz. cbn in Hz. lia. }
  unfold msum. cbn [iso n_lmm]. apply sum_ext. intros i Hi.
  replace (existsb (Z.eqb (Z.of_nat i)) (l1s (to_conf (ac j)) x y)) with (tri x y (Z.of_nat i)).
  2:{ apply eq_true_iff_eq. unfold tri. rewrite existsb_exists, andb_true_iff, !Z.leb_le. split.
      - intro Q. exists (Z.of_nat i). split; [|apply Z.eqb_refl]. unfold l1s. apply filter_In. split; [apply in_zrange; lia | apply Z.leb_le; cbn; lia].
      - intros [z [Hz Ez]]. apply Z.eqb_eq in Ez. subst z. apply in_l1s in Hz. lia. }
  unfold J3. destruct (tri x y (Z.of_nat i)); cbn [andb]; [|ring].
  replace (j_spin1 j <=? x)%Z with true by (symmetry; apply Z.leb_le; lia). replace (j_spin1 j <=? y)%Z with true by (symmetry; apply Z.leb_le; lia).
  replace (j_spin2 j <=? x)%Z with true by (symmetry; apply Z.leb_le; lia). replace (j_spin2 j <=? y)%Z with true by (symmetry; apply Z.leb_le; lia). cbn [andb].
  unfold a_terms. cbn [ac a_spin1 a_spin2 a_an1 a_an2 a_00 a_0e a_e0 a_0b a_b0 a_ee a_eb a_be a_bb].
  assert (ZP : forall u sg z, In z [j_0e j; j_0b j; j_e0 j; j_b0 j; j_ee j; j_eb j; j_be j; j_bb j] -> pv pi u sg z (Z.of_nat i) = 0).
  { intros u sg z Hz. unfold pv. destruct u; [|reflexivity]. rewrite (P z Hz). ring. }
  rewrite ?(fun u sg => ZP u sg (j_0e j) ltac:(cbn; tauto)).
  rewrite ?(fun u sg => ZP u sg (j_0b j) ltac:(cbn; tauto)).
  rewrite ?(fun u sg => ZP u sg (j_e0 j) ltac:(cbn; tauto)).
  rewrite ?(fun u sg => ZP u sg (j_b0 j) ltac:(cbn; tauto)).
  rewrite ?(fun u sg => ZP u sg (j_ee j) ltac:(cbn; tauto)).
  rewrite ?(fun u sg => ZP u sg (j_eb j) ltac:(cbn; tauto)).
  rewrite ?(fun u sg => ZP u sg (j_be j) ltac:(cbn; tauto)).
  rewrite ?(fun u sg => ZP u sg (j_bb j) ltac:(cbn; tauto)).
  assert (GG : forall s, (0 <= s <= x)%Z -> (s <= y)%Z -> g3j w3j x y s (- s) (Z.of_nat i) = w3j x y s (- s) (Z.of_nat i)).
  { intros s Hs1 Hs2. unfold g3j. replace (x - Z.abs s <? 0)%Z with false by (symmetry; apply Z.ltb_ge; lia). replace (y - Z.abs (- s) <? 0)%Z with false by (symmetry; apply Z.ltb_ge; lia). reflexivity. }
  rewrite !GG by lia.
  assert (PM : pv pi true 0 (j_00 j) (Z.of_nat i) = pmask pi (iso j) i).
  { unfold pv, pmask. cbn [iso n_pcl]. rewrite Nat2Z.id, div_assoc. unfold sgn. cbn [Z.odd].
    replace (fofZ (2 * Z.of_nat i + 1) : F) with (fofnat (2 * i + 1) : F); [ring|].
    rewrite <- fofZ_of_nat. f_equal. lia. }
  rewrite PM. unfold a_entries, par, even, odd. cbn [ac a_spin1 a_spin2]. unfold nspec in *. cbn [iso n_teb n_spin1 n_spin2] in *.
  replace (Z.of_nat i + x + y)%Z with (Z.of_nat i + x + y)%Z by reflexivity.
  destruct (Z.eqb_spec (j_spin1 j) 0) as [S1|S1], (Z.eqb_spec (j_spin2 j) 0) as [S2|S2]; [exfalso; lia| | |]; cbn [Nat.eqb].
  - destruct (lt2 r Hr) as [-> | ->], (lt2 k Hk) as [-> | ->]; unfold pick; cbn [map Nat.eqb andb lsum fold_right]; ring.
  - destruct (lt2 r Hr) as [-> | ->], (lt2 k Hk) as [-> | ->]; unfold pick; cbn [map Nat.eqb andb lsum fold_right]; ring.
  - destruct (Z.odd (Z.of_nat i + x + y)) eqn:Od; destruct (lt4 r Hr) as [-> | [-> | [-> | ->]]], (lt4 k Hk) as [-> | [-> | [-> | ->]]];
      unfold pick; cbn [map Nat.eqb andb orb lsum fold_right Nat.add]; ring.
Qed.
Lemma J3_sym s x y l1 : (forall l l' l1, (Z.abs (l - l') <= l1 <= l + l')%Z -> w3j l' l s (- s) l1 = w3j l l' s (- s) l1) -> J3 w3j s x y l1 = J3 w3j s y x l1.
Proof.
  intro W. unfold J3. assert (T : tri y x l1 = tri x y l1) by (unfold tri; f_equal; [f_equal; lia | f_equal; lia]). rewrite T.
  destruct (tri x y l1) eqn:E; cbn [andb]; [|reflexivity]. rewrite (andb_comm (s <=? y)%Z). destruct ((s <=? x) && (s <=? y))%Z; [|reflexivity].
  unfold tri in E. apply andb_true_iff in E. rewrite !Z.leb_le in E. apply W. lia.
Qed.
Lemma msum_0 (i : minp) f : (forall l1, f l1 = 0) -> msum pi i f = (0 : F).
Proof. intro H. unfold msum. apply sum_zero. intros. rewrite H. ring. Qed.
Lemma msum_opp (i : minp) f : msum pi i (fun l1 => - f l1) = - msum pi i f :> F.
Proof.
  unfold msum. transitivity (sum (Z.to_nat (n_lmm i + 1)) (fun l1 => (- (1)) * (pmask pi i l1 * f (Z.of_nat l1))) : F); [apply sum_ext; intros; ring|].
  rewrite sum_mul_l. ring.
Qed.
Lemma fmul_cancel (a x y : F) : a <> 0 -> a * x = a * y -> x = y.
Proof. intros A E. replace x with (/ a * (a * x)) by (field; exact A). rewrite E. field. exact A. Qed.
Lemma Fmul1 (x : F) : 1 * x = x.
Proof. ring. Qed.
(** without anisotropic components the result is the isotropic matrix, up to the sign (-1)^(s1+s2) *)
Theorem C25_isotropic_limit j M N : afields_ok j -> polarless j -> (j_spin1 j <> 0%Z \/ j_spin2 j <> 0%Z) ->
  w3j_sym (j_spin1 j) -> w3j_sym (j_spin2 j) ->
  (j_spin1 j = 0%Z \/ j_spin2 j = 0%Z -> forall l l' l1, (0 <= l)%Z -> (0 <= l')%Z -> tri l l' l1 = true -> w3j l l' 0 0 l1 = J0 fsqrt fexp flog l l' l1) ->
  agives called j M -> gives fsqrt fexp flog pi w3j (iso j) N ->
  forall r l k l', (r < nspec (iso j))%nat -> (k < nspec (iso j))%nat -> upto (iso j) l -> upto (iso j) l' ->
  el (iso j) M r l k l' = eps (j_spin1 j + j_spin2 j) * el (iso j) N r l k l'.
Proof.
  intros H P S W1 W2 W0 G GN. pose proof (af_iso j H) as A.
  assert (G' : agives by_name (crossed j) M).
  { destruct G as [w [E Q]]. exists w. split; [rewrite <- C25_wrapper_exchanges_0b_and_e0 by exact H; exact E | exact Q]. }
  assert (P' : polarless (crossed j)) by (intros x Hx; apply P; cbn in Hx |- *; tauto).
  pose proof (polarless_el (crossed j) M (crossed_ok j H) P' G' S) as V. change (iso (crossed j)) with (iso j) in V.
  change (j_spin1 (crossed j)) with (j_spin1 j) in V. change (j_spin2 (crossed j)) with (j_spin2 j) in V. clear G G' P P'.
  set (JJ := fun l l' l1 => J3 w3j (j_spin1 j) l l' l1 * J3 w3j (j_spin2 j) l l' l1) in *.
  assert (EE : forall z : Z, eps z * eps z = (1 : F)) by (intro z; unfold eps; destruct (Z.odd z); ring).
  (* upper triangle *)
  assert (U : forall r l k l', (l <= l')%nat -> (r < nspec (iso j))%nat -> (k < nspec (iso j))%nat -> upto (iso j) l' ->
     el (iso j) M r l k l' = eps (j_spin1 j + j_spin2 j) * el (iso j) N r l k l').
  { intros r l k l' L Hr Hk Hl'. assert (Hl : upto (iso j) l) by (unfold upto in *; lia). rewrite V by assumption.
    destruct (Z.eq_dec (j_spin1 j) 0) as [S1|S1]; [|destruct (Z.eq_dec (j_spin2 j) 0) as [S2|S2]].
    1,2: assert (NS : nspec (iso j) = 2%nat) by (unfold nspec; cbn; destruct (Z.eqb_spec (j_spin1 j) 0), (Z.eqb_spec (j_spin2 j) 0); lia).
    1,2: assert (O : one_spin0 (iso j)) by (unfold one_spin0; cbn; lia).
    1,2: rewrite NS in *; unfold par; cbn [Nat.eqb].
    1,2: destruct (C20_spin0_spinS fsqrt fexp flog pi w3j (iso j) N l l' A GN eq_refl O Hl Hl') as [Z1 [Z2 _]].
    1,2: destruct (Nat.eqb_spec r k) as [->|Ne].
    1,3: rewrite (C20_formula_0s fsqrt fexp flog pi w3j (iso j) N l l' k A GN ltac:(cbn; lia) eq_refl O eq_refl L Hl' Hk); cbn [iso n_spin1 n_spin2].
    1,2: match goal with |- ?a * msum pi ?i ?f = ?e * (?e * ?a * msum pi ?i ?g) => transitivity (e * e * (a * msum pi i g)); [|ring]; rewrite EE;
           assert (MM : msum pi i f = msum pi i g); [|rewrite MM; ring] end.
    1,2: apply (msum_ext fsqrt fexp flog pi w3j); intros l1 _; unfold JJ.
    - assert (J0' : J3 w3j (j_spin1 j) (Z.of_nat l) (Z.of_nat l') l1 = J0 fsqrt fexp flog (Z.of_nat l) (Z.of_nat l') l1).
      { rewrite S1. unfold J3. destruct (tri (Z.of_nat l) (Z.of_nat l') l1) eqn:T; [|unfold J0; rewrite T; reflexivity].
        replace (0 <=? Z.of_nat l)%Z with true by (symmetry; apply Z.leb_le; lia). replace (0 <=? Z.of_nat l')%Z with true by (symmetry; apply Z.leb_le; lia).
        cbn [andb Z.opp]. apply W0; [left; exact S1 | lia | lia | exact T]. }
      rewrite J0', S1. cbn [Z.add]. ring.
    - assert (J0' : J3 w3j (j_spin2 j) (Z.of_nat l) (Z.of_nat l') l1 = J0 fsqrt fexp flog (Z.of_nat l) (Z.of_nat l') l1).
      { rewrite S2. unfold J3. destruct (tri (Z.of_nat l) (Z.of_nat l') l1) eqn:T; [|unfold J0; rewrite T; reflexivity].
        replace (0 <=? Z.of_nat l)%Z with true by (symmetry; apply Z.leb_le; lia). replace (0 <=? Z.of_nat l')%Z with true by (symmetry; apply Z.leb_le; lia).
        cbn [andb Z.opp]. apply W0; [right; exact S2 | lia | lia | exact T]. }
      rewrite J0', S2. rewrite Z.add_0_r. ring.
    - assert (Z3 : el (iso j) N r l k l' = 0) by (destruct (lt2 r Hr) as [-> | ->], (lt2 k Hk) as [-> | ->]; assumption || congruence).
      rewrite Z3. rewrite msum_0; [ring|]. intros; ring.
    - assert (Z3 : el (iso j) N r l k l' = 0) by (destruct (lt2 r Hr) as [-> | ->], (lt2 k Hk) as [-> | ->]; assumption || congruence).
      rewrite Z3. rewrite msum_0; [ring|]. intros; ring.
    - assert (NS : nspec (iso j) = 4%nat) by (unfold nspec; cbn; destruct (Z.eqb_spec (j_spin1 j) 0), (Z.eqb_spec (j_spin2 j) 0); lia).
      destruct (C20_formula_ss fsqrt fexp flog pi w3j (iso j) N l l' A GN ltac:(cbn; lia) eq_refl S1 S2 eq_refl L Hl') as [F1 F2].
      pose proof (C20_spinS_spinS_zeros fsqrt fexp flog pi w3j (iso j) N l l' A GN eq_refl S1 S2 Hl Hl') as ZZ.
      destruct (C20_spinS_spinS_symmetry fsqrt fexp flog pi w3j (iso j) N l l' A GN eq_refl eq_refl S1 S2 Hl Hl') as [Y1 [Y2 [Y3 [Y4 [Y5 Y6]]]]].
      cbv beta in Y1, Y2, Y3, Y4, Y5, Y6. cbn [iso n_spin1 n_spin2] in F1, F2. fold (iso j) in F1, F2.
      rewrite NS in *. unfold par. cbn [Nat.eqb]. unfold JJ in *.
      destruct (lt4 r Hr) as [-> | [-> | [-> | ->]]], (lt4 k Hk) as [-> | [-> | [-> | ->]]]; cbn [Nat.eqb Nat.add orb];
        try (match goal with |- _ = _ * el _ _ ?r' _ ?k' _ => rewrite (ZZ r' k' ltac:(cbn; tauto)), msum_0 by (intros; ring) end; ring);
        rewrite ?Y1, ?Y2, ?Y3, ?Y4, ?Y5, ?Y6, ?F1, ?F2;
        match goal with
        | |- ?a * msum _ _ _ = ?e * (?e * ?a * msum _ _ ?g) => transitivity (e * e * (a * msum pi (iso j) g)); [rewrite EE; ring | ring]
        | |- ?a * msum _ _ ?f = ?e * (- (?e * ?a * msum _ _ ?g)) =>
            assert (MO : msum pi (iso j) f = - msum pi (iso j) g) by (rewrite <- msum_opp; apply (msum_ext fsqrt fexp flog pi w3j); intros; ring);
            rewrite MO; transitivity (e * e * (a * (- msum pi (iso j) g))); [rewrite EE; ring | ring]
        end. }
  intros r l k l' Hr Hk Hl Hl'. destruct (Nat.le_gt_cases l l') as [L|L]; [apply U; assumption|].
  pose proof (U r l' k l ltac:(lia) Hr Hk Hl) as X.
  pose proof (C21_symmetric_up_to_2l1 fsqrt fexp flog pi w3j (iso j) N r k l l' A GN eq_refl Hr Hk Hl Hl') as Y.
  assert (D : fofZ (2 * Z.of_nat l + 1) <> (0 : F)) by (apply fofZ_neq0; lia).
  assert (MS : fofZ (2 * Z.of_nat l + 1) * el (iso j) M r l k l' = fofZ (2 * Z.of_nat l' + 1) * el (iso j) M r l' k l).
  { rewrite !V by assumption. 
    assert (E : msum pi (iso j) (fun l1 => par (nspec (iso j)) r k (Z.of_nat l) (Z.of_nat l') l1 * JJ (Z.of_nat l) (Z.of_nat l') l1)
              = msum pi (iso j) (fun l1 => par (nspec (iso j)) r k (Z.of_nat l') (Z.of_nat l) l1 * JJ (Z.of_nat l') (Z.of_nat l) l1)).
    { apply (msum_ext fsqrt fexp flog pi w3j). intros l1 _. unfold JJ. rewrite (J3_sym (j_spin1 j) (Z.of_nat l) (Z.of_nat l') l1 (ws_opp _ W1)), (J3_sym (j_spin2 j) (Z.of_nat l) (Z.of_nat l') l1 (ws_opp _ W2)).
      f_equal. unfold par, even, odd. replace (l1 + Z.of_nat l' + Z.of_nat l)%Z with (l1 + Z.of_nat l + Z.of_nat l')%Z by lia. reflexivity. }
    unfold JJ in E. rewrite E. ring. }
  apply (fmul_cancel (fofZ (2 * Z.of_nat l + 1)) _ _ D). rewrite MS, X. 
  transitivity (eps (j_spin1 j + j_spin2 j) * (fofZ (2 * Z.of_nat l' + 1) * el (iso j) N r l' k l)); [ring|]. rewrite <- Y. ring.
Qed.
(** Consequence of the exchange: when one of the two masks is isotropic, the spectrum between it and the
    B component (second field) or the E component (first field) of the other has no effect at all *)
Definition with_0b (j : ainp) (x : list F) : ainp :=
  AInp (j_spin1 j) (j_spin2 j) (j_an1 j) (j_an2 j) (j_lmm j) (j_00 j) (j_0e j) x (j_e0 j) (j_b0 j) (j_ee j) (j_eb j) (j_be j) (j_bb j)
       (j_bin j) (j_b1 j) (j_b2 j) (j_norm j) (j_w2 j).
Definition with_e0 (j : ainp) (x : list F) : ainp :=
  AInp (j_spin1 j) (j_spin2 j) (j_an1 j) (j_an2 j) (j_lmm j) (j_00 j) (j_0e j) (j_0b j) x (j_b0 j) (j_ee j) (j_eb j) (j_be j) (j_bb j)
       (j_bin j) (j_b1 j) (j_b2 j) (j_norm j) (j_w2 j).
Lemma agives_called j M : afields_ok j -> agives called j M -> agives by_name (crossed j) M.
Proof. intros H [w [E Q]]. exists w. split; [rewrite <- C25_wrapper_exchanges_0b_and_e0 by exact H; exact E | exact Q]. Qed.
Theorem C25_0b_ignored j x M N : afields_ok j -> afields_ok (with_0b j x) -> j_an1 j = false -> agives called j M -> agives called (with_0b j x) N ->
  forall r l k l', (r < nspec (iso j))%nat -> (k < nspec (iso j))%nat -> upto (iso j) l -> upto (iso j) l' -> el (iso j) M r l k l' = el (iso j) N r l k l'.
Proof.
  intros H H' A G G' r l k l' Hr Hk Hl Hl'. apply (agives_called _ _ H) in G. apply (agives_called _ _ H') in G'.
  pose proof (agives_el _ _ (crossed_ok _ H) G r l k l' Hr Hk Hl Hl') as E1. pose proof (agives_el _ _ (crossed_ok _ H') G' r l k l' Hr Hk Hl Hl') as E2.
  change (iso (crossed j)) with (iso j) in E1. change (iso (crossed (with_0b j x))) with (iso j) in E2. rewrite E1, E2.
  change (a_start (ac (crossed (with_0b j x)))) with (a_start (ac (crossed j))). destruct (_ && _)%bool; [|reflexivity].
  unfold a_el. f_equal. apply lsum_ext. intros l1 _. unfold a_terms. cbn [ac crossed with_0b a_spin1 a_spin2 a_an1 a_an2 a_00 a_0e a_e0 a_0b a_b0 a_ee a_eb a_be a_bb j_spin1 j_spin2 j_an1 j_an2 j_00 j_0e j_0b j_e0 j_b0 j_ee j_eb j_be j_bb].
  rewrite A. reflexivity.
Qed.
Theorem C25_e0_ignored j x M N : afields_ok j -> afields_ok (with_e0 j x) -> j_an2 j = false -> agives called j M -> agives called (with_e0 j x) N ->
  forall r l k l', (r < nspec (iso j))%nat -> (k < nspec (iso j))%nat -> upto (iso j) l -> upto (iso j) l' -> el (iso j) M r l k l' = el (iso j) N r l k l'.
Proof.
  intros H H' A G G' r l k l' Hr Hk Hl Hl'. apply (agives_called _ _ H) in G. apply (agives_called _ _ H') in G'.
  pose proof (agives_el _ _ (crossed_ok _ H) G r l k l' Hr Hk Hl Hl') as E1. pose proof (agives_el _ _ (crossed_ok _ H') G' r l k l' Hr Hk Hl Hl') as E2.
  change (iso (crossed j)) with (iso j) in E1. change (iso (crossed (with_e0 j x))) with (iso j) in E2. rewrite E1, E2.
  change (a_start (ac (crossed (with_e0 j x)))) with (a_start (ac (crossed j))). destruct (_ && _)%bool; [|reflexivity].
  unfold a_el. f_equal. apply lsum_ext. intros l1 _. unfold a_terms. cbn [ac crossed with_e0 a_spin1 a_spin2 a_an1 a_an2 a_00 a_0e a_e0 a_0b a_b0 a_ee a_eb a_be a_bb j_spin1 j_spin2 j_an1 j_an2 j_00 j_0e j_0b j_e0 j_b0 j_ee j_eb j_be j_bb].
  rewrite A. reflexivity.
Qed.
(** every call with consistent array lengths returns: no undefined behaviour in the Wigner buffers or the spectra *)
Theorem C25_defined j : afields_ok j -> exists w, called j = Ok w.
Proof.
  intro H. rewrite C25_wrapper_exchanges_0b_and_e0 by exact H. destruct (by_name_built (crossed j) (crossed_ok j H)) as [M [_ [_ E]]]. eexists. exact E.
Qed.
End Statements.

Section Examples.
Local Notation Q := Qc_field.
Definition mj (s1 s2 : Z) (a1 a2 : bool) (x0e x0b xe0 xb0 xee xeb xbe xbb : list Z) : ainp (F:=Q) :=
  AInp s1 s2 a1 a2 4 (map (q 1) [1; 2; 3; 4; 5]%positive) (map qz x0e) (map qz x0b) (map qz xe0) (map qz xb0) (map qz xee) (map qz xeb) (map qz xbe) (map qz xbb)
    exb3 (map qz [1; 1; 1; 1]%Z) (map qz [1; 2; 1; 1]%Z) 0 (qz 1).
Definition z5 := [0; 0; 0; 0; 0]%Z.
Definition v5 := [3; 1; 4; 1; 5]%Z.
Lemma mj_ok s1 s2 a1 a2 x1 x2 x3 x4 x5 x6 x7 x8 : (0 <= s1)%Z -> (0 <= s2)%Z -> (forall x, In x [x1; x2; x3; x4; x5; x6; x7; x8] -> length x = 5%nat) ->
  afields_ok (mj s1 s2 a1 a2 x1 x2 x3 x4 x5 x6 x7 x8).
Proof.
  intros H1 H2 H3. constructor.
  - assert (E : b_lmax (F:=Q) exb3 = 3%Z) by (vm_compute; reflexivity).
    constructor; unfold n_lmax; cbn [iso mj j_spin1 j_spin2 j_lmm j_bin j_b1 j_b2 j_00 n_bin n_lmm n_b1 n_b2 n_pcl n_spin1 n_spin2 n_pe1 n_pb1 n_pe2 n_pb2 n_teb]; rewrite ?E; try assumption; try lia; try discriminate; try (cbn; lia). apply exb3_valid.
  - cbn. intros x Hx. repeat (destruct Hx as [<-|Hx]; [rewrite map_length, H3 by (cbn; tauto); reflexivity|]). contradiction.
Qed.
Ltac mj_tac := apply mj_ok; [lia | lia | cbn; intros x Hx; repeat (destruct Hx as [<-|Hx]; [reflexivity|]); contradiction].
Lemma mj_gives pi w3j f s1 s2 a1 a2 x1 x2 x3 x4 x5 x6 x7 x8 : f = called pi w3j \/ f = by_name pi w3j ->
  let j := mj s1 s2 a1 a2 x1 x2 x3 x4 x5 x6 x7 x8 in afields_ok j -> exists M, agives f j M.
Proof.
  intros Hf j H. assert (L : forall j', iso j' = iso j -> (Z.of_nat (nspec (iso j')) * (b_lmax (j_bin j') + 1) <= 46341)%Z).
  { intros j' E. change (j_bin j') with (n_bin (iso j')). rewrite E. assert (E3 : b_lmax (n_bin (iso j)) = 3%Z) by (vm_compute; reflexivity). rewrite E3. unfold nspec. cbn.
    destruct (s1 =? 0)%Z, (s2 =? 0)%Z; cbn; lia. }
  destruct Hf as [-> | ->]; [|apply (agives_exists (fun x => x) (fun x => x) (fun x => x)); [exact H | apply L; reflexivity]].
  destruct (agives_exists (fun x => x) (fun x => x) (fun x => x) pi w3j (crossed j) (crossed_ok (fun x => x) (fun x => x) (fun x => x) pi j H) (L _ eq_refl)) as [M [w [E G]]].
  exists M, w. split; [rewrite C25_wrapper_exchanges_0b_and_e0 by exact H; exact E | exact G].
Qed.
(** the hypotheses of the theorems above are met: one or two anisotropic masks, with a spin-0 partner or not, and an isotropic limit *)
Example ex_aniso pi w3j : Forall (fun j => afields_ok j /\ (exists M, agives (called pi w3j) j M) /\ (exists M, agives (by_name pi w3j) j M))
  [mj 0 2 false true v5 v5 z5 z5 z5 z5 z5 z5; mj 2 0 true false z5 z5 v5 v5 z5 z5 z5 z5; mj 2 2 true true v5 v5 v5 v5 v5 v5 v5 v5; mj 2 2 false true z5 z5 z5 z5 z5 z5 z5 z5;
   mj 1 2 true true v5 z5 v5 z5 v5 z5 z5 v5].
Proof.
  repeat first [apply Forall_nil | apply Forall_cons].
  all: (split; [mj_tac | split; (apply (mj_gives pi w3j); [auto | mj_tac])]).
Qed.
(** the names are not respected: with a spin-0 field and an anisotropic spin-2 mask the matrices differ *)
Definition w1 (l2 l3 m2 m3 l1 : Z) : Q := qz (1 + l1).
Definition jw := mj 0 2 false true z5 v5 z5 z5 z5 z5 z5 z5.
Definition jw_entry (f : ainp (F:=Q) -> res (wsp Q)) : QArith_base.Q :=
  match f jw with Ok w => match get_coupling_matrix (obj w) with Ok M => out (el (iso jw) M 0 2 1 2) | _ => QArith_base.Qmake 0 1 end | _ => QArith_base.Qmake 0 1 end.
Lemma jw_neq : jw_entry (by_name (qz 3) w1) <> jw_entry (called (qz 3) w1).
Proof.
  assert (E : QArith_base.Qeq_bool (jw_entry (by_name (qz 3) w1)) (jw_entry (called (qz 3) w1)) = false) by (vm_compute; reflexivity).
  intro X. rewrite X in E. rewrite QArith_base.Qeq_bool_refl in E. discriminate E.
Qed.
Theorem C25_names_refuted : exists (j : ainp (F:=Q)) M N r l k l', afields_ok j /\ j_an1 j = false /\ j_an2 j = true /\
  agives (called (qz 3) w1) j M /\ agives (by_name (qz 3) w1) j N /\ el (iso j) M r l k l' <> el (iso j) N r l k l'.
Proof.
  assert (H : afields_ok jw) by (unfold jw; mj_tac).
  assert (SH : forall f, f = called (qz 3) w1 \/ f = by_name (qz 3) w1 -> forall M, agives f jw M -> out (el (iso jw) M 0 2 1 2) =
     jw_entry f).
  { intros f _ M [w [E G]]. unfold jw_entry. rewrite E, G. reflexivity. }
  destruct (mj_gives (qz 3) w1 (called (qz 3) w1) 0 2 false true z5 v5 z5 z5 z5 z5 z5 z5 (or_introl eq_refl) H) as [M G].
  destruct (mj_gives (qz 3) w1 (by_name (qz 3) w1) 0 2 false true z5 v5 z5 z5 z5 z5 z5 z5 (or_intror eq_refl) H) as [N G'].
  exists jw, M, N, 0%nat, 2%nat, 1%nat, 2%nat. split; [exact H|]. split; [reflexivity|]. split; [reflexivity|]. split; [exact G|]. split; [exact G'|].
  intro E. apply (SH _ (or_introl eq_refl)) in G. apply (SH _ (or_intror eq_refl)) in G'. rewrite E, G' in G. exact (jw_neq G).
Qed.
End Examples.

(** ** The sign for odd s1 + s2, on the full sky, over the real numbers *)
Section Reals.
Local Notation R' := R_field.
Definition z4 : list R' := [f0; f0; f0; f0].
Definition fj (b : bins R') (s1 s2 : Z) : ainp (F:=R') :=
  AInp (F:=R') s1 s2 true true 3 [((f1 + f1 + f1 + f1) * (PI : R_field))%F; f0; f0; f0] z4 z4 z4 z4 z4 z4 z4 z4 b [f1; f1; f1; f1] [f1; f1; f1; f1] 0 f1.
Lemma w3R_sym s : w3j_sym (F:=R') w3R s.
Proof.
  constructor; intros l l' l1 H; unfold w3R.
  - rewrite (Z.eqb_sym l' l). destruct (Z.eqb_spec l l'); [subst; reflexivity | rewrite !andb_false_r; reflexivity].
  - rewrite (Z.eqb_sym l' l). destruct (Z.eqb_spec l1 0) as [->|]; [|cbn; rewrite Rmult_0_r; reflexivity].
    destruct (Z.eqb_spec l l') as [->|]; [|cbn; rewrite Rmult_0_r; reflexivity]. unfold eps at 2. replace (Z.odd (0 + l' + l')) with false.
    + cbn. rewrite Rmult_1_l. reflexivity.
    + symmetry. rewrite Z.odd_add, Z.odd_add. destruct (Z.odd l'); reflexivity.
Qed.
Theorem C25_odd_spin_refuted : exists (j : ainp (F:=R')) M N, afields_ok j /\ polarless j /\ j_spin1 j = 1%Z /\ j_spin2 j = 2%Z /\
  agives (called (F:=R_field) PI w3R) j M /\ gives (F:=R_field) sqrt exp ln PI w3R (iso j) N /\ el (iso j) N 0 2 0 2 = f1 /\ el (iso j) M 0 2 0 2 = (- (f1))%F.
Proof.
  destruct (linear_valid (F:=R_field) sqrt exp ln w3R PI 3 1 ltac:(lia) ltac:(lia)) as [b [_ [V E]]].
  destruct (fs_ok b 1 2 false false false V E ltac:(lia) ltac:(lia) ltac:(discriminate) ltac:(discriminate) ltac:(discriminate)) as [Hi FS].
  change (fs b 1 2 false false false) with (iso (fj b 1 2)) in Hi, FS.
  assert (H : afields_ok (fj b 1 2)).
  { constructor; [exact Hi|]. cbn. intros x Hx. repeat (destruct Hx as [<-|Hx]; [reflexivity|]). contradiction. }
  assert (P : polarless (fj b 1 2)).
  { cbn. intros x Hx. assert (x = z4) by (repeat (destruct Hx as [<-|Hx]; [reflexivity|]); contradiction). subst x. intro n. do 4 (destruct n as [|n]; [reflexivity|]). destruct n; reflexivity. }
  destruct (fs_gives b 1 2 false false false Hi E) as [N GN]. change (fs b 1 2 false false false) with (iso (fj b 1 2)) in GN.
  destruct (agives_exists (F:=R_field) sqrt exp ln PI w3R (crossed (fj b 1 2)) (crossed_ok (F:=R_field) sqrt exp ln PI _ H)) as [M G].
  { change (j_bin (crossed (fj b 1 2))) with b. rewrite E. cbn. lia. }
  assert (GM : agives (called (F:=R_field) PI w3R) (fj b 1 2) M).
  { destruct G as [w [Ew Q]]. exists w. split; [rewrite C25_wrapper_exchanges_0b_and_e0 by exact H; exact Ew | exact Q]. }
  exists (fj b 1 2), M, N. split; [exact H|]. split; [exact P|]. do 2 (split; [reflexivity|]). split; [exact GM|]. split; [exact GN|].
  assert (U : upto (iso (fj b 1 2)) 2) by (unfold upto, n_lmax; cbn [fj iso j_bin n_bin]; rewrite E; lia).
  assert (N0 : nspec (iso (fj b 1 2)) = 4%nat) by reflexivity.
  rewrite (C25_isotropic_limit (F:=R_field) sqrt exp ln PI w3R _ M N H P ltac:(left; cbn; lia) (w3R_sym 1) (w3R_sym 2) ltac:(cbn; lia) GM GN 0%nat 2%nat 0%nat 2%nat ltac:(rewrite N0; lia) ltac:(rewrite N0; lia) U U).
  assert (EN : el (iso (fj b 1 2)) N 0 2 0 2 = f1).
  { rewrite (C24_full_sky_identity (F:=R_field) sqrt exp ln PI w3R _ N lawsR pi_neq Hi FS ltac:(cbn; lia) eq_refl GN ltac:(cbn; lia) 0%nat 2%nat 0%nat 2%nat ltac:(rewrite N0; lia) ltac:(rewrite N0; lia) U U). reflexivity. }
  split; [exact EN|]. rewrite EN. cbn. change (eps (F:=R') 3) with (-(1))%R. lra.
Qed.
End Reals.

Print Assumptions C25_wrapper_exchanges_0b_and_e0.
Print Assumptions C25_exchange_of_fields.
Print Assumptions C25_symmetric_up_to_2l1.
Print Assumptions C25_isotropic_limit.
Print Assumptions C25_0b_ignored.
Print Assumptions C25_e0_ignored.
Print Assumptions C25_defined.
Print Assumptions C25_names_refuted.
Print Assumptions C25_odd_spin_refuted.
