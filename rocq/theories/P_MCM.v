(** Properties C20-C24, C26 and C28: the mode-coupling matrix itself. *)
From Verif Require Import Base M_Bins M_LinAlg M_Workspace M_MCM L_Bins L_Bins2 L_Bins3 P_Bins L_LinAlg L_Workspace P_Workspace L_MCM L_MCM2 L_MCM3.
Open Scope Z_scope.

Section Statements.
Context {F : ofield}.
Local Open Scope F_scope.
Add Field FfPM : (fth F).
Notation mat := (list (list F)).
Notation bins := (bins F).
Notation wsp := (wsp F).
Variables (fsqrt fexp flog : F -> F) (pi : F).
Variable w3j : Z -> Z -> Z -> Z -> Z -> F.

(** ** Specification vocabulary *)
(** arguments of NmtWorkspace.compute_coupling_matrix, as they reach the C library (the maximum
    multipole of the fields equals that of the bins, workspaces.py:242-245) *)
Record minp := MInp {
  n_spin1 : Z; n_spin2 : Z; n_pe1 : bool; n_pb1 : bool; n_pe2 : bool; n_pb2 : bool;
  n_lmm : Z; n_pcl : list F; n_bin : bins; n_b1 : list F; n_b2 : list F; n_norm : Z; n_w2 : F;
  n_teb : bool; n_lt : Z; n_lex : Z; n_dl : Z }.
Definition n_lmax (i : minp) : Z := b_lmax (n_bin i).
Definition mcompute (junk : Z -> F) (i : minp) : res wsp :=
  do _ <- toeplitz_sanity (n_lt i) (n_lex i) (n_dl i) (n_lmax i) (n_pe1 i || n_pb1 i || n_pe2 i || n_pb2 i);
  comp_coupling_matrix fsqrt fexp flog pi junk w3j (n_spin1 i) (n_spin2 i) (n_lmax i) (n_lmm i)
    (n_pe1 i) (n_pb1 i) (n_pe2 i) (n_pb2 i) (n_norm i) (n_w2 i) (n_b1 i) (n_b2 i) (n_pcl i) (n_bin i)
    (n_teb i) (n_lt i) (n_lex i) (n_dl i).
(** arguments coming from two valid fields: purification only for spin 2 (field.py:225-228), mask
    multipoles reaching at least as far as those of the maps, beams and mask spectrum of the right
    lengths; a T-E-B workspace with purified fields is excluded (see the refutation below) *)
Record fields_ok (i : minp) : Prop := {
  fo_bins : valid_bins (n_bin i);
  fo_lmm : (n_lmax i <= n_lmm i)%Z;
  fo_b1 : Z.of_nat (length (n_b1 i)) = (n_lmax i + 1)%Z;
  fo_b2 : Z.of_nat (length (n_b2 i)) = (n_lmax i + 1)%Z;
  fo_pcl : Z.of_nat (length (n_pcl i)) = (n_lmm i + 1)%Z;
  fo_s1 : (0 <= n_spin1 i)%Z; fo_s2 : (0 <= n_spin2 i)%Z;
  fo_p1 : n_pe1 i || n_pb1 i = true -> n_spin1 i = 2%Z;
  fo_p2 : n_pe2 i || n_pb2 i = true -> n_spin2 i = 2%Z;
  fo_teb : n_teb i = true -> n_spin1 i = 0%Z /\ n_spin2 i <> 0%Z /\ n_pe2 i || n_pb2 i = false }.
Definition purified (i : minp) : bool := n_pe1 i || n_pb1 i || n_pe2 i || n_pb2 i.
(** number of spectra: T x T; T x (E,B); (E,B) x (E,B); TT,TE,TB,EE,EB,BE,BB *)
Definition nspec (i : minp) : nat :=
  if n_teb i then 7%nat else
  if (n_spin1 i =? 0)%Z then (if (n_spin2 i =? 0)%Z then 1%nat else 2%nat)
  else (if (n_spin2 i =? 0)%Z then 2%nat else 4%nat).
(** element (spectrum r, multipole l) <- (spectrum k, multipole l') of a coupling matrix *)
Definition el (i : minp) (M : mat) (r l k l' : nat) : F := entry2 M (nspec i * l + r) (nspec i * l' + k).
Definition upto (i : minp) (l : nat) : Prop := (Z.of_nat l <= n_lmax i)%Z.
(** the matrix returned by compute_coupling_matrix followed by get_coupling_matrix *)
Definition gives (i : minp) (M : mat) : Prop :=
  exists junk w, mcompute junk i = Ok w /\ get_coupling_matrix (obj w) = Ok M.

(** ** Reduction to the closed form *)
Definition cfg (i : minp) : conf F :=
  Conf (n_lmax i) (n_lmm i) [scaled pi (n_pcl i)] (n_spin1 i) (n_spin2 i) (n_pe1 i) (n_pb1 i) (n_pe2 i) (n_pb2 i)
       (n_teb i) (n_lt i) (n_lex i) (n_dl i).
Lemma ncls_nspec i : c_ncls (cfg i) = nspec i.
Proof. unfold c_ncls, nspec. cbn. destruct (n_teb i), (n_spin1 i =? 0)%Z, (n_spin2 i =? 0)%Z; reflexivity. Qed.
Lemma nspec_pos i : (1 <= nspec i)%nat.
Proof. rewrite <- ncls_nspec. apply ncls_pos. Qed.
Lemma cfg_ok_of i : fields_ok i -> toeplitz_sanity (n_lt i) (n_lex i) (n_dl i) (n_lmax i) (purified i) = Ok tt -> cfg_ok (cfg i).
Proof.
  intros H T. destruct (valid_bins_facts _ (fo_bins i H)) as [_ [_ P]]. fold (n_lmax i) in P.
  constructor; cbn [cfg c_lmax c_lmm c_pcl c_spin1 c_spin2 c_teb c_lt c_lex c_dl].
  - split; [exact P | apply (fo_lmm i H)].
  - intros icc Hi. cbn in Hi. replace icc with 0%nat by lia. cbn [cfg c_pcl nth]. unfold scaled. rewrite length_tab. apply (fo_pcl i H).
  - split; [apply (fo_s1 i H) | apply (fo_s2 i H)].
  - intro Ht. destruct (fo_teb i H Ht) as [? [? _]]. tauto.
  - intro Hp. unfold c_pany in Hp. cbn in Hp. 
    assert (Hp' : (n_pe1 i || n_pb1 i) || (n_pe2 i || n_pb2 i) = true) by (rewrite orb_assoc; exact Hp).
    apply orb_true_iff in Hp'. split.
    + cbn. destruct (n_teb i) eqn:Et; [|reflexivity]. exfalso. destruct (fo_teb i H Et) as [E1 [E2 E3]]. destruct Hp' as [Q|Q]; [|congruence].
      pose proof (fo_p1 i H Q). lia.
    + pose proof (fo_s1 i H). pose proof (fo_s2 i H).
      assert (Et : n_teb i = false).
      { destruct (n_teb i) eqn:Et; [|reflexivity]. exfalso. destruct (fo_teb i H Et) as [E1 [E2 E3]]. destruct Hp' as [Q|Q]; [|congruence].
        pose proof (fo_p1 i H Q). lia. }
      unfold lstart, c_has, c_s1, c_s2. cbn. rewrite Et.
      destruct Hp' as [Q|Q]; [pose proof (fo_p1 i H Q) | pose proof (fo_p2 i H Q)];
        destruct (Z.eqb_spec (n_spin1 i) 0), (Z.eqb_spec (n_spin2 i) 0); try lia; cbn;
        try (destruct (Z.eqb_spec (n_spin1 i) 0)); try (destruct (Z.eqb_spec (n_spin2 i) 0)); cbn; lia.
  - intro Hl. unfold toeplitz_sanity in T. replace (0 <? n_lt i)%Z with true in T by (symmetry; apply Z.ltb_lt; exact Hl).
    unfold c_pany. cbn. fold (purified i). destruct (purified i); [discriminate|].
    destruct (Z.leb_spec (n_lex i) 0); [discriminate|]. destruct (Z.ltb_spec (n_dl i) 0); [discriminate|].
    destruct (Z.ltb_spec (n_lt i) (n_lex i)); [discriminate|]. destruct (Z.leb_spec (n_lmax i) (n_lt i)); [discriminate|].
    split; [reflexivity|]. lia.
Qed.
(** the workspace built from a store of coefficients *)
Definition built (i : minp) (st : store F) : inputs :=
  Inputs (nspec i) (n_teb i) (n_lmax i) (n_lmm i) (n_norm i) (n_w2 i) (scaled pi (n_pcl i)) (n_bin i) (n_b1 i) (n_b2 i)
         (mcm_of (cfg i) (exec (apply_steps (cfg i)) st)).
Lemma built_valid i st : fields_ok i -> valid (built i st).
Proof.
  intro H. unfold valid, built, i_nrows, i_nell. cbn [i_ncls i_bin i_lmaxf i_b1 i_b2 i_mcm].
  pose proof (mcm_square (cfg i) (exec (apply_steps (cfg i)) st)) as S. rewrite ncls_nspec in S. cbn [cfg c_lmax] in S. fold (n_lmax i).
  split; [apply nspec_pos|]. split; [apply (fo_bins i H)|]. split; [unfold n_lmax; lia|]. split; [apply (fo_b1 i H)|]. split; [apply (fo_b2 i H)|].
  exact S.
Qed.
Lemma mcompute_built junk i : fields_ok i -> toeplitz_sanity (n_lt i) (n_lex i) (n_dl i) (n_lmax i) (purified i) = Ok tt ->
  exists st, master fsqrt fexp flog junk w3j (cfg i) = Ok st /\ mcompute junk i = Ok (mk (built i st)).
Proof.
  intros H T. pose proof (cfg_ok_of i H T) as C. destruct (master_ok fsqrt fexp flog junk w3j (cfg i) C) as [st [E _]].
  exists st. split; [exact E|]. unfold mcompute. fold (purified i). rewrite T. cbn [bind]. unfold comp_coupling_matrix.
  rewrite (fo_b1 i H), (fo_b2 i H), (fo_pcl i H), !Z.eqb_refl. cbn [guard bind].
  assert (G : negb (n_teb i) || ((n_spin1 i =? 0)%Z && negb (n_spin2 i =? 0)%Z) = true).
  { destruct (n_teb i) eqn:Et; [|reflexivity]. destruct (fo_teb i H Et) as [-> [E2 _]]. cbn. apply Z.eqb_neq in E2. rewrite E2. reflexivity. }
  rewrite G. cbn [guard bind]. fold (n_lmax i). rewrite Z.ltb_irrefl. fold (cfg i). rewrite E. cbn [bind].
  rewrite run_ok.
  - cbn [bind]. pose proof (compute_ok (built i st) (built_valid i st H)) as B. unfold compute in B.
    cbn [i_ncls i_bin i_lmaxf i_b1 i_b2 i_mcm i_teb i_lmaxm i_norm i_w2 i_pcl built] in B. rewrite ncls_nspec. exact B.
  - intros s Hs. apply apply_ok; [cbn; lia | | exact Hs]. apply (table_ok_cfg fsqrt fexp flog); [exact C| |]; cbn.
    + intro E1. pose proof (fo_p1 i H) as P. destruct (n_pe1 i), (n_pb1 i); cbn in P; try (split; reflexivity); specialize (P eq_refl); lia.
    + intro E1. pose proof (fo_p2 i H) as P. destruct (n_pe2 i), (n_pb2 i); cbn in P; try (split; reflexivity); specialize (P eq_refl); lia.
Qed.
Lemma get_inv (i : inputs (F:=F)) M : valid i -> get_coupling_matrix (obj (mk i)) = Ok M -> M = i_mcm i.
Proof.
  intros V E. destruct (Z_le_dec ((Z.of_nat (i_nrows i) - 1) * Z.of_nat (i_nrows i)) 2147483647) as [L|L].
  - rewrite get_mk in E by assumption. congruence.
  - exfalso. rewrite (C16_get_overflows i (mk i)) in E; [discriminate | exact V | apply compute_ok; exact V|]. nia.
Qed.
Lemma gives_inv i M : fields_ok i -> gives i M ->
  toeplitz_sanity (n_lt i) (n_lex i) (n_dl i) (n_lmax i) (purified i) = Ok tt /\
  exists junk st, master fsqrt fexp flog junk w3j (cfg i) = Ok st /\ M = mcm_of (cfg i) (exec (apply_steps (cfg i)) st).
Proof.
  intros H [junk [w [E G]]]. assert (T : toeplitz_sanity (n_lt i) (n_lex i) (n_dl i) (n_lmax i) (purified i) = Ok tt).
  { unfold mcompute in E. fold (purified i) in E. destruct (toeplitz_sanity _ _ _ _ _) as [[]| |]; [reflexivity | discriminate | discriminate]. }
  split; [exact T|]. destruct (mcompute_built junk i H T) as [st [Em Eb]]. exists junk, st. split; [exact Em|].
  rewrite Eb in E. injection E as <-. apply (get_inv (built i st)) in G; [exact G | apply built_valid; exact H].
Qed.
(** every element, for some values of the coefficients *)
Lemma gives_el i M : fields_ok i -> gives i M ->
  exists junk (xi : fam -> nat -> Z -> Z -> F),
    (forall r l k l', (r < nspec i)%nat -> (k < nspec i)%nat -> upto i l -> upto i l' ->
       el i M r l k l' = fofZ (2 * Z.of_nat l' + 1) * sign_overall (cfg i) * tabv (cfg i) r k (fun a ip => xi a ip (Z.of_nat l) (Z.of_nat l'))) /\
    (purified i = false -> forall a x y, xi a 0%nat x y = xi a 0%nat y x) /\
    (forall a ip x y, c_has (cfg i) a = true -> (ip < c_np (cfg i) a)%nat ->
       ((n_lt i <= 0)%Z \/ (computed (cfg i) x y = true /\ in_corner (cfg i) x y = false)) ->
       xi a ip x y = xi_of fsqrt fexp flog junk w3j (cfg i) a 0 ip x y).
Proof.
  intros H G. destruct (gives_inv i M H G) as [T [junk [st [E ->]]]]. pose proof (cfg_ok_of i H T) as C.
  destruct (master_ok fsqrt fexp flog junk w3j (cfg i) C) as [st' [E' [W0 [Sy V]]]]. rewrite E in E'. injection E' as <-.
  exists junk, (fun a ip x y => st (CX a 0 ip x y)). split; [|split].
  - intros r l k l' Hr Hk Hl Hl'. unfold el. rewrite <- ncls_nspec. apply (mcm_entry flog junk w3j); try (rewrite ncls_nspec; assumption); assumption.
  - intros Hp a x y. apply Sy. exact Hp.
  - intros a ip x y Ha Hip Hc. apply V; try assumption. cbn. lia.
Qed.
(** the factor of the spherical-harmonic convention *)
Lemma tabv_ext (c : conf F) r k f g : (forall a ip, f a ip = g a ip) -> tabv c r k f = tabv c r k g.
Proof. intro H. unfold tabv. apply lsum_ext. intros [[[[r' k'] sg] a] ip] _. rewrite H. reflexivity. Qed.

(** ** C28 *)
(** the calculation never reads a 3j buffer, a mask spectrum or a coefficient outside its array or
    before it has been written, and never raises *)
Theorem C28_no_undefined_behaviour junk i : fields_ok i ->
  toeplitz_sanity (n_lt i) (n_lex i) (n_dl i) (n_lmax i) (purified i) = Ok tt -> exists w, mcompute junk i = Ok w.
Proof. intros H T. destruct (mcompute_built junk i H T) as [st [_ E]]. eauto. Qed.
(** whatever lies in memory next to the table of log-factorials does not influence the result *)
Theorem C28_table_neighbours_irrelevant junk junk' i : fields_ok i -> mcompute junk i = mcompute junk' i.
Proof.
  intro H. unfold mcompute. fold (purified i). destruct (toeplitz_sanity _ _ _ _ _) as [[]| |] eqn:T; cbn [bind]; [|reflexivity|reflexivity].
  unfold comp_coupling_matrix. fold (n_lmax i). fold (cfg i). rewrite (master_junk fsqrt fexp flog w3j junk junk') by (apply cfg_ok_of; assumption). reflexivity.
Qed.
(** but positions past its end are read whenever lmax >= 2 and lmax_mask < 4/3 lmax - 2/3 *)
Theorem C28_table_overrun_refuted i : fields_ok i -> n_spin1 i = 0%Z -> n_spin2 i = 0%Z -> (2 <= n_lmax i)%Z -> (3 * n_lmm i + 2 <= 4 * n_lmax i)%Z ->
  exists l2 l3 l1 k, (0 <= l2 <= n_lmax i)%Z /\ (0 <= l3 <= n_lmax i)%Z /\ (Z.abs (l2 - l3) <= l1 <= l2 + l3)%Z /\
    In k (w000_reads l2 l3 l1) /\ lfac_in (cfg i) k = false.
Proof.
  intros H _ _ H2 Hm. pose proof (fo_lmm i H). exists (n_lmax i), (n_lmax i), (2 * n_lmax i)%Z, (2 * n_lmax i + n_lmax i + n_lmax i + 1)%Z.
  split; [lia|]. split; [lia|]. split; [lia|]. split.
  - unfold w000_reads. replace (n_lmax i + n_lmax i =? Z.abs (n_lmax i - n_lmax i))%Z with false by (symmetry; apply Z.eqb_neq; lia).
    replace (2 * n_lmax i + n_lmax i + n_lmax i)%Z with (2 * (2 * n_lmax i))%Z by lia. rewrite Z.odd_mul. cbn [Z.odd andb In]. tauto.
  - unfold lfac_in, lfac_size. cbn [cfg c_lmax c_lmm]. apply andb_false_iff. right. apply Z.ltb_ge. lia.
Qed.

(** ** C20 *)
Ltac table_eq i := unfold tabv, table; rewrite ncls_nspec; unfold nspec.
Lemma spins_1 i : n_teb i = false -> n_spin1 i = 0%Z -> n_spin2 i = 0%Z -> nspec i = 1%nat.
Proof. intros T E1 E2. unfold nspec. rewrite T, E1, E2. reflexivity. Qed.
Lemma spins_2 i : n_teb i = false -> (n_spin1 i = 0%Z /\ n_spin2 i <> 0%Z) \/ (n_spin1 i <> 0%Z /\ n_spin2 i = 0%Z) -> nspec i = 2%nat.
Proof.
  intros T [[E1 E2]|[E1 E2]]; unfold nspec; rewrite T; [rewrite E1 | rewrite E2]; cbn.
  - destruct (Z.eqb_spec (n_spin2 i) 0); [contradiction | reflexivity].
  - destruct (Z.eqb_spec (n_spin1 i) 0); [contradiction | reflexivity].
Qed.
Lemma spins_4 i : n_teb i = false -> n_spin1 i <> 0%Z -> n_spin2 i <> 0%Z -> nspec i = 4%nat.
Proof.
  intros T E1 E2. unfold nspec. rewrite T. destruct (Z.eqb_spec (n_spin1 i) 0); [contradiction|].
  destruct (Z.eqb_spec (n_spin2 i) 0); [contradiction | reflexivity].
Qed.
Lemma unpure i : purified i = false -> n_pe1 i = false /\ n_pb1 i = false /\ n_pe2 i = false /\ n_pb2 i = false.
Proof. unfold purified. rewrite !orb_false_iff. tauto. Qed.
Definition one_spin0 (i : minp) : Prop := (n_spin1 i = 0%Z /\ n_spin2 i <> 0%Z) \/ (n_spin1 i <> 0%Z /\ n_spin2 i = 0%Z).

(** spin-0 x spin-s: E and B are never mixed; without purification they are treated alike *)
Theorem C20_spin0_spinS i M l l' : fields_ok i -> gives i M -> n_teb i = false -> one_spin0 i -> upto i l -> upto i l' ->
  el i M 0 l 1 l' = 0 /\ el i M 1 l 0 l' = 0 /\ (purified i = false -> el i M 0 l 0 l' = el i M 1 l 1 l').
Proof.
  intros H G T S Hl Hl'. destruct (gives_el i M H G) as [junk [xi [V _]]]. pose proof (spins_2 i T S) as N.
  assert (V' : forall r k, (r < 2)%nat -> (k < 2)%nat -> el i M r l k l' = _) by (intros r k Hr Hk; apply V; rewrite ?N; assumption).
  rewrite !V' by lia. unfold tabv, table. rewrite ncls_nspec, N. split; [|split].
  - cbn. ring.
  - cbn. ring.
  - intro P. destruct (unpure i P) as [P1 [P2 [P3 P4]]]. cbn. rewrite P1, P2, P3, P4. cbn. ring.
Qed.
(** spin-s x spin-s': the eight blocks that would mix parities vanish *)
Theorem C20_spinS_spinS_zeros i M l l' : fields_ok i -> gives i M -> n_teb i = false -> n_spin1 i <> 0%Z -> n_spin2 i <> 0%Z -> upto i l -> upto i l' ->
  forall r k, In (r, k) [(0, 1); (0, 2); (1, 0); (1, 3); (2, 0); (2, 3); (3, 1); (3, 2)]%nat -> el i M r l k l' = 0.
Proof.
  intros H G T S1 S2 Hl Hl' r k Hin. destruct (gives_el i M H G) as [junk [xi [V _]]]. pose proof (spins_4 i T S1 S2) as N.
  assert (Hrk : (r < 4)%nat /\ (k < 4)%nat).
  { cbn in Hin. repeat (destruct Hin as [Hin|Hin]; [injection Hin as <- <-; lia|]). destruct Hin. }
  rewrite V by (rewrite ?N; tauto || assumption). unfold tabv, table. rewrite ncls_nspec, N.
  cbn in Hin. repeat (destruct Hin as [Hin|Hin]; [injection Hin as <- <-; cbn; ring|]). destruct Hin.
Qed.
(** ... and without purification the remaining ones satisfy the documented identities *)
Theorem C20_spinS_spinS_symmetry i M l l' : fields_ok i -> gives i M -> n_teb i = false -> purified i = false ->
  n_spin1 i <> 0%Z -> n_spin2 i <> 0%Z -> upto i l -> upto i l' ->
  let b r k := el i M r l k l' in
  b 3%nat 3%nat = b 0%nat 0%nat /\ b 1%nat 1%nat = b 0%nat 0%nat /\ b 2%nat 2%nat = b 0%nat 0%nat /\
  b 3%nat 0%nat = b 0%nat 3%nat /\ b 1%nat 2%nat = - b 0%nat 3%nat /\ b 2%nat 1%nat = - b 0%nat 3%nat.
Proof.
  intros H G T P S1 S2 Hl Hl'. destruct (gives_el i M H G) as [junk [xi [V _]]]. pose proof (spins_4 i T S1 S2) as N. cbv beta zeta.
  assert (V' : forall r k, (r < 4)%nat -> (k < 4)%nat -> el i M r l k l' = _) by (intros r k Hr Hk; apply V; rewrite ?N; assumption).
  rewrite !V' by lia. destruct (unpure i P) as [P1 [P2 [P3 P4]]].
  unfold tabv, table. rewrite ncls_nspec, N. cbn. rewrite P1, P2, P3, P4. cbn. repeat split; ring.
Qed.

(** ** C21 *)
Theorem C21_symmetric_up_to_2l1 i M r k l l' : fields_ok i -> gives i M -> purified i = false ->
  (r < nspec i)%nat -> (k < nspec i)%nat -> upto i l -> upto i l' ->
  fofZ (2 * Z.of_nat l + 1) * el i M r l k l' = fofZ (2 * Z.of_nat l' + 1) * el i M r l' k l.
Proof.
  intros H G P Hr Hk Hl Hl'. destruct (gives_el i M H G) as [junk [xi [V [S _]]]]. rewrite !V by assumption.
  assert (E : tabv (cfg i) r k (fun a ip => xi a ip (Z.of_nat l) (Z.of_nat l')) = tabv (cfg i) r k (fun a ip => xi a ip (Z.of_nat l') (Z.of_nat l))).
  { unfold tabv. apply lsum_ext. intros [[[[r' k'] sg] a] ip] Hin. assert (ip = 0%nat) as ->.
    { destruct (unpure i P) as [P1 [P2 [P3 P4]]]. unfold table in Hin. cbn in Hin. rewrite P1, P2, P3, P4 in Hin.
      destruct (c_ncls (cfg i)) as [|[|[|[|[|[|[|[|n]]]]]]]]; cbn in Hin;
        repeat (destruct Hin as [Hin|Hin]; [injection Hin; intros; subst; reflexivity|]); destruct Hin. }
    rewrite (S P a (Z.of_nat l) (Z.of_nat l')). reflexivity. }
  rewrite E. ring.
Qed.

(** ** The exact coefficients as sums over all multipoles of the mask *)
Lemma lsum_support (f : Z -> F) (L : list Z) N : NoDup L -> (forall z, In z L -> (0 <= z < Z.of_nat N)%Z) ->
  lsum (map f L) = sum N (fun j => if existsb (Z.eqb (Z.of_nat j)) L then f (Z.of_nat j) else 0).
Proof.
  intros ND HB. induction L as [|a L IH].
  - cbn [existsb map lsum fold_right]. symmetry. apply sum_zero. reflexivity.
  - inversion ND as [|? ? N1 N2]; subst. rewrite lsum_cons, IH; [|exact N2 | intros z Hz; apply HB; right; exact Hz].
    assert (Ha := HB a (or_introl eq_refl)).
    pose proof (sum_kron' N (Z.to_nat a) (fun j => f (Z.of_nat j)) ltac:(lia)) as K. cbv beta in K. rewrite Z2Nat.id in K by lia.
    rewrite <- K, <- sum_add. apply sum_ext. intros j Hj. cbn [existsb]. unfold kron. specialize (HB a (or_introl eq_refl)).
    destruct (Z.eqb_spec (Z.of_nat j) a) as [E|E].
    + rewrite <- E, Nat2Z.id, Nat.eqb_refl. cbn [orb].
      destruct (existsb (Z.eqb (Z.of_nat j)) L) eqn:EX; [|ring]. exfalso. apply existsb_exists in EX. destruct EX as [z [Hz Ez]].
      apply Z.eqb_eq in Ez. apply N1. rewrite <- E, Ez. exact Hz.
    + destruct (Nat.eqb_spec (Z.to_nat a) j) as [Q|Q]; [lia|]. cbn [orb]. ring.
Qed.
Definition tri (l l' l1 : Z) : bool := ((Z.abs (l - l') <=? l1) && (l1 <=? l + l'))%Z.
Lemma XI_sum junk (c : conf F) pure a icc ip l2 l3 : (0 <= c_lmm c)%Z -> 
  XI fsqrt fexp flog junk w3j c pure a icc ip l2 l3
  = sum (Z.to_nat (c_lmm c + 1)) (fun l1 => if tri l2 l3 (Z.of_nat l1) then pcl_at c icc (Z.of_nat l1) * coef fsqrt fexp flog junk w3j c pure a ip l2 l3 (Z.of_nat l1) else 0).
Proof.
  intro H. unfold XI. rewrite (lsum_support _ _ (Z.to_nat (c_lmm c + 1))).
  - apply sum_ext. intros j Hj.
    replace (existsb (Z.eqb (Z.of_nat j)) (l1s c l2 l3)) with (tri l2 l3 (Z.of_nat j)); [reflexivity|].
    apply eq_true_iff_eq. unfold tri. rewrite existsb_exists, andb_true_iff, !Z.leb_le. unfold l1s. split.
    + intro Q. exists (Z.of_nat j). split; [|apply Z.eqb_refl]. apply filter_In. split; [apply in_zrange; lia | apply Z.leb_le; lia].
    + intros [z [Hz Ez]]. apply Z.eqb_eq in Ez. subst z. apply filter_In in Hz. destruct Hz as [Hz _]. apply in_zrange in Hz. lia.
  - unfold l1s. apply NoDup_filter, NoDup_zrange.
  - intros z Hz. unfold l1s in Hz. apply filter_In in Hz. destruct Hz as [Hz Hm]. apply in_zrange in Hz. apply Z.leb_le in Hm. lia.
Qed.
(** (2 l1 + 1) C_l1 / 4 pi *)
Definition pmask (i : minp) (l1 : nat) : F := nth l1 (n_pcl i) 0 * fofnat (2 * l1 + 1) / ((1 + 1 + 1 + 1) * pi).
Lemma pcl_at_pmask i l1 : fields_ok i -> (l1 < Z.to_nat (n_lmm i + 1))%nat -> pcl_at (cfg i) 0 (Z.of_nat l1) = pmask i l1.
Proof.
  intros H Hl. unfold pcl_at. cbn [cfg c_pcl nth]. rewrite Nat2Z.id. unfold scaled. pose proof (fo_pcl i H). rewrite nth_tab by lia. reflexivity.
Qed.
Definition msum (i : minp) (f : Z -> F) : F := sum (Z.to_nat (n_lmm i + 1)) (fun l1 => pmask i l1 * f (Z.of_nat l1)).
Lemma msum_ext i f g : (forall l1, (0 <= l1 <= n_lmm i)%Z -> f l1 = g l1) -> msum i f = msum i g.
Proof. intro H. unfold msum. apply sum_ext. intros j Hj. rewrite H by lia. reflexivity. Qed.
Lemma xi_msum junk i a ip x y : fields_ok i -> xi_of fsqrt fexp flog junk w3j (cfg i) a 0 ip x y
  = if computed (cfg i) x y then
      let '(p, q) := key (cfg i) x y in msum i (fun l1 => if tri p q l1 then coef fsqrt fexp flog junk w3j (cfg i) (purified i) a ip p q l1 else 0)
    else 0.
Proof.
  intro H. unfold xi_of. destruct (computed (cfg i) x y); [|reflexivity]. destruct (key (cfg i) x y) as [p q]. cbn [fst snd].
  destruct (valid_bins_facts _ (fo_bins i H)) as [_ [_ P]]. pose proof (fo_lmm i H). unfold n_lmax in *.
  rewrite XI_sum by (cbn; lia). unfold msum. apply sum_ext. intros j Hj. cbn [cfg c_lmm] in Hj. rewrite pcl_at_pmask by assumption.
  destruct (tri p q (Z.of_nat j)); [reflexivity | ring].
Qed.
(** all elements of a matrix computed without the Toeplitz approximation *)
Lemma exact_el i M : fields_ok i -> gives i M -> (n_lt i <= 0)%Z -> exists junk,
  forall r l k l', (r < nspec i)%nat -> (k < nspec i)%nat -> upto i l -> upto i l' ->
    el i M r l k l' = fofZ (2 * Z.of_nat l' + 1) * sign_overall (cfg i) * tabv (cfg i) r k (fun a ip =>
      if computed (cfg i) (Z.of_nat l) (Z.of_nat l') then
        let '(p, q) := key (cfg i) (Z.of_nat l) (Z.of_nat l') in
        msum i (fun l1 => if tri p q l1 then coef fsqrt fexp flog junk w3j (cfg i) (purified i) a ip p q l1 else 0)
      else 0).
Proof.
  intros H G T. destruct (gives_inv i M H G) as [TS _]. pose proof (cfg_ok_of i H TS) as C.
  destruct (gives_el i M H G) as [junk [xi [V [_ X]]]]. exists junk. intros r l k l' Hr Hk Hl Hl'. rewrite V by assumption. f_equal.
  assert (TO : table_ok (cfg i)).
  { apply (table_ok_cfg fsqrt fexp flog); [exact C| |]; cbn.
    + intro E1. pose proof (fo_p1 i H) as P. destruct (n_pe1 i), (n_pb1 i); cbn in P; try (split; reflexivity); specialize (P eq_refl); lia.
    + intro E1. pose proof (fo_p2 i H) as P. destruct (n_pe2 i), (n_pb2 i); cbn in P; try (split; reflexivity); specialize (P eq_refl); lia. }
  unfold tabv. apply lsum_ext. intros [[[[r' k'] sg] a] ip] Hin. apply TO in Hin. destruct Hin as [Ha Hip].
  rewrite X by (try assumption; left; exact T). rewrite xi_msum by exact H. reflexivity.
Qed.
(** ** The formulae implemented (C20, C22-C24) *)
Definition eps (z : Z) : F := if Z.odd z then - (1) else 1.
(** (l l' l1; s -s 0), zero when a triangle or |m| <= l condition fails *)
Definition J3 (s l l' l1 : Z) : F := if tri l l' l1 && (s <=? l)%Z && (s <=? l')%Z then w3j l l' s (- s) l1 else 0.
(** ln n! *)
Definition lnfac (n : Z) : F := lsum (map (fun k => flog (fofnat k)) (seq 2 (Z.to_nat n - 1))).
(** (l l' l1; 0 0 0) *)
Definition J0 (l l' l1 : Z) : F :=
  if tri l l' l1 then
    if (Z.min l l' =? 0)%Z then eps l1 / fsqrt (fofZ (l1 + l + l' + 1))
    else if Z.odd (l1 + l + l') then 0
    else let J := (l1 + l + l')%Z in let g := (J / 2)%Z in
      eps g * fexp (1 / (1 + 1) * (lnfac (J - 2 * l1) + lnfac (J - 2 * l) + lnfac (J - 2 * l') - lnfac (J + 1))
                    + (lnfac g - lnfac (g - l1) - lnfac (g - l) - lnfac (g - l')))
  else 0.
(** the combination of 3j symbols of a purified component *)
Definition Jp (l l' l1 : Z) : F :=
  J3 2 l l' l1
  + (if tri l l' l1 && (1 <=? l1)%Z then (1 + 1) * fsqrt (fofZ ((l1 + 1) * l1) / fofZ ((l + 2) * (l - 1))) * w3j l l' 1 (-2) l1 else 0)
  + (if tri l l' l1 && (2 <=? l1)%Z then
       fsqrt (fofZ ((l1 + 2) * (l1 + 1) * l1 * (l1 - 1)) / fofZ ((l + 2) * (l + 1) * l * (l - 1))) * w3j l l' 0 (-2) l1 else 0).
Definition even (l l' l1 : Z) : F := if Z.odd (l1 + l + l') then 0 else 1.
Definition odd (l l' l1 : Z) : F := if Z.odd (l1 + l + l') then 1 else 0.

Lemma lfac_lnfac n : lfac flog n = lnfac (Z.of_nat n).
Proof.
  unfold lnfac. rewrite Nat2Z.id. induction n as [|n IH]; [reflexivity|]. destruct n as [|n]; [reflexivity|].
  change (lfac flog (S (S n))) with (lfac flog (S n) + flog (fofnat (S (S n)))). rewrite IH.
  replace (S (S n) - 1)%nat with (S (S n - 1)) by lia. rewrite seq_S, map_app, lsum_app. cbn [map lsum fold_right].
  replace (2 + (S n - 1))%nat with (S (S n)) by lia. ring.
Qed.
Lemma w000_J0 junk (c : conf F) l2 l3 l1 : (0 <= l2 <= c_lmax c)%Z -> (0 <= l3 <= c_lmax c)%Z -> tri l2 l3 l1 = true -> (l1 <= c_lmm c)%Z ->
  w000 fsqrt fexp flog junk c l2 l3 l1 = J0 l2 l3 l1.
Proof.
  intros H2 H3 Ht Hm. assert (Ht' := Ht). unfold tri in Ht'. apply andb_true_iff in Ht'. rewrite !Z.leb_le in Ht'.
  pose proof (w000_in_table c l2 l3 l1 H2 H3 Ht' Hm) as R. unfold w000, J0. rewrite Ht. unfold w000_reads in R.
  replace (l2 + l3 =? Z.abs (l2 - l3))%Z with (Z.min l2 l3 =? 0)%Z in * by (apply eq_true_iff_eq; rewrite !Z.eqb_eq; lia).
  change (@sgn F) with eps.
  destruct (Z.min l2 l3 =? 0)%Z; [reflexivity|]. destruct (Z.odd (l1 + l2 + l3)); [reflexivity|].
  unfold lfac_rd. rewrite !R by (cbn [In]; tauto). rewrite !lfac_lnfac.
  assert (G : forall i, lfac_in c i = true -> Z.of_nat (Z.to_nat i) = i).
  { intros k Hk. unfold lfac_in in Hk. apply andb_true_iff in Hk. rewrite Z.leb_le in Hk. lia. }
  rewrite !G by (apply R; cbn [In]; tauto). reflexivity.
Qed.
Lemma g3j_J3 s l2 l3 l1 : (0 <= s)%Z -> tri l2 l3 l1 = true -> g3j w3j l2 l3 s (- s) l1 = J3 s l2 l3 l1.
Proof.
  intros Hs Ht. unfold g3j, J3. rewrite Ht. cbn [andb].
  destruct (Z.leb_spec s l2), (Z.leb_spec s l3); cbn [andb];
    destruct (Z.ltb_spec (l2 - Z.abs s) 0), (Z.ltb_spec (l3 - Z.abs (- s)) 0); cbn [orb]; try lia; reflexivity.
Qed.

(** which families a pair of spins uses *)
Lemma spin_facts i : fields_ok i -> n_teb i = false ->
  (n_spin1 i = 0%Z /\ n_spin2 i = 0%Z -> (forall a, c_has (cfg i) a = fam_eqb a K00) /\ lstart (cfg i) = 0%Z) /\
  (one_spin0 i -> (forall a, c_has (cfg i) a = fam_eqb a K0s) /\ c_s1 (cfg i) = (n_spin1 i + n_spin2 i)%Z /\ has_ss2 (cfg i) = false /\ lstart (cfg i) = (n_spin1 i + n_spin2 i)%Z) /\
  (n_spin1 i <> 0%Z /\ n_spin2 i <> 0%Z -> (forall a, c_has (cfg i) a = fam_eqb a Kpp || fam_eqb a Kmm) /\
     c_s1 (cfg i) = n_spin1 i /\ c_s2 (cfg i) = n_spin2 i /\ has_ss2 (cfg i) = negb (n_spin1 i =? n_spin2 i)%Z /\ lstart (cfg i) = Z.max (n_spin1 i) (n_spin2 i)).
Proof.
  intros H T. pose proof (fo_s1 i H). pose proof (fo_s2 i H). unfold lstart, has_ss2, c_has, c_s1, c_s2. cbn [cfg c_spin1 c_spin2 c_teb]. rewrite T.
  split; [|split].
  - intros [-> ->]. cbn. split; [|reflexivity]. intros []; reflexivity.
  - intros [[E1 E2]|[E1 E2]].
    + rewrite E1. apply Z.eqb_neq in E2. change (0 =? 0)%Z with true. repeat rewrite E2. cbv iota. repeat rewrite E2. cbn [negb andb orb].
      split; [intros []; reflexivity|]. repeat split; lia.
    + rewrite E2. apply Z.eqb_neq in E1. change (0 =? 0)%Z with true. repeat rewrite E1. cbv iota. repeat rewrite E1. cbn [negb andb orb].
      split; [intros []; reflexivity|]. repeat split; lia.
  - intros [E1 E2]. apply Z.eqb_neq in E1. apply Z.eqb_neq in E2. repeat rewrite E1. cbv iota. repeat rewrite E1. repeat rewrite E2. cbn [negb andb orb].
    split; [intros []; reflexivity|]. repeat split; reflexivity.
Qed.
Lemma teb_facts i : fields_ok i -> n_teb i = true ->
  (forall a, c_has (cfg i) a = true) /\ c_s1 (cfg i) = n_spin2 i /\ has_ss2 (cfg i) = false /\ lstart (cfg i) = 0%Z.
Proof.
  intros H T. destruct (fo_teb i H T) as [E1 [E2 _]]. unfold lstart, has_ss2, c_has, c_s1, c_s2. cbn [cfg c_spin1 c_spin2 c_teb]. rewrite T, E1.
  cbn [Z.eqb negb andb]. destruct (Z.eqb_spec (n_spin2 i) 0); [contradiction|]. rewrite andb_false_r. cbn [andb]. auto.
Qed.
Lemma computed_sym i x y : purified i = false -> (x <= y)%Z -> (y <= n_lmax i)%Z -> (n_lt i <= 0)%Z ->
  key (cfg i) x y = (x, y) /\ computed (cfg i) x y = (lstart (cfg i) <=? x)%Z.
Proof.
  intros P Hxy Hy Ht. assert (K : key (cfg i) x y = (x, y)).
  { unfold key, c_pany. cbn. fold (purified i). rewrite P. f_equal; lia. }
  split; [exact K|]. unfold computed. rewrite K. apply eq_true_iff_eq. rewrite !andb_true_iff, !Z.leb_le. unfold lend. cbn [cfg c_lmax c_lt] in *.
  replace (0 <? n_lt i)%Z with false by (symmetry; apply Z.ltb_ge; exact Ht). lia.
Qed.
Lemma sign_eps i : sign_overall (cfg i) = eps (n_spin1 i + n_spin2 i).
Proof. reflexivity. Qed.

(** spin 0 x spin 0 *)
Theorem C20_formula_00 i M l l' : fields_ok i -> gives i M -> (n_lt i <= 0)%Z -> n_teb i = false -> n_spin1 i = 0%Z -> n_spin2 i = 0%Z ->
  (l <= l')%nat -> upto i l' ->
  el i M 0 l 0 l' = fofZ (2 * Z.of_nat l' + 1) * msum i (fun l1 => J0 (Z.of_nat l) (Z.of_nat l') l1 * J0 (Z.of_nat l) (Z.of_nat l') l1).
Proof.
  intros H G T Te S1 S2 Hl Hl'. destruct (exact_el i M H G T) as [junk V]. unfold upto in *.
  assert (P : purified i = false).
  { unfold purified. rewrite <- orb_assoc. destruct (n_pe1 i || n_pb1 i) eqn:E1; [pose proof (fo_p1 i H E1); lia|].
    destruct (n_pe2 i || n_pb2 i) eqn:E2; [pose proof (fo_p2 i H E2); lia | reflexivity]. }
  pose proof (spins_1 i Te S1 S2) as N. destruct (spin_facts i H Te) as [[Ha HL] _]; [auto|].
  rewrite V by (rewrite ?N; unfold upto; lia).
  destruct (computed_sym i (Z.of_nat l) (Z.of_nat l') P ltac:(lia) Hl' T) as [K C]. rewrite K, C, HL.
  replace (0 <=? Z.of_nat l)%Z with true by (symmetry; apply Z.leb_le; lia).
  unfold tabv, table. rewrite ncls_nspec, N. cbn [map Nat.eqb andb lsum fold_right]. rewrite sign_eps, S1, S2. cbn [eps Z.add Z.odd].
  rewrite P.
  replace (msum i (fun l1 => if tri (Z.of_nat l) (Z.of_nat l') l1 then coef fsqrt fexp flog junk w3j (cfg i) false K00 0 (Z.of_nat l) (Z.of_nat l') l1 else 0))
    with (msum i (fun l1 => J0 (Z.of_nat l) (Z.of_nat l') l1 * J0 (Z.of_nat l) (Z.of_nat l') l1)); [unfold eps; cbn; ring|].
  apply msum_ext. intros l1 Hl1. destruct (tri (Z.of_nat l) (Z.of_nat l') l1) eqn:Et; [|unfold J0; rewrite Et; ring].
  unfold coef. rewrite Ha. cbn [fam_eqb negb]. unfold wv. cbn [v_00]. unfold W00. rewrite !Ha. cbn [fam_eqb orb].
  rewrite w000_J0; [reflexivity | cbn; lia | cbn; lia | exact Et | cbn; lia].
Qed.
(** spin 0 x spin s *)
Theorem C20_formula_0s i M l l' r : fields_ok i -> gives i M -> (n_lt i <= 0)%Z -> n_teb i = false -> one_spin0 i -> purified i = false ->
  (l <= l')%nat -> upto i l' -> (r < 2)%nat ->
  let s := (n_spin1 i + n_spin2 i)%Z in
  el i M r l r l' = eps s * fofZ (2 * Z.of_nat l' + 1) * msum i (fun l1 => J3 s (Z.of_nat l) (Z.of_nat l') l1 * J0 (Z.of_nat l) (Z.of_nat l') l1).
Proof.
  intros H G T Te S P Hl Hl' Hr s. destruct (exact_el i M H G T) as [junk V]. unfold upto in *.
  pose proof (spins_2 i Te S) as N. destruct (spin_facts i H Te) as [_ [SF _]]. destruct (SF S) as [Ha [HS [HS2 HL]]]. fold s in HS, HL.
  assert (Hs : (0 <= s)%Z) by (pose proof (fo_s1 i H); pose proof (fo_s2 i H); unfold s; lia).
  rewrite V by (rewrite ?N; unfold upto; lia).
  destruct (computed_sym i (Z.of_nat l) (Z.of_nat l') P ltac:(lia) Hl' T) as [K C]. rewrite K, C, HL. rewrite sign_eps. fold s.
  destruct (unpure i P) as [P1 [P2 [P3 P4]]].
  assert (E : (if (s <=? Z.of_nat l)%Z then msum i (fun l1 => if tri (Z.of_nat l) (Z.of_nat l') l1 then coef fsqrt fexp flog junk w3j (cfg i) (purified i) K0s 0 (Z.of_nat l) (Z.of_nat l') l1 else 0) else 0)
          = msum i (fun l1 => J3 s (Z.of_nat l) (Z.of_nat l') l1 * J0 (Z.of_nat l) (Z.of_nat l') l1)).
  { destruct (Z.leb_spec s (Z.of_nat l)) as [L|L].
    - apply msum_ext. intros l1 Hl1. destruct (tri (Z.of_nat l) (Z.of_nat l') l1) eqn:Et; [|unfold J0; rewrite Et; ring].
      unfold coef. rewrite Ha. cbn [fam_eqb negb]. unfold wv. cbn [v_00 v_ss1]. unfold W00, Ws1, Wss. rewrite !Ha. cbn [fam_eqb orb].
      rewrite w000_J0; [|cbn; lia | cbn; lia | exact Et | cbn; lia]. rewrite HS, g3j_J3 by assumption. reflexivity.
    - symmetry. unfold msum. apply sum_zero. intros j _. unfold J3. replace (s <=? Z.of_nat l)%Z with false by (symmetry; apply Z.leb_gt; exact L).
      rewrite andb_false_r. cbn [andb]. ring. }
  unfold tabv, table. rewrite ncls_nspec, N. cbn [cfg c_pe1 c_pe2 c_pb1 c_pb2]. rewrite P1, P2, P3, P4. cbn [b2n Nat.add].
  rewrite <- E. destruct r as [|[|r]]; [| |lia]; cbn [map Nat.eqb andb lsum fold_right]; ring.
Qed.
(** spin s x spin s' without purification *)
Theorem C20_formula_ss i M l l' : fields_ok i -> gives i M -> (n_lt i <= 0)%Z -> n_teb i = false -> n_spin1 i <> 0%Z -> n_spin2 i <> 0%Z -> purified i = false ->
  (l <= l')%nat -> upto i l' ->
  let fac := eps (n_spin1 i + n_spin2 i) * fofZ (2 * Z.of_nat l' + 1) in
  let JJ l1 := J3 (n_spin1 i) (Z.of_nat l) (Z.of_nat l') l1 * J3 (n_spin2 i) (Z.of_nat l) (Z.of_nat l') l1 in
  el i M 0 l 0 l' = fac * msum i (fun l1 => even (Z.of_nat l) (Z.of_nat l') l1 * JJ l1) /\
  el i M 0 l 3 l' = fac * msum i (fun l1 => odd (Z.of_nat l) (Z.of_nat l') l1 * JJ l1).
Proof.
  intros H G T Te S1 S2 P Hl Hl' fac JJ. destruct (exact_el i M H G T) as [junk V]. unfold upto in *.
  pose proof (spins_4 i Te S1 S2) as N. destruct (spin_facts i H Te) as [_ [_ SF]]. destruct (SF (conj S1 S2)) as [Ha [HS [HS' [HS2 HL]]]].
  pose proof (fo_s1 i H) as Q1. pose proof (fo_s2 i H) as Q2.
  rewrite !V by (rewrite ?N; unfold upto; lia).
  destruct (computed_sym i (Z.of_nat l) (Z.of_nat l') P ltac:(lia) Hl' T) as [K C]. rewrite K, C, HL. rewrite sign_eps.
  destruct (unpure i P) as [P1 [P2 [P3 P4]]].
  assert (E : forall a, a = Kpp \/ a = Kmm -> (if (Z.max (n_spin1 i) (n_spin2 i) <=? Z.of_nat l)%Z then msum i (fun l1 => if tri (Z.of_nat l) (Z.of_nat l') l1 then coef fsqrt fexp flog junk w3j (cfg i) (purified i) a 0 (Z.of_nat l) (Z.of_nat l') l1 else 0) else 0)
          = msum i (fun l1 => (if fam_eqb a Kpp then even (Z.of_nat l) (Z.of_nat l') l1 else odd (Z.of_nat l) (Z.of_nat l') l1) * JJ l1)).
  { intros a Haa. destruct (Z.leb_spec (Z.max (n_spin1 i) (n_spin2 i)) (Z.of_nat l)) as [L|L].
    - apply msum_ext. intros l1 Hl1. unfold JJ. destruct (tri (Z.of_nat l) (Z.of_nat l') l1) eqn:Et; [|unfold J3; rewrite Et; cbn [andb]; ring].
      rewrite <- (g3j_J3 (n_spin1 i)), <- (g3j_J3 (n_spin2 i)) by assumption.
      unfold coef. rewrite Ha. unfold wv. cbn [v_ss1 v_ss2]. unfold Ws1, Ws2, Wss. rewrite !Ha, HS, HS2, HS'. unfold even, odd.
      destruct Haa as [->| ->]; cbn [fam_eqb negb orb]; destruct (Z.odd (l1 + Z.of_nat l + Z.of_nat l')); try ring;
        (destruct (Z.eqb_spec (n_spin1 i) (n_spin2 i)) as [->|]; cbn [negb]; ring).
    - symmetry. unfold msum. apply sum_zero. intros j _. unfold JJ, J3.
      destruct (Z.leb_spec (n_spin1 i) (Z.of_nat l)); [destruct (Z.leb_spec (n_spin2 i) (Z.of_nat l)); [lia|]|];
        rewrite ?andb_false_r; cbn [andb]; ring. }
  assert (Ep := E Kpp (or_introl eq_refl)). assert (Em := E Kmm (or_intror eq_refl)). cbn [fam_eqb] in Ep, Em. rewrite <- Ep, <- Em. clear E Ep Em.
  unfold tabv, table. rewrite ncls_nspec, N. cbn [cfg c_pe1 c_pe2 c_pb1 c_pb2]. rewrite P1, P2, P3, P4. cbn [b2n Nat.add].
  unfold fac. split; cbn [map Nat.eqb andb lsum fold_right]; ring.
Qed.
(** with purification, spin 2: each purified component replaces its 3j symbol by the pure combination *)
Definition JP (b : bool) (l l' l1 : Z) : F := if b then Jp l l' l1 else J3 2 l l' l1.
Lemma computed_pure i x y : purified i = true -> (x <= n_lmax i)%Z -> (y <= n_lmax i)%Z -> (n_lt i <= 0)%Z ->
  key (cfg i) x y = (x, y) /\ computed (cfg i) x y = ((lstart (cfg i) <=? x) && (lstart (cfg i) <=? y))%Z.
Proof.
  intros P Hx Hy Ht. assert (K : key (cfg i) x y = (x, y)) by (unfold key, c_pany; cbn; fold (purified i); rewrite P; reflexivity).
  split; [exact K|]. unfold computed. rewrite K. apply eq_true_iff_eq. rewrite !andb_true_iff, !Z.leb_le. unfold lend. cbn [cfg c_lmax c_lt] in *.
  replace (0 <? n_lt i)%Z with false by (symmetry; apply Z.ltb_ge; exact Ht). lia.
Qed.
Lemma Wpu_Jp (c : conf F) l2 l3 l1 : (2 <= l2)%Z -> (2 <= l3)%Z -> tri l2 l3 l1 = true -> c_has c Kpp || c_has c K0s = true -> c_s1 c = 2%Z ->
  Wpu fsqrt w3j c l2 l3 l1 = Jp l2 l3 l1.
Proof.
  intros H2 H3 Ht Hh Hs. unfold Wpu, Ws1, Wss. rewrite Hh, Hs, g3j_J3 by (try lia; exact Ht). unfold Jp. rewrite Ht. cbn [andb].
  assert (Ht' := Ht). unfold tri in Ht'. apply andb_true_iff in Ht'. rewrite !Z.leb_le in Ht'.
  unfold lo3j, fac12, fac02, g3j.
  replace (1 <? l2)%Z with true by (symmetry; apply Z.ltb_lt; lia).
  replace (l2 - Z.abs 1 <? 0)%Z with false by (symmetry; apply Z.ltb_ge; lia).
  replace (l3 - Z.abs (-2) <? 0)%Z with false by (symmetry; apply Z.ltb_ge; lia).
  replace (l2 - Z.abs 0 <? 0)%Z with false by (symmetry; apply Z.ltb_ge; lia). cbn [orb].
  f_equal; [f_equal|].
  - destruct (Z.ltb_spec l1 (Z.max (Z.abs (l2 - l3)) (Z.abs (- (1) - -2)))), (Z.leb_spec 1 l1); try lia; reflexivity.
  - destruct (Z.ltb_spec l1 (Z.max (Z.abs (l2 - l3)) (Z.abs (- 0 - -2)))), (Z.leb_spec 2 l1); try lia; [reflexivity|].
    replace (1 <? l1)%Z with true by (symmetry; apply Z.ltb_lt; lia). reflexivity.
Qed.
Theorem C20_formula_pure_02 i M l l' r : fields_ok i -> gives i M -> (n_lt i <= 0)%Z -> n_teb i = false -> one_spin0 i -> purified i = true ->
  upto i l -> upto i l' -> (r < 2)%nat ->
  let pure := if Nat.eqb r 0 then n_pe1 i || n_pe2 i else n_pb1 i || n_pb2 i in
  el i M r l r l' = if (2 <=? l)%nat && (2 <=? l')%nat
    then fofZ (2 * Z.of_nat l' + 1) * msum i (fun l1 => JP pure (Z.of_nat l) (Z.of_nat l') l1 * J0 (Z.of_nat l) (Z.of_nat l') l1) else 0.
Proof.
  intros H G T Te S P Hl Hl' Hr pure. destruct (exact_el i M H G T) as [junk V]. unfold upto in *.
  pose proof (spins_2 i Te S) as N. destruct (spin_facts i H Te) as [_ [SF _]]. destruct (SF S) as [Ha [HS [HS2 HL]]].
  assert (E2 : (n_spin1 i + n_spin2 i = 2)%Z /\ (pure = if Nat.eqb r 0 then n_pe1 i || n_pe2 i else n_pb1 i || n_pb2 i) /\
    ((n_pe1 i = false /\ n_pb1 i = false) \/ (n_pe2 i = false /\ n_pb2 i = false))).
  { pose proof (fo_p1 i H) as F1. pose proof (fo_p2 i H) as F2. unfold purified in P. rewrite <- orb_assoc in P.
    destruct S as [[S1 S2]|[S1 S2]].
    - destruct (n_pe1 i || n_pb1 i) eqn:Q; [specialize (F1 eq_refl); lia|]. cbn in P. specialize (F2 P). apply orb_false_iff in Q. split; [lia|]. split; [reflexivity | tauto].
    - destruct (n_pe2 i || n_pb2 i) eqn:Q; [specialize (F2 eq_refl); lia|]. rewrite orb_false_r in P. specialize (F1 P). apply orb_false_iff in Q. split; [lia|]. split; [reflexivity | tauto]. }
  destruct E2 as [E2 [_ Pc]]. rewrite E2 in HS, HL.
  rewrite V by (rewrite ?N; unfold upto; lia).
  destruct (computed_pure i (Z.of_nat l) (Z.of_nat l') P Hl Hl' T) as [K C]. rewrite K, C, HL. rewrite sign_eps, E2, P.
  replace (2 <=? Z.of_nat l)%Z with (2 <=? l)%nat by (apply eq_true_iff_eq; rewrite Nat.leb_le, Z.leb_le; lia).
  replace (2 <=? Z.of_nat l')%Z with (2 <=? l')%nat by (apply eq_true_iff_eq; rewrite Nat.leb_le, Z.leb_le; lia).
  assert (E : forall ip, (2 <= l)%nat -> (2 <= l')%nat -> (ip < 2)%nat -> msum i (fun l1 => if tri (Z.of_nat l) (Z.of_nat l') l1 then coef fsqrt fexp flog junk w3j (cfg i) true K0s ip (Z.of_nat l) (Z.of_nat l') l1 else 0)
          = msum i (fun l1 => JP (Nat.eqb ip 1) (Z.of_nat l) (Z.of_nat l') l1 * J0 (Z.of_nat l) (Z.of_nat l') l1)).
  { intros ip L2 L2' Hip. apply msum_ext. intros l1 Hl1. destruct (tri (Z.of_nat l) (Z.of_nat l') l1) eqn:Et; [|unfold J0; rewrite Et; ring].
    unfold coef. rewrite Ha. cbn [fam_eqb negb]. unfold wv. cbn [v_00 v_ss1 v_pure]. unfold W00. rewrite !Ha. cbn [fam_eqb orb].
    rewrite w000_J0; [|cbn; lia | cbn; lia | exact Et | cbn; lia].
    rewrite Wpu_Jp by (try lia; try exact Et; try exact HS; rewrite !Ha; reflexivity).
    unfold Ws1, Wss. rewrite HS, g3j_J3 by (try lia; exact Et). rewrite !Ha. cbn [fam_eqb orb].
    destruct ip as [|[|ip]]; [| |lia]; cbn [Nat.eqb JP]; reflexivity. }
  unfold tabv, table. rewrite ncls_nspec, N. cbn [cfg c_pe1 c_pe2 c_pb1 c_pb2].
  change (eps 2) with (1 : F).
  destruct (Nat.leb_spec 2 l) as [L2|L2]; [destruct (Nat.leb_spec 2 l') as [L2'|L2']|]; cbn [andb]; cycle 1.
  { cbn [map lsum fold_right]. destruct r as [|[|r]]; [| |lia]; cbn [Nat.eqb andb]; ring. }
  { cbn [map lsum fold_right]. destruct r as [|[|r]]; [| |lia]; cbn [Nat.eqb andb]; ring. }
  cbn [map lsum fold_right]. unfold pure. destruct r as [|[|r]]; [| |lia]; cbn [Nat.eqb andb].
  - rewrite E by (try lia; destruct (n_pe1 i), (n_pe2 i); cbn; try lia; intuition discriminate).
    replace (Nat.eqb (b2n (n_pe1 i) + b2n (n_pe2 i)) 1) with (n_pe1 i || n_pe2 i); [ring|].
    destruct (n_pe1 i), (n_pe2 i); try reflexivity; exfalso; intuition discriminate.
  - rewrite E by (try lia; destruct (n_pb1 i), (n_pb2 i); cbn; try lia; intuition discriminate).
    replace (Nat.eqb (b2n (n_pb1 i) + b2n (n_pb2 i)) 1) with (n_pb1 i || n_pb2 i); [ring|].
    destruct (n_pb1 i), (n_pb2 i); try reflexivity; exfalso; intuition discriminate.
Qed.
Theorem C20_formula_pure_22 i M l l' (a b : bool) : fields_ok i -> gives i M -> (n_lt i <= 0)%Z -> n_teb i = false ->
  n_spin1 i = 2%Z -> n_spin2 i = 2%Z -> purified i = true -> upto i l -> upto i l' ->
  let r (x y : bool) := (2 * b2n x + b2n y)%nat in  (* component: [true] is B *)
  let fl1 := if a then n_pb1 i else n_pe1 i in let fl2 := if b then n_pb2 i else n_pe2 i in
  let JJ l1 := JP fl1 (Z.of_nat l) (Z.of_nat l') l1 * JP fl2 (Z.of_nat l) (Z.of_nat l') l1 in
  let ok := (2 <=? l)%nat && (2 <=? l')%nat in
  el i M (r a b) l (r a b) l' = (if ok then fofZ (2 * Z.of_nat l' + 1) * msum i (fun l1 => even (Z.of_nat l) (Z.of_nat l') l1 * JJ l1) else 0) /\
  el i M (r a b) l (r (negb a) (negb b)) l' =
    (if ok then (if Bool.eqb a b then 1 else - (1)) * fofZ (2 * Z.of_nat l' + 1) * msum i (fun l1 => odd (Z.of_nat l) (Z.of_nat l') l1 * JJ l1) else 0).
Proof.
  intros H G T Te S1 S2 P Hl Hl' r fl1 fl2 JJ ok. destruct (exact_el i M H G T) as [junk V]. unfold upto in *.
  assert (S1' : n_spin1 i <> 0%Z) by lia. assert (S2' : n_spin2 i <> 0%Z) by lia.
  pose proof (spins_4 i Te S1' S2') as N. destruct (spin_facts i H Te) as [_ [_ SF]]. destruct (SF (conj S1' S2')) as [Ha [HS [HS' [HS2 HL]]]].
  rewrite S1, S2 in HS2, HL. rewrite S1 in HS. rewrite S2 in HS'. cbn in HS2. change (Z.max 2 2) with 2%Z in HL.
  assert (Hr : (r a b < 4)%nat /\ (r (negb a) (negb b) < 4)%nat) by (unfold r; destruct a, b; cbn; lia).
  rewrite !V by (rewrite ?N; unfold upto; lia).
  destruct (computed_pure i (Z.of_nat l) (Z.of_nat l') P Hl Hl' T) as [K C]. rewrite K, C, HL. rewrite sign_eps, S1, S2, P. change (eps (2 + 2)) with (1 : F).
  replace (2 <=? Z.of_nat l)%Z with (2 <=? l)%nat by (apply eq_true_iff_eq; rewrite Nat.leb_le, Z.leb_le; lia).
  replace (2 <=? Z.of_nat l')%Z with (2 <=? l')%nat by (apply eq_true_iff_eq; rewrite Nat.leb_le, Z.leb_le; lia). fold ok.
  assert (E : forall fa, fa = Kpp \/ fa = Kmm -> ok = true -> msum i (fun l1 => if tri (Z.of_nat l) (Z.of_nat l') l1 then coef fsqrt fexp flog junk w3j (cfg i) true fa (b2n fl1 + b2n fl2) (Z.of_nat l) (Z.of_nat l') l1 else 0)
          = msum i (fun l1 => (if fam_eqb fa Kpp then even (Z.of_nat l) (Z.of_nat l') l1 else odd (Z.of_nat l) (Z.of_nat l') l1) * JJ l1)).
  { intros fa Hfa Hok. unfold ok in Hok. apply andb_true_iff in Hok. rewrite !Nat.leb_le in Hok. apply msum_ext. intros l1 Hl1. unfold JJ.
    destruct (tri (Z.of_nat l) (Z.of_nat l') l1) eqn:Et; [|unfold JP, Jp, J3; rewrite Et; cbn [andb]; destruct fl1, fl2; ring].
    unfold coef. rewrite Ha. unfold wv. cbn [v_ss1 v_ss2 v_pure].
    rewrite Wpu_Jp by (try lia; try exact Et; try exact HS; rewrite !Ha; reflexivity).
    unfold Ws1, Ws2, Wss. rewrite !Ha, HS2, HS. rewrite g3j_J3 by (try lia; exact Et). unfold even, odd, JP.
    destruct Hfa as [->| ->]; cbn [fam_eqb negb orb]; destruct (Z.odd (l1 + Z.of_nat l + Z.of_nat l')); try ring;
      destruct fl1, fl2; cbn [b2n Nat.add]; ring. }
  unfold tabv, table. rewrite ncls_nspec, N. cbn [cfg c_pe1 c_pe2 c_pb1 c_pb2].
  destruct ok eqn:Eok; cycle 1.
  { cbn [map lsum fold_right]. unfold r. split; destruct a, b; cbn [b2n negb Nat.mul Nat.add Nat.eqb andb]; ring. }
  assert (Ep := E Kpp (or_introl eq_refl) eq_refl). assert (Em := E Kmm (or_intror eq_refl) eq_refl). cbn [fam_eqb] in Ep, Em. rewrite <- Ep, <- Em. clear E Ep Em.
  unfold fl1, fl2, r. cbn [map lsum fold_right]. split; destruct a, b; cbn [b2n negb Nat.mul Nat.add Nat.eqb andb Bool.eqb]; ring.
Qed.
(** ** C22: temperature and polarisation in one go *)
Lemma C22_teb_formula i M l l' : fields_ok i -> gives i M -> (n_lt i <= 0)%Z -> n_teb i = true ->
  (l <= l')%nat -> upto i l' ->
  let s := n_spin2 i in let fac := eps s * fofZ (2 * Z.of_nat l' + 1) in
  let A l1 := J0 (Z.of_nat l) (Z.of_nat l') l1 in let B l1 := J3 s (Z.of_nat l) (Z.of_nat l') l1 in
  let ev := even (Z.of_nat l) (Z.of_nat l') in let od := odd (Z.of_nat l) (Z.of_nat l') in
  let e r k := el i M r l k l' in
  e 0%nat 0%nat = fac * msum i (fun l1 => A l1 * A l1) /\
  (forall r, In r [1; 2]%nat -> e r r = fac * msum i (fun l1 => B l1 * A l1)) /\
  (forall r, In r [3; 4; 5; 6]%nat -> e r r = fac * msum i (fun l1 => ev l1 * (B l1 * B l1))) /\
  (forall r k, In (r, k) [(3, 6); (6, 3)]%nat -> e r k = fac * msum i (fun l1 => od l1 * (B l1 * B l1))) /\
  (forall r k, In (r, k) [(4, 5); (5, 4)]%nat -> e r k = - (fac * msum i (fun l1 => od l1 * (B l1 * B l1)))) /\
  (forall r k, (r < 7)%nat -> (k < 7)%nat -> r <> k -> ~ In (r, k) [(3, 6); (6, 3); (4, 5); (5, 4)]%nat -> e r k = 0).
Proof.
  intros H G T Te Hl Hl' s fac A B ev od e. destruct (exact_el i M H G T) as [junk V]. unfold upto in *.
  destruct (teb_facts i H Te) as [Ha [HS [HS2 HL]]]. destruct (fo_teb i H Te) as [S1 [S2 P2]]. fold s in HS, S2.
  assert (N : nspec i = 7%nat) by (unfold nspec; rewrite Te; reflexivity).
  assert (P : purified i = false).
  { unfold purified. rewrite <- orb_assoc, P2, orb_false_r. destruct (n_pe1 i || n_pb1 i) eqn:E1; [pose proof (fo_p1 i H E1); lia | reflexivity]. }
  assert (Hs : (0 <= s)%Z) by (pose proof (fo_s2 i H); unfold s; lia).
  destruct (computed_sym i (Z.of_nat l) (Z.of_nat l') P ltac:(lia) Hl' T) as [K C].
  assert (V' : forall r k, (r < 7)%nat -> (k < 7)%nat -> e r k = _) by (intros r k Hr Hk; apply V; rewrite ?N; unfold upto; lia).
  rewrite K, C, HL, P in V'. replace (0 <=? Z.of_nat l)%Z with true in V' by (symmetry; apply Z.leb_le; lia).
  assert (Q : forall a (f : Z -> F), (forall l1, tri (Z.of_nat l) (Z.of_nat l') l1 = false -> f l1 = 0) ->
     (forall l1, (0 <= l1 <= n_lmm i)%Z -> tri (Z.of_nat l) (Z.of_nat l') l1 = true -> coef fsqrt fexp flog junk w3j (cfg i) false a 0 (Z.of_nat l) (Z.of_nat l') l1 = f l1) ->
     msum i (fun l1 => if tri (Z.of_nat l) (Z.of_nat l') l1 then coef fsqrt fexp flog junk w3j (cfg i) false a 0 (Z.of_nat l) (Z.of_nat l') l1 else 0) = msum i f).
  { intros a f Z0 Z1. apply msum_ext. intros l1 Hl1. destruct (tri (Z.of_nat l) (Z.of_nat l') l1) eqn:Et; [apply Z1; assumption | symmetry; apply Z0; exact Et]. }
  assert (B0 : forall l1, tri (Z.of_nat l) (Z.of_nat l') l1 = false -> B l1 = 0) by (intros l1 Et; unfold B, J3; rewrite Et; reflexivity).
  assert (A0 : forall l1, tri (Z.of_nat l) (Z.of_nat l') l1 = false -> A l1 = 0) by (intros l1 Et; unfold A, J0; rewrite Et; reflexivity).
  assert (Wa : forall l1, (0 <= l1 <= n_lmm i)%Z -> tri (Z.of_nat l) (Z.of_nat l') l1 = true -> W00 fsqrt fexp flog junk (cfg i) (Z.of_nat l) (Z.of_nat l') l1 = A l1).
  { intros l1 Hl1 Et. unfold W00. rewrite !Ha. cbn [orb]. apply w000_J0; [cbn; lia | cbn; lia | exact Et | cbn; lia]. }
  assert (Wb : forall l1, tri (Z.of_nat l) (Z.of_nat l') l1 = true -> Ws1 w3j (cfg i) (Z.of_nat l) (Z.of_nat l') l1 = B l1).
  { intros l1 Et. unfold Ws1, Wss. rewrite !Ha, HS. cbn [orb]. apply g3j_J3; assumption. }
  assert (Wb2 : forall l1, tri (Z.of_nat l) (Z.of_nat l') l1 = true -> Ws2 w3j (cfg i) (Z.of_nat l) (Z.of_nat l') l1 = B l1).
  { intros l1 Et. unfold Ws2, Wss. rewrite !Ha, HS2, HS. cbn [orb]. apply g3j_J3; assumption. }
  assert (V00 := Q K00 (fun l1 => A l1 * A l1) ltac:(intros l1 Et; cbv beta; rewrite A0 by exact Et; ring)
     ltac:(intros l1 Hl1 Et; unfold coef; rewrite Ha; cbn [negb]; unfold wv; cbn [v_00]; rewrite Wa by assumption; reflexivity)).
  assert (V0s := Q K0s (fun l1 => B l1 * A l1) ltac:(intros l1 Et; cbv beta; rewrite A0 by exact Et; ring)
     ltac:(intros l1 Hl1 Et; unfold coef; rewrite Ha; cbn [negb]; unfold wv; cbn [v_00 v_ss1]; rewrite Wa, Wb by assumption; reflexivity)).
  assert (Vpp := Q Kpp (fun l1 => ev l1 * (B l1 * B l1)) ltac:(intros l1 Et; cbv beta; rewrite B0 by exact Et; ring)
     ltac:(intros l1 Hl1 Et; unfold coef; rewrite Ha; cbn [negb]; unfold wv; cbn [v_ss1 v_ss2]; rewrite Wb, Wb2 by assumption; unfold ev, even; destruct (Z.odd _); ring)).
  assert (Vmm := Q Kmm (fun l1 => od l1 * (B l1 * B l1)) ltac:(intros l1 Et; cbv beta; rewrite B0 by exact Et; ring)
     ltac:(intros l1 Hl1 Et; unfold coef; rewrite Ha; cbn [negb]; unfold wv; cbn [v_ss1 v_ss2]; rewrite Wb, Wb2 by assumption; unfold od, odd; destruct (Z.odd _); ring)).
  destruct (unpure i P) as [P1 [P2' [P3 P4]]].
  assert (SG : sign_overall (cfg i) = eps s) by (rewrite sign_eps, S1; reflexivity).
  unfold tabv, table in V'. rewrite ncls_nspec, N in V'. cbn [cfg c_pe1 c_pe2 c_pb1 c_pb2] in V'. rewrite P3, P4 in V'. cbn [b2n Nat.add] in V'.
  fold (cfg i) in V'. cbn [map lsum fold_right] in V'. rewrite SG, V00, V0s, Vpp, Vmm in V'.
  repeat split.
  - rewrite V' by lia. cbn [Nat.eqb andb]. unfold fac. ring.
  - intros r Hr. cbn in Hr. repeat (destruct Hr as [<-|Hr]; [rewrite V' by lia; cbn [Nat.eqb andb]; unfold fac; ring|]). destruct Hr.
  - intros r Hr. cbn in Hr. repeat (destruct Hr as [<-|Hr]; [rewrite V' by lia; cbn [Nat.eqb andb]; unfold fac; ring|]). destruct Hr.
  - intros r k Hr. cbn in Hr. repeat (destruct Hr as [Hr|Hr]; [injection Hr as <- <-; rewrite V' by lia; cbn [Nat.eqb andb]; unfold fac; ring|]). destruct Hr.
  - intros r k Hr. cbn in Hr. repeat (destruct Hr as [Hr|Hr]; [injection Hr as <- <-; rewrite V' by lia; cbn [Nat.eqb andb]; unfold fac; ring|]). destruct Hr.
  - intros r k Hr Hk Hrk Hn. rewrite V' by lia. clear V'.
    do 7 (destruct r as [|r]; [do 7 (destruct k as [|k]; [first [congruence | exfalso; apply Hn; cbn; tauto | cbn [Nat.eqb andb]; ring]|]); lia|]). lia.
Qed.
(** two calls for the same mask and multipoles *)
Definition same_mask (i j : minp) : Prop := n_lmm i = n_lmm j /\ n_pcl i = n_pcl j /\ n_lmax i = n_lmax j.
Lemma msum_same i j f : same_mask i j -> msum i f = msum j f.
Proof. intros [A [B C]]. unfold msum, pmask. rewrite A, B. reflexivity. Qed.
Lemma by_transpose i j M N (sg : F) r k r' k' : fields_ok i -> gives i M -> purified i = false -> fields_ok j -> gives j N -> purified j = false ->
  n_lmax i = n_lmax j -> (r < nspec i)%nat -> (k < nspec i)%nat -> (r' < nspec j)%nat -> (k' < nspec j)%nat ->
  (forall l l', (l <= l')%nat -> upto i l' -> el i M r l k l' = sg * el j N r' l k' l') ->
  forall l l', upto i l -> upto i l' -> el i M r l k l' = sg * el j N r' l k' l'.
Proof.
  intros Hi Gi Pi Hj Gj Pj EL R1 R2 R3 R4 A l l' Hl Hl'. destruct (Nat.le_gt_cases l l') as [L|L]; [apply A; assumption|].
  pose proof (C21_symmetric_up_to_2l1 i M r k l l' Hi Gi Pi R1 R2 Hl Hl') as X.
  assert (Hl2 : upto j l) by (unfold upto in *; lia). assert (Hl2' : upto j l') by (unfold upto in *; lia).
  pose proof (C21_symmetric_up_to_2l1 j N r' k' l l' Hj Gj Pj R3 R4 Hl2 Hl2') as Y.
  rewrite (A l' l) in X by (try lia; assumption).
  assert (NZ : fofZ (2 * Z.of_nat l + 1) <> 0 :> F) by (apply fofZ_neq0; lia).
  assert (X' : fofZ (2 * Z.of_nat l + 1) * el i M r l k l' = fofZ (2 * Z.of_nat l + 1) * (sg * el j N r' l k' l')).
  { rewrite X. transitivity (sg * (fofZ (2 * Z.of_nat l' + 1) * el j N r' l' k' l)); [ring|]. rewrite <- Y. ring. }
  apply fsub_0_eq. assert (Z0 : fofZ (2 * Z.of_nat l + 1) * (el i M r l k l' - sg * el j N r' l k' l') = 0).
  { transitivity (fofZ (2 * Z.of_nat l + 1) * el i M r l k l' - fofZ (2 * Z.of_nat l + 1) * (sg * el j N r' l k' l')); [ring|]. rewrite X'. ring. }
  apply fmul_eq_0 in Z0. destruct Z0 as [Z0|Z0]; [contradiction | exact Z0].
Qed.
Lemma teb_unpure i : fields_ok i -> n_teb i = true -> purified i = false /\ nspec i = 7%nat.
Proof.
  intros H Te. destruct (fo_teb i H Te) as [S1 [S2 P2]]. split; [|unfold nspec; rewrite Te; reflexivity].
  unfold purified. rewrite <- orb_assoc, P2, orb_false_r. destruct (n_pe1 i || n_pb1 i) eqn:E1; [pose proof (fo_p1 i H E1); lia | reflexivity].
Qed.
Lemma spin0_unpure i : fields_ok i -> n_spin1 i = 0%Z -> n_spin2 i = 0%Z -> purified i = false.
Proof.
  intros H S1 S2. unfold purified. rewrite <- orb_assoc. destruct (n_pe1 i || n_pb1 i) eqn:E1; [pose proof (fo_p1 i H E1); lia|].
  destruct (n_pe2 i || n_pb2 i) eqn:E2; [pose proof (fo_p2 i H E2); lia | reflexivity].
Qed.
(** the T-E-B matrix has, up to the sign (-1)^s, the blocks of the three separate calculations; the
    rest is zero *)
Theorem C22_TT_block i j M N : fields_ok i -> gives i M -> (n_lt i <= 0)%Z -> n_teb i = true ->
  fields_ok j -> gives j N -> (n_lt j <= 0)%Z -> n_teb j = false -> n_spin1 j = 0%Z -> n_spin2 j = 0%Z -> same_mask i j ->
  forall l l', upto i l -> upto i l' -> el i M 0 l 0 l' = eps (n_spin2 i) * el j N 0 l 0 l'.
Proof.
  intros Hi Gi Ti Tei Hj Gj Tj Tej S1 S2 SM. destruct (teb_unpure i Hi Tei) as [Pi Ni].
  pose proof (spin0_unpure j Hj S1 S2) as Pj. pose proof (spins_1 j Tej S1 S2) as Nj.
  apply by_transpose; try assumption; try (rewrite ?Ni, ?Nj; lia); [apply SM|].
  intros l l' L Hl'. destruct (C22_teb_formula i M l l' Hi Gi Ti Tei L Hl') as [E _]. rewrite E.
  assert (Hl2 : upto j l') by (unfold upto in *; destruct SM as [_ [_ <-]]; exact Hl').
  rewrite (C20_formula_00 j N l l' Hj Gj Tj Tej S1 S2 L Hl2), (msum_same i j) by exact SM. ring.
Qed.
Theorem C22_TP_blocks i j M N : fields_ok i -> gives i M -> (n_lt i <= 0)%Z -> n_teb i = true ->
  fields_ok j -> gives j N -> (n_lt j <= 0)%Z -> n_teb j = false -> n_spin1 j = 0%Z -> n_spin2 j = n_spin2 i -> purified j = false -> same_mask i j ->
  forall r l l', (r < 2)%nat -> upto i l -> upto i l' -> el i M (S r) l (S r) l' = el j N r l r l'.
Proof.
  intros Hi Gi Ti Tei Hj Gj Tj Tej S1 S2 Pj SM r l l' Hr Hl Hl'. destruct (teb_unpure i Hi Tei) as [Pi Ni].
  destruct (fo_teb i Hi Tei) as [_ [S2' _]].
  assert (O : one_spin0 j) by (left; split; [exact S1 | rewrite S2; exact S2']). pose proof (spins_2 j Tej O) as Nj.
  transitivity (1 * el j N r l r l'); [|ring]. revert l l' Hl Hl'.
  apply by_transpose; try assumption; try (rewrite ?Ni, ?Nj; lia); [apply SM|].
  intros l l' L Hl'. destruct (C22_teb_formula i M l l' Hi Gi Ti Tei L Hl') as [_ [E _]].
  rewrite E by (cbn; lia).
  assert (Hl2 : upto j l') by (unfold upto in *; destruct SM as [_ [_ <-]]; exact Hl').
  pose proof (C20_formula_0s j N l l' r Hj Gj Tj Tej O Pj L Hl2 Hr) as E'. cbv zeta in E'. rewrite E', (msum_same i j) by exact SM.
  rewrite S1, S2. change (0 + n_spin2 i)%Z with (n_spin2 i). ring.
Qed.
Theorem C22_PP_blocks i j M N : fields_ok i -> gives i M -> (n_lt i <= 0)%Z -> n_teb i = true ->
  fields_ok j -> gives j N -> (n_lt j <= 0)%Z -> n_teb j = false -> n_spin1 j = n_spin2 i -> n_spin2 j = n_spin2 i -> purified j = false -> same_mask i j ->
  forall r k l l', (r < 4)%nat -> (k < 4)%nat -> upto i l -> upto i l' -> el i M (3 + r) l (3 + k) l' = eps (n_spin2 i) * el j N r l k l'.
Proof.
  intros Hi Gi Ti Tei Hj Gj Tj Tej S1 S2 Pj SM r k l l' Hr Hk Hl Hl'. destruct (teb_unpure i Hi Tei) as [Pi Ni].
  destruct (fo_teb i Hi Tei) as [_ [S2' _]]. assert (N1 : n_spin1 j <> 0%Z) by (rewrite S1; exact S2'). assert (N2 : n_spin2 j <> 0%Z) by (rewrite S2; exact S2').
  pose proof (spins_4 j Tej N1 N2) as Nj. revert l l' Hl Hl'.
  apply by_transpose; try assumption; try (rewrite ?Ni, ?Nj; lia); [apply SM|].
  intros l l' L Hl'. destruct (C22_teb_formula i M l l' Hi Gi Ti Tei L Hl') as [_ [_ [Epp [Emm [Emm' E0]]]]]. cbv zeta in *.
  assert (Hl2 : upto j l') by (unfold upto in *; destruct SM as [_ [_ <-]]; exact Hl').
  assert (Hl1 : upto j l) by (unfold upto in *; lia).
  destruct (C20_formula_ss j N l l' Hj Gj Tj Tej N1 N2 Pj L Hl2) as [Fp Fm]. rewrite S1, S2, <- !(msum_same i j) in Fp, Fm by exact SM.
  assert (EE : eps (n_spin2 i + n_spin2 i) = 1) by (unfold eps; replace (Z.odd (n_spin2 i + n_spin2 i)) with false; [reflexivity | rewrite Z.odd_add; destruct (Z.odd (n_spin2 i)); reflexivity]).
  rewrite EE in Fp, Fm.
  destruct (C20_spinS_spinS_symmetry j N l l' Hj Gj Tej Pj N1 N2 Hl1 Hl2) as [Y1 [Y2 [Y3 [Y4 [Y5 Y6]]]]].
  pose proof (C20_spinS_spinS_zeros j N l l' Hj Gj Tej N1 N2 Hl1 Hl2) as Z0.
  do 4 (destruct r as [|r]; [do 4 (destruct k as [|k]; [cbn [Nat.add];
     first [ rewrite E0 by (try lia; cbn; intuition congruence); rewrite Z0 by (cbn; tauto); ring
           | rewrite Epp by (cbn; tauto); rewrite ?Y1, ?Y2, ?Y3, Fp; ring
           | rewrite Emm by (cbn; tauto); rewrite ?Y4, Fm; ring
           | rewrite Emm' by (cbn; tauto); rewrite ?Y5, ?Y6, Fm; ring ]|]); lia|]). lia.
Qed.
Theorem C22_mixed_blocks_zero i M : fields_ok i -> gives i M -> (n_lt i <= 0)%Z -> n_teb i = true ->
  forall r k l l', (r < 7)%nat -> (k < 7)%nat -> (r < 3)%nat \/ (k < 3)%nat -> r <> k -> upto i l -> upto i l' -> el i M r l k l' = 0.
Proof.
  intros Hi Gi Ti Tei r k l l' Hr Hk H3 Hrk Hl Hl'. destruct (teb_unpure i Hi Tei) as [Pi Ni].
  assert (G : forall l l', (l <= l')%nat -> upto i l' -> el i M r l k l' = 0).
  { intros x y L Hy. destruct (C22_teb_formula i M x y Hi Gi Ti Tei L Hy) as [_ [_ [_ [_ [_ E0]]]]]. apply E0; try assumption.
    cbn. intro Q. repeat (destruct Q as [Q|Q]; [injection Q as Q1 Q2; lia|]). exact Q. }
  transitivity (0 * el i M r l k l'); [|ring]. revert l l' Hl Hl'. apply (by_transpose i i M M); try assumption; try (rewrite Ni; lia); [reflexivity|].
  intros l l' L Hl'. rewrite G by assumption. ring.
Qed.
End Statements.
