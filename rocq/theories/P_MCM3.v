(** Concrete cases and refutations for C20-C24, C26, C28. *)
From Coq Require Import Reals Lra.
From Verif Require Import Base FieldR M_Bins M_LinAlg M_Workspace M_MCM L_Bins L_Bins2 L_Bins3 P_Bins L_LinAlg L_Workspace P_Workspace L_MCM L_MCM2 L_MCM3 P_MCM P_MCM2.
Open Scope Z_scope.

(** ** Which calls produce a matrix *)
Section Exists.
Context {F : ofield}.
Variables (fsqrt fexp flog : F -> F) (pi : F) (w3j : Z -> Z -> Z -> Z -> Z -> F).
Lemma gives_exists (i : minp (F:=F)) : fields_ok i -> toeplitz_sanity (n_lt i) (n_lex i) (n_dl i) (n_lmax i) (purified i) = Ok tt ->
  (Z.of_nat (nspec i) * (n_lmax i + 1) <= 46341)%Z -> exists M, gives fsqrt fexp flog pi w3j i M.
Proof.
  intros H T S. destruct (mcompute_built fsqrt fexp flog pi w3j (fun _ => f0) i H T) as [st [_ E]].
  pose proof (built_valid fsqrt fexp flog pi w3j i st H) as V.
  exists (i_mcm (built pi i st)), (fun _ => f0), (mk (built pi i st)). split; [exact E|]. apply get_mk; [exact V|].
  unfold int_ok, i_nrows, i_nell, built. cbn [i_ncls i_bin]. fold (n_lmax i).
  destruct (valid_bins_facts _ (fo_bins i H)) as [_ [_ P]]. fold (n_lmax i) in P. nia.
Qed.
(** linear binning schemes are valid *)
Lemma linear_valid (p : F) lmax nlb : (1 <= nlb)%Z -> (nlb + 1 <= lmax)%Z ->
  exists b, from_lmax_linear p lmax nlb false None = Ok b /\ valid_bins b /\ b_lmax b = lmax.
Proof.
  intros H1 H2. destruct (C03_linear_tiling p lmax nlb false None H1 H2 I) as [b [E [H3 [H4 H5]]]]. exists b. split; [exact E|]. split; [|exact H5].
  split.
  - unfold from_lmax_linear in E. apply bind_ok in E. destruct E as [[ells bpws] [_ E]]. do 5 eexists. exact E.
  - intros ib l [L [EL Hin]] Hib.
    destruct (Z_lt_le_dec ib (get_n_bands b)) as [Q|Q].
    + destruct (H4 ib (conj Hib Q)) as [E1 _]. assert (EL' : L = M_Bins.zrange (2 + ib * nlb) (2 + (ib + 1) * nlb)) by congruence. rewrite EL' in Hin. clear EL EL'. unfold M_Bins.zrange in Hin. apply in_map_iff in Hin. destruct Hin as [z [Ez _]]. assert (0 <= ib * nlb)%Z by (apply Z.mul_nonneg_nonneg; lia). lia.
    + exfalso. unfold get_ell_list, get_band in EL. replace (ib <? get_n_bands b)%Z with false in EL by lia. discriminate.
Qed.
End Exists.

(** ** Concrete calls over the rationals: lmax = 3 *)
Section Examples.
Local Notation Q := Qc_field.
Definition mb : bins Q := exb3.
Definition mi (s1 s2 : Z) (pe1 pb1 pe2 pb2 : bool) (teb : bool) (lt lex dl : Z) : minp :=
  MInp s1 s2 pe1 pb1 pe2 pb2 4 (map (q 1) [1; 2; 3; 4; 5]%positive) mb (map qz [1; 1; 1; 1]%Z) (map qz [1; 2; 1; 1]%Z) 0 (qz 1) teb lt lex dl.
Lemma mb_valid : valid_bins mb.
Proof. apply exb3_valid. Qed.
Lemma mi_ok s1 s2 pe1 pb1 pe2 pb2 teb lt lex dl : (0 <= s1)%Z -> (0 <= s2)%Z -> (pe1 || pb1 = true -> s1 = 2%Z) -> (pe2 || pb2 = true -> s2 = 2%Z) ->
  (teb = true -> s1 = 0%Z /\ s2 <> 0%Z /\ pe2 || pb2 = false) -> fields_ok (mi s1 s2 pe1 pb1 pe2 pb2 teb lt lex dl).
Proof.
  intros. assert (E : b_lmax mb = 3%Z) by (vm_compute; reflexivity).
  constructor; unfold n_lmax; cbn [mi n_bin n_lmm n_b1 n_b2 n_pcl n_spin1 n_spin2 n_pe1 n_pb1 n_pe2 n_pb2 n_teb]; rewrite ?E; try assumption; try lia;
    try (cbn; lia). apply mb_valid.
Qed.
Lemma mi_lmax s1 s2 pe1 pb1 pe2 pb2 teb lt lex dl : n_lmax (mi s1 s2 pe1 pb1 pe2 pb2 teb lt lex dl) = 3%Z.
Proof. vm_compute. reflexivity. Qed.
Ltac mi_tac := apply mi_ok; cbn; try lia; try discriminate; try (intros; repeat split; lia); try reflexivity.
(** the hypotheses of the theorems are met by calls of every kind *)
Example ex_calls fsqrt fexp flog pi w3j : Forall (fun i : minp (F:=Q) => fields_ok i /\ exists M, gives fsqrt fexp flog pi w3j i M)
  [mi 0 0 false false false false false (-1) (-1) (-1);
   mi 0 2 false false false false false (-1) (-1) (-1);
   mi 0 2 false false false true false (-1) (-1) (-1);
   mi 2 0 true true false false false (-1) (-1) (-1);
   mi 2 2 false false false false false (-1) (-1) (-1);
   mi 1 2 false false false false false (-1) (-1) (-1);
   mi 2 2 false true false true false (-1) (-1) (-1);
   mi 0 2 false false false false true (-1) (-1) (-1);
   mi 0 2 false false false false false 2 1 1].
Proof.
  repeat first [apply Forall_nil | apply Forall_cons].
  all: split; [mi_tac | apply gives_exists; [mi_tac | vm_compute; reflexivity | vm_compute; discriminate]].
Qed.
Example ex_same_mask : same_mask (mi 0 2 false false false false true (-1) (-1) (-1)) (mi 2 2 false false false false false (-1) (-1) (-1)).
Proof. repeat split. Qed.

Example ex_linear fsqrt fexp flog pi w3j : let i := mi 2 2 false true false true false (-1) (-1) (-1) in
  let x := map (q 1) [1; 2; 3; 4; 5]%positive in let y := map qz [7; 0; -2; 1; 3]%Z in
  Forall (fun p => fields_ok (with_pcl i p) /\ exists M, gives fsqrt fexp flog pi w3j (with_pcl i p) M)
    [x; y; map (fun t => (qz 3 * nth t x 0 + qz (-2) * nth t y 0)%F) (seq 0 5)].
Proof.
  intros i x y. repeat first [apply Forall_nil | apply Forall_cons].
  all: split; [| apply gives_exists; [| vm_compute; reflexivity | vm_compute; discriminate]].
  all: destruct (mi_ok 2 2 false true false true false (-1) (-1) (-1) ltac:(lia) ltac:(lia) ltac:(reflexivity) ltac:(reflexivity) ltac:(discriminate)) as [A1 A2 A3 A4 A5 A6 A7 A8 A9].
  all: constructor; assumption || reflexivity.
Qed.
Example ex_toeplitz fsqrt fexp flog pi w3j : let i := mi 0 2 false false false false false 2 1 1 in
  (exists M, gives fsqrt fexp flog pi w3j i M) /\ exists N, gives fsqrt fexp flog pi w3j (exactly i) N.
Proof.
  split; (apply gives_exists; [| vm_compute; reflexivity | vm_compute; discriminate]);
    [|change (exactly (mi 0 2 false false false false false 2 1 1)) with (mi 0 2 false false false false false (-1) (-1) (-1))]; mi_tac.
Qed.

Definition is_ub {A} (r : res A) : bool := match r with UB => true | _ => false end.
Lemma is_ub_eq {A} (r : res A) : is_ub r = true -> r = UB.
Proof. destruct r; intros; congruence || discriminate. Qed.
(** ** Calls that leave the modelled arrays, for any libm and any 3j values *)
(** a T-E-B workspace with a purified polarisation field: unwritten 3j values are used *)
Theorem C28_teb_purified_refuted fsqrt fexp flog pi w3j junk :
  mcompute fsqrt fexp flog pi w3j junk (mi 0 2 false false false true true (-1) (-1) (-1)) = UB.
Proof. apply is_ub_eq. vm_compute. reflexivity. Qed.
(** mask multipoles that stop short of those of the maps *)
Definition short_mask : minp :=
  MInp (F:=Q) 0 0 false false false false 1 (map (q 1) [1; 2]%positive) mb (map qz [1; 1; 1; 1]%Z) (map qz [1; 2; 1; 1]%Z) 0 (qz 1) false (-1) (-1) (-1).
Theorem C28_short_mask_refuted fsqrt fexp flog pi w3j junk : mcompute fsqrt fexp flog pi w3j junk short_mask = UB.
Proof. apply is_ub_eq. vm_compute. reflexivity. Qed.
(** a spin-0 field created for its mask only keeps purify_e (field.py skips the check); together with
    a purified spin-2 field the coefficients are indexed out of range *)
Theorem C28_spin0_purified_refuted fsqrt fexp flog pi w3j junk :
  mcompute fsqrt fexp flog pi w3j junk (mi 0 2 true false true false false (-1) (-1) (-1)) = UB.
Proof. apply is_ub_eq. vm_compute. reflexivity. Qed.

(** ** C23 fails when a purified spin-2 field meets a field of another non-zero spin.
    Only l1 = 2 is populated and all values are the true ones at l2 = l3 = 2, in units of sqrt(2/35);
    sqrt(3/2) is split as 3/2 times 1 between the square root and the 3j symbol it multiplies. *)
Definition w3 (l2 l3 m2 m3 l1 : Z) : Q :=
  if (m2 =? 2)%Z then qz 1 else if ((m2 =? 1) && (m3 =? -1))%Z then q 1 2
  else if ((m2 =? 1) && (m3 =? -2))%Z then qz (-1) else if (m3 =? -2)%Z then qz 1 else qz (-1).
Definition sq (x : Q) : Q := x.
Definition pi4 : Q := q 1 4.
Definition m23 (s1 s2 : Z) (p1 p2 : bool) : minp :=
  MInp s1 s2 p1 false p2 false 3 (map qz [0; 0; 1; 0]%Z) mb (map qz [1; 1; 1; 1]%Z) (map qz [1; 1; 1; 1]%Z) 0 (qz 1) false (-1) (-1) (-1).
Definition ee22 (i : minp (F:=Q)) := do w <- mcompute sq (fun _ => qz 1) (fun _ => qz 0) pi4 w3 (fun _ => qz 0) i; do M <- get_coupling_matrix (obj w); Ok (out (el i M 0 2 0 2)).
Lemma ee22_val i v : ee22 i = Ok v -> exists M, gives sq (fun _ => qz 1) (fun _ => qz 0) pi4 w3 i M /\ out (el i M 0 2 0 2) = v.
Proof.
  unfold ee22. intro E. apply bind_ok in E. destruct E as [w [E1 E]]. apply bind_ok in E. destruct E as [M [E2 E]]. injection E as <-.
  exists M. split; [|reflexivity]. exists (fun _ => qz 0), w. split; assumption.
Qed.
Theorem C23_mixed_spins_purified_refuted : exists (i : minp (F:=Q)) M M', fields_ok i /\ purified i = true /\ n_spin1 i <> n_spin2 i /\
  gives sq (fun _ => qz 1) (fun _ => qz 0) pi4 w3 i M /\ gives sq (fun _ => qz 1) (fun _ => qz 0) pi4 w3 (swapped i) M' /\
  el (swapped i) M' (flip (nspec i) 0) 2 (flip (nspec i) 0) 2 <> el i M 0 2 0 2.
Proof.
  destruct (ee22_val (m23 1 2 false true) (QArith_base.Qmake 75 2)) as [M [G E]]; [vm_compute; reflexivity|].
  destruct (ee22_val (swapped (m23 1 2 false true)) (QArith_base.Qmake 25 2)) as [M' [G' E']]; [vm_compute; reflexivity|].
  exists (m23 1 2 false true), M, M'. split.
  { assert (B : b_lmax mb = 3%Z) by (vm_compute; reflexivity).
    constructor; unfold n_lmax; cbn [m23 n_bin n_lmm n_b1 n_b2 n_pcl n_spin1 n_spin2 n_pe1 n_pb1 n_pe2 n_pb2 n_teb]; rewrite ?B; try lia; try discriminate; try (cbn; lia); try reflexivity.
    apply mb_valid. }
  split; [reflexivity|]. split; [discriminate|]. split; [exact G|]. split; [exact G'|]. intro Q.
  change (flip (nspec (m23 1 2 false true)) 0) with 0%nat in Q. rewrite Q in E'. rewrite E in E'. discriminate.
Qed.
End Examples.

(** ** Full sky over the real numbers *)
Section Reals.
Local Notation R' := R_field.
(** true values of the 3j symbols at l1 = 0, where the full-sky sums have their only term *)
Definition w3R (l2 l3 m2 m3 l1 : Z) : R' := if ((l1 =? 0) && (l2 =? l3) && (m2 =? - m3))%Z then (eps (F:=R_field) (l2 - m2) * finv (o:=R_field) (sqrt (fofZ (F:=R_field) (2 * l2 + 1))))%F else f0.
Lemma lawsR : laws (F:=R') sqrt exp ln w3R.
Proof.
  constructor.
  - intros x H. apply R_le in H. apply sqrt_sqrt. exact H.
  - intros x _. apply R_le. apply sqrt_pos.
  - intros x y. apply exp_plus.
  - intro x. apply R_lt. apply exp_pos.
  - intros x H. apply R_lt in H. apply exp_ln. exact H.
  - intros s l H. unfold w3R. rewrite !Z.eqb_refl. replace (s =? - - s)%Z with true by (symmetry; apply Z.eqb_eq; lia). reflexivity.
Qed.
Lemma pi_neq : (PI : R') <> f0.
Proof. apply PI_neq0. Qed.
Definition fs (b : bins R') (s1 s2 : Z) (p1 p2 teb : bool) : minp :=
  MInp (F:=R') s1 s2 p1 p1 p2 p2 3 [((f1 + f1 + f1 + f1) * (PI : R_field))%F; f0; f0; f0] b [f1; f1; f1; f1] [f1; f1; f1; f1] 0 f1 teb (-1) (-1) (-1).
Lemma fs_ok b s1 s2 p1 p2 teb : valid_bins b -> b_lmax b = 3%Z -> (0 <= s1)%Z -> (0 <= s2)%Z -> (p1 = true -> s1 = 2%Z) -> (p2 = true -> s2 = 2%Z) ->
  (teb = true -> s1 = 0%Z /\ s2 <> 0%Z /\ p2 = false) -> fields_ok (fs b s1 s2 p1 p2 teb) /\ full_sky (F:=R_field) PI (fs b s1 s2 p1 p2 teb).
Proof.
  intros V E H1 H2 H3 H4 H5. split.
  - constructor; unfold n_lmax; cbn [fs n_bin n_lmm n_b1 n_b2 n_pcl n_spin1 n_spin2 n_pe1 n_pb1 n_pe2 n_pb2 n_teb]; rewrite ?E, ?orb_diag; try assumption; try lia; cbn; lia.
  - split; [reflexivity|]. intros n Hn. destruct n as [|[|[|[|n]]]]; try lia; try reflexivity. cbn. destruct n; reflexivity.
Qed.
Lemma fs_gives b s1 s2 p1 p2 teb : fields_ok (fs b s1 s2 p1 p2 teb) -> b_lmax b = 3%Z -> exists M, gives (F:=R_field) sqrt exp ln PI w3R (fs b s1 s2 p1 p2 teb) M.
Proof.
  intros H E. apply gives_exists; [exact H | reflexivity|]. unfold n_lmax. cbn [fs n_bin]. rewrite E. unfold nspec.
  repeat match goal with |- context [if ?c then _ else _] => destruct c end; cbn; lia.
Qed.
Example ex_full_sky : exists i M, fields_ok i /\ full_sky (F:=R_field) PI i /\ purified i = true /\ n_spin1 i = 2%Z /\ n_spin2 i = 2%Z /\ gives (F:=R_field) sqrt exp ln PI w3R i M.
Proof.
  destruct (linear_valid (F:=R_field) sqrt exp ln w3R PI 3 1 ltac:(lia) ltac:(lia)) as [b [_ [V E]]].
  destruct (fs_ok b 2 2 true true false V E ltac:(lia) ltac:(lia) ltac:(reflexivity) ltac:(reflexivity) ltac:(discriminate)) as [H FS].
  destruct (fs_gives b 2 2 true true false H E) as [M G]. exists (fs b 2 2 true true false), M.
  split; [exact H|]. split; [exact FS|]. do 3 (split; [reflexivity|]). exact G.
Qed.
(** C22 fails for odd spins: the TT and polarisation blocks change sign *)
Theorem C22_odd_spin_refuted : exists (i j : minp (F:=R')) M N, fields_ok i /\ fields_ok j /\ n_teb i = true /\ n_spin2 i = 1%Z /\
  n_teb j = false /\ n_spin1 j = 0%Z /\ n_spin2 j = 0%Z /\ same_mask i j /\ gives (F:=R_field) sqrt exp ln PI w3R i M /\ gives (F:=R_field) sqrt exp ln PI w3R j N /\
  el i M 0 2 0 2 <> el j N 0 2 0 2.
Proof.
  destruct (linear_valid (F:=R_field) sqrt exp ln w3R PI 3 1 ltac:(lia) ltac:(lia)) as [b [_ [V E]]].
  destruct (fs_ok b 0 1 false false true V E ltac:(lia) ltac:(lia) ltac:(discriminate) ltac:(discriminate) ltac:(intros; repeat split; lia || reflexivity)) as [Hi _].
  destruct (fs_ok b 0 0 false false false V E ltac:(lia) ltac:(lia) ltac:(discriminate) ltac:(discriminate) ltac:(discriminate)) as [Hj FS].
  destruct (fs_gives _ _ _ _ _ _ Hi E) as [M G]. destruct (fs_gives _ _ _ _ _ _ Hj E) as [N G'].
  exists (fs b 0 1 false false true), (fs b 0 0 false false false), M, N.
  split; [exact Hi|]. split; [exact Hj|]. do 5 (split; [reflexivity|]). split; [repeat split|]. split; [exact G|]. split; [exact G'|].
  assert (U : upto (fs b 0 1 false false true) 2) by (unfold upto, n_lmax; cbn [fs n_bin]; rewrite E; lia).
  rewrite (C22_TT_block (F:=R_field) sqrt exp ln PI w3R _ _ M N Hi G ltac:(cbn; lia) eq_refl Hj G' ltac:(cbn; lia) eq_refl eq_refl eq_refl ltac:(repeat split) 2 2 U U).
  assert (N0 : nspec (fs b 0 0 false false false) = 1%nat) by reflexivity.
  rewrite (C24_full_sky_identity (F:=R_field) sqrt exp ln PI w3R _ N lawsR pi_neq Hj FS ltac:(cbn; lia) eq_refl G' ltac:(left; reflexivity) 0 2 0 2 ltac:(rewrite N0; lia) ltac:(rewrite N0; lia) U U).
  cbn. change (eps (F:=R') 1) with (-(1))%R. lra.
Qed.
End Reals.

Print Assumptions C20_spin0_spinS.
Print Assumptions C20_spinS_spinS_zeros.
Print Assumptions C20_spinS_spinS_symmetry.
Print Assumptions C20_formula_00.
Print Assumptions C20_formula_0s.
Print Assumptions C20_formula_ss.
Print Assumptions C20_formula_pure_02.
Print Assumptions C20_formula_pure_22.
Print Assumptions C21_symmetric_up_to_2l1.
Print Assumptions C22_TT_block.
Print Assumptions C22_TP_blocks.
Print Assumptions C22_PP_blocks.
Print Assumptions C22_mixed_blocks_zero.
Print Assumptions C22_odd_spin_refuted.
Print Assumptions C23_exchange_of_fields.
Print Assumptions C23_mixed_spins_purified_refuted.
Print Assumptions C24_linear_in_mask_spectrum.
Print Assumptions C24_full_sky_identity.
Print Assumptions C26_accepted_parameters.
Print Assumptions C26_rejected_parameters.
Print Assumptions C26_exact_region.
Print Assumptions C28_no_undefined_behaviour.
Print Assumptions C28_table_neighbours_irrelevant.
Print Assumptions C28_table_overrun_refuted.
Print Assumptions C28_teb_purified_refuted.
Print Assumptions C28_short_mask_refuted.
Print Assumptions C28_spin0_purified_refuted.
