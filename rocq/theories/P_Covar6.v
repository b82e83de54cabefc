(** Concrete cases for the properties of the covariance, and cases where stronger claims fail. *)
From Coq Require Import QArith Qcanon.
From Verif Require Import Base M_Bins M_LinAlg M_Workspace M_MCM M_Utils M_Field M_Cell M_Covar L_Bins L_Bins2 L_Bins3 P_Bins L_LinAlg L_Workspace P_Workspace L_MCM L_MCM2 L_MCM3 P_MCM P_MCM2 L_Covar L_Covar2 P_Covar P_Covar2 P_Covar3 P_Covar4 P_Covar5 P_Field7.
From Verif Require Import L_Covar L_Covar2 P_Covar.
Open Scope nat_scope.

(** ** Calls over any field: two bands {2}, {3}; masks with constant spectra *)
Section Any.
Context {F : ofield}.
Local Open Scope F_scope.
Add Field FfPCo6 : (fth F).
Notation mat := (list (list F)).
Notation el := L_Workspace.el.
Notation covargs := (covargs (F:=F)).
Definition e2 : entry F := Entry 2 (1 / (1 + 0)) 1.
Definition e3 : entry F := Entry 3 (1 / (1 + 0)) 1.
Definition b0 : bins F := Bins 3 [[e2]; [e3]].
Lemma b0_made : NmtBin [0; 1]%Z [2; 3]%Z None None None = Ok b0.
Proof.
  assert (N1 : fleb (1 : F) 0 = false). { destruct (fleb (1 : F) 0) eqn:E; [|reflexivity]. exfalso. pose proof (f0_lt_1 (F:=F)) as P. apply flt_not_le in P. apply P. exact E. }
  assert (N2 : fleb (1 + 0 : F) 0 = false) by (replace (1 + 0 : F) with (1 : F) by ring; exact N1).
  cbv -[fleb f0 f1 fadd fdiv fmul finv]. rewrite ?N1. cbv -[fleb f0 f1 fadd fdiv fmul finv]. rewrite ?N2. reflexivity.
Qed.
Lemma b0_valid : valid_bins b0.
Proof.
  split; [do 5 eexists; exact b0_made|]. apply nonneg_check. vm_compute. reflexivity.
Qed.
Lemma b0_once : once b0.
Proof. unfold once. cbn. repeat constructor; cbn; intuition discriminate. Qed.
Definition i0 (n : nat) : inputs (F:=F) := Inputs n false 3 3 0 1 [] b0 [1; 1; 1; 1] [1; 1; 1; 1] (tab (n * 4) (fun i => tab (n * 4) (fun j => kron i j))).
Lemma i0_valid n : (1 <= n)%nat -> valid (i0 n).
Proof.
  intro H. unfold valid, i_nrows, i_nell. cbn [i0 i_ncls i_bin i_lmaxf i_b1 i_b2 i_mcm b_lmax b0]. split; [exact H|]. split; [apply b0_valid|]. split; [lia|]. split; [reflexivity|]. split; [reflexivity|].
  change (Z.to_nat (3 + 1)) with 4%nat. split; [apply length_tab|]. intros r Hr. apply In_nth with (d := []) in Hr. destruct Hr as [k [Hk <-]]. rewrite length_tab in Hk. rewrite nth_tab by exact Hk. apply length_tab.
Qed.
Definition w0 (n : nat) : wsp F := mk (i0 n).
Lemma w0_bin n : w_bin (w0 n) = b0.
Proof. reflexivity. Qed.
Lemma w0_in n : in_bins (w0 n) e2 /\ in_bins (w0 n) e3.
Proof. unfold in_bins. rewrite w0_bin. cbn. auto. Qed.
Lemma w0_fit n1 n2 lmax : (1 <= n1)%nat -> (1 <= n2)%nat -> (3 <= lmax)%Z -> wfit (w0 (n1 * n2)) lmax n1 n2.
Proof.
  intros H1 H2 L. apply (wfit_compute (i0 (n1 * n2))); [apply i0_valid; nia | apply compute_ok; apply i0_valid; nia | reflexivity | exact L].
Qed.
(** spectra of fields with n1 and n2 components, c l i j at multipole l *)
Definition cls (n1 n2 k : nat) (c : nat -> nat -> nat -> F) : mat := tab (n1 * n2) (fun r => tab k (fun l => c l (r / n2)%nat (r mod n2)%nat)).
Lemma cls_rect n1 n2 k c : rect (n1 * n2) k (cls n1 n2 k c).
Proof. apply rect_tab. Qed.
Lemma cls_at n1 n2 k c l i j : (i < n1)%nat -> (j < n2)%nat -> (l < k)%nat -> spc (cls n1 n2 k c) n2 l i j = c l i j.
Proof.
  intros Hi Hj Hl. unfold spc, cls. rewrite (entry_tab (n1 * n2) k (fun r l => c l (r / n2)%nat (r mod n2)%nat)) by (try exact Hl; nia).
  replace (j + n2 * i)%nat with (n2 * i + j)%nat by lia. f_equal; [symmetry; apply (Nat.div_unique _ _ _ j); [exact Hj | reflexivity] | symmetry; apply (Nat.mod_unique _ _ i); [exact Hj | reflexivity]].
Qed.
Definition four_cls (s : spins4) (k : nat) (ac ad bc bd : nat -> nat -> nat -> F) : cls4 F :=
  let n x := nm (x s) in Cls (cls (n sp_a) (n sp_c) k ac) (cls (n sp_a) (n sp_d) k ad) (cls (n sp_b) (n sp_c) k bc) (cls (n sp_b) (n sp_d) k bd).
Definition call (cw : cwsp F) (s : spins4) (lmax : Z) (ac ad bc bd : nat -> nat -> nat -> F) : covargs :=
  let k := Z.to_nat (lmax + 1) in CovArgs cw s k (four_cls s k ac ad bc bd) (w0 (nm (sp_a s) * nm (sp_b s))) (w0 (nm (sp_c s) * nm (sp_d s))).
Variables (fsqrt fexp flog : F -> F) (pi : F).
Variable w3j : Z -> Z -> Z -> Z -> Z -> F.
Notation built := (built fsqrt fexp flog pi w3j).

(** every such call has an acceptable workspace *)
Lemma call_good s lmax p1 p2 s0 : pi <> 0 -> (3 <= lmax)%Z -> Z.of_nat (length p1) = (lmax + 1)%Z -> Z.of_nat (length p2) = (lmax + 1)%Z ->
  (s0 = true -> (sp_a s = 0 /\ sp_b s = 0 /\ sp_c s = 0 /\ sp_d s = 0)%Z) ->
  exists cw, cw_lmax cw = lmax /\ built cw p1 p2 lmax lmax s0 /\ forall ac ad bc bd, good (call cw s lmax ac ad bc bd).
Proof.
  intros Hpi HL L1 L2 H0. destruct (init_ok fsqrt fexp flog pi w3j (fun _ => 0) p1 p2 lmax lmax (-1) (-1) (-1) s0 Hpi ltac:(lia) L1 L2 ltac:(unfold tplz_ok; lia)) as [cw [E [C1 [C2 [C3 [C4 _]]]]]].
  exists cw. split; [exact C1|]. split.
  { split; [exact Hpi|]. split; [lia|]. split; [exact L1|]. split; [exact L2|]. exists (fun _ => 0), (-1)%Z, (-1)%Z, (-1)%Z. split; [lia | exact E]. }
  intros ac ad bc bd. constructor; cbn [call g_cw g_s g_k g_c g_wa g_wb four_cls cl_ac cl_ad cl_bc cl_bd].
  - constructor; cbn [cl_ac cl_ad cl_bc cl_bd]; try apply cls_rect; try (rewrite C1; lia); try (apply C4; cbn; auto 6). unfold nle. rewrite C1. lia.
  - rewrite C1. apply w0_fit; [apply nm_pos | apply nm_pos | exact HL].
  - rewrite C1. apply w0_fit; [apply nm_pos | apply nm_pos | exact HL].
  - rewrite C3. exact H0.
  - intros t Ht. apply C4. exact Ht.
Qed.
Lemma call_size cw s ac ad bc bd : cw_lmax cw = 3%Z -> (coupled_size (call cw s 3 ac ad bc bd) <= int_max)%Z /\ (decoupled_size (call cw s 3 ac ad bc bd) <= int_max)%Z.
Proof.
  intro E. unfold coupled_size, decoupled_size, int_max, ncl, nbands. cbn [call g_cw g_wa g_wb]. rewrite E, !w0_bin. cbn [w0 mk]. cbn.
  destruct (is12_nm (sp_a s)) as [-> | ->], (is12_nm (sp_b s)) as [-> | ->], (is12_nm (sp_c s)) as [-> | ->], (is12_nm (sp_d s)) as [-> | ->]; cbn; lia.
Qed.
Definition p_one : list F := [1; 1; 1; 1].
(** hypotheses of C52, C53, C54, C55, C71 for any spins *)
Example ex_calls s ac ad bc bd p1 p2 : pi <> 0 -> length p1 = 4%nat -> length p2 = 4%nat -> exists cw M, let g := call cw s 3 ac ad bc bd in
  good g /\ (coupled_size g <= int_max)%Z /\ built (g_cw g) p1 p2 (cw_lmax (g_cw g)) 3 false /\ once (w_bin (g_wa g)) /\ once (w_bin (g_wb g)) /\
  cov g true = Ok (Coupled M) /\ in_bins (g_wa g) e2 /\ in_bins (g_wb g) e3 /\ (sp_a s <> 0%Z -> sp_b s <> 0%Z -> sp_c s <> 0%Z -> sp_d s <> 0%Z -> comps g 1 0 0 1).
Proof.
  intros Hpi L1 L2. destruct (call_good s 3 p1 p2 false Hpi ltac:(lia) ltac:(rewrite L1; reflexivity) ltac:(rewrite L2; reflexivity) ltac:(discriminate)) as [cw [E [B G]]].
  pose proof (proj1 (call_size cw s ac ad bc bd E)) as S. destruct (C52_accepted _ (G ac ad bc bd) S) as [M [HM _]].
  exists cw, M. cbv zeta. split; [apply G|]. split; [exact S|]. cbn [call g_cw g_wa g_wb]. split; [rewrite E; exact B|]. rewrite !w0_bin. split; [apply b0_once|]. split; [apply b0_once|]. split; [exact HM|].
  split; [apply w0_in|]. split; [apply w0_in|]. intros Ha Hb Hc Hd. unfold comps. cbn [call g_s]. rewrite !nm2 by assumption. lia.
Qed.
(** a pair of calls that differ by a rotation of the fourth field, and one by an exchange of the first two, of the pairs *)
Example ex_rotated cw s u v ac ad bc bd : sp_d s <> 0%Z ->
  rotated_d u v (call cw s 3 ac ad bc bd) (call cw s 3 ac (fun l i m => comb u v m (ad l i 0%nat) (ad l i 1%nat)) bc (fun l i m => comb u v m (bd l i 0%nat) (bd l i 1%nat))).
Proof.
  intro H. pose proof (nm2 s.(sp_d) H) as N. constructor; [exact H | constructor; reflexivity | | | reflexivity | reflexivity];
    cbn [call g_s g_k g_c four_cls cl_ad cl_bd]; rewrite N; intros l i m Hl Hi Hm; rewrite !cls_at by (try assumption; lia); reflexivity.
Qed.
Example ex_swapped cw cw' s ac ad bc bd : cw_lmax cw' = cw_lmax cw ->
  swapped1 (call cw s 3 ac ad bc bd) (call cw' (Spins (sp_b s) (sp_a s) (sp_c s) (sp_d s)) 3 bc bd ac ad) /\
  swapped2 (call cw s 3 ac ad bc bd) (call cw' (Spins (sp_a s) (sp_b s) (sp_d s) (sp_c s)) 3 ad ac bd bc).
Proof.
  intro E. split; constructor; cbn [call g_s g_c g_cw g_wa g_wb four_cls cl_ac cl_ad cl_bc cl_bd sp_a sp_b sp_c sp_d]; try reflexivity; exact E.
Qed.
Lemma cls_tr n1 n2 k c : transposed n1 n2 k (cls n1 n2 k c) (cls n2 n1 k (fun l i j => c l j i)).
Proof.
  split; [apply cls_rect|]. intros l i j Hi Hj. destruct (Nat.ltb_spec l k) as [Hl|Hl]; [rewrite !cls_at by assumption; reflexivity|].
  unfold spc, entry2. assert (Q : forall a b c' r, nth l (nth r (cls a b k c') []) 0 = 0).
  { intros a b c' r. apply nth_overflow. destruct (Nat.ltb_spec r (a * b)) as [Hr|Hr]; [unfold cls; rewrite nth_tab, length_tab by exact Hr; exact Hl | rewrite nth_overflow by (unfold cls; rewrite length_tab; exact Hr); cbn; lia]. }
  rewrite !Q. reflexivity.
Qed.
Example ex_exchanged cw s ac ad bc bd :
  exchanged (call cw s 3 ac ad bc bd) (call cw (Spins (sp_c s) (sp_d s) (sp_a s) (sp_b s)) 3 (fun l i j => ac l j i) (fun l i j => bc l j i) (fun l i j => ad l j i) (fun l i j => bd l j i)).
Proof. constructor; cbn [call g_s g_k g_c g_cw g_wa g_wb four_cls cl_ac cl_ad cl_bc cl_bd sp_a sp_b sp_c sp_d]; try reflexivity; apply cls_tr. Qed.
(** C55: entries of the coupled covariance outside the bandpowers are never written *)
Theorem C55_unwritten_refuted : pi <> 0 -> exists (g : covargs) p M, good g /\ built (g_cw g) p p (cw_lmax (g_cw g)) 3 false /\ (coupled_size g <= int_max)%Z /\ cov g true = Ok (Coupled M) /\
  (0 < length M)%nat /\ (0 < length (nth 0 M []))%nat /\ centry M 0 0 = None.
Proof.
  intro Hpi. destruct (ex_calls (Spins 0 0 0 0) (fun _ _ _ => 1) (fun _ _ _ => 1) (fun _ _ _ => 1) (fun _ _ _ => 1) p_one p_one Hpi eq_refl eq_refl) as [cw [M [G [S [B [Oa [Ob [E [_ [_ _]]]]]]]]]].
  eexists. exists p_one, M. split; [exact G|]. split; [exact B|]. split; [exact S|]. split; [exact E|].
  destruct (C52_accepted _ G S) as [M' [E' [L1 L2]]]. assert (M' = M) by congruence. subst M'.
  assert (Lm : cw_lmax cw = 3%Z). { destruct B as [_ [_ [L _]]]. pose proof (fi_k _ _ _ _ (gd_fits _ G)) as Q. pose proof (wf_lmax _ _ _ _ (gd_a _ G)) as W. cbn [call g_cw g_k g_wa] in Q, W. rewrite w0_bin in W. cbn in W. unfold nle in Q. change (Z.to_nat (3 + 1)) with 4%nat in Q. lia. }
  assert (P : (0 < length M)%nat) by (rewrite L1; unfold nle; cbn [call g_cw g_wa]; rewrite Lm; cbn; lia).
  split; [exact P|]. split.
  - rewrite (L2 (nth 0 M [])) by (apply nth_In; exact P). unfold nle. cbn [call g_cw g_wb]. rewrite Lm. cbn. lia.
  - change 0%nat with (row (call cw (Spins 0 0 0 0) 3 (fun _ _ _ => 1) (fun _ _ _ => 1) (fun _ _ _ => 1) (fun _ _ _ => 1)) 0 0 0) at 1.
    change 0%nat with (col (call cw (Spins 0 0 0 0) 3 (fun _ _ _ => 1) (fun _ _ _ => 1) (fun _ _ _ => 1) (fun _ _ _ => 1)) 0 0 0) at 4.
    rewrite (coupled_at _ 0 0 0 0 0 0 G S); [reflexivity | unfold comps; cbn; lia | unfold nle; cbn [call g_cw]; rewrite Lm; cbn; lia | unfold nle; cbn [call g_cw]; rewrite Lm; cbn; lia | exact E].
Qed.
(** C56: the covariance of two spin-2 fields at lmax = 12287 (Nside 4096) cannot be asked for *)
Theorem C56_overflow_refuted : pi <> 0 -> exists (g : covargs) p, good g /\ built (g_cw g) p p (cw_lmax (g_cw g)) 12287 false /\ cw_lmax (g_cw g) = 12287%Z /\ cov g true = Exn ValueError.
Proof.
  intro Hpi. set (p := repeat (1 : F) (Z.to_nat 12288)). assert (Lp : Z.of_nat (length p) = (12287 + 1)%Z) by (unfold p; rewrite repeat_length; rewrite Z2Nat.id; lia). clearbody p.
  destruct (call_good (Spins 2 2 2 2) 12287 p p false Hpi ltac:(lia) Lp Lp ltac:(discriminate)) as [cw [E [B G]]].
  exists (call cw (Spins 2 2 2 2) 12287 (fun _ _ _ => 1) (fun _ _ _ => 1) (fun _ _ _ => 1) (fun _ _ _ => 1)), p.
  split; [apply G|]. split; [cbn [call g_cw]; rewrite E; exact B|]. split; [exact E|]. apply C56_too_large_rejected; [apply G|].
  unfold coupled_size, int_max. cbn [call g_cw g_wa g_wb]. rewrite E. unfold ncl. change (w_ncls (w0 (nm (sp_a (Spins 2 2 2 2)) * nm (sp_b (Spins 2 2 2 2))))) with 4%nat. change (w_ncls (w0 (nm (sp_c (Spins 2 2 2 2)) * nm (sp_d (Spins 2 2 2 2))))) with 4%nat. lia.
Qed.
(** C72: unit masks *)
Example ex_unit_sky : unit_sky pi [(1 + 1 + 1 + 1) * pi; 0; 0; 0].
Proof. split; [reflexivity|]. intros n Hn. destruct n as [|[|[|[|n]]]]; try lia; try reflexivity. cbn. destruct n; reflexivity. Qed.
(** C73: BB has no variance but a negative covariance with EE *)
Lemma sum4_pos (f : nat -> F) : (forall n, (n < 4)%nat -> 0 <= f n) -> 0 < f 1%nat -> 0 < sum 4 f.
Proof.
  intros T T1. cbn [sum]. assert (AN : forall a b : F, 0 <= a -> 0 <= b -> 0 <= a + b) by (intros a b Ha Hb; replace (0 : F) with (0 + 0 : F) by ring; apply fle_add; assumption).
  replace (0 + f 0%nat + f 1%nat + f 2%nat + f 3%nat) with (f 1%nat + (f 0%nat + (f 2%nat + f 3%nat))) by ring. replace (0 : F) with (0 + 0 : F) by ring. apply flt_le_add; [exact T1|].
  apply AN; [apply T; lia|]. apply AN; apply T; lia.
Qed.
Definition e_only (l i j : nat) : F := if Nat.eqb i 0 && Nat.eqb j 0 then 1 else 0.
Theorem C73_cauchy_schwarz_refuted : 0 < pi -> w3j 2 2 2 (-2) 1 <> 0 -> exists (g : covargs) p M x v, good g /\ auto g /\ built (g_cw g) p p (cw_lmax (g_cw g)) 3 false /\ (forall n, 0 <= nth n p 0) /\
  cov g true = Ok (Coupled M) /\ in_bins (g_wa g) v /\ el v = 2%nat /\
  centry M (row g 2 1 1) (col g 2 1 1) = Some 0 /\ centry M (row g 2 0 0) (col g 2 1 1) = Some x /\ x < 0.
Proof.
  intros Hpi Hw. assert (Np : pi <> 0) by (apply fpos_neq; exact Hpi).
  destruct (ex_calls (Spins 2 2 2 2) e_only e_only e_only e_only p_one p_one Np eq_refl eq_refl) as [cw [M [G [S [B [Oa [Ob [E [I2 [_ _]]]]]]]]]].
  set (g := call cw (Spins 2 2 2 2) 3 e_only e_only e_only e_only) in *.
  assert (A : auto g).
  { constructor; [repeat split | repeat split | reflexivity |]. intros l i j Hl Hi Hj. cbn [g call g_c g_s g_k four_cls cl_ac sp_a] in *. rewrite !cls_at by assumption. unfold e_only. rewrite andb_comm. reflexivity. }
  assert (Z0 : forall l i j, (l < g_k g)%nat -> (i < 2)%nat -> (j < 2)%nat -> (i <> 0 \/ j <> 0)%nat -> spc (cl_ac (g_c g)) 2 l i j = 0).
  { intros l i j Hl Hi Hj H. pose proof (cls_at 2 2 (g_k g) e_only l i j Hi Hj Hl) as Q. etransitivity; [exact Q|]. unfold e_only. destruct i, j; cbn; try reflexivity. lia. }
  destruct (C73_ee_bb fsqrt fexp flog pi w3j g p_one 3 false M G S A B ltac:(discriminate) Z0 Oa E e2 e2 I2 I2) as [V1 V2].
  exists g, p_one, M. eexists. exists e2. split; [exact G|]. split; [exact A|]. split; [exact B|].
  split; [intro n; destruct n as [|[|[|[|n]]]]; cbn; try apply f0_le_1; destruct n; apply fle_refl|]. split; [exact E|]. split; [exact I2|]. split; [reflexivity|].
  split; [exact V2|]. split; [exact V1|].
  change (el e2) with 2%nat. cbn [e2 e_f]. set (X := Xmm pi w3j p_one 3 2 2).
  assert (C : entry2 (cl_ac (g_c g)) 0 2 = 1) by reflexivity. rewrite C.
  assert (PX : 0 < X).
  { unfold X, Xmm, kern. cbn [Nat.min Nat.max]. change (Z.to_nat (3 + 1)) with 4%nat. unfold p_one.
    assert (P4 : 0 < (1 + 1 + 1 + 1) * pi) by (apply fmul_pos; [replace (1 + 1 + 1 + 1 : F) with (fofZ 4 : F) by (cbn; ring); apply fofZ_pos; lia | exact Hpi]).
    assert (T : forall n, (n < 4)%nat -> 0 <= nth n [1; 1; 1; 1] (0 : F) * fofnat (2 * n + 1) / ((1 + 1 + 1 + 1) * pi) * (odd (Z.of_nat 2) (Z.of_nat 2) (Z.of_nat n) * (J3 w3j 2 (Z.of_nat 2) (Z.of_nat 2) (Z.of_nat n) * J3 w3j 2 (Z.of_nat 2) (Z.of_nat 2) (Z.of_nat n)))).
    { intros n Hn. apply fmul_nonneg; [|apply fmul_nonneg; [apply par_nonneg | apply fsqr_nonneg]]. apply fdiv_nonneg; [|exact P4]. apply fmul_nonneg; [|apply fofnat_nonneg].
      destruct n as [|[|[|[|n]]]]; cbn; try apply f0_le_1; lia. }
    assert (T1 : 0 < nth 1 [1; 1; 1; 1] (0 : F) * fofnat (2 * 1 + 1) / ((1 + 1 + 1 + 1) * pi) * (odd (Z.of_nat 2) (Z.of_nat 2) (Z.of_nat 1) * (J3 w3j 2 (Z.of_nat 2) (Z.of_nat 2) (Z.of_nat 1) * J3 w3j 2 (Z.of_nat 2) (Z.of_nat 2) (Z.of_nat 1)))).
    { assert (O : odd (F:=F) (Z.of_nat 2) (Z.of_nat 2) (Z.of_nat 1) = 1) by reflexivity. assert (J : J3 w3j 2 (Z.of_nat 2) (Z.of_nat 2) (Z.of_nat 1) = w3j 2%Z 2%Z 2%Z (-2)%Z 1%Z) by reflexivity. rewrite O, J.
      apply fmul_pos; [|apply fmul_pos; [apply f0_lt_1|]].
      - rewrite (Fdiv_def (fth F)). apply fmul_pos; [apply fmul_pos; [apply f0_lt_1 | apply fofnat_pos; lia] | apply finv_pos; exact P4].
      - apply fle_neq_lt; [apply fsqr_nonneg|]. intro Q. symmetry in Q. apply fmul_eq_0 in Q. tauto. }
    apply sum4_pos; [exact T | exact T1]. }
  clearbody X. apply flt_sub_0. replace (0 - - (1 * 1 * (X * (1 * 1) + X * (1 * 1)))) with (X + X) by ring. replace (0 : F) with (0 + 0 : F) by ring. apply flt_le_add; [exact PX | apply flt_le; exact PX].
Qed.
End Any.

(** ** Decoupled covariances and workspaces made from fields, over the rationals *)
Section Rat.
Local Notation Q := Qc_field.
Local Notation id1 := (fun _ : Q => qz 1).
Local Notation id0 := (fun _ : Q => qz 0).
Definition w1 (l2 l3 m2 m3 l1 : Z) : Q := qz 1.
Definition zj (_ : Z) : Q := qz 0.
Definition pq : Q := q 1 4.
Definition dcw : cwsp Q := CWsp 0 None false ([], []) ([], []) ([], []) ([], []).
Definition cwq (p1 p2 : list Q) : cwsp Q := from_ok dcw (covar_workspace_init_py id1 id1 id0 pq zj w1 p1 p2 3 3 (-1) (-1) (-1) false).
Definition pa : list Q := map qz [3; 1; 2; 1]%Z.
Definition pb : list Q := map qz [2; 0; 1; 0]%Z.
Definition ccl (a : Z) (l i j : nat) : Q := qz (a + Z.of_nat (l * l) + 2 * Z.of_nat (i * j) + Z.of_nat (i + j))%Z.
Definition gq (s : spins4) (p1 p2 : list Q) : covargs (F:=Q) := call (cwq p1 p2) s 3 (ccl 1) (ccl 2) (ccl 3) (ccl 4).
Definition shown (x : res (covmat Q)) : list (list QArith_base.Q) := match x with Ok (Decoupled d) => map (map out) d | _ => [] end.
Lemma pq_nz : pq <> f0.
Proof. intro E. apply (f_equal out) in E. vm_compute in E. discriminate E. Qed.
Lemma cwq_built : forall p1 p2, In (p1, p2) [(pa, pb); (pb, pa)] -> cw_lmax (cwq p1 p2) = 3%Z /\ P_Covar.built id1 id1 id0 pq w1 (cwq p1 p2) p1 p2 3 3 false /\ forall s ac ad bc bd, good (call (cwq p1 p2) s 3 ac ad bc bd).
Proof.
  intros p1 p2 I. assert (L : Z.of_nat (length p1) = (3 + 1)%Z /\ Z.of_nat (length p2) = (3 + 1)%Z) by (destruct I as [I|[I|[]]]; injection I as <- <-; split; reflexivity). destruct L as [L1 L2].
  destruct (init_ok id1 id1 id0 pq w1 zj p1 p2 3 3 (-1) (-1) (-1) false pq_nz ltac:(lia) L1 L2 ltac:(unfold tplz_ok; lia)) as [cw [E [C1 [C2 [C3 [C4 _]]]]]].
  assert (W : cwq p1 p2 = cw) by (unfold cwq; rewrite E; reflexivity). rewrite W. split; [exact C1|]. split.
  { split; [exact pq_nz|]. split; [lia|]. split; [exact L1|]. split; [exact L2|]. exists zj, (-1)%Z, (-1)%Z, (-1)%Z. split; [lia | exact E]. }
  intros s ac ad bc bd. constructor; cbn [call g_cw g_s g_k g_c g_wa g_wb four_cls cl_ac cl_ad cl_bc cl_bd].
  - constructor; cbn [cl_ac cl_ad cl_bc cl_bd]; try apply cls_rect; try (rewrite C1; lia); try (apply C4; cbn; auto 6). unfold nle. rewrite C1. cbn. lia.
  - rewrite C1. apply w0_fit; [apply nm_pos | apply nm_pos | lia].
  - rewrite C1. apply w0_fit; [apply nm_pos | apply nm_pos | lia].
  - rewrite C3. discriminate.
  - intros t Ht. apply C4. exact Ht.
Qed.
Definition okd (x : res (covmat Q)) : bool := match x with Ok (Decoupled _) => true | _ => false end.
(** two scalar fields and two polarised ones: all the hypotheses of C53, C54 and C55 for the binned covariance *)
Example ex_decoupled : let g := gq (Spins 0 2 0 2) pa pb in good g /\ (decoupled_size g <= int_max)%Z /\ okd (cov g false) = true /\ invertible g /\
  map (fun r => nth 0 r 0%Q) (shown (cov g false)) = [14; 21; 290; 320]%Q.
Proof.
  cbv zeta. destruct (cwq_built pa pb ltac:(cbn; auto)) as [L [B G]]. split; [apply G|]. split; [eapply call_size; try exact w1; try exact pq; try exact id1; exact L|].
  assert (O : okd (cov (gq (Spins 0 2 0 2) pa pb) false) = true) by (vm_compute; reflexivity). split; [exact O|]. split.
  - apply C55_accepted; [apply G | eapply call_size; try exact w1; try exact pq; try exact id1; exact L|]. fold (gq (Spins 0 2 0 2) pa pb). destruct (cov (gq (Spins 0 2 0 2) pa pb) false) as [[M|D]|e|]; try discriminate O. exists D. reflexivity.
  - vm_compute. reflexivity.
Qed.
(** four copies of one field, with the transforms of P_Field7 *)
Definition fa : nfield Q := from_ok dummy (new (toy 0) expar (exargs [exmap 2 1] TNone false false false false)).
Definition alm_fa : list Q := from_ok [] (do m <- sht (toy 0) 0 (f_info fa) (f_lmaxm fa) (f_niterm fa) [vmul (f_mask fa) (f_mask fa)]; match m with [x] => Ok x | _ => UB end).
Example ex_from_fields : four pq fa fa fa fa (-1) (-1) (-1) /\ prod_alm (toy 0) fa fa alm_fa /\ same_geometry fa fa /\ is_compatible fa fa true = true.
Proof.
  split; [|split; [|split]].
  - assert (I : f_mask_a fa = None) by (vm_compute; reflexivity). assert (C : is_compatible fa fa true = true) by (vm_compute; reflexivity). constructor; [apply pq_nz | exact (conj I (conj I (conj I I))) | exact (conj C (conj C C)) | split; vm_compute; discriminate | vm_compute; reflexivity].
  - split; [reflexivity|]. split; [|vm_compute; reflexivity]. assert (E : match sht (toy 0) 0 (f_info fa) (f_lmaxm fa) (f_niterm fa) [vmul (f_mask fa) (f_mask fa)] with Ok [x] => true | _ => false end = true) by (vm_compute; reflexivity).
    unfold alm_fa. destruct (sht (toy 0) 0 (f_info fa) (f_lmaxm fa) (f_niterm fa) [vmul (f_mask fa) (f_mask fa)]) as [[|x [|y m]]|e|]; try discriminate E. reflexivity.
  - repeat split.
  - vm_compute. reflexivity.
Qed.
End Rat.
Print Assumptions C52_accepted. Print Assumptions C52_coupled_value. Print Assumptions C52_scalar. Print Assumptions C52_from_fields.
Print Assumptions C53_coupled_transpose. Print Assumptions C53_decoupled_transpose. Print Assumptions C53_auto_symmetric. Print Assumptions C53_from_fields.
Print Assumptions C54_first_pair. Print Assumptions C54_second_pair. Print Assumptions C54_first_pair_binned. Print Assumptions C54_from_fields.
Print Assumptions C55_accepted. Print Assumptions C55_sandwich. Print Assumptions C55_unique. Print Assumptions C55_unwritten. Print Assumptions C55_unwritten_refuted.
Print Assumptions C56_not_computed. Print Assumptions C56_wrong_workspace. Print Assumptions C56_wrong_number. Print Assumptions C56_no_covariance_workspace. Print Assumptions C56_too_short.
Print Assumptions C56_lite_workspace. Print Assumptions C56_unequal_lengths. Print Assumptions C56_multipoles_beyond_lmax. Print Assumptions C56_spin0_only. Print Assumptions C56_too_large. Print Assumptions C56_overflow_refuted.
Print Assumptions C71_rotation_first. Print Assumptions C71_rotation_second. Print Assumptions C71_rotation_third. Print Assumptions C71_rotation_fourth.
Print Assumptions C72_full_sky. Print Assumptions C72_full_sky_low. Print Assumptions C73_variance_nonneg. Print Assumptions C73_ee_bb. Print Assumptions C73_cauchy_schwarz_refuted.
