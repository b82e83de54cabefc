(** Covariance: exchanging fields within a pair, the workspace made from fields, and the checks of the arguments. *)
From Coq Require Import QArith Qcanon.
From Verif Require Import Base M_Bins M_LinAlg M_Workspace M_MCM M_Utils M_Field M_Cell M_Covar L_Bins L_Bins2 L_Bins3 P_Bins L_LinAlg L_Workspace P_Workspace L_MCM L_MCM2 L_MCM3 P_MCM L_Cell L_Covar L_Covar2 P_Covar P_Covar2.
Open Scope nat_scope.

Section PCovar3.
Context {F : ofield}.
Local Open Scope F_scope.
Add Field FfPCo3 : (fth F).
Notation mat := (list (list F)).
Notation el := L_Workspace.el.
Notation covargs := (covargs (F:=F)).

(** ** C54 *)
(** position after exchanging the fields of a pair with n1 and n2 components *)
Definition flip (n1 n2 r : nat) : nat := cpos n2 n1 (r / (n1 * n2)) ((r mod (n1 * n2)) mod n2) (r mod (n1 * n2) / n2).
Lemma flip_cpos n1 n2 l i j : (i < n1)%nat -> (j < n2)%nat -> flip n1 n2 (cpos n1 n2 l i j) = cpos n2 n1 l j i.
Proof. intros Hi Hj. unfold flip. destruct (cpos_split n1 n2 l i j Hi Hj) as [-> [-> ->]]. reflexivity. Qed.
Lemma flip_lt n1 n2 L r : (1 <= n1)%nat -> (1 <= n2)%nat -> (r < n1 * n2 * L)%nat -> (flip n1 n2 r < n1 * n2 * L)%nat.
Proof. intros H1 H2 Hr. destruct (split_idx n1 n2 r L H1 H2 Hr) as [I1 [I2 I3]]. rewrite (Nat.mul_comm n1 n2). apply cpos_lt; assumption. Qed.
Lemma sum_cpos n1 n2 L (f : nat -> F) : sum (n1 * n2 * L) f = sum L (fun l => sum n1 (fun i => sum n2 (fun j => f (cpos n1 n2 l i j)))).
Proof.
  rewrite (Nat.mul_comm (n1 * n2) L), sum_flat. apply sum_ext. intros l _. rewrite sum_flat. apply sum_ext. intros i _. apply sum_ext. intros j _. reflexivity.
Qed.
Lemma sum_flip n1 n2 L (f : nat -> F) : sum (n1 * n2 * L) (fun r => f (flip n1 n2 r)) = sum (n1 * n2 * L) f.
Proof.
  rewrite sum_cpos. rewrite (Nat.mul_comm n1 n2), sum_cpos. apply sum_ext. intros l _. rewrite sum_swap. apply sum_ext. intros j Hj. apply sum_ext. intros i Hi.
  rewrite flip_cpos by assumption. reflexivity.
Qed.
(** a relabelling of rows and columns of everything relabels the result *)
Lemma relabel (g h : covargs) D D' (st tt : nat -> nat) : good g -> good h -> (decoupled_size g <= int_max)%Z -> (decoupled_size h <= int_max)%Z ->
  na h = na g -> nb h = nb g ->
  (forall r, (r < na g)%nat -> (st r < na g)%nat) -> (forall q, (q < nb g)%nat -> (tt q < nb g)%nat) ->
  (forall f : nat -> F, sum (na g) (fun r => f (st r)) = sum (na g) f) -> (forall f : nat -> F, sum (nb g) (fun q => f (tt q)) = sum (nb g) f) ->
  (forall r r', (r < na g)%nat -> (r' < na g)%nat -> ma h (st r) (st r') = ma g r r') -> (forall q q', (q < nb g)%nat -> (q' < nb g)%nat -> mbb h (tt q) (tt q') = mbb g q q') ->
  (forall r q, (r < na g)%nat -> (q < nb g)%nat -> bm h (st r) (tt q) = bm g r q) ->
  cov g false = Ok (Decoupled D) -> cov h false = Ok (Decoupled D') ->
  forall r q, (r < na g)%nat -> (q < nb g)%nat -> entry2 D' (st r) (tt q) = entry2 D r q.
Proof.
  intros G H Sg Sh Na Nb Bs Bt Ps Pt Hma Hmb Hbm Eg Eh r q Hr Hq.
  pose proof (decoupled_solves g D G Sg Eg) as S1. pose proof (decoupled_solves h D' H Sh Eh) as S2.
  assert (I : invertible g) by (apply C55_accepted; eauto).
  set (D2 := tab (na g) (fun r => tab (nb g) (fun q => entry2 D' (st r) (tt q)))).
  assert (E2 : forall r q, (r < na g)%nat -> (q < nb g)%nat -> entry2 D2 r q = entry2 D' (st r) (tt q)) by (intros; apply (entry_tab (na g) (nb g) (fun r q => entry2 D' (st r) (tt q))); assumption).
  assert (S3 : solves g D2).
  { intros r0 q0 Hr0 Hq0. rewrite <- Hbm by assumption. rewrite <- S2 by (rewrite ?Na, ?Nb; auto). rewrite Na, Nb.
    rewrite <- (Ps (fun r' => sum (nb g) (fun q' => ma h (st r0) r' * entry2 D' r' q' * mbb h (tt q0) q'))). apply sum_ext. intros r' Hr'.
    rewrite <- (Pt (fun q' => ma h (st r0) (st r') * entry2 D' (st r') q' * mbb h (tt q0) q')). apply sum_ext. intros q' Hq'.
    rewrite E2, Hma, Hmb by assumption. reflexivity. }
  rewrite <- E2 by assumption. apply (solves_unique g D2 D); assumption.
Qed.

Section Kernels.
Variables (fsqrt fexp flog : F -> F) (pi : F).
Variable w3j : Z -> Z -> Z -> Z -> Z -> F.
Notation built := (built fsqrt fexp flog pi w3j).
(** the call with the first two fields exchanged *)
Record swapped1 (g h : covargs) : Prop := {
  s1_s : g_s h = Spins (sp_b (g_s g)) (sp_a (g_s g)) (sp_c (g_s g)) (sp_d (g_s g));
  s1_c : g_c h = Cls (cl_bc (g_c g)) (cl_bd (g_c g)) (cl_ac (g_c g)) (cl_ad (g_c g));
  s1_l : cw_lmax (g_cw h) = cw_lmax (g_cw g);
  s1_wb : g_wb h = g_wb g;
  s1_bin : w_bin (g_wa h) = w_bin (g_wa g) }.
(** the call with the last two fields exchanged *)
Record swapped2 (g h : covargs) : Prop := {
  s2_s : g_s h = Spins (sp_a (g_s g)) (sp_b (g_s g)) (sp_d (g_s g)) (sp_c (g_s g));
  s2_c : g_c h = Cls (cl_ad (g_c g)) (cl_ac (g_c g)) (cl_bd (g_c g)) (cl_bc (g_c g));
  s2_l : cw_lmax (g_cw h) = cw_lmax (g_cw g);
  s2_wa : g_wa h = g_wa g;
  s2_bin : w_bin (g_wb h) = w_bin (g_wb g) }.
Lemma elem_swap1 (g h : covargs) p1 p2 lmm s0 s0' ia ib ic id la lb : good g -> good h -> swapped1 g h ->
  built (g_cw g) p1 p2 (cw_lmax (g_cw g)) lmm s0 -> built (g_cw h) p2 p1 (cw_lmax (g_cw h)) lmm s0' -> (la < nle (g_cw g))%nat -> (lb < nle (g_cw g))%nat ->
  elemv (g_cw h) (g_s h) (g_c h) ib ia ic id la lb = elemv (g_cw g) (g_s g) (g_c g) ia ib ic id la lb.
Proof.
  intros G H X B B' Ha Hb. assert (N : nle (g_cw h) = nle (g_cw g)) by (unfold nle; rewrite (s1_l g h X); reflexivity).
  rewrite (built_elem _ _ _ _ _ _ _ _ _ _ _ _ _ _ _ _ _ _ _ B (gd_s0 g G) Ha Hb).
  rewrite (built_elem _ _ _ _ _ _ _ _ _ _ _ _ _ _ _ _ _ _ _ B' (gd_s0 h H) ltac:(rewrite N; exact Ha) ltac:(rewrite N; exact Hb)).
  unfold wick. cbv zeta. rewrite (s1_s g h X), (s1_c g h X). cbn [sp_a sp_b sp_c sp_d cl_ac cl_ad cl_bc cl_bd].
  match goal with |- ?x + ?y = _ => transitivity (y + x); [ring|] end. f_equal; apply pairing_swap.
Qed.
Lemma elem_swap2 (g h : covargs) p1 p2 lmm s0 s0' ia ib ic id la lb : good g -> good h -> swapped2 g h ->
  built (g_cw g) p1 p2 (cw_lmax (g_cw g)) lmm s0 -> built (g_cw h) p2 p1 (cw_lmax (g_cw h)) lmm s0' -> (la < nle (g_cw g))%nat -> (lb < nle (g_cw g))%nat ->
  elemv (g_cw h) (g_s h) (g_c h) ia ib id ic la lb = elemv (g_cw g) (g_s g) (g_c g) ia ib ic id la lb.
Proof.
  intros G H X B B' Ha Hb. assert (N : nle (g_cw h) = nle (g_cw g)) by (unfold nle; rewrite (s2_l g h X); reflexivity).
  rewrite (built_elem _ _ _ _ _ _ _ _ _ _ _ _ _ _ _ _ _ _ _ B (gd_s0 g G) Ha Hb).
  rewrite (built_elem _ _ _ _ _ _ _ _ _ _ _ _ _ _ _ _ _ _ _ B' (gd_s0 h H) ltac:(rewrite N; exact Ha) ltac:(rewrite N; exact Hb)).
  unfold wick. cbv zeta. rewrite (s2_s g h X), (s2_c g h X). cbn [sp_a sp_b sp_c sp_d cl_ac cl_ad cl_bc cl_bd].
  match goal with |- ?x + ?y = _ => transitivity (y + x); [ring|reflexivity] end.
Qed.
Theorem C54_first_pair (g h : covargs) p1 p2 lmm s0 s0' M M' : good g -> good h -> swapped1 g h ->
  built (g_cw g) p1 p2 (cw_lmax (g_cw g)) lmm s0 -> built (g_cw h) p2 p1 (cw_lmax (g_cw h)) lmm s0' ->
  (coupled_size g <= int_max)%Z -> (coupled_size h <= int_max)%Z -> cov g true = Ok (Coupled M) -> cov h true = Ok (Coupled M') ->
  forall la ia ib lb ic id, (la < nle (g_cw g))%nat -> (lb < nle (g_cw g))%nat -> comps g ia ib ic id ->
    centry M' (row h la ib ia) (col g lb ic id) = centry M (row g la ia ib) (col g lb ic id).
Proof.
  intros G H X B B' Sg Sh Eg Eh la ia ib lb ic id Hla Hlb C. assert (N : nle (g_cw h) = nle (g_cw g)) by (unfold nle; rewrite (s1_l g h X); reflexivity).
  assert (C' : comps h ib ia ic id) by (destruct C as [? [? [? ?]]]; unfold comps; rewrite (s1_s g h X); cbn; auto).
  rewrite (coupled_at g ia ib ic id la lb G Sg C Hla Hlb M Eg).
  replace (col g) with (col h) by (unfold col; rewrite (s1_s g h X); reflexivity).
  rewrite (coupled_at h ib ia ic id la lb H Sh C' ltac:(rewrite N; exact Hla) ltac:(rewrite N; exact Hlb) M' Eh). rewrite (s1_wb g h X), (s1_bin g h X).
  destruct (find_ell (w_bin (g_wa g)) (Z.of_nat la)), (find_ell (w_bin (g_wb g)) (Z.of_nat lb)); try reflexivity. rewrite (elem_swap1 g h p1 p2 lmm s0 s0' ia ib ic id la lb) by assumption. reflexivity.
Qed.
Theorem C54_second_pair (g h : covargs) p1 p2 lmm s0 s0' M M' : good g -> good h -> swapped2 g h ->
  built (g_cw g) p1 p2 (cw_lmax (g_cw g)) lmm s0 -> built (g_cw h) p2 p1 (cw_lmax (g_cw h)) lmm s0' ->
  (coupled_size g <= int_max)%Z -> (coupled_size h <= int_max)%Z -> cov g true = Ok (Coupled M) -> cov h true = Ok (Coupled M') ->
  forall la ia ib lb ic id, (la < nle (g_cw g))%nat -> (lb < nle (g_cw g))%nat -> comps g ia ib ic id ->
    centry M' (row g la ia ib) (col h lb id ic) = centry M (row g la ia ib) (col g lb ic id).
Proof.
  intros G H X B B' Sg Sh Eg Eh la ia ib lb ic id Hla Hlb C. assert (N : nle (g_cw h) = nle (g_cw g)) by (unfold nle; rewrite (s2_l g h X); reflexivity).
  assert (C' : comps h ia ib id ic) by (destruct C as [? [? [? ?]]]; unfold comps; rewrite (s2_s g h X); cbn; auto).
  rewrite (coupled_at g ia ib ic id la lb G Sg C Hla Hlb M Eg).
  replace (row g) with (row h) by (unfold row; rewrite (s2_s g h X); reflexivity).
  rewrite (coupled_at h ia ib id ic la lb H Sh C' ltac:(rewrite N; exact Hla) ltac:(rewrite N; exact Hlb) M' Eh). rewrite (s2_wa g h X), (s2_bin g h X).
  destruct (find_ell (w_bin (g_wa g)) (Z.of_nat la)), (find_ell (w_bin (g_wb g)) (Z.of_nat lb)); try reflexivity. rewrite (elem_swap2 g h p1 p2 lmm s0 s0' ia ib ic id la lb) by assumption. reflexivity.
Qed.
(** binned covariance: the binned coupling matrix of the exchanged pair is the relabelled one *)
Theorem C54_first_pair_binned (g h : covargs) p1 p2 lmm s0 s0' D D' : good g -> good h -> swapped1 g h ->
  built (g_cw g) p1 p2 (cw_lmax (g_cw g)) lmm s0 -> built (g_cw h) p2 p1 (cw_lmax (g_cw h)) lmm s0' ->
  (decoupled_size g <= int_max)%Z -> (decoupled_size h <= int_max)%Z -> cov g false = Ok (Decoupled D) -> cov h false = Ok (Decoupled D') ->
  let n1 := nm (sp_a (g_s g)) in let n2 := nm (sp_b (g_s g)) in
  (forall b i j b' i' j', (b < nbands (g_wa g))%nat -> (b' < nbands (g_wa g))%nat -> (i < n1)%nat -> (j < n2)%nat -> (i' < n1)%nat -> (j' < n2)%nat ->
     entry2 (w_mb (g_wa h)) (cpos n2 n1 b j i) (cpos n2 n1 b' j' i') = entry2 (w_mb (g_wa g)) (cpos n1 n2 b i j) (cpos n1 n2 b' i' j')) ->
  forall b i j q, (b < nbands (g_wa g))%nat -> (i < n1)%nat -> (j < n2)%nat -> (q < nb g)%nat ->
    entry2 D' (cpos n2 n1 b j i) q = entry2 D (cpos n1 n2 b i j) q.
Proof.
  intros G H X B B' Sg Sh Eg Eh n1 n2 Hp b i j q Hb Hi Hj Hq.
  pose proof (wf_ncls _ _ _ _ (gd_a g G)) as Ng. pose proof (wf_ncls _ _ _ _ (gd_a h H)) as Nh. rewrite (s1_s g h X) in Nh. cbn [sp_a sp_b] in Nh. fold n1 n2 in Ng, Nh.
  assert (Nb : nbands (g_wa h) = nbands (g_wa g)) by (unfold nbands; rewrite (s1_bin g h X); reflexivity).
  assert (E1 : na g = (n1 * n2 * nbands (g_wa g))%nat) by (unfold na; rewrite Ng; reflexivity).
  assert (E2 : na h = na g) by (unfold na; rewrite Ng, Nh, Nb; lia). assert (E3 : nb h = nb g) by (unfold nb; rewrite (s1_wb g h X); reflexivity).
  assert (P1 : (1 <= n1)%nat) by apply nm_pos. assert (P2 : (1 <= n2)%nat) by apply nm_pos.
  assert (Un : forall r, (r < na g)%nat -> exists b i j, r = cpos n1 n2 b i j /\ (b < nbands (g_wa g))%nat /\ (i < n1)%nat /\ (j < n2)%nat).
  { intros r Hr. rewrite E1 in Hr. destruct (split_idx n1 n2 r _ P1 P2 Hr) as [I1 [I2 I3]]. exists (r / (n1 * n2))%nat, (r mod (n1 * n2) / n2)%nat, ((r mod (n1 * n2)) mod n2)%nat.
    split; [|repeat split; assumption]. unfold cpos. rewrite <- (Nat.div_mod (r mod (n1 * n2)) n2) by lia. rewrite <- (Nat.div_mod r (n1 * n2)) by nia. reflexivity. }
  rewrite <- (flip_cpos n1 n2 b i j) by assumption.
  apply (relabel g h D D' (flip n1 n2) (fun q => q)); try assumption; try (intros; reflexivity).
  - intros r Hr. rewrite E1 in *. apply flip_lt; assumption.
  - auto.
  - intro f. rewrite E1. apply sum_flip.
  - intros r r' Hr Hr'. destruct (Un r Hr) as [b1 [i1 [j1 [-> [Q1 [Q2 Q3]]]]]]. destruct (Un r' Hr') as [b2 [i2 [j2 [-> [Q4 [Q5 Q6]]]]]].
    rewrite !flip_cpos by assumption. apply Hp; assumption.
  - intros q1 q2 _ _. unfold mbb. rewrite (s1_wb g h X). reflexivity.
  - intros r q0 Hr Hq0. destruct (Un r Hr) as [b1 [i1 [j1 [-> [Q1 [Q2 Q3]]]]]]. rewrite flip_cpos by assumption. unfold bm. rewrite (s1_wb g h X), Nh, Ng.
    destruct (cpos_split n2 n1 b1 j1 i1 Q3 Q2) as [T1 [T2 T3]]. destruct (cpos_split n1 n2 b1 i1 j1 Q2 Q3) as [T4 [T5 T6]].
    unfold binnedv. assert (Eb : nm (sp_b (g_s h)) = n1) by (rewrite (s1_s g h X); reflexivity). assert (Ed : nm (sp_d (g_s h)) = nm (sp_d (g_s g))) by (rewrite (s1_s g h X); reflexivity).
    rewrite Eb, Ed. fold n2. rewrite (Nat.mul_comm n2 n1) in *. rewrite T1, T2, T3, T4, T5, T6. replace (band (g_wa h) b1) with (band (g_wa g) b1) by (unfold band; rewrite (s1_bin g h X); reflexivity).
    apply lsum_ext. intros ea Hea. apply lsum_ext. intros eb Heb.
    pose proof (band_fit _ _ _ _ _ _ (gd_a g G) Q1 Hea) as La.
    assert (Lb : (0 <= e_ell eb <= cw_lmax (g_cw g))%Z).
    { apply (band_fit _ _ _ _ (q0 / w_ncls (g_wb g)) _ (gd_b g G)); [|exact Heb]. pose proof (wf_ncls _ _ _ _ (gd_b g G)) as W. pose proof (nm_pos (sp_c (g_s g))) as V1. pose proof (nm_pos (sp_d (g_s g))) as V2. clear - Hq0 W V1 V2. unfold nb in Hq0. apply Nat.div_lt_upper_bound; nia. }
    assert (Ma : (el ea < nle (g_cw g))%nat) by (clear -La; unfold L_Workspace.el, nle; lia). assert (Mb : (el eb < nle (g_cw g))%nat) by (clear -Lb; unfold L_Workspace.el, nle; lia).
    f_equal. apply (elem_swap1 g h p1 p2 lmm s0 s0'); assumption.
  - rewrite E1. apply cpos_lt; assumption.
Qed.
End Kernels.
End PCovar3.
