(** Symmetries of the covariance, and the relation of its binned and unbinned versions. *)
From Coq Require Import QArith Qcanon.
From Verif Require Import Base M_Bins M_LinAlg M_Workspace M_MCM M_Utils M_Field M_Cell M_Covar L_Bins L_Bins2 L_Bins3 P_Bins L_LinAlg L_Workspace P_Workspace L_MCM L_MCM2 L_MCM3 P_MCM L_Covar L_Covar2 P_Covar.
Open Scope nat_scope.

Section PCovar2.
Context {F : ofield}.
Local Open Scope F_scope.
Add Field FfPCo2 : (fth F).
Notation mat := (list (list F)).
Notation el := L_Workspace.el.
Notation covargs := (covargs (F:=F)).

(** ** Inverses *)
Lemma inv_lr n (A B : mat) : square n A -> lu_invert A = Ok B -> square n B /\ nonsingular n A /\
  (forall i j, (i < n)%nat -> (j < n)%nat -> sum n (fun k => entry2 A i k * entry2 B k j) = kron i j) /\
  (forall i j, (i < n)%nat -> (j < n)%nat -> sum n (fun k => entry2 B i k * entry2 A k j) = kron i j).
Proof.
  intros Hs E. pose proof (lu_invert_spec n A Hs) as S. rewrite E in S. destruct S as [HB [N H]]. split; [exact HB|]. split; [exact N|].
  assert (U : forall i j, (i < n)%nat -> nth i (unit_vec n j : list F) 0 = kron i j) by (intros i j Hi; unfold unit_vec; rewrite nth_tab by exact Hi; reflexivity).
  assert (MU : forall (C : mat) i j, square n C -> (i < n)%nat -> (j < n)%nat -> nth i (matvec C (unit_vec n j)) 0 = entry2 C i j).
  { intros C i j HC Hi Hj. rewrite (nth_matvec n) by first [assumption | apply length_unit_vec].
    rewrite (sum_ext n _ (fun k => kron k j * entry2 C i k)) by (intros k Hk; rewrite U by exact Hk; ring). apply sum_kron. exact Hj. }
  assert (LB : forall v, length (matvec B v) = n) by (intro v; rewrite length_matvec; apply HB).
  assert (LA : forall v, length (matvec A v) = n) by (intro v; rewrite length_matvec; apply Hs).
  split; intros i j Hi Hj.
  - pose proof (H (unit_vec n j) (length_unit_vec n j)) as S. apply (lu_solve_iff n) in S; [|exact Hs | apply length_unit_vec]. destruct S as [_ [_ S]].
    apply (f_equal (fun l => nth i l 0)) in S. rewrite (nth_matvec n) in S by (try assumption; apply LB). rewrite U in S by exact Hi. rewrite <- S.
    apply sum_ext. intros k Hk. f_equal. symmetry. apply MU; assumption.
  - assert (S : lu_solve A (matvec A (unit_vec n j)) = Ok (unit_vec n j)) by (apply (lu_solve_unique n); try assumption; [apply LA | apply length_unit_vec | reflexivity]).
    rewrite H in S by apply LA. injection S as S. apply (f_equal (fun l => nth i l 0)) in S. rewrite (nth_matvec n) in S by (try assumption; apply LA).
    rewrite U in S by exact Hi. rewrite <- S. apply sum_ext. intros k Hk. f_equal. symmetry. apply MU; assumption.
Qed.
Lemma inv_exists n (A : mat) : square n A -> nonsingular n A -> exists B, lu_invert A = Ok B.
Proof. intros Hs N. pose proof (lu_invert_spec n A Hs) as S. destruct (lu_invert A) as [B|e|]; [eauto | destruct S | destruct S as [_ S]; contradiction]. Qed.

(** ** The binned covariance *)
Definition na (g : covargs) : nat := (w_ncls (g_wa g) * nbands (g_wa g))%nat.
Definition nb (g : covargs) : nat := (w_ncls (g_wb g) * nbands (g_wb g))%nat.
Definition ma (g : covargs) : nat -> nat -> F := entry2 (w_mb (g_wa g)).
Definition mbb (g : covargs) : nat -> nat -> F := entry2 (w_mb (g_wb g)).
Definition invertible (g : covargs) : Prop := nonsingular (na g) (w_mb (g_wa g)) /\ nonsingular (nb g) (w_mb (g_wb g)).
Definition bm (g : covargs) (r q : nat) : F :=
  binnedv (g_cw g) (g_s g) (g_c g) (g_wa g) (g_wb g) (r / w_ncls (g_wa g)) (r mod w_ncls (g_wa g)) (q / w_ncls (g_wb g)) (q mod w_ncls (g_wb g)).
Lemma bmat_at g r q : (r < na g)%nat -> (q < nb g)%nat -> entry2 (bmat (g_cw g) (g_s g) (g_c g) (g_wa g) (g_wb g)) r q = bm g r q.
Proof. intros Hr Hq. unfold bmat. apply (entry_tab (na g) (nb g) (bm g)); assumption. Qed.
Lemma cov_decoupled g : good g -> (decoupled_size g <= int_max)%Z ->
  cov g false = (do ib <- lu_invert (w_mb (g_wb g)); do ia <- lu_invert (w_mb (g_wa g));
    Ok (Decoupled (mat_mul (na g) (na g) (nb g) ia (mat_mul_t (na g) (nb g) (nb g) (bmat (g_cw g) (g_s g) (g_c g) (g_wa g) (g_wb g)) ib)))).
Proof.
  intros H S. rewrite cov_unfold by exact H. rewrite alloc_ok by (pose proof (size_nonneg g H); lia). cbn [bind].
  rewrite (decoupled_ok _ _ _ (g_k g)) by first [apply H | intro E; pose proof (gd_s0 g H E); lia].
  destruct (lu_invert (w_mb (g_wb g))) as [ib|e|]; [|reflexivity|reflexivity]. cbn [bind]. destruct (lu_invert (w_mb (g_wa g))) as [ia|e|]; reflexivity.
Qed.
(** the output in terms of the two inverses *)
Lemma decoupled_at g D : good g -> (decoupled_size g <= int_max)%Z -> cov g false = Ok (Decoupled D) ->
  exists Ia Ib, lu_invert (w_mb (g_wa g)) = Ok Ia /\ lu_invert (w_mb (g_wb g)) = Ok Ib /\ rect (na g) (nb g) D /\
  forall r q, (r < na g)%nat -> (q < nb g)%nat -> entry2 D r q = sum (na g) (fun r' => sum (nb g) (fun q' => entry2 Ia r r' * (bm g r' q' * entry2 Ib q q'))).
Proof.
  intros H S E. rewrite cov_decoupled in E by assumption.
  destruct (lu_invert (w_mb (g_wb g))) as [Ib|e|]; try discriminate E. destruct (lu_invert (w_mb (g_wa g))) as [Ia|e|]; try discriminate E.
  cbn [bind] in E. injection E as <-. exists Ia, Ib. split; [reflexivity|]. split; [reflexivity|]. unfold mat_mul, mat_mul_t. split; [apply (rect_tab (na g) (nb g))|].
  intros r q Hr Hq. rewrite (entry_tab (na g) (nb g) (fun i j => sum (na g) (fun p => entry2 Ia i p * entry2 (tab (na g) (fun i0 => tab (nb g) (fun j0 => sum (nb g) (fun p0 => entry2 (bmat (g_cw g) (g_s g) (g_c g) (g_wa g) (g_wb g)) i0 p0 * entry2 Ib j0 p0)))) p j))) by assumption.
  apply sum_ext. intros p Hp. rewrite (entry_tab (na g) (nb g) (fun i0 j0 => sum (nb g) (fun p0 => entry2 (bmat (g_cw g) (g_s g) (g_c g) (g_wa g) (g_wb g)) i0 p0 * entry2 Ib j0 p0))) by assumption.
  rewrite <- sum_mul_l. apply sum_ext. intros q' Hq'. rewrite bmat_at by assumption. reflexivity.
Qed.
Lemma sq_a g : good g -> square (na g) (w_mb (g_wa g)).
Proof. intro H. apply (wf_mb _ _ _ _ (gd_a g H)). Qed.
Lemma sq_b g : good g -> square (nb g) (w_mb (g_wb g)).
Proof. intro H. apply (wf_mb _ _ _ _ (gd_b g H)). Qed.
(** matrix equation and its uniqueness *)
Definition solves (g : covargs) (D : mat) : Prop := forall r q, (r < na g)%nat -> (q < nb g)%nat ->
  sum (na g) (fun r' => sum (nb g) (fun q' => ma g r r' * entry2 D r' q' * mbb g q q')) = bm g r q.
Lemma two_sided n m (A Ia B Ib : nat -> nat -> F) (X Y : nat -> nat -> F) :
  (forall i j, (i < n)%nat -> (j < n)%nat -> sum n (fun k => A i k * Ia k j) = kron i j) ->
  (forall i j, (i < m)%nat -> (j < m)%nat -> sum m (fun k => B i k * Ib k j) = kron i j) ->
  (forall r q, (r < n)%nat -> (q < m)%nat -> X r q = sum n (fun r' => sum m (fun q' => Ia r r' * (Y r' q' * Ib q q')))) ->
  forall r q, (r < n)%nat -> (q < m)%nat -> sum n (fun r' => sum m (fun q' => A r r' * X r' q' * B q q')) = Y r q.
Proof.
  intros HA HB HX r q Hr Hq.
  transitivity (sum n (fun r1 => sum m (fun q1 => sum n (fun r' => A r r' * Ia r' r1) * sum m (fun q' => B q q' * Ib q' q1) * Y r1 q1))).
  - rewrite (sum_ext n (fun r' => sum m (fun q' => A r r' * X r' q' * B q q')) (fun r' => sum m (fun q' => sum n (fun r1 => sum m (fun q1 => A r r' * Ia r' r1 * (B q q' * Ib q' q1) * Y r1 q1))))).
    2:{ intros r' Hr'. apply sum_ext. intros q' Hq'. rewrite HX by assumption. rewrite <- sum_mul_l, <- sum_mul_r. apply sum_ext. intros r1 Hr1.
        rewrite <- sum_mul_l, <- sum_mul_r. apply sum_ext. intros q1 Hq1. ring. }
    rewrite (sum_ext n _ (fun r' => sum n (fun r1 => sum m (fun q' => sum m (fun q1 => A r r' * Ia r' r1 * (B q q' * Ib q' q1) * Y r1 q1))))) by (intros; apply sum_swap).
    rewrite sum_swap. apply sum_ext. intros r1 Hr1.
    rewrite (sum_ext n _ (fun r' => sum m (fun q1 => sum m (fun q' => A r r' * Ia r' r1 * (B q q' * Ib q' q1) * Y r1 q1)))) by (intros; apply sum_swap).
    rewrite sum_swap. apply sum_ext. intros q1 Hq1. rewrite <- !sum_mul_r. apply sum_ext. intros r' Hr'.
    rewrite <- sum_mul_l, <- sum_mul_r. reflexivity.
  - rewrite (sum_ext n _ (fun r1 => kron r r1 * sum m (fun q1 => kron q q1 * Y r1 q1))).
    2:{ intros r1 Hr1. rewrite <- sum_mul_l. apply sum_ext. intros q1 Hq1. rewrite HA, HB by assumption. ring. }
    rewrite (sum_kron' n r (fun r1 => sum m (fun q1 => kron q q1 * Y r1 q1))) by exact Hr. apply (sum_kron' m q (fun q1 => Y r q1)). exact Hq.
Qed.
Lemma kron_sym (i j : nat) : kron (F:=F) i j = kron j i.
Proof. unfold kron. rewrite Nat.eqb_sym. reflexivity. Qed.
Lemma decoupled_solves g D : good g -> (decoupled_size g <= int_max)%Z -> cov g false = Ok (Decoupled D) -> solves g D.
Proof.
  intros H S E. destruct (decoupled_at g D H S E) as [Ia [Ib [EA [EB [_ V]]]]].
  destruct (inv_lr _ _ _ (sq_a g H) EA) as [_ [_ [A1 A2]]]. destruct (inv_lr _ _ _ (sq_b g H) EB) as [_ [_ [B1 B2]]].
  intros r q Hr Hq. apply (two_sided (na g) (nb g) (ma g) (entry2 Ia) (mbb g) (entry2 Ib)); assumption.
Qed.
Lemma solves_unique g D D' : good g -> invertible g -> solves g D -> solves g D' -> forall r q, (r < na g)%nat -> (q < nb g)%nat -> entry2 D r q = entry2 D' r q.
Proof.
  intros H [Na Nb]. destruct (inv_exists _ _ (sq_a g H) Na) as [Ia EA]. destruct (inv_exists _ _ (sq_b g H) Nb) as [Ib EB].
  destruct (inv_lr _ _ _ (sq_a g H) EA) as [_ [_ [A1 A2]]]. destruct (inv_lr _ _ _ (sq_b g H) EB) as [_ [_ [B1 B2]]].
  assert (G : forall D, solves g D -> forall r q, (r < na g)%nat -> (q < nb g)%nat -> entry2 D r q = sum (na g) (fun r' => sum (nb g) (fun q' => entry2 Ia r r' * bm g r' q' * entry2 Ib q q'))).
  { intros D0 S0 r q Hr Hq. symmetry. apply (two_sided (na g) (nb g) (entry2 Ia) (ma g) (entry2 Ib) (mbb g) (bm g) (entry2 D0)); try assumption.
    intros r1 q1 Hr1 Hq1. rewrite <- S0 by assumption. apply sum_ext. intros. apply sum_ext. intros. ring. }
  intros S1 S2 r q Hr Hq. rewrite (G D S1), (G D' S2) by assumption. reflexivity.
Qed.

(** ** C55: the binned covariance is the coupled one, binned and multiplied by the inverse binned coupling matrices *)
Definition weighted (M : list (list (option F))) (g : covargs) (ba ca bb cb : nat) : option F :=
  fold_right (fun ea acc => fold_right (fun eb acc => match acc, centry M (el ea * w_ncls (g_wa g) + ca) (el eb * w_ncls (g_wb g) + cb) with
     | Some x, Some y => Some (e_w ea * e_w eb * y + x) | _, _ => None end) acc (band (g_wb g) bb)) (Some 0) (band (g_wa g) ba).
Theorem C55_accepted g : good g -> (decoupled_size g <= int_max)%Z -> (invertible g <-> exists D, cov g false = Ok (Decoupled D)).
Proof.
  intros H S. split.
  - intros [Na Nb]. rewrite cov_decoupled by assumption. destruct (inv_exists _ _ (sq_a g H) Na) as [Ia ->]. destruct (inv_exists _ _ (sq_b g H) Nb) as [Ib ->]. eexists. reflexivity.
  - intros [D E]. destruct (decoupled_at g D H S E) as [Ia [Ib [EA [EB _]]]].
    split; [apply (inv_lr _ _ _ (sq_a g H) EA) | apply (inv_lr _ _ _ (sq_b g H) EB)].
Qed.
Lemma idx_of (w : wsp F) lmax n1 n2 l c : wfit w lmax n1 n2 -> (c < w_ncls w)%nat -> (1 <= n1)%nat -> (1 <= n2)%nat ->
  (l * w_ncls w + c)%nat = cpos n1 n2 l (c / n2) (c mod n2) /\ (c / n2 < n1)%nat /\ (c mod n2 < n2)%nat.
Proof.
  intros W Hc H1 H2. rewrite (wf_ncls _ _ _ _ W) in *. unfold cpos. rewrite <- (Nat.div_mod c n2) by lia.
  split; [lia|]. split; [apply Nat.div_lt_upper_bound; lia | apply Nat.mod_upper_bound; lia].
Qed.
Theorem C55_sandwich g D M : good g -> (decoupled_size g <= int_max)%Z -> (coupled_size g <= int_max)%Z -> once (w_bin (g_wa g)) -> once (w_bin (g_wb g)) ->
  cov g false = Ok (Decoupled D) -> cov g true = Ok (Coupled M) ->
  rect (na g) (nb g) D /\
  forall ba ca bb cb, (ba < nbands (g_wa g))%nat -> (ca < w_ncls (g_wa g))%nat -> (bb < nbands (g_wb g))%nat -> (cb < w_ncls (g_wb g))%nat ->
    let r := (ba * w_ncls (g_wa g) + ca)%nat in let q := (bb * w_ncls (g_wb g) + cb)%nat in
    weighted M g ba ca bb cb = Some (sum (na g) (fun r' => sum (nb g) (fun q' => ma g r r' * entry2 D r' q' * mbb g q q'))).
Proof.
  intros H SD SC Oa Ob ED EC. destruct (decoupled_at g D H SD ED) as [Ia [Ib [_ [_ [R _]]]]]. split; [exact R|].
  intros ba ca bb cb Hba Hca Hbb Hcb r q.
  assert (Hr : (r < na g)%nat) by (unfold r, na; nia). assert (Hq : (q < nb g)%nat) by (unfold q, nb; nia).
  rewrite (decoupled_solves g D H SD ED r q Hr Hq). unfold bm, r, q.
  assert (P : (1 <= w_ncls (g_wa g))%nat /\ (1 <= w_ncls (g_wb g))%nat) by lia.
  rewrite (Nat.add_comm _ ca), (Nat.add_comm _ cb). rewrite !Nat.div_add, !Nat.mod_add by lia. rewrite !Nat.div_small, !Nat.mod_small by assumption. cbn [Nat.add].
  unfold weighted, binnedv. set (A := band (g_wa g) ba). set (B := band (g_wb g) bb).
  set (n2 := nm (sp_b (g_s g))). set (n4 := nm (sp_d (g_s g))).
  assert (Rd : forall ea eb, In ea A -> In eb B -> centry M (el ea * w_ncls (g_wa g) + ca) (el eb * w_ncls (g_wb g) + cb)
      = Some (elemv (g_cw g) (g_s g) (g_c g) (ca / n2) (ca mod n2) (cb / n4) (cb mod n4) (el ea) (el eb) * (e_f ea * e_f eb))).
  { intros ea eb Ha Hb.
    destruct (idx_of _ _ _ _ (el ea) ca (gd_a g H) Hca) as [-> [I1 I2]]; [apply nm_pos | apply nm_pos|].
    destruct (idx_of _ _ _ _ (el eb) cb (gd_b g H) Hcb) as [-> [J1 J2]]; [apply nm_pos | apply nm_pos|].
    pose proof (band_fit _ _ _ _ _ _ (gd_a g H) Hba Ha) as La. pose proof (band_fit _ _ _ _ _ _ (gd_b g H) Hbb Hb) as Lb.
    assert (Na : (el ea < nle (g_cw g))%nat) by (unfold L_Workspace.el, nle; lia). assert (Nb : (el eb < nle (g_cw g))%nat) by (unfold L_Workspace.el, nle; lia).
    pose proof (coupled_at g (ca / n2) (ca mod n2) (cb / n4) (cb mod n4) (el ea) (el eb) H SC ltac:(repeat split; assumption) Na Nb M EC) as V.
    unfold row, col in V. fold n2 n4. fold n2 n4 in V. rewrite V. unfold L_Workspace.el at 1 2. rewrite !Z2Nat.id by lia.
    assert (Ca : In ea (concat (b_bands (w_bin (g_wa g))))) by (apply in_concat; exists A; split; [apply nth_In; exact Hba | exact Ha]).
    assert (Cb : In eb (concat (b_bands (w_bin (g_wb g))))) by (apply in_concat; exists B; split; [apply nth_In; exact Hbb | exact Hb]).
    rewrite (find_ell_once _ ea Oa Ca), (find_ell_once _ eb Ob Cb). reflexivity. }
  clearbody A B. clear - Rd F. induction A as [|ea A IH]; [reflexivity|]. cbn [fold_right map]. rewrite IH by (intros; apply Rd; [right|]; assumption).
  assert (G : forall x L, (forall eb, In eb L -> In eb B) -> fold_right (fun eb acc => match acc, centry M (el ea * w_ncls (g_wa g) + ca) (el eb * w_ncls (g_wb g) + cb) with
     | Some x, Some y => Some (e_w ea * e_w eb * y + x) | _, _ => None end) (Some x) L =
     Some (lsum (map (fun eb => elemv (g_cw g) (g_s g) (g_c g) (ca / n2) (ca mod n2) (cb / n4) (cb mod n4) (el ea) (el eb) * (e_w ea * e_f ea * e_w eb * e_f eb)) L) + x)).
  { intros x L. induction L as [|eb L IHL]; intro I; [cbn; f_equal; unfold lsum; cbn; ring|]. cbn [fold_right map]. rewrite IHL by (intros; apply I; right; assumption).
    rewrite Rd by (first [left; reflexivity | apply I; left; reflexivity]). f_equal. unfold lsum. cbn [fold_right]. ring. }
  rewrite (G _ B) by auto. f_equal.
Qed.
(** the matrix equation has no other solution *)
Theorem C55_unique g D D' : good g -> (decoupled_size g <= int_max)%Z -> cov g false = Ok (Decoupled D) -> rect (na g) (nb g) D' ->
  (forall r q, (r < na g)%nat -> (q < nb g)%nat ->
     sum (na g) (fun r' => sum (nb g) (fun q' => ma g r r' * entry2 D' r' q' * mbb g q q')) = sum (na g) (fun r' => sum (nb g) (fun q' => ma g r r' * entry2 D r' q' * mbb g q q'))) -> D' = D.
Proof.
  intros H S E R Q. assert (I : invertible g) by (apply C55_accepted; eauto). pose proof (decoupled_solves g D H S E) as SD.
  assert (SD' : solves g D') by (intros r q Hr Hq; rewrite Q by assumption; apply SD; assumption).
  destruct (decoupled_at g D H S E) as [_ [_ [_ [_ [R' _]]]]]. apply (rect_ext (na g) (nb g)); try assumption. intros i j Hi Hj. apply (solves_unique g D' D); assumption.
Qed.
(** coupled=True: the entries of multipoles that belong to no bandpower are never written *)
Theorem C55_unwritten (g : covargs) M la lb ia ib ic id : good g -> (coupled_size g <= int_max)%Z -> cov g true = Ok (Coupled M) -> comps g ia ib ic id ->
  (la < nle (g_cw g))%nat -> (lb < nle (g_cw g))%nat ->
  (forall e, in_bins (g_wa g) e -> el e <> la) \/ (forall e, in_bins (g_wb g) e -> el e <> lb) ->
  centry M (row g la ia ib) (col g lb ic id) = None.
Proof.
  intros H S E C Ha Hb X. rewrite (coupled_at g ia ib ic id la lb H S C Ha Hb M E).
  assert (G : forall (w : wsp F) l, (forall e, in_bins w e -> el e <> l) -> find_ell (w_bin w) (Z.of_nat l) = None).
  { intros w l Q. destruct (find_ell (w_bin w) (Z.of_nat l)) as [e|] eqn:Ef; [|reflexivity]. apply find_ell_in in Ef. destruct Ef as [I L].
    exfalso. apply (Q e I). unfold L_Workspace.el. lia. }
  destruct X as [X|X]; [rewrite (G _ _ X); reflexivity | rewrite (G _ _ X)]. destruct (find_ell _ _); reflexivity.
Qed.

(** ** C53: exchanging the two pairs *)
(** spectra of n x m components, and the same with the fields in the other order *)
Definition transposed (n m k : nat) (A B : mat) : Prop :=
  rect (m * n) k B /\ forall l i j, (i < n)%nat -> (j < m)%nat -> spc A m l i j = spc B n l j i.
Record exchanged (g h : covargs) : Prop := {
  ex_cw : g_cw h = g_cw g;
  ex_s : g_s h = Spins (sp_c (g_s g)) (sp_d (g_s g)) (sp_a (g_s g)) (sp_b (g_s g));
  ex_k : g_k h = g_k g;
  ex_wa : g_wa h = g_wb g;
  ex_wb : g_wb h = g_wa g;
  ex_ac : transposed (nm (sp_a (g_s g))) (nm (sp_c (g_s g))) (g_k g) (cl_ac (g_c g)) (cl_ac (g_c h));
  ex_bc : transposed (nm (sp_b (g_s g))) (nm (sp_c (g_s g))) (g_k g) (cl_bc (g_c g)) (cl_ad (g_c h));
  ex_ad : transposed (nm (sp_a (g_s g))) (nm (sp_d (g_s g))) (g_k g) (cl_ad (g_c g)) (cl_bc (g_c h));
  ex_bd : transposed (nm (sp_b (g_s g))) (nm (sp_d (g_s g))) (g_k g) (cl_bd (g_c g)) (cl_bd (g_c h)) }.
Lemma exchanged_good g h : good g -> exchanged g h -> good h.
Proof.
  intros [H Ha Hb H0 Hs] [E1 E2 E3 E4 E5 X1 X2 X3 X4]. destruct X1 as [X1 _], X2 as [X2 _], X3 as [X3 _], X4 as [X4 _].
  constructor; rewrite ?E1, ?E2, ?E3, ?E4, ?E5; cbn [sp_a sp_b sp_c sp_d]; try assumption; [|tauto].
  destruct H. constructor; cbn [sp_a sp_b sp_c sp_d]; assumption.
Qed.
Lemma turn_tr n m (A B : nat -> nat -> F) i j : n = 2%nat -> m = 2%nat -> (i < n)%nat -> (j < m)%nat -> (forall i j, (i < n)%nat -> (j < m)%nat -> A i j = B j i) -> turn A i j = - turn B j i.
Proof. intros -> -> Hi Hj H. unfold turn. rewrite !H by lia. ring. Qed.
Lemma pairing_tr n1 n3 n2 n4 x0 x2 xp xm (A A' B B' C C' D D' : nat -> nat -> F) i k j m :
  (i < n1)%nat -> (k < n3)%nat -> (j < n2)%nat -> (m < n4)%nat ->
  (forall i j, (i < n1)%nat -> (j < n3)%nat -> A i j = C j i) -> (forall i j, (i < n1)%nat -> (j < n3)%nat -> A' i j = C' j i) ->
  (forall i j, (i < n2)%nat -> (j < n4)%nat -> B i j = D j i) -> (forall i j, (i < n2)%nat -> (j < n4)%nat -> B' i j = D' j i) ->
  pairing n1 n3 n2 n4 x0 x2 xp xm A A' B B' i k j m = pairing n3 n1 n4 n2 x0 x2 xp xm C' C D' D k i m j.
Proof.
  intros Hi Hk Hj Hm HA HA' HB HB'. unfold pairing, sympr. cbv zeta. rewrite !HA, !HA', !HB, !HB' by assumption. rewrite (andb_comm (Nat.eqb n3 2)), (andb_comm (Nat.eqb n4 2)).
  destruct (Nat.eqb n1 2 && Nat.eqb n3 2) eqn:E1, (Nat.eqb n2 2 && Nat.eqb n4 2) eqn:E2; cbn [andb orb]; rewrite ?(Fdiv_def (fth F)); try ring.
  apply andb_true_iff in E1. apply andb_true_iff in E2. rewrite !Nat.eqb_eq in *. destruct E1 as [N1 N3], E2 as [N2 N4].
  rewrite (turn_tr n1 n3 A C), (turn_tr n1 n3 A' C'), (turn_tr n2 n4 B D), (turn_tr n2 n4 B' D') by assumption. ring.
Qed.
Lemma pairing_swap n1 n3 n2 n4 x0 x2 xp xm (A A' B B' : nat -> nat -> F) i k j m :
  pairing n1 n3 n2 n4 x0 x2 xp xm A A' B B' i k j m = pairing n2 n4 n1 n3 x0 x2 xp xm B B' A A' j m i k.
Proof.
  unfold pairing, sympr. cbv zeta. rewrite ?(Fdiv_def (fth F)).
  destruct (Nat.eqb n1 2 && Nat.eqb n3 2), (Nat.eqb n2 2 && Nat.eqb n4 2); cbn [andb orb]; ring.
Qed.
Lemma elem_tr g h ia ib ic id la lb : good g -> exchanged g h -> comps g ia ib ic id -> (la < nle (g_cw g))%nat -> (lb < nle (g_cw g))%nat ->
  elemv (g_cw g) (g_s g) (g_c g) ia ib ic id la lb = elemv (g_cw h) (g_s h) (g_c h) ic id ia ib lb la.
Proof.
  intros H [E1 E2 E3 E4 E5 [_ X1] [_ X2] [_ X3] [_ X4]] [Ia [Ib [Ic Id]]] Hla Hlb. unfold elemv. cbv zeta. rewrite E1, E2. cbn [sp_a sp_b sp_c sp_d]. rewrite !pairv_pairing.
  assert (Sy : forall t, In t [cw_00 (g_cw g); cw_02 (g_cw g); cw_pp (g_cw g); cw_mm (g_cw g)] -> forall sel, In sel [fst; snd] -> entry2 (sel t) lb la = entry2 (sel t) la lb)
    by (intros t Ht sel Hs; apply (gd_sym g H t Ht sel Hs); assumption).
  unfold xlist. cbn [nth].
  rewrite (Sy (cw_00 (g_cw g))), (Sy (cw_02 (g_cw g))), (Sy (cw_pp (g_cw g))), (Sy (cw_mm (g_cw g))) by (cbn; auto).
  rewrite (Sy (cw_00 (g_cw g)) ltac:(cbn; auto) snd), (Sy (cw_02 (g_cw g)) ltac:(cbn; auto) snd), (Sy (cw_pp (g_cw g)) ltac:(cbn; auto) snd), (Sy (cw_mm (g_cw g)) ltac:(cbn; auto) snd) by (cbn; auto).
  f_equal.
  - apply pairing_tr; auto.
  - rewrite pairing_swap. apply pairing_tr; auto.
Qed.
Lemma coupled_size_exch g h : exchanged g h -> coupled_size h = coupled_size g /\ decoupled_size h = decoupled_size g.
Proof. intros [E1 E2 E3 E4 E5 _ _ _ _]. unfold coupled_size, decoupled_size. rewrite E1, E4, E5. split; ring. Qed.
Theorem C53_coupled_transpose g h M : good g -> exchanged g h -> (coupled_size g <= int_max)%Z -> cov g true = Ok (Coupled M) ->
  exists M', cov h true = Ok (Coupled M') /\
  forall la ia ib lb ic id, (la < nle (g_cw g))%nat -> (lb < nle (g_cw g))%nat -> comps g ia ib ic id ->
    centry M' (col g lb ic id) (row g la ia ib) = centry M (row g la ia ib) (col g lb ic id).
Proof.
  intros H X S E. pose proof (exchanged_good g h H X) as H'. destruct (coupled_size_exch g h X) as [Sz _].
  assert (S' : (coupled_size h <= int_max)%Z) by (rewrite Sz; exact S).
  eexists. split; [apply cov_coupled; assumption|]. intros la ia ib lb ic id Hla Hlb C.
  assert (E' := cov_coupled h H' S').
  assert (C' : comps h ic id ia ib) by (destruct C as [? [? [? ?]]]; unfold comps; rewrite (ex_s g h X); cbn; auto).
  assert (Rw : col g = row h) by (unfold col, row; rewrite (ex_s g h X); reflexivity).
  assert (Cl : row g = col h) by (unfold col, row; rewrite (ex_s g h X); reflexivity).
  rewrite (coupled_at g ia ib ic id la lb H S C Hla Hlb M E). rewrite Rw, Cl.
  rewrite (coupled_at h ic id ia ib lb la H' S' C' ltac:(rewrite (ex_cw g h X); exact Hlb) ltac:(rewrite (ex_cw g h X); exact Hla) _ E').
  rewrite (ex_wa g h X), (ex_wb g h X). destruct (find_ell (w_bin (g_wa g)) _) as [ea|], (find_ell (w_bin (g_wb g)) _) as [eb|]; try reflexivity.
  f_equal. rewrite <- (elem_tr g h ia ib ic id la lb H X C Hla Hlb). ring.
Qed.
Lemma bm_tr g h r q : good g -> exchanged g h -> (r < na g)%nat -> (q < nb g)%nat -> bm h q r = bm g r q.
Proof.
  intros H X Hr Hq. unfold bm. rewrite (ex_wa g h X), (ex_wb g h X). unfold binnedv.
  pose proof (nm_pos (sp_a (g_s g))). pose proof (nm_pos (sp_b (g_s g))). pose proof (nm_pos (sp_c (g_s g))). pose proof (nm_pos (sp_d (g_s g))).
  unfold na in Hr. unfold nb in Hq. rewrite (wf_ncls _ _ _ _ (gd_a g H)), (wf_ncls _ _ _ _ (gd_b g H)) in *.
  destruct (split_idx _ _ r (nbands (g_wa g)) H0 H1 Hr) as [I1 [I2 I3]].
  destruct (split_idx _ _ q (nbands (g_wb g)) H2 H3 Hq) as [J1 [J2 J3]].
  rewrite (ex_s g h X). cbn [sp_b sp_d].
  rewrite lsum_swap2. apply lsum_ext. intros ea Hea. apply lsum_ext. intros eb Heb.
  pose proof (band_fit _ _ _ _ _ _ (gd_a g H) I1 Hea) as La. pose proof (band_fit _ _ _ _ _ _ (gd_b g H) J1 Heb) as Lb.
  assert (Na : (el ea < nle (g_cw g))%nat) by (clear -La; unfold L_Workspace.el, nle; lia). assert (Nb : (el eb < nle (g_cw g))%nat) by (clear -Lb; unfold L_Workspace.el, nle; lia).
  rewrite (elem_tr g h _ _ _ _ (el ea) (el eb) H X) by first [assumption | repeat split; assumption].
  rewrite (ex_s g h X). ring.
Qed.
Theorem C53_decoupled_transpose g h D : good g -> exchanged g h -> (decoupled_size g <= int_max)%Z -> cov g false = Ok (Decoupled D) ->
  exists D', cov h false = Ok (Decoupled D') /\ rect (nb g) (na g) D' /\
  forall r q, (r < na g)%nat -> (q < nb g)%nat -> entry2 D' q r = entry2 D r q.
Proof.
  intros H X S E. pose proof (exchanged_good g h H X) as H'. destruct (coupled_size_exch g h X) as [_ Sz].
  assert (S' : (decoupled_size h <= int_max)%Z) by (rewrite Sz; exact S).
  assert (I : invertible g) by (apply C55_accepted; eauto).
  assert (Na : na h = nb g) by (unfold na, nb; rewrite (ex_wa g h X); reflexivity). assert (Nb : nb h = na g) by (unfold na, nb; rewrite (ex_wb g h X); reflexivity).
  assert (I' : invertible h) by (unfold invertible; rewrite Na, Nb, (ex_wa g h X), (ex_wb g h X); destruct I; split; assumption).
  apply (C55_accepted h H' S') in I'. destruct I' as [D' E']. exists D'. split; [exact E'|].
  destruct (decoupled_at g D H S E) as [Ia [Ib [EA [EB [R V]]]]]. destruct (decoupled_at h D' H' S' E') as [Ia' [Ib' [EA' [EB' [R' V']]]]].
  rewrite (ex_wa g h X), EB in EA'. injection EA' as <-. rewrite (ex_wb g h X), EA in EB'. injection EB' as <-. rewrite Na, Nb in *.
  split; [exact R'|]. intros r q Hr Hq. rewrite V' by assumption. rewrite V by assumption. rewrite sum_swap. apply sum_ext. intros r' Hr'. apply sum_ext. intros q' Hq'.
  rewrite (bm_tr g h r' q') by assumption. ring.
Qed.
(** a pair of fields with itself *)
Corollary C53_auto_symmetric g D : good g -> exchanged g g -> (decoupled_size g <= int_max)%Z -> cov g false = Ok (Decoupled D) ->
  forall r q, (r < na g)%nat -> (q < na g)%nat -> entry2 D q r = entry2 D r q.
Proof.
  intros H X S E r q Hr Hq. destruct (C53_decoupled_transpose g g D H X S E) as [D' [E' [_ V]]]. assert (D' = D) by congruence. subst D'.
  apply V; [exact Hr|]. unfold nb, na in *. rewrite (ex_wa g g X) in Hq at 1 2. exact Hq.
Qed.
End PCovar2.
