(** Property C77: the flat-sky coupling matrix predicts the mean of the coupled spectra of masked maps, and decoupling is unbiased. *)
From Verif Require Import Base FieldR M_Utils M_Bins M_FlatBins M_LinAlg M_Workspace M_Flat M_WspFlat P_FlatBins L_LinAlg L_Flat L_Flat2 L_Flat3 P_Flat L_WspFlat L_WspFlat2 P_WspFlat L_FlatMean.
From Coq Require Import Permutation Reals.
Open Scope nat_scope.

Section Statements.
Context {F : ofield}.
Local Open Scope F_scope.
Add Field FfPMe : (fth F).
Notation mat := (list (list F)).
Notation cplx := (cplx F).
Notation fsinfo := (fsinfo F).
Notation fbins := (fbins F).
Notation cuts := (cuts F).
Notation ffield := (ffield F).
Notation fwsp := (fwsp F).
Variables (pi : F) (fsqrt : F -> F) (trunc : F -> Z) (ph : nat -> nat -> cplx).
Notation kmod_of := (kmod_of pi fsqrt).
Notation modes := (modes pi fsqrt).
Notation new_field := (new_field pi fsqrt ph).
Notation coupling_matrix := (coupling_matrix pi fsqrt trunc ph).
Notation py_coupled_cell := (py_coupled_cell pi fsqrt).
Notation coeff := (coeff pi ph).

(** what a user runs on two unmasked scalar maps: fields, coupled spectrum *)
Definition coupled_of (s : fsinfo) (mask1 mask2 : list F) (beam1 beam2 : F -> F) (b : fbins) (c : cuts) (t1 t2 : list F) : res mat :=
  do f1 <- new_field (fs_nx s) (fs_ny s) (fs_lx s) (fs_ly s) mask1 (Some [t1]) (Some 0%Z) beam1 false;
  do f2 <- new_field (fs_nx s) (fs_ny s) (fs_lx s) (fs_ly s) mask2 (Some [t2]) (Some 0%Z) beam2 false;
  py_coupled_cell f1 f2 b c.
(** ... and the workspace of the two fields, used to decouple it *)
Definition decoupled_of (s : fsinfo) (mask1 mask2 : list F) (beam1 beam2 : F -> F) (b : fbins) (c : cuts) (rows : list nat) (t1 t2 : list F) : res mat :=
  do f1 <- new_field (fs_nx s) (fs_ny s) (fs_lx s) (fs_ly s) mask1 (Some [t1]) (Some 0%Z) beam1 false;
  do f2 <- new_field (fs_nx s) (fs_ny s) (fs_lx s) (fs_ly s) mask2 (Some [t2]) (Some 0%Z) beam2 false;
  do w <- coupling_matrix f1 f2 b c false rows;
  do cl <- py_coupled_cell f1 f2 b c;
  py_decouple (Some w) cl None None.
(** the workspace computed from mask-only fields *)
Definition workspace_of (s : fsinfo) (mask1 mask2 : list F) (beam1 beam2 : F -> F) (b : fbins) (c : cuts) (rows : list nat) : res fwsp :=
  do f1 <- new_field (fs_nx s) (fs_ny s) (fs_lx s) (fs_ly s) mask1 None (Some 0%Z) beam1 false;
  do f2 <- new_field (fs_nx s) (fs_ny s) (fs_lx s) (fs_ly s) mask2 None (Some 0%Z) beam2 false;
  coupling_matrix f1 f2 b c false rows.

Lemma pos_not_neg (x : F) : 0 < x -> (x <? 0) = false.
Proof. intro H. destruct (x <? 0) eqn:E; [|reflexivity]. exfalso. exact (flt_irrefl _ (flt_trans _ _ _ H E)). Qed.
Definition scalar (s : fsinfo) (mask t : list F) (beam : F -> F) : ffield := FF s 0 false false mask beam [map2alm0 pi ph s (times_mask mask t)] false.
Lemma scalar_ok (s : fsinfo) mask t beam : 0 < fs_lx s -> 0 < fs_ly s -> length t = (fs_nx s * fs_ny s)%nat ->
  new_field (fs_nx s) (fs_ny s) (fs_lx s) (fs_ly s) mask (Some [t]) (Some 0%Z) beam false = Ok (scalar s mask t beam).
Proof.
  intros H1 H2 Ht. unfold M_WspFlat.new_field. rewrite (pos_not_neg _ H1), (pos_not_neg _ H2).
  cbn [orb negb length Nat.eqb bind Z.eqb andb forallb]. rewrite Ht, Nat.eqb_refl. cbn [andb negb]. unfold flt in H1, H2. rewrite H1, H2. cbn [andb negb].
  unfold fs_map2alm. cbn [Z.eqb map rd bind]. destruct s. reflexivity.
Qed.
Lemma mask_only_ok (s : fsinfo) mask beam : 0 < fs_lx s -> 0 < fs_ly s ->
  new_field (fs_nx s) (fs_ny s) (fs_lx s) (fs_ly s) mask None (Some 0%Z) beam false = Ok (FF s 0 false false mask beam [] true).
Proof.
  intros H1 H2. unfold M_WspFlat.new_field. rewrite (pos_not_neg _ H1), (pos_not_neg _ H2).
  cbn [orb negb bind]. unfold flt in H1, H2. rewrite H1, H2. cbn [andb negb]. destruct s. reflexivity.
Qed.
Lemma same_fs_refl (s : fsinfo) : same_fs s s = true.
Proof. unfold same_fs. rewrite !Nat.eqb_refl. rewrite !(proj2 (feqb_eq _ _)) by reflexivity. reflexivity. Qed.
Definition pseudo (s : fsinfo) (mask1 mask2 : list F) (b : fbins) (c : cuts) (t1 t2 : list F) (i : nat) : F :=
  average pi s (modes s b c i) (fun m => cdot (coeff s (times_mask mask1 t1) m) (coeff s (times_mask mask2 t2) m)).
Lemma coupled_ok (s : fsinfo) mask1 mask2 beam1 beam2 b c t1 t2 : contiguous b -> y_symmetric pi s c -> conj_roots ph s -> 
  py_coupled_cell (scalar s mask1 t1 beam1) (scalar s mask2 t2 beam2) b c = Ok [tab (n_bands b) (pseudo s mask1 mask2 b c t1 t2)].
Proof.
  intros Hc HY HR. unfold M_WspFlat.py_coupled_cell. cbn [scalar ff_fs ff_mask_only ff_alms]. rewrite !Nat.eqb_refl, same_fs_refl. cbn [andb orb negb].
  destruct (C62_scalar pi fsqrt ph s b c (times_mask mask1 t1) (times_mask mask2 t2) Hc HY HR) as [a1 [a2 [E1 [E2 E]]]]. unfold fs_map2alm in E1, E2. cbn in E1, E2. assert (A1 : a1 = map2alm0 pi ph s (times_mask mask1 t1)) by congruence. assert (A2 : a2 = map2alm0 pi ph s (times_mask mask2 t2)) by congruence. rewrite <- A1, <- A2. exact E.
Qed.
Lemma coupled_of_ok (s : fsinfo) mask1 mask2 beam1 beam2 b c t1 t2 : contiguous b -> y_symmetric pi s c -> conj_roots ph s -> 0 < fs_lx s -> 0 < fs_ly s -> length t1 = (fs_nx s * fs_ny s)%nat -> length t2 = (fs_nx s * fs_ny s)%nat ->
  coupled_of s mask1 mask2 beam1 beam2 b c t1 t2 = Ok [tab (n_bands b) (pseudo s mask1 mask2 b c t1 t2)].
Proof. intros. unfold coupled_of. rewrite !scalar_ok by assumption. cbn [bind]. apply coupled_ok; assumption. Qed.
Lemma fpos_neq0 (x : F) : 0 < x -> x <> 0. Proof. intros H ->. exact (flt_irrefl _ H). Qed.

Section Ensemble.
Variables (s : fsinfo) (mask1 mask2 : list F) (beam1 beam2 : F -> F) (b : fbins) (c : cuts).
Hypothesis Hc : contiguous b.
Hypothesis HY : y_symmetric pi s c.
Hypothesis HR : conj_roots ph s.
Hypothesis HH : hom_roots ph s.
Hypothesis Hlx : 0 < fs_lx s.
Hypothesis Hly : 0 < fs_ly s.
Hypothesis Hm1 : length mask1 = (fs_nx s * fs_ny s)%nat.
Hypothesis Hm2 : length mask2 = (fs_nx s * fs_ny s)%nat.
(** K realisations of the two maps with weights pr k *)
Variables (K : nat) (pr : nat -> F) (t1 t2 : nat -> list F).
Hypothesis Ht : forall k, (k < K)%nat -> length (t1 k) = (fs_nx s * fs_ny s)%nat /\ length (t2 k) = (fs_nx s * fs_ny s)%nat.
(** their covariance is that of statistically isotropic maps with spectrum C(k), smoothed with the two beams *)
Variable C : F -> F.
Hypothesis HC : forall p p', In p (grid s) -> In p' (grid s) -> sum K (fun k => pr k * (pix s (t1 k) p * pix s (t2 k) p')) = iso_cov pi fsqrt ph s (fun k => C k * (beam1 k * beam2 k)) p p'.

Lemma mean_pseudo i f1 f2 : ff_fs f1 = s -> ff_spin f1 = 0%Z -> ff_spin f2 = 0%Z -> ff_mask f1 = mask1 -> ff_mask f2 = mask2 -> ff_beam f1 = beam1 -> ff_beam f2 = beam2 ->
  sum K (fun k => pr k * pseudo s mask1 mask2 b c (t1 k) (t2 k) i) = coupled pi fsqrt ph f1 f2 b c false (fun _ m => C (kmod_of s m)) 0 i /\
  sum K (fun k => pr k * pseudo s mask1 mask2 b c (t1 k) (t2 k) i) =
  average pi s (modes s b c i) (fun m => 1 / (fs_lx s * fs_ly s) * lsum (map (fun m2 => C (kmod_of s m2) * (beam1 (kmod_of s m2) * beam2 (kmod_of s m2)) * cdot (coeff s mask1 (diff_mode s m m2)) (coeff s mask2 (diff_mode s m m2))) (grid s))).
Proof.
  intros E1 E2 E3 E4 E5 E6 E7. pose proof (fpos_neq0 _ Hlx) as N1. pose proof (fpos_neq0 _ Hly) as N2. set (P := fun k => C k * (beam1 k * beam2 k)).
  assert (A : sum K (fun k => pr k * pseudo s mask1 mask2 b c (t1 k) (t2 k) i) = average pi s (modes s b c i) (fun m => 1 / (fs_lx s * fs_ly s) * lsum (map (fun m2 => P (kmod_of s m2) * cdot (coeff s mask1 (diff_mode s m m2)) (coeff s mask2 (diff_mode s m m2))) (grid s)))).
  { unfold pseudo, average. destruct (Nat.eqb (length (modes s b c i)) 0) eqn:EL.
    - apply sum_zero. intros k _. ring.
    - apply Nat.eqb_neq in EL. destruct (length (modes s b c i)) as [|n] eqn:En; [congruence|]. pose proof (fofnat_neq0 (F:=F) n) as NZ. set (z := fofnat (S n)) in *.
      rewrite (sum_ext _ _ (fun k => fofZ 4 * pi * pi / (fs_lx s * fs_ly s) / z * lsum (map (fun m => pr k * cdot (coeff s (times_mask mask1 (t1 k)) m) (coeff s (times_mask mask2 (t2 k)) m)) (modes s b c i)))).
      + rewrite sum_mul_l. rewrite <- lsum_swap. transitivity (fofZ 4 * pi * pi / (fs_lx s * fs_ly s) / z * lsum (map (fun m => 1 / (fs_lx s * fs_ly s) * lsum (map (fun m2 => P (kmod_of s m2) * cdot (coeff s mask1 (diff_mode s m m2)) (coeff s mask2 (diff_mode s m m2))) (grid s))) (modes s b c i))).
        * f_equal. apply lsum_ext. intros m Hm. apply (mean_product pi fsqrt ph s mask1 mask2 K pr t1 t2 P m HR HH); try assumption. apply filter_In in Hm. tauto.
        * set (S := lsum _). generalize S. clear - N1 N2 NZ. clearbody z. intro S. set (q := fofZ 4). field. auto.
      + intros k Hk. rewrite lsum_mul_l. set (S := lsum _). generalize S. clear - N1 N2 NZ. clearbody z. intro S. set (q := fofZ 4). field. auto. }
  split; [|exact A]. rewrite A. unfold coupled, n_spectra, ff_nmaps. rewrite E2, E3. cbn [Z.eqb Nat.mul Nat.add]. cbn [sum]. rewrite E1.
  assert (B : lsum (map (fun m1 => lsum (map (fun m2 => weight pi fsqrt ph f1 f2 1 (matrix_spins 0 0 false) 0 0 m1 m2 * C (kmod_of s m2)) (grid s))) (modes s b c i)) = sel_sum pi fsqrt s b c i P (true_prod pi ph s mask1 mask2)).
  { rewrite <- (code_prod_sum pi fsqrt ph s b c i P mask1 mask2 HR HY). unfold sel_sum. apply lsum_ext. intros m1 _. apply lsum_ext. intros m2 _. unfold weight, code_prod, beamprod. rewrite E1, E4, E5, E6, E7. unfold pair_block. rewrite E1. cbn [matrix_spins Z.eqb fst snd].
    destruct (angle pi fsqrt s 0 m1) as [x1 y1]. destruct (angle pi fsqrt s 0 m2) as [x2 y2]. cbn [block entry2 nth]. unfold entry2. cbn [nth]. unfold P, L_Flat2.kmod_of. ring. }
  rewrite B. unfold average, fac_norm. destruct (Nat.eqb (length (modes s b c i)) 0) eqn:EL.
  - apply Nat.eqb_eq in EL. rewrite EL. cbn. ring.
  - apply Nat.eqb_neq in EL. replace (0 <? Z.of_nat (length (modes s b c i)))%Z with true by (symmetry; apply Z.ltb_lt; lia). rewrite fofZ_of_nat. destruct (length (modes s b c i)) as [|n]; [congruence|]. pose proof (fofnat_neq0 (F:=F) n) as NZ. set (z := fofnat (S n)) in *.
    rewrite lsum_mul_l. assert (T : lsum (map (fun m => lsum (map (fun m2 => P (kmod_of s m2) * cdot (coeff s mask1 (diff_mode s m m2)) (coeff s mask2 (diff_mode s m m2))) (grid s))) (modes s b c i)) = sel_sum pi fsqrt s b c i P (true_prod pi ph s mask1 mask2)).
    { unfold sel_sum. apply lsum_ext. intros m _. apply lsum_ext. intros m2 _. unfold true_prod. ring. }
    rewrite T. set (S := sel_sum _ _ _ _ _ _ _ _). generalize S. clear - N1 N2 NZ. clearbody z. intro S. set (q := fofZ 4). field. auto.
Qed.
(** The mean of compute_coupled_cell_flat is the textbook convolution: the average over the modes m of a band of
    (1/A) sum over m2 of C(|m2|) B1 B2 (|m2|) Re[W1(m-m2) W2*(m-m2)], with W the Fourier coefficients of the masks. *)
Theorem C77_mean : exists cl : nat -> list F, (forall k, (k < K)%nat -> coupled_of s mask1 mask2 beam1 beam2 b c (t1 k) (t2 k) = Ok [cl k] /\ length (cl k) = n_bands b) /\
  forall i, (i < n_bands b)%nat -> sum K (fun k => pr k * nth i (cl k) 0) =
    average pi s (modes s b c i) (fun m => 1 / (fs_lx s * fs_ly s) * lsum (map (fun m2 => C (kmod_of s m2) * (beam1 (kmod_of s m2) * beam2 (kmod_of s m2)) * cdot (coeff s mask1 (diff_mode s m m2)) (coeff s mask2 (diff_mode s m m2))) (grid s))).
Proof.
  exists (fun k => tab (n_bands b) (pseudo s mask1 mask2 b c (t1 k) (t2 k))). split.
  - intros k Hk. destruct (Ht k Hk) as [A1 A2]. rewrite coupled_of_ok by assumption. split; [reflexivity | apply length_tab].
  - intros i Hi. rewrite <- (proj2 (mean_pseudo i (scalar s mask1 [] beam1) (scalar s mask2 [] beam2) eq_refl eq_refl eq_refl eq_refl eq_refl eq_refl eq_refl)). apply sum_ext. intros k Hk. rewrite nth_tab by exact Hi. reflexivity.
Qed.
(** Decoupling is unbiased: if the spectrum takes one value in each band (and vanishes outside), the mean of the decoupled spectra is that value. *)
Theorem C77_unbiased (rows : list nat) (v : list F) : all_rows s rows -> length v = n_bands b ->
  (forall m, In m (grid s) -> (forall i, (i < n_bands b)%nat -> inb b i (kmod_of s m) = true -> C (kmod_of s m) = nth i v 0) /\ ((forall i, (i < n_bands b)%nat -> inb b i (kmod_of s m) = false) -> C (kmod_of s m) = 0)) ->
  exists w, workspace_of s mask1 mask2 beam1 beam2 b c rows = Ok w /\ (nonsingular (n_bands b) (fw_bnd w) ->
  exists r : nat -> list F, (forall k, (k < K)%nat -> decoupled_of s mask1 mask2 beam1 beam2 b c rows (t1 k) (t2 k) = Ok [r k] /\ length (r k) = n_bands b) /\
  forall i, (i < n_bands b)%nat -> sum K (fun k => pr k * nth i (r k) 0) = nth i v 0).
Proof.
  intros HP Hv HCv. set (g1 := FF s 0 false false mask1 beam1 [] true). set (g2 := FF s 0 false false mask2 beam2 [] true). set (w := wsp_of pi fsqrt trunc ph g1 g2 b c false). exists w.
  assert (CM : forall t t', coupling_matrix (scalar s mask1 t beam1) (scalar s mask2 t' beam2) b c false rows = Ok w). { intros t t'. rewrite (coupling_matrix_eq pi fsqrt trunc ph (scalar s mask1 t beam1) (scalar s mask2 t' beam2) b c false rows Hc HP). cbn [scalar ff_fs]. rewrite same_fs_refl. reflexivity. }
  split. { unfold workspace_of. rewrite !mask_only_ok by assumption. cbn [bind]. fold g1 g2. rewrite (coupling_matrix_eq pi fsqrt trunc ph g1 g2 b c false rows Hc HP). cbn [g1 g2 ff_fs]. rewrite same_fs_refl. reflexivity. }
  intro N. pose proof (wsp_of_spec pi fsqrt trunc ph g1 g2 b c false) as W. fold w in W. assert (En : fw_ncls w = 1%nat) by reflexivity. assert (Eb : fw_nb w = n_bands b) by reflexivity. pose proof (ws_sq _ _ _ _ _ _ _ _ _ _ W) as Hs. change (n_spectra g1 g2 false) with 1%nat in Hs. rewrite Nat.mul_1_l in Hs.
  set (cl := fun k => tab (n_bands b) (pseudo s mask1 mask2 b c (t1 k) (t2 k))). set (r := fun k => from_ok [] (lu_solve (fw_bnd w) (cl k))).
  assert (Hr : forall k, lu_solve (fw_bnd w) (cl k) = Ok (r k) /\ length (r k) = n_bands b /\ matvec (fw_bnd w) (r k) = cl k).
  { intro k. assert (Lk : length (cl k) = n_bands b) by apply length_tab. destruct (lu_solve_ok (n_bands b) (fw_bnd w) (cl k) Hs Lk N) as [x [Ex [A B]]]. unfold r. rewrite Ex. cbn [from_ok]. auto. }
  exists r. split.
  - intros k Hk. destruct (Ht k Hk) as [A1 A2]. destruct (Hr k) as [_ [L Mx]]. split; [|exact L]. unfold decoupled_of. rewrite !scalar_ok by assumption. cbn [bind]. rewrite CM. cbn [bind]. rewrite coupled_ok by assumption. cbn [bind]. fold (cl k).
    assert (R1 : forall x : list F, length x = n_bands b -> rect 1 (n_bands b) [x]) by (intros x Hx; split; [reflexivity | intros y [<-|[]]; exact Hx]).
    assert (Rc : rect 1 (n_bands b) [cl k]) by (apply R1; apply length_tab). set (z := zeros_like [cl k]). assert (Rz : rect 1 (n_bands b) z) by (apply rect_zeros; exact Rc).
    destruct (C63_no_bias w [cl k] z z) as [E _]; rewrite ?En, ?Eb; try assumption; try lia; try (intros; apply entry_zeros). rewrite E. apply C63_decouple_solves; rewrite ?En, ?Eb; try assumption; try lia; [rewrite Nat.mul_1_l; exact Hs|].
    split; [rewrite Nat.mul_1_l; exact N|]. split; [apply R1; exact L|]. intros i ib Hi Hb. assert (i = 0)%nat as -> by lia. unfold z. rewrite entry_zeros. unfold apply_matrix. cbn [sum]. unfold entry2 at 1. cbn [nth]. rewrite <- Mx. rewrite (nth_matvec (n_bands b)) by assumption.
    transitivity (sum (n_bands b) (fun jb => entry2 (fw_bnd w) (ib * 1 + 0) (jb * 1 + 0) * entry2 [r k] 0 jb)); [|ring]. apply sum_ext. intros jb Hj. rewrite !Nat.mul_1_r, !Nat.add_0_r. reflexivity.
  - set (m := tab (n_bands b) (fun i => sum K (fun k => pr k * nth i (r k) 0))). intros i Hi. assert (Lm : length m = n_bands b) by apply length_tab. replace (sum K (fun k => pr k * nth i (r k) 0)) with (nth i m 0) by (unfold m; rewrite nth_tab by exact Hi; reflexivity). f_equal.
    assert (Em : matvec (fw_bnd w) m = matvec (fw_bnd w) v).
    { assert (Lmv : length (matvec (fw_bnd w) v) = n_bands b) by (unfold matvec; rewrite map_length; apply Hs). apply (matvec_eq (n_bands b)); try assumption. intros j Hj. rewrite (nth_matvec (n_bands b)) by assumption.
      assert (T : apply_matrix (fw_bnd w) 1 (n_bands b) [v] 0 j = sum (n_bands b) (fun q => entry2 (fw_bnd w) j q * nth q v 0)).
      { unfold apply_matrix. cbn [sum]. transitivity (sum (n_bands b) (fun jb => entry2 (fw_bnd w) (j * 1 + 0) (jb * 1 + 0) * entry2 [v] 0 jb)); [ring|]. apply sum_ext. intros jb Hj'. rewrite !Nat.mul_1_r, !Nat.add_0_r. reflexivity. }
      rewrite <- T. pose proof (binned_ok pi fsqrt trunc ph w g1 g2 b c false [v] 0 j W ltac:(cbn; lia) Hj) as B. change (n_spectra g1 g2 false) with 1%nat in B. rewrite B.
      transitivity (sum K (fun k => pr k * nth j (cl k) 0)).
      - transitivity (sum K (fun k => pr k * sum (n_bands b) (fun q => entry2 (fw_bnd w) j q * nth q (r k) 0))).
        + rewrite (sum_ext _ _ (fun q => sum K (fun k => pr k * (entry2 (fw_bnd w) j q * nth q (r k) 0)))); [|intros q Hq; unfold m; rewrite nth_tab by exact Hq; rewrite <- sum_mul_l; apply sum_ext; intros k _; ring]. rewrite sum_swap. apply sum_ext. intros k _. rewrite sum_mul_l. reflexivity.
        + apply sum_ext. intros k _. destruct (Hr k) as [_ [L Mx]]. rewrite <- Mx. rewrite (nth_matvec (n_bands b)) by assumption. reflexivity.
      - transitivity (sum K (fun k => pr k * pseudo s mask1 mask2 b c (t1 k) (t2 k) j)); [apply sum_ext; intros k _; unfold cl; rewrite nth_tab by exact Hj; reflexivity|].
        rewrite (proj1 (mean_pseudo j g1 g2 eq_refl eq_refl eq_refl eq_refl eq_refl eq_refl eq_refl)). apply coupled_ext. intros j' mm Hj' Hm. change (ff_fs g1) with s in *. destruct (HCv mm Hm) as [A B']. assert (j' = 0)%nat as -> by (cbn in Hj'; lia). cbn [nth].
        destruct (find (fun i => inb b i (kmod_of s mm)) (seq 0 (n_bands b))) as [q|] eqn:Ef.
        + apply find_some in Ef. destruct Ef as [F1 F2]. apply in_seq in F1. rewrite (band_value_in b _ _ q Hc) by (lia || exact F2). apply A; [lia | exact F2].
        + pose proof (find_none _ _ Ef) as NF. assert (Z : forall q, (q < n_bands b)%nat -> inb b q (kmod_of s mm) = false) by (intros q Hq; apply (NF q); apply in_seq; lia). rewrite (band_value_out b) by exact Z. apply B'. exact Z. }
    assert (Lmv : length (matvec (fw_bnd w) v) = n_bands b) by (unfold matvec; rewrite map_length; apply Hs). pose proof (lu_solve_unique (n_bands b) (fw_bnd w) _ m Hs Lmv N Lm Em) as U1. rewrite (lu_solve_unique (n_bands b) (fw_bnd w) _ v Hs Lmv N Hv eq_refl) in U1. congruence.
Qed.
(** couple_cell predicts the mean when the spectrum does not vary within the rings of width dell that it uses, and vanishes at the modes outside them. *)
Theorem C77_couple_cell (rows o : list nat) (ells cl : list F) : all_rows s rows -> all_rows s o -> good_ells ells -> length cl = length ells ->
  (forall m, In m (grid s) -> C (kmod_of s m) = spec_val ells cl (kmod_of s m)) ->
  (forall m m', In m (grid s) -> In m' (grid s) -> ring pi fsqrt trunc s m = ring pi fsqrt trunc s m' -> C (kmod_of s m) = C (kmod_of s m')) ->
  (forall m, In m (grid s) -> (ring pi fsqrt trunc s m < 0)%Z -> C (kmod_of s m) = 0) ->
  exists w pcl, workspace_of s mask1 mask2 beam1 beam2 b c rows = Ok w /\ py_couple pi fsqrt trunc (Some w) ells [cl] o = Ok [pcl] /\ length pcl = n_bands b /\
  exists x : nat -> list F, (forall k, (k < K)%nat -> coupled_of s mask1 mask2 beam1 beam2 b c (t1 k) (t2 k) = Ok [x k]) /\
  forall i, (i < n_bands b)%nat -> sum K (fun k => pr k * nth i (x k) 0) = nth i pcl 0.
Proof.
  intros HP HPo He Hl HCs HCr HC0. set (g1 := FF s 0 false false mask1 beam1 [] true). set (g2 := FF s 0 false false mask2 beam2 [] true). set (w := wsp_of pi fsqrt trunc ph g1 g2 b c false).
  pose proof (wsp_of_spec pi fsqrt trunc ph g1 g2 b c false) as W. fold w in W.
  exists w, (tab (n_bands b) (fun ib => coupled pi fsqrt ph g1 g2 b c false (fun j => ring_value pi fsqrt trunc s ells (nth j [cl] [])) 0 ib)). split; [|split; [|split]].
  - unfold workspace_of. rewrite !mask_only_ok by assumption. cbn [bind]. fold g1 g2. rewrite (coupling_matrix_eq pi fsqrt trunc ph g1 g2 b c false rows Hc HP). cbn [g1 g2 ff_fs]. rewrite same_fs_refl. reflexivity.
  - unfold py_couple, need. cbn [bind]. assert (Rc : rect 1 (length ells) [cl]) by (split; [reflexivity | intros y [<-|[]]; exact Hl]). change (fw_ncls w) with 1%nat. rewrite (check_shape_ok 1 (length ells) [cl] ltac:(lia) Rc). cbn [bind]. apply (couple_fast_ok pi fsqrt trunc ph w g1 g2 b c false ells [cl] o W He Rc HPo).
  - apply length_tab.
  - exists (fun k => tab (n_bands b) (pseudo s mask1 mask2 b c (t1 k) (t2 k))). split; [intros k Hk; destruct (Ht k Hk); apply coupled_of_ok; assumption|].
    intros i Hi. rewrite nth_tab by exact Hi. rewrite (sum_ext _ _ (fun k => pr k * pseudo s mask1 mask2 b c (t1 k) (t2 k) i)) by (intros k _; rewrite nth_tab by exact Hi; reflexivity).
    rewrite (proj1 (mean_pseudo i g1 g2 eq_refl eq_refl eq_refl eq_refl eq_refl eq_refl eq_refl)). apply coupled_ext. intros j m Hj Hm. change (ff_fs g1) with s in Hm. assert (j = 0)%nat as -> by (cbn in Hj; lia). cbn [nth]. unfold ring_value.
    destruct (Z.leb_spec 0 (ring pi fsqrt trunc s m)) as [H|H]; [|apply HC0; [exact Hm | lia]]. unfold ring_avg. cbv zeta. set (l := ring_modes pi fsqrt trunc s (Z.to_nat (ring pi fsqrt trunc s m))).
    assert (Il : forall m', In m' l -> In m' (grid s) /\ ring pi fsqrt trunc s m' = ring pi fsqrt trunc s m). { intros m' Q. unfold l, ring_modes in Q. apply filter_In in Q. destruct Q as [Q1 Q2]. apply Z.eqb_eq in Q2. rewrite Z2Nat.id in Q2 by exact H. auto. }
    assert (Im : In m l). { unfold l, ring_modes. apply filter_In. split; [exact Hm|]. apply Z.eqb_eq. rewrite Z2Nat.id by exact H. reflexivity. }
    rewrite (lsum_const _ (C (kmod_of s m))).
    + destruct l as [|x t]; [destruct Im|]. cbn [length Nat.eqb]. pose proof (fofnat_neq0 (F:=F) (length t)) as NZ. set (z := fofnat (S (length t))) in *. field. exact NZ.
    + intros m' Q. destruct (Il m' Q) as [Q1 Q2]. rewrite <- (HCs m' Q1). apply HCr; assumption.
Qed.
End Ensemble.
(** The covariance asked for is realised, for every spectrum, by an ensemble of plane waves: the cosine and the sine of each mode, with weight P(k)/A. *)
Definition ens_size (s : fsinfo) : nat := (length (grid s) * 2)%nat.
Definition ens_mode (s : fsinfo) (k : nat) : nat * nat := nth (k / 2) (grid s) (0%nat, 0%nat).
Definition ens_weight (s : fsinfo) (P : F -> F) (k : nat) : F := 1 / (fs_lx s * fs_ly s) * P (kmod_of s (ens_mode s k)).
Definition ens_map (s : fsinfo) (k : nat) : list F :=
  tab (fs_nx s * fs_ny s) (fun q => let z := wave ph s (ens_mode s k) (q mod fs_nx s, q / fs_nx s)%nat in if Nat.eqb (k mod 2) 0 then fst z else snd z).
Theorem C77_ensemble_exists (s : fsinfo) (P : F -> F) p p' : In p (grid s) -> In p' (grid s) ->
  (forall k, length (ens_map s k) = (fs_nx s * fs_ny s)%nat) /\
  sum (ens_size s) (fun k => ens_weight s P k * (pix s (ens_map s k) p * pix s (ens_map s k) p')) = iso_cov pi fsqrt ph s P p p'.
Proof.
  clear trunc. intros Hp Hp'. split; [intro k; apply length_tab|].
  assert (Px : forall k p, In p (grid s) -> pix s (ens_map s k) p = if Nat.eqb (k mod 2) 0 then fst (wave ph s (ens_mode s k) p) else snd (wave ph s (ens_mode s k) p)).
  { intros k [x y] Hq. apply in_grid in Hq. cbn [fst snd] in Hq. unfold pix, ens_map. cbn [fst snd]. rewrite nth_tab by nia. cbv zeta. rewrite (Nat.mul_comm (fs_nx s) y), (Nat.mod_add x y (fs_nx s)), (Nat.div_add x y (fs_nx s)), (Nat.mod_small x), (Nat.div_small x) by lia. reflexivity. }
  unfold ens_size. rewrite sum_flat. unfold iso_cov. rewrite <- lsum_mul_l. rewrite (lsum_map_nth (fun m => 1 / (fs_lx s * fs_ly s) * (P (kmod_of s m) * cdot (wave ph s m p) (wave ph s m p'))) (grid s) (0%nat, 0%nat)). apply sum_ext. intros i Hi. cbn [sum].
  rewrite !(Px _ p Hp), !(Px _ p' Hp'). unfold ens_weight. assert (E0 : forall j, (j < 2)%nat -> ens_mode s (2 * i + j) = nth i (grid s) (0%nat, 0%nat) /\ ((2 * i + j) mod 2 = j)%nat).
  { intros j Hj. unfold ens_mode. rewrite Nat.add_comm, (Nat.mul_comm 2 i), Nat.div_add, Nat.mod_add, Nat.div_small, Nat.mod_small by lia. split; reflexivity. }
  destruct (E0 0%nat ltac:(lia)) as [-> ->]. destruct (E0 1%nat ltac:(lia)) as [-> ->]. cbn [Nat.eqb]. unfold cdot. ring.
Qed.
End Statements.

(** ** Example: a 4x4 map with a mask that has no symmetry *)
Section Ex.
Notation Q := Qc_field.
Definition c44 : Q -> Q := band_value bring [qz 7; qz 3].
Definition bm (k : Q) : Q := fdiv (qz 1) (fadd (qz 1) k).
Lemma hom44 : hom_roots ph4 s44.
Proof. split; intros i j Hi Hj; cbn [s44 fs_nx fs_ny] in *; destruct i as [|[|[|[|i]]]]; try lia; destruct j as [|[|[|[|j]]]]; try lia; apply cplx_eq; apply out_inj; vm_compute; reflexivity. Qed.
Definition p44 (k : Q) : Q := fmul (c44 k) (fmul (bm k) (qz 1)).
Definition pr44 := ens_weight (qz 1) sq8 s44 p44.
Definition t44 := ens_map ph4 s44.
Definition mask44' : list Q := map qz [1; 0; 2; 0; 1; 2; 0; 1; 1; 1; 1; 0; 0; 5; 0; 1]%Z.
Definition w44 : res (fwsp Q) := workspace_of (qz 1) sq8 trq ph4 s44 mask44 mask44' bm (fun _ => qz 1) bring free [2; 0; 1; 3]%nat.
Definition run44 (k : nat) : res (list (list Q)) := decoupled_of (qz 1) sq8 trq ph4 s44 mask44 mask44' bm (fun _ => qz 1) bring free [2; 0; 1; 3]%nat (t44 k) (t44 k).
Lemma w44_nonsingular : nonsingular (n_bands bring) (fw_bnd (from_ok dummy w44)).
Proof.
  assert (E : is_ok w44 = true) by (vm_compute; reflexivity). assert (N : nonsingular (fw_ncls (from_ok dummy w44) * fw_nb (from_ok dummy w44)) (fw_bnd (from_ok dummy w44))).
  { apply nonsingular_of_solution; [vm_compute; lia | | vm_compute; reflexivity]. split; [vm_compute; reflexivity|]. apply Forall_forall. vm_compute. repeat constructor. }
  exact N.
Qed.
Example ex_unbiased : contiguous bring /\ y_symmetric (qz 1) s44 free /\ conj_roots ph4 s44 /\ hom_roots ph4 s44 /\ length mask44 = 16%nat /\ length mask44' = 16%nat /\ all_rows s44 [2; 0; 1; 3]%nat /\
  (forall p p', In p (grid s44) -> In p' (grid s44) -> sum 32 (fun k => fmul (pr44 k) (fmul (pix s44 (t44 k) p) (pix s44 (t44 k) p'))) = iso_cov (qz 1) sq8 ph4 s44 p44 p p') /\
  is_ok w44 = true /\ nonsingular (n_bands bring) (fw_bnd (from_ok dummy w44)) /\
  map out (tab 2 (fun i => sum 32 (fun k => fmul (pr44 k) (nth i (nth 0 (from_ok [] (run44 k)) []) (qz 0))))) = map out [qz 7; qz 3] /\
  map out (nth 0 (from_ok [] (run44 5)) []) <> map out (nth 0 (from_ok [] (run44 9)) []).
Proof.
  split; [exact contiguous_ring|]. split; [intros iy Hy; cbn [s44 fs_ny] in Hy; destruct iy as [|[|[|[|iy]]]]; try lia; vm_compute; reflexivity|]. split; [exact roots44|]. split; [exact hom44|]. split; [reflexivity|]. split; [reflexivity|].
  split; [unfold all_rows; cbn; apply (Permutation_cons_app [0; 1]%nat [3]%nat 2%nat); apply Permutation_refl|]. split; [intros p p' Hp Hp'; exact (proj2 (C77_ensemble_exists (qz 1) sq8 ph4 s44 p44 p p' Hp Hp'))|].
  split; [vm_compute; reflexivity|]. split; [exact w44_nonsingular|]. split; [vm_compute; reflexivity|]. vm_compute. discriminate.
Qed.
End Ex.

(** The roots of unity over the real numbers meet the hypothesis. *)
Open Scope R_scope.
Theorem C77_real_roots (s : fsinfo R_field) : hom_roots phR s.
Proof.
  assert (G : forall n i j, (i < n)%nat -> (j < n)%nat -> phR n (diff n i j) = cmul (phR n i) (conjc (phR n j))).
  { intros n i j Hi Hj. assert (Hn : INR n <> 0) by (apply not_0_INR; lia). set (a := 2 * PI * INR i / INR n). set (b := 2 * PI * INR j / INR n).
    assert (E : cos (2 * PI * INR (diff n i j) / INR n) = cos (a - b) /\ sin (2 * PI * INR (diff n i j) / INR n) = sin (a - b)).
    { unfold diff. destruct (Nat.leb_spec j i) as [L|L].
      - rewrite minus_INR by exact L. replace (2 * PI * (INR i - INR j) / INR n) with (a - b) by (unfold a, b; field; exact Hn). split; reflexivity.
      - rewrite minus_INR, plus_INR by lia. replace (2 * PI * (INR i + INR n - INR j) / INR n) with (a - b + 2 * INR 1 * PI) by (unfold a, b; cbn; field; exact Hn). rewrite cos_period, sin_period. split; reflexivity. }
    destruct E as [E1 E2]. unfold phR. apply cplx_eq; cbn [cmul conjc fst snd].
    - rewrite E1. fold a b. rewrite cos_minus. change (cos a * cos b + sin a * sin b = cos a * cos b - - sin a * (- - sin b)). ring.
    - rewrite E2. fold a b. rewrite sin_minus. change (- (sin a * cos b - cos a * sin b) = cos a * (- - sin b) + - sin a * cos b). ring. }
  split; intros i j Hi Hj; apply G; assumption.
Qed.

Print Assumptions C77_mean. Print Assumptions C77_unbiased. Print Assumptions C77_couple_cell. Print Assumptions C77_ensemble_exists. Print Assumptions C77_real_roots.
