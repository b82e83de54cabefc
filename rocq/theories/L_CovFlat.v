(** Lemmas: coefficients of the flat-sky covariance and fourth moments of masked maps. *)
From Verif Require Import Base M_Utils M_Bins M_FlatBins M_LinAlg M_Workspace M_Flat M_WspFlat M_Covar M_CovFlat P_FlatBins L_LinAlg L_Flat L_Flat2 L_Flat3 P_Flat L_FITS L_MCM L_WspFlat L_WspFlat2 P_WspFlat L_FlatMean P_FlatMean.
From Coq Require Import Permutation.
Open Scope nat_scope.

Lemma tabM_cong {A} n (f g : nat -> res A) : (forall i, (i < n)%nat -> f i = g i) -> tabM n f = tabM n g.
Proof.
  intro H. unfold tabM. assert (G : forall l, (forall i, In i l -> f i = g i) -> mapM f l = mapM g l) by (induction l as [|j t IH]; intro HE; [reflexivity|]; cbn [mapM]; rewrite (HE j) by (left; reflexivity); rewrite IH by (intros; apply HE; right; assumption); reflexivity).
  apply G. intros i Hi. apply H. apply in_seq in Hi. lia.
Qed.
Lemma tabM_UB {A} n (f : nat -> res A) i : (i < n)%nat -> f i = UB -> (forall j e, (j < n)%nat -> f j <> Exn e) -> tabM n f = UB.
Proof.
  intros Hi Hu He. unfold tabM. assert (G : forall l, (forall j e, In j l -> f j <> Exn e) -> In i l -> mapM f l = UB).
  { induction l as [|j t IH]; intros HE HI; [destruct HI|]. cbn [mapM]. destruct HI as [->|HI]; [rewrite Hu; reflexivity|]. destruct (f j) as [x|e|] eqn:Ej; cbn [bind]; [|exfalso; apply (HE j e); [left; reflexivity | exact Ej] | reflexivity]. rewrite IH; [reflexivity | intros; apply HE; right; assumption | exact HI]. }
  apply G; [intros j e H; apply He; apply in_seq in H; lia | apply in_seq; lia].
Qed.
Section LCF.
Context {F : ofield}.
Local Open Scope F_scope.
Add Field FfCF : (fth F).
Notation mat := (list (list F)).
Notation cplx := (cplx F).
Notation fsinfo := (fsinfo F).
Notation fbins := (fbins F).
Notation cuts := (cuts F).
Notation ffield := (ffield F).
Notation fwsp := (fwsp F).
Notation cfwsp := (cfwsp F).
(** ** Tables *)
Section T.
Variables (pi : F) (fsqrt : F -> F) (ph : nat -> nat -> cplx).
Definition bmodes (s : fsinfo) (b : fbins) (i : nat) : list (nat * nat) := filter (fun m => inb b i (kmod_of pi fsqrt s m)) (grid s).
Definition ncell (s : fsinfo) (b : fbins) (i : nat) : Z := Z.of_nat (length (bmodes s b i)).
Lemma bcount (s : fsinfo) b rows i : contiguous b -> (i < n_bands b)%nat -> Permutation rows (seq 0 (fs_ny s)) ->
  count_cells s (nocut (bands_of pi fsqrt s b)) rows i = ncell s b i.
Proof.
  intros Hc Hi P. unfold count_cells, ncell, bmodes. f_equal. rewrite (Permutation_length (Permutation_filter _ _ _ (plane_of_perm s rows P))).
  f_equal. apply filter_ext_in. intros m Hm. apply nocut_eq; assumption.
Qed.
Definition pair_sum (s : fsinfo) (b : fbins) (cl : nat * nat -> F) (w : nat * nat -> nat * nat -> F) (i j : nat) : F :=
  lsum (map (fun m1 => lsum (map (fun m2 => cl (diff_mode s m1 m2) * w m1 m2) (bmodes s b j))) (bmodes s b i)).
Lemma xi_raw_eq (s : fsinfo) b rows cl w i j : contiguous b -> (i < n_bands b)%nat -> (j < n_bands b)%nat -> Permutation rows (seq 0 (fs_ny s)) ->
  xi_raw s rows (nocut (bands_of pi fsqrt s b)) cl w i j = pair_sum s b cl w i j.
Proof.
  intros Hc Hi Hj P. unfold xi_raw. rewrite (lsum_perm _ _ (Permutation_map _ (plane_of_perm _ _ P))). rewrite lsum_filter. unfold pair_sum, bmodes at 2.
  rewrite (filter_ext_in _ (fun m => inb b i (kmod_of pi fsqrt s m))) by (intros m Hm; apply nocut_eq; assumption).
  apply lsum_ext. intros m1 H1. unfold gather. rewrite plane_of_grid, lsum_filter. rewrite (filter_ext_in _ (fun m => inb b j (kmod_of pi fsqrt s m))) by (intros m Hm; apply nocut_eq; assumption). reflexivity.
Qed.
Definition norm_of (s : fsinfo) (p : Z) : F := if (0 <? p)%Z then fofZ 4 * pi * pi / (fs_lx s * fs_lx s * fs_ly s * fs_ly s) / fofZ p else 0.
(** tables of a workspace; [prod i j]: what the code takes for the product of the numbers of modes *)
Definition tables (s : fsinfo) (b : fbins) (prod : nat -> nat -> Z) (cl1 cl2 : nat * nat -> F) : cfwsp :=
  let table cl w := tab (n_bands b) (fun i => tab (n_bands b) (fun j => pair_sum s b cl w i j * norm_of s (prod i j))) in
  let both w := (table cl1 w, table cl2 w) in
  CF b (both (fun _ _ => 1)) (both (cdiff pi fsqrt s)) (both (fun m1 m2 => cdiff pi fsqrt s m1 m2 * cdiff pi fsqrt s m1 m2)) (both (fun m1 m2 => sdiff pi fsqrt s m1 m2 * sdiff pi fsqrt s m1 m2)).
Definition mask_cl (s : fsinfo) (w1 w2 w3 w4 : list F) : nat * nat -> F := maskprod s (product_and_transform pi ph s w1 w2) (product_and_transform pi ph s w3 w4).
Definition same4 (a1 a2 b1 b2 : ffield) : bool := same_size (ff_fs a1) (ff_fs a2) && same_size (ff_fs a1) (ff_fs b1) && same_size (ff_fs a1) (ff_fs b2).
Section Init.
Variable imul : Z -> Z -> res Z.
Lemma cov_init_eq a1 a2 ba b1 b2 bb rows : same4 a1 a2 b1 b2 = true -> n_bands ba = n_bands bb -> contiguous ba -> Permutation rows (seq 0 (fs_ny (ff_fs a1))) ->
  cov_init pi fsqrt ph imul a1 a2 ba b1 b2 bb rows =
  do norms <- tabM (n_bands ba) (fun i => tabM (n_bands ba) (fun j => cov_norm pi imul (ff_fs a1) (ncell (ff_fs a1) ba i) (ncell (ff_fs a1) ba j)));
  let s := ff_fs a1 in let table cl w := tab (n_bands ba) (fun i => tab (n_bands ba) (fun j => pair_sum s ba cl w i j * entry2 norms i j)) in
  let both w := (table (mask_cl s (ff_mask a1) (ff_mask b1) (ff_mask a2) (ff_mask b2)) w, table (mask_cl s (ff_mask a1) (ff_mask b2) (ff_mask a2) (ff_mask b1)) w) in
  Ok (CF ba (both (fun _ _ => 1)) (both (cdiff pi fsqrt s)) (both (fun m1 m2 => cdiff pi fsqrt s m1 m2 * cdiff pi fsqrt s m1 m2)) (both (fun m1 m2 => sdiff pi fsqrt s m1 m2 * sdiff pi fsqrt s m1 m2))).
Proof.
  intros H4 Hn Hc P. unfold cov_init. unfold same4 in H4. rewrite H4. cbn [negb]. fold (n_bands ba) (n_bands bb). rewrite <- Hn, Nat.eqb_refl. cbn [negb]. rewrite (grid_bands_ok pi fsqrt _ ba Hc). cbn [bind]. cbv zeta.
  set (s := ff_fs a1) in *.
  replace (tabM (n_bands ba) (fun i => tabM (n_bands ba) (fun j => cov_norm pi imul s (nth i (tab (n_bands ba) (count_cells s (nocut (bands_of pi fsqrt s ba)) rows)) 0%Z) (nth j (tab (n_bands ba) (count_cells s (nocut (bands_of pi fsqrt s ba)) rows)) 0%Z))))
     with (tabM (n_bands ba) (fun i => tabM (n_bands ba) (fun j => cov_norm pi imul s (ncell s ba i) (ncell s ba j)))).
  2:{ apply tabM_cong. intros i Hi. apply tabM_cong. intros j Hj. do 2 (rewrite nth_tab by assumption). rewrite !bcount by assumption. reflexivity. }
  destruct (tabM (n_bands ba) _) as [norms|e|]; cbn [bind]; [|reflexivity|reflexivity].
  assert (T : forall cl w, tab (n_bands ba) (fun i => tab (n_bands ba) (fun j => xi_raw s rows (nocut (bands_of pi fsqrt s ba)) cl w i j * entry2 norms i j)) = tab (n_bands ba) (fun i => tab (n_bands ba) (fun j => pair_sum s ba cl w i j * entry2 norms i j))).
  { intros cl w. apply tab_ext. intros i Hi. apply tab_ext. intros j Hj. rewrite xi_raw_eq by assumption. reflexivity. }
  rewrite !T. reflexivity.
Qed.
Lemma cov_init_ok a1 a2 ba b1 b2 bb rows prod : same4 a1 a2 b1 b2 = true -> n_bands ba = n_bands bb -> contiguous ba -> Permutation rows (seq 0 (fs_ny (ff_fs a1))) ->
  (forall i j, (i < n_bands ba)%nat -> (j < n_bands ba)%nat -> imul (ncell (ff_fs a1) ba i) (ncell (ff_fs a1) ba j) = Ok (prod i j)) ->
  cov_init pi fsqrt ph imul a1 a2 ba b1 b2 bb rows = Ok (tables (ff_fs a1) ba prod (mask_cl (ff_fs a1) (ff_mask a1) (ff_mask b1) (ff_mask a2) (ff_mask b2)) (mask_cl (ff_fs a1) (ff_mask a1) (ff_mask b2) (ff_mask a2) (ff_mask b1))).
Proof.
  intros H4 Hn Hc P HI. rewrite cov_init_eq by assumption. set (s := ff_fs a1) in *.
  rewrite (tabM_ok (n_bands ba) _ (fun i => tab (n_bands ba) (fun j => norm_of s (prod i j)))).
  2:{ intros i Hi. apply tabM_ok. intros j Hj. unfold cov_norm. rewrite HI by assumption. reflexivity. }
  cbn [bind]. cbv zeta. unfold tables.
  assert (T : forall cl w, tab (n_bands ba) (fun i => tab (n_bands ba) (fun j => pair_sum s ba cl w i j * entry2 (tab (n_bands ba) (fun i => tab (n_bands ba) (fun j => norm_of s (prod i j)))) i j)) = tab (n_bands ba) (fun i => tab (n_bands ba) (fun j => pair_sum s ba cl w i j * norm_of s (prod i j)))).
  { intros cl w. apply tab_ext. intros i Hi. apply tab_ext. intros j Hj. unfold entry2. rewrite nth_tab by exact Hi. rewrite nth_tab by exact Hj. reflexivity. }
  rewrite !T. reflexivity.
Qed.
End Init.
End T.
End LCF.
