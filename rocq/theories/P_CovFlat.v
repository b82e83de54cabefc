(** Properties C57 and C79: normalisation of the flat-sky covariance, and its exactness for white maps. *)
From Verif Require Import Base FieldR M_Utils M_Bins M_FlatBins M_LinAlg M_Workspace M_Flat M_WspFlat M_Covar M_CovFlat P_FlatBins L_LinAlg L_Flat L_Flat2 L_Flat3 P_Flat L_FITS L_MCM L_WspFlat L_WspFlat2 P_WspFlat P_Workspace P_Covar2 L_FlatMean P_FlatMean L_CovFlat L_CovFlat2 L_CovFlat3 L_Wick.
From Coq Require Import Permutation.
Open Scope nat_scope.

(** the C product of two ints is exact when it fits; nothing is known otherwise *)
Definition exact_mul (imul : Z -> Z -> res Z) : Prop := forall a b, (0 <= a * b <= int_max)%Z -> imul a b = Ok (a * b)%Z.
Lemma strict_exact : exact_mul imul_strict.
Proof. intros a b H. unfold imul_strict, i32. unfold int_max in *. rewrite (proj2 (Z.leb_le _ _)) by lia. rewrite (proj2 (Z.leb_le _ _)) by lia. reflexivity. Qed.
Lemma wrap_exact : exact_mul imul_wrap.
Proof. intros a b H. unfold imul_wrap, wrap32, int_max in *. f_equal. rewrite Z.mod_small by lia. lia. Qed.

Section Statements.
Context {F : ofield}.
Local Open Scope F_scope.
Add Field FfPCF : (fth F).
Notation mat := (list (list F)).
Notation cplx := (cplx F).
Notation fsinfo := (fsinfo F).
Notation fbins := (fbins F).
Notation cuts := (cuts F).
Notation ffield := (ffield F).
Notation fwsp := (fwsp F).
Notation cfwsp := (cfwsp F).
Variables (pi : F) (fsqrt : F -> F) (trunc : F -> Z) (ph : nat -> nat -> cplx) (imul : Z -> Z -> res Z).
Notation kmod_of := (kmod_of pi fsqrt).
Notation new_field := (new_field pi fsqrt ph).
Notation cov_init := (cov_init pi fsqrt ph).
Notation py_cov_compute := (py_cov_compute pi fsqrt ph).
Notation workspace_of := (workspace_of pi fsqrt trunc ph).
Notation decoupled_of := (decoupled_of pi fsqrt trunc ph).

Lemma lsum_pos {A} (f : A -> F) l a : In a l -> (forall x, In x l -> 0 <= f x) -> 0 < f a -> 0 < lsum (map f l).
Proof.
  clear. induction l as [|x l IH]; intros Ha Hn Hp; [destruct Ha|]. rewrite lsum_cons. assert (Hl : 0 <= lsum (map f l)) by (apply lsum_nonneg; intros y Hy; apply Hn; right; exact Hy). destruct Ha as [->|Ha].
  - replace (0 : F) with (0 + 0 : F) at 1 by ring. apply flt_le_add; assumption.
  - replace (f x + lsum (map f l)) with (lsum (map f l) + f x) by ring. replace (0 : F) with (0 + 0 : F) at 1 by ring. apply flt_le_add; [apply IH; [exact Ha | intros y Hy; apply Hn; right; exact Hy | exact Hp] | apply Hn; left; reflexivity].
Qed.
Lemma fdiv_pos (x y : F) : 0 < x -> 0 < y -> 0 < x / y.
Proof. clear. intros A B. replace (x / y) with (x * / y) by (field; apply fpos_neq; exact B). apply fmul_pos; [exact A | apply finv_pos; exact B]. Qed.
Lemma sq_pos (x : F) : x <> 0 -> 0 < x * x.
Proof. clear. intro H. apply fle_neq_lt; [apply fsqr_nonneg|]. intro E. symmetry in E. apply fmul_eq_0 in E. destruct E; contradiction. Qed.
(** number of modes of the map whose wavenumber lies in band i *)
Definition modes_in (s : fsinfo) (b : fbins) (i : nat) : nat := length (filter (fun m => inb b i (kmod_of s m)) (grid s)).
Lemma modes_in_le s b i : (modes_in s b i <= fs_nx s * fs_ny s)%nat.
Proof.
  clear trunc ph imul. unfold modes_in. assert (E : length (grid s) = (fs_nx s * fs_ny s)%nat).
  { unfold grid. rewrite flat_map_concat_map. set (g := fun iy => _). assert (G : forall l, length (concat (map g l)) = (fs_nx s * length l)%nat) by (induction l as [|a l IH]; [cbn; lia | cbn [map concat length]; rewrite app_length, IH; unfold g; rewrite map_length, seq_length; lia]). rewrite G, seq_length. reflexivity. }
  rewrite <- E. clear E. generalize (grid s). intro l. induction l as [|a l IH]; [cbn; lia|]. cbn [filter]. destruct (inb b i (kmod_of s a)); cbn [length]; lia.
Qed.
(** the eight tables of a workspace at (i,j) *)
Definition coefficients (w : cfwsp) (i j : nat) : list F :=
  map (fun t => entry2 t i j) [fst (cf_00 w); snd (cf_00 w); fst (cf_02 w); snd (cf_02 w); fst (cf_pp w); snd (cf_pp w); fst (cf_mm w); snd (cf_mm w)].
(** the sums over pairs of modes which are normalised *)
Definition raw (a1 a2 b1 b2 : ffield) (b : fbins) (i j : nat) : list F :=
  let s := ff_fs a1 in let one := fun _ _ => 1 : F in let cd := cdiff pi fsqrt s in let sd := sdiff pi fsqrt s in
  let c1 := mask_cl pi ph s (ff_mask a1) (ff_mask b1) (ff_mask a2) (ff_mask b2) in let c2 := mask_cl pi ph s (ff_mask a1) (ff_mask b2) (ff_mask a2) (ff_mask b1) in
  let p cl w := lsum (map (fun m1 => lsum (map (fun m2 => cl (diff_mode s m1 m2) * w m1 m2) (filter (fun m => inb b j (kmod_of s m)) (grid s)))) (filter (fun m => inb b i (kmod_of s m)) (grid s))) in
  [p c1 one; p c2 one; p c1 cd; p c2 cd; p c1 (fun x y => cd x y * cd x y); p c2 (fun x y => cd x y * cd x y); p c1 (fun x y => sd x y * sd x y); p c2 (fun x y => sd x y * sd x y)].
Lemma entry_tables s b prod c1 c2 i j : (i < n_bands b)%nat -> (j < n_bands b)%nat ->
  coefficients (tables pi fsqrt s b prod c1 c2) i j = map (fun x => x * norm_of pi s (prod i j))
    [pair_sum pi fsqrt s b c1 (fun _ _ => 1) i j; pair_sum pi fsqrt s b c2 (fun _ _ => 1) i j; pair_sum pi fsqrt s b c1 (cdiff pi fsqrt s) i j; pair_sum pi fsqrt s b c2 (cdiff pi fsqrt s) i j;
     pair_sum pi fsqrt s b c1 (fun x y => cdiff pi fsqrt s x y * cdiff pi fsqrt s x y) i j; pair_sum pi fsqrt s b c2 (fun x y => cdiff pi fsqrt s x y * cdiff pi fsqrt s x y) i j;
     pair_sum pi fsqrt s b c1 (fun x y => sdiff pi fsqrt s x y * sdiff pi fsqrt s x y) i j; pair_sum pi fsqrt s b c2 (fun x y => sdiff pi fsqrt s x y * sdiff pi fsqrt s x y) i j].
Proof. intros Hi Hj. unfold coefficients, tables. cbn [cf_00 cf_02 cf_pp cf_mm fst snd map]. unfold entry2. do 8 (rewrite nth_tab by exact Hi; rewrite nth_tab by exact Hj). reflexivity. Qed.
Lemma norm_pos s p : 0 < pi -> 0 < fs_lx s -> 0 < fs_ly s -> (0 < p)%Z -> 0 < norm_of pi s p.
Proof.
  clear trunc ph imul fsqrt. intros H1 H2 H3 H4. unfold norm_of. rewrite (proj2 (Z.ltb_lt 0 p) H4). 
  apply fdiv_pos; [apply fdiv_pos|apply fofZ_pos; exact H4]; repeat apply fmul_pos; try assumption. apply fofZ_pos. lia.
Qed.
(** Every coefficient is the sum over pairs of modes, times a normalisation which is positive when both bands contain modes and zero otherwise.
    The numbers of modes have to be such that their products fit into an int. *)
Theorem C57_positive (a1 a2 b1 b2 : ffield) (ba bb : fbins) (rows : list nat) : exact_mul imul ->
  same4 a1 a2 b1 b2 = true -> n_bands ba = n_bands bb -> contiguous ba -> all_rows (ff_fs a1) rows -> 0 < pi -> 0 < fs_lx (ff_fs a1) -> 0 < fs_ly (ff_fs a1) ->
  (forall i j, (i < n_bands ba)%nat -> (j < n_bands ba)%nat -> (Z.of_nat (modes_in (ff_fs a1) ba i) * Z.of_nat (modes_in (ff_fs a1) ba j) <= int_max)%Z) ->
  exists w, cov_init imul a1 a2 ba b1 b2 bb rows = Ok w /\ forall i j, (i < n_bands ba)%nat -> (j < n_bands ba)%nat ->
    exists v, coefficients w i j = map (fun x => x * v) (raw a1 a2 b1 b2 ba i j) /\
      ((0 < modes_in (ff_fs a1) ba i)%nat /\ (0 < modes_in (ff_fs a1) ba j)%nat -> 0 < v) /\ (modes_in (ff_fs a1) ba i = 0%nat \/ modes_in (ff_fs a1) ba j = 0%nat -> v = 0).
Proof.
  clear trunc. intros HM H4 Hn Hc P Hp Hx Hy Hf. eexists. split.
  - apply (cov_init_ok pi fsqrt ph imul a1 a2 ba b1 b2 bb rows (fun i j => (ncell pi fsqrt (ff_fs a1) ba i * ncell pi fsqrt (ff_fs a1) ba j)%Z)); try assumption. intros i j Hi Hj. apply HM. specialize (Hf i j Hi Hj). unfold modes_in in Hf. unfold ncell, bmodes. lia.
  - intros i j Hi Hj. exists (norm_of pi (ff_fs a1) (ncell pi fsqrt (ff_fs a1) ba i * ncell pi fsqrt (ff_fs a1) ba j)). split; [rewrite entry_tables by assumption; reflexivity|]. unfold ncell, bmodes, modes_in. split.
    + intros [A B]. apply norm_pos; try assumption. nia.
    + intros [A|A]; rewrite A; unfold norm_of; [reflexivity | rewrite Z.mul_0_r; reflexivity].
Qed.
(** maps with at most 46340 pixels are safe *)
Theorem C57_small_maps (s : fsinfo) (b : fbins) i j : (Z.of_nat (fs_nx s) * Z.of_nat (fs_ny s) <= 46340)%Z -> (Z.of_nat (modes_in s b i) * Z.of_nat (modes_in s b j) <= int_max)%Z.
Proof. clear trunc ph imul. intro H. pose proof (modes_in_le s b i). pose proof (modes_in_le s b j). unfold int_max. assert (Z.of_nat (modes_in s b i) <= 46340)%Z by lia. assert (Z.of_nat (modes_in s b j) <= 46340)%Z by lia. nia. Qed.
(** the diagonal of the scalar coefficients is positive for fields with one mask *)
Theorem C57_diagonal (a1 a2 b1 b2 : ffield) (ba bb : fbins) (rows : list nat) (mask : list F) w i : exact_mul imul ->
  same4 a1 a2 b1 b2 = true -> n_bands ba = n_bands bb -> contiguous ba -> all_rows (ff_fs a1) rows -> 0 < pi -> 0 < fs_lx (ff_fs a1) -> 0 < fs_ly (ff_fs a1) -> conj_roots ph (ff_fs a1) -> ph (fs_nx (ff_fs a1)) 0%nat = (1, 0) -> ph (fs_ny (ff_fs a1)) 0%nat = (1, 0) ->
  (forall i j, (i < n_bands ba)%nat -> (j < n_bands ba)%nat -> (Z.of_nat (modes_in (ff_fs a1) ba i) * Z.of_nat (modes_in (ff_fs a1) ba j) <= int_max)%Z) ->
  ff_mask a1 = mask -> ff_mask a2 = mask -> ff_mask b1 = mask -> ff_mask b2 = mask -> (exists p, In p (grid (ff_fs a1)) /\ pix (ff_fs a1) mask p <> 0) ->
  cov_init imul a1 a2 ba b1 b2 bb rows = Ok w -> (i < n_bands ba)%nat -> (0 < modes_in (ff_fs a1) ba i)%nat ->
  0 < entry2 (fst (cf_00 w)) i i /\ 0 < entry2 (snd (cf_00 w)) i i.
Proof.
  clear trunc. intros HM H4 Hn Hc P Hp Hx Hy HR Hph Hph' Hf E1 E2 E3 E4 [p [Ip Np]] Hw Hi Hni. set (s := ff_fs a1) in *.
  destruct (C57_positive a1 a2 b1 b2 ba bb rows HM H4 Hn Hc P Hp Hx Hy Hf) as [w' [Hw' H]]. rewrite Hw in Hw'. injection Hw' as <-. destruct (H i i Hi Hi) as [v [Ec [Hv _]]]. specialize (Hv (conj Hni Hni)).
  unfold coefficients, raw in Ec. cbv zeta in Ec. cbn [map] in Ec. injection Ec as C1 C2 _ _ _ _ _ _. fold s in C1, C2. rewrite E1, E2, E3, E4 in C1, C2. unfold entry2 in *. rewrite C1, C2. clear C1 C2.
  set (l := filter (fun m => inb ba i (kmod_of s m)) (grid s)). set (U := map_product s mask mask).
  assert (NN : forall q, 0 <= mask_cl pi ph s mask mask mask mask q) by (intro q; unfold mask_cl, maskprod; fold U; unfold product_and_transform, cdot; apply fadd_nonneg; apply fsqr_nonneg).
  assert (Z : 0 < mask_cl pi ph s mask mask mask mask (0, 0)%nat).
  { apply in_grid in Ip. assert (Ig : In (0, 0)%nat (grid s)) by (apply in_grid; cbn; lia). change (mask_cl pi ph s mask mask mask mask (0, 0)%nat) with (code_prod pi ph s U U (0, 0)%nat). rewrite code_prod_eq by assumption. cbn [fst Nat.mul Nat.leb]. unfold true_prod. rewrite coeff_sum.
    assert (W : forall q, wave ph s (0, 0)%nat q = (1, 0)). { intro q. unfold wave. cbn [fst snd]. rewrite !Nat.mul_0_l. destruct (fs_nx s) as [|nx] eqn:EX; [lia|]. destruct (fs_ny s) as [|ny] eqn:EY; [lia|]. rewrite !Nat.mod_0_l by lia. rewrite Hph, Hph'. apply cplx_eq; cbn; ring. }
    assert (HN : 0 < norm_m2a pi s). { unfold norm_m2a. apply fdiv_pos; [apply fmul_pos; assumption|]. repeat apply fmul_pos; try assumption; [apply fofZ_pos; lia | |]; [destruct (fs_nx s); [lia | apply fofnat_pos] | destruct (fs_ny s); [lia | apply fofnat_pos]]. }
    set (c := clsum _ _). assert (Ep : 0 < fst c).
    { unfold c, clsum. cbn [fst]. apply (lsum_pos _ _ p); [apply in_grid; exact Ip| |].
      - intros q Iq. rewrite W. cbn [cscal fst]. unfold U. rewrite pix_product by exact Iq. replace (norm_m2a pi s * (pix s mask q * pix s mask q) * 1) with (norm_m2a pi s * (pix s mask q * pix s mask q)) by ring. apply fmul_nonneg; [apply flt_le; exact HN | apply fsqr_nonneg].
      - rewrite W. cbn [cscal fst]. unfold U. rewrite pix_product by (apply in_grid; exact Ip). replace (norm_m2a pi s * (pix s mask p * pix s mask p) * 1) with (norm_m2a pi s * (pix s mask p * pix s mask p)) by ring. apply fmul_pos; [exact HN | apply sq_pos; exact Np]. }
    unfold cdot. replace (0 : F) with (0 + 0 : F) by ring. apply flt_le_add; [apply fmul_pos; exact Ep | apply fsqr_nonneg]. }
  assert (S : 0 < lsum (map (fun m1 => lsum (map (fun m2 => mask_cl pi ph s mask mask mask mask (diff_mode s m1 m2) * 1) l)) l)).
  { destruct l as [|m l'] eqn:El; [unfold modes_in in Hni; fold s l in Hni; rewrite El in Hni; cbn in Hni; lia|]. rewrite <- El. assert (Im : In m l) by (rewrite El; left; reflexivity).
    apply (lsum_pos _ _ m Im).
    - intros q _. apply lsum_nonneg. intros x _. replace (mask_cl pi ph s mask mask mask mask (diff_mode s q x) * 1) with (mask_cl pi ph s mask mask mask mask (diff_mode s q x)) by ring. apply NN.
    - apply (lsum_pos _ _ m Im). + intros x _. replace (mask_cl pi ph s mask mask mask mask (diff_mode s m x) * 1) with (mask_cl pi ph s mask mask mask mask (diff_mode s m x)) by ring. apply NN.
      + replace (diff_mode s m m) with (0, 0)%nat by (unfold diff_mode, diff; rewrite !Nat.leb_refl, !Nat.sub_diag; reflexivity). replace (mask_cl pi ph s mask mask mask mask (0, 0)%nat * 1) with (mask_cl pi ph s mask mask mask mask (0, 0)%nat) by ring. exact Z. }
  split; apply fmul_pos; assumption.
Qed.
(** *** Products that do not fit *)
Lemma tabM_noexn {A} n (f : nat -> res A) : (forall i e, f i <> Exn e) -> forall e, tabM n f <> Exn e.
Proof.
  clear. intros H e. unfold tabM. generalize (seq 0 n). intro l. induction l as [|a l IH]; cbn [mapM]; [discriminate|]. destruct (f a) as [x|e'|] eqn:E; cbn [bind]; [|exfalso; exact (H a e' E)|discriminate]. destruct (mapM f l) as [y|e'|]; cbn [bind]; try discriminate. intro E'. apply IH. exact E'.
Qed.
(** Refuted: two bands with too many modes make the computation undefined (signed overflow) *)
Theorem C57_overflow_refuted (a1 a2 b1 b2 : ffield) (ba bb : fbins) (rows : list nat) i j :
  same4 a1 a2 b1 b2 = true -> n_bands ba = n_bands bb -> contiguous ba -> all_rows (ff_fs a1) rows -> (i < n_bands ba)%nat -> (j < n_bands ba)%nat ->
  (int_max < Z.of_nat (modes_in (ff_fs a1) ba i) * Z.of_nat (modes_in (ff_fs a1) ba j))%Z -> cov_init imul_strict a1 a2 ba b1 b2 bb rows = UB.
Proof.
  clear trunc imul. intros H4 Hn Hc P Hi Hj HL. rewrite cov_init_eq by assumption.
  assert (NE : forall x y e, cov_norm pi imul_strict (ff_fs a1) x y <> Exn e) by (intros x y e; unfold cov_norm, imul_strict, i32; destruct (_ && _)%bool; cbn [bind]; discriminate).
  rewrite (tabM_UB _ _ i Hi); [reflexivity | | intros k e _; apply tabM_noexn; intros; apply NE].
  apply (tabM_UB _ _ j Hj); [|intros k e _; apply NE]. unfold cov_norm, imul_strict, i32, ncell, bmodes. unfold modes_in in HL. rewrite (proj2 (Z.leb_gt _ int_max)) by exact HL. rewrite Bool.andb_false_r. reflexivity.
Qed.
Definition zero_workspace (w : cfwsp) : Prop := forall i j, coefficients w i j = [0; 0; 0; 0; 0; 0; 0; 0].
(** With two's complement arithmetic the product of the numbers of modes of a square map of side 256, 512, 1024... in one band is zero: all coefficients vanish. *)
Theorem C57_wrap_refuted (a1 a2 b1 b2 : ffield) (ba bb : fbins) (rows : list nat) :
  same4 a1 a2 b1 b2 = true -> n_bands ba = n_bands bb -> contiguous ba -> all_rows (ff_fs a1) rows -> n_bands ba = 1%nat ->
  (65536 | Z.of_nat (modes_in (ff_fs a1) ba 0))%Z -> exists w, cov_init imul_wrap a1 a2 ba b1 b2 bb rows = Ok w /\ zero_workspace w.
Proof.
  clear trunc imul. intros H4 Hn Hc P H1 [z Hz]. eexists. split.
  - apply (cov_init_ok pi fsqrt ph imul_wrap a1 a2 ba b1 b2 bb rows (fun i j => 0%Z)); try assumption. intros i j Hi Hj. rewrite H1 in Hi, Hj. assert (i = 0%nat) as -> by lia. assert (j = 0%nat) as -> by lia. unfold imul_wrap, ncell, bmodes. unfold modes_in in Hz. rewrite Hz. f_equal. unfold wrap32.
    replace (z * 65536 * (z * 65536) + 2147483648)%Z with (2147483648 + z * z * 4294967296)%Z by ring. rewrite Z.mod_add by lia. reflexivity.
  - intros i j. destruct (Nat.ltb_spec i (n_bands ba)) as [Hi|Hi]; [destruct (Nat.ltb_spec j (n_bands ba)) as [Hj|Hj]|].
    + rewrite entry_tables by assumption. unfold norm_of. cbn [Z.ltb Z.compare map]. assert (MZ : forall x : F, x * 0 = 0) by (intro; ring). rewrite !MZ. reflexivity.
    + unfold coefficients, tables. cbn [cf_00 cf_02 cf_pp cf_mm fst snd map]. unfold entry2. do 8 (rewrite nth_tab by exact Hi; rewrite nth_overflow by (rewrite length_tab; exact Hj)). reflexivity.
    + unfold coefficients, tables. cbn [cf_00 cf_02 cf_pp cf_mm fst snd map]. unfold entry2. do 8 (rewrite (nth_overflow (tab _ _)) by (rewrite length_tab; exact Hi)). destruct j; reflexivity.
Qed.
Lemma sumM_zero n (f : nat -> res F) v : (forall i u, f i = Ok u -> u = 0) -> sumM n f = Ok v -> v = 0.
Proof.
  clear. intro H. unfold sumM. assert (G : forall l acc, acc = 0 -> foldM (fun acc i => do u <- f i; Ok (acc + u)) acc l = Ok v -> v = 0).
  { induction l as [|a l IH]; intros acc Ha E; cbn [foldM] in E; [congruence|]. destruct (f a) as [u|e|] eqn:Ef; cbn [bind] in E; try discriminate. apply (IH (acc + u)); [|exact E]. rewrite Ha, (H a u Ef). ring. }
  intro E. exact (G _ 0 eq_refl E).
Qed.
Lemma zero_elem cw sp c na nb r k x : zero_workspace cw -> fcov_binned cw sp c na nb r k = Ok x -> x = 0.
Proof.
  clear. intros HZ. unfold fcov_binned. cbv zeta. set (i := (r / na)%nat). set (j := (k / nb)%nat). generalize ((r mod na) / nm (sp_b sp))%nat ((r mod na) mod nm (sp_b sp))%nat ((k mod nb) / nm (sp_d sp))%nat ((k mod nb) mod nm (sp_d sp))%nat. intros ia ib ic id E. unfold fcov_elem in E.
  pose proof (HZ i j) as Z. unfold coefficients in Z. cbn [map] in Z. injection Z as Z1 Z2 Z3 Z4 Z5 Z6 Z7 Z8.
  assert (X : forall n, nth n (fxis cw fst i j) 0 = 0 /\ nth n (fxis cw snd i j) 0 = 0). { intro n. unfold fxis. rewrite Z1, Z2, Z3, Z4, Z5, Z6, Z7, Z8. split; destruct n as [|[|[|[|[|[|[|n]]]]]]]; cbn [nth]; ring. }
  set (y1 := fxis cw fst i j) in *. set (y2 := fxis cw snd i j) in *. clearbody y1 y2. revert E. apply sumM_zero. intros p1 u1. apply sumM_zero. intros p2 u2. apply sumM_zero. intros p3 u3. apply sumM_zero. intros p4 u4. unfold cov_term. cbv zeta. intro E.
  repeat match type of E with bind ?e _ = _ => destruct e as [?|?|]; cbn [bind] in E; try discriminate E end. injection E as <-. rewrite (proj1 (X _)), (proj2 (X _)). ring.
Qed.
(** ... and every covariance computed from such a workspace is the zero matrix *)
Theorem C57_zero_covariance (cw : cfwsp) sp ells x1 x2 x3 x4 wa wb M i j : zero_workspace cw -> gaussian_covariance_flat (Some cw) sp ells x1 x2 x3 x4 wa wb = Ok M -> entry2 M i j = 0.
Proof.
  clear. intros HZ E. unfold gaussian_covariance_flat in E. cbv zeta in E. repeat match type of E with context [if ?b then _ else _] => destruct b; [discriminate E|] | bind (need ?w) _ = _ => let y := fresh "y" in destruct (need w) as [y|?|]; cbn [bind] in E; try discriminate E end.
  cbn [bind] in E. destruct (alloc_out _) as [[]|?|]; cbn [bind] in E; try discriminate E. unfold fcovar in E. destruct (negb _); [discriminate E|]. destruct (negb _); [discriminate E|].
  do 4 (match type of E with bind ?e _ = _ => destruct e as [?|?|]; cbn [bind] in E; try discriminate E end). cbv zeta in E. destruct (tabM _ _) as [B|?|] eqn:EB; cbn [bind] in E; try discriminate E. destruct (lu_invert _) as [ib|?|]; cbn [bind] in E; try discriminate E. destruct (lu_invert _) as [ia|?|]; cbn [bind] in E; try discriminate E. injection E as <-.
  assert (BZ : forall i j, entry2 B i j = 0).
  { intros r k. unfold entry2. destruct (tabM_inv _ _ _ EB) as [LB HB]. destruct (Nat.ltb_spec r (length B)) as [Hr|Hr]; [|rewrite (nth_overflow B) by exact Hr; destruct k; reflexivity]. rewrite LB in Hr. destruct (tabM_inv _ _ _ (HB r [] Hr)) as [LR HBr].
    destruct (Nat.ltb_spec k (length (nth r B []))) as [Hk|Hk]; [|apply nth_overflow; exact Hk]. rewrite LR in Hk. exact (zero_elem _ _ _ _ _ _ _ _ HZ (HBr k 0 Hk)). }
  set (na := (_ * _)%nat). set (nb := (_ * _)%nat). unfold entry2, mat_mul. destruct (Nat.ltb_spec i na) as [Hi|Hi]; [|rewrite (nth_overflow (tab _ _)) by (rewrite length_tab; exact Hi); destruct j; reflexivity].
  rewrite nth_tab by exact Hi. destruct (Nat.ltb_spec j nb) as [Hj|Hj]; [|rewrite nth_overflow by (rewrite length_tab; exact Hj); reflexivity]. rewrite nth_tab by exact Hj. apply sum_zero. intros p Hp.
  unfold mat_mul_t, entry2. rewrite nth_tab by exact Hp. rewrite nth_tab by exact Hj. fold (entry2 ia i p). rewrite (sum_zero nb) by (intros q Hq; rewrite (BZ p q : nth q (nth p B []) 0 = 0); ring). ring.
Qed.
(** ** Exactness for white maps *)
Lemma workspace_ok (s : fsinfo) mask1 mask2 beam1 beam2 b c rows : contiguous b -> 0 < fs_lx s -> 0 < fs_ly s -> all_rows s rows ->
  workspace_of s mask1 mask2 beam1 beam2 b c rows = Ok (wsp_of pi fsqrt trunc ph (FF s 0 false false mask1 beam1 [] true) (FF s 0 false false mask2 beam2 [] true) b c false).
Proof. intros Hc Hx Hy HP. unfold P_FlatMean.workspace_of. rewrite !mask_only_ok by assumption. cbn [bind]. rewrite coupling_matrix_eq by assumption. cbn [ff_fs]. rewrite same_fs_refl. reflexivity. Qed.
Lemma decoupled_ok (s : fsinfo) mask1 mask2 beam1 beam2 b c rows t1 t2 w B : contiguous b -> y_symmetric pi s c -> conj_roots ph s -> 0 < fs_lx s -> 0 < fs_ly s -> all_rows s rows ->
  length t1 = (fs_nx s * fs_ny s)%nat -> length t2 = (fs_nx s * fs_ny s)%nat -> workspace_of s mask1 mask2 beam1 beam2 b c rows = Ok w -> square (n_bands b) (fw_bnd w) -> lu_invert (fw_bnd w) = Ok B ->
  decoupled_of s mask1 mask2 beam1 beam2 b c rows t1 t2 = Ok [matvec B (tab (n_bands b) (pseudo pi fsqrt ph s mask1 mask2 b c t1 t2))].
Proof.
  intros Hc HY HR Hx Hy HP L1 L2 Ew Hs HB. rewrite workspace_ok in Ew by assumption. injection Ew as Ew. set (cl := tab (n_bands b) (pseudo pi fsqrt ph s mask1 mask2 b c t1 t2)).
  assert (CM : coupling_matrix pi fsqrt trunc ph (scalar pi ph s mask1 t1 beam1) (scalar pi ph s mask2 t2 beam2) b c false rows = Ok w). { rewrite coupling_matrix_eq by assumption. cbn [scalar ff_fs]. rewrite same_fs_refl. rewrite <- Ew. reflexivity. }
  assert (En : fw_ncls w = 1%nat) by (rewrite <- Ew; reflexivity). assert (Eb : fw_nb w = n_bands b) by (rewrite <- Ew; reflexivity). clear Ew.
  pose proof (lu_invert_spec (n_bands b) (fw_bnd w) Hs) as S. rewrite HB in S. destruct S as [SB [N Hsol]]. assert (Lc : length cl = n_bands b) by apply length_tab. specialize (Hsol cl Lc). destruct (lu_solve_ok (n_bands b) (fw_bnd w) cl Hs Lc N) as [x [Ex [Lx Mx]]]. rewrite Hsol in Ex. injection Ex as Ex. rewrite Ex. clear Hsol Ex.
  unfold P_FlatMean.decoupled_of. rewrite !scalar_ok by assumption. cbn [bind]. rewrite CM. cbn [bind]. rewrite coupled_ok by assumption. cbn [bind]. fold cl.
  assert (R1 : forall x : list F, length x = n_bands b -> rect 1 (n_bands b) [x]) by (intros y Hy'; split; [reflexivity | intros y' [<-|[]]; exact Hy']).
  assert (Rc : rect 1 (n_bands b) [cl]) by (apply R1; apply length_tab). set (z := zeros_like [cl]). assert (Rz : rect 1 (n_bands b) z) by (apply rect_zeros; exact Rc).
  destruct (C63_no_bias w [cl] z z) as [E _]; rewrite ?En, ?Eb; try assumption; try lia; try (intros; apply entry_zeros). rewrite E. apply C63_decouple_solves; rewrite ?En, ?Eb; try assumption; try lia; [rewrite Nat.mul_1_l; exact Hs|].
  split; [rewrite Nat.mul_1_l; exact N|]. split; [apply R1; exact Lx|]. intros i ib Hi Hb. assert (i = 0)%nat as -> by lia. unfold z. rewrite entry_zeros. unfold apply_matrix. cbn [sum]. unfold entry2 at 1. cbn [nth]. rewrite <- Mx. rewrite (nth_matvec (n_bands b)) by assumption.
  transitivity (sum (n_bands b) (fun jb => entry2 (fw_bnd w) (ib * 1 + 0) (jb * 1 + 0) * entry2 [x] 0 jb)); [|ring]. apply sum_ext. intros jb Hj. rewrite !Nat.mul_1_r, !Nat.add_0_r. reflexivity.
Qed.
(** what a user runs: fields with the four masks, then compute_coupling_coefficients *)
Definition cov_workspace_of (s : fsinfo) (ma1 ma2 mb1 mb2 : list F) (b : fbins) (rows : list nat) : option cfwsp * res unit :=
  let f m := from_ok (FF s 0 false false [] (fun _ => 0) [] true) (new_field (fs_nx s) (fs_ny s) (fs_lx s) (fs_ly s) m None (Some 0%Z) (fun _ => 1) false) in
  py_cov_compute imul None (f ma1) (f ma2) b (Some (f mb1)) (Some (f mb2)) None rows.
Definition constant (ells : list F) (v : F) : mat := [repeat v (length ells)].
(** For scalar maps whose pixels are uncorrelated and Gaussian up to the fourth moments (spectra constant), the output of gaussian_covariance_flat is exactly the covariance of the decoupled bandpowers,
    whatever the four masks and beams: approximations enter only through spectra that vary. *)
Theorem C79_exact (s : fsinfo) (ma1 ma2 mb1 mb2 : list F) (ba1 ba2 bb1 bb2 : F -> F) (b : fbins) (c : cuts) (rows rows' rows'' : list nat) (ells : list F) (p11 p12 p21 p22 : F)
    (K : nat) (pr : nat -> F) (a1 a2 b1 b2 : nat -> list F) (wa wb : fwsp) :
  exact_mul imul -> contiguous b -> y_symmetric pi s c -> (forall m, In m (grid s) -> uncut pi s c m = true) -> conj_roots ph s -> hom_roots ph s -> 0 < pi -> 0 < fs_lx s -> 0 < fs_ly s ->
  all_rows s rows -> all_rows s rows' -> all_rows s rows'' -> good_ells ells -> (Z.of_nat (n_bands b) * Z.of_nat (n_bands b) <= int_max)%Z ->
  (forall i j, (i < n_bands b)%nat -> (j < n_bands b)%nat -> (Z.of_nat (modes_in s b i) * Z.of_nat (modes_in s b j) <= int_max)%Z) ->
  (forall k, (k < K)%nat -> length (a1 k) = (fs_nx s * fs_ny s)%nat /\ length (a2 k) = (fs_nx s * fs_ny s)%nat /\ length (b1 k) = (fs_nx s * fs_ny s)%nat /\ length (b2 k) = (fs_nx s * fs_ny s)%nat) ->
  gaussian4 s K pr a1 a2 b1 b2 -> white2 s K pr a1 b1 (pix_var s p11) -> white2 s K pr a1 b2 (pix_var s p12) -> white2 s K pr a2 b1 (pix_var s p21) -> white2 s K pr a2 b2 (pix_var s p22) ->
  workspace_of s ma1 ma2 ba1 ba2 b c rows = Ok wa -> workspace_of s mb1 mb2 bb1 bb2 b c rows' = Ok wb -> nonsingular (n_bands b) (fw_bnd wa) -> nonsingular (n_bands b) (fw_bnd wb) ->
  exists cw cov ra rb, cov_workspace_of s ma1 ma2 mb1 mb2 b rows'' = (Some cw, Ok tt) /\
    gaussian_covariance_flat (Some cw) (Spins 0 0 0 0) ells (constant ells p11) (constant ells p12) (constant ells p21) (constant ells p22) (Some wa) (Some (Some wb)) = Ok cov /\
    (forall k, (k < K)%nat -> decoupled_of s ma1 ma2 ba1 ba2 b c rows (a1 k) (a2 k) = Ok [ra k] /\ decoupled_of s mb1 mb2 bb1 bb2 b c rows' (b1 k) (b2 k) = Ok [rb k]) /\
    forall i j, (i < n_bands b)%nat -> (j < n_bands b)%nat ->
      entry2 cov i j = sum K (fun k => pr k * (nth i (ra k) 0 * nth j (rb k) 0)) - sum K (fun k => pr k * nth i (ra k) 0) * sum K (fun k => pr k * nth j (rb k) 0).
Proof.
  intros HM Hc HY Hcut HR HH Hp Hx Hy HP HP' HP'' He Hnb Hf Hl HG W11 W12 W21 W22 Ewa Ewb Na Nb. set (n := n_bands b) in *.
  pose proof (fpos_neq0 _ Hp) as Hpi.
  assert (SQ : forall m1 m2 e1 e2 r w, all_rows s r -> workspace_of s m1 m2 e1 e2 b c r = Ok w -> square n (fw_bnd w) /\ fw_ncls w = 1%nat /\ fw_nb w = n).
  { intros m1 m2 e1 e2 r w Hr E. rewrite workspace_ok in E by assumption. injection E as <-. pose proof (ws_sq _ _ _ _ _ _ _ _ _ _ (wsp_of_spec pi fsqrt trunc ph (FF s 0 false false m1 e1 [] true) (FF s 0 false false m2 e2 [] true) b c false)) as S. change (n_spectra _ _ false) with 1%nat in S. rewrite Nat.mul_1_l in S. split; [exact S|]. split; reflexivity. }
  destruct (SQ _ _ _ _ _ _ HP Ewa) as [Sa [Ca Ba]]. destruct (SQ _ _ _ _ _ _ HP' Ewb) as [Sb [Cb Bb]]. destruct (inv_exists n _ Sa Na) as [Ia EIa]. destruct (inv_exists n _ Sb Nb) as [Ib EIb].
  set (prod := fun i j => (ncell pi fsqrt s b i * ncell pi fsqrt s b j)%Z). set (cw := tables pi fsqrt s b prod (mask_cl pi ph s ma1 mb1 ma2 mb2) (mask_cl pi ph s ma1 mb2 ma2 mb1)).
  set (B := tab n (fun r => tab n (fun k => entry2 (fst (cf_00 cw)) r k * (p11 * p22) + entry2 (snd (cf_00 cw)) r k * (p12 * p21)))).
  set (psa := fun k => tab n (pseudo pi fsqrt ph s ma1 ma2 b c (a1 k) (a2 k))). set (psb := fun k => tab n (pseudo pi fsqrt ph s mb1 mb2 b c (b1 k) (b2 k))).
  exists cw, (mat_mul n n n Ia (mat_mul_t n n n B Ib)), (fun k => matvec Ia (psa k)), (fun k => matvec Ib (psb k)). split; [|split; [|split]].
  - unfold cov_workspace_of. rewrite !mask_only_ok by assumption. cbn [from_ok]. unfold M_CovFlat.py_cov_compute. cbv zeta. cbn [ff_fs]. assert (SS : same_size s s = true) by (unfold same_size; rewrite !Nat.eqb_refl; reflexivity). rewrite SS. cbn [andb negb].
    rewrite (cov_init_ok pi fsqrt ph imul _ _ b _ _ b rows'' prod); cbn [ff_fs ff_mask]; try assumption; try reflexivity.
    + unfold same4. cbn [ff_fs]. rewrite SS. reflexivity.
    + intros i j Hi Hj. apply HM. specialize (Hf i j Hi Hj). unfold modes_in in Hf. unfold ncell, bmodes. lia.
  - unfold gaussian_covariance_flat. cbv zeta. change (nm (sp_a (Spins 0 0 0 0))) with 1%nat. change (nm (sp_b (Spins 0 0 0 0))) with 1%nat. change (nm (sp_c (Spins 0 0 0 0))) with 1%nat. change (nm (sp_d (Spins 0 0 0 0))) with 1%nat. unfold need. cbn [bind]. rewrite Ca, Cb. cbn [Nat.mul Nat.eqb negb]. unfold constant. cbn [length Nat.eqb andb negb forallb hd]. rewrite !repeat_length, Nat.eqb_refl. cbn [andb negb bind].
    assert (AL : alloc_out (Z.of_nat n * Z.of_nat n) = Ok tt).
    { unfold alloc_out. assert (W : wrap32 (Z.of_nat n * Z.of_nat n) = (Z.of_nat n * Z.of_nat n)%Z) by (unfold wrap32; unfold int_max in Hnb; rewrite Z.mod_small by nia; lia). rewrite W, Z.eqb_refl. destruct (Z.ltb_spec (Z.of_nat n * Z.of_nat n) 0); [nia | reflexivity]. }
    cbn [bind]. unfold fcovar. change (cf_nb cw) with n. rewrite Ba, Bb, Ca, Cb, !Nat.eqb_refl. change (nm (sp_a (Spins 0 0 0 0))) with 1%nat. change (nm (sp_b (Spins 0 0 0 0))) with 1%nat. change (nm (sp_c (Spins 0 0 0 0))) with 1%nat. change (nm (sp_d (Spins 0 0 0 0))) with 1%nat. cbn [Nat.mul Nat.eqb andb negb cl_ac cl_ad cl_bc cl_bd].
    change (cf_bin cw) with b. rewrite !const_binned by assumption. cbn [bind]. fold n. cbv zeta. rewrite !Nat.add_0_r.
    rewrite (tabM_ok n _ (fun r => tab n (fun k => entry2 (fst (cf_00 cw)) r k * (p11 * p22) + entry2 (snd (cf_00 cw)) r k * (p12 * p21)))).
    + cbn [bind]. rewrite EIb, EIa. cbn [bind]. rewrite AL. reflexivity.
    + intros r Hr. apply tabM_ok. intros k Hk. apply fcov_const; assumption.
  - intros k Hk. destruct (Hl k Hk) as [L1 [L2 [L3 L4]]]. split; [apply (decoupled_ok s ma1 ma2 ba1 ba2 b c rows _ _ wa) | apply (decoupled_ok s mb1 mb2 bb1 bb2 b c rows' _ _ wb)]; assumption.
  - intros i j Hi Hj. pose proof (lu_invert_spec n (fw_bnd wa) Sa) as SIa. rewrite EIa in SIa. destruct SIa as [SIa _]. pose proof (lu_invert_spec n (fw_bnd wb) Sb) as SIb. rewrite EIb in SIb. destruct SIb as [SIb _].
    rewrite (entry_mat_mul n n n) by assumption.
    assert (MV : forall I (ps : nat -> list F) k i, square n I -> length (ps k) = n -> (i < n)%nat -> nth i (matvec I (ps k)) 0 = sum n (fun q => entry2 I i q * nth q (ps k) 0)) by (intros I ps k i0 HI HL H0; apply (nth_matvec n); assumption).
    assert (Ea : forall k, nth i (matvec Ia (psa k)) 0 = sum n (fun q => entry2 Ia i q * nth q (psa k) 0)) by (intro k; apply MV; [exact SIa | apply length_tab | exact Hi]). assert (Eb : forall k, nth j (matvec Ib (psb k)) 0 = sum n (fun q => entry2 Ib j q * nth q (psb k) 0)) by (intro k; apply MV; [exact SIb | apply length_tab | exact Hj]).
    assert (CB : forall p q, (p < n)%nat -> (q < n)%nat -> sum K (fun k => pr k * (nth p (psa k) 0 * nth q (psb k) 0)) = sum K (fun k => pr k * nth p (psa k) 0) * sum K (fun k => pr k * nth q (psb k) 0) + entry2 B p q).
    { intros p q Hp' Hq. assert (Pa : forall k, nth p (psa k) 0 = pseudo pi fsqrt ph s ma1 ma2 b c (a1 k) (a2 k) p) by (intro k; unfold psa; rewrite nth_tab by exact Hp'; reflexivity). assert (Pb : forall k, nth q (psb k) 0 = pseudo pi fsqrt ph s mb1 mb2 b c (b1 k) (b2 k) q) by (intro k; unfold psb; rewrite nth_tab by exact Hq; reflexivity).
      rewrite (sum_ext K (fun k => pr k * (_ * _)) (fun k => pr k * (pseudo pi fsqrt ph s ma1 ma2 b c (a1 k) (a2 k) p * pseudo pi fsqrt ph s mb1 mb2 b c (b1 k) (b2 k) q))) by (intros k _; rewrite Pa, Pb; reflexivity).
      rewrite (sum_ext K (fun k => pr k * nth p (psa k) 0) (fun k => pr k * pseudo pi fsqrt ph s ma1 ma2 b c (a1 k) (a2 k) p)) by (intros k _; rewrite Pa; reflexivity). rewrite (sum_ext K (fun k => pr k * nth q (psb k) 0) (fun k => pr k * pseudo pi fsqrt ph s mb1 mb2 b c (b1 k) (b2 k) q)) by (intros k _; rewrite Pb; reflexivity).
      rewrite (cov_pseudo pi fsqrt ph s b c HR HH Hpi Hx Hy Hcut K pr ma1 ma2 mb1 mb2 a1 a2 b1 b2 p11 p12 p21 p22 Hl HG W11 W12 W21 W22 p q). f_equal. unfold cov_of, B. unfold entry2 at 1. rewrite nth_tab by exact Hp'. rewrite nth_tab by exact Hq. unfold cw, tables. cbn [cf_00 fst snd]. unfold entry2. do 2 (rewrite nth_tab by exact Hp'; rewrite nth_tab by exact Hq). unfold prod. ring. }
    clearbody psa psb B. clear - Ea Eb CB Hi Hj.
    rewrite (sum_ext K (fun k => pr k * (_ * _)) (fun k => sum n (fun p => sum n (fun q => entry2 Ia i p * entry2 Ib j q * (pr k * (nth p (psa k) 0 * nth q (psb k) 0)))))).
    2:{ intros k _. rewrite Ea, Eb. rewrite <- sum_mul_r, <- sum_mul_l. apply sum_ext. intros p _. rewrite <- sum_mul_l, <- sum_mul_l. apply sum_ext. intros q _. ring. }
    rewrite sum_swap. rewrite (sum_ext n (fun p => sum K _) (fun p => sum n (fun q => entry2 Ia i p * entry2 Ib j q * (sum K (fun k => pr k * nth p (psa k) 0) * sum K (fun k => pr k * nth q (psb k) 0) + entry2 B p q)))).
    2:{ intros p Hp. rewrite sum_swap. apply sum_ext. intros q Hq. rewrite sum_mul_l, CB by assumption. reflexivity. }
    assert (EA : forall (I : mat) (ps : nat -> list F) i0, sum K (fun k => pr k * sum n (fun q => entry2 I i0 q * nth q (ps k) 0)) = sum n (fun q => entry2 I i0 q * sum K (fun k => pr k * nth q (ps k) 0))).
    { intros I ps i0. rewrite (sum_ext K _ (fun k => sum n (fun q => pr k * (entry2 I i0 q * nth q (ps k) 0)))) by (intros k _; rewrite sum_mul_l; reflexivity). rewrite sum_swap. apply sum_ext. intros q _. rewrite <- sum_mul_l. apply sum_ext. intros k _. ring. }
    rewrite (sum_ext K (fun k => pr k * nth i (matvec Ia (psa k)) 0) (fun k => pr k * sum n (fun q => entry2 Ia i q * nth q (psa k) 0))) by (intros k _; rewrite Ea; reflexivity). rewrite (sum_ext K (fun k => pr k * nth j (matvec Ib (psb k)) 0) (fun k => pr k * sum n (fun q => entry2 Ib j q * nth q (psb k) 0))) by (intros k _; rewrite Eb; reflexivity). rewrite !EA.
    set (ma := fun p => sum K (fun k => pr k * nth p (psa k) 0)). set (mb := fun q => sum K (fun k => pr k * nth q (psb k) 0)).
    transitivity (sum n (fun p => sum n (fun q => entry2 Ia i p * entry2 Ib j q * (ma p * mb q + entry2 B p q))) - sum n (fun p => entry2 Ia i p * ma p) * sum n (fun q => entry2 Ib j q * mb q)); [|reflexivity].
    rewrite <- (sum_mul_r n (sum n (fun q => entry2 Ib j q * mb q))). rewrite <- sum_sub. apply sum_ext. intros p Hp. unfold mat_mul_t. unfold entry2 at 2. rewrite nth_tab by exact Hp. rewrite nth_tab by exact Hj. rewrite <- !sum_mul_l, <- sum_sub. apply sum_ext. intros q _. ring.
Qed.
(** Such ensembles exist for every map size: r independent variables per pixel, with arbitrary amplitudes in each of the four maps. *)
Theorem C79_ensemble_exists (s : fsinfo) (r : nat) (A1 A2 B1 B2 : nat -> F) : let K := (5 ^ nvar s r)%nat in let pr := weight (nvar s r) : nat -> F in
  (forall A k, length (emap s r A k) = (fs_nx s * fs_ny s)%nat) /\ gaussian4 s K pr (emap s r A1) (emap s r A2) (emap s r B1) (emap s r B2) /\
  (forall X Y, white2 s K pr (emap s r X) (emap s r Y) (lsum (map (fun u => X u * Y u) (seq 0 r)))).
Proof. cbv zeta. split; [intros; apply length_tab|]. split; [apply ens_gauss|]. intros X Y. apply ens_white. Qed.
End Statements.

(** the second binning scheme is only used for its number of bands *)
Theorem C79_bin_b_ignored {F : ofield} (pi : F) fsqrt ph imul (a1 a2 : ffield F) ba b1 b2 bb bb' rows : n_bands bb = n_bands bb' ->
  cov_init pi fsqrt ph imul a1 a2 ba b1 b2 bb rows = cov_init pi fsqrt ph imul a1 a2 ba b1 b2 bb' rows.
Proof. intro H. unfold cov_init. unfold n_bands in H. rewrite H. reflexivity. Qed.

(** ** Examples *)
Section Ex.
Notation Q := Qc_field.
Definition at44 (r : nat) (X Y : nat -> Q) : Q := fdiv (fmul (gram r X Y) (qz 4)) (qz 16).
Definition amp (x y : Z) (u : nat) : Q := match u with O => qz x | _ => qz y end.
Definition A1 := amp 1 0. Definition A2 := amp 1 2. Definition B1 := amp 0 1. Definition B2 := amp 3 (-1).
Definition maskb : list Q := map qz [0; 1; 1; 0; 2; 2; 0; 1; 0; 0; 1; 0; 1; 1; 0; 1]%Z.
Definition w44b : res (fwsp Q) := workspace_of (qz 1) sq8 trq ph4 s44 maskb mask44 (fun _ => qz 1) (fun _ => qz 1) bring free [0; 1; 2; 3]%nat.
Definition cw44 : option (cfwsp Q) := fst (cov_workspace_of (qz 1) sq8 ph4 imul_strict s44 mask44 mask44' maskb mask44 bring [1; 0; 2; 3]%nat).
Definition cov44 : res (list (list Q)) := gaussian_covariance_flat cw44 (Spins 0 0 0 0) ell4 (constant ell4 (at44 2 A1 B1)) (constant ell4 (at44 2 A1 B2)) (constant ell4 (at44 2 A2 B1)) (constant ell4 (at44 2 A2 B2)) (Some (from_ok dummy w44)) (Some (Some (from_ok dummy w44b))).
Lemma w44b_nonsingular : nonsingular (n_bands bring) (fw_bnd (from_ok dummy w44b)).
Proof.
  assert (N : nonsingular (fw_ncls (from_ok dummy w44b) * fw_nb (from_ok dummy w44b)) (fw_bnd (from_ok dummy w44b))).
  { apply nonsingular_of_solution; [vm_compute; lia | | vm_compute; reflexivity]. split; [vm_compute; reflexivity|]. apply Forall_forall. vm_compute. repeat constructor. }
  exact N.
Qed.
Lemma rows0 : all_rows s44 [0; 1; 2; 3]%nat. Proof. apply Permutation_refl. Qed.
Lemma rows1 : all_rows s44 [1; 0; 2; 3]%nat. Proof. apply perm_swap. Qed.
Lemma rows2 : all_rows s44 [2; 0; 1; 3]%nat. Proof. unfold all_rows. cbn. apply (Permutation_cons_app [0; 1]%nat [3]%nat 2%nat). apply Permutation_refl. Qed.
Lemma pix44 X Y : pix_var s44 (at44 2 X Y) = gram 2 X Y.
Proof.
  unfold pix_var, at44. set (g := gram 2 X Y). assert (N4 : (qz 4 : Q) <> qz 0) by (intro E; apply (f_equal out) in E; vm_compute in E; discriminate E). assert (N16 : (qz 16 : Q) <> qz 0) by (intro E; apply (f_equal out) in E; vm_compute in E; discriminate E).
  replace (fmul (fofnat (fs_nx s44)) (fofnat (fs_ny s44)) : Q) with (qz 16 : Q) by (apply out_inj; vm_compute; reflexivity). replace (fmul (fs_lx s44) (fs_ly s44)) with (qz 4 : Q) by (apply out_inj; vm_compute; reflexivity). change (qz 0) with (f0 : Q) in N4, N16. generalize dependent (qz 4 : Q). generalize dependent (qz 16 : Q). intros x Nx y Ny. clearbody g. Add Field FQ79 : (fth Qc_field). field. auto.
Qed.
Example ex_exact : exists ra rb, is_ok cov44 = true /\ map out (nth 0 (from_ok [] cov44) []) <> map out [qz 0; qz 0] /\
  forall i j, (i < 2)%nat -> (j < 2)%nat -> let K := (5 ^ 32)%nat in let pr := weight 32 : nat -> Q in
    entry2 (from_ok [] cov44) i j = fsub (sum K (fun k => fmul (pr k) (fmul (nth i (ra k) (qz 0)) (nth j (rb k) (qz 0))))) (fmul (sum K (fun k => fmul (pr k) (nth i (ra k) (qz 0)))) (sum K (fun k => fmul (pr k) (nth j (rb k) (qz 0))))).
Proof.
  destruct (C79_ensemble_exists s44 2 A1 A2 B1 B2) as [EL [EG EW]].
  assert (Ew : workspace_of (qz 1) sq8 trq ph4 s44 mask44 mask44' bm (fun _ => qz 1) bring free [2; 0; 1; 3]%nat = Ok (from_ok dummy w44)) by (apply from_ok_eq; vm_compute; reflexivity).
  assert (Ewb : workspace_of (qz 1) sq8 trq ph4 s44 maskb mask44 (fun _ => qz 1) (fun _ => qz 1) bring free [0; 1; 2; 3]%nat = Ok (from_ok dummy w44b)) by (apply from_ok_eq; vm_compute; reflexivity).
  assert (HU : forall m, In m (grid s44) -> uncut (qz 1) s44 free m = true) by (intros m _; exact (no_cut_uncut (qz 1) s44 m)).
  assert (W : forall X Y, white2 s44 (5 ^ nvar s44 2) (weight (nvar s44 2)) (emap s44 2 X) (emap s44 2 Y) (pix_var s44 (at44 2 X Y))) by (intros X Y; rewrite pix44; apply EW).
  destruct (C79_exact (qz 1) sq8 trq ph4 imul_strict s44 mask44 mask44' maskb mask44 bm (fun _ => qz 1) (fun _ => qz 1) (fun _ => qz 1) bring free [2; 0; 1; 3]%nat [0; 1; 2; 3]%nat [1; 0; 2; 3]%nat ell4 (at44 2 A1 B1) (at44 2 A1 B2) (at44 2 A2 B1) (at44 2 A2 B2)
    (5 ^ nvar s44 2)%nat (weight (nvar s44 2)) (emap s44 2 A1) (emap s44 2 A2) (emap s44 2 B1) (emap s44 2 B2) (from_ok dummy w44) (from_ok dummy w44b)) as [cw [cov [ra [rb [E1 [E2 [_ E4]]]]]]].
  1: exact strict_exact. 1: exact contiguous_ring. 1: (intros iy Hy; cbn [s44 fs_ny] in Hy; destruct iy as [|[|[|[|iy]]]]; try lia; vm_compute; reflexivity). 1: exact HU. 1: exact roots44. 1: exact hom44. 1-3: (vm_compute; reflexivity). 1: exact rows2. 1: exact rows0. 1: exact rows1. 1: (split; [cbn; lia | vm_compute; reflexivity]). 1: (vm_compute; discriminate).
  1: (intros i j _ _; apply C57_small_maps; vm_compute; discriminate). 1: (intros k _; repeat split; apply EL). 1: exact EG. 1-4: apply W. 1: exact Ew. 1: exact Ewb. 1: exact w44_nonsingular. 1: exact w44b_nonsingular.
  exists ra, rb. assert (EC : cov44 = Ok cov) by (unfold cov44, cw44; rewrite E1; exact E2). rewrite EC. cbn [from_ok is_ok]. split; [reflexivity|]. split; [|intros i j Hi Hj; exact (E4 i j Hi Hj)].
  assert (V : map out (nth 0 (from_ok [] cov44) []) <> map out [qz 0; qz 0]) by (vm_compute; discriminate). rewrite EC in V. exact V.
Qed.

(** a map of two pixels: 25 realisations *)
Definition s21 : fsinfo Q := FS 2 1 (qz 1) (qz 1).
Definition ones : list Q := [qz 1; qz 1].
Definition one (k : Q) : Q := qz 1.
Definition wide : fbins Q := FBins [qz 0] [qz 10].
Definition low_band : fbins Q := FBins [qz 0] [qz 1].
Definition cut_high : cuts Q := Cuts (qz 1) (qz 3) (qz 1) (qz (-1)).
Definition noise (k : nat) : list Q := emap s21 1 (fun _ => qz 1) k.
Definition ells2 : list Q := [qz 0; qz 5; qz 10].
(** spectrum of unit white noise: pixel variance times the area of a pixel *)
Definition pw : Q := q 1 2.
Definition bandpower (b : fbins Q) (c : cuts Q) (k : nat) : Q := entry2 (from_ok [] (decoupled_of (qz 1) sq8 trq ph4 s21 ones ones one one b c [0]%nat (noise k) (noise k))) 0 0.
Definition all_ok (b : fbins Q) (c : cuts Q) : bool := forallb (fun k => is_ok (decoupled_of (qz 1) sq8 trq ph4 s21 ones ones one one b c [0]%nat (noise k) (noise k))) (seq 0 25).
Definition true_cov (b b' : fbins Q) (c : cuts Q) : Q :=
  fsub (sum 25 (fun k => fmul (weight 2 k) (fmul (bandpower b c k) (bandpower b' c k)))) (fmul (sum 25 (fun k => fmul (weight 2 k) (bandpower b c k))) (sum 25 (fun k => fmul (weight 2 k) (bandpower b' c k)))).
Definition predicted (b b' : fbins Q) (c : cuts Q) : res (list (list Q)) :=
  let f := FF s21 0 false false ones one [] true in
  let w x := from_ok dummy (workspace_of (qz 1) sq8 trq ph4 s21 ones ones one one x c [0]%nat) in
  gaussian_covariance_flat (fst (py_cov_compute (qz 1) sq8 ph4 imul_strict None f f b None None (Some b') [0]%nat)) (Spins 0 0 0 0) ells2 (constant ells2 pw) (constant ells2 pw) (constant ells2 pw) (constant ells2 pw) (Some (w b)) (Some (Some (w b'))).
(** without excluded modes and with one binning, the prediction is right *)
Example ex_small : all_ok wide no_cut = true /\ predicted wide wide no_cut = Ok [[true_cov wide wide no_cut]] /\ out (true_cov wide wide no_cut) = out (q 1 4).
Proof.
  assert (E : forall r x, is_ok r = true -> map (map out) (from_ok [] r) = [[out x]] -> r = Ok [[x]]).
  { intros [m|e|] x H1 H2; try discriminate. cbn in H2. destruct m as [|[|a [|? ?]] [|? ?]]; try discriminate. injection H2 as H2. f_equal. f_equal. f_equal. apply out_inj. exact H2. }
  split; [vm_compute; reflexivity|]. split; [apply E; vm_compute; reflexivity | vm_compute; reflexivity].
Qed.
(** Refuted: bands from which modes are excluded (ell_cut_x, ell_cut_y) have the covariance of the full bands. *)
Theorem C79_cuts_refuted : all_ok wide cut_high = true /\ is_ok (predicted wide wide cut_high) = true /\
  out (entry2 (from_ok [] (predicted wide wide cut_high)) 0 0) = out (q 1 4) /\ out (true_cov wide wide cut_high) = out (q 1 2).
Proof. split; [vm_compute; reflexivity|]. split; [vm_compute; reflexivity|]. split; vm_compute; reflexivity. Qed.
(** Refuted: the covariance between spectra with different bands: bin_b is ignored. *)
Theorem C79_bin_b_refuted : all_ok low_band no_cut = true /\ all_ok wide no_cut = true /\ is_ok (predicted low_band wide no_cut) = true /\
  out (entry2 (from_ok [] (predicted low_band wide no_cut)) 0 0) = out (q 1 2) /\ out (true_cov low_band wide no_cut) = out (q 1 4).
Proof. split; [vm_compute; reflexivity|]. split; [vm_compute; reflexivity|]. split; [vm_compute; reflexivity|]. split; vm_compute; reflexivity. Qed.
End Ex.

(** a map of 256x256 pixels and one band with all of its modes: the hypotheses of C57_wrap_refuted and C57_overflow_refuted *)
Example ex_256 : forall (F : ofield) (pi : F) fsqrt (lx ly : F) (b : fbins F), (forall m, In m (grid (FS 256 256 lx ly)) -> inb b 0 (kmod_of pi fsqrt (FS 256 256 lx ly) m) = true) ->
  Z.of_nat (modes_in pi fsqrt (FS 256 256 lx ly) b 0) = 65536%Z /\ (65536 | Z.of_nat (modes_in pi fsqrt (FS 256 256 lx ly) b 0))%Z /\ (int_max < 65536 * 65536)%Z.
Proof.
  intros F pi fsqrt lx ly b H. assert (E : Z.of_nat (modes_in pi fsqrt (FS 256 256 lx ly) b 0) = 65536%Z).
  { unfold modes_in. assert (EF : forall l, (forall m, In m l -> inb b 0 (kmod_of pi fsqrt (FS 256 256 lx ly) m) = true) -> filter (fun m => inb b 0 (kmod_of pi fsqrt (FS 256 256 lx ly) m)) l = l) by (induction l as [|a l IH]; intro HL; [reflexivity|]; cbn [filter]; rewrite HL by (left; reflexivity); rewrite IH by (intros; apply HL; right; assumption); reflexivity).
    rewrite (EF _ H). vm_compute. reflexivity. }
  rewrite E. split; [reflexivity|]. split; [exists 1%Z; reflexivity | vm_compute; reflexivity].
Qed.

(** such a band over the rationals (any monotone stand-in for the root will do: the number of modes is what matters), with the outcome for both readings of int arithmetic *)
Definition s256 : fsinfo Qc_field := FS 256 256 (qz 1) (qz 1).
Definition all256 : fbins Qc_field := FBins [qz 0] [qz 1000000].
Definition f256 : ffield Qc_field := FF s256 0 false false [] (fun _ => qz 1) [] true.
Example ex_256_zero : cov_init (qz 1) (fun x => x) ph4 imul_strict f256 f256 all256 f256 f256 all256 (seq 0 256) = UB /\ exists w, cov_init (qz 1) (fun x => x) ph4 imul_wrap f256 f256 all256 f256 f256 all256 (seq 0 256) = Ok w /\ zero_workspace w.
Proof.
  assert (H : forall m, In m (grid (FS 256 256 (qz 1 : Qc_field) (qz 1))) -> inb all256 0 (kmod_of (qz 1) (fun x => x) (FS 256 256 (qz 1) (qz 1)) m) = true) by (apply forallb_forall; vm_compute; reflexivity).
  assert (C : contiguous all256) by (split; [split; [reflexivity|split; [cbn; lia|split]]|]; intros i Hi; change (n_bands all256) with 1%nat in Hi; try lia; destruct i as [|i]; try lia; vm_compute; reflexivity).
  destruct (ex_256 _ _ _ _ _ _ H) as [E [D L]]. assert (L' : (int_max < Z.of_nat (modes_in (qz 1) (fun x => x) (ff_fs f256) all256 0) * Z.of_nat (modes_in (qz 1) (fun x => x) (ff_fs f256) all256 0))%Z) by (unfold f256, s256; cbn [ff_fs]; rewrite E; exact L).
  assert (S4 : same4 f256 f256 f256 f256 = true) by (vm_compute; reflexivity). assert (P : all_rows (ff_fs f256) (seq 0 256)) by apply Permutation_refl. split.
  - exact (C57_overflow_refuted (qz 1) (fun x => x) ph4 f256 f256 f256 f256 all256 all256 (seq 0 256) 0%nat 0%nat S4 eq_refl C P (le_n 1) (le_n 1) L').
  - exact (C57_wrap_refuted (qz 1) (fun x => x) ph4 f256 f256 f256 f256 all256 all256 (seq 0 256) S4 eq_refl C P eq_refl D).
Qed.

Print Assumptions C57_positive. Print Assumptions C57_small_maps. Print Assumptions C57_diagonal. Print Assumptions C57_overflow_refuted. Print Assumptions C57_wrap_refuted. Print Assumptions C57_zero_covariance.
Print Assumptions C79_exact. Print Assumptions C79_ensemble_exists. Print Assumptions C79_bin_b_ignored. Print Assumptions C79_cuts_refuted. Print Assumptions C79_bin_b_refuted.
