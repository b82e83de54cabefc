(** Lemmas: the flat-sky covariance for constant spectra and the covariance of decoupled spectra. *)
From Verif Require Import Base M_Utils M_Bins M_FlatBins M_LinAlg M_Workspace M_Flat M_WspFlat M_Covar M_CovFlat P_FlatBins L_LinAlg L_Flat L_Flat2 L_Flat3 P_Flat L_FITS L_MCM L_WspFlat L_WspFlat2 P_WspFlat P_Workspace P_Covar2 L_FlatMean P_FlatMean L_CovFlat L_CovFlat2.
From Coq Require Import Permutation.
Open Scope nat_scope.

Section LCF3.
Context {F : ofield}.
Local Open Scope F_scope.
Add Field FfCF3 : (fth F).
Notation mat := (list (list F)).
Notation cplx := (cplx F).
Notation fsinfo := (fsinfo F).
Notation fbins := (fbins F).
Notation cuts := (cuts F).
Notation cfwsp := (cfwsp F).
Notation fwsp := (fwsp F).

(** ** Binning of a constant *)
Lemma interp_const (v : F) (xs : list F) : forall x : F, (1 <= length xs)%nat -> x < last xs 0 -> (x < hd 0 xs -> (2 <= length xs)%nat) -> interp_lin xs (repeat v (length xs)) x = v.
Proof.
  induction xs as [|x0 xs IH]; intros x HL Hx H2; [cbn in HL; lia|]. destruct xs as [|x1 xs]; [exfalso; cbn in Hx, H2; specialize (H2 Hx); lia|].
  cbn [length repeat interp_lin]. destruct (x <? x1) eqn:E; [ring|]. apply (IH x); [cbn; lia | exact Hx |]. cbn [hd]. unfold flt. rewrite E. discriminate.
Qed.
Lemma nth_rep (v : F) n i : (i < n)%nat -> nth i (repeat v n) 0 = v.
Proof. revert i. induction n as [|n IH]; intros [|i] H; try lia; [reflexivity|]. cbn. apply IH. lia. Qed.
Lemma const_k (ells : list F) (v k : F) : good_ells ells -> k_function ells (repeat v (length ells)) v v k = Ok v.
Proof.
  intros [H1 H2]. unfold k_function. rewrite H2, (proj2 (Nat.leb_le _ _) H1). cbn [andb]. change 0%Z with (Z.of_nat 0). rewrite (rd_nat ells 0 0) by lia. replace (Z.of_nat (length ells) - 1)%Z with (Z.of_nat (length ells - 1)) by lia. rewrite (rd_nat ells _ 0) by lia. cbn [bind].
  destruct (k <=? _); [reflexivity|]. destruct (nth (length ells - 1) ells 0 <=? k) eqn:E; [reflexivity|]. f_equal. apply interp_const; [lia | | lia].
  assert (L : forall (l : list F) d, l <> [] -> last l d = nth (length l - 1) l d).
  { clear. induction l as [|a l IH]; intros d H; [congruence|]. destruct l as [|a' l]; [reflexivity|]. change (last (a :: a' :: l) d) with (last (a' :: l) d). rewrite IH by discriminate. cbn [length]. replace (S (S (length l)) - 1)%nat with (S (S (length l) - 1)) by lia. reflexivity. }
  rewrite L by (intros ->; cbn in H1; lia). unfold flt, fltb. rewrite E. reflexivity.
Qed.
Lemma const_binned (b : fbins) ells (v : F) : contiguous b -> good_ells ells -> nmt_bin_cls_flat b ells [repeat v (length ells)] = Ok [repeat v (n_bands b)].
Proof.
  intros Hc He. pose proof He as [H1 H2]. unfold nmt_bin_cls_flat. cbn [mapM]. change 0%Z with (Z.of_nat 0). rewrite (rd_nat _ 0 0) by (rewrite repeat_length; lia). replace (Z.of_nat (length ells) - 1)%Z with (Z.of_nat (length ells - 1)) by lia. rewrite (rd_nat _ (length ells - 1) 0) by (rewrite repeat_length; lia). cbn [bind].
  rewrite !nth_rep by lia. rewrite (mapM_ok _ (fun _ => v)) by (intros p _; apply const_k; exact He). cbn [bind]. do 2 f_equal.
  destruct Hc as [[HLf _] _]. replace (n_bands b) with (length (combine (fb_l0 b) (fb_lf b))) by (rewrite combine_length, HLf; unfold n_bands; lia). generalize (combine (fb_l0 b) (fb_lf b)). intro l. induction l as [|a l IH]; [reflexivity|]. cbn [map length repeat]. rewrite IH. reflexivity.
Qed.

(** ** The code for four scalar fields with constant spectra *)
Definition scalars : spins4 := Spins 0 0 0 0.
Lemma entry_rep (v : F) n i : (i < n)%nat -> rd (repeat v n) (Z.of_nat i) = Ok v.
Proof. intro H. rewrite (rd_nat _ _ 0) by (rewrite repeat_length; exact H). rewrite nth_rep by exact H. reflexivity. Qed.
Lemma term_const x1 x2 n (vac vad vbc vbd : F) r k : (r < n)%nat -> (k < n)%nat ->
  cov_term scalars (Cls [repeat vac n] [repeat vad n] [repeat vbc n] [repeat vbd n]) x1 x2 0 0 0 0 0 0 0 0 (Z.of_nat r) (Z.of_nat k) = Ok (nth 0 x1 0 * (vac * vbd) + nth 0 x2 0 * (vad * vbc)).
Proof.
  intros Hr Hk. unfold cov_term. cbn [scalars sp_a sp_b sp_c sp_d nm Z.eqb Nat.mul Nat.add cl_ac cl_ad cl_bc cl_bd]. cbn [nm Nat.mul Nat.add]. change (rd [repeat vac n] (Z.of_nat 0)) with (Ok (repeat vac n)). change (rd [repeat vad n] (Z.of_nat 0)) with (Ok (repeat vad n)). change (rd [repeat vbc n] (Z.of_nat 0)) with (Ok (repeat vbc n)). change (rd [repeat vbd n] (Z.of_nat 0)) with (Ok (repeat vbd n)).
  cbn [bind]. rewrite !entry_rep by assumption. cbn [bind]. change (coupling_pair_index 1 1 1 1 0 0 0 0 0 0 0 0) with 0%nat. assert (N : (fofZ 2 : F) <> 0) by (apply fofZ_neq0; lia). f_equal. set (x := nth 0 x1 0). set (y := nth 0 x2 0). cbn in *. field. exact N.
Qed.
Lemma sumM_1 (f : nat -> res F) (v : F) : f 0%nat = Ok v -> sumM 1 f = Ok v.
Proof. intro H. unfold sumM. cbn [seq foldM]. rewrite H. cbn. f_equal. ring. Qed.
Lemma fcov_const (cw : cfwsp) n (vac vad vbc vbd : F) r k : (r < n)%nat -> (k < n)%nat ->
  fcov_binned cw scalars (Cls [repeat vac n] [repeat vad n] [repeat vbc n] [repeat vbd n]) 1 1 r k = Ok (entry2 (fst (cf_00 cw)) r k * (vac * vbd) + entry2 (snd (cf_00 cw)) r k * (vad * vbc)).
Proof.
  intros Hr Hk. unfold fcov_binned. cbv zeta. change (nm (sp_b scalars)) with 1%nat. change (nm (sp_d scalars)) with 1%nat. rewrite !Nat.mod_1_r, !Nat.div_1_r. change (0 / 1)%nat with 0%nat. unfold fcov_elem.
  do 4 (apply sumM_1). rewrite term_const by assumption. reflexivity.
Qed.
(** ** Covariance of the pseudo spectra *)
Section M.
Variables (pi : F) (fsqrt : F -> F) (ph : nat -> nat -> cplx) (s : fsinfo) (b : fbins) (c : cuts).
Hypothesis HR : conj_roots ph s.
Hypothesis HH : hom_roots ph s.
Hypothesis Hpi : pi <> 0.
Hypothesis Hlx : 0 < fs_lx s.
Hypothesis Hly : 0 < fs_ly s.
Hypothesis Hcut : forall m, In m (grid s) -> uncut pi s c m = true.
Notation pseudo := (pseudo pi fsqrt ph s).
Notation bmodes := (bmodes pi fsqrt s).
Lemma modes_uncut i : modes pi fsqrt s b c i = bmodes b i.
Proof. unfold modes, L_CovFlat.bmodes. apply filter_ext_in. intros m Hm. rewrite Hcut by exact Hm. reflexivity. Qed.
Lemma pseudo_avg w1 w2 t1 t2 i : pseudo w1 w2 b c t1 t2 i = average pi s (bmodes b i) (prodm pi ph s w1 w2 t1 t2).
Proof. unfold P_FlatMean.pseudo. rewrite modes_uncut. reflexivity. Qed.
Definition pix_var (v : F) : F := v * (fofnat (fs_nx s) * fofnat (fs_ny s)) / (fs_lx s * fs_ly s).
Section Ens.
Variables (K : nat) (pr : nat -> F) (wa wb wc wd : list F) (ta tb tc td : nat -> list F) (vac vad vbc vbd : F).
Hypothesis Hl : forall k, (k < K)%nat -> (length (ta k) = fs_nx s * fs_ny s)%nat /\ (length (tb k) = fs_nx s * fs_ny s)%nat /\ (length (tc k) = fs_nx s * fs_ny s)%nat /\ (length (td k) = fs_nx s * fs_ny s)%nat.
Hypothesis HG : gaussian4 s K pr ta tb tc td.
Hypothesis Hac : white2 s K pr ta tc (pix_var vac).
Hypothesis Had : white2 s K pr ta td (pix_var vad).
Hypothesis Hbc : white2 s K pr tb tc (pix_var vbc).
Hypothesis Hbd : white2 s K pr tb td (pix_var vbd).
Definition cov_of (i j : nat) : F := norm_of pi s (ncell pi fsqrt s b i * ncell pi fsqrt s b j) *
  (pair_sum pi fsqrt s b (mask_cl pi ph s wa wc wb wd) (fun _ _ => 1) i j * (vac * vbd) + pair_sum pi fsqrt s b (mask_cl pi ph s wa wd wb wc) (fun _ _ => 1) i j * (vad * vbc)).
Lemma cov_pseudo i j :
  sum K (fun k => pr k * (pseudo wa wb b c (ta k) (tb k) i * pseudo wc wd b c (tc k) (td k) j)) =
  sum K (fun k => pr k * pseudo wa wb b c (ta k) (tb k) i) * sum K (fun k => pr k * pseudo wc wd b c (tc k) (td k) j) + cov_of i j.
Proof.
  unfold cov_of. rewrite !(code_true pi fsqrt ph s HR), <- !(kern_sum pi fsqrt ph s HR HH).
  set (X := fun k m => prodm pi ph s wa wb (ta k) (tb k) m). set (Y := fun k m => prodm pi ph s wc wd (tc k) (td k) m).
  assert (EX : forall k, pseudo wa wb b c (ta k) (tb k) i = average pi s (bmodes b i) (X k)) by (intro k; apply pseudo_avg). assert (EY : forall k, pseudo wc wd b c (tc k) (td k) j = average pi s (bmodes b j) (Y k)) by (intro k; apply pseudo_avg).
  rewrite (sum_ext K (fun k => pr k * (_ * _)) (fun k => pr k * (average pi s (bmodes b i) (X k) * average pi s (bmodes b j) (Y k)))) by (intros k _; rewrite EX, EY; reflexivity).
  rewrite (sum_ext K (fun k => pr k * pseudo wa wb b c (ta k) (tb k) i) (fun k => pr k * average pi s (bmodes b i) (X k))) by (intros k _; rewrite EX; reflexivity). rewrite (sum_ext K (fun k => pr k * pseudo wc wd b c (tc k) (td k) j) (fun k => pr k * average pi s (bmodes b j) (Y k))) by (intros k _; rewrite EY; reflexivity).
  clear EX EY. unfold ncell, average. destruct (Nat.eqb_spec (length (bmodes b i)) 0) as [E1|E1].
  { rewrite E1. cbn [Z.of_nat Z.mul norm_of Z.ltb Z.compare]. rewrite !sum_zero by (intros; ring). unfold norm_of. cbn. ring. }
  destruct (Nat.eqb_spec (length (bmodes b j)) 0) as [E2|E2].
  { rewrite E2. cbn [Z.of_nat]. rewrite Z.mul_0_r. rewrite (sum_zero K (fun k => pr k * 0)) by (intros; ring). rewrite sum_zero by (intros; ring). unfold norm_of. cbn. ring. }
  unfold norm_of. replace (0 <? Z.of_nat (length (bmodes b i)) * Z.of_nat (length (bmodes b j)))%Z with true by (symmetry; apply Z.ltb_lt; nia). rewrite fofZ_mul, !fofZ_of_nat.
  assert (NX : fofnat (fs_nx s) <> 0 :> F /\ fofnat (fs_ny s) <> 0 :> F).
  { destruct (bmodes b i) as [|m l] eqn:El; [cbn in E1; congruence|]. assert (Im : In m (bmodes b i)) by (rewrite El; left; reflexivity). apply in_bmodes in Im. apply in_grid in Im. destruct (fs_nx s); [lia|]. destruct (fs_ny s); [lia|]. split; apply fofnat_neq0. }
  destruct NX as [N1 N2]. pose proof (fpos_neq0 _ Hlx) as N3. pose proof (fpos_neq0 _ Hly) as N4.
  assert (N5 : fofnat (length (bmodes b i)) <> 0 :> F) by (destruct (length (bmodes b i)); [congruence | apply fofnat_neq0]). assert (N6 : fofnat (length (bmodes b j)) <> 0 :> F) by (destruct (length (bmodes b j)); [congruence | apply fofnat_neq0]).
  set (zi := fofnat (length (bmodes b i))) in *. set (zj := fofnat (length (bmodes b j))) in *.
  set (q := fofZ 4 * pi * pi / (fs_lx s * fs_ly s)).
  set (M := norm_m2a pi s). set (S1 := lsum (map (fun m1 => lsum (map (fun m2 => kern ph s (map_product s wa wc) (map_product s wb wd) m1 m2) (bmodes b j))) (bmodes b i))). set (S2 := lsum (map (fun m1 => lsum (map (fun m2 => kern ph s (map_product s wa wd) (map_product s wb wc) m1 m2) (bmodes b j))) (bmodes b i))).
  rewrite (sum_ext K (fun k => pr k * (_ * _)) (fun k => q / zi * (q / zj) * lsum (map (fun m1 => lsum (map (fun m2 => pr k * (X k m1 * Y k m2)) (bmodes b j))) (bmodes b i)))).
  2:{ intros k _. symmetry. rewrite (lsum_ext _ (fun m1 => pr k * lsum (map (Y k) (bmodes b j)) * X k m1)). - rewrite lsum_mul_l. change (fun a : nat * nat => X k a) with (X k). set (L1 := lsum (map (X k) (bmodes b i))). set (L2 := lsum (map (Y k) (bmodes b j))). field. auto. - intros m1 _. rewrite <- (lsum_mul_l (pr k)), <- lsum_mul_r. apply lsum_ext. intros m2 _. ring. }
  assert (CP : forall m1 m2, sum K (fun k => pr k * (X k m1 * Y k m2)) = sum K (fun k => pr k * X k m1) * sum K (fun k => pr k * Y k m2) + M * M * (M * M) * (pix_var vac * pix_var vbd * kern ph s (map_product s wa wc) (map_product s wb wd) m1 m2 + pix_var vad * pix_var vbc * kern ph s (map_product s wa wd) (map_product s wb wc) m1 m2)).
  { intros m1 m2. exact (cov_prodm pi ph s K pr wa wb wc wd ta tb tc td _ _ _ _ Hl HG Hac Had Hbc Hbd m1 m2). }
  clearbody X Y.
  rewrite sum_mul_l. rewrite <- lsum_swap.
  rewrite (lsum_ext _ (fun m1 => sum K (fun k => pr k * X k m1) * sum K (fun k => pr k * lsum (map (Y k) (bmodes b j))) +
     M * M * (M * M) * (pix_var vac * pix_var vbd * lsum (map (fun m2 => kern ph s (map_product s wa wc) (map_product s wb wd) m1 m2) (bmodes b j)) + pix_var vad * pix_var vbc * lsum (map (fun m2 => kern ph s (map_product s wa wd) (map_product s wb wc) m1 m2) (bmodes b j))))).
  2:{ intros m1 _. rewrite <- lsum_swap. rewrite (lsum_ext _ (fun m2 => sum K (fun k => pr k * X k m1) * sum K (fun k => pr k * Y k m2) + M * M * (M * M) * (pix_var vac * pix_var vbd * kern ph s (map_product s wa wc) (map_product s wb wd) m1 m2 + pix_var vad * pix_var vbc * kern ph s (map_product s wa wd) (map_product s wb wc) m1 m2))).
    - rewrite lsum_add, lsum_mul_l, lsum_mul_l, lsum_add, !lsum_mul_l. f_equal. f_equal. rewrite (sum_ext _ (fun k => pr k * lsum _) (fun k => lsum (map (fun m => pr k * Y k m) (bmodes b j)))) by (intros k _; rewrite lsum_mul_l; reflexivity). rewrite <- lsum_swap. reflexivity.
    - intros m2 _. apply CP. }
  rewrite lsum_add, lsum_mul_r, lsum_mul_l, lsum_add, !lsum_mul_l. fold S1 S2.
  assert (EA : forall (Z : nat -> nat * nat -> F) l (z : F), z <> 0 -> sum K (fun k => pr k * (q * (lsum (map (Z k) l) / z))) = q / z * sum K (fun k => pr k * lsum (map (Z k) l))).
  { intros Z l z Hz. rewrite <- sum_mul_l. apply sum_ext. intros k _. field. exact Hz. }
  rewrite !EA by assumption. rewrite (sum_ext _ (fun k => pr k * lsum (map (X k) (bmodes b i))) (fun k => lsum (map (fun m => pr k * X k m) (bmodes b i)))) by (intros k _; rewrite lsum_mul_l; reflexivity). rewrite <- lsum_swap.
  set (A := lsum (map (fun a => sum K (fun k => pr k * X k a)) (bmodes b i))). set (B := sum K (fun k => pr k * lsum (map (Y k) (bmodes b j)))).
  unfold M, norm_m2a, q, pix_var. assert (N7 : (1 + 1 : F) <> 0) by (apply (fofZ_neq0 2); lia). change (fofZ 2) with (1 + 1 : F). replace (fofZ 4 : F) with ((1 + 1) * (1 + 1) : F) by (cbn; ring).
  generalize dependent S1. generalize dependent S2. intros S2 S1. clearbody A B zi zj. clear - N1 N2 N3 N4 N5 N6 N7 Hpi. generalize dependent (fofnat (fs_nx s) : F). intros nx N1. generalize dependent (fofnat (fs_ny s) : F). intros ny N2. field. auto 10.
Qed.
End Ens.
End M.
End LCF3.
