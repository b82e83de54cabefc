(** Lemmas: covariance of the products of Fourier coefficients of masked white maps. *)
From Verif Require Import Base M_Utils M_Bins M_FlatBins M_LinAlg M_Workspace M_Flat M_WspFlat M_Covar M_CovFlat P_FlatBins L_LinAlg L_Flat L_Flat2 L_Flat3 P_Flat L_FITS L_MCM L_WspFlat L_WspFlat2 P_WspFlat L_FlatMean P_FlatMean L_CovFlat.
From Coq Require Import Permutation.
Open Scope nat_scope.

Definition same (p q : nat * nat) : bool := Nat.eqb (fst p) (fst q) && Nat.eqb (snd p) (snd q).
Lemma same_eq p q : same p q = true <-> p = q.
Proof. unfold same. rewrite Bool.andb_true_iff, !Nat.eqb_eq. destruct p, q. cbn. split; [intros [-> ->]; reflexivity | intro H; injection H; auto]. Qed.

Section LCF2.
Context {F : ofield}.
Local Open Scope F_scope.
Add Field FfCF2 : (fth F).
Notation mat := (list (list F)).
Notation cplx := (cplx F).
Notation fsinfo := (fsinfo F).
Notation fbins := (fbins F).
Notation cuts := (cuts F).

Lemma lsum_same (s : fsinfo) p (h : nat * nat -> F) : In p (grid s) -> lsum (map (fun q => (if same p q then 1 else 0) * h q) (grid s)) = h p.
Proof.
  intro Hp. apply in_grid in Hp. destruct p as [x y]. cbn [fst snd] in Hp. rewrite sum_grid_rev. rewrite (sum_single _ y).
  - rewrite (sum_single _ x).
    + unfold same. cbn [fst snd]. rewrite !Nat.eqb_refl. cbn. ring.
    + lia.
    + intros i Hi Hn. unfold same. cbn [fst snd]. replace (x =? i)%nat with false by (symmetry; apply Nat.eqb_neq; lia). cbn. ring.
  - lia.
  - intros i Hi Hn. apply sum_zero. intros j Hj. unfold same. cbn [fst snd]. replace (y =? i)%nat with false by (symmetry; apply Nat.eqb_neq; lia). rewrite Bool.andb_false_r. ring.
Qed.
Notation "'Sg' x 'in' l , e" := (lsum (map (fun x => e) l)) (at level 200, x name, l at level 99, e at level 200, only parsing).
Lemma bilinear4 {A} (l : list A) (K : nat) (pr : nat -> F) (g1 g2 : A -> A -> F) (a b c d : nat -> A -> F) :
  sum K (fun k => pr k * ((Sg p in l, Sg p' in l, g1 p p' * (a k p * b k p')) * (Sg q in l, Sg q' in l, g2 q q' * (c k q * d k q')))) =
  Sg p in l, Sg p' in l, Sg q in l, Sg q' in l, g1 p p' * g2 q q' * sum K (fun k => pr k * (a k p * b k p' * (c k q * d k q'))).
Proof.
  rewrite (sum_ext _ _ (fun k => Sg p in l, Sg p' in l, Sg q in l, Sg q' in l, g1 p p' * g2 q q' * (pr k * (a k p * b k p' * (c k q * d k q'))))).
  - rewrite <- lsum_swap. apply lsum_ext. intros p _. rewrite <- lsum_swap. apply lsum_ext. intros p' _. rewrite <- lsum_swap. apply lsum_ext. intros q _. rewrite <- lsum_swap. apply lsum_ext. intros q' _. rewrite sum_mul_l. reflexivity.
  - intros k _. set (X2 := Sg q in l, Sg q' in l, g2 q q' * (c k q * d k q')). rewrite <- lsum_mul_r, <- lsum_mul_l. apply lsum_ext. intros p _. rewrite <- lsum_mul_r, <- lsum_mul_l. apply lsum_ext. intros p' _.
    unfold X2. rewrite <- lsum_mul_l, <- lsum_mul_l. apply lsum_ext. intros q _. rewrite <- lsum_mul_l, <- lsum_mul_l. apply lsum_ext. intros q' _. ring.
Qed.

Lemma pix_bound (s : fsinfo) p : In p (grid s) -> (fst p + fs_nx s * snd p < fs_nx s * fs_ny s)%nat.
Proof. intro H. apply in_grid in H. nia. Qed.
Lemma pix_product (s : fsinfo) w1 w2 p : In p (grid s) -> pix s (map_product s w1 w2) p = pix s w1 p * pix s w2 p.
Proof. intro H. unfold pix at 1, map_product. rewrite nth_tab by (unfold npix_fs; apply pix_bound; exact H). reflexivity. Qed.
Section M.
Variables (pi : F) (fsqrt : F -> F) (ph : nat -> nat -> cplx) (s : fsinfo).
Notation coeff := (coeff pi ph s).
Notation wave := (wave ph s).
Notation G := (grid s).
Notation N := (norm_m2a pi s).
(** moments of K maps with weights pr *)
Definition mean2 (K : nat) (pr : nat -> F) (x y : nat -> list F) (p p' : nat * nat) : F := sum K (fun k => pr k * (pix s (x k) p * pix s (y k) p')).
(** uncorrelated pixels with covariance v *)
Definition white2 (K : nat) (pr : nat -> F) (x y : nat -> list F) (v : F) : Prop := forall p p', In p G -> In p' G -> mean2 K pr x y p p' = if same p p' then v else 0.
(** Wick's theorem for the fourth moments *)
Definition gaussian4 (K : nat) (pr : nat -> F) (a b c d : nat -> list F) : Prop := forall p p' q q', In p G -> In p' G -> In q G -> In q' G ->
  sum K (fun k => pr k * (pix s (a k) p * pix s (b k) p' * (pix s (c k) q * pix s (d k) q'))) =
  mean2 K pr a b p p' * mean2 K pr c d q q' + mean2 K pr a c p q * mean2 K pr b d p' q' + mean2 K pr a d p q' * mean2 K pr b c p' q.
Definition prodm (w1 w2 t1 t2 : list F) (m : nat * nat) : F := cdot (coeff (times_mask w1 t1) m) (coeff (times_mask w2 t2) m).
Definition cd (m p p' : nat * nat) : F := cdot (wave m p) (wave m p').
Definition cr (m p p' : nat * nat) : F := snd (wave m p) * fst (wave m p') - fst (wave m p) * snd (wave m p').
Lemma cd_sym m p p' : cd m p p' = cd m p' p. Proof. unfold cd, cdot. ring. Qed.
Definition gker (w1 w2 : list F) (m p p' : nat * nat) : F := N * N * (pix s w1 p * pix s w2 p') * cd m p p'.
Lemma prodm_sum w1 w2 t1 t2 m : length t1 = (fs_nx s * fs_ny s)%nat -> length t2 = (fs_nx s * fs_ny s)%nat ->
  prodm w1 w2 t1 t2 m = Sg p in G, Sg p' in G, gker w1 w2 m p p' * (pix s t1 p * pix s t2 p').
Proof.
  intros L1 L2. unfold prodm. rewrite !coeff_sum, cdot_clsum. apply lsum_ext. intros p Hp. apply lsum_ext. intros p' Hp'. rewrite cdot_cscal. unfold gker, cd.
  unfold pix at 1 2, times_mask. rewrite L1, L2. rewrite !nth_tab by (apply pix_bound; assumption). fold (pix s t1 p) (pix s t2 p') (pix s w1 p) (pix s w2 p'). ring.
Qed.
Lemma mean_prodm K pr w1 w2 t1 t2 m : (forall k, (k < K)%nat -> length (t1 k) = (fs_nx s * fs_ny s)%nat /\ length (t2 k) = (fs_nx s * fs_ny s)%nat) ->
  sum K (fun k => pr k * prodm w1 w2 (t1 k) (t2 k) m) = Sg p in G, Sg p' in G, gker w1 w2 m p p' * mean2 K pr t1 t2 p p'.
Proof.
  intro L. rewrite (sum_ext _ _ (fun k => Sg p in G, Sg p' in G, gker w1 w2 m p p' * (pr k * (pix s (t1 k) p * pix s (t2 k) p')))).
  - rewrite <- lsum_swap. apply lsum_ext. intros p _. rewrite <- lsum_swap. apply lsum_ext. intros p' _. rewrite sum_mul_l. reflexivity.
  - intros k Hk. destruct (L k Hk). rewrite prodm_sum by assumption. rewrite <- lsum_mul_l. apply lsum_ext. intros p _. rewrite <- lsum_mul_l. apply lsum_ext. intros p' _. ring.
Qed.
Definition kern (u v : list F) (m1 m2 : nat * nat) : F := Sg p in G, Sg p' in G, pix s u p * pix s v p' * (cd m1 p p' * cd m2 p p').
Section Ens.
Variables (K : nat) (pr : nat -> F) (wa wb wc wd : list F) (ta tb tc td : nat -> list F) (vac vad vbc vbd : F).
Hypothesis Hl : forall k, (k < K)%nat -> (length (ta k) = fs_nx s * fs_ny s)%nat /\ (length (tb k) = fs_nx s * fs_ny s)%nat /\ (length (tc k) = fs_nx s * fs_ny s)%nat /\ (length (td k) = fs_nx s * fs_ny s)%nat.
Hypothesis HG : gaussian4 K pr ta tb tc td.
Hypothesis Hac : white2 K pr ta tc vac.
Hypothesis Had : white2 K pr ta td vad.
Hypothesis Hbc : white2 K pr tb tc vbc.
Hypothesis Hbd : white2 K pr tb td vbd.
Lemma cov_prodm m1 m2 :
  sum K (fun k => pr k * (prodm wa wb (ta k) (tb k) m1 * prodm wc wd (tc k) (td k) m2)) =
  sum K (fun k => pr k * prodm wa wb (ta k) (tb k) m1) * sum K (fun k => pr k * prodm wc wd (tc k) (td k) m2) +
  N * N * (N * N) * (vac * vbd * kern (map_product s wa wc) (map_product s wb wd) m1 m2 + vad * vbc * kern (map_product s wa wd) (map_product s wb wc) m1 m2).
Proof.
  rewrite (sum_ext _ _ (fun k => pr k * ((Sg p in G, Sg p' in G, gker wa wb m1 p p' * (pix s (ta k) p * pix s (tb k) p')) * (Sg q in G, Sg q' in G, gker wc wd m2 q q' * (pix s (tc k) q * pix s (td k) q'))))).
  2:{ intros k Hk. destruct (Hl k Hk) as [A1 [A2 [A3 A4]]]. rewrite !prodm_sum by assumption. reflexivity. }
  rewrite (bilinear4 G K pr (gker wa wb m1) (gker wc wd m2) (fun k => pix s (ta k)) (fun k => pix s (tb k)) (fun k => pix s (tc k)) (fun k => pix s (td k))).
  rewrite !mean_prodm by (intros k Hk; destruct (Hl k Hk) as [A1 [A2 [A3 A4]]]; split; assumption).
  set (e := fun p q : nat * nat => if same p q then 1 else 0 : F).
  transitivity ((Sg p in G, Sg p' in G, Sg q in G, Sg q' in G, gker wa wb m1 p p' * mean2 K pr ta tb p p' * (gker wc wd m2 q q' * mean2 K pr tc td q q')) +
    ((Sg p in G, Sg p' in G, Sg q in G, Sg q' in G, e p' q' * (e p q * (vac * vbd * (gker wa wb m1 p p' * gker wc wd m2 q q')))) + (Sg p in G, Sg p' in G, Sg q in G, Sg q' in G, e p q' * (e p' q * (vad * vbc * (gker wa wb m1 p p' * gker wc wd m2 q q')))))).
  - rewrite <- !lsum_add. apply lsum_ext. intros p Hp. rewrite <- !lsum_add. apply lsum_ext. intros p' Hp'. rewrite <- !lsum_add. apply lsum_ext. intros q Hq. rewrite <- !lsum_add. apply lsum_ext. intros q' Hq'.
    rewrite (HG p p' q q' Hp Hp' Hq Hq'), (Hac p q Hp Hq), (Hbd p' q' Hp' Hq'), (Had p q' Hp Hq'), (Hbc p' q Hp' Hq). unfold e. destruct (same p q), (same p' q'), (same p q'), (same p' q); ring.
  - f_equal.
    + rewrite <- lsum_mul_r. apply lsum_ext. intros p _. rewrite <- lsum_mul_r. apply lsum_ext. intros p' _. rewrite <- lsum_mul_l. apply lsum_ext. intros q _. rewrite <- lsum_mul_l. reflexivity.
    + transitivity (N * N * (N * N) * (vac * vbd) * kern (map_product s wa wc) (map_product s wb wd) m1 m2 + N * N * (N * N) * (vad * vbc) * kern (map_product s wa wd) (map_product s wb wc) m1 m2); [|ring]. f_equal; unfold kern; rewrite <- !lsum_mul_l; apply lsum_ext; intros p Hp; rewrite <- !lsum_mul_l; apply lsum_ext; intros p' Hp'.
      * rewrite (lsum_ext _ (fun q => e p q * (vac * vbd * (gker wa wb m1 p p' * gker wc wd m2 q p')))).
        -- unfold e. rewrite (lsum_same s p (fun q => vac * vbd * (gker wa wb m1 p p' * gker wc wd m2 q p')) Hp). rewrite !pix_product by assumption. unfold gker. ring.
        -- intros q Hq. unfold e at 1. rewrite (lsum_same s p' (fun q' => e p q * (vac * vbd * (gker wa wb m1 p p' * gker wc wd m2 q q'))) Hp'). reflexivity.
      * rewrite (lsum_ext _ (fun q => e p' q * (vad * vbc * (gker wa wb m1 p p' * gker wc wd m2 q p)))).
        -- unfold e. rewrite (lsum_same s p' (fun q => vad * vbc * (gker wa wb m1 p p' * gker wc wd m2 q p)) Hp'). rewrite !pix_product by assumption. unfold gker. rewrite (cd_sym m2 p' p). ring.
        -- intros q Hq. unfold e at 1. rewrite (lsum_same s p (fun q' => e p' q * (vad * vbc * (gker wa wb m1 p p' * gker wc wd m2 q q'))) Hp). reflexivity.
Qed.
End Ens.
(** ** Sums over the modes of two bands *)
Hypothesis HR : conj_roots ph s.
Hypothesis HH : hom_roots ph s.
Notation bmodes := (bmodes pi fsqrt s).
Lemma band_odd b i p p' : (Sg m in (bmodes b i), cr m p p') = 0.
Proof.
  unfold L_CovFlat.bmodes. rewrite <- lsum_filter. refine (eq_trans _ (odd_part pi fsqrt ph s (fun k => if inb b i k then 1 else 0) p p' HR)). apply lsum_ext. intros m _. unfold cr. destruct (inb b i (kmod_of pi fsqrt s m)); ring.
Qed.
Definition true_sum (b : fbins) (u v : list F) (i j : nat) : F := Sg m1 in (bmodes b i), Sg m2 in (bmodes b j), true_prod pi ph s u v (diff_mode s m1 m2).
Lemma in_bmodes b i m : In m (bmodes b i) -> In m G. Proof. intro H. apply filter_In in H. tauto. Qed.
Lemma kern_sum b u v i j : N * N * (Sg m1 in (bmodes b i), Sg m2 in (bmodes b j), kern u v m1 m2) = true_sum b u v i j.
Proof.
  symmetry. unfold true_sum. transitivity (Sg m1 in (bmodes b i), Sg m2 in (bmodes b j), Sg p in G, Sg p' in G, N * N * (pix s u p * pix s v p') * (cd m1 p p' * cd m2 p p' + cr m1 p p' * cr m2 p p')).
  - apply lsum_ext. intros m1 H1. apply in_bmodes in H1. apply lsum_ext. intros m2 H2. apply in_bmodes in H2. unfold true_prod. rewrite !coeff_sum, cdot_clsum. apply lsum_ext. intros p Hp. apply lsum_ext. intros p' Hp'.
    rewrite cdot_cscal, !wave_diff by assumption. unfold cd, cr, cdot. cbn [cmul conjc fst snd]. ring.
  - rewrite <- lsum_mul_l. transitivity ((Sg m1 in (bmodes b i), N * N * (Sg m2 in (bmodes b j), kern u v m1 m2)) + 0); [|ring].
    transitivity ((Sg m1 in (bmodes b i), N * N * (Sg m2 in (bmodes b j), kern u v m1 m2)) + (Sg m1 in (bmodes b i), Sg m2 in (bmodes b j), Sg p in G, Sg p' in G, N * N * (pix s u p * pix s v p') * cr m2 p p' * cr m1 p p')).
    + rewrite <- lsum_add. apply lsum_ext. intros m1 H1. rewrite <- lsum_mul_l, <- lsum_add. apply lsum_ext. intros m2 H2. unfold kern. rewrite <- lsum_mul_l, <- lsum_add. apply lsum_ext. intros p Hp. rewrite <- lsum_mul_l, <- lsum_add. apply lsum_ext. intros p' Hp'. ring.
    + f_equal. rewrite lsum_swap2. apply lsum_zero. intros m2 _. rewrite lsum_swap2. apply lsum_zero. intros p _. rewrite lsum_swap2. apply lsum_zero. intros p' _. rewrite lsum_mul_l, band_odd. ring.
Qed.
Lemma no_cut_uncut m : uncut pi s no_cut m = true.
Proof.
  unfold uncut, cut_x, cut_y, no_cut. cbn [mn_x mx_x mn_y mx_y]. assert (Z : forall k : F, (1 <=? k) && (k <=? - (1)) = false).
  { intro k. destruct (1 <=? k) eqn:E1; [|reflexivity]. destruct (k <=? - (1)) eqn:E2; [|reflexivity]. exfalso. pose proof (fle_trans _ _ _ E1 E2) as H. pose proof (f0_lt_1 (F := F)) as P. 
    assert (Q : (1 : F) + 1 <= 0) by (replace (0 : F) with (- (1) + 1 : F) by ring; apply fle_add_r; exact H). apply (flt_irrefl (0 : F)). apply (flt_le_trans _ (1 + 1)); [|exact Q]. apply (flt_trans _ 1 _ P). replace (1 : F) with (0 + 1 : F) at 1 by ring. apply flt_add_r. exact P. }
  rewrite !Z. reflexivity.
Qed.
Lemma code_true b w1 w2 w3 w4 i j : pair_sum pi fsqrt s b (mask_cl pi ph s w1 w2 w3 w4) (fun _ _ => 1) i j = true_sum b (map_product s w1 w2) (map_product s w3 w4) i j.
Proof.
  set (P := fun k => if inb b j k then 1 else 0 : F).
  assert (B : modes pi fsqrt s b no_cut i = bmodes b i) by (unfold modes, L_CovFlat.bmodes; apply filter_ext_in; intros m _; rewrite no_cut_uncut; reflexivity).
  assert (E : forall f, sel_sum pi fsqrt s b no_cut i P f = Sg m1 in (bmodes b i), Sg m2 in (bmodes b j), f (diff_mode s m1 m2)).
  { intro f. unfold sel_sum. rewrite B. apply lsum_ext. intros m1 _. unfold L_CovFlat.bmodes at 1. rewrite <- lsum_filter. apply lsum_ext. intros m2 _. unfold P. destruct (inb b j (kmod_of pi fsqrt s m2)); ring. }
  unfold pair_sum, true_sum. transitivity (sel_sum pi fsqrt s b no_cut i P (code_prod pi ph s (map_product s w1 w2) (map_product s w3 w4))).
  - rewrite E. apply lsum_ext. intros m1 _. apply lsum_ext. intros m2 _. unfold mask_cl, code_prod, product_and_transform. ring.
  - rewrite (code_prod_sum pi fsqrt ph s b no_cut i P _ _ HR). + apply E. + intros iy Hy. unfold cut_y, no_cut. cbn [mn_y mx_y]. pose proof (no_cut_uncut (0, iy)%nat) as U1. pose proof (no_cut_uncut (0, opp_row (fs_ny s) iy)%nat) as U2. unfold uncut, cut_y, no_cut in U1, U2. cbn [mn_y mx_y fst snd] in U1, U2. apply Bool.andb_true_iff in U1, U2. destruct U1 as [_ U1]. destruct U2 as [_ U2]. apply Bool.negb_true_iff in U1, U2. rewrite U1, U2. reflexivity.
Qed.
End M.
End LCF2.
