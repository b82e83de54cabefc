(** Lemmas: mean of the products of Fourier coefficients of masked maps. *)
From Verif Require Import Base M_Utils M_Bins M_FlatBins M_LinAlg M_Workspace M_Flat M_WspFlat P_FlatBins L_LinAlg L_Flat L_Flat2 L_Flat3 L_FITS L_MCM L_WspFlat L_WspFlat2.
From Coq Require Import Permutation.
Open Scope nat_scope.

(** ** Differences of positions on a periodic axis *)
Lemma diff_lt n a b : (a < n)%nat -> (b < n)%nat -> (diff n a b < n)%nat.
Proof. intros. unfold diff. destruct (Nat.leb_spec b a); lia. Qed.
Lemma diff_Z n a b : (a < n)%nat -> (b < n)%nat -> Z.of_nat (diff n a b) = ((Z.of_nat a - Z.of_nat b) mod Z.of_nat n)%Z.
Proof.
  intros Ha Hb. unfold diff. destruct (Nat.leb_spec b a).
  - rewrite Nat2Z.inj_sub by lia. symmetry. apply Z.mod_small. lia.
  - rewrite Nat2Z.inj_sub, Nat2Z.inj_add by lia. apply (Z.mod_unique _ _ (-1)); [left; lia | lia].
Qed.
Lemma opp_row_Z n i : (i < n)%nat -> Z.of_nat (opp_row n i) = ((- Z.of_nat i) mod Z.of_nat n)%Z.
Proof. intro H. unfold opp_row. rewrite Nat2Z.inj_mod, Nat2Z.inj_sub by lia. rewrite <- (Z.mod_add (- Z.of_nat i) 1) by lia. f_equal. lia. Qed.
Lemma diff_opp n a b : (a < n)%nat -> (b < n)%nat -> diff n (opp_row n a) (opp_row n b) = opp_row n (diff n a b).
Proof.
  intros Ha Hb. apply Nat2Z.inj. rewrite diff_Z by (apply opp_row_lt; lia). rewrite (opp_row_Z n (diff n a b)) by (apply diff_lt; assumption). rewrite diff_Z by assumption.
  rewrite !opp_row_Z by assumption. rewrite <- Zminus_mod. rewrite <- (Z.sub_0_l (_ mod _)), Zminus_mod_idemp_r. f_equal. lia.
Qed.
Lemma diff_mul n a b x : (0 < n)%nat -> (a < n)%nat -> (b < n)%nat -> ((diff n a b * x) mod n = diff n ((a * x) mod n) ((b * x) mod n))%nat.
Proof.
  intros Hn Ha Hb. assert (Ma : ((a * x) mod n < n)%nat) by (apply Nat.mod_upper_bound; lia). assert (Mb : ((b * x) mod n < n)%nat) by (apply Nat.mod_upper_bound; lia).
  apply Nat2Z.inj. rewrite diff_Z by assumption. rewrite !Nat2Z.inj_mod, !Nat2Z.inj_mul. rewrite diff_Z by assumption. rewrite Z.mul_mod_idemp_l by lia. rewrite <- Zminus_mod. f_equal. lia.
Qed.

Section LMean.
Context {F : ofield}.
Local Open Scope F_scope.
Add Field FfMe : (fth F).
Notation mat := (list (list F)).
Notation cplx := (cplx F).
Notation fsinfo := (fsinfo F).
Notation fbins := (fbins F).
Notation cuts := (cuts F).
Notation ffield := (ffield F).
Notation fwsp := (fwsp F).

Definition clsum {A} (l : list A) (f : A -> cplx) : cplx := (lsum (map (fun a => fst (f a)) l), lsum (map (fun a => snd (f a)) l)).
Lemma sum_grid (s : fsinfo) (g : nat -> nat -> F) : sum (fs_ny s) (fun y => sum (fs_nx s) (fun x => g x y)) = lsum (map (fun p => g (fst p) (snd p)) (grid s)).
Proof.
  unfold grid. rewrite <- lsum_seq. induction (seq 0 (fs_ny s)) as [|y t IH]; [reflexivity|]. cbn [flat_map]. rewrite map_app, lsum_app, <- IH, lsum_cons. f_equal. rewrite <- lsum_seq, map_map. reflexivity.
Qed.
Lemma cdot_clsum {A B} (l : list A) (l' : list B) (f : A -> cplx) (g : B -> cplx) : cdot (clsum l f) (clsum l' g) = lsum (map (fun a => lsum (map (fun b => cdot (f a) (g b)) l')) l).
Proof.
  unfold cdot at 1, clsum. cbn [fst snd]. rewrite <- !lsum_mul_r. rewrite <- lsum_add. apply lsum_ext. intros a _. rewrite <- !lsum_mul_l, <- lsum_add. reflexivity.
Qed.
Lemma cdot_cscal (a b : F) (x y : cplx) : cdot (cscal a x) (cscal b y) = a * b * cdot x y.
Proof. unfold cdot, cscal. cbn [fst snd]. ring. Qed.
Section M.
Variables (pi : F) (fsqrt : F -> F) (ph : nat -> nat -> cplx).
(** plane wave of mode m at pixel p: exp(-i k.r) *)
Definition wave (s : fsinfo) (m p : nat * nat) : cplx := cmul (ph (fs_nx s) ((fst m * fst p) mod fs_nx s)) (ph (fs_ny s) ((snd m * snd p) mod fs_ny s)).
Definition pix (s : fsinfo) (t : list F) (p : nat * nat) : F := nth (fst p + fs_nx s * snd p) t 0.
Lemma coeff_sum (s : fsinfo) t m : coeff pi ph s t m = clsum (grid s) (fun p => cscal (norm_m2a pi s * pix s t p) (wave s m p)).
Proof.
  unfold coeff, dft_at, csum, clsum, cscal at 1. cbn [fst snd]. rewrite (sum_grid s (fun x y => fst (cscal (nth (x + fs_nx s * y) t 0) (cmul (ph (fs_nx s) ((fst m * x) mod fs_nx s)) (ph (fs_ny s) ((snd m * y) mod fs_ny s)))))).
  rewrite (sum_grid s (fun x y => snd (cscal (nth (x + fs_nx s * y) t 0) (cmul (ph (fs_nx s) ((fst m * x) mod fs_nx s)) (ph (fs_ny s) ((snd m * y) mod fs_ny s)))))).
  rewrite <- !lsum_mul_l. f_equal; apply lsum_ext; intros p _; unfold wave, pix, cscal; cbn [fst snd]; ring.
Qed.
(** the roots of unity behave like exponentials *)
Definition hom_roots (s : fsinfo) : Prop :=
  (forall i j, (i < fs_nx s)%nat -> (j < fs_nx s)%nat -> ph (fs_nx s) (diff (fs_nx s) i j) = cmul (ph (fs_nx s) i) (conjc (ph (fs_nx s) j))) /\
  (forall i j, (i < fs_ny s)%nat -> (j < fs_ny s)%nat -> ph (fs_ny s) (diff (fs_ny s) i j) = cmul (ph (fs_ny s) i) (conjc (ph (fs_ny s) j))).
Lemma wave_diff (s : fsinfo) m m' p : hom_roots s -> In m (grid s) -> In m' (grid s) -> wave s (diff_mode s m m') p = cmul (wave s m p) (conjc (wave s m' p)).
Proof.
  intros [H1 H2] Hm Hm'. apply in_grid in Hm, Hm'. unfold wave, diff_mode. cbn [fst snd]. rewrite !diff_mul by lia. rewrite H1, H2 by (apply Nat.mod_upper_bound; lia). apply cplx_eq; cbn; ring.
Qed.
Definition flip (s : fsinfo) (m : nat * nat) : nat * nat := (opp_row (fs_nx s) (fst m), opp_row (fs_ny s) (snd m)).
Lemma wave_flip (s : fsinfo) m p : conj_roots ph s -> In m (grid s) -> wave s (flip s m) p = conjc (wave s m p).
Proof. intros [H1 H2] Hm. apply in_grid in Hm. unfold wave, flip. cbn [fst snd]. rewrite !mod_opp_mul, H1, H2 by (try apply Nat.mod_upper_bound; lia). rewrite conj_mul. reflexivity. Qed.
Lemma sum_grid_rev (s : fsinfo) (g : nat * nat -> F) : lsum (map g (grid s)) = sum (fs_ny s) (fun y => sum (fs_nx s) (fun x => g (x, y))).
Proof. rewrite (sum_grid s (fun x y => g (x, y))). apply lsum_ext. intros [x y] _. reflexivity. Qed.
Lemma lsum_flip (s : fsinfo) (g : nat * nat -> F) : lsum (map (fun m => g (flip s m)) (grid s)) = lsum (map g (grid s)).
Proof.
  rewrite !sum_grid_rev. rewrite <- (sum_opp_row (fs_ny s) (fun y => sum (fs_nx s) (fun x => g (x, y)))). apply sum_ext. intros y _.
  rewrite <- (sum_opp_row (fs_nx s) (fun x => g (x, opp_row (fs_ny s) y))). reflexivity.
Qed.
Definition yflip (s : fsinfo) (m : nat * nat) : nat * nat := (fst m, opp_row (fs_ny s) (snd m)).
Lemma lsum_yflip (s : fsinfo) (g : nat * nat -> F) : lsum (map (fun m => g (yflip s m)) (grid s)) = lsum (map g (grid s)).
Proof. rewrite !sum_grid_rev. rewrite <- (sum_opp_row (fs_ny s) (fun y => sum (fs_nx s) (fun x => g (x, y)))). reflexivity. Qed.
Lemma in_yflip (s : fsinfo) m : In m (grid s) -> In (yflip s m) (grid s).
Proof. rewrite !in_grid. unfold yflip. cbn [fst snd]. intros [H1 H2]. split; [exact H1 | apply opp_row_lt; lia]. Qed.
Lemma kmod_yflip (s : fsinfo) m : In m (grid s) -> kmod_of pi fsqrt s (yflip s m) = kmod_of pi fsqrt s m.
Proof. rewrite in_grid. intros [H1 H2]. unfold kmod_of, yflip. cbn [fst snd]. apply kmod_opp. exact H2. Qed.
Lemma kmod_flip (s : fsinfo) m : In m (grid s) -> kmod_of pi fsqrt s (flip s m) = kmod_of pi fsqrt s m.
Proof.
  rewrite in_grid. intros [H1 H2]. unfold kmod_of, flip. cbn [fst snd]. rewrite kmod_opp by exact H2. unfold kmodf. f_equal. unfold kxf. destruct (freq_opp (fs_nx s) (fst m) H1) as [E|E]; rewrite E; [rewrite fofZ_opp; ring | reflexivity].
Qed.
(** covariance of two isotropic maps with spectrum P(|k|) *)
Definition iso_cov (s : fsinfo) (P : F -> F) (p p' : nat * nat) : F :=
  1 / (fs_lx s * fs_ly s) * lsum (map (fun m => P (kmod_of pi fsqrt s m) * cdot (wave s m p) (wave s m p')) (grid s)).
(** imaginary parts cancel between opposite modes *)
Lemma odd_part (s : fsinfo) P p p' : conj_roots ph s -> lsum (map (fun m => P (kmod_of pi fsqrt s m) * (snd (wave s m p) * fst (wave s m p') - fst (wave s m p) * snd (wave s m p'))) (grid s)) = 0.
Proof.
  intro HR. set (S := lsum _). assert (E : S = - S).
  { unfold S at 1. rewrite <- lsum_flip. replace (- S) with ((- (1)) * S) by ring. unfold S. rewrite <- lsum_mul_l. apply lsum_ext. intros m Hm. rewrite (kmod_flip s m Hm), !(wave_flip s m) by assumption. cbn [conjc fst snd]. ring. }
  assert (T : fofZ 2 * S = 0). { replace (fofZ 2 * S) with (S + S) by (cbn; ring). rewrite E at 1. ring. }
  assert (N : (fofZ 2 : F) <> 0) by (apply fofZ_neq0; lia). replace S with (fofZ 2 * S / fofZ 2) by (field; exact N). rewrite T. field. exact N.
Qed.
Lemma mean_product (s : fsinfo) (w1 w2 : list F) (K : nat) (pr : nat -> F) (t1 t2 : nat -> list F) (P : F -> F) m :
  conj_roots ph s -> hom_roots s -> In m (grid s) -> length w1 = (fs_nx s * fs_ny s)%nat -> length w2 = (fs_nx s * fs_ny s)%nat ->
  (forall k, (k < K)%nat -> length (t1 k) = (fs_nx s * fs_ny s)%nat /\ length (t2 k) = (fs_nx s * fs_ny s)%nat) ->
  (forall p p', In p (grid s) -> In p' (grid s) -> sum K (fun k => pr k * (pix s (t1 k) p * pix s (t2 k) p')) = iso_cov s P p p') ->
  sum K (fun k => pr k * cdot (coeff pi ph s (times_mask w1 (t1 k)) m) (coeff pi ph s (times_mask w2 (t2 k)) m)) =
  1 / (fs_lx s * fs_ly s) * lsum (map (fun m2 => P (kmod_of pi fsqrt s m2) * cdot (coeff pi ph s w1 (diff_mode s m m2)) (coeff pi ph s w2 (diff_mode s m m2))) (grid s)).
Proof.
  intros HR HH Hm L1 L2 Lt HC. set (N := norm_m2a pi s).
  assert (Px : forall p, In p (grid s) -> (fst p + fs_nx s * snd p < fs_nx s * fs_ny s)%nat) by (intros p Hp; apply in_grid in Hp; nia).
  transitivity (lsum (map (fun p => lsum (map (fun p' => N * N * (pix s w1 p * pix s w2 p') * cdot (wave s m p) (wave s m p') * iso_cov s P p p') (grid s))) (grid s))).
  - rewrite (sum_ext _ _ (fun k => lsum (map (fun p => lsum (map (fun p' => N * N * (pix s w1 p * pix s w2 p') * cdot (wave s m p) (wave s m p') * (pr k * (pix s (t1 k) p * pix s (t2 k) p'))) (grid s))) (grid s)))).
    + rewrite <- lsum_swap. apply lsum_ext. intros p Hp. rewrite <- lsum_swap. apply lsum_ext. intros p' Hp'. rewrite sum_mul_l. rewrite (HC p p' Hp Hp'). reflexivity.
    + intros k Hk. destruct (Lt k Hk) as [A1 A2]. rewrite !coeff_sum, cdot_clsum, <- lsum_mul_l. apply lsum_ext. intros p Hp. rewrite <- lsum_mul_l. apply lsum_ext. intros p' Hp'. rewrite cdot_cscal. fold N.
      unfold pix at 1 2, times_mask. rewrite A1, A2. rewrite !nth_tab by (apply Px; assumption). fold (pix s (t1 k) p) (pix s (t2 k) p') (pix s w1 p) (pix s w2 p'). ring.
  - symmetry. rewrite <- lsum_mul_l. rewrite (lsum_ext _ (fun m2 => lsum (map (fun p => lsum (map (fun p' => N * N * (pix s w1 p * pix s w2 p') * (1 / (fs_lx s * fs_ly s)) *
        (P (kmod_of pi fsqrt s m2) * (cdot (wave s m p) (wave s m p') * cdot (wave s m2 p) (wave s m2 p') +
           (snd (wave s m p) * fst (wave s m p') - fst (wave s m p) * snd (wave s m p')) * (snd (wave s m2 p) * fst (wave s m2 p') - fst (wave s m2 p) * snd (wave s m2 p'))))) (grid s))) (grid s))) (grid s)).
    + rewrite lsum_swap2. apply lsum_ext. intros p Hp. rewrite lsum_swap2. apply lsum_ext. intros p' Hp'. rewrite lsum_mul_l. unfold iso_cov.
      rewrite (lsum_ext _ (fun m2 => cdot (wave s m p) (wave s m p') * (P (kmod_of pi fsqrt s m2) * cdot (wave s m2 p) (wave s m2 p')) +
        (snd (wave s m p) * fst (wave s m p') - fst (wave s m p) * snd (wave s m p')) * (P (kmod_of pi fsqrt s m2) * (snd (wave s m2 p) * fst (wave s m2 p') - fst (wave s m2 p) * snd (wave s m2 p'))))) by (intros; ring).
      rewrite lsum_add, !lsum_mul_l. rewrite (odd_part s P p p' HR). ring.
    + intros m2 Hm2. rewrite !coeff_sum, cdot_clsum, <- !lsum_mul_l. apply lsum_ext. intros p Hp. rewrite <- !lsum_mul_l. apply lsum_ext. intros p' Hp'. rewrite cdot_cscal. fold N. rewrite !(wave_diff s m m2) by assumption.
      unfold cdot. cbn [cmul conjc fst snd]. ring.
Qed.
(** ** Reading the mirrored column *)
Definition sel_sum (s : fsinfo) (b : fbins) (c : cuts) (ib : nat) (P : F -> F) (f : nat * nat -> F) : F :=
  lsum (map (fun m1 => lsum (map (fun m2 => f (diff_mode s m1 m2) * P (kmod_of pi fsqrt s m2)) (grid s))) (modes pi fsqrt s b c ib)).
Lemma diff_yflip (s : fsinfo) m1 m2 : In m1 (grid s) -> In m2 (grid s) -> diff_mode s (yflip s m1) (yflip s m2) = yflip s (diff_mode s m1 m2).
Proof. rewrite !in_grid. intros [A1 A2] [B1 B2]. unfold diff_mode, yflip. cbn [fst snd]. rewrite diff_opp by assumption. reflexivity. Qed.
Lemma in_diff (s : fsinfo) m1 m2 : In m1 (grid s) -> In m2 (grid s) -> In (diff_mode s m1 m2) (grid s).
Proof. rewrite !in_grid. intros [A1 A2] [B1 B2]. unfold diff_mode. cbn [fst snd]. split; apply diff_lt; assumption. Qed.
Lemma sel_sum_yflip (s : fsinfo) b c ib P f : y_symmetric pi s c -> sel_sum s b c ib P (fun q => f (yflip s q)) = sel_sum s b c ib P f.
Proof.
  intro HY. unfold sel_sum, modes. rewrite <- !lsum_filter. rewrite <- (lsum_yflip s (fun m => if (uncut pi s c m && inb b ib (kmod_of pi fsqrt s m))%bool then lsum (map (fun m2 => f (diff_mode s m m2) * P (kmod_of pi fsqrt s m2)) (grid s)) else 0)).
  apply lsum_ext. intros m1 H1. rewrite (kmod_yflip s m1 H1). replace (uncut pi s c (yflip s m1)) with (uncut pi s c m1).
  2:{ unfold uncut, yflip. cbn [fst snd]. rewrite HY by (apply in_grid in H1; tauto). reflexivity. }
  destruct (uncut pi s c m1 && inb b ib (kmod_of pi fsqrt s m1))%bool; [|reflexivity].
  rewrite <- (lsum_yflip s (fun m2 => f (diff_mode s (yflip s m1) m2) * P (kmod_of pi fsqrt s m2))). apply lsum_ext. intros m2 H2. rewrite (kmod_yflip s m2 H2), (diff_yflip s m1 m2 H1 H2). reflexivity.
Qed.
Lemma sel_sum_ext (s : fsinfo) b c ib P f g : (forall q, In q (grid s) -> f q = g q) -> sel_sum s b c ib P f = sel_sum s b c ib P g.
Proof. intro H. unfold sel_sum. apply lsum_ext. intros m1 H1. apply filter_In in H1. destruct H1 as [H1 _]. apply lsum_ext. intros m2 H2. rewrite H by (apply in_diff; assumption). reflexivity. Qed.
Lemma sel_sum_add (s : fsinfo) b c ib P f g : sel_sum s b c ib P (fun q => f q + g q) = sel_sum s b c ib P f + sel_sum s b c ib P g.
Proof. unfold sel_sum. rewrite <- lsum_add. apply lsum_ext. intros m1 H1. rewrite <- lsum_add. apply lsum_ext. intros m2 H2. ring. Qed.
Definition true_prod (s : fsinfo) (w1 w2 : list F) (q : nat * nat) : F := cdot (coeff pi ph s w1 q) (coeff pi ph s w2 q).
(** what the code uses for the product of the masks *)
Definition code_prod (s : fsinfo) (w1 w2 : list F) (q : nat * nat) : F := maskprod s (map2alm0 pi ph s w1) (map2alm0 pi ph s w2) q.
Lemma code_prod_eq (s : fsinfo) w1 w2 q : conj_roots ph s -> In q (grid s) ->
  code_prod s w1 w2 q = if (2 * fst q <=? fs_nx s)%nat then true_prod s w1 w2 q else true_prod s w1 w2 (yflip s q).
Proof.
  intros HR Hq. apply in_grid in Hq. destruct q as [x y]. cbn [fst snd] in *. destruct Hq as [Hx Hy]. unfold code_prod, maskprod, ix_here. cbn [fst snd]. destruct (Nat.leb_spec (2 * x) (fs_nx s)) as [L|L].
  - rewrite !nth_map2alm0 by (try apply half_bound; lia). reflexivity.
  - rewrite !nth_map2alm0 by (try apply half_bound; lia). unfold true_prod, yflip. cbn [fst snd].
    assert (E : forall w, coeff pi ph s w ((fs_nx s - x)%nat, y) = conjc (coeff pi ph s w (x, opp_row (fs_ny s) y))).
    { intro w. rewrite (opp_right (fs_nx s) x) by lia. rewrite <- (coeff_conj pi fsqrt ph s w x (opp_row (fs_ny s) y)) by (try assumption; apply opp_row_lt; lia). rewrite opp_row_inv by exact Hy. reflexivity. }
    rewrite !E. apply cdot_conj.
Qed.
Lemma code_prod_sum (s : fsinfo) b c ib P w1 w2 : conj_roots ph s -> y_symmetric pi s c -> sel_sum s b c ib P (code_prod s w1 w2) = sel_sum s b c ib P (true_prod s w1 w2).
Proof.
  intros HR HY. assert (E : sel_sum s b c ib P (code_prod s w1 w2) + sel_sum s b c ib P (code_prod s w1 w2) = sel_sum s b c ib P (true_prod s w1 w2) + sel_sum s b c ib P (true_prod s w1 w2)).
  { rewrite <- (sel_sum_yflip s b c ib P (code_prod s w1 w2) HY) at 2. rewrite <- (sel_sum_yflip s b c ib P (true_prod s w1 w2) HY) at 2. rewrite <- !sel_sum_add. apply sel_sum_ext. intros q Hq.
    rewrite !code_prod_eq by (try assumption; apply in_yflip; exact Hq). cbn [yflip fst snd]. unfold yflip. cbn [fst snd]. rewrite opp_row_inv by (apply in_grid in Hq; tauto). destruct (2 * fst q <=? fs_nx s)%nat; destruct q; cbn [fst snd]; ring. }
  set (x := sel_sum s b c ib P (code_prod s w1 w2)) in *. set (y := sel_sum s b c ib P (true_prod s w1 w2)) in *. assert (N : (fofZ 2 : F) <> 0) by (apply fofZ_neq0; lia).
  replace x with ((x + x) / fofZ 2) by (cbn in *; field; exact N). rewrite E. cbn in *. field. exact N.
Qed.
End M.
End LMean.
