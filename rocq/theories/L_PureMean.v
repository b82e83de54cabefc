(** Lemmas: how the coefficients of masked and purified maps respond to those of the maps, and the mean of their products. *)
From Verif Require Import Base M_Utils M_Bins M_FlatBins M_LinAlg M_Workspace M_Flat M_WspFlat M_Syn M_FieldFlat P_FlatBins L_LinAlg L_Flat L_Flat2 L_Flat3 P_Flat L_FITS L_MCM L_MCM2 L_WspFlat L_WspFlat2 L_FlatMean L_FlatMeanSpin L_Conv L_Pure L_Pure2 L_Pure3.
From Coq Require Import Permutation.
Open Scope nat_scope.

Lemma diff_diff n a b : a < n -> b < n -> diff n a (diff n a b) = b.
Proof. intros Ha Hb. unfold diff. destruct (Nat.leb_spec b a) as [L|L]; [destruct (Nat.leb_spec (a - b) a); lia | destruct (Nat.leb_spec (a + n - b) a); lia]. Qed.

Section LPureMean.
Context {F : ofield}.
Local Open Scope F_scope.
Add Field FfLPM : (fth F).
Notation mat := (list (list F)).
Notation cplx := (cplx F).
Notation fsinfo := (fsinfo F).

Definition cprod (x y : cplx) : cplx := cmul x (conjc y).
Lemma prod_cdot x y : fst (cprod x y) = cdot x y. Proof. unfold cprod, cdot, cmul, conjc. cbn [fst snd]. ring. Qed.
Lemma prod_imc x y : snd (cprod x y) = imc x y. Proof. unfold cprod, imc, cmul, conjc. cbn [fst snd]. ring. Qed.
(** weighted sum over realisations *)
Definition cmean (K : nat) (pr : nat -> F) (X : nat -> cplx) : cplx := csum K (fun k => cscal (pr k) (X k)).
Lemma cmean_clsum {A} K pr (l : list A) (X : nat -> A -> cplx) : cmean K pr (fun k => clsum l (X k)) = clsum l (fun a => cmean K pr (fun k => X k a)).
Proof. unfold cmean, csum, clsum, cscal. cbn [fst snd]. f_equal; rewrite lsum_swap; apply sum_ext; intros k _; rewrite lsum_mul_l; reflexivity. Qed.
Lemma sum_sub' n (f g : nat -> F) : sum n (fun i => f i - g i) = sum n f - sum n g.
Proof. induction n as [|n IH]; cbn; [ring|]. rewrite IH. ring. Qed.
Lemma cmean_mul K pr c (X : nat -> cplx) : cmean K pr (fun k => cmul c (X k)) = cmul c (cmean K pr X).
Proof.
  unfold cmean, csum, cmul, cscal. cbn [fst snd]. f_equal.
  - rewrite (sum_ext _ _ (fun k => fst c * (pr k * fst (X k)) - snd c * (pr k * snd (X k)))) by (intros; ring). rewrite sum_sub', !sum_mul_l. reflexivity.
  - rewrite (sum_ext _ _ (fun k => fst c * (pr k * snd (X k)) + snd c * (pr k * fst (X k)))) by (intros; ring). rewrite sum_add, !sum_mul_l. reflexivity.
Qed.
Lemma cmean_scal K pr c (X : nat -> cplx) : cmean K pr (fun k => cscal c (X k)) = cscal c (cmean K pr X).
Proof. unfold cmean, csum, cscal. cbn [fst snd]. rewrite <- !sum_mul_l. f_equal; apply sum_ext; intros; ring. Qed.
Lemma cmean_ext K pr (X Y : nat -> cplx) : (forall k, (k < K)%nat -> X k = Y k) -> cmean K pr X = cmean K pr Y.
Proof. intro H. apply csum_ext. intros k Hk. rewrite H by exact Hk. reflexivity. Qed.
Lemma cmean_csum K pr n (X : nat -> nat -> cplx) : cmean K pr (fun k => csum n (X k)) = csum n (fun a => cmean K pr (fun k => X k a)).
Proof. unfold cmean, csum, cscal. cbn [fst snd]. f_equal; rewrite sum_swap; apply sum_ext; intros k _; rewrite sum_mul_l; reflexivity. Qed.
Lemma csum_mul n c (X : nat -> cplx) : csum n (fun k => cmul c (X k)) = cmul c (csum n X).
Proof.
  unfold csum, cmul. cbn [fst snd]. f_equal; [rewrite sum_sub', !sum_mul_l; reflexivity | rewrite sum_add, !sum_mul_l; reflexivity].
Qed.
Lemma csum_scal n c (X : nat -> cplx) : csum n (fun k => cscal c (X k)) = cscal c (csum n X).
Proof. unfold csum, cscal. cbn [fst snd]. rewrite !sum_mul_l. reflexivity. Qed.
Lemma csum_swap n m (f : nat -> nat -> cplx) : csum n (fun i => csum m (f i)) = csum m (fun j => csum n (fun i => f i j)).
Proof. unfold csum. cbn [fst snd]. f_equal; apply sum_swap. Qed.
Lemma csum_clsum {A} n (l : list A) (f : nat -> A -> cplx) : csum n (fun i => clsum l (f i)) = clsum l (fun a => csum n (fun i => f i a)).
Proof. unfold csum, clsum. cbn [fst snd]. f_equal; rewrite lsum_swap; reflexivity. Qed.
Lemma conj_csum n (f : nat -> cplx) : conjc (csum n f) = csum n (fun i => conjc (f i)).
Proof. unfold conjc, csum. cbn [fst snd]. f_equal. replace (- sum n (fun i => snd (f i))) with ((- (1)) * sum n (fun i => snd (f i))) by ring. rewrite <- sum_mul_l. apply sum_ext. intros; ring. Qed.
Lemma conj_clsum {A} (l : list A) (f : A -> cplx) : conjc (clsum l f) = clsum l (fun a => conjc (f a)).
Proof. unfold conjc, clsum. cbn [fst snd]. f_equal. replace (- lsum (map (fun a => snd (f a)) l)) with ((- (1)) * lsum (map (fun a => snd (f a)) l)) by ring. rewrite <- lsum_mul_l. apply lsum_ext. intros; ring. Qed.
Lemma prod_csum n n' (f g : nat -> cplx) : cprod (csum n f) (csum n' g) = csum n (fun i => csum n' (fun j => cprod (f i) (g j))).
Proof.
  unfold cprod. rewrite conj_csum. symmetry. rewrite (csum_ext n _ (fun i => cmul (csum n' (fun j => conjc (g j))) (f i))).
  - rewrite csum_mul. apply cmul_comm.
  - intros i _. rewrite csum_mul. apply cmul_comm.
Qed.
Lemma prod_clsum {A B} (l : list A) (l' : list B) (f : A -> cplx) (g : B -> cplx) : cprod (clsum l f) (clsum l' g) = clsum l (fun i => clsum l' (fun j => cprod (f i) (g j))).
Proof.
  unfold cprod. rewrite conj_clsum. symmetry. rewrite (clsum_ext l _ (fun i => cmul (clsum l' (fun j => conjc (g j))) (f i))).
  - rewrite clsum_mul_l. apply cmul_comm.
  - intros i _. rewrite clsum_mul_l. apply cmul_comm.
Qed.

(** sums over the plane may be indexed by the mode of the map or by that of the mask *)
Lemma in_diff' (s : fsinfo) l q : In l (grid s) -> In q (grid s) -> In (diff_mode s l q) (grid s). Proof. apply in_diff. Qed.
Lemma diff_mode_inv (s : fsinfo) l q : In l (grid s) -> In q (grid s) -> diff_mode s l (diff_mode s l q) = q.
Proof. rewrite !in_grid. intros [A1 A2] [B1 B2]. unfold diff_mode. cbn [fst snd]. rewrite !diff_diff by assumption. destruct q; reflexivity. Qed.
Lemma grid_NoDup (s : fsinfo) : NoDup (grid s).
Proof.
  unfold grid. assert (G : forall ys : list nat, NoDup ys -> NoDup (flat_map (fun iy => map (fun ix => (ix, iy)) (seq 0 (fs_nx s))) ys)).
  { induction ys as [|y ys IH]; intro H; [constructor|]. inversion H as [|? ? N1 N2]. cbn [flat_map]. apply NoDup_app_intro.
    - apply FinFun.Injective_map_NoDup; [intros a b E; congruence | apply seq_NoDup].
    - apply IH. exact N2.
    - intros p I1 I2. apply in_map_iff in I1. destruct I1 as [u1 [E1 _]]. apply in_flat_map in I2. destruct I2 as [v [I3 I4]]. apply in_map_iff in I4. destruct I4 as [u2 [E2 _]]. congruence. }
  apply G. apply seq_NoDup.
Qed.
Lemma diff_perm (s : fsinfo) l : In l (grid s) -> Permutation (map (diff_mode s l) (grid s)) (grid s).
Proof.
  intro Hl. apply NoDup_Permutation.
  - assert (G : forall g, NoDup g -> (forall x, In x g -> In x (grid s)) -> NoDup (map (diff_mode s l) g)).
    { induction g as [|x g IH]; intros N I; [constructor|]. inversion N as [|? ? N1 N2]. cbn [map]. constructor.
      - intro W. apply in_map_iff in W. destruct W as [y [E Iy]]. apply N1. rewrite <- (diff_mode_inv s l x Hl (I x (or_introl eq_refl))), <- E, (diff_mode_inv s l y Hl (I y (or_intror Iy))). exact Iy.
      - apply IH; [exact N2 | intros y Iy; apply I; right; exact Iy]. }
    apply G; [apply grid_NoDup | auto].
  - apply grid_NoDup.
  - intro x. split; intro H.
    + apply in_map_iff in H. destruct H as [y [<- Iy]]. apply in_diff; assumption.
    + apply in_map_iff. exists (diff_mode s l x). split; [apply diff_mode_inv; assumption | apply in_diff; assumption].
Qed.
Lemma clsum_diff (s : fsinfo) l (f : nat * nat -> nat * nat -> cplx) : In l (grid s) -> clsum (grid s) (fun q => f q (diff_mode s l q)) = clsum (grid s) (fun m2 => f (diff_mode s l m2) m2).
Proof.
  intro Hl. assert (G : forall g : nat * nat -> F, lsum (map g (grid s)) = lsum (map (fun m2 => g (diff_mode s l m2)) (grid s))).
  { intro g. rewrite <- (map_map (diff_mode s l) g). apply lsum_perm. apply Permutation_map. symmetry. apply diff_perm. exact Hl. }
  unfold clsum. rewrite (G (fun q => fst (f q (diff_mode s l q)))), (G (fun q => snd (f q (diff_mode s l q)))). f_equal; apply lsum_ext; intros m2 H2; rewrite diff_mode_inv by assumption; reflexivity.
Qed.

(** ** Rotations *)
Lemma rotn_unit n (c sn : F) : c * c + sn * sn = 1 -> fst (rotn n c sn) * fst (rotn n c sn) + snd (rotn n c sn) * snd (rotn n c sn) = 1.
Proof.
  intro H. induction n as [|n IH]; [cbn; ring|]. cbn [rotn]. destruct (rotn n c sn) as [x y]. cbn [fst snd] in *.
  transitivity ((x * x + y * y) * (c * c + sn * sn)); [ring | rewrite IH, H; ring].
Qed.
Lemma amp_cols spin (r : F * F) c d : fst r * fst r + snd r * snd r = 1 -> (c < n_maps spin)%nat -> (d < n_maps spin)%nat -> sum (n_maps spin) (fun x => amp spin r c x * amp spin r d x) = if Nat.eqb c d then 1 else 0.
Proof.
  intros H Hc Hd. unfold n_maps, amp in *. destruct (spin =? 0)%Z.
  - assert (c = 0)%nat as -> by lia. assert (d = 0)%nat as -> by lia. cbn. ring.
  - cbn [sum]. destruct c as [|[|c]], d as [|[|d]]; try lia; cbn [Nat.eqb]; try ring; rewrite <- H; ring.
Qed.
Lemma amp_rows spin (r : F * F) x y : fst r * fst r + snd r * snd r = 1 -> (x < n_maps spin)%nat -> (y < n_maps spin)%nat -> sum (n_maps spin) (fun c => amp spin r c x * amp spin r c y) = if Nat.eqb x y then 1 else 0.
Proof.
  intros H Hc Hd. unfold n_maps, amp in *. destruct (spin =? 0)%Z.
  - assert (x = 0)%nat as -> by lia. assert (y = 0)%nat as -> by lia. cbn. ring.
  - cbn [sum]. destruct x as [|[|x]], y as [|[|y]]; try lia; cbn [Nat.eqb]; try ring; rewrite <- H; ring.
Qed.

Section P.
Variables (pi : F) (fsqrt : F -> F) (ph : nat -> nat -> cplx) (s : fsinfo).
Notation coeff := (coeff pi ph s).
Notation wave := (wave ph s).
Notation full_alm := (full_alm pi fsqrt ph s).
Notation rot := (rot pi fsqrt s).
Notation dm := (dm pi fsqrt s).
Notation kmod_of := (kmod_of pi fsqrt s).
Notation npx := (fs_nx s * fs_ny s)%nat.
Hypothesis (HSQ : real_sqrt fsqrt) (Hpi : pi <> 0) (Hx : 0 < fs_lx s) (Hy : 0 < fs_ly s) (HR : conj_roots ph s) (HH : hom_roots ph s) (HF : full_roots ph s) (Hnx : (0 < fs_nx s)%nat) (Hny : (0 < fs_ny s)%nat).
Lemma rot_unit spin m : fst (rot spin m) * fst (rot spin m) + snd (rot spin m) * snd (rot spin m) = 1.
Proof.
  clear - HSQ. unfold L_FlatMeanSpin.rot, rot_at. set (kx := kxf pi s (fst m)). set (ky := kyf pi s (snd m)).
  assert (U : fst (cphi fsqrt kx ky) * fst (cphi fsqrt kx ky) + snd (cphi fsqrt kx ky) * snd (cphi fsqrt kx ky) = 1).
  { unfold cphi. cbv zeta. destruct (kx * kx + ky * ky <=? 0) eqn:E; cbn [fst snd]; [ring|]. destruct (HSQ (kx * kx + ky * ky)) as [S1 S2]; [apply fadd_nonneg; apply fsqr_nonneg|]. set (k := fsqrt _) in *.
    assert (N : k <> 0). { intro W. rewrite W in S2. assert (Z : kx * kx + ky * ky = 0) by (rewrite <- S2; ring). rewrite Z in E. pose proof (fle_refl (0 : F)) as R. unfold fle in R. congruence. }
    transitivity ((kx * kx + ky * ky) / (k * k)); [field; exact N | rewrite <- S2; field; exact N]. }
  destruct (cphi fsqrt kx ky) as [c sn]. cbn [fst snd] in *. apply rotn_unit. exact U.
Qed.
Lemma dm_same spin m c d : (c < n_maps spin)%nat -> (d < n_maps spin)%nat -> dm spin m m c d = if Nat.eqb c d then 1 else 0.
Proof. intros Hc Hd. unfold L_FlatMeanSpin.dm, dmat. apply amp_cols; try assumption. apply rot_unit. Qed.
Lemma full_sum spin (q : mat) a m : full_alm spin q a m = cmul (sig spin spin) (csum (n_maps spin) (fun x => cscal (amp spin (rot spin m) a x) (coeff (nth x q []) m))).
Proof.
  clear. unfold L_FlatMeanSpin.full_alm, n_maps. destruct (Z.eqb_spec spin 0) as [->|N].
  - apply cplx_eq; cbn; ring.
  - unfold full_eb. rewrite eb_amp by exact N. fold (rot spin m). unfold csum. cbn [sum fst snd]. destruct a as [|a]; cbn [Nat.eqb]; apply cplx_eq; unfold cmul, cadd, cscal; cbn [fst snd]; unfold amp; rewrite (proj2 (Z.eqb_neq spin 0) N); ring.
Qed.
(** components of the maps along a direction, from the E and B coefficients of another one *)
Lemma rotate spin (q : mat) a l m : csum (n_maps spin) (fun x => cscal (amp spin (rot spin l) a x) (coeff (nth x q []) m)) =
  csum (n_maps spin) (fun c => cscal (dm spin l m a c) (csum (n_maps spin) (fun x => cscal (amp spin (rot spin m) c x) (coeff (nth x q []) m)))).
Proof.
  clear - HSQ. symmetry. set (n := n_maps spin). set (z := fun x => coeff (nth x q []) m). change (csum n (fun c => cscal (dm spin l m a c) (csum n (fun x => cscal (amp spin (rot spin m) c x) (z x)))) = csum n (fun x => cscal (amp spin (rot spin l) a x) (z x))).
  rewrite (csum_ext n _ (fun c => csum n (fun x => cscal (dm spin l m a c * amp spin (rot spin m) c x) (z x)))) by (intros c _; rewrite <- csum_scal; apply csum_ext; intros x _; apply cplx_eq; cbn; ring).
  rewrite csum_swap. apply csum_ext. intros x Hx. transitivity (cscal (sum n (fun c => dm spin l m a c * amp spin (rot spin m) c x)) (z x)); [unfold csum, cscal; cbn [fst snd]; rewrite <- !sum_mul_r; reflexivity|]. f_equal.
  unfold L_FlatMeanSpin.dm, dmat. fold n. rewrite (sum_ext _ _ (fun c => sum n (fun y => amp spin (rot spin l) a y * (amp spin (rot spin m) c y * amp spin (rot spin m) c x)))) by (intros c _; rewrite <- sum_mul_r; apply sum_ext; intros; ring).
  rewrite sum_swap. rewrite (sum_ext _ _ (fun y => amp spin (rot spin l) a y * (if Nat.eqb y x then 1 else 0))).
  - rewrite (sum_single n x _ Hx); [rewrite Nat.eqb_refl; ring|]. intros i Hi Ni. destruct (Nat.eqb_spec i x); [contradiction | ring].
  - intros y Hy. rewrite sum_mul_l. f_equal. apply amp_rows; try assumption. apply rot_unit.
Qed.
Lemma area_neq0 : area pi s <> 0.
Proof.
  clear - Hpi Hx Hy. unfold area. pose proof (fpos_neq _ Hx) as Nx. pose proof (fpos_neq _ Hy) as Ny. assert (N3 : (fofZ 2 : F) <> 0) by (apply fofZ_neq0; lia). intro E. assert (X : fs_lx s * fs_ly s = 0) by (transitivity (fs_lx s * fs_ly s / (fofZ 2 * pi) * (fofZ 2 * pi)); [field; auto | rewrite E; ring]). apply fmul_eq_0 in X. tauto.
Qed.
(** masked maps: the coefficients at l are those of the maps at all m2, weighted with the mask at l-m2 and rotated *)
Lemma coeff_masked (w t : list F) l : length t = npx -> In l (grid s) -> coeff (times_mask w t) l = tot pi s (fun m2 => cmul (coeff w (diff_mode s l m2)) (coeff t m2)).
Proof.
  intros Lt Hl. pose proof (fpos_neq _ Hx) as Nx. pose proof (fpos_neq _ Hy) as Ny. rewrite (coeff_product pi ph s w t (times_mask w t) (coeff w) l HH Hpi Nx Ny (coeff_modes pi ph s w HR HH HF Hpi)); [|intros p Hp|exact Hl].
  - unfold tot. rewrite (clsum_diff s l (fun q m2 => cmul (coeff w q) (coeff t m2)) Hl). reflexivity.
  - apply in_grid in Hp. unfold pix, times_mask. rewrite nth_tab by (rewrite Lt; nia). ring.
Qed.
Lemma tot_csum n (f : nat -> nat * nat -> cplx) : csum n (fun i => tot pi s (f i)) = tot pi s (fun m => csum n (fun i => f i m)).
Proof. clear. unfold tot. rewrite csum_scal, csum_clsum. reflexivity. Qed.
Lemma masked_response spin w (q : mat) a l : rect (n_maps spin) npx q -> In l (grid s) ->
  full_alm spin (map (times_mask w) q) a l = tot pi s (fun m2 => cmul (coeff w (diff_mode s l m2)) (csum (n_maps spin) (fun c => cscal (dm spin l m2 a c) (full_alm spin q c m2)))).
Proof.
  intros [Lq Rq] Hl. rewrite full_sum. set (n := n_maps spin) in *.
  rewrite (csum_ext n _ (fun x => tot pi s (fun m2 => cmul (coeff w (diff_mode s l m2)) (cscal (amp spin (rot spin l) a x) (coeff (nth x q []) m2))))).
  - rewrite tot_csum, tot_mul. apply tot_ext. intros m2 H2. rewrite csum_mul.
    pose proof (rotate spin q a l m2) as RT. fold n in RT. rewrite RT. transitivity (cmul (coeff w (diff_mode s l m2)) (cmul (sig spin spin) (csum n (fun c => cscal (dm spin l m2 a c) (csum n (fun x => cscal (amp spin (rot spin m2) c x) (coeff (nth x q []) m2))))))); [apply cplx_eq; cbn [cmul fst snd]; ring|].
    f_equal. rewrite <- csum_mul. apply csum_ext. intros c _. rewrite full_sum. fold n. apply cplx_eq; cbn [cmul cscal fst snd]; ring.
  - intros x Hx'. rewrite (nth_indep _ [] (times_mask w [])) by (rewrite map_length; lia). rewrite map_nth. rewrite (coeff_masked w (nth x q []) l); [|apply Rq; apply nth_In; lia|exact Hl].
    rewrite tot_scal. apply tot_ext. intros m2 _. apply cplx_eq; cbn [cmul cscal fst snd]; ring.
Qed.
(** ** Purified maps *)
Section Pure.
Notation kpx := (kpx pi s). Notation kpy := (kpy pi s). Notation kp := (kp pi fsqrt s). Notation kp2 := (kp2 pi s).
Notation dcos := (dcos pi fsqrt s). Notation dsin := (dsin pi fsqrt s).
Hypothesis HP : fs_lx s / fofnat (fs_nx s) = fs_ly s / fofnat (fs_ny s).
Lemma kratio_kp m m2 : In m (grid s) -> m <> (0, 0)%nat -> kratio pi fsqrt s m m2 = kp2 m2 / kp2 m.
Proof.
  intros Hm NZ. pose proof (n_neq0 _ Hnx : (fofnat (fs_nx s) : F) <> 0) as N1. pose proof (n_neq0 _ Hny : (fofnat (fs_ny s) : F) <> 0) as N2. pose proof (fpos_neq _ Hx) as Nx. pose proof (fpos_neq _ Hy) as Ny.
  set (d := fs_lx s / fofnat (fs_nx s)) in *. assert (Ex : fs_lx s = d * fofnat (fs_nx s)) by (unfold d; field; exact N1). assert (Ey : fs_ly s = d * fofnat (fs_ny s)) by (rewrite HP; field; exact N2).
  assert (Nd : d <> 0) by (intro W; apply Nx; rewrite Ex, W; ring).
  assert (KK : forall p, kmodf pi fsqrt s (fst p) (snd p) * kmodf pi fsqrt s (fst p) (snd p) = kp2 p / (d * d)).
  { intro p. unfold kmodf. destruct (HSQ (kxf pi s (fst p) * kxf pi s (fst p) + kyf pi s (snd p) * kyf pi s (snd p))) as [_ ->]; [apply fadd_nonneg; apply fsqr_nonneg|].
    assert (K1 : kxf pi s (fst p) = kpx p / d) by (unfold kxf, dkx, L_Pure.kpx; rewrite Ex; field; auto). assert (K2 : kyf pi s (snd p) = kpy p / d) by (unfold kyf, dky, L_Pure.kpy; rewrite Ey; field; auto).
    rewrite K1, K2. unfold L_Pure.kp2. field. exact Nd. }
  pose proof (kp2_pos pi s Hpi Hnx Hny m Hm NZ) as KP. pose proof (fpos_neq _ KP) as NK.
  unfold kratio. assert (EO : is_origin m = false). { unfold is_origin. destruct m as [x y]. cbn [fst snd]. destruct (Nat.eqb_spec x 0) as [->|]; [|reflexivity]. destruct (Nat.eqb_spec y 0) as [->|]; [exfalso; apply NZ; reflexivity | reflexivity]. }
  rewrite EO. cbn [andb]. cbv zeta. set (k1 := kmodf pi fsqrt s (fst m) (snd m)). set (k2 := kmodf pi fsqrt s (fst m2) (snd m2)).
  assert (E1 : k1 * k1 = kp2 m / (d * d)) by apply KK. assert (E2 : k2 * k2 = kp2 m2 / (d * d)) by apply KK. assert (N : k1 <> 0). { intro W. apply NK. transitivity (k1 * k1 * (d * d)); [rewrite E1; field; exact Nd | rewrite W; ring]. }
  transitivity (k2 * k2 / (k1 * k1)); [field; exact N|]. rewrite E1, E2. field. auto.
Qed.
Lemma dir_rot m : rot 2 m = (dcos m * dcos m - dsin m * dsin m, fofZ 2 * (dcos m * dsin m)).
Proof.
  clear. unfold L_FlatMeanSpin.rot, rot_at. change (cphi fsqrt (kxf pi s (fst m)) (kyf pi s (snd m))) with (dir pi fsqrt s m). unfold L_Pure.dcos, L_Pure.dsin. destruct (dir pi fsqrt s m) as [c sn]. change (Z.to_nat 2) with 2%nat. cbn [rotn fst snd]. change (fofZ 2 : F) with ((1 : F) + 1). f_equal; ring.
Qed.
Lemma full2 (q u : list F) p : full_alm 2 [q; u] 0 p = csub (cscal (fst (rot 2 p)) (coeff q p)) (cscal (snd (rot 2 p)) (coeff u p)) /\ full_alm 2 [q; u] 1 p = cadd (cscal (snd (rot 2 p)) (coeff q p)) (cscal (fst (rot 2 p)) (coeff u p)).
Proof. clear. rewrite !full_sum. unfold n_maps. change (2 =? 0)%Z with false. cbv iota. unfold csum, amp. change (2 =? 0)%Z with false. cbv iota. cbn [sum nth fst snd]. change (sig 2 2 : cplx) with ((- (1) * - (1), - (1) * 0) : cplx). split; apply cplx_eq; cbn [cmul cscal cadd csub fst snd]; ring. Qed.
Lemma full2_eq (q u : list F) p : In p (grid s) -> cscal (kp2 p) (full_alm 2 [q; u] 0 p) = eq_e pi s (coeff q) (coeff u) p /\ cscal (kp2 p) (full_alm 2 [q; u] 1 p) = eq_b pi s (coeff q) (coeff u) p.
Proof.
  intro Hp. destruct (full2 q u p) as [-> ->]. rewrite dir_rot. cbn [fst snd]. destruct (dir_square pi fsqrt s HSQ Hx Hy Hnx Hny HP p Hp) as [D1 D2]. unfold eq_e, eq_b. rewrite <- D1, <- D2, <- (kp_sq pi fsqrt s HSQ p). split; apply cplx_eq; cbn [cmul cscal cadd csub fst snd]; ring.
Qed.
(** response of the coefficients of a field that may have been purified *)
Definition resp (spin : Z) (pe pb : bool) (m m2 : nat * nat) (a c : nat) : F :=
  if (if Nat.eqb a 0 then pe else pb) then (if Nat.eqb a c then kratio pi fsqrt s m m2 else 0) else dm spin m m2 a c.
Section Fields.
Variables (mask q u : list F) (bx by_ cx cy : Z).
Hypothesis (P1 : (0 <= bx)%Z) (P2 : (0 <= cx)%Z) (P3 : (0 <= by_)%Z) (P4 : (0 <= cy)%Z) (L1 : (2 * (bx + cx) < Z.of_nat (fs_nx s))%Z) (L2 : (2 * (by_ + cy) < Z.of_nat (fs_ny s))%Z).
Hypothesis (BM : band_limited pi ph s cx cy mask) (BQ : band_limited pi ph s bx by_ q) (BU : band_limited pi ph s bx by_ u).
Definition answer (pe pb : bool) (a : nat) (l : nat * nat) : cplx :=
  tot pi s (fun m2 => cmul (coeff mask (diff_mode s l m2)) (csum 2 (fun c => cscal (resp 2 pe pb l m2 a c) (full_alm 2 [q; u] c m2)))).
Lemma pure_QU l q' : In l (grid s) -> In q' (grid s) -> coeff mask q' = c0 \/ (coeff q (diff_mode s l q') = c0 /\ coeff u (diff_mode s l q') = c0) \/ (kpx l - kpx q' = kpx (diff_mode s l q') /\ kpy l - kpy q' = kpy (diff_mode s l q')).
Proof.
  intros Hl Hq. assert (BL : forall bx by_ t m, band_limited pi ph s bx by_ t -> In m (grid s) -> coeff t m = c0 \/ (Z.abs (freq (fs_nx s) (fst m)) <= bx /\ Z.abs (freq (fs_ny s) (snd m)) <= by_)%Z).
  { clear. intros bx by_ t m B Hm. destruct (Z_lt_le_dec bx (Z.abs (freq (fs_nx s) (fst m)))); [left; apply B; tauto|]. destruct (Z_lt_le_dec by_ (Z.abs (freq (fs_ny s) (snd m)))); [left; apply B; tauto | right; tauto]. }
  pose proof (in_diff s l q' Hl Hq) as Hp. destruct (BL cx cy mask q' BM Hq) as [Z|[C1 C2]]; [left; exact Z | right].
  destruct (BL bx by_ q _ BQ Hp) as [Z1|[D1 D2]]; [destruct (BL bx by_ u _ BU Hp) as [Z2|[D1 D2]]; [left; tauto|]|]; right; apply (diff_k pi s bx by_ cx cy); assumption.
Qed.
Lemma csum2 (f : nat -> cplx) : csum 2 f = cadd (f 0%nat) (f 1%nat).
Proof. clear. unfold csum, cadd. cbn [sum]. f_equal; ring. Qed.
Lemma pure_half pe pb : exists e b maps, purify_flat pi fsqrt ph s (pe, pb) mask (map2alm0 pi ph s mask) [q; u] = Ok ([e; b], maps) /\ length e = (fs_ny s * nhalf s)%nat /\ length b = (fs_ny s * nhalf s)%nat /\
  forall ix iy, (ix < nhalf s)%nat -> (iy < fs_ny s)%nat -> (ix, iy) <> (0, 0)%nat ->
    nth (ix + nhalf s * iy) e c0 = answer pe pb 0 (ix, iy) /\ nth (ix + nhalf s * iy) b c0 = answer pe pb 1 (ix, iy).
Proof.
  pose proof (fpos_neq _ Hx) as Nx. pose proof (fpos_neq _ Hy) as Ny.
  assert (HW : forall m, In m (grid s) -> L_Pure.edge s m -> coeff mask m = c0) by (intros m Hm E; apply (limited_edge pi ph s Hnx Hny cx cy mask m); try assumption; lia).
  destruct (purify_spec pi fsqrt ph s HSQ Hpi Nx Ny HR HH HF Hnx Hny mask HW (pe, pb) q u) as [e [b [maps [E [Le [Lb SP]]]]]]. exists e, b, maps. split; [exact E|]. split; [exact Le|]. split; [exact Lb|].
  intros ix iy Ix Iy NZ. destruct (SP ix iy Ix Iy NZ) as [SE SB]. cbn [fst snd] in SE, SB. clear SP. set (l := (ix, iy)) in *.
  assert (Hl : In l (grid s)) by (apply in_grid; cbn; split; [apply (half_lt s Hnx Hny); exact Ix | exact Iy]). pose proof (kp_pos pi fsqrt s HSQ Hpi Hnx Hny l Hl NZ) as KP. pose proof (fpos_neq _ KP) as NK.
  pose proof (kp2_pos pi s Hpi Hnx Hny l Hl NZ) as KP2. pose proof (fpos_neq _ KP2) as NK2. pose proof (kp_sq pi fsqrt s HSQ l) as KS.
  assert (RO : forall a p, csum 2 (fun c => cscal (dm 2 l p a c) (full_alm 2 [q; u] c p)) = csum 2 (fun x => cscal (amp 2 (rot 2 l) a x) (coeff (nth x [q; u] []) p))).
  { intros a p. pose proof (rotate 2 [q; u] a l p) as RT. change (n_maps 2) with 2%nat in RT. rewrite RT. apply csum_ext. intros c _. f_equal. rewrite full_sum. change (n_maps 2) with 2%nat. change (sig 2 2 : cplx) with ((- (1) * - (1), - (1) * 0) : cplx). apply cplx_eq; cbn [cmul fst snd]; ring. }
  unfold answer, resp. change (Nat.eqb 0 0) with true. change (Nat.eqb 1 0) with false. cbv iota. split.
  - rewrite SE. unfold conv, tot. f_equal. rewrite <- (clsum_diff s l (fun q' m2 => cmul (coeff mask q') (csum 2 (fun c => cscal (if pe then if Nat.eqb 0 c then kratio pi fsqrt s l m2 else 0 else dm 2 l m2 0 c) (full_alm 2 [q; u] c m2)))) Hl).
    apply clsum_ext. intros q' Hq. cbv zeta. pose proof (in_diff s l q' Hl Hq) as Hp. destruct pe.
    + rewrite csum2. cbn [Nat.eqb]. rewrite (kratio_kp l _ Hl NZ). destruct (full2_eq q u _ Hp) as [F0 _]. destruct (pure_QU l q' Hl Hq) as [Z|[[Z1 Z2]|[K1 K2]]].
      * rewrite Z. unfold c0. apply cplx_eq; cbn; ring.
      * unfold eq_e in F0. rewrite Z1, Z2 in *. destruct (full2 q u (diff_mode s l q')) as [G0 _]. rewrite G0, Z1, Z2. unfold c0. apply cplx_eq; cbn; ring.
      * f_equal. rewrite (alpha_square pi fsqrt s HSQ Hx Hy Hnx Hny HP l q' Hl Hq NK), (beta_square pi fsqrt s HSQ Hx Hy Hnx Hny HP l q' Hl Hq NK), K1, K2.
        transitivity (cscal (1 / kp2 l) (cscal (kp2 (diff_mode s l q')) (full_alm 2 [q; u] 0 (diff_mode s l q')))); [|apply cplx_eq; cbn [cscal cadd fst snd]; field; exact NK2].
        rewrite F0. unfold eq_e. rewrite <- KS. apply cplx_eq; cbn [cscal csub fst snd]; field; exact NK.
    + f_equal. rewrite RO, csum2. cbn [nth]. rewrite dir_rot. unfold amp. change (2 =? 0)%Z with false. cbv iota. cbn [fst snd]. apply cplx_eq; cbn [cscal csub cadd fst snd]; ring.
  - rewrite SB. unfold conv, tot. f_equal. rewrite <- (clsum_diff s l (fun q' m2 => cmul (coeff mask q') (csum 2 (fun c => cscal (if pb then if Nat.eqb 1 c then kratio pi fsqrt s l m2 else 0 else dm 2 l m2 1 c) (full_alm 2 [q; u] c m2)))) Hl).
    apply clsum_ext. intros q' Hq. cbv zeta. pose proof (in_diff s l q' Hl Hq) as Hp. destruct pb.
    + rewrite csum2. cbn [Nat.eqb]. rewrite (kratio_kp l _ Hl NZ). destruct (full2_eq q u _ Hp) as [_ F0]. destruct (pure_QU l q' Hl Hq) as [Z|[[Z1 Z2]|[K1 K2]]].
      * rewrite Z. unfold c0. apply cplx_eq; cbn; ring.
      * destruct (full2 q u (diff_mode s l q')) as [_ G0]. rewrite G0, Z1, Z2. unfold c0. apply cplx_eq; cbn; ring.
      * f_equal. rewrite (alpha_square pi fsqrt s HSQ Hx Hy Hnx Hny HP l q' Hl Hq NK), (beta_square pi fsqrt s HSQ Hx Hy Hnx Hny HP l q' Hl Hq NK), K1, K2.
        transitivity (cscal (1 / kp2 l) (cscal (kp2 (diff_mode s l q')) (full_alm 2 [q; u] 1 (diff_mode s l q')))); [|apply cplx_eq; cbn [cscal cadd fst snd]; field; exact NK2].
        rewrite F0. unfold eq_b. rewrite <- KS. apply cplx_eq; cbn [cscal cadd fst snd]; field; exact NK.
    + f_equal. rewrite RO, csum2. cbn [nth]. rewrite dir_rot. unfold amp. change (2 =? 0)%Z with false. cbv iota. cbn [fst snd]. apply cplx_eq; cbn [cscal csub cadd fst snd]; ring.
Qed.
Lemma clsum_flip (f : nat * nat -> cplx) : clsum (grid s) (fun m => f (flip s m)) = clsum (grid s) f.
Proof. clear. unfold clsum. rewrite (lsum_flip s (fun m => fst (f m))), (lsum_flip s (fun m => snd (f m))). reflexivity. Qed.
Lemma amp2_flip m a x : In m (grid s) -> ~ L_Pure.edge s m -> amp 2 (rot 2 (flip s m)) a x = amp 2 (rot 2 m) a x.
Proof. intros Hm NE. destruct (amp_flip_any pi fsqrt ph s 2 m ltac:(lia) Hm NE) as [o H]. rewrite (H 2%Z a x ltac:(lia)). unfold par. cbn [Z.even]. destruct o; ring. Qed.
Lemma full2_flip c m : In m (grid s) -> full_alm 2 [q; u] c (flip s m) = conjc (full_alm 2 [q; u] c m).
Proof.
  intro Hm. pose proof (in_flip s Hnx Hny m Hm) as Hf. rewrite !full_sum. change (n_maps 2) with 2%nat. rewrite !csum2. cbn [nth]. rewrite !(C_flip pi fsqrt ph s HR) by exact Hm. change (sig 2 2 : cplx) with ((- (1) * - (1), - (1) * 0) : cplx).
  destruct (L_Pure.edge_dec pi fsqrt s m) as [D|D].
  - rewrite (limited_edge pi ph s Hnx Hny bx by_ q m), (limited_edge pi ph s Hnx Hny bx by_ u m) by (try assumption; lia). unfold c0. apply cplx_eq; cbn; ring.
  - rewrite !(amp2_flip m c) by assumption. apply cplx_eq; cbn [cmul cscal cadd conjc fst snd]; ring.
Qed.
Lemma full2_edge c m : In m (grid s) -> L_Pure.edge s m -> full_alm 2 [q; u] c m = c0.
Proof.
  intros Hm D. rewrite full_sum. change (n_maps 2) with 2%nat. rewrite csum2. cbn [nth]. rewrite (limited_edge pi ph s Hnx Hny bx by_ q m), (limited_edge pi ph s Hnx Hny bx by_ u m) by (try assumption; lia). unfold c0. apply cplx_eq; cbn; ring.
Qed.
Lemma kratio_flip l m : In l (grid s) -> In m (grid s) -> kratio pi fsqrt s (flip s l) (flip s m) = kratio pi fsqrt s l m.
Proof.
  clear. intros Hl Hm. assert (O : forall p, In p (grid s) -> is_origin (flip s p) = is_origin p).
  { intros [x y] Hp. apply in_grid in Hp. unfold is_origin, flip. cbn [fst snd] in *. assert (G : forall n i, (i < n)%nat -> Nat.eqb (opp_row n i) 0 = Nat.eqb i 0). { intros n i Hi. unfold opp_row. destruct (Nat.eqb_spec i 0) as [->|N]; [rewrite Nat.sub_0_r, Nat.mod_same by lia; reflexivity|]. rewrite Nat.mod_small by lia. apply Nat.eqb_neq. lia. }
    rewrite !G by tauto. reflexivity. }
  pose proof (kmod_flip pi fsqrt s l Hl) as K1. pose proof (kmod_flip pi fsqrt s m Hm) as K2. unfold L_Flat2.kmod_of in K1, K2. unfold kratio. rewrite !O, K1, K2 by assumption. reflexivity.
Qed.
Lemma resp_flip pe pb l m a c : In l (grid s) -> In m (grid s) -> ~ L_Pure.edge s l -> ~ L_Pure.edge s m -> resp 2 pe pb (flip s l) (flip s m) a c = resp 2 pe pb l m a c.
Proof.
  intros Hl Hm El Em. unfold resp. rewrite kratio_flip by assumption. destruct (if Nat.eqb a 0 then pe else pb); [reflexivity|]. unfold L_FlatMeanSpin.dm, dmat. apply sum_ext. intros x _. rewrite !amp2_flip by assumption. reflexivity.
Qed.
Lemma answer_flip pe pb a l : In l (grid s) -> ~ L_Pure.edge s l -> answer pe pb a (flip s l) = conjc (answer pe pb a l).
Proof.
  intros Hl El. unfold answer, tot. transitivity (cscal (1 / area pi s) (conjc (clsum (grid s) (fun m2 => cmul (coeff mask (diff_mode s l m2)) (csum 2 (fun c => cscal (resp 2 pe pb l m2 a c) (full_alm 2 [q; u] c m2))))))).
  - f_equal. rewrite conj_clsum. rewrite <- clsum_flip. apply clsum_ext. intros m Hm. rewrite (diff_flip s l m Hl Hm). rewrite (C_flip pi fsqrt ph s HR mask) by (apply in_diff; assumption). rewrite conj_mul. f_equal. rewrite conj_csum. apply csum_ext. intros c _.
    rewrite full2_flip by exact Hm. destruct (L_Pure.edge_dec pi fsqrt s m) as [D|D].
    + rewrite full2_edge by assumption. unfold c0. apply cplx_eq; cbn; ring.
    + rewrite resp_flip by assumption. rewrite conj_scal. reflexivity.
  - apply cplx_eq; cbn [cscal conjc fst snd]; ring.
Qed.
Lemma pure_plane pe pb : exists e b maps, purify_flat pi fsqrt ph s (pe, pb) mask (map2alm0 pi ph s mask) [q; u] = Ok ([e; b], maps) /\ length e = (fs_ny s * nhalf s)%nat /\ length b = (fs_ny s * nhalf s)%nat /\
  forall a m, (a < 2)%nat -> In m (grid s) -> m <> (0, 0)%nat -> (2 * snd m)%nat <> fs_ny s -> plane s (nth a [e; b] []) m = answer pe pb a m.
Proof.
  destruct (pure_half pe pb) as [e [b [maps [E [Le [Lb H]]]]]]. exists e, b, maps. split; [exact E|]. split; [exact Le|]. split; [exact Lb|].
  intros a m Ha Hm NZ NE. pose proof Hm as Hm'. apply in_grid in Hm'. unfold plane. destruct (Nat.leb_spec (2 * fst m) (fs_nx s)) as [L|L].
  - destruct m as [x y]. cbn [fst snd] in *. destruct (H x y (half_bound s x L) ltac:(tauto) NZ) as [A B]. destruct a as [|[|a]]; [exact A | exact B | lia].
  - assert (El : ~ L_Pure.edge s m) by (unfold L_Pure.edge; lia). assert (Ef : flip s m = (fs_nx s - fst m, opp_row (fs_ny s) (snd m))%nat) by (unfold flip; rewrite opp_right by lia; reflexivity).
    destruct (H (fs_nx s - fst m)%nat (opp_row (fs_ny s) (snd m)) ltac:(apply half_bound; lia) ltac:(apply opp_row_lt; lia) ltac:(intro W; injection W as W1 W2; lia)) as [A B]. rewrite <- Ef in A, B.
    rewrite answer_flip in A, B by assumption. destruct a as [|[|a]]; [| |lia]; cbn [nth]; [rewrite A | rewrite B]; apply conj_conj.
Qed.
End Fields.
End Pure.
(** ** Mean of the products of coefficients *)
Lemma coeff_cov (K : nat) (pr : nat -> F) (t1 t2 : nat -> list F) (a : nat * nat -> F) (G : cplx) m m' : In m (grid s) -> In m' (grid s) ->
  (forall p p', In p (grid s) -> In p' (grid s) -> sum K (fun k => pr k * (pix s (t1 k) p * pix s (t2 k) p')) =
     1 / (fs_lx s * fs_ly s) * lsum (map (fun m2 => a m2 * cdot (cmul G (conjc (wave m2 p))) (conjc (wave m2 p'))) (grid s))) ->
  (forall p p', In p (grid s) -> In p' (grid s) -> lsum (map (fun m2 => a m2 * imc (cmul G (conjc (wave m2 p))) (conjc (wave m2 p'))) (grid s)) = 0) ->
  cmean K pr (fun k => cprod (coeff (t1 k) m) (coeff (t2 k) m')) = if pair_dec m m' then cscal (area pi s * area pi s / (fs_lx s * fs_ly s) * a m) G else c0.
Proof.
  intros Hm Hm' HC HO. set (N := norm_m2a pi s). set (A := 1 / (fs_lx s * fs_ly s)) in *. set (npx := (fofnat (fs_nx s) * fofnat (fs_ny s) : F)).
  assert (H1 : ph (fs_nx s) 0%nat = (1, 0) /\ ph (fs_ny s) 0%nat = (1, 0)).
  { clear - HF Hnx Hny. destruct HF as [H1 H2]. assert (G : forall n, (0 < n)%nat -> csum n (fun j => ph n ((j * 0) mod n)) = (fofnat n, 0) -> ph n 0%nat = (1, 0)).
    { clear. intros n Hn E. rewrite (csum_ext n _ (fun _ => ph n 0%nat)) in E by (intros j _; rewrite Nat.mul_0_r, Nat.mod_0_l by lia; reflexivity).
      assert (S : forall x : F, sum n (fun _ => x) = fofnat n * x). { clear. intro x. induction n as [|n IH]; [cbn; ring|]. cbn [sum]. rewrite IH. cbn [fofnat]. ring. }
      unfold csum in E. cbn [fst snd] in E. rewrite !S in E. pose proof (n_neq0 n Hn : (fofnat n : F) <> 0) as N. assert (A := f_equal fst E). assert (B := f_equal snd E). cbn [fst snd] in A, B.
      apply cplx_eq; cbn [fst snd]; [transitivity (fofnat n * fst (ph n 0%nat) / fofnat n); [field; exact N | rewrite A; field; exact N] | transitivity (fofnat n * snd (ph n 0%nat) / fofnat n); [field; exact N | rewrite B; field; exact N]]. }
    split; apply G; try assumption; [exact (H1 0%nat Hnx) | exact (H2 0%nat Hny)]. }
  pose proof (fpos_neq _ Hx) as Nx. pose proof (fpos_neq _ Hy) as Ny.
  assert (OR : forall l m3, In l (grid s) -> In m3 (grid s) -> clsum (grid s) (fun p => cprod (wave l p) (wave m3 p)) = if pair_dec l m3 then (npx, 0) else c0) by (intros l m3 Hl H3; apply (orthogonal pi fsqrt ph s HH HF); assumption).
  transitivity (clsum (grid s) (fun p => clsum (grid s) (fun p' => clsum (grid s) (fun m3 => cscal (N * N * A * a m3) (cmul G (cmul (cprod (wave m p) (wave m3 p)) (conjc (cprod (wave m' p') (wave m3 p'))))))))).
  - rewrite (cmean_ext K pr _ (fun k => clsum (grid s) (fun p => clsum (grid s) (fun p' => cscal (pix s (t1 k) p * pix s (t2 k) p') (cscal (N * N) (cprod (wave m p) (wave m' p'))))))).
    2:{ intros k _. rewrite !coeff_sum, prod_clsum. apply clsum_ext. intros p _. apply clsum_ext. intros p' _. fold N. unfold cprod. apply cplx_eq; cbn [cmul cscal conjc fst snd]; ring. }
    rewrite cmean_clsum. apply clsum_ext. intros p Hp. rewrite cmean_clsum. apply clsum_ext. intros p' Hp'.
    transitivity (cscal (sum K (fun k => pr k * (pix s (t1 k) p * pix s (t2 k) p'))) (cscal (N * N) (cprod (wave m p) (wave m' p')))).
    { unfold cmean, csum, cscal. cbn [fst snd]. f_equal; rewrite <- sum_mul_r; apply sum_ext; intros; ring. }
    set (f3 := fun m3 => cscal (a m3) (cprod (cmul G (conjc (wave m3 p))) (conjc (wave m3 p')))).
    assert (E3 : clsum (grid s) f3 = (lsum (map (fun m2 => a m2 * cdot (cmul G (conjc (wave m2 p))) (conjc (wave m2 p'))) (grid s)), 0)).
    { unfold clsum, f3. f_equal; [apply lsum_ext; intros m3 _; cbn [cscal fst]; rewrite prod_cdot; reflexivity|]. rewrite <- (HO p p' Hp Hp'). apply lsum_ext. intros m3 _. cbn [cscal snd]. rewrite prod_imc. reflexivity. }
    rewrite (HC p p' Hp Hp'). transitivity (cmul (cscal (N * N * A) (cprod (wave m p) (wave m' p'))) (clsum (grid s) f3)).
    { rewrite E3. apply cplx_eq; cbn [cscal cmul fst snd]; ring. }
    rewrite <- clsum_mul_l. apply clsum_ext. intros m3 _. unfold f3, cprod. apply cplx_eq; cbn [cscal cmul conjc fst snd]; ring.
  - transitivity (clsum (grid s) (fun m3 => cscal (N * N * A * a m3) (cmul G (cmul (if pair_dec m m3 then (npx, 0) else c0) (conjc (if pair_dec m' m3 then (npx, 0) else c0)))))).
    + rewrite (clsum_ext (grid s) _ (fun p => clsum (grid s) (fun m3 => cscal (N * N * A * a m3) (cmul G (cmul (cprod (wave m p) (wave m3 p)) (conjc (if pair_dec m' m3 then (npx, 0) else c0))))))).
      * rewrite clsum_swap. apply clsum_ext. intros m3 H3. rewrite <- (OR m m3 Hm H3). set (z := conjc _). rewrite (clsum_ext (grid s) _ (fun p => cmul (cscal (N * N * A * a m3) (cmul G z)) (cprod (wave m p) (wave m3 p)))) by (intros p _; apply cplx_eq; cbn [cscal cmul fst snd]; ring).
        rewrite clsum_mul_l. apply cplx_eq; cbn [cscal cmul fst snd]; ring.
      * intros p Hp. rewrite clsum_swap. apply clsum_ext. intros m3 H3. rewrite <- (OR m' m3 Hm' H3). rewrite (clsum_ext (grid s) _ (fun p' => cmul (cscal (N * N * A * a m3) (cmul G (cprod (wave m p) (wave m3 p)))) (conjc (cprod (wave m' p') (wave m3 p'))))) by (intros p' _; apply cplx_eq; cbn [cscal cmul fst snd]; ring).
        rewrite clsum_mul_l, <- conj_clsum. apply cplx_eq; cbn [cscal cmul fst snd]; ring.
    + rewrite (clsum_point ph s m _ Hm).
      * destruct (pair_dec m m) as [_|W]; [|contradiction]. destruct (pair_dec m' m) as [->|Nm].
        -- destruct (pair_dec m m) as [_|W]; [|contradiction]. unfold N, norm_m2a, A, npx, area. pose proof (n_neq0 _ Hnx : (fofnat (fs_nx s) : F) <> 0) as N1. pose proof (n_neq0 _ Hny : (fofnat (fs_ny s) : F) <> 0) as N2. assert (N3 : (fofZ 2 : F) <> 0) by (apply fofZ_neq0; lia).
           set (two := fofZ 2) in *. apply cplx_eq; cbn [cscal cmul conjc fst snd]; field; repeat split; assumption.
        -- destruct (pair_dec m m') as [W|_]; [exfalso; apply Nm; symmetry; exact W|]. unfold c0. apply cplx_eq; cbn [cscal cmul conjc fst snd]; ring.
      * intros q Hq Nq. destruct (pair_dec m q) as [W|_]; [exfalso; apply Nq; symmetry; exact W|]. unfold c0. apply cplx_eq; cbn [cscal cmul conjc fst snd]; ring.
Qed.
Section Means.
Variables (spin1 spin2 : Z) (K : nat) (pr : nat -> F) (t1 t2 : nat -> mat) (P : nat -> F -> F).
Notation n1 := (n_maps spin1).
Notation n2 := (n_maps spin2).
Hypothesis (Hs1 : (0 <= spin1)%Z) (Hs2 : (0 <= spin2)%Z) (HPw : no_edge_power pi fsqrt s spin1 spin2 P).
Hypothesis HC : forall x y p p', (x < n1)%nat -> (y < n2)%nat -> In p (grid s) -> In p' (grid s) ->
     sum K (fun k => pr k * (pix s (nth x (t1 k) []) p * pix s (nth y (t2 k) []) p')) = iso_cov_spin pi fsqrt ph s spin1 spin2 P x y p p'.
Lemma alm_cov c d m m' : (c < n1)%nat -> (d < n2)%nat -> In m (grid s) -> In m' (grid s) ->
  cmean K pr (fun k => cprod (full_alm spin1 (t1 k) c m) (full_alm spin2 (t2 k) d m')) = if pair_dec m m' then (area pi s * area pi s / (fs_lx s * fs_ly s) * P (c * n2 + d)%nat (kmod_of m), 0) else c0.
Proof.
  intros Hc Hd Hm Hm'. set (h := cmul (sig (F:=F) spin1 spin1) (conjc (sig spin2 spin2))). set (G := gphase (F:=F) spin1 spin2). set (U := area pi s * area pi s / (fs_lx s * fs_ly s)).
  rewrite (cmean_ext K pr _ (fun k => cmul h (csum n1 (fun x => csum n2 (fun y => cscal (amp spin1 (rot spin1 m) c x * amp spin2 (rot spin2 m') d y) (cprod (coeff (nth x (t1 k) []) m) (coeff (nth y (t2 k) []) m'))))))).
  2:{ intros k _. rewrite !full_sum. transitivity (cmul h (cprod (csum n1 (fun x => cscal (amp spin1 (rot spin1 m) c x) (coeff (nth x (t1 k) []) m))) (csum n2 (fun y => cscal (amp spin2 (rot spin2 m') d y) (coeff (nth y (t2 k) []) m'))))).
      - unfold cprod, h. apply cplx_eq; cbn [cmul conjc fst snd]; ring.
      - f_equal. rewrite prod_csum. apply csum_ext. intros x _. apply csum_ext. intros y _. unfold cprod. apply cplx_eq; cbn [cscal cmul conjc fst snd]; ring. }
  rewrite cmean_mul, cmean_csum. rewrite (csum_ext n1 _ (fun x => csum n2 (fun y => cscal (amp spin1 (rot spin1 m) c x * amp spin2 (rot spin2 m') d y) (if pair_dec m m' then cscal (U * acov pi fsqrt s spin1 spin2 P x y m) G else c0)))).
  2:{ intros x Hx'. rewrite cmean_csum. apply csum_ext. intros y Hy'. rewrite cmean_scal. f_equal. apply (coeff_cov K pr (fun k => nth x (t1 k) []) (fun k => nth y (t2 k) []) (acov pi fsqrt s spin1 spin2 P x y) G m m' Hm Hm').
      - intros p p' Hp Hp'. rewrite (HC x y p p' Hx' Hy' Hp Hp'). apply iso_cov_spin_eq.
      - intros p p' _ _. apply acov_odd; assumption. }
  destruct (pair_dec m m') as [<-|Nm].
  - transitivity (cscal (U * sum n1 (fun x => sum n2 (fun y => amp spin1 (rot spin1 m) c x * amp spin2 (rot spin2 m) d y * acov pi fsqrt s spin1 spin2 P x y m))) (cmul h G)).
    { transitivity (cmul h (cscal (U * sum n1 (fun x => sum n2 (fun y => amp spin1 (rot spin1 m) c x * amp spin2 (rot spin2 m) d y * acov pi fsqrt s spin1 spin2 P x y m))) G)); [|apply cplx_eq; cbn [cscal cmul fst snd]; ring]. f_equal.
      unfold csum, cscal. cbn [fst snd]. f_equal; rewrite <- sum_mul_l, <- sum_mul_r; apply sum_ext; intros x _; rewrite <- sum_mul_l, <- sum_mul_r; apply sum_ext; intros y _; ring. }
    unfold h, G. rewrite phase_cancel.
    assert (E : sum n1 (fun x => sum n2 (fun y => amp spin1 (rot spin1 m) c x * amp spin2 (rot spin2 m) d y * acov pi fsqrt s spin1 spin2 P x y m)) = P (c * n2 + d)%nat (kmod_of m)); [|rewrite E; apply cplx_eq; cbn [cscal fst snd]; ring].
    unfold acov. set (B1 := amp spin1 (rot spin1 m)). set (B2 := amp spin2 (rot spin2 m)).
    transitivity (sum n1 (fun x => sum n2 (fun y => sum n1 (fun c' => sum n2 (fun d' => P (c' * n2 + d')%nat (kmod_of m) * (B1 c x * B1 c' x * (B2 d y * B2 d' y))))))).
    { apply sum_ext. intros x _. apply sum_ext. intros y _. rewrite <- sum_mul_l. apply sum_ext. intros c' _. rewrite <- sum_mul_l. apply sum_ext. intros d' _. ring. }
    transitivity (sum n1 (fun c' => sum n2 (fun d' => P (c' * n2 + d')%nat (kmod_of m) * ((if Nat.eqb c c' then 1 else 0) * (if Nat.eqb d d' then 1 else 0))))).
    { transitivity (sum n1 (fun x => sum n1 (fun c' => sum n2 (fun d' => P (c' * n2 + d')%nat (kmod_of m) * (B1 c x * B1 c' x * (if Nat.eqb d d' then 1 else 0)))))).
      - apply sum_ext. intros x _. rewrite sum_swap. apply sum_ext. intros c' _. rewrite sum_swap. apply sum_ext. intros d' Hd'. rewrite sum_mul_l. f_equal. rewrite sum_mul_l. f_equal. apply amp_cols; try assumption. apply rot_unit.
      - rewrite sum_swap. apply sum_ext. intros c' Hc'. rewrite sum_swap. apply sum_ext. intros d' Hd'. rewrite sum_mul_l. f_equal. rewrite sum_mul_r. f_equal. apply amp_cols; try assumption. apply rot_unit. }
    rewrite (sum_single n1 c _ Hc); [rewrite (sum_single n2 d _ Hd); [rewrite !Nat.eqb_refl; ring|]|].
    + intros i Hi Ni. destruct (Nat.eqb_spec d i); [congruence | ring].
    + intros i Hi Ni. apply sum_zero. intros j Hj. destruct (Nat.eqb_spec c i); [congruence | ring].
  - rewrite (csum_ext n1 _ (fun _ => c0)); [|intros x _; rewrite (csum_ext n2 _ (fun _ => c0)); [|intros y _]].
    + unfold csum, c0. cbn [fst snd]. rewrite sum_zero by reflexivity. apply cplx_eq; cbn [cmul fst snd]; ring.
    + unfold csum, c0. cbn [fst snd]. rewrite sum_zero by reflexivity. reflexivity.
    + unfold c0. apply cplx_eq; cbn; ring.
Qed.
(** mean of the product of two responses *)
Lemma mean_response (w1 w2 : list F) (R1 R2 : nat * nat -> nat -> F) m : In m (grid s) ->
  sum K (fun k => pr k * cdot (tot pi s (fun m2 => cmul (coeff w1 (diff_mode s m m2)) (csum n1 (fun c => cscal (R1 m2 c) (full_alm spin1 (t1 k) c m2)))))
                              (tot pi s (fun m2 => cmul (coeff w2 (diff_mode s m m2)) (csum n2 (fun d => cscal (R2 m2 d) (full_alm spin2 (t2 k) d m2)))))) =
  1 / (fs_lx s * fs_ly s) * lsum (map (fun m2 => sum n1 (fun c => sum n2 (fun d => P (c * n2 + d)%nat (kmod_of m2) * (R1 m2 c * R2 m2 d))) * cdot (coeff w1 (diff_mode s m m2)) (coeff w2 (diff_mode s m m2))) (grid s)).
Proof.
  intro Hm. pose proof area_neq0 as NA. set (U := area pi s * area pi s / (fs_lx s * fs_ly s)). set (V1 := fun m2 => coeff w1 (diff_mode s m m2)). set (V2 := fun m2 => coeff w2 (diff_mode s m m2)).
  set (X := fun k m2 => csum n1 (fun c => cscal (R1 m2 c) (full_alm spin1 (t1 k) c m2))). set (Y := fun k m2 => csum n2 (fun d => cscal (R2 m2 d) (full_alm spin2 (t2 k) d m2))).
  set (T := fun m2 => sum n1 (fun c => sum n2 (fun d => P (c * n2 + d)%nat (kmod_of m2) * (R1 m2 c * R2 m2 d)))).
  assert (XY : forall m2 m2', In m2 (grid s) -> In m2' (grid s) -> cmean K pr (fun k => cprod (X k m2) (Y k m2')) = if pair_dec m2 m2' then (U * T m2, 0) else c0).
  { intros m2 m2' H2 H2'. rewrite (cmean_ext K pr _ (fun k => csum n1 (fun c => csum n2 (fun d => cscal (R1 m2 c * R2 m2' d) (cprod (full_alm spin1 (t1 k) c m2) (full_alm spin2 (t2 k) d m2')))))).
    2:{ intros k _. unfold X, Y. rewrite prod_csum. apply csum_ext. intros c _. apply csum_ext. intros d _. unfold cprod. apply cplx_eq; cbn [cscal cmul conjc fst snd]; ring. }
    rewrite cmean_csum. rewrite (csum_ext n1 _ (fun c => csum n2 (fun d => cscal (R1 m2 c * R2 m2' d) (if pair_dec m2 m2' then (U * P (c * n2 + d)%nat (kmod_of m2), 0) else c0)))).
    2:{ intros c Hc. rewrite cmean_csum. apply csum_ext. intros d Hd. rewrite cmean_scal. f_equal. apply alm_cov; assumption. }
    destruct (pair_dec m2 m2') as [<-|Nm].
    - unfold T, csum. f_equal.
      + rewrite <- sum_mul_l. apply sum_ext. intros c _. cbn [fst]. rewrite <- sum_mul_l. apply sum_ext. intros d _. cbn [cscal fst]. ring.
      + apply sum_zero. intros c _. cbn [snd]. apply sum_zero. intros d _. cbn [cscal snd]. ring.
    - unfold csum, c0. f_equal; apply sum_zero; intros c _; cbn [fst snd]; apply sum_zero; intros d _; cbn [cscal fst snd]; ring. }
  transitivity (fst (cmean K pr (fun k => cprod (tot pi s (fun m2 => cmul (V1 m2) (X k m2))) (tot pi s (fun m2 => cmul (V2 m2) (Y k m2)))))).
  { unfold cmean, csum. cbn [fst]. apply sum_ext. intros k _. cbn [cscal fst]. rewrite prod_cdot. reflexivity. }
  set (r := 1 / area pi s). rewrite (cmean_ext K pr _ (fun k => cscal (r * r) (clsum (grid s) (fun m2 => clsum (grid s) (fun m2' => cmul (cprod (V1 m2) (V2 m2')) (cprod (X k m2) (Y k m2'))))))).
  2:{ intros k _. unfold tot. fold r. transitivity (cscal (r * r) (cprod (clsum (grid s) (fun m2 => cmul (V1 m2) (X k m2))) (clsum (grid s) (fun m2 => cmul (V2 m2) (Y k m2))))); [unfold cprod; apply cplx_eq; cbn [cscal cmul conjc fst snd]; ring|]. f_equal. rewrite prod_clsum.
      apply clsum_ext. intros m2 _. apply clsum_ext. intros m2' _. unfold cprod. apply cplx_eq; cbn [cscal cmul conjc fst snd]; ring. }
  rewrite cmean_scal, cmean_clsum. rewrite (clsum_ext (grid s) _ (fun m2 => cscal (U * T m2) (cprod (V1 m2) (V2 m2)))).
  - unfold clsum, cscal. cbn [fst]. rewrite (lsum_ext _ (fun m2 => U * (T m2 * cdot (V1 m2) (V2 m2)))) by (intros m2 _; rewrite prod_cdot; ring). rewrite lsum_mul_l. unfold U, r, T, V1, V2. set (S := lsum _). pose proof (fpos_neq _ Hx) as Nx. pose proof (fpos_neq _ Hy) as Ny. set (ar := area pi s) in *. field. auto.
  - intros m2 H2. rewrite cmean_clsum. rewrite (clsum_point ph s m2 _ H2).
    + rewrite cmean_mul, (XY m2 m2 H2 H2). destruct (pair_dec m2 m2) as [_|W]; [|contradiction]. apply cplx_eq; cbn [cscal cmul fst snd]; ring.
    + intros q Hq Nq. rewrite cmean_mul, (XY m2 q H2 Hq). destruct (pair_dec m2 q) as [W|_]; [exfalso; apply Nq; symmetry; exact W|]. unfold c0. apply cplx_eq; cbn [cscal cmul fst snd]; ring.
Qed.
End Means.
(** ** The coupling coefficients of the code for purified fields *)
Lemma resp_spin spin pe pb m m2 a c : spin <> 0%Z -> (a < 2)%nat -> (c < 2)%nat ->
  let (ca, sa) := rot spin m in let (cb, sb) := rot spin m2 in let kr := kratio pi fsqrt s m m2 in
  resp spin pe pb m m2 a c = match a, c with O, O => sel pe (ca * cb + sa * sb) kr | O, _ => - sel pe (sa * cb - ca * sb) 0 | _, O => sel pb (sa * cb - ca * sb) 0 | _, _ => sel pb (ca * cb + sa * sb) kr end.
Proof.
  clear - ph. intros N Ha Hc. pose proof (dm_spin pi fsqrt ph s spin m m2 a c N Ha Hc) as D. destruct (rot spin m) as [ca sa]. destruct (rot spin m2) as [cb sb]. unfold resp. rewrite D. unfold sel.
  destruct a as [|[|a]], c as [|[|c]]; try lia; cbn [Nat.eqb]; destruct pe, pb; ring.
Qed.
Lemma resp_zero m m2 a c : resp 0 false false m m2 a c = 1.
Proof. clear - ph. unfold resp. destruct (Nat.eqb a 0); apply dm_zero. Qed.
Lemma block_resp (f1 f2 : ffield F) i j m1 m2 : let n2 := n_maps (ff_spin f2) in ff_fs f1 = s ->
  sqrt_sign pi fsqrt s -> In m1 (grid s) -> In m2 (grid s) -> (ff_spin f1 = 0%Z -> ff_pe f1 = false /\ ff_pb f1 = false) -> (ff_spin f2 = 0%Z -> ff_pe f2 = false /\ ff_pb f2 = false) ->
  (i < n_maps (ff_spin f1) * n2)%nat -> (j < n_maps (ff_spin f1) * n2)%nat ->
  entry2 (pair_block pi fsqrt f1 f2 (n_maps (ff_spin f1) * n2) (matrix_spins (ff_spin f1) (ff_spin f2) false) m1 m2) i j =
  resp (ff_spin f1) (ff_pe f1) (ff_pb f1) m1 m2 (i / n2) (j / n2) * resp (ff_spin f2) (ff_pe f2) (ff_pb f2) m1 m2 (i mod n2) (j mod n2).
Proof.
  clear - ph. intros n2 Es HS H1 H2 G1 G2 Hi Hj. unfold pair_block. rewrite Es. rewrite !(angle_rot pi fsqrt s) by assumption. unfold n2 in *. clear n2. unfold n_maps in *.
  destruct (Z.eqb_spec (ff_spin f1) 0) as [Z1|Z1], (Z.eqb_spec (ff_spin f2) 0) as [Z2|Z2]; unfold matrix_spins; try (destruct (G1 Z1) as [-> ->]); try (destruct (G2 Z2) as [-> ->]); rewrite ?Z1, ?Z2, ?(proj2 (Z.eqb_neq _ _) Z1), ?(proj2 (Z.eqb_neq _ _) Z2); cbn [Z.eqb fst snd Nat.mul Nat.add] in *.
  - assert (i = 0)%nat as -> by lia. assert (j = 0)%nat as -> by lia. destruct (rot 0 m1), (rot 0 m2). rewrite !resp_zero. cbn. ring.
  - rewrite resp_zero. pose proof (resp_spin (ff_spin f2) (ff_pe f2) (ff_pb f2) m1 m2 (i mod 2) (j mod 2) Z2 ltac:(apply Nat.mod_upper_bound; lia) ltac:(apply Nat.mod_upper_bound; lia)) as D.
    destruct (rot (ff_spin f2) m1), (rot (ff_spin f2) m2), (rot 0 m1), (rot 0 m2). cbv zeta in D. rewrite D. set (kr := kratio pi fsqrt s m1 m2). clearbody kr. destruct i as [|[|i]]; try lia; destruct j as [|[|j]]; try lia; cbn; ring.
  - rewrite !Nat.div_1_r, !Nat.mod_1_r, resp_zero. pose proof (resp_spin (ff_spin f1) (ff_pe f1) (ff_pb f1) m1 m2 i j Z1 ltac:(lia) ltac:(lia)) as D.
    destruct (rot (ff_spin f1) m1), (rot (ff_spin f1) m2), (rot 0 m1), (rot 0 m2). cbv zeta in D. rewrite D. set (kr := kratio pi fsqrt s m1 m2). clearbody kr. destruct i as [|[|i]]; try lia; destruct j as [|[|j]]; try lia; unfold block; rewrite ?Bool.orb_false_r; cbn; ring.
  - pose proof (resp_spin (ff_spin f2) (ff_pe f2) (ff_pb f2) m1 m2 (i mod 2) (j mod 2) Z2 ltac:(apply Nat.mod_upper_bound; lia) ltac:(apply Nat.mod_upper_bound; lia)) as D2.
    pose proof (resp_spin (ff_spin f1) (ff_pe f1) (ff_pb f1) m1 m2 (i / 2) (j / 2) Z1 ltac:(apply Nat.div_lt_upper_bound; lia) ltac:(apply Nat.div_lt_upper_bound; lia)) as D1.
    destruct (rot (ff_spin f1) m1), (rot (ff_spin f1) m2), (rot (ff_spin f2) m1), (rot (ff_spin f2) m2). cbv zeta in D1, D2. rewrite D1, D2. set (kr := kratio pi fsqrt s m1 m2). clearbody kr.
    destruct i as [|[|[|[|i]]]]; try lia; destruct j as [|[|[|[|j]]]]; try lia; cbn [Nat.div Nat.modulo Nat.divmod fst snd Nat.sub block entry2 nth]; ring.
Qed.
(** mirror images *)
Lemma kratio_yflip l m : In l (grid s) -> In m (grid s) -> kratio pi fsqrt s (yflip s l) (yflip s m) = kratio pi fsqrt s l m.
Proof.
  clear - ph. intros Hl Hm. assert (O : forall p, In p (grid s) -> is_origin (yflip s p) = is_origin p).
  { intros [x y] Hp. apply in_grid in Hp. unfold is_origin, yflip. cbn [fst snd] in *. assert (G : forall n i, (i < n)%nat -> Nat.eqb (opp_row n i) 0 = Nat.eqb i 0). { intros n i Hi. unfold opp_row. destruct (Nat.eqb_spec i 0) as [->|N]; [rewrite Nat.sub_0_r, Nat.mod_same by lia; reflexivity|]. rewrite Nat.mod_small by lia. apply Nat.eqb_neq. lia. }
    rewrite G by tauto. reflexivity. }
  pose proof (kmod_yflip pi fsqrt s l Hl) as K1. pose proof (kmod_yflip pi fsqrt s m Hm) as K2. unfold L_Flat2.kmod_of in K1, K2. unfold kratio. rewrite !O, K1, K2 by assumption. reflexivity.
Qed.
Lemma resp_yflip spin pe pb m m2 a c : In m (grid s) -> In m2 (grid s) -> (2 * snd m)%nat <> fs_ny s -> (2 * snd m2)%nat <> fs_ny s -> (a < n_maps spin)%nat -> (c < n_maps spin)%nat ->
  resp spin pe pb (yflip s m) (yflip s m2) a c = sgn (a + c) * resp spin pe pb m m2 a c.
Proof.
  clear - ph. intros Hm Hm2 HE HE2 Ha Hc. unfold resp. rewrite kratio_yflip by assumption. destruct (if Nat.eqb a 0 then pe else pb); [|apply dm_yflip; assumption].
  destruct (Nat.eqb_spec a c) as [->|N]; [|ring]. unfold sgn. rewrite Nat.even_add. destruct (Nat.even c); cbn; ring.
Qed.
Lemma resp_flip_pair spin1 spin2 pe1 pb1 pe2 pb2 m m2 a c a' c' : (0 <= spin1)%Z -> (0 <= spin2)%Z -> Z.even spin1 = Z.even spin2 -> ((pe1 || pb1) = true -> spin1 = 2%Z) -> ((pe2 || pb2) = true -> spin2 = 2%Z) ->
  In m (grid s) -> In m2 (grid s) -> ~ L_FlatMeanSpin.edge s m -> ~ L_FlatMeanSpin.edge s m2 ->
  resp spin1 pe1 pb1 (flip s m) (flip s m2) a c * resp spin2 pe2 pb2 (flip s m) (flip s m2) a' c' = resp spin1 pe1 pb1 m m2 a c * resp spin2 pe2 pb2 m m2 a' c'.
Proof.
  clear - ph. intros Hs1 Hs2 HE Q1 Q2 Hm Hm2 E1 E2. unfold resp. rewrite kratio_flip by assumption.
  assert (Even : forall sp a c, (0 <= sp)%Z -> Z.even sp = true -> dm sp (flip s m) (flip s m2) a c = dm sp m m2 a c).
  { intros sp x y Hsp Ev. unfold L_FlatMeanSpin.dm, dmat. apply sum_ext. intros z _. destruct (amp_flip_any pi fsqrt ph s sp m Hsp Hm E1) as [o1 O1]. destruct (amp_flip_any pi fsqrt ph s sp m2 Hsp Hm2 E2) as [o2 O2]. rewrite (O1 sp x z Hsp), (O2 sp y z Hsp). unfold par. rewrite Ev. destruct o1, o2; ring. }
  destruct ((pe1 || pb1) || (pe2 || pb2))%bool eqn:EP.
  - assert (Ev1 : Z.even spin1 = true). { apply Bool.orb_prop in EP. destruct EP as [EP|EP]; [rewrite (Q1 EP); reflexivity | rewrite HE, (Q2 EP); reflexivity]. }
    pose proof Ev1 as Ev2. rewrite HE in Ev2. rewrite !(Even spin1), !(Even spin2) by assumption. reflexivity.
  - apply Bool.orb_false_iff in EP. destruct EP as [EP EP']. apply Bool.orb_false_iff in EP, EP'. destruct EP as [-> ->]. destruct EP' as [-> ->]. replace (if Nat.eqb a 0 then false else false) with false by (destruct (Nat.eqb a 0); reflexivity). replace (if Nat.eqb a' 0 then false else false) with false by (destruct (Nat.eqb a' 0); reflexivity).
    apply (dm_flip pi fsqrt ph s spin1 spin2 m m2 a c a' c' Hs1 Hs2 HE Hm Hm2 E1 E2).
Qed.
End P.
End LPureMean.
