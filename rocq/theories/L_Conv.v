(** Lemmas: inversion of the Fourier transform, synthesis of maps and the convolution theorem. *)
From Verif Require Import Base M_Utils M_Bins M_FlatBins M_LinAlg M_Workspace M_Flat M_WspFlat M_Syn P_FlatBins L_LinAlg L_Flat L_Flat2 L_Flat3 L_FITS L_MCM L_WspFlat L_WspFlat2 L_FlatMean M_OMP L_Syn L_Syn2.
From Coq Require Import Permutation.
Open Scope nat_scope.

Lemma diff_0 n a b : a < n -> b < n -> diff n a b = 0%nat <-> a = b.
Proof. intros. unfold diff. destruct (Nat.leb_spec b a); lia. Qed.

Section LConv.
Context {F : ofield}.
Local Open Scope F_scope.
Add Field FfLCv : (fth F).
Notation mat := (list (list F)).
Notation cplx := (cplx F).
Notation fsinfo := (fsinfo F).

Lemma clsum_ext {A} (l : list A) (f g : A -> cplx) : (forall a, In a l -> f a = g a) -> clsum l f = clsum l g.
Proof. intro H. unfold clsum. f_equal; apply lsum_ext; intros a Ha; rewrite H by exact Ha; reflexivity. Qed.
Lemma clsum_swap {A B} (l : list A) (l' : list B) (f : A -> B -> cplx) : clsum l (fun a => clsum l' (f a)) = clsum l' (fun b => clsum l (fun a => f a b)).
Proof. unfold clsum. cbn [fst snd]. f_equal; apply lsum_swap2. Qed.
Lemma clsum_mul_l {A} (l : list A) (c : cplx) (f : A -> cplx) : clsum l (fun a => cmul c (f a)) = cmul c (clsum l f).
Proof. unfold clsum, cmul. cbn [fst snd]. f_equal; (induction l as [|a l IH]; [cbn; ring|]); rewrite !lsum_cons, IH; ring. Qed.
Lemma cmul_comm (x y : cplx) : cmul x y = cmul y x.
Proof. apply cplx_eq; cbn; ring. Qed.
Lemma cmul_assoc (x y z : cplx) : cmul x (cmul y z) = cmul (cmul x y) z.
Proof. apply cplx_eq; cbn; ring. Qed.
Lemma cscal_mul a (x y : cplx) : cscal a (cmul x y) = cmul (cscal a x) y.
Proof. apply cplx_eq; cbn; ring. Qed.
Lemma clsum_scal {A} (l : list A) c (f : A -> cplx) : clsum l (fun a => cscal c (f a)) = cscal c (clsum l f).
Proof. unfold clsum, cscal. cbn [fst snd]. rewrite <- !lsum_mul_l. reflexivity. Qed.
Lemma clsum_add {A} (l : list A) (f g : A -> cplx) : clsum l (fun a => cadd (f a) (g a)) = cadd (clsum l f) (clsum l g).
Proof. unfold clsum, cadd. cbn [fst snd]. rewrite <- !lsum_add. reflexivity. Qed.
Lemma clsum_zero {A} (l : list A) (f : A -> cplx) : (forall a, In a l -> f a = c0) -> clsum l f = c0.
Proof. intro H. rewrite (clsum_ext l f (fun _ => c0) H). unfold clsum, c0. f_equal; apply lsum_zero; reflexivity. Qed.

Section R.
Variables (pi : F) (ph : nat -> nat -> cplx).
(** sums of roots of unity vanish *)
Definition full_roots (s : fsinfo) : Prop :=
  (forall d, (d < fs_nx s)%nat -> csum (fs_nx s) (fun j => ph (fs_nx s) ((j * d) mod fs_nx s)) = if Nat.eqb d 0 then (fofnat (fs_nx s), 0) else c0) /\
  (forall d, (d < fs_ny s)%nat -> csum (fs_ny s) (fun j => ph (fs_ny s) ((j * d) mod fs_ny s)) = if Nat.eqb d 0 then (fofnat (fs_ny s), 0) else c0).
Lemma wave_sym (s : fsinfo) m p : wave ph s m p = wave ph s p m.
Proof. unfold wave. rewrite (Nat.mul_comm (fst m)), (Nat.mul_comm (snd m)). reflexivity. Qed.
Lemma wdiff (s : fsinfo) m m' p : hom_roots ph s -> In m (grid s) -> In m' (grid s) -> wave ph s (diff_mode s m m') p = cmul (wave ph s m p) (conjc (wave ph s m' p)).
Proof. exact (wave_diff pi (fun x => x) ph s m m' p). Qed.
Lemma wflip (s : fsinfo) m p : conj_roots ph s -> In m (grid s) -> wave ph s (flip s m) p = conjc (wave ph s m p).
Proof. exact (wave_flip pi (fun x => x) ph s m p). Qed.
Definition area (s : fsinfo) : F := fs_lx s * fs_ly s / (fofZ 2 * pi).
Lemma sum_wave (s : fsinfo) d : full_roots s -> In d (grid s) -> clsum (grid s) (fun m => wave ph s m d) = if (Nat.eqb (fst d) 0 && Nat.eqb (snd d) 0)%bool then (fofnat (fs_nx s) * fofnat (fs_ny s), 0) else c0.
Proof.
  intros [H1 H2] Hd. apply in_grid in Hd. destruct Hd as [D1 D2]. specialize (H1 _ D1). specialize (H2 _ D2).
  transitivity (cmul (csum (fs_nx s) (fun j => ph (fs_nx s) ((j * fst d) mod fs_nx s))) (csum (fs_ny s) (fun j => ph (fs_ny s) ((j * snd d) mod fs_ny s)))).
  - unfold clsum, wave. rewrite <- (sum_grid s (fun x y => fst (cmul (ph (fs_nx s) ((x * fst d) mod fs_nx s)) (ph (fs_ny s) ((y * snd d) mod fs_ny s))))), <- (sum_grid s (fun x y => snd (cmul (ph (fs_nx s) ((x * fst d) mod fs_nx s)) (ph (fs_ny s) ((y * snd d) mod fs_ny s))))).
    unfold cmul, csum. cbn [fst snd]. f_equal.
    + rewrite <- !sum_mul_l, <- sum_sub. apply sum_ext. intros y _. rewrite sum_sub, !sum_mul_r. ring.
    + rewrite <- !sum_mul_l, <- sum_add. apply sum_ext. intros y _. rewrite sum_add, !sum_mul_r. ring.
  - rewrite H1, H2. destruct (Nat.eqb (fst d) 0); cbn [andb]; [destruct (Nat.eqb (snd d) 0)|]; unfold c0; apply cplx_eq; cbn; ring.
Qed.
(** a map with the coefficients A *)
Definition has_modes (s : fsinfo) (t : list F) (A : nat * nat -> cplx) : Prop :=
  forall p, In p (grid s) -> clsum (grid s) (fun q => cmul (A q) (conjc (wave ph s q p))) = (area s * pix s t p, 0).
Lemma clsum_point (s : fsinfo) p (f : nat * nat -> cplx) : In p (grid s) -> (forall q, In q (grid s) -> q <> p -> f q = c0) -> clsum (grid s) f = f p.
Proof.
  intros Hp Z. assert (G : forall g : nat * nat -> F, (forall q, In q (grid s) -> q <> p -> g q = 0) -> lsum (map g (grid s)) = g p).
  { intros g Hg. destruct p as [px py]. apply in_grid in Hp. cbn [fst snd] in Hp. destruct Hp as [P1 P2]. rewrite sum_grid_rev. rewrite (sum_single (fs_ny s) py (fun y => sum (fs_nx s) (fun x => g (x, y))) P2).
    2:{ intros i Hi Ni. apply sum_zero. intros j Hj. apply Hg; [apply in_grid; cbn; lia | congruence]. }
    apply (sum_single (fs_nx s) px (fun x => g (x, py)) P1). intros i Hi Ni. apply Hg; [apply in_grid; cbn; lia | congruence]. }
  unfold clsum. rewrite (G (fun q => fst (f q))), (G (fun q => snd (f q))) by (intros q Hq Nq; rewrite (Z q Hq Nq); reflexivity). destruct (f p); reflexivity.
Qed.
Lemma coeff_modes (s : fsinfo) t : conj_roots ph s -> hom_roots ph s -> full_roots s -> pi <> 0 -> has_modes s t (coeff pi ph s t).
Proof.
  intros HC HH HF Hpi p Hp. assert (Hn : (0 < fs_nx s)%nat /\ (0 < fs_ny s)%nat) by (apply in_grid in Hp; lia).
  rewrite (clsum_ext _ _ (fun q => clsum (grid s) (fun p' => cscal (norm_m2a pi s * pix s t p') (wave ph s q (diff_mode s p' p))))).
  2:{ intros q Hq. rewrite coeff_sum. rewrite cmul_comm, <- clsum_mul_l. apply clsum_ext. intros p' Hp'. rewrite (wave_sym s q (diff_mode s p' p)), (wdiff s p' p q HH Hp' Hp). rewrite (wave_sym s p' q), (wave_sym s p q). apply cplx_eq; cbn; ring. }
  rewrite clsum_swap. rewrite (clsum_ext _ _ (fun p' => cscal (norm_m2a pi s * pix s t p') (if (Nat.eqb (fst (diff_mode s p' p)) 0 && Nat.eqb (snd (diff_mode s p' p)) 0)%bool then (fofnat (fs_nx s) * fofnat (fs_ny s), 0) else c0))).
  2:{ intros p' Hp'. rewrite clsum_scal, (sum_wave s (diff_mode s p' p) HF) by (apply in_diff; assumption). reflexivity. }
  rewrite (clsum_point s p _ Hp).
  2:{ intros q Hq Nq. unfold diff_mode. cbn [fst snd]. apply in_grid in Hq. pose proof Hp as Hp'. apply in_grid in Hp'.
    destruct (Nat.eqb_spec (diff (fs_nx s) (fst q) (fst p)) 0) as [E1|]; cbn [andb]; [destruct (Nat.eqb_spec (diff (fs_ny s) (snd q) (snd p)) 0) as [E2|]|]; try (apply cplx_eq; cbn; ring).
    apply diff_0 in E1; try lia. apply diff_0 in E2; try lia. destruct q, p. cbn [fst snd] in *. congruence. }
  unfold diff_mode. cbn [fst snd]. rewrite (proj2 (diff_0 (fs_nx s) (fst p) (fst p) (proj1 (proj1 (in_grid s p) Hp)) (proj1 (proj1 (in_grid s p) Hp))) eq_refl), (proj2 (diff_0 (fs_ny s) (snd p) (snd p) (proj2 (proj1 (in_grid s p) Hp)) (proj2 (proj1 (in_grid s p) Hp))) eq_refl). cbn [Nat.eqb andb].
  unfold cscal, norm_m2a, area. cbn [fst snd]. assert (N1 : (fofnat (fs_nx s) : F) <> 0) by (intro X; change (0 : F) with (fofnat 0 : F) in X; apply fofnat_inj in X; lia). assert (N2 : (fofnat (fs_ny s) : F) <> 0) by (intro X; change (0 : F) with (fofnat 0 : F) in X; apply fofnat_inj in X; lia).
  assert (N3 : (fofZ 2 : F) <> 0) by (apply fofZ_neq0; lia). f_equal; [field; auto | ring].
Qed.
(** convolution theorem *)
Lemma coeff_product (s : fsinfo) (t u v : list F) (A : nat * nat -> cplx) l : hom_roots ph s -> pi <> 0 -> fs_lx s <> 0 -> fs_ly s <> 0 -> has_modes s t A -> (forall p, In p (grid s) -> pix s v p = pix s t p * pix s u p) -> In l (grid s) ->
  coeff pi ph s v l = cscal (1 / area s) (clsum (grid s) (fun q => cmul (A q) (coeff pi ph s u (diff_mode s l q)))).
Proof.
  intros HH Hpi Hx Hy HA HV Hl. assert (N3 : (fofZ 2 : F) <> 0) by (apply fofZ_neq0; lia). assert (NA : area s <> 0) by (unfold area; intro E; assert (X : fs_lx s * fs_ly s = 0) by (transitivity (fs_lx s * fs_ly s / (fofZ 2 * pi) * (fofZ 2 * pi)); [field; auto | rewrite E; ring]); apply fmul_eq_0 in X; tauto).
  rewrite (clsum_ext _ _ (fun q => clsum (grid s) (fun p => cmul (cmul (A q) (conjc (wave ph s q p))) (cscal (norm_m2a pi s * pix s u p) (wave ph s l p))))).
  2:{ intros q Hq. rewrite coeff_sum, <- clsum_mul_l. apply clsum_ext. intros p Hp. rewrite (wdiff s l q p HH Hl Hq). apply cplx_eq; cbn; ring. }
  rewrite clsum_swap. rewrite coeff_sum, <- clsum_scal. apply clsum_ext. intros p Hp.
  rewrite (clsum_ext _ _ (fun q => cmul (cscal (norm_m2a pi s * pix s u p) (wave ph s l p)) (cmul (A q) (conjc (wave ph s q p))))) by (intros; apply cmul_comm). rewrite clsum_mul_l, (HA p Hp), HV by exact Hp.
  apply cplx_eq; cbn [cscal cmul fst snd]; field; exact NA.
Qed.
(** synthesis from the stored half of the plane *)
Lemma half_sum (s : fsinfo) (f : nat * nat -> F) : (0 < fs_nx s)%nat -> (forall m, In m (grid s) -> f (flip s m) = f m) ->
  sum (fs_ny s) (fun iy => sum (nhalf s) (fun ix => col_weight s ix * f (ix, iy))) = lsum (map f (grid s)).
Proof.
  intros Hn HF. rewrite (half_full s (fun ix iy => f (ix, iy)) Hn).
  - apply lsum_ext. intros [x y] _. reflexivity.
  - intros ix iy Hx Hy. apply (HF (ix, iy)). apply in_grid. split; assumption.
Qed.
Lemma imag_zero (s : fsinfo) (f : nat * nat -> F) : (forall m, In m (grid s) -> f (flip s m) = - f m) -> lsum (map f (grid s)) = 0.
Proof.
  intro H. assert (E : lsum (map f (grid s)) = - lsum (map f (grid s))).
  { rewrite <- (lsum_flip s f) at 1. rewrite (lsum_ext _ (fun m => (- (1)) * f m)) by (intros m Hm; rewrite H by exact Hm; ring). rewrite lsum_mul_l. ring. }
  assert (D : (1 + 1) * lsum (map f (grid s)) = 0) by (set (x := lsum _) in *; transitivity (x - - x); [ring | rewrite <- E; ring]). apply fmul_eq_0 in D. destruct D as [D|D]; [|exact D]. exfalso. apply (fofZ_neq0 (F := F) 2); [lia | exact D].
Qed.
Lemma synthesis (s : fsinfo) (a : list cplx) (X : nat * nat -> cplx) : conj_roots ph s -> pi <> 0 -> fs_lx s <> 0 -> fs_ly s <> 0 -> (0 < fs_nx s)%nat ->
  (forall ix iy, (ix < nhalf s)%nat -> (iy < fs_ny s)%nat -> nth (ix + nhalf s * iy) a c0 = X (ix, iy)) -> (forall m, In m (grid s) -> X (flip s m) = conjc (X m)) -> has_modes s (alm2map0 pi ph s a) X.
Proof.
  intros HC Hpi Hlx Hly Hn Ha HX p Hp. assert (N3 : (fofZ 2 : F) <> 0) by (apply fofZ_neq0; lia). unfold clsum. f_equal.
  - pose proof Hp as Hp'. apply in_grid in Hp. destruct Hp as [P1 P2]. unfold pix, alm2map0. rewrite nth_tab by nia. replace ((fst p + fs_nx s * snd p) mod fs_nx s)%nat with (fst p) by (rewrite Nat.mul_comm, Nat.mod_add, Nat.mod_small by lia; reflexivity).
    replace ((fst p + fs_nx s * snd p) / fs_nx s)%nat with (snd p) by (rewrite Nat.mul_comm, Nat.div_add, Nat.div_small by lia; reflexivity).
    rewrite (sum_ext (fs_ny s) _ (fun iy => sum (nhalf s) (fun ix => col_weight s ix * cdot (X (ix, iy)) (wave ph s (ix, iy) p)))) by (intros iy Hy; apply sum_ext; intros ix Hx; rewrite Ha by assumption; reflexivity).
    rewrite (half_sum s (fun m => cdot (X m) (wave ph s m p)) Hn) by (intros m Hm; rewrite HX, wflip, cdot_conj by assumption; reflexivity).
    unfold area. rewrite (lsum_ext _ (fun m => cdot (X m) (wave ph s m p))) by (intros m _; unfold cdot, cmul, conjc; cbn [fst snd]; ring). field. auto.
  - apply imag_zero. intros m Hm. rewrite HX, wflip by assumption. unfold cmul, conjc. cbn [fst snd]. ring.
Qed.
End R.
End LConv.
