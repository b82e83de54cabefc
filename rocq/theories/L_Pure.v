(** Lemmas: Fourier coefficients of purified maps. *)
From Verif Require Import Base M_Utils M_Bins M_FlatBins M_LinAlg M_Workspace M_Flat M_WspFlat M_Syn M_FieldFlat P_FlatBins L_LinAlg L_Flat L_Flat2 L_Flat3 L_FITS L_MCM L_WspFlat L_WspFlat2 L_FlatMean L_Conv.
From Coq Require Import Permutation.
Open Scope nat_scope.

Lemma opp_fix n i : i < n -> opp_row n i = i -> i = 0 \/ 2 * i = n.
Proof. intros H E. unfold opp_row in E. destruct (Nat.eq_dec i 0) as [Z|Z]; [left; exact Z | right]. rewrite Nat.mod_small in E by lia. lia. Qed.
Lemma freq_flip n i : i < n -> 2 * i <> n -> freq n (opp_row n i) = (- freq n i)%Z.
Proof. intros H N. destruct (freq_opp n i H) as [E|E]; [exact E|]. destruct (opp_fix n i H E) as [Z|Z]; [|contradiction]. subst i. rewrite E. reflexivity. Qed.

Section LPure.
Context {F : ofield}.
Local Open Scope F_scope.
Add Field FfLPu : (fth F).
Notation mat := (list (list F)).
Notation cplx := (cplx F).
Notation fsinfo := (fsinfo F).

Lemma sq_sum_0 (x y : F) : x * x + y * y <= 0 -> x = 0 /\ y = 0.
Proof.
  assert (G : forall x y : F, x * x + y * y <= 0 -> x = 0).
  { clear. intros x y H. pose proof (fsqr_nonneg x) as P1. pose proof (fsqr_nonneg y) as P2.
    assert (Z : x * x = 0). { apply fle_antisym; [|exact P1]. eapply fle_trans; [|exact H]. replace (x * x) with (x * x + 0) at 1 by ring. apply fle_add; [apply fle_refl | exact P2]. }
    apply fmul_eq_0 in Z. tauto. }
  intro H. split; [exact (G x y H)|]. apply (G y x). replace (y * y + x * x) with (x * x + y * y) by ring. exact H.
Qed.
Lemma clsum_ext' {A} (l : list A) (f g : A -> cplx) : (forall a, f a = g a) -> clsum l f = clsum l g.
Proof. intro H. apply clsum_ext. intros a _. apply H. Qed.

Section P.
Variables (pi : F) (fsqrt : F -> F) (ph : nat -> nat -> cplx).
(** the square root is the positive one *)
Definition real_sqrt : Prop := forall x : F, 0 <= x -> 0 <= fsqrt x /\ fsqrt x * fsqrt x = x.
Variable s : fsinfo.
Notation coeff := (coeff pi ph s).
(** wavenumber in inverse pixels and direction of a mode *)
Definition kpx (m : nat * nat) : F := fofZ (freq (fs_nx s) (fst m)) * (fofZ 2 * pi / fofnat (fs_nx s)).
Definition kpy (m : nat * nat) : F := fofZ (freq (fs_ny s) (snd m)) * (fofZ 2 * pi / fofnat (fs_ny s)).
Definition kp2 (m : nat * nat) : F := kpx m * kpx m + kpy m * kpy m.
Definition kp (m : nat * nat) : F := fsqrt (kp2 m).
Definition dir (m : nat * nat) : F * F := cphi fsqrt (kxf pi s (fst m)) (kyf pi s (snd m)).
Definition dcos (m : nat * nat) : F := fst (dir m).
Definition dsin (m : nat * nat) : F := snd (dir m).
(** modes at the edge of the plane, that have no opposite *)
Definition edge (m : nat * nat) : Prop := (2 * fst m = fs_nx s \/ 2 * snd m = fs_ny s)%nat.
Lemma edge_dec m : {edge m} + {~ edge m}.
Proof. unfold edge. destruct (Nat.eq_dec (2 * fst m) (fs_nx s)); [left; tauto|]. destruct (Nat.eq_dec (2 * snd m) (fs_ny s)); [left; tauto | right; tauto]. Defined.

Hypothesis (HSQ : real_sqrt) (Hpi : pi <> 0) (Hx : fs_lx s <> 0) (Hy : fs_ly s <> 0) (HR : conj_roots ph s) (HH : hom_roots ph s) (HF : full_roots ph s) (Hnx : (0 < fs_nx s)%nat) (Hny : (0 < fs_ny s)%nat).
Lemma n_neq0 n : (0 < n)%nat -> (fofnat n : F) <> 0.
Proof. clear. intro H. destruct n as [|n]; [lia | apply fofnat_neq0]. Qed.
Lemma two_neq0 : (fofZ 2 : F) <> 0.
Proof. apply fofZ_neq0. lia. Qed.
Lemma dk_neq0 x : x <> 0 -> fofZ 2 * pi / x <> 0.
Proof. intros N E. pose proof two_neq0 as T. assert (Z : fofZ 2 * pi = 0) by (transitivity (fofZ 2 * pi / x * x); [field; exact N | rewrite E; ring]). apply fmul_eq_0 in Z. tauto. Qed.
Lemma kp2_nonneg m : 0 <= kp2 m.
Proof. unfold kp2. apply fadd_nonneg; apply fsqr_nonneg. Qed.
Lemma kp_sq m : kp m * kp m = kp2 m.
Proof. apply HSQ. apply kp2_nonneg. Qed.
Lemma kp_nonneg m : 0 <= kp m.
Proof. apply HSQ. apply kp2_nonneg. Qed.
Lemma kp_zero m : kpx m = 0 -> kpy m = 0 -> kp m = 0.
Proof. intros A B. pose proof (kp_sq m) as K. unfold kp2 in K. rewrite A, B in K. assert (Z : kp m * kp m = 0) by (rewrite K; ring). apply fmul_eq_0 in Z. tauto. Qed.
Lemma freq_0 n i : (i < n)%nat -> freq n i = 0%Z -> i = 0%nat.
Proof. clear. unfold freq. destruct (Nat.leb_spec (2 * i) n); lia. Qed.
Lemma fofZ_prod_0 z (x : F) : x <> 0 -> fofZ z * x = 0 -> z = 0%Z.
Proof. clear. intros N E. apply fmul_eq_0 in E. destruct E as [E|E]; [|contradiction]. destruct (Z.eq_dec z 0) as [Z|Z]; [exact Z|]. exfalso. exact (fofZ_neq0 z Z E). Qed.
Lemma kp2_pos m : In m (grid s) -> m <> (0, 0)%nat -> 0 < kp2 m.
Proof.
  intros Hm N. apply fle_neq_lt; [apply kp2_nonneg|]. intro E. apply N. apply in_grid in Hm. destruct (sq_sum_0 (kpx m) (kpy m)) as [A B]; [unfold kp2 in E; rewrite <- E; apply fle_refl|].
  unfold kpx in A. unfold kpy in B. apply fofZ_prod_0 in A; [|apply dk_neq0; apply n_neq0; exact Hnx]. apply fofZ_prod_0 in B; [|apply dk_neq0; apply n_neq0; exact Hny].
  apply freq_0 in A; [|tauto]. apply freq_0 in B; [|tauto]. destruct m. cbn [fst snd] in *. congruence.
Qed.
Lemma kp_pos m : In m (grid s) -> m <> (0, 0)%nat -> 0 < kp m.
Proof. intros Hm N. apply fle_neq_lt; [apply kp_nonneg|]. intro E. pose proof (kp2_pos m Hm N) as P. rewrite <- (kp_sq m), <- E in P. apply fpos_neq in P. apply P. ring. Qed.
(** opposite modes *)
Lemma in_flip m : In m (grid s) -> In (flip s m) (grid s).
Proof. rewrite !in_grid. unfold flip. cbn [fst snd]. intros [A B]. split; apply opp_row_lt; lia. Qed.
Lemma flip_kpx m : In m (grid s) -> ~ edge m -> kpx (flip s m) = - kpx m.
Proof. intros Hm N. apply in_grid in Hm. unfold kpx, flip. cbn [fst]. rewrite freq_flip by (unfold edge in N; lia). rewrite fofZ_opp. ring. Qed.
Lemma flip_kpy m : In m (grid s) -> ~ edge m -> kpy (flip s m) = - kpy m.
Proof. intros Hm N. apply in_grid in Hm. unfold kpy, flip. cbn [snd]. rewrite freq_flip by (unfold edge in N; lia). rewrite fofZ_opp. ring. Qed.
Lemma flip_kp m : In m (grid s) -> ~ edge m -> kp (flip s m) = kp m.
Proof. intros Hm N. unfold kp, kp2. rewrite flip_kpx, flip_kpy by assumption. f_equal. ring. Qed.
Lemma flip_dir m : In m (grid s) -> ~ edge m -> kp (flip s m) * dcos (flip s m) = - (kp m * dcos m) /\ kp (flip s m) * dsin (flip s m) = - (kp m * dsin m).
Proof.
  intros Hm N. rewrite flip_kp by assumption. unfold dcos, dsin, dir, flip. cbn [fst snd]. pose proof Hm as Hm'. apply in_grid in Hm'.
  assert (E1 : kxf pi s (opp_row (fs_nx s) (fst m)) = - kxf pi s (fst m)) by (unfold kxf; rewrite freq_flip by (unfold edge in N; lia); rewrite fofZ_opp; ring).
  assert (E2 : kyf pi s (opp_row (fs_ny s) (snd m)) = - kyf pi s (snd m)) by (unfold kyf; rewrite freq_flip by (unfold edge in N; lia); rewrite fofZ_opp; ring).
  rewrite E1, E2. destruct (kxf pi s (fst m) * kxf pi s (fst m) + kyf pi s (snd m) * kyf pi s (snd m) <=? 0) eqn:E.
  - destruct (sq_sum_0 _ _ E) as [A B]. unfold kxf in A. unfold kyf in B. apply fofZ_prod_0 in A; [|apply dk_neq0; exact Hx]. apply fofZ_prod_0 in B; [|apply dk_neq0; exact Hy].
    rewrite (kp_zero m); [split; ring | unfold kpx; rewrite A; cbn; ring | unfold kpy; rewrite B; cbn; ring].
  - rewrite cphi_opp by exact E. cbn [fst snd]. split; ring.
Qed.
(** coefficients of products *)
Lemma coeff_mix (v t1 u1 t2 u2 : list F) (A1 A2 : nat * nat -> cplx) (a b : F) l : has_modes pi ph s t1 A1 -> has_modes pi ph s t2 A2 -> (forall p, In p (grid s) -> pix s v p = a * (pix s t1 p * pix s u1 p) + b * (pix s t2 p * pix s u2 p)) -> In l (grid s) ->
  coeff v l = cscal (1 / area pi s) (clsum (grid s) (fun q => cadd (cscal a (cmul (A1 q) (coeff u1 (diff_mode s l q)))) (cscal b (cmul (A2 q) (coeff u2 (diff_mode s l q)))))).
Proof.
  intros M1 M2 HV Hl. assert (PX : forall (f : nat -> F) p, In p (grid s) -> pix s (tab (fs_nx s * fs_ny s) f) p = f (fst p + fs_nx s * snd p)%nat) by (intros f p Hp; apply in_grid in Hp; unfold pix; apply nth_tab; nia).
  pose proof (coeff_product pi ph s t1 u1 (tab (fs_nx s * fs_ny s) (fun i => nth i t1 0 * nth i u1 0)) A1 l HH Hpi Hx Hy M1 (fun p Hp => PX _ p Hp) Hl) as C1.
  pose proof (coeff_product pi ph s t2 u2 (tab (fs_nx s * fs_ny s) (fun i => nth i t2 0 * nth i u2 0)) A2 l HH Hpi Hx Hy M2 (fun p Hp => PX _ p Hp) Hl) as C2.
  transitivity (cadd (cscal a (coeff (tab (fs_nx s * fs_ny s) (fun i => nth i t1 0 * nth i u1 0)) l)) (cscal b (coeff (tab (fs_nx s * fs_ny s) (fun i => nth i t2 0 * nth i u2 0)) l))).
  - rewrite !coeff_sum, <- !clsum_scal, <- clsum_add. apply clsum_ext. intros p Hp. rewrite HV by exact Hp. rewrite !PX by exact Hp. unfold pix. apply cplx_eq; cbn; ring.
  - rewrite C1, C2. rewrite clsum_add, !clsum_scal. apply cplx_eq; cbn; ring.
Qed.
Lemma coeff_opp v l : coeff (map (fun x => - (1) * x) v) l = cscal (- (1)) (coeff v l).
Proof.
  rewrite !coeff_sum, <- clsum_scal. apply clsum_ext. intros p Hp. unfold pix. replace (nth (fst p + fs_nx s * snd p) (map (fun x => - (1) * x) v) 0) with (- (1) * nth (fst p + fs_nx s * snd p) v 0).
  - apply cplx_eq; cbn; ring.
  - destruct (Nat.lt_ge_cases (fst p + fs_nx s * snd p) (length v)) as [L|L].
    + rewrite (nth_indep (map _ v) 0 (- (1) * 0)) by (rewrite map_length; exact L). rewrite (map_nth (fun x => - (1) * x)). reflexivity.
    + rewrite !nth_overflow by (rewrite ?map_length; exact L). ring.
Qed.
(** synthesis of a spin field *)
Lemma field_maps_spin spin e b : spin <> 0%Z -> length e = (fs_ny s * nhalf s)%nat -> length b = (fs_ny s * nhalf s)%nat ->
  exists q u, field_maps pi fsqrt ph s spin [e; b] = Ok [alm2map0 pi ph s q; alm2map0 pi ph s u] /\
    forall ix iy, (ix < nhalf s)%nat -> (iy < fs_ny s)%nat -> (nth (ix + nhalf s * iy) q c0, nth (ix + nhalf s * iy) u c0) = qu_of spin (rot_at pi fsqrt s spin ix iy) (nth (ix + nhalf s * iy) e c0) (nth (ix + nhalf s * iy) b c0).
Proof.
  intros Hs L1 L2. unfold field_maps. destruct (Z.eqb_spec spin 0) as [E|_]; [contradiction|]. change (rd [e; b] 0%Z) with (Ok e). change (rd [e; b] 1%Z) with (Ok b). cbn [bind]. unfold eb2qu.
  rewrite (rot_rows_all pi fsqrt qu_of s spin (rows_of s) _ (fs_ny s * nhalf s)) by (cbn [fst snd]; auto). cbn [bind]. eexists _, _. split; [reflexivity|].
  intros ix iy Ix Iy. destruct (half_index s ix iy Ix Iy) as [A [B C]]. rewrite !nth_tab by exact A. cbn [fst snd]. unfold at_index. rewrite B, C. destruct (qu_of _ _ _ _). reflexivity.
Qed.
Lemma half_freq ix : (ix < nhalf s)%nat -> freq (fs_nx s) ix = Z.of_nat ix.
Proof. intro H. unfold freq. unfold nhalf in H. pose proof (Nat.div_mod (fs_nx s) 2 ltac:(lia)). destruct (Nat.leb_spec (2 * ix) (fs_nx s)); lia. Qed.
Lemma half_lt ix : (ix < nhalf s)%nat -> (ix < fs_nx s)%nat.
Proof. intro H. unfold nhalf in H. pose proof (Nat.div_mod (fs_nx s) 2 ltac:(lia)). lia. Qed.
Lemma k2_half ix iy : (ix < nhalf s)%nat -> (iy < fs_ny s)%nat -> k2_pix pi s (ix + nhalf s * iy) = kp2 (ix, iy).
Proof. intros Ix Iy. destruct (half_index s ix iy Ix Iy) as [A [B C]]. unfold k2_pix. cbv zeta. rewrite B, C. unfold kp2, kpx, kpy, kx_pix, ky_pix. cbn [fst snd]. rewrite half_freq by exact Ix. rewrite fofZ_of_nat. reflexivity. Qed.
Lemma k_half ix iy : (ix < nhalf s)%nat -> (iy < fs_ny s)%nat -> k_pix pi fsqrt s (ix + nhalf s * iy) = kp (ix, iy).
Proof. intros. unfold k_pix. rewrite k2_half by assumption. reflexivity. Qed.
(** derivatives of the mask *)
Section Mask.
Variable mask : list F.
Hypothesis HW : forall m, In m (grid s) -> edge m -> coeff mask m = c0.
Notation W := (coeff mask).
Lemma W_flip m : In m (grid s) -> W (flip s m) = conjc (W m).
Proof. intro Hm. apply in_grid in Hm. destruct m as [x y]. cbn [fst snd] in Hm. unfold flip. cbn [fst snd]. apply (coeff_conj pi fsqrt ph s mask x y HR); tauto. Qed.
Lemma edge_flip m : In m (grid s) -> edge m -> edge (flip s m).
Proof. intros Hm. apply in_grid in Hm. unfold edge, flip. cbn [fst snd]. intros [E|E]; [left|right]; unfold opp_row; rewrite Nat.mod_small by lia; lia. Qed.
Lemma grad : exists w0 w1, field_maps pi fsqrt ph s 1 (walm_x_lpower pi fsqrt s (map2alm0 pi ph s mask) 1) = Ok [w0; w1] /\
  has_modes pi ph s w0 (fun m => cmul (0, - (kp m * dcos m)) (W m)) /\ has_modes pi ph s w1 (fun m => cmul (0, kp m * dsin m) (W m)).
Proof.
  destruct (field_maps_spin 1 (tab (fs_ny s * nhalf s) (fun i => cscal (- power (k_pix pi fsqrt s i) 1) (nth i (map2alm0 pi ph s mask) c0))) (tab (fs_ny s * nhalf s) (fun _ => c0))) as [q [u [E H]]]; [lia | apply length_tab | apply length_tab|].
  eexists _, _. split; [exact E|].
  assert (V : forall ix iy, (ix < nhalf s)%nat -> (iy < fs_ny s)%nat -> nth (ix + nhalf s * iy) q c0 = cmul (0, - (kp (ix, iy) * dcos (ix, iy))) (W (ix, iy)) /\ nth (ix + nhalf s * iy) u c0 = cmul (0, kp (ix, iy) * dsin (ix, iy)) (W (ix, iy))).
  { intros ix iy Ix Iy. specialize (H ix iy Ix Iy). destruct (half_index s ix iy Ix Iy) as [A _]. rewrite !nth_tab in H by exact A. rewrite nth_map2alm0, k_half in H by assumption.
    unfold qu_of, rot_at in H. change (cphi fsqrt (kxf pi s ix) (kyf pi s iy)) with (dir (ix, iy)) in H. unfold dcos, dsin. destruct (dir (ix, iy)) as [c sn]. change (Z.to_nat 1) with 1%nat in H. cbn [rotn fst snd power] in H.
    apply (f_equal (fun z => (fst z, snd z))) in H. cbn [fst snd] in H. injection H as H1 H2. rewrite H1, H2. cbn [fst snd]. change (sig 1 (-1)%Z : cplx) with ((- (1) * 0, - (1) * - (1)) : cplx). split; apply cplx_eq; unfold c0; cbn [cmul cscal cadd fst snd]; ring. }
  split; apply synthesis; try assumption; try (intros ix iy Ix Iy; apply V; assumption); intros m Hm; (destruct (edge_dec m) as [D|D];
    [rewrite (HW m Hm D), (HW (flip s m) (in_flip m Hm) (edge_flip m Hm D)); unfold c0; apply cplx_eq; cbn [cmul cscal conjc fst snd]; ring
    | destruct (flip_dir m Hm D) as [G1 G2]; rewrite ?G1, ?G2, W_flip by exact Hm; apply cplx_eq; cbn [cmul conjc fst snd]; ring]).
Qed.
Lemma hess : exists w0 w1, field_maps pi fsqrt ph s 2 (walm_x_lpower pi fsqrt s (map2alm0 pi ph s mask) 2) = Ok [w0; w1] /\
  has_modes pi ph s w0 (fun m => cscal (- ((kp m * dcos m) * (kp m * dcos m) - (kp m * dsin m) * (kp m * dsin m))) (W m)) /\ has_modes pi ph s w1 (fun m => cscal (fofZ 2 * ((kp m * dcos m) * (kp m * dsin m))) (W m)).
Proof.
  destruct (field_maps_spin 2 (tab (fs_ny s * nhalf s) (fun i => cscal (- power (k_pix pi fsqrt s i) 2) (nth i (map2alm0 pi ph s mask) c0))) (tab (fs_ny s * nhalf s) (fun _ => c0))) as [q [u [E H]]]; [lia | apply length_tab | apply length_tab|].
  eexists _, _. split; [exact E|].
  assert (V : forall ix iy, (ix < nhalf s)%nat -> (iy < fs_ny s)%nat -> nth (ix + nhalf s * iy) q c0 = (fun m => cscal (- ((kp m * dcos m) * (kp m * dcos m) - (kp m * dsin m) * (kp m * dsin m))) (W m)) (ix, iy) /\ nth (ix + nhalf s * iy) u c0 = (fun m => cscal (fofZ 2 * ((kp m * dcos m) * (kp m * dsin m))) (W m)) (ix, iy)).
  { intros ix iy Ix Iy. specialize (H ix iy Ix Iy). destruct (half_index s ix iy Ix Iy) as [A _]. rewrite !nth_tab in H by exact A. rewrite nth_map2alm0, k_half in H by assumption.
    unfold qu_of, rot_at in H. change (cphi fsqrt (kxf pi s ix) (kyf pi s iy)) with (dir (ix, iy)) in H. unfold dcos, dsin. destruct (dir (ix, iy)) as [c sn]. change (Z.to_nat 2) with 2%nat in H. cbn [rotn fst snd power] in H.
    apply (f_equal (fun z => (fst z, snd z))) in H. cbn [fst snd] in H. injection H as H1 H2. rewrite H1, H2. cbn [fst snd]. change (sig 2 (-2)%Z : cplx) with ((- (1) * - (1), - (1) * 0) : cplx). change (fofZ 2 : F) with ((1 : F) + 1). split; apply cplx_eq; unfold c0; cbn [cmul cscal cadd fst snd]; ring. }
  split; apply synthesis; try assumption; try (intros ix iy Ix Iy; apply V; assumption); intros m Hm; (destruct (edge_dec m) as [D|D];
    [rewrite (HW m Hm D), (HW (flip s m) (in_flip m Hm) (edge_flip m Hm D)); unfold c0; apply cplx_eq; cbn [cmul cscal conjc fst snd]; ring
    | destruct (flip_dir m Hm D) as [G1 G2]; rewrite ?G1, ?G2, W_flip by exact Hm; apply cplx_eq; cbn [cscal conjc fst snd]; ring]).
Qed.
(** coefficients of the purified maps *)
Definition rat (l q : nat * nat) : F := kp q / kp l.
Definition alpha (l q : nat * nat) : F :=
  (dcos l * dcos l - dsin l * dsin l) - fofZ 2 * rat l q * (dcos l * dcos q - dsin l * dsin q) + rat l q * rat l q * (dcos q * dcos q - dsin q * dsin q).
Definition beta (l q : nat * nat) : F :=
  fofZ 2 * (dcos l * dsin l) - fofZ 2 * rat l q * (dsin l * dcos q + dcos l * dsin q) + rat l q * rat l q * (fofZ 2 * (dcos q * dsin q)).
Definition tot (f : nat * nat -> cplx) : cplx := cscal (1 / area pi s) (clsum (grid s) f).
Lemma tot_add f g : cadd (tot f) (tot g) = tot (fun q => cadd (f q) (g q)).
Proof. clear. unfold tot. rewrite clsum_add. apply cplx_eq; cbn; ring. Qed.
Lemma tot_scal a f : cscal a (tot f) = tot (fun q => cscal a (f q)).
Proof. clear. unfold tot. rewrite clsum_scal. apply cplx_eq; cbn; ring. Qed.
Lemma tot_sub f g : csub (tot f) (tot g) = tot (fun q => csub (f q) (g q)).
Proof. clear. transitivity (cadd (tot f) (cscal (- (1)) (tot g))); [apply cplx_eq; cbn; ring|]. rewrite tot_scal, tot_add. unfold tot. f_equal. apply clsum_ext'. intro q. apply cplx_eq; cbn; ring. Qed.
Lemma tot_mul c f : cmul c (tot f) = tot (fun q => cmul c (f q)).
Proof. clear. unfold tot. rewrite clsum_mul_l. apply cplx_eq; cbn; ring. Qed.
Lemma tot_ext f g : (forall q, In q (grid s) -> f q = g q) -> tot f = tot g.
Proof. clear. intro H. unfold tot. rewrite (clsum_ext _ f g H). reflexivity. Qed.
Definition conv (f : nat * nat -> cplx) : cplx := tot (fun q => cmul (W q) (f q)).
Lemma purify_spec flags (q u : list F) : exists e b maps, purify_flat pi fsqrt ph s flags mask (map2alm0 pi ph s mask) [q; u] = Ok ([e; b], maps) /\ length e = (fs_ny s * nhalf s)%nat /\ length b = (fs_ny s * nhalf s)%nat /\
  forall ix iy, (ix < nhalf s)%nat -> (iy < fs_ny s)%nat -> (ix, iy) <> (0, 0)%nat -> let l := (ix, iy) in
    nth (ix + nhalf s * iy) e c0 = conv (fun q' => let p := diff_mode s l q' in
      let al := if fst flags then alpha l q' else dcos l * dcos l - dsin l * dsin l in let be := if fst flags then beta l q' else fofZ 2 * (dcos l * dsin l) in csub (cscal al (coeff q p)) (cscal be (coeff u p))) /\
    nth (ix + nhalf s * iy) b c0 = conv (fun q' => let p := diff_mode s l q' in
      let al := if snd flags then alpha l q' else dcos l * dcos l - dsin l * dsin l in let be := if snd flags then beta l q' else fofZ 2 * (dcos l * dsin l) in cadd (cscal be (coeff q p)) (cscal al (coeff u p))).
Proof.
  destruct grad as [w0 [w1 [EW [G0 G1]]]]. destruct hess as [v0 [v1 [EV [V0 V1]]]].
  destruct (map2alm_spin pi fsqrt ph s 2 (product s mask q) (product s mask u)) as [e0 [b0 [E0 [Le0 [Lb0 H0]]]]]; [lia|].
  set (m1 := spin_product s [w0; w1] [q; u]). destruct (map2alm_spin pi fsqrt ph s 1 (nth 0 m1 []) (nth 1 m1 [])) as [e1 [b1 [E1 [Le1 [Lb1 H1]]]]]; [lia|].
  set (m2 := spin_product s [v0; v1] [q; u]).
  unfold purify_flat. cbn [map]. rewrite E0. cbn [bind]. rewrite EW. cbn [bind]. change (spin_product s [w0; w1] [q; u]) with [nth 0 m1 []; nth 1 m1 []]. rewrite E1. cbn [bind]. rewrite EV. cbn [bind]. cbv zeta.
  set (a1 := add_term s flags (fun i => 0 <? k_pix pi fsqrt s i) (fun i => fofZ 2 / k_pix pi fsqrt s i) [e0; b0] [e1; b1]).
  set (p2 := map (fun m => map2alm0 pi ph s (map (fun x => - (1) * x) m)) (spin_product s [v0; v1] [q; u])).
  set (a2 := add_term s flags (fun i => 0 <? k2_pix pi s i) (fun i => 1 / k2_pix pi s i) a1 p2).
  assert (L1 : length (nth 0 a1 []) = (fs_ny s * nhalf s)%nat /\ length (nth 1 a1 []) = (fs_ny s * nhalf s)%nat) by (unfold a1, add_term; cbn [nth]; destruct (fst flags), (snd flags); rewrite ?length_tab; tauto).
  assert (L2 : length (nth 0 a2 []) = (fs_ny s * nhalf s)%nat /\ length (nth 1 a2 []) = (fs_ny s * nhalf s)%nat) by (unfold a2, add_term; cbn [nth]; destruct (fst flags), (snd flags); rewrite ?length_tab; tauto).
  assert (EA : a2 = [nth 0 a2 []; nth 1 a2 []]) by reflexivity. rewrite EA.
  destruct (field_maps_spin 2 (nth 0 a2 []) (nth 1 a2 [])) as [oq [ou [EO _]]]; [lia | tauto | tauto|]. rewrite EO. cbn [bind].
  eexists _, _, _. split; [reflexivity|]. split; [tauto|]. split; [tauto|]. clear EO oq ou EA E0 E1 EW EV.
  intros ix iy Ix Iy NZ. set (l := (ix, iy)) in *. destruct (half_index s ix iy Ix Iy) as [A [B C]].
  assert (Hl : In l (grid s)) by (apply in_grid; cbn; split; [apply half_lt; exact Ix | exact Iy]).
  pose proof (kp_pos l Hl NZ) as KP. pose proof (kp2_pos l Hl NZ) as KP2.
  (* the three terms *)
  assert (T2 : forall v, nth (ix + nhalf s * iy) (map2alm0 pi ph s (map (fun x => - (1) * x) v)) c0 = cscal (- (1)) (coeff v l)) by (intro v; rewrite nth_map2alm0 by assumption; apply coeff_opp).
  assert (S1 : fst flags = true -> nth (ix + nhalf s * iy) (nth 0 a2 []) c0 = cadd (cadd (nth (ix + nhalf s * iy) e0 c0) (cscal (fofZ 2 / kp l) (nth (ix + nhalf s * iy) e1 c0))) (cscal (1 / kp2 l) (cscal (- (1)) (coeff (nth 0 m2 []) l)))).
  { intro FE. unfold a2, add_term. cbn [nth]. rewrite FE. rewrite nth_tab by exact A. rewrite k2_half by assumption. fold l. rewrite (KP2 : (0 <? kp2 l) = true). unfold a1, add_term. cbn [nth]. rewrite FE. rewrite nth_tab by exact A. rewrite k_half by assumption. fold l. rewrite (KP : (0 <? kp l) = true). unfold p2. cbn [spin_product map nth]. rewrite T2. reflexivity. }
  assert (S2 : snd flags = true -> nth (ix + nhalf s * iy) (nth 1 a2 []) c0 = cadd (cadd (nth (ix + nhalf s * iy) b0 c0) (cscal (fofZ 2 / kp l) (nth (ix + nhalf s * iy) b1 c0))) (cscal (1 / kp2 l) (cscal (- (1)) (coeff (nth 1 m2 []) l)))).
  { intro FE. unfold a2, add_term. cbn [nth]. rewrite FE. rewrite nth_tab by exact A. rewrite k2_half by assumption. fold l. rewrite (KP2 : (0 <? kp2 l) = true). unfold a1, add_term. cbn [nth]. rewrite FE. rewrite nth_tab by exact A. rewrite k_half by assumption. fold l. rewrite (KP : (0 <? kp l) = true). unfold p2. cbn [spin_product map nth]. rewrite T2. reflexivity. }
  assert (S1' : fst flags = false -> nth 0 a2 [] = e0) by (intro FE; unfold a2, add_term; cbn [nth]; rewrite FE; unfold a1, add_term; cbn [nth]; rewrite FE; reflexivity).
  assert (S2' : snd flags = false -> nth 1 a2 [] = b0) by (intro FE; unfold a2, add_term; cbn [nth]; rewrite FE; unfold a1, add_term; cbn [nth]; rewrite FE; reflexivity).
  clearbody a2 p2. clear T2 L1 L2 a1.
  assert (PX : forall (f : nat -> F) p, In p (grid s) -> pix s (tab (npix_fs s) f) p = f (fst p + fs_nx s * snd p)%nat) by (intros f p Hp; apply in_grid in Hp; unfold pix; apply nth_tab; unfold npix_fs; nia).
  assert (CW := coeff_modes pi ph s mask HR HH HF Hpi).
  assert (P0 : forall x, coeff (product s mask x) l = tot (fun q' => cmul (W q') (coeff x (diff_mode s l q')))).
  { intro x. apply (coeff_product pi ph s mask x (product s mask x) W l HH Hpi Hx Hy CW); [|exact Hl]. intros p Hp. unfold product. rewrite PX by exact Hp. unfold pix. ring. }
  specialize (H0 ix iy Ix Iy). specialize (H1 ix iy Ix Iy). unfold full_eb, eb_of, rot_at in H0, H1. cbn [fst snd] in H0, H1. fold l in H0, H1. change (cphi fsqrt (kxf pi s ix) (kyf pi s iy)) with (dir l) in H0, H1.
  assert (M10 := coeff_mix (nth 0 m1 []) w0 q w1 u _ _ 1 1 l G0 G1 ltac:(intros p Hp; unfold m1, spin_product; cbn [nth]; rewrite PX by exact Hp; unfold pix; ring) Hl).
  assert (M11 := coeff_mix (nth 1 m1 []) w0 u w1 q _ _ 1 (- (1)) l G0 G1 ltac:(intros p Hp; unfold m1, spin_product; cbn [nth]; rewrite PX by exact Hp; unfold pix; ring) Hl).
  assert (M20 := coeff_mix (nth 0 m2 []) v0 q v1 u _ _ 1 1 l V0 V1 ltac:(intros p Hp; unfold m2, spin_product; cbn [nth]; rewrite PX by exact Hp; unfold pix; ring) Hl).
  assert (M21 := coeff_mix (nth 1 m2 []) v0 u v1 q _ _ 1 (- (1)) l V0 V1 ltac:(intros p Hp; unfold m2, spin_product; cbn [nth]; rewrite PX by exact Hp; unfold pix; ring) Hl).
  match type of M10 with _ = ?z => match z with cscal _ (clsum _ ?f) => change z with (tot f) in M10 end end. match type of M11 with _ = ?z => match z with cscal _ (clsum _ ?f) => change z with (tot f) in M11 end end.
  match type of M20 with _ = ?z => match z with cscal _ (clsum _ ?f) => change z with (tot f) in M20 end end. match type of M21 with _ = ?z => match z with cscal _ (clsum _ ?f) => change z with (tot f) in M21 end end.
  rewrite !P0 in H0. rewrite M10, M11 in H1. rewrite M20 in S1. rewrite M21 in S2. clear M10 M11 M20 M21 P0 PX CW.
  pose proof (kp_sq l) as KQ. assert (NK : kp l <> 0) by (apply fpos_neq; exact KP). rewrite <- KQ in S1, S2.
  unfold conv, alpha, beta, rat.
  assert (ED : dir l = (dcos l, dsin l)) by (unfold dcos, dsin; destruct (dir l); reflexivity). rewrite ED in H0, H1. change (Z.to_nat 2) with 2%nat in H0. change (Z.to_nat 1) with 1%nat in H1. cbn [rotn fst snd] in H0, H1.
  change (sig 2 2 : cplx) with ((- (1) * - (1), - (1) * 0) : cplx) in H0. change (sig 1 1 : cplx) with ((- (1) * 0, - (1) * 1) : cplx) in H1.
  rewrite !tot_scal, tot_sub, tot_add, !tot_mul in H0, H1. injection H0 as A0 B0. injection H1 as A1 B1.
  change (fofZ 2 : F) with ((1 : F) + 1) in *. split.
  - destruct (fst flags).
    + rewrite (S1 eq_refl), A0, A1. rewrite !tot_scal, !tot_add. apply tot_ext. intros q' Hq. cbv zeta. set (x := coeff q _). set (y := coeff u _). apply cplx_eq; cbn [cmul cscal cadd csub fst snd]; field; exact NK.
    + rewrite (S1' eq_refl), A0. apply tot_ext. intros q' Hq. cbv zeta. set (x := coeff q _). set (y := coeff u _). apply cplx_eq; cbn [cmul cscal cadd csub fst snd]; ring.
  - destruct (snd flags).
    + rewrite (S2 eq_refl), B0, B1. rewrite !tot_scal, !tot_add. apply tot_ext. intros q' Hq. cbv zeta. set (x := coeff q _). set (y := coeff u _). apply cplx_eq; cbn [cmul cscal cadd csub fst snd]; field; exact NK.
    + rewrite (S2' eq_refl), B0. apply tot_ext. intros q' Hq. cbv zeta. set (x := coeff q _). set (y := coeff u _). apply cplx_eq; cbn [cmul cscal cadd csub fst snd]; ring.
Qed.
End Mask.
End P.
End LPure.
