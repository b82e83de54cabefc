(** Lemmas: mean of the products of the E/B coefficients of masked maps of any spin. *)
From Verif Require Import Base M_Utils M_Bins M_FlatBins M_LinAlg M_Workspace M_Flat M_WspFlat P_FlatBins L_LinAlg L_Flat L_Flat2 L_Flat3 P_Flat L_FITS L_MCM L_WspFlat L_WspFlat2 L_FlatMean.
From Coq Require Import Permutation.
Open Scope nat_scope.

Section LMeanSpin.
Context {F : ofield}.
Local Open Scope F_scope.
Add Field FfMeS : (fth F).
Notation mat := (list (list F)).
Notation cplx := (cplx F).
Notation fsinfo := (fsinfo F).
Notation fbins := (fbins F).
Notation cuts := (cuts F).
Notation ffield := (ffield F).
Notation fwsp := (fwsp F).

Definition n_maps (spin : Z) : nat := if (spin =? 0)%Z then 1%nat else 2%nat.
Lemma n_maps_pos spin : (0 < n_maps spin)%nat. Proof. unfold n_maps. destruct (_ =? _)%Z; lia. Qed.
(** Im(x y-star) *)
Definition imc (x y : cplx) : F := snd x * fst y - fst x * snd y.
(** amplitude in component x (Q,U) of a unit mode of kind c (E,B) with rotation r, up to the phase of the convention *)
Definition amp (spin : Z) (r : F * F) (c x : nat) : F :=
  if (spin =? 0)%Z then 1 else match c, x with O, O => fst r | O, _ => - snd r | _, O => snd r | _, _ => fst r end.
(** the maps of a unit mode: Q and U of an E (c=0) or B (c=1) mode *)
Definition unit_mode (spin : Z) (r : F * F) (c x : nat) : cplx :=
  if (spin =? 0)%Z then (1, 0)
  else let (q, u) := qu_of spin r (if Nat.eqb c 0 then (1, 0) else (0, 0)) (if Nat.eqb c 0 then (0, 0) else (1, 0)) in if Nat.eqb x 0 then q else u.
Lemma unit_mode_eq spin r c x : unit_mode spin r c x = cscal (amp spin r c x) (sig spin (- spin)).
Proof.
  unfold unit_mode, amp. destruct (Z.eqb_spec spin 0) as [->|N].
  - apply cplx_eq; cbn; ring.
  - unfold qu_of. destruct c as [|c], x as [|x]; cbn [Nat.eqb]; apply cplx_eq; unfold cmul, cadd, cscal; cbn [fst snd]; ring.
Qed.
Lemma eb_amp spin r q u : spin <> 0%Z ->
  eb_of spin r q u = (cmul (sig spin spin) (cadd (cscal (amp spin r 0 0) q) (cscal (amp spin r 0 1) u)), cmul (sig spin spin) (cadd (cscal (amp spin r 1 0) q) (cscal (amp spin r 1 1) u))).
Proof. intro N. unfold eb_of, amp. destruct (Z.eqb_spec spin 0) as [E|_]; [contradiction|]. f_equal; apply cplx_eq; unfold cmul, cadd, csub, cscal; cbn [fst snd]; ring. Qed.
(** rotation by the difference of two angles *)
Definition dmat (spin : Z) (r r' : F * F) (a c : nat) : F := sum (n_maps spin) (fun x => amp spin r a x * amp spin r' c x).
Lemma amp_scale spin e (r : F * F) c x : amp spin (e * fst r, e * snd r) c x = (if (spin =? 0)%Z then 1 else e) * amp spin r c x.
Proof. unfold amp. destruct (spin =? 0)%Z; [ring|]. destruct c, x; cbn [fst snd]; ring. Qed.
Lemma rotn_one n : rotn n (1 : F) 0 = (1, 0).
Proof. induction n as [|n IH]; [reflexivity|]. cbn [rotn]. rewrite IH. f_equal; ring. Qed.
Lemma rotn_mirror (c sn : F) n : rotn n c (- sn) = (fst (rotn n c sn), - snd (rotn n c sn)).
Proof. induction n as [|n IH]; [cbn; f_equal; ring|]. cbn [rotn]. rewrite IH. destruct (rotn n c sn) as [x y]. cbn [fst snd]. f_equal; ring. Qed.
Lemma cdot_phase (g1 g2 x y : cplx) : cdot (cmul g1 x) (cmul g2 y) = cdot (cmul (cmul g1 (conjc g2)) x) y.
Proof. unfold cdot, cmul, conjc. cbn [fst snd]. ring. Qed.
Lemma sq_sum_zero (x y : F) : (x * x + y * y <=? 0) = true -> x = 0 /\ y = 0.
Proof.
  intro H. assert (G : forall a b : F, (a * a + b * b <=? 0) = true -> a = 0).
  { clear. intros a b H. pose proof (fsqr_nonneg a) as P1. pose proof (fsqr_nonneg b) as P2.
    assert (Z : a * a = 0). { apply fle_antisym; [|exact P1]. eapply fle_trans; [|exact H]. replace (a * a) with (a * a + 0) at 1 by ring. apply fle_add; [apply fle_refl | exact P2]. }
    destruct (feqb a 0) eqn:Q; [apply feqb_eq; exact Q|]. exfalso. assert (N : a <> 0) by (intro W; apply feqb_eq in W; congruence).
    apply N. transitivity (a * a / a); [field; exact N|]. rewrite Z. field. exact N. }
  split; [exact (G x y H)|]. apply (G y x). replace (y * y + x * x) with (x * x + y * y) by ring. exact H.
Qed.
Section M.
Variables (pi : F) (fsqrt : F -> F) (ph : nat -> nat -> cplx).
Notation kmod_of := (kmod_of pi fsqrt).
Notation modes := (modes pi fsqrt).
Notation wave := (wave ph).
Notation coeff := (coeff pi ph).
Definition rot (s : fsinfo) (spin : Z) (m : nat * nat) : F * F := rot_at pi fsqrt s spin (fst m) (snd m).
(** mean of a product of two complex coefficients, with a phase *)
Lemma mean_product_c (s : fsinfo) (w1 w2 : list F) (K : nat) (pr : nat -> F) (t1 t2 : nat -> list F) (a : nat * nat -> F) (G h : cplx) m :
  hom_roots ph s -> In m (grid s) -> length w1 = (fs_nx s * fs_ny s)%nat -> length w2 = (fs_nx s * fs_ny s)%nat ->
  (forall k, (k < K)%nat -> length (t1 k) = (fs_nx s * fs_ny s)%nat /\ length (t2 k) = (fs_nx s * fs_ny s)%nat) ->
  (forall p p', In p (grid s) -> In p' (grid s) -> sum K (fun k => pr k * (pix s (t1 k) p * pix s (t2 k) p')) =
     1 / (fs_lx s * fs_ly s) * lsum (map (fun m2 => a m2 * cdot (cmul G (conjc (wave s m2 p))) (conjc (wave s m2 p'))) (grid s))) ->
  (forall p p', In p (grid s) -> In p' (grid s) -> lsum (map (fun m2 => a m2 * imc (cmul G (conjc (wave s m2 p))) (conjc (wave s m2 p'))) (grid s)) = 0) ->
  sum K (fun k => pr k * cdot (cmul h (coeff s (times_mask w1 (t1 k)) m)) (coeff s (times_mask w2 (t2 k)) m)) =
  1 / (fs_lx s * fs_ly s) * lsum (map (fun m2 => a m2 * cdot (cmul (cmul h G) (coeff s w1 (diff_mode s m m2))) (coeff s w2 (diff_mode s m m2))) (grid s)).
Proof.
  intros HH Hm L1 L2 Lt HC HO. set (N := norm_m2a pi s).
  assert (Px : forall p, In p (grid s) -> (fst p + fs_nx s * snd p < fs_nx s * fs_ny s)%nat) by (intros p Hp; apply in_grid in Hp; nia).
  assert (CM : forall (g : cplx) l (f : nat * nat -> cplx), cmul g (clsum l f) = clsum l (fun p => cmul g (f p))).
  { intros g l f. unfold clsum, cmul. cbn [fst snd]. rewrite <- !lsum_mul_l. f_equal.
    - replace (lsum (map (fun p => fst g * fst (f p)) l) - lsum (map (fun p => snd g * snd (f p)) l)) with (lsum (map (fun p => fst g * fst (f p)) l) + - (1) * lsum (map (fun p => snd g * snd (f p)) l)) by ring. rewrite <- lsum_mul_l, <- lsum_add. apply lsum_ext. intros; ring.
    - rewrite <- lsum_add. apply lsum_ext. intros; ring. }
  set (A := 1 / (fs_lx s * fs_ly s)) in *.
  transitivity (lsum (map (fun p => lsum (map (fun p' => N * N * (pix s w1 p * pix s w2 p') * cdot (cmul h (wave s m p)) (wave s m p') * (A * lsum (map (fun m2 => a m2 * cdot (cmul G (conjc (wave s m2 p))) (conjc (wave s m2 p'))) (grid s)))) (grid s))) (grid s))).
  - rewrite (sum_ext _ _ (fun k => lsum (map (fun p => lsum (map (fun p' => N * N * (pix s w1 p * pix s w2 p') * cdot (cmul h (wave s m p)) (wave s m p') * (pr k * (pix s (t1 k) p * pix s (t2 k) p'))) (grid s))) (grid s)))).
    + rewrite <- lsum_swap. apply lsum_ext. intros p Hp. rewrite <- lsum_swap. apply lsum_ext. intros p' Hp'. rewrite sum_mul_l. rewrite (HC p p' Hp Hp'). reflexivity.
    + intros k Hk. destruct (Lt k Hk) as [A1 A2]. rewrite !coeff_sum, CM, cdot_clsum, <- lsum_mul_l. apply lsum_ext. intros p Hp. rewrite <- lsum_mul_l. apply lsum_ext. intros p' Hp'. fold N.
      unfold pix at 1 2, times_mask. rewrite A1, A2. rewrite !nth_tab by (apply Px; assumption). fold (pix s (t1 k) p) (pix s (t2 k) p') (pix s w1 p) (pix s w2 p'). unfold cdot, cmul, cscal. cbn [fst snd]. ring.
  - symmetry. rewrite <- lsum_mul_l. rewrite (lsum_ext _ (fun m2 => lsum (map (fun p => lsum (map (fun p' => N * N * (pix s w1 p * pix s w2 p') * A *
        (a m2 * (cdot (cmul h (wave s m p)) (wave s m p') * cdot (cmul G (conjc (wave s m2 p))) (conjc (wave s m2 p')) -
           imc (cmul h (wave s m p)) (wave s m p') * imc (cmul G (conjc (wave s m2 p))) (conjc (wave s m2 p'))))) (grid s))) (grid s))) (grid s)).
    + rewrite lsum_swap2. apply lsum_ext. intros p Hp. rewrite lsum_swap2. apply lsum_ext. intros p' Hp'. rewrite lsum_mul_l.
      rewrite (lsum_ext _ (fun m2 => cdot (cmul h (wave s m p)) (wave s m p') * (a m2 * cdot (cmul G (conjc (wave s m2 p))) (conjc (wave s m2 p'))) +
        - imc (cmul h (wave s m p)) (wave s m p') * (a m2 * imc (cmul G (conjc (wave s m2 p))) (conjc (wave s m2 p'))))) by (intros; ring).
      rewrite lsum_add, !lsum_mul_l. rewrite (HO p p' Hp Hp'). ring.
    + intros m2 Hm2. rewrite !coeff_sum, CM, cdot_clsum, <- !lsum_mul_l. apply lsum_ext. intros p Hp. rewrite <- !lsum_mul_l. apply lsum_ext. intros p' Hp'. fold N. rewrite !(wave_diff pi fsqrt ph s m m2) by assumption.
      unfold cdot, imc, cmul, conjc, cscal. cbn [fst snd]. ring.
Qed.
(** ** Opposite modes *)
(** modes whose opposite is not on the grid *)
Definition edge (s : fsinfo) (m : nat * nat) : Prop := (2 * fst m = fs_nx s)%nat \/ (2 * snd m = fs_ny s)%nat.
Lemma freq_flip n i : (i < n)%nat -> (2 * i)%nat <> n -> freq n (opp_row n i) = (- freq n i)%Z.
Proof.
  intros Hi Hn. destruct (freq_opp n i Hi) as [E|E]; [exact E|]. assert (i = 0)%nat as ->. { unfold opp_row in E. destruct (Nat.eq_dec i 0) as [Z|Z]; [exact Z|]. rewrite Nat.mod_small in E by lia. lia. }
  rewrite E. reflexivity.
Qed.
Lemma kx_flip (s : fsinfo) m : In m (grid s) -> ~ edge s m -> kxf pi s (fst (flip s m)) = - kxf pi s (fst m).
Proof. rewrite in_grid. unfold edge. intros [H1 H2] HE. unfold kxf, flip. cbn [fst]. rewrite freq_flip by tauto. rewrite fofZ_opp. ring. Qed.
Lemma ky_flip (s : fsinfo) m : In m (grid s) -> ~ edge s m -> kyf pi s (snd (flip s m)) = - kyf pi s (snd m).
Proof. rewrite in_grid. unfold edge. intros [H1 H2] HE. unfold kyf, flip. cbn [snd]. rewrite freq_flip by tauto. rewrite fofZ_opp. ring. Qed.
Definition par (spin : Z) : F := if Z.even spin then 1 else - (1).
Lemma par_sq spin : par spin * par spin = 1. Proof. unfold par. destruct (Z.even spin); ring. Qed.
Lemma amp_flip (s : fsinfo) spin m c x : (0 <= spin)%Z -> In m (grid s) -> ~ edge s m ->
  ~ (kxf pi s (fst m) = 0 /\ kyf pi s (snd m) = 0) -> amp spin (rot s spin (flip s m)) c x = par spin * amp spin (rot s spin m) c x.
Proof.
  intros Hs Hm HE HZ. unfold rot, rot_at. rewrite (kx_flip s m Hm HE), (ky_flip s m Hm HE). rewrite cphi_opp.
  - destruct (cphi fsqrt (kxf pi s (fst m)) (kyf pi s (snd m))) as [co sn]. cbn [fst snd]. rewrite rotn_opp. cbv zeta. rewrite (even_nat pi fsqrt) by exact Hs. rewrite amp_scale. unfold par. destruct (Z.eqb_spec spin 0) as [->|_]; reflexivity.
  - destruct (_ <=? 0) eqn:E; [|reflexivity]. exfalso. apply HZ. apply sq_sum_zero. exact E.
Qed.
Lemma amp_flip0 (s : fsinfo) spin m c x : In m (grid s) -> ~ edge s m ->
  kxf pi s (fst m) = 0 /\ kyf pi s (snd m) = 0 -> amp spin (rot s spin (flip s m)) c x = amp spin (rot s spin m) c x.
Proof.
  intros Hm HE [Z1 Z2]. unfold rot, rot_at. rewrite (kx_flip s m Hm HE), (ky_flip s m Hm HE), Z1, Z2. replace (- (0 : F)) with (0 : F) by ring. reflexivity.
Qed.
(** spectra without power at the edges of the plane; no constant if the spins have different parities *)
Definition no_edge_power (s : fsinfo) (spin1 spin2 : Z) (P : nat -> F -> F) : Prop :=
  (forall j m, In m (grid s) -> edge s m -> P j (kmod_of s m) = 0) /\
  (Z.even spin1 = Z.even spin2 \/ forall j m, In m (grid s) -> kxf pi s (fst m) = 0 -> kyf pi s (snd m) = 0 -> P j (kmod_of s m) = 0).
(** covariance of component x of the first map and y of the second one at mode m, without the phase *)
Definition acov (s : fsinfo) (spin1 spin2 : Z) (P : nat -> F -> F) (x y : nat) (m : nat * nat) : F :=
  sum (n_maps spin1) (fun c => sum (n_maps spin2) (fun d => P (c * n_maps spin2 + d)%nat (kmod_of s m) * (amp spin1 (rot s spin1 m) c x * amp spin2 (rot s spin2 m) d y))).
Lemma acov_flip (s : fsinfo) spin1 spin2 P x y m : (0 <= spin1)%Z -> (0 <= spin2)%Z -> no_edge_power s spin1 spin2 P -> In m (grid s) ->
  acov s spin1 spin2 P x y (flip s m) = par spin1 * par spin2 * acov s spin1 spin2 P x y m.
Proof.
  intros H1 H2 [HE HZ] Hm. unfold acov. rewrite (kmod_flip pi fsqrt s m Hm). rewrite <- sum_mul_l. apply sum_ext. intros c _. rewrite <- sum_mul_l. apply sum_ext. intros d _.
  assert (DE : edge s m \/ ~ edge s m) by (unfold edge; destruct (Nat.eq_dec (2 * fst m) (fs_nx s)), (Nat.eq_dec (2 * snd m) (fs_ny s)); tauto).
  destruct DE as [E|E]; [rewrite (HE _ m Hm E); ring|].
  assert (DZ : (kxf pi s (fst m) = 0 /\ kyf pi s (snd m) = 0) \/ ~ (kxf pi s (fst m) = 0 /\ kyf pi s (snd m) = 0)).
  { destruct (feqb (kxf pi s (fst m)) 0) eqn:Q1; [|right; intros [W _]; apply feqb_eq in W; congruence]. destruct (feqb (kyf pi s (snd m)) 0) eqn:Q2; [|right; intros [_ W]; apply feqb_eq in W; congruence]. left. split; apply feqb_eq; assumption. }
  destruct DZ as [Z|Z].
  - rewrite !amp_flip0 by assumption. destruct HZ as [HZ|HZ]; [|destruct Z; rewrite (HZ _ m) by assumption; ring].
    unfold par. rewrite HZ. destruct (Z.even spin2); ring.
  - rewrite !amp_flip by assumption. ring.
Qed.
Definition gphase (spin1 spin2 : Z) : cplx := cmul (sig spin1 (- spin1)) (conjc (sig spin2 (- spin2))).
Lemma gphase_conj spin1 spin2 : conjc (gphase spin1 spin2) = cscal (par spin1 * par spin2) (gphase spin1 spin2).
Proof.
  pose proof (sig_conj pi fsqrt spin1 (- spin1)) as E1. pose proof (sig_conj pi fsqrt spin2 (- spin2)) as E2. rewrite Z.even_opp in E1, E2. fold (par spin1) in E1. fold (par spin2) in E2.
  unfold gphase. rewrite conj_mul. rewrite E1 at 1. rewrite E2 at 1. rewrite conj_scal. apply cplx_eq; unfold cmul, cscal, conjc; cbn [fst snd]; ring.
Qed.
Lemma acov_odd (s : fsinfo) spin1 spin2 P x y p p' : (0 <= spin1)%Z -> (0 <= spin2)%Z -> no_edge_power s spin1 spin2 P -> conj_roots ph s ->
  lsum (map (fun m2 => acov s spin1 spin2 P x y m2 * imc (cmul (gphase spin1 spin2) (conjc (wave s m2 p))) (conjc (wave s m2 p'))) (grid s)) = 0.
Proof.
  intros H1 H2 HP HR. set (S := lsum _). assert (E : S = - S).
  { unfold S at 1. rewrite <- lsum_flip. replace (- S) with ((- (1)) * S) by ring. unfold S. rewrite <- lsum_mul_l. apply lsum_ext. intros m Hm. rewrite (acov_flip s spin1 spin2 P x y m H1 H2 HP Hm), !(wave_flip pi fsqrt ph s m) by assumption.
    set (e := par spin1 * par spin2). pose proof (gphase_conj spin1 spin2) as GC. fold e in GC. set (G := gphase spin1 spin2) in *. assert (EF : fst G = e * fst G) by (apply (f_equal fst) in GC; exact GC). assert (ES : - snd G = e * snd G) by (apply (f_equal snd) in GC; exact GC).
    set (w := wave s m p). set (w' := wave s m p'). set (av := acov s spin1 spin2 P x y m). unfold imc, cmul, conjc. cbn [fst snd].
    transitivity (av * ((e * snd G * fst w + e * fst G * - - snd w) * fst w' - (e * fst G * fst w - e * snd G * - - snd w) * - - snd w')); [ring|]. rewrite <- EF, <- ES. ring. }
  assert (T : fofZ 2 * S = 0). { replace (fofZ 2 * S) with (S + S) by (cbn; ring). rewrite E at 1. ring. }
  assert (N : (fofZ 2 : F) <> 0) by (apply fofZ_neq0; lia). replace S with (fofZ 2 * S / fofZ 2) by (field; exact N). rewrite T. field. exact N.
Qed.
(** ** Coefficients of maps of any spin *)
(** coefficient of kind a (E,B) of a set of maps *)
Definition full_alm (s : fsinfo) (spin : Z) (maps : mat) (a : nat) (m : nat * nat) : cplx :=
  if (spin =? 0)%Z then coeff s (nth 0 maps []) m
  else let (e, b) := full_eb pi fsqrt ph s spin (nth 0 maps []) (nth 1 maps []) m in if Nat.eqb a 0 then e else b.
(** covariance of maps of two statistically isotropic fields: component x of the first one and y of the second one *)
Definition iso_cov_spin (s : fsinfo) (spin1 spin2 : Z) (P : nat -> F -> F) (x y : nat) (p p' : nat * nat) : F :=
  1 / (fs_lx s * fs_ly s) * lsum (map (fun m => sum (n_maps spin1) (fun c => sum (n_maps spin2) (fun d => P (c * n_maps spin2 + d)%nat (kmod_of s m) *
    cdot (cmul (unit_mode spin1 (rot s spin1 m) c x) (conjc (wave s m p))) (cmul (unit_mode spin2 (rot s spin2 m) d y) (conjc (wave s m p')))))) (grid s)).
Lemma iso_cov_spin_eq (s : fsinfo) spin1 spin2 P x y p p' : iso_cov_spin s spin1 spin2 P x y p p' =
  1 / (fs_lx s * fs_ly s) * lsum (map (fun m2 => acov s spin1 spin2 P x y m2 * cdot (cmul (gphase spin1 spin2) (conjc (wave s m2 p))) (conjc (wave s m2 p'))) (grid s)).
Proof.
  unfold iso_cov_spin. f_equal. apply lsum_ext. intros m _. unfold acov. rewrite <- sum_mul_r. apply sum_ext. intros c _. rewrite <- sum_mul_r. apply sum_ext. intros d _.
  rewrite !unit_mode_eq. unfold gphase, cdot, cmul, cscal, conjc. cbn [fst snd]. ring.
Qed.
Lemma full_cdot (s : fsinfo) spin1 spin2 (q1 q2 : mat) a b m :
  cdot (full_alm s spin1 q1 a m) (full_alm s spin2 q2 b m) =
  sum (n_maps spin1) (fun x => sum (n_maps spin2) (fun y => amp spin1 (rot s spin1 m) a x * amp spin2 (rot s spin2 m) b y *
    cdot (cmul (cmul (sig spin1 spin1) (conjc (sig spin2 spin2))) (coeff s (nth x q1 []) m)) (coeff s (nth y q2 []) m))).
Proof.
  assert (G : forall spin q a, full_alm s spin q a m = cmul (sig spin spin) (sum (n_maps spin) (fun x => amp spin (rot s spin m) a x * fst (coeff s (nth x q []) m)), sum (n_maps spin) (fun x => amp spin (rot s spin m) a x * snd (coeff s (nth x q []) m)))).
  { intros spin q a'. unfold full_alm, n_maps. destruct (Z.eqb_spec spin 0) as [->|N].
    - cbn [sum]. apply cplx_eq; cbn; ring.
    - unfold full_eb. rewrite eb_amp by exact N. fold (rot s spin m). cbn [sum]. destruct a' as [|a']; cbn [Nat.eqb]; apply cplx_eq; unfold cmul, cadd, cscal; cbn [fst snd]; unfold amp; rewrite (proj2 (Z.eqb_neq spin 0) N); ring. }
  rewrite !G, cdot_phase. set (g := cmul (sig spin1 spin1) _). set (n1 := n_maps spin1). set (n2 := n_maps spin2).
  unfold cdot at 1. cbn [cmul fst snd].
  set (f1 := fun x => amp spin1 (rot s spin1 m) a x * fst (coeff s (nth x q1 []) m)). set (f2 := fun x => amp spin1 (rot s spin1 m) a x * snd (coeff s (nth x q1 []) m)).
  set (h1 := fun y => amp spin2 (rot s spin2 m) b y * fst (coeff s (nth y q2 []) m)). set (h2 := fun y => amp spin2 (rot s spin2 m) b y * snd (coeff s (nth y q2 []) m)).
  transitivity (sum n1 (fun x => sum n2 (fun y => (fst g * f1 x - snd g * f2 x) * h1 y + (snd g * f1 x + fst g * f2 x) * h2 y))).
  - transitivity (sum n1 (fun x => (fst g * f1 x - snd g * f2 x) * sum n2 h1 + (snd g * f1 x + fst g * f2 x) * sum n2 h2)).
    + rewrite sum_add, !sum_mul_r, sum_add, !sum_mul_l. replace (sum n1 (fun i => fst g * f1 i - snd g * f2 i)) with (fst g * sum n1 f1 - snd g * sum n1 f2); [cbn [cmul fst snd]; ring|].
      rewrite <- !sum_mul_l. induction n1 as [|n IH]; [cbn; ring|]. cbn [sum]. rewrite <- IH. ring.
    + apply sum_ext. intros x _. rewrite sum_add, !sum_mul_l. reflexivity.
  - apply sum_ext. intros x _. apply sum_ext. intros y _. unfold f1, f2, h1, h2, cdot, cmul. cbn [fst snd]. ring.
Qed.
Lemma phase_cancel spin1 spin2 : cmul (cmul (sig spin1 spin1) (conjc (sig spin2 spin2))) (gphase spin1 spin2) = ((1, 0) : cplx).
Proof.
  unfold gphase. pose proof (sig_inv (F:=F) spin1) as E1. pose proof (sig_inv (F:=F) spin2) as E2.
  transitivity (cmul (cmul (sig (F:=F) spin1 (- spin1)) (sig spin1 spin1)) (conjc (cmul (sig spin2 (- spin2)) (sig spin2 spin2)))); [apply cplx_eq; unfold cmul, conjc; cbn [fst snd]; ring|]. rewrite E1, E2. apply cplx_eq; cbn; ring.
Qed.
(** mean of the products of E/B coefficients: the masks couple the modes, the directions of the two wavevectors mix E and B *)
Definition dm (s : fsinfo) (spin : Z) (m m2 : nat * nat) (a c : nat) : F := dmat spin (rot s spin m) (rot s spin m2) a c.
Lemma mean_eb (s : fsinfo) (spin1 spin2 : Z) (w1 w2 : list F) (K : nat) (pr : nat -> F) (t1 t2 : nat -> mat) (P : nat -> F -> F) a b m :
  (0 <= spin1)%Z -> (0 <= spin2)%Z -> no_edge_power s spin1 spin2 P -> conj_roots ph s -> hom_roots ph s -> In m (grid s) -> length w1 = (fs_nx s * fs_ny s)%nat -> length w2 = (fs_nx s * fs_ny s)%nat ->
  (forall k, (k < K)%nat -> rect (n_maps spin1) (fs_nx s * fs_ny s) (t1 k) /\ rect (n_maps spin2) (fs_nx s * fs_ny s) (t2 k)) ->
  (forall x y p p', (x < n_maps spin1)%nat -> (y < n_maps spin2)%nat -> In p (grid s) -> In p' (grid s) ->
     sum K (fun k => pr k * (pix s (nth x (t1 k) []) p * pix s (nth y (t2 k) []) p')) = iso_cov_spin s spin1 spin2 P x y p p') ->
  sum K (fun k => pr k * cdot (full_alm s spin1 (map (times_mask w1) (t1 k)) a m) (full_alm s spin2 (map (times_mask w2) (t2 k)) b m)) =
  1 / (fs_lx s * fs_ly s) * lsum (map (fun m2 => sum (n_maps spin1) (fun c => sum (n_maps spin2) (fun d => P (c * n_maps spin2 + d)%nat (kmod_of s m2) *
     (dm s spin1 m m2 a c * dm s spin2 m m2 b d))) * cdot (coeff s w1 (diff_mode s m m2)) (coeff s w2 (diff_mode s m m2))) (grid s)).
Proof.
  intros H1 H2 HP HR HH Hm L1 L2 Lt HC. set (n1 := n_maps spin1) in *. set (n2 := n_maps spin2) in *. set (g := cmul (sig (F:=F) spin1 spin1) (conjc (sig spin2 spin2))).
  set (A1 := amp spin1 (rot s spin1 m) a). set (A2 := amp spin2 (rot s spin2 m) b).
  assert (MT : forall (w : list F) x (q : mat), (x < length q)%nat -> nth x (map (times_mask w) q) [] = times_mask w (nth x q [])). { intros w x q Hx. rewrite (nth_indep _ [] (times_mask w [])) by (rewrite map_length; exact Hx). apply map_nth. }
  transitivity (sum n1 (fun x => sum n2 (fun y => A1 x * A2 y * sum K (fun k => pr k * cdot (cmul g (coeff s (times_mask w1 (nth x (t1 k) [])) m)) (coeff s (times_mask w2 (nth y (t2 k) [])) m))))).
  - rewrite (sum_ext _ _ (fun k => sum n1 (fun x => sum n2 (fun y => A1 x * A2 y * (pr k * cdot (cmul g (coeff s (times_mask w1 (nth x (t1 k) [])) m)) (coeff s (times_mask w2 (nth y (t2 k) [])) m)))))).
    + rewrite sum_swap. apply sum_ext. intros x _. rewrite sum_swap. apply sum_ext. intros y _. rewrite sum_mul_l. reflexivity.
    + intros k Hk. destruct (Lt k Hk) as [[R1 _] [R2 _]]. rewrite full_cdot. fold n1 n2 g A1 A2. rewrite <- sum_mul_l. apply sum_ext. intros x Hx. rewrite <- sum_mul_l. apply sum_ext. intros y Hy. rewrite !MT by lia. ring.
  - rewrite (sum_ext _ _ (fun x => sum n2 (fun y => A1 x * A2 y * (1 / (fs_lx s * fs_ly s) * lsum (map (fun m2 => acov s spin1 spin2 P x y m2 * cdot (coeff s w1 (diff_mode s m m2)) (coeff s w2 (diff_mode s m m2))) (grid s)))))).
    + transitivity (1 / (fs_lx s * fs_ly s) * sum n1 (fun x => sum n2 (fun y => lsum (map (fun m2 => A1 x * A2 y * (acov s spin1 spin2 P x y m2 * cdot (coeff s w1 (diff_mode s m m2)) (coeff s w2 (diff_mode s m m2)))) (grid s))))).
      { rewrite <- sum_mul_l. apply sum_ext. intros x _. rewrite <- sum_mul_l. apply sum_ext. intros y _. rewrite lsum_mul_l. ring. }
      f_equal. rewrite (sum_ext _ _ (fun x => lsum (map (fun m2 => sum n2 (fun y => A1 x * A2 y * (acov s spin1 spin2 P x y m2 * cdot (coeff s w1 (diff_mode s m m2)) (coeff s w2 (diff_mode s m m2))))) (grid s)))) by (intros x _; rewrite <- lsum_swap; reflexivity).
      rewrite <- lsum_swap. apply lsum_ext. intros m2 _. set (W := cdot _ _).
      transitivity (sum n1 (fun x => sum n2 (fun y => A1 x * A2 y * acov s spin1 spin2 P x y m2)) * W).
      { rewrite <- sum_mul_r. apply sum_ext. intros x _. rewrite <- sum_mul_r. apply sum_ext. intros y _. ring. }
      f_equal. unfold acov. fold n1 n2. set (B1 := amp spin1 (rot s spin1 m2)). set (B2 := amp spin2 (rot s spin2 m2)).
      transitivity (sum n1 (fun x => sum n2 (fun y => sum n1 (fun c => sum n2 (fun d => P (c * n2 + d)%nat (kmod_of s m2) * (A1 x * B1 c x * (A2 y * B2 d y))))))).
      { apply sum_ext. intros x _. apply sum_ext. intros y _. rewrite <- sum_mul_l. apply sum_ext. intros c _. rewrite <- sum_mul_l. apply sum_ext. intros d _. ring. }
      transitivity (sum n1 (fun x => sum n1 (fun c => sum n2 (fun d => P (c * n2 + d)%nat (kmod_of s m2) * (A1 x * B1 c x * dm s spin2 m m2 b d))))).
      { apply sum_ext. intros x _. rewrite sum_swap. apply sum_ext. intros c _. rewrite sum_swap. apply sum_ext. intros d _. rewrite sum_mul_l. f_equal. rewrite sum_mul_l. f_equal. }
      rewrite sum_swap. apply sum_ext. intros c _. rewrite sum_swap. apply sum_ext. intros d _. rewrite sum_mul_l. f_equal. rewrite sum_mul_r. reflexivity.
    + intros x Hx. apply sum_ext. intros y Hy. f_equal. rewrite (mean_product_c s w1 w2 K pr (fun k => nth x (t1 k) []) (fun k => nth y (t2 k) []) (acov s spin1 spin2 P x y) (gphase spin1 spin2) g m HH Hm L1 L2).
      * f_equal. apply lsum_ext. intros m2 _. f_equal. unfold g. rewrite phase_cancel. f_equal. apply cplx_eq; cbn; ring.
      * intros k Hk. destruct (Lt k Hk) as [R1 R2]. split; [apply (rect_row n1); assumption | apply (rect_row n2); assumption].
      * intros p p' Hp Hp'. rewrite <- iso_cov_spin_eq. apply HC; assumption.
      * intros p p' _ _. apply acov_odd; assumption.
Qed.
(** ** The coupling coefficients of the code *)
(** the length of the wavevector is positive when the wavevector is not zero *)
Definition sqrt_sign (s : fsinfo) : Prop := forall m, In m (grid s) -> (0 <? kmod_of s m) = negb (ksq pi s (fst m) (snd m) <=? 0).
Lemma angle_rot (s : fsinfo) spin m : sqrt_sign s -> In m (grid s) -> angle pi fsqrt s spin m = rot s spin m.
Proof.
  intros H Hm. specialize (H m Hm). unfold angle, rot, rot_at, cphi. unfold ksq in H. cbv zeta. unfold kmodf. unfold L_Flat2.kmod_of, kmodf in H. rewrite H.
  destruct (_ <=? 0) eqn:E; cbn [negb]; [reflexivity|]. set (k := fsqrt _) in *. assert (N : k <> 0) by (intro W; rewrite W in H; exact (flt_irrefl _ H)).
  replace (kxf pi s (fst m) / k) with (kxf pi s (fst m) * (1 / k)) by (field; exact N). replace (kyf pi s (snd m) / k) with (kyf pi s (snd m) * (1 / k)) by (field; exact N). reflexivity.
Qed.
Lemma dm_spin (s : fsinfo) spin m m2 a c : spin <> 0%Z -> (a < 2)%nat -> (c < 2)%nat ->
  let (ca, sa) := rot s spin m in let (cb, sb) := rot s spin m2 in
  dm s spin m m2 a c = match a, c with O, O => ca * cb + sa * sb | O, _ => - (sa * cb - ca * sb) | _, O => sa * cb - ca * sb | _, _ => ca * cb + sa * sb end.
Proof.
  intros N Ha Hc. unfold dm, dmat, n_maps. rewrite (proj2 (Z.eqb_neq spin 0) N). destruct (rot s spin m) as [ca sa]. destruct (rot s spin m2) as [cb sb]. unfold amp. rewrite (proj2 (Z.eqb_neq spin 0) N). cbn [sum fst snd].
  destruct a as [|[|a]], c as [|[|c]]; try lia; ring.
Qed.
Lemma dm_zero (s : fsinfo) m m2 a c : dm s 0 m m2 a c = 1.
Proof. unfold dm, dmat, n_maps, amp. cbn. ring. Qed.
Lemma block_entry (f1 f2 : ffield) i j m1 m2 : let s := ff_fs f1 in let n2 := n_maps (ff_spin f2) in
  sqrt_sign s -> In m1 (grid s) -> In m2 (grid s) -> ff_pe f1 = false -> ff_pe f2 = false -> ff_pb f1 = false -> ff_pb f2 = false ->
  (i < n_maps (ff_spin f1) * n2)%nat -> (j < n_maps (ff_spin f1) * n2)%nat ->
  entry2 (pair_block pi fsqrt f1 f2 (n_maps (ff_spin f1) * n2) (matrix_spins (ff_spin f1) (ff_spin f2) false) m1 m2) i j =
  dm s (ff_spin f1) m1 m2 (i / n2) (j / n2) * dm s (ff_spin f2) m1 m2 (i mod n2) (j mod n2).
Proof.
  intros s n2 HS H1 H2 E1 E2 E3 E4 Hi Hj. unfold pair_block. fold s. rewrite E1, E2, E3, E4. rewrite !(angle_rot s) by assumption. unfold n2 in *. clear n2. unfold n_maps in *.
  destruct (Z.eqb_spec (ff_spin f1) 0) as [Z1|Z1], (Z.eqb_spec (ff_spin f2) 0) as [Z2|Z2]; unfold matrix_spins; rewrite ?Z1, ?Z2, ?(proj2 (Z.eqb_neq _ _) Z1), ?(proj2 (Z.eqb_neq _ _) Z2); cbn [Z.eqb fst snd Nat.mul Nat.add] in *.
  - assert (i = 0)%nat as -> by lia. assert (j = 0)%nat as -> by lia. destruct (rot s 0 m1), (rot s 0 m2). rewrite !dm_zero. cbn. ring.
  - rewrite dm_zero. pose proof (dm_spin s (ff_spin f2) m1 m2 (i mod 2) (j mod 2) Z2 ltac:(apply Nat.mod_upper_bound; lia) ltac:(apply Nat.mod_upper_bound; lia)) as D.
    destruct (rot s (ff_spin f2) m1), (rot s (ff_spin f2) m2), (rot s 0 m1), (rot s 0 m2). rewrite D. destruct i as [|[|i]]; try lia; destruct j as [|[|j]]; try lia; cbn; ring.
  - rewrite !Nat.div_1_r, !Nat.mod_1_r, dm_zero. pose proof (dm_spin s (ff_spin f1) m1 m2 i j Z1 ltac:(lia) ltac:(lia)) as D.
    destruct (rot s (ff_spin f1) m1), (rot s (ff_spin f1) m2), (rot s 0 m1), (rot s 0 m2). rewrite D. destruct i as [|[|i]]; try lia; destruct j as [|[|j]]; try lia; cbn; ring.
  - pose proof (dm_spin s (ff_spin f2) m1 m2 (i mod 2) (j mod 2) Z2 ltac:(apply Nat.mod_upper_bound; lia) ltac:(apply Nat.mod_upper_bound; lia)) as D2.
    pose proof (dm_spin s (ff_spin f1) m1 m2 (i / 2) (j / 2) Z1 ltac:(apply Nat.div_lt_upper_bound; lia) ltac:(apply Nat.div_lt_upper_bound; lia)) as D1.
    destruct (rot s (ff_spin f1) m1), (rot s (ff_spin f1) m2), (rot s (ff_spin f2) m1), (rot s (ff_spin f2) m2). rewrite D1, D2.
    destruct i as [|[|[|[|i]]]]; try lia; destruct j as [|[|[|[|j]]]]; try lia; cbn; ring.
Qed.
(** ** Reflection of the y axis *)
Definition sgn (n : nat) : F := if Nat.even n then 1 else - (1).
Lemma ky_yflip (s : fsinfo) m : In m (grid s) -> (2 * snd m)%nat <> fs_ny s -> kyf pi s (snd (yflip s m)) = - kyf pi s (snd m).
Proof. rewrite in_grid. intros [H1 H2] HE. unfold kyf, yflip. cbn [snd]. rewrite freq_flip by assumption. rewrite fofZ_opp. ring. Qed.
Lemma rot_yflip (s : fsinfo) spin m : In m (grid s) -> (2 * snd m)%nat <> fs_ny s -> rot s spin (yflip s m) = (fst (rot s spin m), - snd (rot s spin m)).
Proof.
  intros Hm HE. unfold rot, rot_at. rewrite (ky_yflip s m Hm HE). cbn [yflip fst].
  assert (E : cphi fsqrt (kxf pi s (fst m)) (- kyf pi s (snd m)) = (fst (cphi fsqrt (kxf pi s (fst m)) (kyf pi s (snd m))), - snd (cphi fsqrt (kxf pi s (fst m)) (kyf pi s (snd m))))).
  { unfold cphi. cbv zeta. replace (- kyf pi s (snd m) * - kyf pi s (snd m)) with (kyf pi s (snd m) * kyf pi s (snd m)) by ring. destruct (_ <=? 0); cbn [fst snd]; f_equal; ring. }
  rewrite E. clear E. destruct (cphi fsqrt (kxf pi s (fst m)) (kyf pi s (snd m))) as [co sn]. cbn [fst snd]. apply rotn_mirror.
Qed.
Lemma dm_yflip (s : fsinfo) spin m m2 a c : In m (grid s) -> In m2 (grid s) -> (2 * snd m)%nat <> fs_ny s -> (2 * snd m2)%nat <> fs_ny s -> (a < n_maps spin)%nat -> (c < n_maps spin)%nat ->
  dm s spin (yflip s m) (yflip s m2) a c = sgn (a + c) * dm s spin m m2 a c.
Proof.
  intros Hm Hm2 HE HE2 Ha Hc. unfold dm, dmat. rewrite !rot_yflip by assumption. unfold n_maps, amp in *. destruct (spin =? 0)%Z.
  - assert (a = 0)%nat as -> by lia. assert (c = 0)%nat as -> by lia. cbn. ring.
  - cbn [sum fst snd]. unfold sgn. destruct a as [|[|a]], c as [|[|c]]; try lia; cbn; ring.
Qed.
Definition wsum (s : fsinfo) (b : fbins) (c : cuts) (ib : nat) (T : nat * nat -> nat * nat -> F) (f : nat * nat -> F) : F :=
  lsum (map (fun m1 => lsum (map (fun m2 => f (diff_mode s m1 m2) * T m1 m2) (grid s))) (modes s b c ib)).
Lemma wsum_ext (s : fsinfo) b c ib T T' f f' : (forall m1 m2, In m1 (modes s b c ib) -> In m2 (grid s) -> f (diff_mode s m1 m2) * T m1 m2 = f' (diff_mode s m1 m2) * T' m1 m2) -> wsum s b c ib T f = wsum s b c ib T' f'.
Proof. intro H. unfold wsum. apply lsum_ext. intros m1 H1. apply lsum_ext. intros m2 H2. apply H; assumption. Qed.
Lemma in_modes (s : fsinfo) b c ib m : In m (modes s b c ib) -> In m (grid s). Proof. intro H. apply filter_In in H. tauto. Qed.
Lemma wsum_yflip (s : fsinfo) b c ib T f : y_symmetric pi s c -> (forall m1 m2, In m1 (modes s b c ib) -> In m2 (grid s) -> T (yflip s m1) (yflip s m2) = T m1 m2) ->
  wsum s b c ib T (fun q => f (yflip s q)) = wsum s b c ib T f.
Proof.
  intros HY HT. unfold wsum, modes. rewrite <- !lsum_filter. rewrite <- (lsum_yflip s (fun m => if (uncut pi s c m && inb b ib (kmod_of s m))%bool then lsum (map (fun m2 => f (diff_mode s m m2) * T m m2) (grid s)) else 0)).
  apply lsum_ext. intros m1 H1. rewrite (kmod_yflip pi fsqrt s m1 H1). replace (uncut pi s c (yflip s m1)) with (uncut pi s c m1).
  2:{ unfold uncut, yflip. cbn [fst snd]. rewrite HY by (apply in_grid in H1; tauto). reflexivity. }
  destruct (uncut pi s c m1 && inb b ib (kmod_of s m1))%bool eqn:E; [|reflexivity]. assert (I1 : In m1 (modes s b c ib)) by (apply filter_In; auto).
  rewrite <- (lsum_yflip s (fun m2 => f (diff_mode s (yflip s m1) m2) * T (yflip s m1) m2)). apply lsum_ext. intros m2 H2. rewrite (diff_yflip s m1 m2 H1 H2), (HT m1 m2 I1 H2). reflexivity.
Qed.
Lemma wsum_add (s : fsinfo) b c ib T f g : wsum s b c ib T (fun q => f q + g q) = wsum s b c ib T f + wsum s b c ib T g.
Proof. unfold wsum. rewrite <- lsum_add. apply lsum_ext. intros m1 H1. rewrite <- lsum_add. apply lsum_ext. intros m2 H2. ring. Qed.
(** kernels that are even under the reflection do not notice the mirrored column *)
Lemma wsum_code (s : fsinfo) b c ib T w1 w2 : conj_roots ph s -> y_symmetric pi s c -> (forall m1 m2, In m1 (modes s b c ib) -> In m2 (grid s) -> T (yflip s m1) (yflip s m2) = T m1 m2) ->
  wsum s b c ib T (code_prod pi ph s w1 w2) = wsum s b c ib T (true_prod pi ph s w1 w2).
Proof.
  intros HR HY HT. assert (E : wsum s b c ib T (code_prod pi ph s w1 w2) + wsum s b c ib T (code_prod pi ph s w1 w2) = wsum s b c ib T (true_prod pi ph s w1 w2) + wsum s b c ib T (true_prod pi ph s w1 w2)).
  { rewrite <- (wsum_yflip s b c ib T (code_prod pi ph s w1 w2) HY HT) at 2. rewrite <- (wsum_yflip s b c ib T (true_prod pi ph s w1 w2) HY HT) at 2. rewrite <- !wsum_add. apply wsum_ext. intros m1 m2 H1 H2. apply in_modes in H1. pose proof (in_diff s m1 m2 H1 H2) as Hq. set (q := diff_mode s m1 m2) in *. f_equal. cbv beta. clearbody q.
    rewrite (code_prod_eq pi fsqrt ph s w1 w2 q HR Hq), (code_prod_eq pi fsqrt ph s w1 w2 (yflip s q) HR (in_yflip pi fsqrt s q Hq)). cbn [yflip fst snd]. unfold yflip. cbn [fst snd]. rewrite opp_row_inv by (apply in_grid in Hq; tauto). destruct (2 * fst q <=? fs_nx s)%nat; destruct q; cbn [fst snd]; ring. }
  set (x := wsum s b c ib T (code_prod pi ph s w1 w2)) in *. set (y := wsum s b c ib T (true_prod pi ph s w1 w2)) in *. assert (N : (fofZ 2 : F) <> 0) by (apply fofZ_neq0; lia).
  replace x with ((x + x) / fofZ 2) by (cbn in *; field; exact N). rewrite E. cbn in *. field. exact N.
Qed.
(** masks whose product does not distinguish a direction from its mirror image *)
Definition mirror_prod (s : fsinfo) (w1 w2 : list F) : Prop := forall q, In q (grid s) -> true_prod pi ph s w1 w2 (yflip s q) = true_prod pi ph s w1 w2 q.
Lemma wsum_mirror (s : fsinfo) b c ib T w1 w2 : conj_roots ph s -> mirror_prod s w1 w2 -> wsum s b c ib T (code_prod pi ph s w1 w2) = wsum s b c ib T (true_prod pi ph s w1 w2).
Proof.
  intros HR HM. apply wsum_ext. intros m1 m2 H1 H2. apply in_modes in H1. pose proof (in_diff s m1 m2 H1 H2) as Hq. f_equal. rewrite (code_prod_eq pi fsqrt ph) by assumption. rewrite HM by exact Hq. destruct (_ <=? _)%nat; reflexivity.
Qed.
(** a mask that is its own mirror image has this property *)
Definition mirror_mask (s : fsinfo) (w : list F) : Prop := forall p, In p (grid s) -> pix s w (yflip s p) = pix s w p.
Definition xflip (s : fsinfo) (m : nat * nat) : nat * nat := (opp_row (fs_nx s) (fst m), snd m).
Definition mirror_mask_x (s : fsinfo) (w : list F) : Prop := forall p, In p (grid s) -> pix s w (xflip s p) = pix s w p.
Lemma mod_opp2 n i x : (0 < n)%nat -> (i < n)%nat -> (x < n)%nat -> ((opp_row n i * opp_row n x) mod n = (i * x) mod n)%nat.
Proof.
  intros Hn Hi Hx. rewrite mod_opp_mul by assumption. rewrite (Nat.mul_comm i), mod_opp_mul by assumption. rewrite opp_row_inv by (apply Nat.mod_upper_bound; lia). rewrite (Nat.mul_comm x). reflexivity.
Qed.
Lemma coeff_mirror (s : fsinfo) w q : mirror_mask s w -> In q (grid s) -> coeff s w (yflip s q) = coeff s w q.
Proof.
  intros HM Hq. rewrite !coeff_sum. unfold clsum. apply in_grid in Hq.
  assert (W : forall p, In p (grid s) -> wave s (yflip s q) (yflip s p) = wave s q p). { intros p Hp. apply in_grid in Hp. unfold L_FlatMean.wave, yflip. cbn [fst snd]. rewrite mod_opp2 by lia. reflexivity. }
  f_equal.
  - rewrite <- (lsum_yflip s (fun p => fst (cscal (norm_m2a pi s * pix s w p) (wave s (yflip s q) p)))). apply lsum_ext. intros p Hp. rewrite (HM p Hp), (W p Hp). reflexivity.
  - rewrite <- (lsum_yflip s (fun p => snd (cscal (norm_m2a pi s * pix s w p) (wave s (yflip s q) p)))). apply lsum_ext. intros p Hp. rewrite (HM p Hp), (W p Hp). reflexivity.
Qed.
Lemma lsum_xflip (s : fsinfo) (g : nat * nat -> F) : lsum (map (fun m => g (xflip s m)) (grid s)) = lsum (map g (grid s)).
Proof. rewrite !sum_grid_rev. apply sum_ext. intros y _. exact (sum_opp_row (fs_nx s) (fun x => g (x, y))). Qed.
Lemma coeff_mirror_x (s : fsinfo) w q : conj_roots ph s -> mirror_mask_x s w -> In q (grid s) -> coeff s w (yflip s q) = conjc (coeff s w q).
Proof.
  intros HR HM Hq. pose proof Hq as Hq'. apply in_grid in Hq'. destruct q as [qx qy]. cbn [fst snd] in Hq'.
  assert (X : coeff s w (opp_row (fs_nx s) qx, qy) = coeff s w (qx, qy)).
  { rewrite !coeff_sum. unfold clsum.
    assert (W : forall p, In p (grid s) -> wave s (opp_row (fs_nx s) qx, qy) (xflip s p) = wave s (qx, qy) p). { intros p Hp. apply in_grid in Hp. unfold L_FlatMean.wave, xflip. cbn [fst snd]. rewrite mod_opp2 by lia. reflexivity. }
    f_equal.
    - rewrite <- (lsum_xflip s (fun p => fst (cscal (norm_m2a pi s * pix s w p) (wave s (opp_row (fs_nx s) qx, qy) p)))). apply lsum_ext. intros p Hp. rewrite (HM p Hp), (W p Hp). reflexivity.
    - rewrite <- (lsum_xflip s (fun p => snd (cscal (norm_m2a pi s * pix s w p) (wave s (opp_row (fs_nx s) qx, qy) p)))). apply lsum_ext. intros p Hp. rewrite (HM p Hp), (W p Hp). reflexivity. }
  unfold yflip. cbn [fst snd]. rewrite <- X. rewrite <- (coeff_conj pi fsqrt ph s w (opp_row (fs_nx s) qx) qy HR) by (try apply opp_row_lt; lia). rewrite opp_row_inv by lia. reflexivity.
Qed.
Lemma mirror_prod_mask (s : fsinfo) w1 w2 : conj_roots ph s -> (mirror_mask s w1 /\ mirror_mask s w2) \/ (mirror_mask_x s w1 /\ mirror_mask_x s w2) -> mirror_prod s w1 w2.
Proof.
  intros HR [[H1 H2]|[H1 H2]] q Hq; unfold true_prod.
  - rewrite !coeff_mirror by assumption. reflexivity.
  - rewrite !coeff_mirror_x by assumption. apply cdot_conj.
Qed.
(** ** The code's coefficients between spectra of opposite parity vanish *)
Definition x_symmetric (s : fsinfo) (c : cuts) : Prop := forall ix, (ix < fs_nx s)%nat -> cut_x c (kxf pi s (opp_row (fs_nx s) ix)) = cut_x c (kxf pi s ix).
Lemma true_prod_flip (s : fsinfo) w1 w2 q : conj_roots ph s -> In q (grid s) -> true_prod pi ph s w1 w2 (flip s q) = true_prod pi ph s w1 w2 q.
Proof. intros HR Hq. apply in_grid in Hq. destruct q as [x y]. unfold true_prod, flip. cbn [fst snd] in *. rewrite !(coeff_conj pi fsqrt ph) by tauto. apply cdot_conj. Qed.
Lemma in_flip (s : fsinfo) m : In m (grid s) -> In (flip s m) (grid s).
Proof. rewrite !in_grid. unfold flip. cbn [fst snd]. intros [H1 H2]. split; apply opp_row_lt; lia. Qed.
Lemma opp_half n i : (i < n)%nat -> (2 * i <=? n)%nat = true -> (2 * opp_row n i <=? n)%nat = true -> opp_row n i = i.
Proof. intros Hi H1 H2. apply Nat.leb_le in H1, H2. unfold opp_row in *. destruct (Nat.eq_dec i 0) as [->|N]; [rewrite Nat.sub_0_r, Nat.mod_same by lia; reflexivity|]. rewrite Nat.mod_small in * by lia. lia. Qed.
Lemma opp_right2 n i : (i < n)%nat -> (2 * i <=? n)%nat = false -> (2 * opp_row n i <=? n)%nat = true.
Proof. intros Hi H1. apply Nat.leb_gt in H1. apply Nat.leb_le. unfold opp_row. rewrite Nat.mod_small by lia. lia. Qed.
Lemma code_prod_flip (s : fsinfo) w1 w2 q : conj_roots ph s -> In q (grid s) -> code_prod pi ph s w1 w2 (flip s q) = code_prod pi ph s w1 w2 (yflip s q).
Proof.
  intros HR Hq. pose proof Hq as Hq'. apply in_grid in Hq'. rewrite (code_prod_eq pi fsqrt ph s w1 w2 _ HR (in_flip s q Hq)), (code_prod_eq pi fsqrt ph s w1 w2 _ HR (in_yflip pi fsqrt s q Hq)).
  destruct q as [x y]. unfold flip at 1 2 3, yflip at 2 3. cbn [fst snd] in *. destruct (2 * x <=? fs_nx s)%nat eqn:E1.
  - destruct (2 * opp_row (fs_nx s) x <=? fs_nx s)%nat eqn:E2.
    + rewrite (opp_half (fs_nx s) x) by tauto. reflexivity.
    + rewrite <- (true_prod_flip s w1 w2 (x, opp_row (fs_ny s) y) HR) by (apply in_grid; cbn [fst snd]; split; [|apply opp_row_lt]; lia). reflexivity.
  - rewrite (opp_right2 (fs_nx s) x) by tauto. transitivity (true_prod pi ph s w1 w2 (x, y)); [exact (true_prod_flip s w1 w2 (x, y) HR Hq)|]. unfold yflip. cbn [fst snd]. rewrite opp_row_inv by tauto. reflexivity.
Qed.
Lemma diff_flip (s : fsinfo) m1 m2 : In m1 (grid s) -> In m2 (grid s) -> diff_mode s (flip s m1) (flip s m2) = flip s (diff_mode s m1 m2).
Proof. rewrite !in_grid. intros [A1 A2] [B1 B2]. unfold diff_mode, flip. cbn [fst snd]. rewrite !diff_opp by assumption. reflexivity. Qed.
Lemma wsum_flip (s : fsinfo) b c ib T f : x_symmetric s c -> y_symmetric pi s c -> (forall m1 m2, In m1 (modes s b c ib) -> In m2 (grid s) -> T (flip s m1) (flip s m2) = T m1 m2) ->
  wsum s b c ib T (fun q => f (flip s q)) = wsum s b c ib T f.
Proof.
  intros HX HY HT. unfold wsum, modes. rewrite <- !lsum_filter. rewrite <- (lsum_flip s (fun m => if (uncut pi s c m && inb b ib (kmod_of s m))%bool then lsum (map (fun m2 => f (diff_mode s m m2) * T m m2) (grid s)) else 0)).
  apply lsum_ext. intros m1 H1. rewrite (kmod_flip pi fsqrt s m1 H1). replace (uncut pi s c (flip s m1)) with (uncut pi s c m1).
  2:{ unfold uncut, flip. cbn [fst snd]. apply in_grid in H1. rewrite HY, HX by tauto. reflexivity. }
  destruct (uncut pi s c m1 && inb b ib (kmod_of s m1))%bool eqn:E; [|reflexivity]. assert (I1 : In m1 (modes s b c ib)) by (apply filter_In; auto).
  rewrite <- (lsum_flip s (fun m2 => f (diff_mode s (flip s m1) m2) * T (flip s m1) m2)). apply lsum_ext. intros m2 H2. rewrite (diff_flip s m1 m2 H1 H2), (HT m1 m2 I1 H2). reflexivity.
Qed.
Lemma wsum_yflip_odd (s : fsinfo) b c ib T f : y_symmetric pi s c -> (forall m1 m2, In m1 (modes s b c ib) -> In m2 (grid s) -> T (yflip s m1) (yflip s m2) = - T m1 m2) ->
  wsum s b c ib T (fun q => f (yflip s q)) = - wsum s b c ib T f.
Proof.
  intros HY HT. unfold wsum, modes. rewrite <- !lsum_filter. rewrite <- (lsum_yflip s (fun m => if (uncut pi s c m && inb b ib (kmod_of s m))%bool then lsum (map (fun m2 => f (diff_mode s m m2) * T m m2) (grid s)) else 0)).
  replace (- lsum (map (fun m => if (uncut pi s c (yflip s m) && inb b ib (kmod_of s (yflip s m)))%bool then lsum (map (fun m2 => f (diff_mode s (yflip s m) m2) * T (yflip s m) m2) (grid s)) else 0) (grid s)))
    with ((- (1)) * lsum (map (fun m => if (uncut pi s c (yflip s m) && inb b ib (kmod_of s (yflip s m)))%bool then lsum (map (fun m2 => f (diff_mode s (yflip s m) m2) * T (yflip s m) m2) (grid s)) else 0) (grid s))) by ring.
  rewrite <- lsum_mul_l. apply lsum_ext. intros m1 H1. rewrite (kmod_yflip pi fsqrt s m1 H1). replace (uncut pi s c (yflip s m1)) with (uncut pi s c m1).
  2:{ unfold uncut, yflip. cbn [fst snd]. rewrite HY by (apply in_grid in H1; tauto). reflexivity. }
  destruct (uncut pi s c m1 && inb b ib (kmod_of s m1))%bool eqn:E; [|ring]. assert (I1 : In m1 (modes s b c ib)) by (apply filter_In; auto).
  rewrite <- (lsum_yflip s (fun m2 => f (diff_mode s (yflip s m1) m2) * T (yflip s m1) m2)). rewrite <- lsum_mul_l. apply lsum_ext. intros m2 H2. rewrite (diff_yflip s m1 m2 H1 H2), (HT m1 m2 I1 H2). ring.
Qed.
Lemma wsum_odd (s : fsinfo) b c ib T w1 w2 : conj_roots ph s -> x_symmetric s c -> y_symmetric pi s c ->
  (forall m1 m2, In m1 (modes s b c ib) -> In m2 (grid s) -> T (flip s m1) (flip s m2) = T m1 m2) -> (forall m1 m2, In m1 (modes s b c ib) -> In m2 (grid s) -> T (yflip s m1) (yflip s m2) = - T m1 m2) ->
  wsum s b c ib T (code_prod pi ph s w1 w2) = 0.
Proof.
  intros HR HX HY HT HO. set (S := wsum s b c ib T (code_prod pi ph s w1 w2)). assert (E : S = - S).
  { unfold S at 1. rewrite <- (wsum_flip s b c ib T _ HX HY HT). unfold S. rewrite <- (wsum_yflip_odd s b c ib T _ HY HO). apply wsum_ext. intros m1 m2 H1 H2. apply in_modes in H1. f_equal. apply code_prod_flip; [exact HR | apply in_diff; assumption]. }
  assert (T2 : fofZ 2 * S = 0). { replace (fofZ 2 * S) with (S + S) by (cbn; ring). rewrite E at 1. ring. }
  assert (N : (fofZ 2 : F) <> 0) by (apply fofZ_neq0; lia). replace S with (fofZ 2 * S / fofZ 2) by (field; exact N). rewrite T2. field. exact N.
Qed.
Lemma amp_flip_any (s : fsinfo) spin m : (0 <= spin)%Z -> In m (grid s) -> ~ edge s m -> exists o : bool, (forall spin' c x, (0 <= spin')%Z -> amp spin' (rot s spin' (flip s m)) c x = (if o then 1 else par spin') * amp spin' (rot s spin' m) c x).
Proof.
  intros Hs Hm HE. destruct (feqb (kxf pi s (fst m)) 0 && feqb (kyf pi s (snd m)) 0)%bool eqn:Q.
  - apply andb_prop in Q. destruct Q as [Q1 Q2]. apply feqb_eq in Q1, Q2. exists true. intros spin' c x H'. rewrite amp_flip0 by tauto. ring.
  - exists false. intros spin' c x H'. rewrite amp_flip; try assumption; [reflexivity|]. intros [W1 W2]. apply feqb_eq in W1, W2. rewrite W1, W2 in Q. discriminate.
Qed.
Lemma dm_flip (s : fsinfo) spin1 spin2 m m2 a c a' c' : (0 <= spin1)%Z -> (0 <= spin2)%Z -> Z.even spin1 = Z.even spin2 -> In m (grid s) -> In m2 (grid s) -> ~ edge s m -> ~ edge s m2 ->
  dm s spin1 (flip s m) (flip s m2) a c * dm s spin2 (flip s m) (flip s m2) a' c' = dm s spin1 m m2 a c * dm s spin2 m m2 a' c'.
Proof.
  intros H1 H2 HE Hm Hm2 E1 E2. destruct (amp_flip_any s spin1 m H1 Hm E1) as [o1 A1]. destruct (amp_flip_any s spin1 m2 H1 Hm2 E2) as [o2 A2].
  assert (G : forall spin a c, (0 <= spin)%Z -> dm s spin (flip s m) (flip s m2) a c = (if o1 then 1 else par spin) * (if o2 then 1 else par spin) * dm s spin m m2 a c).
  { intros spin x y Hs. unfold dm, dmat. rewrite <- sum_mul_l. apply sum_ext. intros z _. rewrite A1, A2 by assumption. ring. }
  rewrite !G by assumption. assert (PE : par spin1 = par spin2) by (unfold par; rewrite HE; reflexivity). rewrite PE. pose proof (par_sq spin2) as PS. destruct o1, o2.
  - ring.
  - transitivity (par spin2 * par spin2 * (dm s spin1 m m2 a c * dm s spin2 m m2 a' c')); [ring | rewrite PS; ring].
  - transitivity (par spin2 * par spin2 * (dm s spin1 m m2 a c * dm s spin2 m m2 a' c')); [ring | rewrite PS; ring].
  - transitivity (par spin2 * par spin2 * (par spin2 * par spin2) * (dm s spin1 m m2 a c * dm s spin2 m m2 a' c')); [ring | rewrite PS; ring].
Qed.
End M.
End LMeanSpin.
