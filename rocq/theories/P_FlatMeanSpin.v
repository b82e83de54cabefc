(** Property C86: mean of the coupled and decoupled spectra of masked flat maps of any spin. *)
From Verif Require Import Base FieldR M_Utils M_Bins M_FlatBins M_LinAlg M_Workspace M_Flat M_WspFlat P_FlatBins L_LinAlg L_Flat L_Flat2 L_Flat3 P_Flat L_WspFlat L_WspFlat2 P_WspFlat L_FlatMean P_FlatMean L_FlatMeanSpin.
From Coq Require Import Permutation Reals.
Open Scope nat_scope.

Section Statements.
Context {F : ofield}.
Local Open Scope F_scope.
Add Field FfPMeS : (fth F).
Notation mat := (list (list F)).
Notation cplx := (cplx F).
Notation fsinfo := (fsinfo F).
Notation fbins := (fbins F).
Notation cuts := (cuts F).
Notation ffield := (ffield F).
Notation fwsp := (fwsp F).
Variables (pi : F) (fsqrt : F -> F) (trunc : F -> Z) (ph : nat -> nat -> cplx).
Notation kmod_of := (kmod_of pi fsqrt).
Notation modes := (modes pi fsqrt).
Notation new_field := (new_field pi fsqrt ph).
Notation coupling_matrix := (coupling_matrix pi fsqrt trunc ph).
Notation py_coupled_cell := (py_coupled_cell pi fsqrt).
Notation coeff := (coeff pi ph).
Notation full_alm := (full_alm pi fsqrt ph).
Notation dm := (dm pi fsqrt).

(** what a user runs on two sets of unmasked maps: fields, coupled spectra *)
Definition coupled_maps (s : fsinfo) (mask1 mask2 : list F) (beam1 beam2 : F -> F) (spin1 spin2 : Z) (b : fbins) (c : cuts) (q1 q2 : mat) : res mat :=
  do f1 <- new_field (fs_nx s) (fs_ny s) (fs_lx s) (fs_ly s) mask1 (Some q1) (Some spin1) beam1 false;
  do f2 <- new_field (fs_nx s) (fs_ny s) (fs_lx s) (fs_ly s) mask2 (Some q2) (Some spin2) beam2 false;
  py_coupled_cell f1 f2 b c.
(** ... and the workspace of the two fields, used to decouple them *)
Definition decoupled_maps (s : fsinfo) (mask1 mask2 : list F) (beam1 beam2 : F -> F) (spin1 spin2 : Z) (b : fbins) (c : cuts) (rows : list nat) (q1 q2 : mat) : res mat :=
  do f1 <- new_field (fs_nx s) (fs_ny s) (fs_lx s) (fs_ly s) mask1 (Some q1) (Some spin1) beam1 false;
  do f2 <- new_field (fs_nx s) (fs_ny s) (fs_lx s) (fs_ly s) mask2 (Some q2) (Some spin2) beam2 false;
  do w <- coupling_matrix f1 f2 b c false rows;
  do cl <- py_coupled_cell f1 f2 b c;
  py_decouple (Some w) cl None None.
(** the workspace computed from mask-only fields *)
Definition workspace_spins (s : fsinfo) (mask1 mask2 : list F) (beam1 beam2 : F -> F) (spin1 spin2 : Z) (b : fbins) (c : cuts) (rows : list nat) : res fwsp :=
  do f1 <- new_field (fs_nx s) (fs_ny s) (fs_lx s) (fs_ly s) mask1 None (Some spin1) beam1 false;
  do f2 <- new_field (fs_nx s) (fs_ny s) (fs_lx s) (fs_ly s) mask2 None (Some spin2) beam2 false;
  coupling_matrix f1 f2 b c false rows.
(** how E and B (a,c = 0,1) at the wavevectors m and m2 are mixed: rotation by spin times the angle between the wavevectors *)
Definition mix (s : fsinfo) (spin : Z) (m m2 : nat * nat) (a c : nat) : F :=
  if (spin =? 0)%Z then 1
  else let (co, sn) := rot_at pi fsqrt s spin (fst m) (snd m) in let (co2, sn2) := rot_at pi fsqrt s spin (fst m2) (snd m2) in
       if Nat.eqb a c then co * co2 + sn * sn2 else if Nat.eqb a 0 then co * sn2 - sn * co2 else sn * co2 - co * sn2.
Lemma mix_dm (s : fsinfo) spin m m2 a c : (a < n_maps spin)%nat -> (c < n_maps spin)%nat -> dm s spin m m2 a c = mix s spin m m2 a c.
Proof.
  intros Ha Hc. unfold mix. destruct (Z.eqb_spec spin 0) as [->|N]; [apply dm_zero|]. assert (E : n_maps spin = 2%nat) by (unfold n_maps; rewrite (proj2 (Z.eqb_neq _ _) N); reflexivity). rewrite E in Ha, Hc.
  pose proof (dm_spin pi fsqrt ph s spin m m2 a c N Ha Hc) as D. unfold rot in D. destruct (rot_at pi fsqrt s spin (fst m) (snd m)) as [co sn]. destruct (rot_at pi fsqrt s spin (fst m2) (snd m2)) as [co2 sn2]. rewrite D.
  destruct a as [|[|a]], c as [|[|c]]; try lia; cbn [Nat.eqb]; ring.
Qed.
Lemma field_ok (s : fsinfo) mask beam spin (q : mat) : 0 < fs_lx s -> 0 < fs_ly s -> (0 <= spin)%Z -> conj_roots ph s -> kxf pi s 1 <> 0 -> rect (n_maps spin) (fs_nx s * fs_ny s) q ->
  exists a, new_field (fs_nx s) (fs_ny s) (fs_lx s) (fs_ly s) mask (Some q) (Some spin) beam false = Ok (FF s spin false false mask beam a false) /\ length a = n_maps spin /\
    (forall x, (x < n_maps spin)%nat -> length (nth x a []) = (fs_ny s * nhalf s)%nat) /\
    (forall x m, (x < n_maps spin)%nat -> In m (grid s) -> ~ nyquist s m -> plane s (nth x a []) m = full_alm s spin (map (times_mask mask) q) x m).
Proof.
  intros H1 H2 Hs HR Hk [Rq Rr]. assert (E : forall x a, fs_map2alm pi fsqrt ph s spin x = Ok a -> forallb (fun m => Nat.eqb (length m) (fs_nx s * fs_ny s)) q = true -> x = map (times_mask mask) q ->
    new_field (fs_nx s) (fs_ny s) (fs_lx s) (fs_ly s) mask (Some q) (Some spin) beam false = Ok (FF s spin false false mask beam a false)).
  { intros x a Ex Fq ->. unfold M_WspFlat.new_field. rewrite (pos_not_neg _ H1), (pos_not_neg _ H2). cbn [orb]. unfold flt in H1, H2. rewrite H1, H2. cbn [andb negb].
    replace (negb (Nat.eqb (length q) 1 || Nat.eqb (length q) 2)) with false by (rewrite Rq; unfold n_maps; destruct (spin =? 0)%Z; reflexivity).
    replace (negb (spin =? 0)%Z && Nat.eqb (length q) 1 || (spin =? 0)%Z && negb (Nat.eqb (length q) 1))%bool with false by (rewrite Rq; unfold n_maps; destruct (spin =? 0)%Z; reflexivity).
    cbn [bind]. rewrite Fq. cbn [negb]. destruct s as [nx ny lx ly]. cbn [fs_nx fs_ny fs_lx fs_ly] in *. rewrite Ex. reflexivity. }
  assert (Fq : forallb (fun m => Nat.eqb (length m) (fs_nx s * fs_ny s)) q = true) by (apply forallb_forall; intros x Hx; apply Nat.eqb_eq; apply Rr; exact Hx).
  unfold L_FlatMeanSpin.full_alm. unfold n_maps in *. destruct (Z.eqb_spec spin 0) as [->|N].
  - destruct q as [|t [|? ?]]; try (cbn in Rq; lia). exists [map2alm0 pi ph s (times_mask mask t)]. split; [apply (E [times_mask mask t]); auto|]. split; [reflexivity|]. split.
    + intros x Hx. assert (x = 0)%nat as -> by lia. apply length_map2alm0.
    + intros x m Hx Hm _. assert (x = 0)%nat as -> by lia. cbn [nth map]. apply plane_map; assumption.
  - destruct q as [|t [|u [|? ?]]]; try (cbn in Rq; lia). destruct (map2alm_spin pi fsqrt ph s spin (times_mask mask t) (times_mask mask u) N) as [e [bb [Em [L1 [L2 R]]]]]. exists [e; bb]. split; [apply (E [times_mask mask t; times_mask mask u]); auto|]. split; [reflexivity|]. split.
    + intros x Hx. destruct x as [|[|x]]; try lia; assumption.
    + intros x m Hx Hm HN. cbn [map nth]. rewrite <- (plane_eb pi fsqrt ph s spin (times_mask mask t) (times_mask mask u) e bb m HR ltac:(lia) Hm HN Hk R). destruct x as [|[|x]]; try lia; reflexivity.
Qed.
Definition pseudo_spin (s : fsinfo) (mask1 mask2 : list F) (spin1 spin2 : Z) (b : fbins) (c : cuts) (q1 q2 : mat) (i ib : nat) : F :=
  average pi s (modes s b c ib) (fun m => cdot (full_alm s spin1 (map (times_mask mask1) q1) (i / n_maps spin2) m) (full_alm s spin2 (map (times_mask mask2) q2) (i mod n_maps spin2) m)).
Lemma coupled_spin_ok (s : fsinfo) mask1 mask2 beam1 beam2 spin1 spin2 b c (q1 q2 : mat) a1 a2 : contiguous b -> y_symmetric pi s c -> (forall ib m, In m (modes s b c ib) -> (2 * snd m)%nat <> fs_ny s) ->
  length a1 = n_maps spin1 -> length a2 = n_maps spin2 ->
  (forall x, (x < n_maps spin1)%nat -> length (nth x a1 []) = (fs_ny s * nhalf s)%nat) -> (forall x, (x < n_maps spin2)%nat -> length (nth x a2 []) = (fs_ny s * nhalf s)%nat) ->
  (forall x m, (x < n_maps spin1)%nat -> In m (grid s) -> ~ nyquist s m -> plane s (nth x a1 []) m = full_alm s spin1 (map (times_mask mask1) q1) x m) ->
  (forall x m, (x < n_maps spin2)%nat -> In m (grid s) -> ~ nyquist s m -> plane s (nth x a2 []) m = full_alm s spin2 (map (times_mask mask2) q2) x m) ->
  py_coupled_cell (FF s spin1 false false mask1 beam1 a1 false) (FF s spin2 false false mask2 beam2 a2 false) b c =
  Ok (tab (n_maps spin1 * n_maps spin2) (fun i => tab (n_bands b) (pseudo_spin s mask1 mask2 spin1 spin2 b c q1 q2 i))).
Proof.
  intros Hc HY HN N1 N2 L1 L2 P1 P2. unfold M_WspFlat.py_coupled_cell. cbn [ff_fs ff_mask_only ff_alms]. rewrite !Nat.eqb_refl, same_fs_refl. cbn [andb orb negb].
  assert (E : forall x y, (x < n_maps spin1)%nat -> (y < n_maps spin2)%nat -> alm2cl1 pi fsqrt s b c (nth x a1 []) (nth y a2 []) = Ok (tab (n_bands b) (pseudo_spin s mask1 mask2 spin1 spin2 b c q1 q2 (x * n_maps spin2 + y)))).
  { intros x y Hx Hy. rewrite (proj1 (C62_bandpowers pi fsqrt s b c (nth x a1 []) (nth y a2 []) Hc (L1 x Hx) (L2 y Hy) HY)). f_equal. apply tab_ext. intros ib Hib. unfold pseudo_spin. destruct (div_mod_flat (n_maps spin2) y x Hy) as [-> ->].
    unfold average. destruct (Nat.eqb _ 0); [reflexivity|]. f_equal. f_equal. apply lsum_ext. intros m Hm. pose proof (HN ib m Hm) as NE. apply (in_modes pi fsqrt ph) in Hm. assert (NQ : ~ nyquist s m) by (intros [_ W]; contradiction). rewrite P1, P2 by assumption. reflexivity. }
  unfold fs_alm2cl. clear L1 L2 P1 P2. unfold n_maps in N1, N2, E |- *. destruct (spin1 =? 0)%Z, (spin2 =? 0)%Z; destruct a1 as [|x1 [|x2 [|? ?]]]; try (cbn in N1; lia); destruct a2 as [|y1 [|y2 [|? ?]]]; try (cbn in N2; lia); cbn [mapM].
  - pose proof (E 0%nat 0%nat ltac:(lia) ltac:(lia)) as E0. cbn [nth] in E0. rewrite E0. reflexivity.
  - pose proof (E 0%nat 0%nat ltac:(lia) ltac:(lia)) as E0. pose proof (E 0%nat 1%nat ltac:(lia) ltac:(lia)) as E1. cbn [nth] in E0, E1. rewrite E0, E1. reflexivity.
  - pose proof (E 0%nat 0%nat ltac:(lia) ltac:(lia)) as E0. pose proof (E 1%nat 0%nat ltac:(lia) ltac:(lia)) as E1. cbn [nth] in E0, E1. rewrite E0, E1. reflexivity.
  - pose proof (E 0%nat 0%nat ltac:(lia) ltac:(lia)) as E0. pose proof (E 0%nat 1%nat ltac:(lia) ltac:(lia)) as E1. pose proof (E 1%nat 0%nat ltac:(lia) ltac:(lia)) as E2. pose proof (E 1%nat 1%nat ltac:(lia) ltac:(lia)) as E3. cbn [nth] in E0, E1, E2, E3. rewrite E0, E1, E2, E3. reflexivity.
Qed.
Lemma mask_only_spin (s : fsinfo) mask beam spin : 0 < fs_lx s -> 0 < fs_ly s ->
  new_field (fs_nx s) (fs_ny s) (fs_lx s) (fs_ly s) mask None (Some spin) beam false = Ok (FF s spin false false mask beam [] true).
Proof.
  intros H1 H2. unfold M_WspFlat.new_field. rewrite (pos_not_neg _ H1), (pos_not_neg _ H2).
  cbn [orb negb bind]. unfold flt in H1, H2. rewrite H1, H2. cbn [andb negb]. destruct s. reflexivity.
Qed.
(** number of B in spectrum i, modulo 2: spectra with opposite values change sign with respect to each other in a mirror *)
Definition odd_spec (spin2 : Z) (i : nat) : bool := Nat.odd (i / n_maps spin2 + i mod n_maps spin2).
Section Ensemble.
Variables (s : fsinfo) (mask1 mask2 : list F) (beam1 beam2 : F -> F) (spin1 spin2 : Z) (b : fbins) (c : cuts).
Notation n1 := (n_maps spin1).
Notation n2 := (n_maps spin2).
Hypothesis Hc : contiguous b.
Hypothesis HY : y_symmetric pi s c.
Hypothesis HR : conj_roots ph s.
Hypothesis HH : hom_roots ph s.
Hypothesis HS : sqrt_sign pi fsqrt s.
Hypothesis Hlx : 0 < fs_lx s.
Hypothesis Hly : 0 < fs_ly s.
Hypothesis Hk1 : kxf pi s 1 <> 0.
Hypothesis Hm1 : length mask1 = (fs_nx s * fs_ny s)%nat.
Hypothesis Hm2 : length mask2 = (fs_nx s * fs_ny s)%nat.
Hypothesis Hs1 : (0 <= spin1)%Z.
Hypothesis Hs2 : (0 <= spin2)%Z.
(** no band uses the row ky = ny/2 (there is none for odd ny) *)
Hypothesis HN : forall ib m, In m (modes s b c ib) -> (2 * snd m)%nat <> fs_ny s.
(** K realisations of the two sets of maps with weights pr k *)
Variables (K : nat) (pr : nat -> F) (t1 t2 : nat -> mat).
Hypothesis Ht : forall k, (k < K)%nat -> rect n1 (fs_nx s * fs_ny s) (t1 k) /\ rect n2 (fs_nx s * fs_ny s) (t2 k).
(** their covariance is that of statistically isotropic fields with spectra C j, smoothed with the two beams *)
Variable C : nat -> F -> F.
Notation P := (fun j k => C j k * (beam1 k * beam2 k)).
Hypothesis HP : no_edge_power pi fsqrt s spin1 spin2 P.
Hypothesis HC : forall x y p p', (x < n1)%nat -> (y < n2)%nat -> In p (grid s) -> In p' (grid s) ->
  sum K (fun k => pr k * (pix s (nth x (t1 k) []) p * pix s (nth y (t2 k) []) p')) = iso_cov_spin pi fsqrt ph s spin1 spin2 P x y p p'.

Lemma coupled_maps_ok (q1 q2 : mat) : rect n1 (fs_nx s * fs_ny s) q1 -> rect n2 (fs_nx s * fs_ny s) q2 ->
  coupled_maps s mask1 mask2 beam1 beam2 spin1 spin2 b c q1 q2 = Ok (tab (n1 * n2) (fun i => tab (n_bands b) (pseudo_spin s mask1 mask2 spin1 spin2 b c q1 q2 i))).
Proof.
  intros R1 R2. destruct (field_ok s mask1 beam1 spin1 q1 Hlx Hly Hs1 HR Hk1 R1) as [a1 [E1 [A1 [A2 A3]]]]. destruct (field_ok s mask2 beam2 spin2 q2 Hlx Hly Hs2 HR Hk1 R2) as [a2 [E2 [B1 [B2 B3]]]].
  unfold coupled_maps. rewrite E1. cbn [bind]. rewrite E2. cbn [bind]. apply coupled_spin_ok; assumption.
Qed.
Definition text (i ib : nat) : F :=
  average pi s (modes s b c ib) (fun m => 1 / (fs_lx s * fs_ly s) * lsum (map (fun m2 => sum n1 (fun cc => sum n2 (fun d => C (cc * n2 + d)%nat (kmod_of s m2) * (beam1 (kmod_of s m2) * beam2 (kmod_of s m2)) *
    (dm s spin1 m m2 (i / n2) cc * dm s spin2 m m2 (i mod n2) d))) * cdot (coeff s mask1 (diff_mode s m m2)) (coeff s mask2 (diff_mode s m m2))) (grid s))).
Lemma mean_text i ib : sum K (fun k => pr k * pseudo_spin s mask1 mask2 spin1 spin2 b c (t1 k) (t2 k) i ib) = text i ib.
Proof.
  pose proof (fpos_neq0 _ Hlx) as N1. pose proof (fpos_neq0 _ Hly) as N2. unfold text, pseudo_spin, average. destruct (Nat.eqb (length (modes s b c ib)) 0) eqn:EL.
  - apply sum_zero. intros k _. ring.
  - apply Nat.eqb_neq in EL. destruct (length (modes s b c ib)) as [|n] eqn:En; [congruence|]. pose proof (fofnat_neq0 (F:=F) n) as NZ. set (z := fofnat (S n)) in *.
    rewrite (sum_ext _ _ (fun k => fofZ 4 * pi * pi / (fs_lx s * fs_ly s) / z * lsum (map (fun m => pr k * cdot (full_alm s spin1 (map (times_mask mask1) (t1 k)) (i / n2) m) (full_alm s spin2 (map (times_mask mask2) (t2 k)) (i mod n2) m)) (modes s b c ib)))).
    + rewrite sum_mul_l. rewrite <- lsum_swap. rewrite (lsum_ext _ _ _ (fun m Hm => mean_eb pi fsqrt ph s spin1 spin2 mask1 mask2 K pr t1 t2 P (i / n2) (i mod n2) m Hs1 Hs2 HP HR HH (in_modes pi fsqrt ph s b c ib m Hm) Hm1 Hm2 Ht HC)).
      set (S := lsum _). generalize S. clear - N1 N2 NZ. clearbody z. intro S. set (q := fofZ 4). field. auto.
    + intros k Hk. rewrite lsum_mul_l. set (S := lsum _). generalize S. clear - N1 N2 NZ. clearbody z. intro S. set (q := fofZ 4). field. auto.
Qed.
(** when the code's coupling coefficients give the mean of spectrum i *)
Definition predictable (i : nat) : Prop :=
  mirror_prod pi ph s mask1 mask2 \/ forall j m, (j < n1 * n2)%nat -> odd_spec spin2 j <> odd_spec spin2 i -> In m (grid s) -> C j (kmod_of s m) = 0.
Lemma text_coupled i ib f1 f2 : (i < n1 * n2)%nat -> predictable i -> ff_fs f1 = s -> ff_spin f1 = spin1 -> ff_spin f2 = spin2 -> ff_mask f1 = mask1 -> ff_mask f2 = mask2 -> ff_beam f1 = beam1 -> ff_beam f2 = beam2 ->
  ff_pe f1 = false -> ff_pe f2 = false -> ff_pb f1 = false -> ff_pb f2 = false ->
  text i ib = coupled pi fsqrt ph f1 f2 b c false (fun j m => C j (kmod_of s m)) i ib.
Proof.
  intros Hi HPr E1 E2 E3 E4 E5 E6 E7 F1 F2 F3 F4. pose proof (fpos_neq0 _ Hlx) as N1. pose proof (fpos_neq0 _ Hly) as N2.
  unfold coupled. replace (n_spectra f1 f2 false) with (n1 * n2)%nat by (unfold n_spectra, ff_nmaps; rewrite E2, E3; reflexivity). rewrite E1, E2, E3.
  set (T := fun j m1 m2 => dm s spin1 m1 m2 (i / n2) (j / n2) * dm s spin2 m1 m2 (i mod n2) (j mod n2) * P j (kmod_of s m2)).
  assert (W : forall j, (j < n1 * n2)%nat -> lsum (map (fun m1 => lsum (map (fun m2 => weight pi fsqrt ph f1 f2 (n1 * n2) (matrix_spins spin1 spin2 false) i j m1 m2 * C j (kmod_of s m2)) (grid s))) (modes s b c ib)) = wsum pi fsqrt s b c ib (T j) (true_prod pi ph s mask1 mask2)).
  { intros j Hj. transitivity (wsum pi fsqrt s b c ib (T j) (code_prod pi ph s mask1 mask2)).
    - unfold wsum. apply lsum_ext. intros m1 M1. apply (in_modes pi fsqrt ph) in M1. apply lsum_ext. intros m2 M2. unfold weight.
      pose proof (block_entry pi fsqrt ph f1 f2 i j m1 m2) as B. rewrite E1, E2, E3 in B. rewrite B by assumption. unfold beamprod, code_prod. rewrite E1, E4, E5, E6, E7. unfold T. unfold L_Flat2.kmod_of. ring.
    - destruct HPr as [HM|HM]; [apply wsum_mirror; assumption|]. destruct (Bool.bool_dec (odd_spec spin2 j) (odd_spec spin2 i)) as [EO|EO].
      + apply wsum_code; try assumption. intros m1 m2 M1 M2. pose proof (HN ib m1 M1) as NE. apply (in_modes pi fsqrt ph) in M1. unfold T. rewrite (kmod_yflip pi fsqrt s m2 M2).
        destruct (Nat.eq_dec (2 * snd m2) (fs_ny s)) as [Q|Q]; [rewrite (proj1 HP j m2 M2 (or_intror Q)); ring|]. pose proof (n_maps_pos spin2) as P2.
        rewrite !(dm_yflip pi fsqrt ph) by (try assumption; try (apply Nat.mod_upper_bound; lia); apply Nat.div_lt_upper_bound; lia).
        assert (SG : sgn (i / n2 + j / n2) * sgn (i mod n2 + j mod n2) = (1 : F)). { unfold odd_spec in EO. unfold sgn. rewrite !Nat.even_add. rewrite !Nat.odd_add in EO. rewrite <- !Nat.negb_even in EO. destruct (Nat.even (i / n2)), (Nat.even (j / n2)), (Nat.even (i mod n2)), (Nat.even (j mod n2)); cbn in *; try discriminate; ring. }
        transitivity (sgn (i / n2 + j / n2) * sgn (i mod n2 + j mod n2) * (dm s spin1 m1 m2 (i / n2) (j / n2) * dm s spin2 m1 m2 (i mod n2) (j mod n2) * P j (kmod_of s m2))); [ring|]. rewrite SG. ring.
      + apply wsum_ext. intros m1 m2 M1 M2. unfold T. rewrite (HM j m2 Hj EO M2). ring. }
  rewrite (sum_ext _ _ (fun j => wsum pi fsqrt s b c ib (T j) (true_prod pi ph s mask1 mask2) * fac_norm pi s (Z.of_nat (length (modes s b c ib))))) by (intros j Hj; rewrite (W j Hj); reflexivity). rewrite sum_mul_r.
  assert (TT : lsum (map (fun m => lsum (map (fun m2 => sum n1 (fun cc => sum n2 (fun d => C (cc * n2 + d)%nat (kmod_of s m2) * (beam1 (kmod_of s m2) * beam2 (kmod_of s m2)) * (dm s spin1 m m2 (i / n2) cc * dm s spin2 m m2 (i mod n2) d))) * cdot (coeff s mask1 (diff_mode s m m2)) (coeff s mask2 (diff_mode s m m2))) (grid s))) (modes s b c ib)) = sum (n1 * n2) (fun j => wsum pi fsqrt s b c ib (T j) (true_prod pi ph s mask1 mask2))).
  { unfold wsum. rewrite <- lsum_swap. apply lsum_ext. intros m _. rewrite <- lsum_swap. apply lsum_ext. intros m2 _. rewrite sum_flat. rewrite <- sum_mul_r. apply sum_ext. intros cc _. rewrite <- sum_mul_r. apply sum_ext. intros d Hd. unfold T. rewrite (Nat.mul_comm n2 cc). destruct (div_mod_flat n2 d cc Hd) as [-> ->]. unfold true_prod. ring. }
  rewrite <- TT. unfold text, average, fac_norm. destruct (Nat.eqb (length (modes s b c ib)) 0) eqn:EL.
  - apply Nat.eqb_eq in EL. rewrite EL. cbn. ring.
  - apply Nat.eqb_neq in EL. replace (0 <? Z.of_nat (length (modes s b c ib)))%Z with true by (symmetry; apply Z.ltb_lt; lia). rewrite fofZ_of_nat. destruct (length (modes s b c ib)) as [|n]; [congruence|]. pose proof (fofnat_neq0 (F:=F) n) as NZ. set (z := fofnat (S n)) in *.
    rewrite lsum_mul_l. set (S := lsum _). generalize S. clear - N1 N2 NZ. clearbody z. intro S. set (q := fofZ 4). field. auto.
Qed.
(** The mean of compute_coupled_cell_flat is the textbook convolution: the average over the modes m of a band of
    (1/A) sum over m2 and over the kinds (E,B) of C(|m2|) B1 B2 (|m2|) Re[W1(m-m2) W2*(m-m2)], with E and B mixed by the rotation from m2 to m. *)
Theorem C86_mean : exists cl : nat -> mat, (forall k, (k < K)%nat -> coupled_maps s mask1 mask2 beam1 beam2 spin1 spin2 b c (t1 k) (t2 k) = Ok (cl k) /\ rect (n1 * n2) (n_bands b) (cl k)) /\
  forall a a' ib, (a < n1)%nat -> (a' < n2)%nat -> (ib < n_bands b)%nat -> sum K (fun k => pr k * entry2 (cl k) (a * n2 + a') ib) =
    average pi s (modes s b c ib) (fun m => 1 / (fs_lx s * fs_ly s) * lsum (map (fun m2 => sum n1 (fun cc => sum n2 (fun d => C (cc * n2 + d)%nat (kmod_of s m2) * (beam1 (kmod_of s m2) * beam2 (kmod_of s m2)) *
      (mix s spin1 m m2 a cc * mix s spin2 m m2 a' d))) * cdot (coeff s mask1 (diff_mode s m m2)) (coeff s mask2 (diff_mode s m m2))) (grid s))).
Proof.
  exists (fun k => tab (n1 * n2) (fun i => tab (n_bands b) (pseudo_spin s mask1 mask2 spin1 spin2 b c (t1 k) (t2 k) i))). split.
  - intros k Hk. destruct (Ht k Hk) as [A1 A2]. rewrite coupled_maps_ok by assumption. split; [reflexivity | apply rect_tab].
  - intros a a' ib Ha Ha' Hib. rewrite (sum_ext _ _ (fun k => pr k * pseudo_spin s mask1 mask2 spin1 spin2 b c (t1 k) (t2 k) (a * n2 + a') ib)).
    + rewrite mean_text. unfold text. destruct (div_mod_flat n2 a' a Ha') as [-> ->]. unfold average. destruct (Nat.eqb _ 0); [reflexivity|]. f_equal. f_equal. apply lsum_ext. intros m _. f_equal. apply lsum_ext. intros m2 _. f_equal. apply sum_ext. intros cc Hcc. apply sum_ext. intros d Hd. rewrite !mix_dm by assumption. reflexivity.
    + intros k _. unfold entry2. rewrite nth_tab by nia. rewrite nth_tab by exact Hib. reflexivity.
Qed.
(** couple_cell predicts the mean of spectrum i if the spectra do not vary within the rings of width dell that it uses, vanish at the modes outside them, and
    either the masks do not distinguish a direction from its mirror image, or the spectra with the other parity vanish. *)
Theorem C86_couple_cell (rows o : list nat) (ells : list F) (cls : mat) : all_rows s rows -> all_rows s o -> good_ells ells -> rect (n1 * n2) (length ells) cls ->
  (forall j m, (j < n1 * n2)%nat -> In m (grid s) -> C j (kmod_of s m) = spec_val ells (nth j cls []) (kmod_of s m)) ->
  (forall j m m', (j < n1 * n2)%nat -> In m (grid s) -> In m' (grid s) -> ring pi fsqrt trunc s m = ring pi fsqrt trunc s m' -> C j (kmod_of s m) = C j (kmod_of s m')) ->
  (forall j m, (j < n1 * n2)%nat -> In m (grid s) -> (ring pi fsqrt trunc s m < 0)%Z -> C j (kmod_of s m) = 0) ->
  exists w pcl, workspace_spins s mask1 mask2 beam1 beam2 spin1 spin2 b c rows = Ok w /\ py_couple pi fsqrt trunc (Some w) ells cls o = Ok pcl /\ rect (n1 * n2) (n_bands b) pcl /\
  exists x : nat -> mat, (forall k, (k < K)%nat -> coupled_maps s mask1 mask2 beam1 beam2 spin1 spin2 b c (t1 k) (t2 k) = Ok (x k)) /\
  forall i ib, (i < n1 * n2)%nat -> (ib < n_bands b)%nat -> predictable i -> sum K (fun k => pr k * entry2 (x k) i ib) = entry2 pcl i ib.
Proof.
  intros HPr HPo He Hl HCs HCr HC0. set (g1 := FF s spin1 false false mask1 beam1 [] true). set (g2 := FF s spin2 false false mask2 beam2 [] true). set (w := wsp_of pi fsqrt trunc ph g1 g2 b c false).
  pose proof (wsp_of_spec pi fsqrt trunc ph g1 g2 b c false) as W. fold w in W.
  exists w, (tab (n1 * n2) (fun i => tab (n_bands b) (fun ib => coupled pi fsqrt ph g1 g2 b c false (fun j => ring_value pi fsqrt trunc s ells (nth j cls [])) i ib))). split; [|split; [|split]].
  - unfold workspace_spins. rewrite !mask_only_spin by assumption. cbn [bind]. fold g1 g2. rewrite (coupling_matrix_eq pi fsqrt trunc ph g1 g2 b c false rows Hc HPr). cbn [g1 g2 ff_fs]. rewrite same_fs_refl. reflexivity.
  - unfold py_couple, need. cbn [bind]. change (fw_ncls w) with (n1 * n2)%nat. pose proof (n_maps_pos spin1). pose proof (n_maps_pos spin2). rewrite (check_shape_ok (n1 * n2) (length ells) cls) by (nia || exact Hl). cbn [bind]. apply (couple_fast_ok pi fsqrt trunc ph w g1 g2 b c false ells cls o W He Hl HPo).
  - apply rect_tab.
  - exists (fun k => tab (n1 * n2) (fun i => tab (n_bands b) (pseudo_spin s mask1 mask2 spin1 spin2 b c (t1 k) (t2 k) i))). split; [intros k Hk; destruct (Ht k Hk); apply coupled_maps_ok; assumption|].
    intros i ib Hi Hib HPi. unfold entry2. rewrite nth_tab by exact Hi. rewrite nth_tab by exact Hib. rewrite (sum_ext _ _ (fun k => pr k * pseudo_spin s mask1 mask2 spin1 spin2 b c (t1 k) (t2 k) i ib)) by (intros k _; rewrite nth_tab by exact Hi; rewrite nth_tab by exact Hib; reflexivity).
    rewrite mean_text. rewrite (text_coupled i ib g1 g2 Hi HPi) by reflexivity. apply coupled_ext. intros j m Hj Hm. change (ff_fs g1) with s in Hm. change (n_spectra g1 g2 false) with (n1 * n2)%nat in Hj. unfold ring_value.
    destruct (Z.leb_spec 0 (ring pi fsqrt trunc s m)) as [H|H]; [|apply HC0; [exact Hj | exact Hm | lia]]. unfold ring_avg. cbv zeta. set (l := ring_modes pi fsqrt trunc s (Z.to_nat (ring pi fsqrt trunc s m))).
    assert (Il : forall m', In m' l -> In m' (grid s) /\ ring pi fsqrt trunc s m' = ring pi fsqrt trunc s m). { intros m' Q. unfold l, ring_modes in Q. apply filter_In in Q. destruct Q as [Q1 Q2]. apply Z.eqb_eq in Q2. rewrite Z2Nat.id in Q2 by exact H. auto. }
    assert (Im : In m l). { unfold l, ring_modes. apply filter_In. split; [exact Hm|]. apply Z.eqb_eq. rewrite Z2Nat.id by exact H. reflexivity. }
    rewrite (lsum_const _ (C j (kmod_of s m))).
    + destruct l as [|x t]; [destruct Im|]. cbn [length Nat.eqb]. pose proof (fofnat_neq0 (F:=F) (length t)) as NZ. set (z := fofnat (S (length t))) in *. field. exact NZ.
    + intros m' Q. destruct (Il m' Q) as [Q1 Q2]. rewrite <- (HCs j m' Hj Q1). apply HCr; assumption.
Qed.
Notation mask_wsp := (wsp_of pi fsqrt trunc ph (FF s spin1 false false mask1 beam1 [] true) (FF s spin2 false false mask2 beam2 [] true) b c false).
Lemma workspace_eq rows : all_rows s rows -> workspace_spins s mask1 mask2 beam1 beam2 spin1 spin2 b c rows = Ok mask_wsp.
Proof.
  intro HPr. unfold workspace_spins. rewrite !mask_only_spin by assumption. cbn [bind]. rewrite (coupling_matrix_eq pi fsqrt trunc ph (FF s spin1 false false mask1 beam1 [] true) (FF s spin2 false false mask2 beam2 [] true) b c false rows Hc HPr). cbn [ff_fs]. rewrite same_fs_refl. reflexivity.
Qed.
Lemma unbiased_gen (keep : nat -> bool) (rows : list nat) (v : mat) : all_rows s rows -> rect (n1 * n2) (n_bands b) v -> (forall i, (i < n1 * n2)%nat -> keep i = true -> predictable i) ->
  (forall i ib, (i < n1 * n2)%nat -> (ib < n_bands b)%nat -> keep i = false -> entry2 v i ib = 0) ->
  (forall j m, (j < n1 * n2)%nat -> In m (grid s) -> (forall ib, (ib < n_bands b)%nat -> inb b ib (kmod_of s m) = true -> C j (kmod_of s m) = entry2 v j ib) /\ ((forall ib, (ib < n_bands b)%nat -> inb b ib (kmod_of s m) = false) -> C j (kmod_of s m) = 0)) ->
  (forall i j ib jb, (i < n1 * n2)%nat -> (j < n1 * n2)%nat -> (ib < n_bands b)%nat -> (jb < n_bands b)%nat -> keep i <> keep j -> entry2 (fw_bnd mask_wsp) (ib * (n1 * n2) + i) (jb * (n1 * n2) + j) = 0) ->
  nonsingular (n1 * n2 * n_bands b) (fw_bnd mask_wsp) ->
  exists r : nat -> mat, (forall k, (k < K)%nat -> decoupled_maps s mask1 mask2 beam1 beam2 spin1 spin2 b c rows (t1 k) (t2 k) = Ok (r k) /\ rect (n1 * n2) (n_bands b) (r k)) /\
  forall i ib, (i < n1 * n2)%nat -> (ib < n_bands b)%nat -> keep i = true -> sum K (fun k => pr k * entry2 (r k) i ib) = entry2 v i ib.
Proof.
  intros HPr Hv HM HV0 HCv HX0 N. set (g1 := FF s spin1 false false mask1 beam1 [] true) in *. set (g2 := FF s spin2 false false mask2 beam2 [] true) in *. set (w := wsp_of pi fsqrt trunc ph g1 g2 b c false) in *.
  assert (CM : forall a a', coupling_matrix (FF s spin1 false false mask1 beam1 a false) (FF s spin2 false false mask2 beam2 a' false) b c false rows = Ok w). { intros a a'. rewrite (coupling_matrix_eq pi fsqrt trunc ph (FF s spin1 false false mask1 beam1 a false) (FF s spin2 false false mask2 beam2 a' false) b c false rows Hc HPr). cbn [ff_fs]. rewrite same_fs_refl. reflexivity. }
  pose proof (wsp_of_spec pi fsqrt trunc ph g1 g2 b c false) as W. fold w in W. assert (En : fw_ncls w = (n1 * n2)%nat) by reflexivity. assert (Eb : fw_nb w = n_bands b) by reflexivity. pose proof (ws_sq _ _ _ _ _ _ _ _ _ _ W) as Hs. change (n_spectra g1 g2 false) with (n1 * n2)%nat in Hs.
  pose proof (n_maps_pos spin1) as P1. pose proof (n_maps_pos spin2) as P2. set (n := (n1 * n2)%nat) in *. assert (Hn : (0 < n)%nat) by (unfold n; nia). set (nb := n_bands b) in *.
  set (cl := fun k => tab n (fun i => tab nb (pseudo_spin s mask1 mask2 spin1 spin2 b c (t1 k) (t2 k) i))).
  assert (Rcl : forall k, rect n nb (cl k)) by (intro k; apply rect_tab).
  assert (Dec : forall x z, rect n nb x -> rect n nb z -> (forall i ib, entry2 z i ib = 0) -> exists v, fdecouple w x z z = Ok v).
  { intros x z Rx Rz Z0. rewrite (fdecouple_flat w x z z) by (rewrite ?En, ?Eb; assumption). rewrite En, Eb. set (y := flatten n nb _). assert (Ly : length y = (n * nb)%nat) by apply length_tab. destruct (lu_solve_ok (n * nb) (fw_bnd w) y Hs Ly N) as [u [Eu [Lu _]]]. rewrite Eu. cbn [bind].
    exists (tab n (fun i => tab nb (fun ib => nth (n * ib + i) u 0))). apply tabM_ok. intros i Hi. apply tabM_ok. intros ib Hib. apply rd_nat. rewrite Lu. nia. }
  assert (Ap : forall x z y, rect n nb x -> rect n nb z -> (forall i ib, entry2 z i ib = 0) -> (fdecouple w x z z = Ok y <-> rect n nb y /\ forall i ib, (i < n)%nat -> (ib < nb)%nat -> apply_matrix (fw_bnd w) n nb y i ib = entry2 x i ib)).
  { intros x z y Rx Rz Z0. pose proof (fdecouple_iff w x z z y) as I. rewrite En, Eb in I. rewrite (I Hn Hs Rx Rz Rz). split.
    - intros [_ [Ry Hy]]. split; [exact Ry|]. intros i ib Hi Hib. rewrite (Hy i ib Hi Hib), !Z0. ring.
    - intros [Ry Hy]. split; [exact N|]. split; [exact Ry|]. intros i ib Hi Hib. rewrite (Hy i ib Hi Hib), !Z0. ring. }
  set (r := fun k => from_ok [] (fdecouple w (cl k) (zeros_like (cl k)) (zeros_like (cl k)))).
  assert (Hr : forall k, fdecouple w (cl k) (zeros_like (cl k)) (zeros_like (cl k)) = Ok (r k)). { intro k. destruct (Dec (cl k) (zeros_like (cl k)) (Rcl k) (rect_zeros _ _ _ (Rcl k)) (entry_zeros (cl k))) as [y Ey]. unfold r. rewrite Ey. reflexivity. }
  assert (Hra : forall k, rect n nb (r k) /\ forall i ib, (i < n)%nat -> (ib < nb)%nat -> apply_matrix (fw_bnd w) n nb (r k) i ib = entry2 (cl k) i ib) by (intro k; apply (Ap (cl k) (zeros_like (cl k)) (r k) (Rcl k) (rect_zeros _ _ _ (Rcl k)) (entry_zeros (cl k))); apply Hr).
  exists r. split.
  - intros k Hk. destruct (Ht k Hk) as [A1 A2]. split; [|apply Hra]. destruct (field_ok s mask1 beam1 spin1 (t1 k) Hlx Hly Hs1 HR Hk1 A1) as [a1 [E1 [Q1 [Q2 Q3]]]]. destruct (field_ok s mask2 beam2 spin2 (t2 k) Hlx Hly Hs2 HR Hk1 A2) as [a2 [E2 [B1 [B2 B3]]]].
    unfold decoupled_maps. rewrite E1. cbn [bind]. rewrite E2. cbn [bind]. rewrite CM. cbn [bind]. rewrite (coupled_spin_ok s mask1 mask2 beam1 beam2 spin1 spin2 b c (t1 k) (t2 k) a1 a2) by assumption. cbn [bind]. fold n nb. fold (cl k).
    unfold py_decouple, need. cbn [bind]. rewrite En, Eb. rewrite (check_shape_ok n nb (cl k) Hn (Rcl k)). cbn [bind]. apply Hr.
  - set (mr := tab n (fun i => tab nb (fun ib => if keep i then sum K (fun k => pr k * entry2 (r k) i ib) else 0))). set (mc := tab n (fun i => tab nb (fun ib => if keep i then sum K (fun k => pr k * entry2 (cl k) i ib) else 0))).
    assert (Rmr : rect n nb mr) by apply rect_tab. assert (Rmc : rect n nb mc) by apply rect_tab.
    assert (Emr : forall i ib, (i < n)%nat -> (ib < nb)%nat -> entry2 mr i ib = if keep i then sum K (fun k => pr k * entry2 (r k) i ib) else 0) by (intros i ib Hi Hib; unfold entry2 at 1, mr; rewrite nth_tab by exact Hi; rewrite nth_tab by exact Hib; reflexivity).
    assert (Emc : forall i ib, (i < n)%nat -> (ib < nb)%nat -> entry2 mc i ib = if keep i then sum K (fun k => pr k * entry2 (cl k) i ib) else 0) by (intros i ib Hi Hib; unfold entry2 at 1, mc; rewrite nth_tab by exact Hi; rewrite nth_tab by exact Hib; reflexivity).
    assert (Zero : forall x i ib, (i < n)%nat -> (ib < nb)%nat -> keep i = false -> (forall j jb, (j < n)%nat -> (jb < nb)%nat -> keep j = false -> entry2 x j jb = 0) -> apply_matrix (fw_bnd w) n nb x i ib = 0).
    { intros x i ib Hi Hib Ki Hx. unfold apply_matrix. apply sum_zero. intros j Hj. apply sum_zero. intros jb Hjb. destruct (keep j) eqn:Kj; [rewrite (HX0 i j ib jb Hi Hj Hib Hjb) by congruence | rewrite (Hx j jb Hj Hjb Kj)]; ring. }
    assert (U1 : fdecouple w mc (zeros_like mc) (zeros_like mc) = Ok mr).
    { apply (Ap mc (zeros_like mc) mr Rmc (rect_zeros _ _ _ Rmc) (entry_zeros mc)). split; [exact Rmr|]. intros i ib Hi Hib. rewrite (Emc i ib Hi Hib). destruct (keep i) eqn:Ki.
      2:{ apply (Zero mr i ib Hi Hib Ki). intros j jb Hj Hjb Kj. rewrite (Emr j jb Hj Hjb), Kj. reflexivity. }
      unfold apply_matrix. rewrite (sum_ext _ _ (fun j => sum K (fun k => pr k * sum nb (fun jb => entry2 (fw_bnd w) (ib * n + i) (jb * n + j) * entry2 (r k) j jb)))).
      - rewrite sum_swap. apply sum_ext. intros k _. rewrite sum_mul_l. f_equal. apply (proj2 (Hra k)); assumption.
      - intros j Hj. rewrite (sum_ext _ _ (fun jb => sum K (fun k => pr k * (entry2 (fw_bnd w) (ib * n + i) (jb * n + j) * entry2 (r k) j jb)))).
        + rewrite sum_swap. apply sum_ext. intros k _. rewrite sum_mul_l. reflexivity.
        + intros jb Hjb. rewrite (Emr j jb Hj Hjb). destruct (keep j) eqn:Kj; [rewrite <- sum_mul_l; apply sum_ext; intros k _; ring|].
          rewrite (HX0 i j ib jb Hi Hj Hib Hjb) by congruence. rewrite sum_zero by (intros k _; ring). ring. }
    assert (U2 : fdecouple w mc (zeros_like mc) (zeros_like mc) = Ok v).
    { apply (Ap mc (zeros_like mc) v Rmc (rect_zeros _ _ _ Rmc) (entry_zeros mc)). split; [exact Hv|]. intros i ib Hi Hib. rewrite (Emc i ib Hi Hib). destruct (keep i) eqn:Ki; [|apply (Zero v i ib Hi Hib Ki HV0)].
      pose proof (binned_ok pi fsqrt trunc ph w g1 g2 b c false v i ib W Hi Hib) as B. change (n_spectra g1 g2 false) with n in B. fold nb in B. rewrite B.
      rewrite (sum_ext _ _ (fun k => pr k * pseudo_spin s mask1 mask2 spin1 spin2 b c (t1 k) (t2 k) i ib)) by (intros k _; unfold entry2, cl; rewrite nth_tab by exact Hi; rewrite nth_tab by exact Hib; reflexivity).
      rewrite mean_text. rewrite (text_coupled i ib g1 g2 Hi (HM i Hi Ki)) by reflexivity. apply coupled_ext. intros j mm Hj Hm. change (n_spectra g1 g2 false) with n in Hj. change (ff_fs g1) with s in *. destruct (HCv j mm Hj Hm) as [A B'].
      destruct (find (fun i => inb b i (kmod_of s mm)) (seq 0 (n_bands b))) as [q|] eqn:Ef.
      + apply find_some in Ef. destruct Ef as [F1 F2]. apply in_seq in F1. rewrite (band_value_in b _ _ q Hc) by (lia || exact F2). symmetry. apply A; [unfold nb; lia | exact F2].
      + pose proof (find_none _ _ Ef) as NF. assert (Z : forall q, (q < n_bands b)%nat -> inb b q (kmod_of s mm) = false) by (intros q Hq; apply (NF q); apply in_seq; lia). rewrite (band_value_out b) by exact Z. symmetry. apply B'. exact Z. }
    rewrite U1 in U2. assert (mr = v) as Emv by congruence. intros i ib Hi Hib Ki. rewrite <- Emv, (Emr i ib Hi Hib), Ki. reflexivity.
Qed.
Lemma decoupled_eq rows q1 q2 : all_rows s rows -> rect n1 (fs_nx s * fs_ny s) q1 -> rect n2 (fs_nx s * fs_ny s) q2 ->
  decoupled_maps s mask1 mask2 beam1 beam2 spin1 spin2 b c rows q1 q2 =
  do w <- workspace_spins s mask1 mask2 beam1 beam2 spin1 spin2 b c rows; do cl <- coupled_maps s mask1 mask2 beam1 beam2 spin1 spin2 b c q1 q2; py_decouple (Some w) cl None None.
Proof.
  intros HPr A1 A2. rewrite (workspace_eq rows HPr). cbn [bind]. unfold decoupled_maps, coupled_maps. destruct (field_ok s mask1 beam1 spin1 q1 Hlx Hly Hs1 HR Hk1 A1) as [a1 [E1 _]]. destruct (field_ok s mask2 beam2 spin2 q2 Hlx Hly Hs2 HR Hk1 A2) as [a2 [E2 _]].
  rewrite E1. cbn [bind]. rewrite E2. cbn [bind]. rewrite (coupling_matrix_eq pi fsqrt trunc ph (FF s spin1 false false mask1 beam1 a1 false) (FF s spin2 false false mask2 beam2 a2 false) b c false rows Hc HPr). cbn [ff_fs]. rewrite same_fs_refl. reflexivity.
Qed.
(** Decoupling is unbiased for masks that do not distinguish a direction from its mirror image: if the spectra take one value in each band (and vanish outside),
    the mean of the decoupled spectra is that value. *)
Theorem C86_unbiased (rows : list nat) (v : mat) : all_rows s rows -> rect (n1 * n2) (n_bands b) v -> mirror_prod pi ph s mask1 mask2 ->
  (forall j m, (j < n1 * n2)%nat -> In m (grid s) -> (forall ib, (ib < n_bands b)%nat -> inb b ib (kmod_of s m) = true -> C j (kmod_of s m) = entry2 v j ib) /\ ((forall ib, (ib < n_bands b)%nat -> inb b ib (kmod_of s m) = false) -> C j (kmod_of s m) = 0)) ->
  exists w, workspace_spins s mask1 mask2 beam1 beam2 spin1 spin2 b c rows = Ok w /\ (nonsingular (n1 * n2 * n_bands b) (fw_bnd w) ->
  exists r : nat -> mat, (forall k, (k < K)%nat -> decoupled_maps s mask1 mask2 beam1 beam2 spin1 spin2 b c rows (t1 k) (t2 k) = Ok (r k) /\ rect (n1 * n2) (n_bands b) (r k)) /\
  forall i ib, (i < n1 * n2)%nat -> (ib < n_bands b)%nat -> sum K (fun k => pr k * entry2 (r k) i ib) = entry2 v i ib).
Proof.
  intros HPr Hv HM HCv. exists mask_wsp. split; [apply workspace_eq; exact HPr|]. intro N.
  destruct (unbiased_gen (fun _ => true) rows v HPr Hv (fun i _ _ => or_introl HM) ltac:(discriminate) HCv ltac:(congruence) N) as [r [R1 R2]]. exists r. split; [exact R1|]. intros i ib Hi Hib. apply R2; auto.
Qed.
Section Parity.
(** two spins that are both even or both odd; cuts that do not distinguish kx from -kx; no band reaches the last row and column of modes of an even grid *)
Hypothesis HE : Z.even spin1 = Z.even spin2.
Hypothesis HX : x_symmetric pi s c.
Hypothesis HB : forall ib m, (ib < n_bands b)%nat -> In m (grid s) -> inb b ib (kmod_of s m) = true -> ~ edge s m.
Lemma cross_zero i j ib jb : (i < n1 * n2)%nat -> (j < n1 * n2)%nat -> (ib < n_bands b)%nat -> (jb < n_bands b)%nat -> odd_spec spin2 i <> odd_spec spin2 j ->
  entry2 (fw_bnd mask_wsp) (ib * (n1 * n2) + i) (jb * (n1 * n2) + j) = 0.
Proof.
  intros Hi Hj Hib Hjb HO. set (g1 := FF s spin1 false false mask1 beam1 [] true). set (g2 := FF s spin2 false false mask2 beam2 [] true). pose proof (ws_bnd _ _ _ _ _ _ _ _ _ _ (wsp_of_spec pi fsqrt trunc ph g1 g2 b c false) i ib j jb Hi Hj Hib Hjb) as E.
  change (n_spectra g1 g2 false) with (n1 * n2)%nat in E. rewrite E. clear E. unfold coup. change (ff_fs g1) with s. change (ff_spin g1) with spin1. change (ff_spin g2) with spin2.
  set (T := fun m1 m2 => dm s spin1 m1 m2 (i / n2) (j / n2) * dm s spin2 m1 m2 (i mod n2) (j mod n2) * (if inb b jb (kmod_of s m2) then beam1 (kmod_of s m2) * beam2 (kmod_of s m2) else 0)).
  pose proof (n_maps_pos spin2) as P2. assert (D1 : (i / n2 < n1)%nat) by (apply Nat.div_lt_upper_bound; lia). assert (D2 : (j / n2 < n1)%nat) by (apply Nat.div_lt_upper_bound; lia). assert (D3 : (i mod n2 < n2)%nat) by (apply Nat.mod_upper_bound; lia). assert (D4 : (j mod n2 < n2)%nat) by (apply Nat.mod_upper_bound; lia).
  assert (NE1 : forall m, In m (modes s b c ib) -> In m (grid s) /\ ~ edge s m). { intros m Hm. pose proof (in_modes pi fsqrt ph s b c ib m Hm) as G. split; [exact G|]. apply filter_In in Hm. destruct Hm as [_ Hm]. apply andb_prop in Hm. apply (HB ib m Hib G). apply Hm. }
  transitivity (wsum pi fsqrt s b c ib T (code_prod pi ph s mask1 mask2) * fac_norm pi s (Z.of_nat (length (modes s b c ib)))).
  - f_equal. unfold wsum. apply lsum_ext. intros m1 M1. apply (in_modes pi fsqrt ph) in M1. rewrite <- lsum_filter. apply lsum_ext. intros m2 M2. unfold T. destruct (inb b jb (kmod_of s m2)); [|ring]. unfold weight.
    pose proof (block_entry pi fsqrt ph g1 g2 i j m1 m2 HS M1 M2 eq_refl eq_refl eq_refl eq_refl Hi Hj) as BE. cbv zeta in BE. change (ff_spin g1) with spin1 in BE. change (ff_spin g2) with spin2 in BE. change (ff_fs g1) with s in BE. rewrite BE. unfold beamprod, code_prod. change (ff_fs g1) with s. change (ff_spin g1) with spin1. change (ff_spin g2) with spin2. cbn [g1 g2 ff_mask ff_beam]. unfold L_Flat2.kmod_of. ring.
  - rewrite (wsum_odd pi fsqrt ph s b c ib T mask1 mask2 HR HX HY); [ring| |].
    + intros m1 m2 M1 M2. destruct (NE1 m1 M1) as [G1 E1]. unfold T. rewrite (kmod_flip pi fsqrt s m2 M2). destruct (inb b jb (kmod_of s m2)) eqn:I2; [|ring]. rewrite (dm_flip pi fsqrt ph s spin1 spin2 m1 m2 _ _ _ _ Hs1 Hs2 HE G1 M2 E1 (HB jb m2 Hjb M2 I2)). reflexivity.
    + intros m1 m2 M1 M2. destruct (NE1 m1 M1) as [G1 E1]. unfold T. rewrite (kmod_yflip pi fsqrt s m2 M2). destruct (inb b jb (kmod_of s m2)) eqn:I2; [|ring]. pose proof (HB jb m2 Hjb M2 I2) as E2. unfold edge in E1, E2.
      rewrite !(dm_yflip pi fsqrt ph) by (try assumption; intro; tauto).
      assert (SG : sgn (i / n2 + j / n2) * sgn (i mod n2 + j mod n2) = (- (1) : F)). { unfold odd_spec in HO. unfold sgn. rewrite !Nat.even_add. rewrite !Nat.odd_add in HO. rewrite <- !Nat.negb_even in HO. destruct (Nat.even (i / n2)), (Nat.even (j / n2)), (Nat.even (i mod n2)), (Nat.even (j mod n2)); cbn in *; try congruence; ring. }
      match goal with |- ?x * ?y * (?x' * ?y') * ?z = _ => transitivity (x * x' * (y * y' * z)); [ring|] end. rewrite SG. ring.
Qed.
(** For all masks the coupling matrix has no coefficients between spectra of opposite parity (TE and TB, or EE and EB) *)
Theorem C86_no_parity_mixing (rows : list nat) : all_rows s rows -> exists w, workspace_spins s mask1 mask2 beam1 beam2 spin1 spin2 b c rows = Ok w /\
  forall i j ib jb, (i < n1 * n2)%nat -> (j < n1 * n2)%nat -> (ib < n_bands b)%nat -> (jb < n_bands b)%nat -> odd_spec spin2 i <> odd_spec spin2 j -> entry2 (fw_bnd w) (ib * (n1 * n2) + i) (jb * (n1 * n2) + j) = 0.
Proof. intro HPr. exists mask_wsp. split; [apply workspace_eq; exact HPr | exact cross_zero]. Qed.
(** ... so that for all masks the spectra of one parity are unbiased if those of the other parity vanish: EE and BB if there is no EB, TE if there is no TB. *)
Theorem C86_parity_unbiased (o : bool) (rows : list nat) (v : mat) : all_rows s rows -> rect (n1 * n2) (n_bands b) v ->
  (forall j m, (j < n1 * n2)%nat -> odd_spec spin2 j <> o -> In m (grid s) -> C j (kmod_of s m) = 0) -> (forall j ib, (j < n1 * n2)%nat -> (ib < n_bands b)%nat -> odd_spec spin2 j <> o -> entry2 v j ib = 0) ->
  (forall j m, (j < n1 * n2)%nat -> In m (grid s) -> (forall ib, (ib < n_bands b)%nat -> inb b ib (kmod_of s m) = true -> C j (kmod_of s m) = entry2 v j ib) /\ ((forall ib, (ib < n_bands b)%nat -> inb b ib (kmod_of s m) = false) -> C j (kmod_of s m) = 0)) ->
  exists w, workspace_spins s mask1 mask2 beam1 beam2 spin1 spin2 b c rows = Ok w /\ (nonsingular (n1 * n2 * n_bands b) (fw_bnd w) ->
  exists r : nat -> mat, (forall k, (k < K)%nat -> decoupled_maps s mask1 mask2 beam1 beam2 spin1 spin2 b c rows (t1 k) (t2 k) = Ok (r k) /\ rect (n1 * n2) (n_bands b) (r k)) /\
  forall i ib, (i < n1 * n2)%nat -> (ib < n_bands b)%nat -> odd_spec spin2 i = o -> sum K (fun k => pr k * entry2 (r k) i ib) = entry2 v i ib).
Proof.
  intros HPr Hv HO HV HCv. exists mask_wsp. split; [apply workspace_eq; exact HPr|]. intro N. destruct (unbiased_gen (fun i => Bool.eqb (odd_spec spin2 i) o) rows v HPr Hv) as [r [R1 R2]]; try assumption.
  - intros i Hi Ki. apply Bool.eqb_prop in Ki. right. intros j m Hj Hne Hm. apply HO; try assumption. congruence.
  - intros i ib Hi Hib Ki. apply Bool.eqb_false_iff in Ki. apply HV; assumption.
  - intros i j ib jb Hi Hj Hib Hjb Hk. apply cross_zero; try assumption. congruence.
  - exists r. split; [exact R1|]. intros i ib Hi Hib Ho. apply R2; try assumption. rewrite Ho. apply Bool.eqb_reflx.
Qed.
End Parity.
End Ensemble.
(** The covariance asked for is realised, for all spectra, by an ensemble of plane waves: real and imaginary parts of the E or B modes, with weights P(k)/A. *)
Definition ens_n (s : fsinfo) (spin1 spin2 : Z) : nat := (length (grid s) * (n_maps spin1 * (n_maps spin2 * 2)))%nat.
Definition ens_m (s : fsinfo) (spin1 spin2 : Z) (k : nat) : nat * nat := nth (k / (n_maps spin1 * (n_maps spin2 * 2))) (grid s) (0%nat, 0%nat).
Definition ens_c (spin1 spin2 : Z) (k : nat) : nat := ((k mod (n_maps spin1 * (n_maps spin2 * 2))) / (n_maps spin2 * 2))%nat.
Definition ens_d (spin2 : Z) (k : nat) : nat := ((k mod (n_maps spin2 * 2)) / 2)%nat.
Definition ens_w (s : fsinfo) (spin1 spin2 : Z) (P : nat -> F -> F) (k : nat) : F :=
  1 / (fs_lx s * fs_ly s) * P (ens_c spin1 spin2 k * n_maps spin2 + ens_d spin2 k)%nat (kmod_of s (ens_m s spin1 spin2 k)).
Definition wave_map (s : fsinfo) (spin : Z) (m : nat * nat) (c : nat) (im : bool) : mat :=
  tab (n_maps spin) (fun x => tab (fs_nx s * fs_ny s) (fun q => let z := cmul (unit_mode spin (rot pi fsqrt s spin m) c x) (conjc (wave ph s m (q mod fs_nx s, q / fs_nx s)%nat)) in if im then snd z else fst z)).
Definition ens_1 (s : fsinfo) (spin1 spin2 : Z) (k : nat) : mat := wave_map s spin1 (ens_m s spin1 spin2 k) (ens_c spin1 spin2 k) (negb (Nat.eqb (k mod 2) 0)).
Definition ens_2 (s : fsinfo) (spin1 spin2 : Z) (k : nat) : mat := wave_map s spin2 (ens_m s spin1 spin2 k) (ens_d spin2 k) (negb (Nat.eqb (k mod 2) 0)).
Lemma wave_map_pix (s : fsinfo) spin m c im x p : (x < n_maps spin)%nat -> In p (grid s) -> pix s (nth x (wave_map s spin m c im) []) p =
  let z := cmul (unit_mode spin (rot pi fsqrt s spin m) c x) (conjc (wave ph s m p)) in if im then snd z else fst z.
Proof.
  clear trunc. intros Hx Hp. destruct p as [px py]. apply in_grid in Hp. cbn [fst snd] in Hp. unfold pix, wave_map. cbn [fst snd]. rewrite nth_tab by exact Hx. rewrite nth_tab by nia. cbv zeta.
  rewrite (Nat.mul_comm (fs_nx s) py), (Nat.mod_add px py (fs_nx s)), (Nat.div_add px py (fs_nx s)), (Nat.mod_small px), (Nat.div_small px) by lia. reflexivity.
Qed.
Theorem C86_ensemble_exists (s : fsinfo) (spin1 spin2 : Z) (P : nat -> F -> F) :
  (forall k, rect (n_maps spin1) (fs_nx s * fs_ny s) (ens_1 s spin1 spin2 k) /\ rect (n_maps spin2) (fs_nx s * fs_ny s) (ens_2 s spin1 spin2 k)) /\
  forall x y p p', (x < n_maps spin1)%nat -> (y < n_maps spin2)%nat -> In p (grid s) -> In p' (grid s) ->
  sum (ens_n s spin1 spin2) (fun k => ens_w s spin1 spin2 P k * (pix s (nth x (ens_1 s spin1 spin2 k) []) p * pix s (nth y (ens_2 s spin1 spin2 k) []) p')) = iso_cov_spin pi fsqrt ph s spin1 spin2 P x y p p'.
Proof.
  clear trunc. split; [intro k; split; apply rect_tab|]. intros x y p p' Hx Hy Hp Hp'. unfold ens_n. set (n1 := n_maps spin1). set (n2 := n_maps spin2). pose proof (n_maps_pos spin1) as N1. pose proof (n_maps_pos spin2) as N2. fold n1 in N1. fold n2 in N2.
  rewrite sum_flat. unfold iso_cov_spin. fold n1 n2. rewrite <- lsum_mul_l. rewrite (lsum_map_nth _ (grid s) (0%nat, 0%nat)). apply sum_ext. intros i Hi. cbv beta.
  rewrite sum_flat. rewrite <- sum_mul_l. apply sum_ext. intros c Hcc. rewrite sum_flat. rewrite <- sum_mul_l. apply sum_ext. intros d Hd. cbn [sum].
  assert (E : forall j, (j < 2)%nat -> let k := (n1 * (n2 * 2) * i + (n2 * 2 * c + (2 * d + j)))%nat in ens_m s spin1 spin2 k = nth i (grid s) (0%nat, 0%nat) /\ ens_c spin1 spin2 k = c /\ ens_d spin2 k = d /\ (k mod 2 = j)%nat).
  { intros j Hj k. assert (L1 : (2 * d + j < n2 * 2)%nat) by lia. assert (L2 : (n2 * 2 * c + (2 * d + j) < n1 * (n2 * 2))%nat) by nia.
    unfold ens_m, ens_c, ens_d. fold n1 n2. unfold k. split; [|split; [|split]].
    - f_equal. rewrite (Nat.mul_comm (n1 * (n2 * 2)) i), Nat.div_add_l, Nat.div_small by lia. lia.
    - rewrite (Nat.add_comm (n1 * (n2 * 2) * i)), (Nat.mul_comm (n1 * (n2 * 2)) i), Nat.mod_add, Nat.mod_small by lia. rewrite (Nat.mul_comm (n2 * 2) c), Nat.div_add_l, Nat.div_small by lia. lia.
    - replace (n1 * (n2 * 2) * i + (n2 * 2 * c + (2 * d + j)))%nat with (2 * d + j + (n1 * i + c) * (n2 * 2))%nat by ring. rewrite Nat.mod_add, Nat.mod_small by lia. rewrite (Nat.mul_comm 2 d), Nat.div_add_l, Nat.div_small by lia. lia.
    - replace (n1 * (n2 * 2) * i + (n2 * 2 * c + (2 * d + j)))%nat with (j + (n1 * n2 * i + n2 * c + d) * 2)%nat by ring. rewrite Nat.mod_add, Nat.mod_small by lia. reflexivity. }
  destruct (E 0%nat ltac:(lia)) as [M0 [C0 [D0 K0]]]. destruct (E 1%nat ltac:(lia)) as [M1 [C1 [D1 K1]]]. unfold ens_w, ens_1, ens_2. fold n2. rewrite !(wave_map_pix s _ _ _ _ _ _ Hx Hp), !(wave_map_pix s _ _ _ _ _ _ Hy Hp'). rewrite M0, M1, C0, C1, D0, D1, K0, K1. cbn [Nat.eqb negb].
  set (m := nth i (grid s) (0%nat, 0%nat)). set (z := cmul _ _). set (z' := cmul (unit_mode spin2 _ _ _) _). unfold cdot. cbn zeta. ring.
Qed.
(** Masks that are their own mirror image, along either axis, do not distinguish a direction from its mirror image. *)
Theorem C86_mirror_masks (s : fsinfo) (w1 w2 : list F) : conj_roots ph s ->
  (forall x y, (x < fs_nx s)%nat -> (y < fs_ny s)%nat -> nth (x + fs_nx s * ((fs_ny s - y) mod fs_ny s)) w1 0 = nth (x + fs_nx s * y) w1 0 /\ nth (x + fs_nx s * ((fs_ny s - y) mod fs_ny s)) w2 0 = nth (x + fs_nx s * y) w2 0) \/
  (forall x y, (x < fs_nx s)%nat -> (y < fs_ny s)%nat -> nth ((fs_nx s - x) mod fs_nx s + fs_nx s * y) w1 0 = nth (x + fs_nx s * y) w1 0 /\ nth ((fs_nx s - x) mod fs_nx s + fs_nx s * y) w2 0 = nth (x + fs_nx s * y) w2 0) ->
  mirror_prod pi ph s w1 w2.
Proof.
  clear trunc. intros HR H. apply (mirror_prod_mask pi fsqrt ph s w1 w2 HR). destruct H as [H|H]; [left|right]; split; intros [x y] Hp; apply in_grid in Hp; cbn [fst snd] in Hp; apply H; tauto.
Qed.
End Statements.

(** ** Examples: maps of 4x4 rectangular pixels (k = 3 along x, 4 along y), bands with 3 and 6 modes *)
Section Generic.
Context {F : ofield}.
Local Open Scope F_scope.
Add Field FfPMeT : (fth F).
Lemma zero_times (x : F) : 0 * x = 0. Proof. ring. Qed.
(** sum without the terms with zero weight *)
Lemma sum_nonzero {A} n (w : nat -> F) (f : nat -> A) (g : A -> F) : sum n (fun k => w k * g (f k)) = lsum (map (fun x => fst x * g (snd x)) (map (fun x => (fst x, f (snd x))) (filter (fun x => negb (feqb (fst x) 0)) (map (fun k => (w k, k)) (seq 0 n))))).
Proof.
  rewrite map_map. cbn [fst snd]. rewrite <- lsum_filter. rewrite map_map. cbn [fst snd]. symmetry. etransitivity; [apply (lsum_tab n)|]. apply sum_ext. intros k _. destruct (feqb (w k) 0) eqn:E; [apply feqb_eq in E; rewrite E; cbn [negb]; ring | reflexivity].
Qed.
End Generic.
Section Ex.
Notation Q := Qc_field.
Definition s34 : fsinfo Q := FS 4 4 (q 2 3) (q 1 2).
Definition sq34 (x : Q) : Q :=
  if feqb x (qz 9) then qz 3 else if feqb x (qz 16) then qz 4 else if feqb x (qz 25) then qz 5 else if feqb x (qz 36) then qz 6 else if feqb x (qz 64) then qz 8
  else if feqb x (qz 100) then qz 10 else if feqb x (qz 52) then q 36 5 else if feqb x (qz 73) then q 17 2 else qz 0.
Definition b34 : fbins Q := FBins [qz 0; q 7 2] [q 7 2; q 11 2].
(** a mask without symmetry, and one that is equal to its mirror image *)
Definition mchiral : list Q := map qz [1; 0; 2; 0; 1; 2; 0; 1; 1; 1; 1; 0; 0; 5; 0; 1]%Z.
Definition mmirror : list Q := map qz [1; 0; 2; 0; 1; 2; 0; 1; 1; 1; 1; 0; 1; 2; 0; 1]%Z.
Definition one34 (k : Q) : Q := qz 1.
Definition beam34 (k : Q) : Q := fdiv (qz 1) (fadd (qz 1) k).
Definition c34 (v : list (list Q)) (j : nat) : Q -> Q := band_value b34 (nth j v []).
Definition p34 (v : list (list Q)) (j : nat) (k : Q) : Q := fmul (c34 v j k) (fmul (beam34 k) (one34 k)).
Definition wt34 (v : list (list Q)) (s1 s2 : Z) (k : nat) : Q := ens_w (qz 1) sq34 s34 s1 s2 (p34 v) k.
Definition ta34 (s1 s2 : Z) (k : nat) : list (list Q) := ens_1 (qz 1) sq34 ph4 s34 s1 s2 k.
Definition tb34 (s1 s2 : Z) (k : nat) : list (list Q) := ens_2 (qz 1) sq34 ph4 s34 s1 s2 k.
Definition wsp34 (m1 m2 : list Q) (s1 s2 : Z) : res (fwsp Q) := workspace_spins (qz 1) sq34 trq ph4 s34 m1 m2 beam34 one34 s1 s2 b34 free [2; 0; 1; 3]%nat.
Definition cl34 (m1 m2 : list Q) (s1 s2 : Z) (k : nat) : res (list (list Q)) := coupled_maps (qz 1) sq34 ph4 s34 m1 m2 beam34 one34 s1 s2 b34 free (ta34 s1 s2 k) (tb34 s1 s2 k).
Definition run34 (m1 m2 : list Q) (s1 s2 : Z) (k : nat) : res (list (list Q)) := decoupled_maps (qz 1) sq34 trq ph4 s34 m1 m2 beam34 one34 s1 s2 b34 free [2; 0; 1; 3]%nat (ta34 s1 s2 k) (tb34 s1 s2 k).
(** mean of the decoupled spectra *)
Definition mean34 (v : list (list Q)) (m1 m2 : list Q) (s1 s2 : Z) (i ib : nat) : Q := sum (ens_n s34 s1 s2) (fun k => fmul (wt34 v s1 s2 k) (entry2 (from_ok [] (run34 m1 m2 s1 s2 k)) i ib)).
(** the same, computed with one workspace and without the maps with zero weight *)
Definition fast34 (v : list (list Q)) (m1 m2 : list Q) (s1 s2 : Z) : list (list Q) :=
  let w := from_ok dummy (wsp34 m1 m2 s1 s2) in
  let r := map (fun x => (fst x, from_ok [] (bind (cl34 m1 m2 s1 s2 (snd x)) (fun cl => py_decouple (Some w) cl None None)))) (filter (fun x => negb (feqb (fst x) f0)) (map (fun k => (wt34 v s1 s2 k, k)) (seq 0 (ens_n s34 s1 s2)))) in
  tab (length v) (fun i => tab 2 (fun ib => lsum (map (fun x => fmul (fst x) (entry2 (snd x) i ib)) r))).
Lemma roots34 : conj_roots ph4 s34.
Proof. split; intros j Hj; cbn [s34 fs_nx fs_ny] in *; destruct j as [|[|[|[|j]]]]; try lia; apply cplx_eq; apply out_inj; vm_compute; reflexivity. Qed.
Lemma hom34 : hom_roots ph4 s34.
Proof. split; intros i j Hi Hj; cbn [s34 fs_nx fs_ny] in *; destruct i as [|[|[|[|i]]]]; try lia; destruct j as [|[|[|[|j]]]]; try lia; apply cplx_eq; apply out_inj; vm_compute; reflexivity. Qed.
Lemma contiguous34 : contiguous b34.
Proof.
  split; [split; [reflexivity|split; [cbn; lia|split]]|].
  - intros i Hi. change (n_bands b34) with 2%nat in Hi. destruct i as [|[|i]]; try lia; vm_compute; reflexivity.
  - intros i Hi. change (n_bands b34) with 2%nat in Hi. destruct i as [|i]; try lia. vm_compute; reflexivity.
  - intros i Hi. change (n_bands b34) with 2%nat in Hi. destruct i as [|i]; try lia. apply out_inj. vm_compute; reflexivity.
Qed.
Lemma rows34 : all_rows s34 [2; 0; 1; 3]%nat.
Proof. unfold all_rows. cbn. apply (Permutation_cons_app [0; 1]%nat [3]%nat 2%nat). apply Permutation_refl. Qed.
Lemma ysym34 : y_symmetric (qz 1) s34 free.
Proof. intros iy Hy. cbn [s34 fs_ny] in Hy. destruct iy as [|[|[|[|iy]]]]; try lia; vm_compute; reflexivity. Qed.
Lemma xsym34 : x_symmetric (qz 1) s34 free.
Proof. intros ix Hx. cbn [s34 fs_nx] in Hx. destruct ix as [|[|[|[|ix]]]]; try lia; vm_compute; reflexivity. Qed.
Lemma grid34 (p : nat * nat -> bool) : forallb p (grid s34) = true -> forall m, In m (grid s34) -> p m = true.
Proof. intros H m Hm. exact (proj1 (forallb_forall _ _) H m Hm). Qed.
Lemma sign34 : sqrt_sign (qz 1) sq34 s34.
Proof. intros m Hm. apply Bool.eqb_prop. revert m Hm. apply grid34. vm_compute. reflexivity. Qed.
Lemma kx34 : kxf (qz 1) s34 1 <> qz 0. Proof. intro E. apply (f_equal out) in E. vm_compute in E. discriminate E. Qed.
Lemma noedge34 ib m : (ib < n_bands b34)%nat -> In m (grid s34) -> inb b34 ib (L_Flat2.kmod_of (qz 1) sq34 s34 m) = true -> ~ edge s34 m.
Proof.
  intros Hib Hm HI HE. assert (G : (negb (inb b34 0 (L_Flat2.kmod_of (qz 1) sq34 s34 m) || inb b34 1 (L_Flat2.kmod_of (qz 1) sq34 s34 m)) || negb (Nat.eqb (2 * fst m) 4 || Nat.eqb (2 * snd m) 4))%bool = true). { revert m Hm HI HE. intros m Hm _ _. revert m Hm. apply grid34. vm_compute. reflexivity. }
  unfold edge in HE. cbn [s34 fs_nx fs_ny] in HE. assert (N : (Nat.eqb (2 * fst m) 4 || Nat.eqb (2 * snd m) 4)%bool = true) by (apply orb_true_iff; rewrite !Nat.eqb_eq; exact HE). rewrite N in G. rewrite Bool.orb_false_r in G.
  change (n_bands b34) with 2%nat in Hib. destruct ib as [|[|ib]]; try lia; rewrite HI in G; cbn in G; rewrite ?Bool.orb_true_r in G; discriminate G.
Qed.
Lemma edge34 v j m : In m (grid s34) -> edge s34 m -> p34 v j (L_Flat2.kmod_of (qz 1) sq34 s34 m) = f0.
Proof.
  intros Hm HE. assert (Z : forall ib, (ib < n_bands b34)%nat -> inb b34 ib (L_Flat2.kmod_of (qz 1) sq34 s34 m) = false). { intros ib Hib. destruct (inb b34 ib _) eqn:I; [|reflexivity]. destruct (noedge34 ib m Hib Hm I HE). }
  unfold p34, c34. rewrite (band_value_out b34 _ _ Z). apply zero_times.
Qed.
Lemma mean_fast v m1 m2 s1 s2 i ib : length m1 = 16%nat -> length m2 = 16%nat -> (0 <= s1)%Z -> (0 <= s2)%Z -> is_ok (wsp34 m1 m2 s1 s2) = true -> (i < length v)%nat -> (ib < 2)%nat ->
  mean34 v m1 m2 s1 s2 i ib = entry2 (fast34 v m1 m2 s1 s2) i ib.
Proof.
  intros L1 L2 H1 H2 HW Hi Hib. unfold mean34, fast34, entry2 at 2. cbv zeta. rewrite nth_tab by exact Hi. rewrite nth_tab by exact Hib. rewrite <- (sum_nonzero (ens_n s34 s1 s2) (wt34 v s1 s2) (fun k => from_ok [] (bind (cl34 m1 m2 s1 s2 k) (fun cl => py_decouple (Some (from_ok dummy (wsp34 m1 m2 s1 s2))) cl None None))) (fun x => entry2 x i ib)).
  apply sum_ext. intros k _. f_equal. f_equal. f_equal. destruct (C86_ensemble_exists (qz 1) sq34 ph4 s34 s1 s2 (p34 v)) as [R _]. destruct (R k) as [R1 R2].
  unfold run34. rewrite (decoupled_eq (qz 1) sq34 trq ph4 s34 m1 m2 beam34 one34 s1 s2 b34 free contiguous34 roots34 eq_refl eq_refl kx34 H1 H2 [2; 0; 1; 3]%nat (ta34 s1 s2 k) (tb34 s1 s2 k) rows34 R1 R2).
  fold (wsp34 m1 m2 s1 s2). destruct (wsp34 m1 m2 s1 s2); try discriminate HW. reflexivity.
Qed.
(** everything asked for by the theorems *)
Lemma power34 v s1 s2 : Z.even s1 = Z.even s2 -> no_edge_power (qz 1) sq34 s34 s1 s2 (p34 v).
Proof. intro E. split; [intros j m Hm He; apply edge34; assumption | left; exact E]. Qed.
Lemma bands34 v j m : In m (grid s34) -> (forall ib, (ib < n_bands b34)%nat -> inb b34 ib (L_Flat2.kmod_of (qz 1) sq34 s34 m) = true -> c34 v j (L_Flat2.kmod_of (qz 1) sq34 s34 m) = entry2 v j ib) /\
  ((forall ib, (ib < n_bands b34)%nat -> inb b34 ib (L_Flat2.kmod_of (qz 1) sq34 s34 m) = false) -> c34 v j (L_Flat2.kmod_of (qz 1) sq34 s34 m) = f0).
Proof.
  intro Hm. split.
  - intros ib Hib HI. apply (band_value_in b34 (nth j v []) _ ib contiguous34 Hib HI).
  - intro Z. apply (band_value_out b34 _ _ Z).
Qed.
Lemma no_band34 ib (k : Q) : (2 <= ib)%nat -> inb b34 ib k = true -> False.
Proof.
  intros L H. unfold inb, low, high in H. rewrite !nth_overflow in H by (cbn; lia). apply andb_prop in H. destruct H as [H1 H2]. unfold fltb in H2. rewrite H1 in H2. discriminate H2.
Qed.
Lemma map_inj {A B} (f : A -> B) : (forall x y, f x = f y -> x = y) -> forall l l', map f l = map f l' -> l = l'.
Proof. intros Hf l. induction l as [|x t IH]; intros [|y u] E; cbn in E; try discriminate; [reflexivity|]. injection E as E1 E2. f_equal; auto. Qed.
Lemma outs_inj (a b : list (list Q)) : map (map out) a = map (map out) b -> a = b.
Proof. apply map_inj. apply map_inj. exact out_inj. Qed.
Definition check34 (n : nat) (w : fwsp Q) : bool :=
  Nat.eqb (fw_ncls w * fw_nb w) n && Nat.ltb 0 (fw_ncls w) && (Nat.eqb (length (fw_bnd w)) n && forallb (fun r => Nat.eqb (length r) n) (fw_bnd w)) && is_ok (py_decouple (Some w) (tab (fw_ncls w) (fun _ => tab (fw_nb w) (fun _ => qz 0))) None None).
Lemma nonsing34 n w : check34 n w = true -> nonsingular n (fw_bnd w).
Proof.
  unfold check34. rewrite !Bool.andb_true_iff. intros [[[H1 H2] [H3 H4]] H5]. apply Nat.eqb_eq in H1, H3. apply Nat.ltb_lt in H2. rewrite <- H1 in *. apply nonsingular_of_solution; try assumption. split; [exact H3|]. intros r Hr. apply Nat.eqb_eq. exact (proj1 (forallb_forall _ _) H4 r Hr).
Qed.
Definition v4 : list (list Q) := map (map qz) [[7; 3]; [1; -2]; [4; 1]; [2; 5]]%Z.
Definition v2 : list (list Q) := map (map qz) [[7; 3]; [0; 0]]%Z.
Lemma w4_nonsingular : nonsingular 8 (fw_bnd (from_ok dummy (wsp34 mmirror mmirror 2 2))).
Proof. apply nonsing34. vm_compute. reflexivity. Qed.
Lemma w2_nonsingular : nonsingular 4 (fw_bnd (from_ok dummy (wsp34 mchiral mchiral 0 2))).
Proof. apply nonsing34. vm_compute. reflexivity. Qed.
Lemma mirror34 : mirror_prod (qz 1) ph4 s34 mmirror mmirror.
Proof.
  apply (C86_mirror_masks (qz 1) sq34 ph4 s34 mmirror mmirror roots34). left. intros x y Hx Hy. cbn [s34 fs_nx fs_ny] in Hx, Hy. destruct x as [|[|[|[|x]]]]; try lia; destruct y as [|[|[|[|y]]]]; try lia; split; apply out_inj; vm_compute; reflexivity.
Qed.
(** E, B and their correlations, spin 2 with a mirror-symmetric mask, bands that are not equal, a beam: all spectra come out unbiased ... *)
Example ex_unbiased : contiguous b34 /\ y_symmetric (qz 1) s34 free /\ conj_roots ph4 s34 /\ hom_roots ph4 s34 /\ sqrt_sign (qz 1) sq34 s34 /\ kxf (qz 1) s34 1 <> qz 0 /\
  (forall ib m, In m (modes (qz 1) sq34 s34 b34 free ib) -> (2 * snd m)%nat <> fs_ny s34) /\ no_edge_power (qz 1) sq34 s34 2 2 (p34 v4) /\
  (forall x y p p', (x < 2)%nat -> (y < 2)%nat -> In p (grid s34) -> In p' (grid s34) -> sum (ens_n s34 2 2) (fun k => fmul (wt34 v4 2 2 k) (fmul (pix s34 (nth x (ta34 2 2 k) []) p) (pix s34 (nth y (tb34 2 2 k) []) p'))) = iso_cov_spin (qz 1) sq34 ph4 s34 2 2 (p34 v4) x y p p') /\
  all_rows s34 [2; 0; 1; 3]%nat /\ mirror_prod (qz 1) ph4 s34 mmirror mmirror /\ is_ok (wsp34 mmirror mmirror 2 2) = true /\ nonsingular 8 (fw_bnd (from_ok dummy (wsp34 mmirror mmirror 2 2))) /\
  (forall i ib, (i < 4)%nat -> (ib < 2)%nat -> mean34 v4 mmirror mmirror 2 2 i ib = entry2 v4 i ib) /\
  map (map out) (from_ok [] (run34 mmirror mmirror 2 2 40)) <> map (map out) (from_ok [] (run34 mmirror mmirror 2 2 9)).
Proof.
  assert (W : is_ok (wsp34 mmirror mmirror 2 2) = true) by (vm_compute; reflexivity).
  split; [exact contiguous34|]. split; [exact ysym34|]. split; [exact roots34|]. split; [exact hom34|]. split; [exact sign34|]. split; [exact kx34|].
  split. { intros ib m Hm. unfold modes in Hm. apply filter_In in Hm. destruct Hm as [Hm Hb]. apply andb_prop in Hb. destruct Hb as [_ Hb]. intro E. destruct (Nat.lt_ge_cases ib 2) as [L|L]; [exact (noedge34 ib m L Hm Hb (or_intror E))|].
    exact (no_band34 ib _ L Hb). }
  split; [apply power34; reflexivity|]. split; [exact (proj2 (C86_ensemble_exists (qz 1) sq34 ph4 s34 2 2 (p34 v4)))|]. split; [exact rows34|]. split; [exact mirror34|]. split; [exact W|]. split; [exact w4_nonsingular|]. split.
  - intros i ib Hi Hib. rewrite (mean_fast v4 mmirror mmirror 2 2 i ib) by (reflexivity || lia || assumption).
    assert (E : map (map out) (fast34 v4 mmirror mmirror 2 2) = map (map out) v4) by (vm_compute; reflexivity).
    rewrite (outs_inj _ _ E). reflexivity.
  - vm_compute. discriminate.
Qed.
(** ... but with a mask that differs from its mirror image, a sky with TE and without TB gives, on average, decoupled TB that is not zero (TE is right, by C86_parity_unbiased). *)
Theorem C86_chiral_mask_refuted : contiguous b34 /\ y_symmetric (qz 1) s34 free /\ x_symmetric (qz 1) s34 free /\ conj_roots ph4 s34 /\ hom_roots ph4 s34 /\ sqrt_sign (qz 1) sq34 s34 /\ kxf (qz 1) s34 1 <> qz 0 /\
  (forall ib m, (ib < 2)%nat -> In m (grid s34) -> inb b34 ib (L_Flat2.kmod_of (qz 1) sq34 s34 m) = true -> ~ edge s34 m) /\ no_edge_power (qz 1) sq34 s34 0 2 (p34 v2) /\
  (forall x y p p', (x < 1)%nat -> (y < 2)%nat -> In p (grid s34) -> In p' (grid s34) -> sum (ens_n s34 0 2) (fun k => fmul (wt34 v2 0 2 k) (fmul (pix s34 (nth x (ta34 0 2 k) []) p) (pix s34 (nth y (tb34 0 2 k) []) p'))) = iso_cov_spin (qz 1) sq34 ph4 s34 0 2 (p34 v2) x y p p') /\
  all_rows s34 [2; 0; 1; 3]%nat /\ is_ok (wsp34 mchiral mchiral 0 2) = true /\ nonsingular 4 (fw_bnd (from_ok dummy (wsp34 mchiral mchiral 0 2))) /\
  (forall m, In m (grid s34) -> c34 v2 1 (L_Flat2.kmod_of (qz 1) sq34 s34 m) = f0) /\
  (forall ib, (ib < 2)%nat -> mean34 v2 mchiral mchiral 0 2 0 ib = entry2 v2 0 ib) /\ mean34 v2 mchiral mchiral 0 2 1 0 <> f0.
Proof.
  assert (W : is_ok (wsp34 mchiral mchiral 0 2) = true) by (vm_compute; reflexivity).
  assert (M : forall i ib, (i < 2)%nat -> (ib < 2)%nat -> mean34 v2 mchiral mchiral 0 2 i ib = entry2 (fast34 v2 mchiral mchiral 0 2) i ib) by (intros i ib Hi Hib; apply (mean_fast v2 mchiral mchiral 0 2 i ib); reflexivity || lia || assumption).
  split; [exact contiguous34|]. split; [exact ysym34|]. split; [exact xsym34|]. split; [exact roots34|]. split; [exact hom34|]. split; [exact sign34|]. split; [exact kx34|]. split; [exact noedge34|].
  split; [apply power34; reflexivity|]. split; [exact (proj2 (C86_ensemble_exists (qz 1) sq34 ph4 s34 0 2 (p34 v2)))|]. split; [exact rows34|]. split; [exact W|]. split; [exact w2_nonsingular|]. split; [|split].
  - intros m Hm. apply feqb_eq. revert m Hm. apply (grid34 (fun m => feqb (c34 v2 1 (L_Flat2.kmod_of (qz 1) sq34 s34 m)) f0)). vm_compute. reflexivity.
  - intros ib Hib. rewrite M by lia. assert (E : map out (nth 0 (fast34 v2 mchiral mchiral 0 2) []) = map out (nth 0 v2 [])) by (vm_compute; reflexivity).
    unfold entry2. rewrite (map_inj out out_inj _ _ E). reflexivity.
  - rewrite M by lia. intro E. apply (f_equal out) in E. vm_compute in E. discriminate E.
Qed.
(** couple_cell for the same masks: the prediction for TE is the mean of the coupled spectra *)
Definition ells34 : list Q := map qz [0; 5; 6; 20]%Z.
Definition cls34 : list (list Q) := map (map qz) [[7; 7; 0; 0]; [0; 0; 0; 0]]%Z.
Definition cs34 (j : nat) : Q -> Q := spec_val ells34 (nth j cls34 []).
Definition ws34 (k : nat) : Q := ens_w (qz 1) sq34 s34 0 2 (fun j k => fmul (cs34 j k) (fmul (beam34 k) (one34 k))) k.
Definition fastc34 : list (list Q) :=
  let r := map (fun x => (fst x, from_ok [] (cl34 mchiral mchiral 0 2 (snd x)))) (filter (fun x => negb (feqb (fst x) f0)) (map (fun k => (ws34 k, k)) (seq 0 (ens_n s34 0 2)))) in
  tab 2 (fun i => tab 2 (fun ib => lsum (map (fun x => fmul (fst x) (entry2 (snd x) i ib)) r))).
Definition kmode34 (m : nat * nat) : Q := L_Flat2.kmod_of (qz 1) sq34 s34 m.
Definition ring34 (m : nat * nat) : Z := ring (qz 1) sq34 trq s34 m.
Example ex_couple_cell : good_ells ells34 /\
  (forall j m m', (j < 2)%nat -> In m (grid s34) -> In m' (grid s34) -> ring34 m = ring34 m' -> cs34 j (kmode34 m) = cs34 j (kmode34 m')) /\
  (forall j m, (j < 2)%nat -> In m (grid s34) -> (ring34 m < 0)%Z -> cs34 j (kmode34 m) = f0) /\
  (forall m, In m (grid s34) -> edge s34 m -> cs34 0 (kmode34 m) = f0) /\
  (forall j m, (j < 2)%nat -> odd_spec 2 j <> odd_spec 2 0 -> In m (grid s34) -> cs34 j (kmode34 m) = f0) /\
  (forall i ib, (i < 2)%nat -> (ib < 2)%nat -> sum (ens_n s34 0 2) (fun k => fmul (ws34 k) (entry2 (from_ok [] (cl34 mchiral mchiral 0 2 k)) i ib)) = entry2 fastc34 i ib) /\
  (let pcl := do w <- wsp34 mchiral mchiral 0 2; py_couple (qz 1) sq34 trq (Some w) ells34 cls34 [2; 0; 1; 3]%nat in
   map out (nth 0 (from_ok [] pcl) []) = map out (nth 0 fastc34 []) /\ map out (nth 1 (from_ok [] pcl) []) <> map out (nth 1 fastc34 [])).
Proof.
  split; [split; [cbn; lia | vm_compute; reflexivity]|]. split; [|split; [|split; [|split; [|split]]]].
  - assert (G : forallb (fun m => forallb (fun m' => negb (ring34 m =? ring34 m')%Z || feqb (cs34 0 (kmode34 m)) (cs34 0 (kmode34 m')) && feqb (cs34 1 (kmode34 m)) (cs34 1 (kmode34 m'))) (grid s34)) (grid s34) = true) by (vm_compute; reflexivity).
    intros j m m' Hj Hm Hm' HR. pose proof (grid34 _ (grid34 _ G m Hm) m' Hm') as H. cbv beta in H. rewrite HR, Z.eqb_refl in H. cbn [negb orb] in H. apply andb_prop in H. destruct H as [Ha Hb]. apply feqb_eq in Ha, Hb. destruct j as [|[|j]]; try lia; assumption.
  - assert (G : forallb (fun m => negb (ring34 m <? 0)%Z || feqb (cs34 0 (kmode34 m)) f0 && feqb (cs34 1 (kmode34 m)) f0) (grid s34) = true) by (vm_compute; reflexivity).
    intros j m Hj Hm HR. pose proof (grid34 _ G m Hm) as H. cbv beta in H. rewrite (proj2 (Z.ltb_lt _ _) HR) in H. cbn [negb orb] in H. apply andb_prop in H. destruct H as [Ha Hb]. apply feqb_eq in Ha, Hb. destruct j as [|[|j]]; try lia; assumption.
  - assert (G : forallb (fun m => negb (Nat.eqb (2 * fst m) 4 || Nat.eqb (2 * snd m) 4) || feqb (cs34 0 (kmode34 m)) f0) (grid s34) = true) by (vm_compute; reflexivity).
    intros m Hm HE. pose proof (grid34 _ G m Hm) as H. cbv beta in H. unfold edge in HE. cbn [s34 fs_nx fs_ny] in HE. assert (N : (Nat.eqb (2 * fst m) 4 || Nat.eqb (2 * snd m) 4)%bool = true) by (apply orb_true_iff; rewrite !Nat.eqb_eq; exact HE). rewrite N in H. cbn [negb orb] in H. apply feqb_eq. exact H.
  - intros j m Hj HO Hm. destruct j as [|[|j]]; try lia; [destruct HO; reflexivity|]. apply feqb_eq. revert m Hm. apply (grid34 (fun m => feqb (cs34 1 (kmode34 m)) f0)). vm_compute. reflexivity.
  - intros i ib Hi Hib. unfold fastc34. cbv zeta. unfold entry2 at 2. rewrite nth_tab by exact Hi. rewrite nth_tab by exact Hib. exact (sum_nonzero (ens_n s34 0 2) ws34 (fun k => from_ok [] (cl34 mchiral mchiral 0 2 k)) (fun x => entry2 x i ib)).
  - cbv zeta. split; vm_compute; [reflexivity | discriminate].
Qed.
End Ex.

Print Assumptions C86_mean. Print Assumptions C86_couple_cell. Print Assumptions C86_unbiased. Print Assumptions C86_no_parity_mixing. Print Assumptions C86_parity_unbiased. Print Assumptions C86_ensemble_exists. Print Assumptions C86_mirror_masks. Print Assumptions C86_chiral_mask_refuted.
