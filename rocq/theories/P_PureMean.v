(** Property C87: mean of the coupled and decoupled spectra of purified flat fields. *)
From Verif Require Import Base FieldR M_Utils M_Bins M_FlatBins M_LinAlg M_Workspace M_Flat M_WspFlat M_Syn M_FieldFlat P_FlatBins L_LinAlg L_Flat L_Flat2 L_Flat3 P_Flat L_WspFlat L_WspFlat2 P_WspFlat L_FlatMean P_FlatMean L_FlatMeanSpin P_FlatMeanSpin L_Conv L_Pure L_Pure2 L_Pure3 P_FieldFlat L_PureMean P_CovFlat P_Apod4.
From Coq Require Import Permutation Reals Lra.
Open Scope nat_scope.

Section Statements.
Context {F : ofield}.
Local Open Scope F_scope.
Add Field FfPPuM : (fth F).
Notation mat := (list (list F)).
Notation cplx := (cplx F).
Notation fsinfo := (fsinfo F).
Notation fbins := (fbins F).
Notation cuts := (cuts F).
Notation ffield := (ffield F).
Notation fwsp := (fwsp F).
Notation flat_args := (flat_args F).
Notation flat_field := (flat_field F).
Variables (pi : F) (fsqrt : F -> F) (trunc : F -> Z) (ph : nat -> nat -> cplx) (eigh : mat -> list F * mat) (tol : F) (lite : bool).
Notation kmod_of := (kmod_of pi fsqrt).
Notation modes := (modes pi fsqrt).
Notation flat_new := (flat_new pi fsqrt ph eigh).
Notation coupling_matrix := (coupling_matrix pi fsqrt trunc ph).
Notation py_coupled_cell := (py_coupled_cell pi fsqrt).
Notation coeff := (coeff pi ph).
Notation full_alm := (full_alm pi fsqrt ph).
Notation dm := (dm pi fsqrt).
Notation mix := (mix pi fsqrt).
Notation resp := (resp pi fsqrt).

(** what a user asks of NmtFieldFlat: mask, unmasked maps (or none), spin, beam, and which of E and B are to be purified *)
Definition args (s : fsinfo) (mask : list F) (beam : F -> F) (spin : Z) (pe pb : bool) (maps : option mat) : flat_args :=
  FlatArgs (fs_nx s) (fs_ny s) (fs_lx s) (fs_ly s) mask maps (Some spin) NoTemp beam pe pb tol false lite.
(** two fields, their coupled spectra *)
Definition coupled_pure (a1 a2 : flat_args) (b : fbins) (c : cuts) : res mat :=
  do f1 <- flat_new a1; do f2 <- flat_new a2; py_coupled_cell (f_base f1) (f_base f2) b c.
(** ... decoupled with the workspace of the two fields *)
Definition decoupled_pure (a1 a2 : flat_args) (b : fbins) (c : cuts) (rows : list nat) : res mat :=
  do f1 <- flat_new a1; do f2 <- flat_new a2;
  do w <- coupling_matrix (f_base f1) (f_base f2) b c false rows;
  do cl <- py_coupled_cell (f_base f1) (f_base f2) b c;
  py_decouple (Some w) cl None None.
Definition workspace_pure (a1 a2 : flat_args) (b : fbins) (c : cuts) (rows : list nat) : res fwsp :=
  do f1 <- flat_new a1; do f2 <- flat_new a2; coupling_matrix (f_base f1) (f_base f2) b c false rows.
(** response of E or B (a = 0,1) at the wavevector m to E or B (c = 0,1) at m2: a purified component is not mixed and is scaled by (k2/k)^2,
    others are mixed by the rotation from m2 to m *)
Definition transfer (s : fsinfo) (spin : Z) (pe pb : bool) (m m2 : nat * nat) (a c : nat) : F :=
  if (if Nat.eqb a 0 then pe else pb) then (if Nat.eqb a c then (kmod_of s m2 / kmod_of s m) * (kmod_of s m2 / kmod_of s m) else 0) else mix s spin m m2 a c.
Lemma resp_transfer (s : fsinfo) spin pe pb m m2 a c : ((pe || pb)%bool = true -> m <> (0, 0)%nat) -> (a < n_maps spin)%nat -> (c < n_maps spin)%nat -> resp s spin pe pb m m2 a c = transfer s spin pe pb m m2 a c.
Proof.
  intros NZ Ha Hc. unfold L_PureMean.resp, transfer. destruct (if Nat.eqb a 0 then pe else pb) eqn:E; [|apply (mix_dm pi fsqrt trunc ph); assumption]. destruct (Nat.eqb a c); [|reflexivity].
  assert (N : m <> (0, 0)%nat) by (apply NZ; destruct (Nat.eqb a 0); rewrite E; rewrite ?Bool.orb_true_r; reflexivity). unfold kratio. assert (O : is_origin m = false). { unfold is_origin. destruct m as [x y]. cbn [fst snd]. destruct (Nat.eqb_spec x 0) as [->|]; [|reflexivity]. destruct (Nat.eqb_spec y 0) as [->|]; [congruence | reflexivity]. }
  rewrite O. cbn [andb]. cbv zeta. unfold L_Flat2.kmod_of. rewrite !(Field_theory.Fdiv_def (fth F)). ring.
Qed.
(** coefficients of a field, in terms of those of its maps *)
Definition answers (s : fsinfo) (mask : list F) (spin : Z) (pe pb : bool) (q : mat) (a : nat) (m : nat * nat) : cplx :=
  tot pi s (fun m2 => cmul (coeff s mask (diff_mode s m m2)) (csum (n_maps spin) (fun c => cscal (resp s spin pe pb m m2 a c) (full_alm s spin q c m2)))).
(** what is needed to purify E (pe) or B (pb): spin 2, square pixels, no modes of the mask beyond (cx,cy) and of the maps beyond (bx,by) *)
Definition purifiable (s : fsinfo) (mask : list F) (spin : Z) (pe pb : bool) (bx by_ cx cy : Z) (q : mat) : Prop :=
  (pe || pb)%bool = true -> spin = 2%Z /\ fs_lx s / fofnat (fs_nx s) = fs_ly s / fofnat (fs_ny s) /\ band_limited pi ph s cx cy mask /\ forall x, (x < 2)%nat -> band_limited pi ph s bx by_ (nth x q []).
Definition room (s : fsinfo) (bx by_ cx cy : Z) : Prop :=
  (0 <= bx)%Z /\ (0 <= cx)%Z /\ (0 <= by_)%Z /\ (0 <= cy)%Z /\ (2 * (bx + cx) < Z.of_nat (fs_nx s))%Z /\ (2 * (by_ + cy) < Z.of_nat (fs_ny s))%Z.
Lemma kx1 (s : fsinfo) : pi <> 0 -> 0 < fs_lx s -> (1 < fs_nx s)%nat -> kxf pi s 1 <> 0.
Proof.
  intros Hpi Hx Hn. unfold kxf. assert (E : freq (fs_nx s) 1 = 1%Z) by (unfold freq; destruct (Nat.leb_spec (2 * 1) (fs_nx s)); lia). rewrite E. pose proof (fpos_neq0 _ Hx) as N. intro W. apply Hpi.
  unfold dkx in W. assert (N2 : (fofZ 2 : F) <> 0) by (apply fofZ_neq0; lia). transitivity (fofZ 1 * (fofZ 2 * pi / fs_lx s) * fs_lx s / fofZ 2); [|rewrite W; field; exact N2].
  replace (fofZ 1 : F) with (1 : F) by (cbn; ring). field. split; assumption.
Qed.
Lemma sqrt_sign_real (s : fsinfo) : real_sqrt fsqrt -> sqrt_sign pi fsqrt s.
Proof.
  intros HSQ m Hm. unfold L_Flat2.kmod_of, kmodf, ksq. set (K := _ + _). assert (P : 0 <= K) by (apply fadd_nonneg; apply fsqr_nonneg). destruct (HSQ K P) as [S1 S2]. set (k := fsqrt K) in *. destruct (K <=? 0) eqn:E; cbn [negb].
  - assert (Z : K = 0) by (apply fle_antisym; assumption). rewrite Z in S2. apply fmul_eq_0 in S2. assert (k = 0) as -> by tauto. destruct (0 <? 0) eqn:W; [exfalso; exact (flt_irrefl (0 : F) W) | reflexivity].
  - destruct (0 <? k) eqn:E0; [reflexivity|]. exfalso. assert (N : k <> 0) by (intro W; rewrite W in S2; assert (Z : K = 0) by (rewrite <- S2; ring); rewrite Z in E; pose proof (fle_refl (0 : F)) as R; unfold fle in R; congruence).
    assert (W : 0 < k) by (apply fle_neq_lt; [exact S1 | congruence]). unfold flt in W. congruence.
Qed.
Lemma pure_field (s : fsinfo) mask beam spin pe pb bx by_ cx cy (q : mat) : real_sqrt fsqrt -> pi <> 0 -> 0 < fs_lx s -> 0 < fs_ly s -> (1 < fs_nx s)%nat -> (0 < fs_ny s)%nat -> exact_roots ph s -> (0 <= spin)%Z ->
  room s bx by_ cx cy -> rect (n_maps spin) (fs_nx s * fs_ny s) q -> purifiable s mask spin pe pb bx by_ cx cy q ->
  exists f a, flat_new (args s mask beam spin pe pb (Some q)) = Ok f /\ f_base f = FF s spin pe pb mask beam a false /\ length a = n_maps spin /\
    (forall x, (x < n_maps spin)%nat -> length (nth x a []) = (fs_ny s * nhalf s)%nat) /\
    (forall x m, (x < n_maps spin)%nat -> In m (grid s) -> ((pe || pb)%bool = true -> m <> (0, 0)%nat) -> (2 * snd m)%nat <> fs_ny s -> plane s (nth x a []) m = answers s mask spin pe pb q x m).
Proof.
  intros HSQ Hpi Hx Hy Nx Ny [HR [HH HF]] Hs [P1 [P2 [P3 [P4 [L1 L2]]]]] [Rq Rr] HP. pose proof (kx1 s Hpi Hx Nx) as Hk. assert (Nx0 : (0 < fs_nx s)%nat) by lia. assert (Eg : forall m, geometry (args s mask beam spin pe pb m) = s) by (intro m; destruct s; reflexivity). destruct (pe || pb)%bool eqn:EP.
  - destruct (HP EP) as [-> [SQ [BM BQ]]]. destruct q as [|qm [|u [|? ?]]]; try (cbn in Rq; lia).
    destruct (pure_plane pi fsqrt ph s HSQ Hpi Hx Hy HR HH HF Nx0 Ny SQ mask qm u bx by_ cx cy P1 P2 P3 P4 L1 L2 BM (BQ 0%nat ltac:(lia)) (BQ 1%nat ltac:(lia)) pe pb) as [e [bb [pm [E [Le [Lb R]]]]]].
    exists (FlatField (FF s 2 pe pb mask beam [e; bb] false) (if lite then None else Some pm) None None None lite), [e; bb]. split; [|split; [reflexivity|split; [reflexivity|split]]].
    + rewrite (new_pure pi fsqrt ph eigh _ qm u); [|unfold plain_spin2, args; cbn [g_nx g_ny g_lx g_ly g_mask g_maps g_spin g_temp g_beam g_pe g_pb g_tol g_masked g_lite]; repeat split; auto; try (apply Rr; cbn; auto)|exact EP]. rewrite Eg. cbn [args g_mask g_pe g_pb g_beam g_lite]. rewrite E. reflexivity.
    + intros x Hx'. destruct x as [|[|x]]; cbn [nth]; [exact Le | exact Lb | cbn in Hx'; lia].
    + intros x m Hx' Hm NZ NE. rewrite (R x m Hx' Hm (NZ eq_refl) NE). reflexivity.
  - apply Bool.orb_false_iff in EP. destruct EP as [-> ->].
    assert (E : forall a, fs_map2alm pi fsqrt ph s spin (map (times_mask mask) q) = Ok a -> exists f, flat_new (args s mask beam spin false false (Some q)) = Ok f /\ f_base f = FF s spin false false mask beam a false).
    { intros a Ea. unfold M_FieldFlat.flat_new, args. cbn [g_nx g_ny g_lx g_ly g_mask g_maps g_spin g_temp g_beam g_pe g_pb g_tol g_masked g_lite]. rewrite (pos_not_neg _ Hx), (pos_not_neg _ Hy). cbn [orb].
      assert (SF : spin_from (length q) (Some spin) = Ok spin) by (rewrite Rq; unfold n_maps, spin_from; destruct (spin =? 0)%Z; reflexivity). rewrite SF. cbn [bind andb].
      assert (Fq : forallb (fun m => Nat.eqb (length m) (fs_nx s * fs_ny s)) q = true) by (apply forallb_forall; intros x Hq; apply Nat.eqb_eq; apply Rr; exact Hq). rewrite Fq. cbn [negb temps_from bind]. rewrite (Hx : (0 <? fs_lx s) = true), (Hy : (0 <? fs_ly s) = true). cbn [andb negb].
      assert (Es : FS (fs_nx s) (fs_ny s) (fs_lx s) (fs_ly s) = s) by (destruct s; reflexivity). rewrite Es. unfold field_flat_alloc. cbn [orb andb]. cbv zeta. cbn [map length Nat.ltb Nat.leb bind subtract seq fold_left].
      assert (Em : map (product s mask) q = map (times_mask mask) q). { apply map_ext_in. intros r Hr. unfold product, times_mask. rewrite (Rr r Hr). reflexivity. }
      rewrite Em, Ea. cbn [bind]. destruct lite; cbn [mapM bind]; eexists; split; reflexivity. }
    assert (MR : forall x m, In m (grid s) -> full_alm s spin (map (times_mask mask) q) x m = answers s mask spin false false q x m).
    { intros x m Hm. rewrite (masked_response pi fsqrt ph s HSQ Hpi Hx Hy HR HH HF Nx0 Ny spin mask q x m (conj Rq Rr) Hm). unfold answers, tot. f_equal. apply clsum_ext. intros m2 _. f_equal. apply csum_ext. intros cc _. f_equal. unfold L_PureMean.resp. destruct (Nat.eqb x 0); reflexivity. }
    unfold n_maps in *. destruct (Z.eqb_spec spin 0) as [->|N].
    + destruct q as [|t [|? ?]]; try (cbn in Rq; lia). destruct (E [map2alm0 pi ph s (times_mask mask t)] eq_refl) as [f [E1 E2]]. exists f, [map2alm0 pi ph s (times_mask mask t)]. split; [exact E1|]. split; [exact E2|]. split; [reflexivity|]. split.
      * intros x Hx'. assert (x = 0)%nat as -> by lia. apply length_map2alm0.
      * intros x m Hx' Hm _ _. assert (x = 0)%nat as -> by lia. rewrite <- MR by exact Hm. cbn [nth map]. apply plane_map; assumption.
    + destruct q as [|t [|u [|? ?]]]; try (cbn in Rq; lia). destruct (map2alm_spin pi fsqrt ph s spin (times_mask mask t) (times_mask mask u) N) as [e [bb [Em [A1 [A2 R]]]]]. destruct (E [e; bb] Em) as [f [E1 E2]]. exists f, [e; bb]. split; [exact E1|]. split; [exact E2|]. split; [reflexivity|]. split.
      * intros x Hx'. destruct x as [|[|x]]; try lia; assumption.
      * intros x m Hx' Hm _ NE. rewrite <- MR by exact Hm. assert (HN : ~ nyquist s m) by (intros [_ W]; contradiction). unfold L_FlatMeanSpin.full_alm. rewrite (proj2 (Z.eqb_neq _ _) N). cbn [map nth]. rewrite <- (plane_eb pi fsqrt ph s spin (times_mask mask t) (times_mask mask u) e bb m HR ltac:(lia) Hm HN Hk R). destruct x as [|[|x]]; try lia; reflexivity.
Qed.
Definition pseudo_pure (s : fsinfo) (mask1 mask2 : list F) (spin1 spin2 : Z) (pe1 pb1 pe2 pb2 : bool) (b : fbins) (c : cuts) (q1 q2 : mat) (i ib : nat) : F :=
  average pi s (modes s b c ib) (fun m => cdot (answers s mask1 spin1 pe1 pb1 q1 (i / n_maps spin2) m) (answers s mask2 spin2 pe2 pb2 q2 (i mod n_maps spin2) m)).
Lemma coupled_pure_ok (s : fsinfo) mask1 mask2 beam1 beam2 spin1 spin2 pe1 pb1 pe2 pb2 b c (q1 q2 : mat) a1 a2 : contiguous b -> y_symmetric pi s c ->
  length a1 = n_maps spin1 -> length a2 = n_maps spin2 ->
  (forall x, (x < n_maps spin1)%nat -> length (nth x a1 []) = (fs_ny s * nhalf s)%nat) -> (forall x, (x < n_maps spin2)%nat -> length (nth x a2 []) = (fs_ny s * nhalf s)%nat) ->
  (forall x ib m, (x < n_maps spin1)%nat -> In m (modes s b c ib) -> plane s (nth x a1 []) m = answers s mask1 spin1 pe1 pb1 q1 x m) ->
  (forall x ib m, (x < n_maps spin2)%nat -> In m (modes s b c ib) -> plane s (nth x a2 []) m = answers s mask2 spin2 pe2 pb2 q2 x m) ->
  py_coupled_cell (FF s spin1 pe1 pb1 mask1 beam1 a1 false) (FF s spin2 pe2 pb2 mask2 beam2 a2 false) b c =
  Ok (tab (n_maps spin1 * n_maps spin2) (fun i => tab (n_bands b) (pseudo_pure s mask1 mask2 spin1 spin2 pe1 pb1 pe2 pb2 b c q1 q2 i))).
Proof.
  intros Hc HY N1 N2 L1 L2 P1 P2. unfold M_WspFlat.py_coupled_cell. cbn [ff_fs ff_mask_only ff_alms]. rewrite !Nat.eqb_refl, same_fs_refl. cbn [andb orb negb].
  assert (E : forall x y, (x < n_maps spin1)%nat -> (y < n_maps spin2)%nat -> alm2cl1 pi fsqrt s b c (nth x a1 []) (nth y a2 []) = Ok (tab (n_bands b) (pseudo_pure s mask1 mask2 spin1 spin2 pe1 pb1 pe2 pb2 b c q1 q2 (x * n_maps spin2 + y)))).
  { intros x y Hx Hy. rewrite (proj1 (C62_bandpowers pi fsqrt s b c (nth x a1 []) (nth y a2 []) Hc (L1 x Hx) (L2 y Hy) HY)). f_equal. apply tab_ext. intros ib Hib. unfold pseudo_pure. destruct (div_mod_flat (n_maps spin2) y x Hy) as [-> ->].
    unfold average. destruct (Nat.eqb _ 0); [reflexivity|]. f_equal. f_equal. apply lsum_ext. intros m Hm. rewrite (P1 x ib m Hx Hm), (P2 y ib m Hy Hm). reflexivity. }
  unfold fs_alm2cl. clear L1 L2 P1 P2. unfold n_maps in N1, N2, E |- *. destruct (spin1 =? 0)%Z, (spin2 =? 0)%Z; destruct a1 as [|x1 [|x2 [|? ?]]]; try (cbn in N1; lia); destruct a2 as [|y1 [|y2 [|? ?]]]; try (cbn in N2; lia); cbn [mapM].
  - pose proof (E 0%nat 0%nat ltac:(lia) ltac:(lia)) as E0. cbn [nth] in E0. rewrite E0. reflexivity.
  - pose proof (E 0%nat 0%nat ltac:(lia) ltac:(lia)) as E0. pose proof (E 0%nat 1%nat ltac:(lia) ltac:(lia)) as E1. cbn [nth] in E0, E1. rewrite E0, E1. reflexivity.
  - pose proof (E 0%nat 0%nat ltac:(lia) ltac:(lia)) as E0. pose proof (E 1%nat 0%nat ltac:(lia) ltac:(lia)) as E1. cbn [nth] in E0, E1. rewrite E0, E1. reflexivity.
  - pose proof (E 0%nat 0%nat ltac:(lia) ltac:(lia)) as E0. pose proof (E 0%nat 1%nat ltac:(lia) ltac:(lia)) as E1. pose proof (E 1%nat 0%nat ltac:(lia) ltac:(lia)) as E2. pose proof (E 1%nat 1%nat ltac:(lia) ltac:(lia)) as E3. cbn [nth] in E0, E1, E2, E3. rewrite E0, E1, E2, E3. reflexivity.
Qed.
Lemma mask_only_pure (s : fsinfo) mask beam spin pe pb : 0 < fs_lx s -> 0 < fs_ly s -> ((pe || pb)%bool = true -> spin = 2%Z) ->
  exists f, flat_new (args s mask beam spin pe pb None) = Ok f /\ f_base f = FF s spin pe pb mask beam [] true.
Proof.
  intros H1 H2 HP. unfold M_FieldFlat.flat_new, args. cbn [g_nx g_ny g_lx g_ly g_mask g_maps g_spin g_temp g_beam g_pe g_pb g_tol g_masked g_lite]. rewrite (pos_not_neg _ H1), (pos_not_neg _ H2). cbn [orb bind].
  assert (G : ((pe || pb) && negb (spin =? 2)%Z)%bool = false) by (destruct (pe || pb)%bool; [rewrite (HP eq_refl); reflexivity | reflexivity]). rewrite G. cbn [negb bind]. rewrite (H1 : (0 <? fs_lx s) = true), (H2 : (0 <? fs_ly s) = true). cbn [andb negb]. eexists. split; [reflexivity|]. destruct s. reflexivity.
Qed.
Section Ensemble.
Variables (s : fsinfo) (mask1 mask2 : list F) (beam1 beam2 : F -> F) (spin1 spin2 : Z) (pe1 pb1 pe2 pb2 : bool) (b : fbins) (c : cuts).
Notation n1 := (n_maps spin1).
Notation n2 := (n_maps spin2).
Hypothesis Hc : contiguous b.
Hypothesis HY : y_symmetric pi s c.
Hypothesis HX : exact_roots ph s.
Hypothesis HSQ : real_sqrt fsqrt.
Hypothesis Hpi : pi <> 0.
Hypothesis Hlx : 0 < fs_lx s.
Hypothesis Hly : 0 < fs_ly s.
Hypothesis Hnx : (1 < fs_nx s)%nat.
Hypothesis Hny : (0 < fs_ny s)%nat.
Hypothesis Hs1 : (0 <= spin1)%Z.
Hypothesis Hs2 : (0 <= spin2)%Z.
(** no band uses the row ky = ny/2 (there is none for odd ny) *)
Hypothesis HN : forall ib m, In m (modes s b c ib) -> (2 * snd m)%nat <> fs_ny s.
(** if a field is purified, no band uses the mode k = 0 *)
Hypothesis Hor : ((pe1 || pb1) || (pe2 || pb2))%bool = true -> forall ib m, In m (modes s b c ib) -> m <> (0, 0)%nat.
(** what purification needs: spin 2, square pixels, mask and maps limited in wavenumber *)
Variables (bx by_ cx cy : Z).
Hypothesis Hroom : room s bx by_ cx cy.
(** K realisations of the two sets of maps with weights pr k *)
Variables (K : nat) (pr : nat -> F) (t1 t2 : nat -> mat).
Hypothesis Ht : forall k, (k < K)%nat -> rect n1 (fs_nx s * fs_ny s) (t1 k) /\ rect n2 (fs_nx s * fs_ny s) (t2 k).
Hypothesis Hpq : forall k, (k < K)%nat -> purifiable s mask1 spin1 pe1 pb1 bx by_ cx cy (t1 k) /\ purifiable s mask2 spin2 pe2 pb2 bx by_ cx cy (t2 k).
Hypothesis Hf1 : (pe1 || pb1)%bool = true -> spin1 = 2%Z.
Hypothesis Hf2 : (pe2 || pb2)%bool = true -> spin2 = 2%Z.
(** their covariance is that of statistically isotropic fields with spectra C j, smoothed with the two beams *)
Variable C : nat -> F -> F.
Notation P := (fun j k => C j k * (beam1 k * beam2 k)).
Hypothesis HP : no_edge_power pi fsqrt s spin1 spin2 P.
Hypothesis HC : forall x y p p', (x < n1)%nat -> (y < n2)%nat -> In p (grid s) -> In p' (grid s) ->
  sum K (fun k => pr k * (pix s (nth x (t1 k) []) p * pix s (nth y (t2 k) []) p')) = iso_cov_spin pi fsqrt ph s spin1 spin2 P x y p p'.

Notation args1 := (args s mask1 beam1 spin1 pe1 pb1).
Notation args2 := (args s mask2 beam2 spin2 pe2 pb2).
Notation pseudo := (pseudo_pure s mask1 mask2 spin1 spin2 pe1 pb1 pe2 pb2 b c).
Let HR : conj_roots ph s := proj1 HX.
Let HH : hom_roots ph s := proj1 (proj2 HX).
Let HF : full_roots ph s := proj2 (proj2 HX).
Lemma fields k : (k < K)%nat -> exists f1 f2 a1 a2, flat_new (args1 (Some (t1 k))) = Ok f1 /\ flat_new (args2 (Some (t2 k))) = Ok f2 /\ f_base f1 = FF s spin1 pe1 pb1 mask1 beam1 a1 false /\ f_base f2 = FF s spin2 pe2 pb2 mask2 beam2 a2 false /\
  py_coupled_cell (FF s spin1 pe1 pb1 mask1 beam1 a1 false) (FF s spin2 pe2 pb2 mask2 beam2 a2 false) b c = Ok (tab (n1 * n2) (fun i => tab (n_bands b) (pseudo (t1 k) (t2 k) i))).
Proof.
  intro Hk. destruct (Ht k Hk) as [R1 R2]. destruct (Hpq k Hk) as [Q1 Q2].
  destruct (pure_field s mask1 beam1 spin1 pe1 pb1 bx by_ cx cy (t1 k) HSQ Hpi Hlx Hly Hnx Hny HX Hs1 Hroom R1 Q1) as [f1 [a1 [E1 [B1 [A1 [A2 A3]]]]]]. destruct (pure_field s mask2 beam2 spin2 pe2 pb2 bx by_ cx cy (t2 k) HSQ Hpi Hlx Hly Hnx Hny HX Hs2 Hroom R2 Q2) as [f2 [a2 [E2 [B2 [A1' [A2' A3']]]]]].
  exists f1, f2, a1, a2. split; [exact E1|]. split; [exact E2|]. split; [exact B1|]. split; [exact B2|]. apply coupled_pure_ok; try assumption.
  - intros x ib m Hx Hm. pose proof (HN ib m Hm) as NE. pose proof (in_modes pi fsqrt ph s b c ib m Hm) as G. apply A3; try assumption. intro EP. apply (Hor ltac:(rewrite EP; reflexivity) ib m Hm).
  - intros x ib m Hx Hm. pose proof (HN ib m Hm) as NE. pose proof (in_modes pi fsqrt ph s b c ib m Hm) as G. apply A3'; try assumption. intro EP. apply (Hor ltac:(rewrite EP, Bool.orb_true_r; reflexivity) ib m Hm).
Qed.
Lemma coupled_ok k : (k < K)%nat -> coupled_pure (args1 (Some (t1 k))) (args2 (Some (t2 k))) b c = Ok (tab (n1 * n2) (fun i => tab (n_bands b) (pseudo (t1 k) (t2 k) i))).
Proof.
  intro Hk. destruct (fields k Hk) as (f1 & f2 & a1 & a2 & E1 & E2 & B1 & B2 & E). unfold coupled_pure. rewrite E1. cbn [bind]. rewrite E2. cbn [bind]. rewrite B1, B2. exact E.
Qed.
Definition ptext (i ib : nat) : F :=
  average pi s (modes s b c ib) (fun m => 1 / (fs_lx s * fs_ly s) * lsum (map (fun m2 => sum n1 (fun cc => sum n2 (fun d => C (cc * n2 + d)%nat (kmod_of s m2) * (beam1 (kmod_of s m2) * beam2 (kmod_of s m2)) *
    (resp s spin1 pe1 pb1 m m2 (i / n2) cc * resp s spin2 pe2 pb2 m m2 (i mod n2) d))) * cdot (coeff s mask1 (diff_mode s m m2)) (coeff s mask2 (diff_mode s m m2))) (grid s))).
Lemma mean_ptext i ib : sum K (fun k => pr k * pseudo (t1 k) (t2 k) i ib) = ptext i ib.
Proof.
  pose proof (fpos_neq0 _ Hlx) as N1. pose proof (fpos_neq0 _ Hly) as N2. unfold ptext, pseudo_pure, average. destruct (Nat.eqb (length (modes s b c ib)) 0) eqn:EL.
  - apply sum_zero. intros k _. ring.
  - apply Nat.eqb_neq in EL. destruct (length (modes s b c ib)) as [|n] eqn:En; [congruence|]. pose proof (fofnat_neq0 (F:=F) n) as NZ. set (z := fofnat (S n)) in *.
    rewrite (sum_ext _ _ (fun k => fofZ 4 * pi * pi / (fs_lx s * fs_ly s) / z * lsum (map (fun m => pr k * cdot (answers s mask1 spin1 pe1 pb1 (t1 k) (i / n2) m) (answers s mask2 spin2 pe2 pb2 (t2 k) (i mod n2) m)) (modes s b c ib)))).
    + rewrite sum_mul_l. rewrite <- lsum_swap.
      assert (EQ : forall m, In m (modes s b c ib) -> sum K (fun k => pr k * cdot (answers s mask1 spin1 pe1 pb1 (t1 k) (i / n2) m) (answers s mask2 spin2 pe2 pb2 (t2 k) (i mod n2) m)) =
        1 / (fs_lx s * fs_ly s) * lsum (map (fun m2 => sum n1 (fun cc => sum n2 (fun d => C (cc * n2 + d)%nat (kmod_of s m2) * (beam1 (kmod_of s m2) * beam2 (kmod_of s m2)) * (resp s spin1 pe1 pb1 m m2 (i / n2) cc * resp s spin2 pe2 pb2 m m2 (i mod n2) d))) * cdot (coeff s mask1 (diff_mode s m m2)) (coeff s mask2 (diff_mode s m m2))) (grid s))).
      { intros m Hm. apply (in_modes pi fsqrt ph) in Hm. assert (Nx0 : (0 < fs_nx s)%nat) by lia.
        pose proof (mean_response pi fsqrt ph s HSQ Hpi Hlx Hly HR HH HF Nx0 Hny spin1 spin2 K pr t1 t2 P Hs1 Hs2 HP HC mask1 mask2 (fun m2 cc => resp s spin1 pe1 pb1 m m2 (i / n2) cc) (fun m2 d => resp s spin2 pe2 pb2 m m2 (i mod n2) d) m Hm) as M. unfold answers. rewrite M. reflexivity. }
      rewrite (lsum_ext _ _ _ EQ). 
      set (S := lsum _). generalize S. clear - N1 N2 NZ. clearbody z. intro S. set (q := fofZ 4). field. auto.
    + intros k Hk. rewrite lsum_mul_l. set (S := lsum _). generalize S. clear - N1 N2 NZ. clearbody z. intro S. set (q := fofZ 4). field. auto.
Qed.
Lemma flags1 : spin1 = 0%Z -> pe1 = false /\ pb1 = false.
Proof. clear - Hf1. intro Z. destruct pe1, pb1; auto; exfalso; specialize (Hf1 eq_refl); lia. Qed.
Lemma flags2 : spin2 = 0%Z -> pe2 = false /\ pb2 = false.
Proof. clear - Hf2. intro Z. destruct pe2, pb2; auto; exfalso; specialize (Hf2 eq_refl); lia. Qed.
(** when the code's coupling coefficients give the mean of spectrum i *)
Definition ppredictable (i : nat) : Prop :=
  mirror_prod pi ph s mask1 mask2 \/ forall j m, (j < n1 * n2)%nat -> odd_spec spin2 j <> odd_spec spin2 i -> In m (grid s) -> C j (kmod_of s m) = 0.
Lemma ptext_coupled i ib f1 f2 : (i < n1 * n2)%nat -> ppredictable i -> ff_fs f1 = s -> ff_spin f1 = spin1 -> ff_spin f2 = spin2 -> ff_mask f1 = mask1 -> ff_mask f2 = mask2 -> ff_beam f1 = beam1 -> ff_beam f2 = beam2 ->
  ff_pe f1 = pe1 -> ff_pe f2 = pe2 -> ff_pb f1 = pb1 -> ff_pb f2 = pb2 ->
  ptext i ib = coupled pi fsqrt ph f1 f2 b c false (fun j m => C j (kmod_of s m)) i ib.
Proof.
  intros Hi HPr E1 E2 E3 E4 E5 E6 E7 F1 F2 F3 F4. pose proof (fpos_neq0 _ Hlx) as N1. pose proof (fpos_neq0 _ Hly) as N2.
  unfold coupled. replace (n_spectra f1 f2 false) with (n1 * n2)%nat by (unfold n_spectra, ff_nmaps; rewrite E2, E3; reflexivity). rewrite E1, E2, E3.
  set (T := fun j m1 m2 => resp s spin1 pe1 pb1 m1 m2 (i / n2) (j / n2) * resp s spin2 pe2 pb2 m1 m2 (i mod n2) (j mod n2) * P j (kmod_of s m2)).
  assert (W : forall j, (j < n1 * n2)%nat -> lsum (map (fun m1 => lsum (map (fun m2 => weight pi fsqrt ph f1 f2 (n1 * n2) (matrix_spins spin1 spin2 false) i j m1 m2 * C j (kmod_of s m2)) (grid s))) (modes s b c ib)) = wsum pi fsqrt s b c ib (T j) (true_prod pi ph s mask1 mask2)).
  { intros j Hj. transitivity (wsum pi fsqrt s b c ib (T j) (code_prod pi ph s mask1 mask2)).
    - unfold wsum. apply lsum_ext. intros m1 M1. apply (in_modes pi fsqrt ph) in M1. apply lsum_ext. intros m2 M2. unfold weight.
      pose proof (block_resp pi fsqrt ph s f1 f2 i j m1 m2) as B. cbv zeta in B. rewrite E2, E3, F1, F2, F3, F4 in B. rewrite (B E1 (sqrt_sign_real s HSQ) M1 M2 flags1 flags2 Hi Hj). unfold beamprod, code_prod. rewrite E1, E4, E5, E6, E7. unfold T. unfold L_Flat2.kmod_of. ring.
    - destruct HPr as [HM|HM]; [apply wsum_mirror; assumption|]. destruct (Bool.bool_dec (odd_spec spin2 j) (odd_spec spin2 i)) as [EO|EO].
      + apply wsum_code; try assumption. intros m1 m2 M1 M2. pose proof (HN ib m1 M1) as NE. apply (in_modes pi fsqrt ph) in M1. unfold T. rewrite (kmod_yflip pi fsqrt s m2 M2).
        destruct (Nat.eq_dec (2 * snd m2) (fs_ny s)) as [Q|Q]; [rewrite (proj1 HP j m2 M2 (or_intror Q)); ring|]. pose proof (n_maps_pos spin2) as P2.
        rewrite !(resp_yflip pi fsqrt ph) by (try assumption; try (apply Nat.mod_upper_bound; lia); apply Nat.div_lt_upper_bound; lia).
        assert (SG : sgn (i / n2 + j / n2) * sgn (i mod n2 + j mod n2) = (1 : F)). { unfold odd_spec in EO. unfold sgn. rewrite !Nat.even_add. rewrite !Nat.odd_add in EO. rewrite <- !Nat.negb_even in EO. destruct (Nat.even (i / n2)), (Nat.even (j / n2)), (Nat.even (i mod n2)), (Nat.even (j mod n2)); cbn in *; try discriminate; ring. }
        transitivity (sgn (i / n2 + j / n2) * sgn (i mod n2 + j mod n2) * (resp s spin1 pe1 pb1 m1 m2 (i / n2) (j / n2) * resp s spin2 pe2 pb2 m1 m2 (i mod n2) (j mod n2) * P j (kmod_of s m2))); [ring|]. rewrite SG. ring.
      + apply wsum_ext. intros m1 m2 M1 M2. unfold T. rewrite (HM j m2 Hj EO M2). ring. }
  rewrite (sum_ext _ _ (fun j => wsum pi fsqrt s b c ib (T j) (true_prod pi ph s mask1 mask2) * fac_norm pi s (Z.of_nat (length (modes s b c ib))))) by (intros j Hj; rewrite (W j Hj); reflexivity). rewrite sum_mul_r.
  assert (TT : lsum (map (fun m => lsum (map (fun m2 => sum n1 (fun cc => sum n2 (fun d => C (cc * n2 + d)%nat (kmod_of s m2) * (beam1 (kmod_of s m2) * beam2 (kmod_of s m2)) * (resp s spin1 pe1 pb1 m m2 (i / n2) cc * resp s spin2 pe2 pb2 m m2 (i mod n2) d))) * cdot (coeff s mask1 (diff_mode s m m2)) (coeff s mask2 (diff_mode s m m2))) (grid s))) (modes s b c ib)) = sum (n1 * n2) (fun j => wsum pi fsqrt s b c ib (T j) (true_prod pi ph s mask1 mask2))).
  { unfold wsum. rewrite <- lsum_swap. apply lsum_ext. intros m _. rewrite <- lsum_swap. apply lsum_ext. intros m2 _. rewrite sum_flat. rewrite <- sum_mul_r. apply sum_ext. intros cc _. rewrite <- sum_mul_r. apply sum_ext. intros d Hd. unfold T. rewrite (Nat.mul_comm n2 cc). destruct (div_mod_flat n2 d cc Hd) as [-> ->]. unfold true_prod. ring. }
  rewrite <- TT. unfold ptext, average, fac_norm. destruct (Nat.eqb (length (modes s b c ib)) 0) eqn:EL.
  - apply Nat.eqb_eq in EL. rewrite EL. cbn. ring.
  - apply Nat.eqb_neq in EL. replace (0 <? Z.of_nat (length (modes s b c ib)))%Z with true by (symmetry; apply Z.ltb_lt; lia). rewrite fofZ_of_nat. destruct (length (modes s b c ib)) as [|n]; [congruence|]. pose proof (fofnat_neq0 (F:=F) n) as NZ. set (z := fofnat (S n)) in *.
    rewrite lsum_mul_l. set (S := lsum _). generalize S. clear - N1 N2 NZ. clearbody z. intro S. set (q := fofZ 4). field. auto.
Qed.
(** The mean of compute_coupled_cell_flat: the average over the modes m of a band of (1/A) sum over m2 and over the kinds (E,B) of
    C(|m2|) B1 B2 (|m2|) T1 T2 Re[W1(m-m2) W2*(m-m2)] where purified components are not mixed and have T = (k2/k)^2. *)
Theorem C87_mean : exists cl : nat -> mat, (forall k, (k < K)%nat -> coupled_pure (args1 (Some (t1 k))) (args2 (Some (t2 k))) b c = Ok (cl k) /\ rect (n1 * n2) (n_bands b) (cl k)) /\
  forall a a' ib, (a < n1)%nat -> (a' < n2)%nat -> (ib < n_bands b)%nat -> sum K (fun k => pr k * entry2 (cl k) (a * n2 + a') ib) =
    average pi s (modes s b c ib) (fun m => 1 / (fs_lx s * fs_ly s) * lsum (map (fun m2 => sum n1 (fun cc => sum n2 (fun d => C (cc * n2 + d)%nat (kmod_of s m2) * (beam1 (kmod_of s m2) * beam2 (kmod_of s m2)) *
      (transfer s spin1 pe1 pb1 m m2 a cc * transfer s spin2 pe2 pb2 m m2 a' d))) * cdot (coeff s mask1 (diff_mode s m m2)) (coeff s mask2 (diff_mode s m m2))) (grid s))).
Proof.
  exists (fun k => tab (n1 * n2) (fun i => tab (n_bands b) (pseudo (t1 k) (t2 k) i))). split.
  - intros k Hk. rewrite coupled_ok by assumption. split; [reflexivity | apply rect_tab].
  - intros a a' ib Ha Ha' Hib. rewrite (sum_ext _ _ (fun k => pr k * pseudo (t1 k) (t2 k) (a * n2 + a') ib)).
    + rewrite mean_ptext. unfold ptext. destruct (div_mod_flat n2 a' a Ha') as [-> ->]. unfold average. destruct (Nat.eqb _ 0); [reflexivity|]. f_equal. f_equal. apply lsum_ext. intros m Hm. f_equal. apply lsum_ext. intros m2 _. f_equal. apply sum_ext. intros cc Hcc. apply sum_ext. intros d Hd.
      rewrite !resp_transfer; try assumption; [reflexivity | |]; intro EP; apply (Hor ltac:(rewrite EP; rewrite ?Bool.orb_true_r; reflexivity) ib m Hm).
    + intros k _. unfold entry2. rewrite nth_tab by nia. rewrite nth_tab by exact Hib. reflexivity.
Qed.
(** couple_cell predicts the mean of spectrum i if the spectra do not vary within the rings of width dell that it uses, vanish at the modes outside them, and
    either the masks do not distinguish a direction from its mirror image, or the spectra with the other parity vanish. *)
Theorem C87_couple_cell (rows o : list nat) (ells : list F) (cls : mat) : all_rows s rows -> all_rows s o -> good_ells ells -> rect (n1 * n2) (length ells) cls ->
  (forall j m, (j < n1 * n2)%nat -> In m (grid s) -> C j (kmod_of s m) = spec_val ells (nth j cls []) (kmod_of s m)) ->
  (forall j m m', (j < n1 * n2)%nat -> In m (grid s) -> In m' (grid s) -> ring pi fsqrt trunc s m = ring pi fsqrt trunc s m' -> C j (kmod_of s m) = C j (kmod_of s m')) ->
  (forall j m, (j < n1 * n2)%nat -> In m (grid s) -> (ring pi fsqrt trunc s m < 0)%Z -> C j (kmod_of s m) = 0) ->
  exists w pcl, workspace_pure (args1 None) (args2 None) b c rows = Ok w /\ py_couple pi fsqrt trunc (Some w) ells cls o = Ok pcl /\ rect (n1 * n2) (n_bands b) pcl /\
  exists x : nat -> mat, (forall k, (k < K)%nat -> coupled_pure (args1 (Some (t1 k))) (args2 (Some (t2 k))) b c = Ok (x k)) /\
  forall i ib, (i < n1 * n2)%nat -> (ib < n_bands b)%nat -> ppredictable i -> sum K (fun k => pr k * entry2 (x k) i ib) = entry2 pcl i ib.
Proof.
  intros HPr HPo He Hl HCs HCr HC0. set (g1 := FF s spin1 pe1 pb1 mask1 beam1 [] true). set (g2 := FF s spin2 pe2 pb2 mask2 beam2 [] true). set (w := wsp_of pi fsqrt trunc ph g1 g2 b c false).
  pose proof (wsp_of_spec pi fsqrt trunc ph g1 g2 b c false) as W. fold w in W.
  exists w, (tab (n1 * n2) (fun i => tab (n_bands b) (fun ib => coupled pi fsqrt ph g1 g2 b c false (fun j => ring_value pi fsqrt trunc s ells (nth j cls [])) i ib))). split; [|split; [|split]].
  - unfold workspace_pure. destruct (mask_only_pure s mask1 beam1 spin1 pe1 pb1 Hlx Hly Hf1) as [f1 [M1 B1]]. destruct (mask_only_pure s mask2 beam2 spin2 pe2 pb2 Hlx Hly Hf2) as [f2 [M2 B2]]. rewrite M1. cbn [bind]. rewrite M2. cbn [bind]. rewrite B1, B2. fold g1 g2. rewrite (coupling_matrix_eq pi fsqrt trunc ph g1 g2 b c false rows Hc HPr). cbn [g1 g2 ff_fs]. rewrite same_fs_refl. reflexivity.
  - unfold py_couple, need. cbn [bind]. change (fw_ncls w) with (n1 * n2)%nat. pose proof (n_maps_pos spin1). pose proof (n_maps_pos spin2). rewrite (check_shape_ok (n1 * n2) (length ells) cls) by (nia || exact Hl). cbn [bind]. apply (couple_fast_ok pi fsqrt trunc ph w g1 g2 b c false ells cls o W He Hl HPo).
  - apply rect_tab.
  - exists (fun k => tab (n1 * n2) (fun i => tab (n_bands b) (pseudo (t1 k) (t2 k) i))). split; [intros k Hk; apply coupled_ok; exact Hk|].
    intros i ib Hi Hib HPi. unfold entry2. rewrite nth_tab by exact Hi. rewrite nth_tab by exact Hib. rewrite (sum_ext _ _ (fun k => pr k * pseudo (t1 k) (t2 k) i ib)) by (intros k _; rewrite nth_tab by exact Hi; rewrite nth_tab by exact Hib; reflexivity).
    rewrite mean_ptext. rewrite (ptext_coupled i ib g1 g2 Hi HPi) by reflexivity. apply coupled_ext. intros j m Hj Hm. change (ff_fs g1) with s in Hm. change (n_spectra g1 g2 false) with (n1 * n2)%nat in Hj. unfold ring_value.
    destruct (Z.leb_spec 0 (ring pi fsqrt trunc s m)) as [H|H]; [|apply HC0; [exact Hj | exact Hm | lia]]. unfold ring_avg. cbv zeta. set (l := ring_modes pi fsqrt trunc s (Z.to_nat (ring pi fsqrt trunc s m))).
    assert (Il : forall m', In m' l -> In m' (grid s) /\ ring pi fsqrt trunc s m' = ring pi fsqrt trunc s m). { intros m' Q. unfold l, ring_modes in Q. apply filter_In in Q. destruct Q as [Q1 Q2]. apply Z.eqb_eq in Q2. rewrite Z2Nat.id in Q2 by exact H. auto. }
    assert (Im : In m l). { unfold l, ring_modes. apply filter_In. split; [exact Hm|]. apply Z.eqb_eq. rewrite Z2Nat.id by exact H. reflexivity. }
    rewrite (lsum_const _ (C j (kmod_of s m))).
    + destruct l as [|x t]; [destruct Im|]. cbn [length Nat.eqb]. pose proof (fofnat_neq0 (F:=F) (length t)) as NZ. set (z := fofnat (S (length t))) in *. field. exact NZ.
    + intros m' Q. destruct (Il m' Q) as [Q1 Q2]. rewrite <- (HCs j m' Hj Q1). apply HCr; assumption.
Qed.
Notation mask_wsp := (wsp_of pi fsqrt trunc ph (FF s spin1 pe1 pb1 mask1 beam1 [] true) (FF s spin2 pe2 pb2 mask2 beam2 [] true) b c false).
Lemma pworkspace_eq rows : all_rows s rows -> workspace_pure (args1 None) (args2 None) b c rows = Ok mask_wsp.
Proof.
  intro HPr. unfold workspace_pure. destruct (mask_only_pure s mask1 beam1 spin1 pe1 pb1 Hlx Hly Hf1) as [f1 [M1 B1]]. destruct (mask_only_pure s mask2 beam2 spin2 pe2 pb2 Hlx Hly Hf2) as [f2 [M2 B2]]. rewrite M1. cbn [bind]. rewrite M2. cbn [bind]. rewrite B1, B2.
  rewrite (coupling_matrix_eq pi fsqrt trunc ph (FF s spin1 pe1 pb1 mask1 beam1 [] true) (FF s spin2 pe2 pb2 mask2 beam2 [] true) b c false rows Hc HPr). cbn [ff_fs]. rewrite same_fs_refl. reflexivity.
Qed.
Lemma punbiased_gen (keep : nat -> bool) (rows : list nat) (v : mat) : all_rows s rows -> rect (n1 * n2) (n_bands b) v -> (forall i, (i < n1 * n2)%nat -> keep i = true -> ppredictable i) ->
  (forall i ib, (i < n1 * n2)%nat -> (ib < n_bands b)%nat -> keep i = false -> entry2 v i ib = 0) ->
  (forall j m, (j < n1 * n2)%nat -> In m (grid s) -> (forall ib, (ib < n_bands b)%nat -> inb b ib (kmod_of s m) = true -> C j (kmod_of s m) = entry2 v j ib) /\ ((forall ib, (ib < n_bands b)%nat -> inb b ib (kmod_of s m) = false) -> C j (kmod_of s m) = 0)) ->
  (forall i j ib jb, (i < n1 * n2)%nat -> (j < n1 * n2)%nat -> (ib < n_bands b)%nat -> (jb < n_bands b)%nat -> keep i <> keep j -> entry2 (fw_bnd mask_wsp) (ib * (n1 * n2) + i) (jb * (n1 * n2) + j) = 0) ->
  nonsingular (n1 * n2 * n_bands b) (fw_bnd mask_wsp) ->
  exists r : nat -> mat, (forall k, (k < K)%nat -> decoupled_pure (args1 (Some (t1 k))) (args2 (Some (t2 k))) b c rows = Ok (r k) /\ rect (n1 * n2) (n_bands b) (r k)) /\
  forall i ib, (i < n1 * n2)%nat -> (ib < n_bands b)%nat -> keep i = true -> sum K (fun k => pr k * entry2 (r k) i ib) = entry2 v i ib.
Proof.
  intros HPr Hv HM HV0 HCv HX0 N. set (g1 := FF s spin1 pe1 pb1 mask1 beam1 [] true) in *. set (g2 := FF s spin2 pe2 pb2 mask2 beam2 [] true) in *. set (w := wsp_of pi fsqrt trunc ph g1 g2 b c false) in *.
  assert (CM : forall a a', coupling_matrix (FF s spin1 pe1 pb1 mask1 beam1 a false) (FF s spin2 pe2 pb2 mask2 beam2 a' false) b c false rows = Ok w). { intros a a'. rewrite (coupling_matrix_eq pi fsqrt trunc ph (FF s spin1 pe1 pb1 mask1 beam1 a false) (FF s spin2 pe2 pb2 mask2 beam2 a' false) b c false rows Hc HPr). cbn [ff_fs]. rewrite same_fs_refl. reflexivity. }
  pose proof (wsp_of_spec pi fsqrt trunc ph g1 g2 b c false) as W. fold w in W. assert (En : fw_ncls w = (n1 * n2)%nat) by reflexivity. assert (Eb : fw_nb w = n_bands b) by reflexivity. pose proof (ws_sq _ _ _ _ _ _ _ _ _ _ W) as Hs. change (n_spectra g1 g2 false) with (n1 * n2)%nat in Hs.
  pose proof (n_maps_pos spin1) as P1. pose proof (n_maps_pos spin2) as P2. set (n := (n1 * n2)%nat) in *. assert (Hn : (0 < n)%nat) by (unfold n; nia). set (nb := n_bands b) in *.
  set (cl := fun k => tab n (fun i => tab nb (pseudo (t1 k) (t2 k) i))).
  assert (Rcl : forall k, rect n nb (cl k)) by (intro k; apply rect_tab).
  assert (Dec : forall x z, rect n nb x -> rect n nb z -> (forall i ib, entry2 z i ib = 0) -> exists v, fdecouple w x z z = Ok v).
  { intros x z Rx Rz Z0. rewrite (fdecouple_flat w x z z) by (rewrite ?En, ?Eb; assumption). rewrite En, Eb. set (y := flatten n nb _). assert (Ly : length y = (n * nb)%nat) by apply length_tab. destruct (lu_solve_ok (n * nb) (fw_bnd w) y Hs Ly N) as [u [Eu [Lu _]]]. rewrite Eu. cbn [bind].
    exists (tab n (fun i => tab nb (fun ib => nth (n * ib + i) u 0))). apply tabM_ok. intros i Hi. apply tabM_ok. intros ib Hib. apply rd_nat. rewrite Lu. nia. }
  assert (Ap : forall x z y, rect n nb x -> rect n nb z -> (forall i ib, entry2 z i ib = 0) -> (fdecouple w x z z = Ok y <-> rect n nb y /\ forall i ib, (i < n)%nat -> (ib < nb)%nat -> apply_matrix (fw_bnd w) n nb y i ib = entry2 x i ib)).
  { intros x z y Rx Rz Z0. pose proof (fdecouple_iff w x z z y) as I. rewrite En, Eb in I. rewrite (I Hn Hs Rx Rz Rz). split.
    - intros [_ [Ry Hy]]. split; [exact Ry|]. intros i ib Hi Hib. rewrite (Hy i ib Hi Hib), !Z0. ring.
    - intros [Ry Hy]. split; [exact N|]. split; [exact Ry|]. intros i ib Hi Hib. rewrite (Hy i ib Hi Hib), !Z0. ring. }
  set (r := fun k => from_ok [] (fdecouple w (cl k) (zeros_like (cl k)) (zeros_like (cl k)))).
  assert (Hr : forall k, fdecouple w (cl k) (zeros_like (cl k)) (zeros_like (cl k)) = Ok (r k)). { intro k. destruct (Dec (cl k) (zeros_like (cl k)) (Rcl k) (rect_zeros _ _ _ (Rcl k)) (entry_zeros (cl k))) as [y Ey]. unfold r. rewrite Ey. reflexivity. }
  assert (Hra : forall k, rect n nb (r k) /\ forall i ib, (i < n)%nat -> (ib < nb)%nat -> apply_matrix (fw_bnd w) n nb (r k) i ib = entry2 (cl k) i ib) by (intro k; apply (Ap (cl k) (zeros_like (cl k)) (r k) (Rcl k) (rect_zeros _ _ _ (Rcl k)) (entry_zeros (cl k))); apply Hr).
  exists r. split.
  - intros k Hk. split; [|apply Hra]. destruct (fields k Hk) as (f1 & f2 & a1 & a2 & E1 & E2 & B1 & B2 & E). unfold decoupled_pure. rewrite E1. cbn [bind]. rewrite E2. cbn [bind]. rewrite B1, B2. rewrite CM. cbn [bind]. rewrite E. cbn [bind]. fold n nb. fold (cl k).
    unfold py_decouple, need. cbn [bind]. rewrite En, Eb. rewrite (check_shape_ok n nb (cl k) Hn (Rcl k)). cbn [bind]. apply Hr.
  - set (mr := tab n (fun i => tab nb (fun ib => if keep i then sum K (fun k => pr k * entry2 (r k) i ib) else 0))). set (mc := tab n (fun i => tab nb (fun ib => if keep i then sum K (fun k => pr k * entry2 (cl k) i ib) else 0))).
    assert (Rmr : rect n nb mr) by apply rect_tab. assert (Rmc : rect n nb mc) by apply rect_tab.
    assert (Emr : forall i ib, (i < n)%nat -> (ib < nb)%nat -> entry2 mr i ib = if keep i then sum K (fun k => pr k * entry2 (r k) i ib) else 0) by (intros i ib Hi Hib; unfold entry2 at 1, mr; rewrite nth_tab by exact Hi; rewrite nth_tab by exact Hib; reflexivity).
    assert (Emc : forall i ib, (i < n)%nat -> (ib < nb)%nat -> entry2 mc i ib = if keep i then sum K (fun k => pr k * entry2 (cl k) i ib) else 0) by (intros i ib Hi Hib; unfold entry2 at 1, mc; rewrite nth_tab by exact Hi; rewrite nth_tab by exact Hib; reflexivity).
    assert (Zero : forall x i ib, (i < n)%nat -> (ib < nb)%nat -> keep i = false -> (forall j jb, (j < n)%nat -> (jb < nb)%nat -> keep j = false -> entry2 x j jb = 0) -> apply_matrix (fw_bnd w) n nb x i ib = 0).
    { intros x i ib Hi Hib Ki Hx. unfold apply_matrix. apply sum_zero. intros j Hj. apply sum_zero. intros jb Hjb. destruct (keep j) eqn:Kj; [rewrite (HX0 i j ib jb Hi Hj Hib Hjb) by congruence | rewrite (Hx j jb Hj Hjb Kj)]; ring. }
    assert (U1 : fdecouple w mc (zeros_like mc) (zeros_like mc) = Ok mr).
    { apply (Ap mc (zeros_like mc) mr Rmc (rect_zeros _ _ _ Rmc) (entry_zeros mc)). split; [exact Rmr|]. intros i ib Hi Hib. rewrite (Emc i ib Hi Hib). destruct (keep i) eqn:Ki.
      2:{ apply (Zero mr i ib Hi Hib Ki). intros j jb Hj Hjb Kj. rewrite (Emr j jb Hj Hjb), Kj. reflexivity. }
      unfold apply_matrix. rewrite (sum_ext _ _ (fun j => sum K (fun k => pr k * sum nb (fun jb => entry2 (fw_bnd w) (ib * n + i) (jb * n + j) * entry2 (r k) j jb)))).
      - rewrite sum_swap. apply sum_ext. intros k _. rewrite sum_mul_l. f_equal. apply (proj2 (Hra k)); assumption.
      - intros j Hj. rewrite (sum_ext _ _ (fun jb => sum K (fun k => pr k * (entry2 (fw_bnd w) (ib * n + i) (jb * n + j) * entry2 (r k) j jb)))).
        + rewrite sum_swap. apply sum_ext. intros k _. rewrite sum_mul_l. reflexivity.
        + intros jb Hjb. rewrite (Emr j jb Hj Hjb). destruct (keep j) eqn:Kj; [rewrite <- sum_mul_l; apply sum_ext; intros k _; ring|].
          rewrite (HX0 i j ib jb Hi Hj Hib Hjb) by congruence. rewrite sum_zero by (intros k _; ring). ring. }
    assert (U2 : fdecouple w mc (zeros_like mc) (zeros_like mc) = Ok v).
    { apply (Ap mc (zeros_like mc) v Rmc (rect_zeros _ _ _ Rmc) (entry_zeros mc)). split; [exact Hv|]. intros i ib Hi Hib. rewrite (Emc i ib Hi Hib). destruct (keep i) eqn:Ki; [|apply (Zero v i ib Hi Hib Ki HV0)].
      pose proof (binned_ok pi fsqrt trunc ph w g1 g2 b c false v i ib W Hi Hib) as B. change (n_spectra g1 g2 false) with n in B. fold nb in B. rewrite B.
      rewrite (sum_ext _ _ (fun k => pr k * pseudo (t1 k) (t2 k) i ib)) by (intros k _; unfold entry2, cl; rewrite nth_tab by exact Hi; rewrite nth_tab by exact Hib; reflexivity).
      rewrite mean_ptext. rewrite (ptext_coupled i ib g1 g2 Hi (HM i Hi Ki)) by reflexivity. apply coupled_ext. intros j mm Hj Hm. change (n_spectra g1 g2 false) with n in Hj. change (ff_fs g1) with s in *. destruct (HCv j mm Hj Hm) as [A B'].
      destruct (find (fun i => inb b i (kmod_of s mm)) (seq 0 (n_bands b))) as [q|] eqn:Ef.
      + apply find_some in Ef. destruct Ef as [F1 F2]. apply in_seq in F1. rewrite (band_value_in b _ _ q Hc) by (lia || exact F2). symmetry. apply A; [unfold nb; lia | exact F2].
      + pose proof (find_none _ _ Ef) as NF. assert (Z : forall q, (q < n_bands b)%nat -> inb b q (kmod_of s mm) = false) by (intros q Hq; apply (NF q); apply in_seq; lia). rewrite (band_value_out b) by exact Z. symmetry. apply B'. exact Z. }
    rewrite U1 in U2. assert (mr = v) as Emv by congruence. intros i ib Hi Hib Ki. rewrite <- Emv, (Emr i ib Hi Hib), Ki. reflexivity.
Qed.
(** Decoupling is unbiased for masks that do not distinguish a direction from its mirror image: if the spectra take one value in each band (and vanish outside),
    the mean of the decoupled spectra is that value. *)
Theorem C87_unbiased (rows : list nat) (v : mat) : all_rows s rows -> rect (n1 * n2) (n_bands b) v -> mirror_prod pi ph s mask1 mask2 ->
  (forall j m, (j < n1 * n2)%nat -> In m (grid s) -> (forall ib, (ib < n_bands b)%nat -> inb b ib (kmod_of s m) = true -> C j (kmod_of s m) = entry2 v j ib) /\ ((forall ib, (ib < n_bands b)%nat -> inb b ib (kmod_of s m) = false) -> C j (kmod_of s m) = 0)) ->
  exists w, workspace_pure (args1 None) (args2 None) b c rows = Ok w /\ (nonsingular (n1 * n2 * n_bands b) (fw_bnd w) ->
  exists r : nat -> mat, (forall k, (k < K)%nat -> decoupled_pure (args1 (Some (t1 k))) (args2 (Some (t2 k))) b c rows = Ok (r k) /\ rect (n1 * n2) (n_bands b) (r k)) /\
  forall i ib, (i < n1 * n2)%nat -> (ib < n_bands b)%nat -> sum K (fun k => pr k * entry2 (r k) i ib) = entry2 v i ib).
Proof.
  intros HPr Hv HM HCv. exists mask_wsp. split; [apply pworkspace_eq; exact HPr|]. intro N.
  destruct (punbiased_gen (fun _ => true) rows v HPr Hv (fun i _ _ => or_introl HM) ltac:(discriminate) HCv ltac:(congruence) N) as [r [R1 R2]]. exists r. split; [exact R1|]. intros i ib Hi Hib. apply R2; auto.
Qed.
Section Parity.
(** two spins that are both even or both odd; cuts that do not distinguish kx from -kx; no band reaches the last row and column of modes of an even grid *)
Hypothesis HE : Z.even spin1 = Z.even spin2.
Hypothesis HXs : x_symmetric pi s c.
Hypothesis HB : forall ib m, (ib < n_bands b)%nat -> In m (grid s) -> inb b ib (kmod_of s m) = true -> ~ edge s m.
Lemma pcross_zero i j ib jb : (i < n1 * n2)%nat -> (j < n1 * n2)%nat -> (ib < n_bands b)%nat -> (jb < n_bands b)%nat -> odd_spec spin2 i <> odd_spec spin2 j ->
  entry2 (fw_bnd mask_wsp) (ib * (n1 * n2) + i) (jb * (n1 * n2) + j) = 0.
Proof.
  intros Hi Hj Hib Hjb HO. set (g1 := FF s spin1 pe1 pb1 mask1 beam1 [] true). set (g2 := FF s spin2 pe2 pb2 mask2 beam2 [] true). pose proof (ws_bnd _ _ _ _ _ _ _ _ _ _ (wsp_of_spec pi fsqrt trunc ph g1 g2 b c false) i ib j jb Hi Hj Hib Hjb) as E.
  change (n_spectra g1 g2 false) with (n1 * n2)%nat in E. rewrite E. clear E. unfold coup. change (ff_fs g1) with s. change (ff_spin g1) with spin1. change (ff_spin g2) with spin2.
  set (T := fun m1 m2 => resp s spin1 pe1 pb1 m1 m2 (i / n2) (j / n2) * resp s spin2 pe2 pb2 m1 m2 (i mod n2) (j mod n2) * (if inb b jb (kmod_of s m2) then beam1 (kmod_of s m2) * beam2 (kmod_of s m2) else 0)).
  pose proof (n_maps_pos spin2) as P2. assert (D1 : (i / n2 < n1)%nat) by (apply Nat.div_lt_upper_bound; lia). assert (D2 : (j / n2 < n1)%nat) by (apply Nat.div_lt_upper_bound; lia). assert (D3 : (i mod n2 < n2)%nat) by (apply Nat.mod_upper_bound; lia). assert (D4 : (j mod n2 < n2)%nat) by (apply Nat.mod_upper_bound; lia).
  assert (NE1 : forall m, In m (modes s b c ib) -> In m (grid s) /\ ~ edge s m). { intros m Hm. pose proof (in_modes pi fsqrt ph s b c ib m Hm) as G. split; [exact G|]. apply filter_In in Hm. destruct Hm as [_ Hm]. apply andb_prop in Hm. apply (HB ib m Hib G). apply Hm. }
  transitivity (wsum pi fsqrt s b c ib T (code_prod pi ph s mask1 mask2) * fac_norm pi s (Z.of_nat (length (modes s b c ib)))).
  - f_equal. unfold wsum. apply lsum_ext. intros m1 M1. apply (in_modes pi fsqrt ph) in M1. rewrite <- lsum_filter. apply lsum_ext. intros m2 M2. unfold T. destruct (inb b jb (kmod_of s m2)); [|ring]. unfold weight.
    pose proof (block_resp pi fsqrt ph s g1 g2 i j m1 m2 eq_refl (sqrt_sign_real s HSQ) M1 M2 flags1 flags2 Hi Hj) as BE. cbv zeta in BE. change (ff_pe g1) with pe1 in BE. change (ff_pe g2) with pe2 in BE. change (ff_pb g1) with pb1 in BE. change (ff_pb g2) with pb2 in BE. change (ff_spin g1) with spin1 in BE. change (ff_spin g2) with spin2 in BE. change (ff_fs g1) with s in BE. rewrite BE. unfold beamprod, code_prod. change (ff_fs g1) with s. change (ff_spin g1) with spin1. change (ff_spin g2) with spin2. cbn [g1 g2 ff_mask ff_beam]. unfold L_Flat2.kmod_of. ring.
  - rewrite (wsum_odd pi fsqrt ph s b c ib T mask1 mask2 HR HXs HY); [ring| |].
    + intros m1 m2 M1 M2. destruct (NE1 m1 M1) as [G1 E1]. unfold T. rewrite (kmod_flip pi fsqrt s m2 M2). destruct (inb b jb (kmod_of s m2)) eqn:I2; [|ring]. rewrite (resp_flip_pair pi fsqrt ph s spin1 spin2 pe1 pb1 pe2 pb2 m1 m2 _ _ _ _ Hs1 Hs2 HE Hf1 Hf2 G1 M2 E1 (HB jb m2 Hjb M2 I2)). reflexivity.
    + intros m1 m2 M1 M2. destruct (NE1 m1 M1) as [G1 E1]. unfold T. rewrite (kmod_yflip pi fsqrt s m2 M2). destruct (inb b jb (kmod_of s m2)) eqn:I2; [|ring]. pose proof (HB jb m2 Hjb M2 I2) as E2. unfold edge in E1, E2.
      rewrite !(resp_yflip pi fsqrt ph) by (try assumption; intro; tauto).
      assert (SG : sgn (i / n2 + j / n2) * sgn (i mod n2 + j mod n2) = (- (1) : F)). { unfold odd_spec in HO. unfold sgn. rewrite !Nat.even_add. rewrite !Nat.odd_add in HO. rewrite <- !Nat.negb_even in HO. destruct (Nat.even (i / n2)), (Nat.even (j / n2)), (Nat.even (i mod n2)), (Nat.even (j mod n2)); cbn in *; try congruence; ring. }
      match goal with |- ?x * ?y * (?x' * ?y') * ?z = _ => transitivity (x * x' * (y * y' * z)); [ring|] end. rewrite SG. ring.
Qed.
(** For all masks the coupling matrix has no coefficients between spectra of opposite parity (TE and TB, or EE and EB) *)
Theorem C87_no_parity_mixing (rows : list nat) : all_rows s rows -> exists w, workspace_pure (args1 None) (args2 None) b c rows = Ok w /\
  forall i j ib jb, (i < n1 * n2)%nat -> (j < n1 * n2)%nat -> (ib < n_bands b)%nat -> (jb < n_bands b)%nat -> odd_spec spin2 i <> odd_spec spin2 j -> entry2 (fw_bnd w) (ib * (n1 * n2) + i) (jb * (n1 * n2) + j) = 0.
Proof. intro HPr. exists mask_wsp. split; [apply pworkspace_eq; exact HPr | exact pcross_zero]. Qed.
(** ... so that for all masks the spectra of one parity are unbiased if those of the other parity vanish: EE and BB if there is no EB, TE if there is no TB. *)
Theorem C87_parity_unbiased (o : bool) (rows : list nat) (v : mat) : all_rows s rows -> rect (n1 * n2) (n_bands b) v ->
  (forall j m, (j < n1 * n2)%nat -> odd_spec spin2 j <> o -> In m (grid s) -> C j (kmod_of s m) = 0) -> (forall j ib, (j < n1 * n2)%nat -> (ib < n_bands b)%nat -> odd_spec spin2 j <> o -> entry2 v j ib = 0) ->
  (forall j m, (j < n1 * n2)%nat -> In m (grid s) -> (forall ib, (ib < n_bands b)%nat -> inb b ib (kmod_of s m) = true -> C j (kmod_of s m) = entry2 v j ib) /\ ((forall ib, (ib < n_bands b)%nat -> inb b ib (kmod_of s m) = false) -> C j (kmod_of s m) = 0)) ->
  exists w, workspace_pure (args1 None) (args2 None) b c rows = Ok w /\ (nonsingular (n1 * n2 * n_bands b) (fw_bnd w) ->
  exists r : nat -> mat, (forall k, (k < K)%nat -> decoupled_pure (args1 (Some (t1 k))) (args2 (Some (t2 k))) b c rows = Ok (r k) /\ rect (n1 * n2) (n_bands b) (r k)) /\
  forall i ib, (i < n1 * n2)%nat -> (ib < n_bands b)%nat -> odd_spec spin2 i = o -> sum K (fun k => pr k * entry2 (r k) i ib) = entry2 v i ib).
Proof.
  intros HPr Hv HO HV HCv. exists mask_wsp. split; [apply pworkspace_eq; exact HPr|]. intro N. destruct (punbiased_gen (fun i => Bool.eqb (odd_spec spin2 i) o) rows v HPr Hv) as [r [R1 R2]]; try assumption.
  - intros i Hi Ki. apply Bool.eqb_prop in Ki. right. intros j m Hj Hne Hm. apply HO; try assumption. congruence.
  - intros i ib Hi Hib Ki. apply Bool.eqb_false_iff in Ki. apply HV; assumption.
  - intros i j ib jb Hi Hj Hib Hjb Hk. apply pcross_zero; try assumption. congruence.
  - exists r. split; [exact R1|]. intros i ib Hi Hib Ho. apply R2; try assumption. rewrite Ho. apply Bool.eqb_reflx.
Qed.
End Parity.
End Ensemble.
(** A purified component does not receive anything from the other one: for all masks and bands the coupling matrix has no such coefficients. *)
Theorem C87_no_mixing (s : fsinfo) (mask1 mask2 : list F) (beam1 beam2 : F -> F) (spin1 spin2 : Z) (pe1 pb1 pe2 pb2 : bool) (b : fbins) (c : cuts) (rows : list nat) :
  contiguous b -> real_sqrt fsqrt -> 0 < fs_lx s -> 0 < fs_ly s -> ((pe1 || pb1)%bool = true -> spin1 = 2%Z) -> ((pe2 || pb2)%bool = true -> spin2 = 2%Z) -> all_rows s rows ->
  exists w, workspace_pure (args s mask1 beam1 spin1 pe1 pb1 None) (args s mask2 beam2 spin2 pe2 pb2 None) b c rows = Ok w /\ fw_ncls w = (n_maps spin1 * n_maps spin2)%nat /\
  forall a a' x x' ib jb, (a < n_maps spin1)%nat -> (a' < n_maps spin2)%nat -> (x < n_maps spin1)%nat -> (x' < n_maps spin2)%nat -> (ib < n_bands b)%nat -> (jb < n_bands b)%nat ->
    (a <> x /\ (if Nat.eqb a 0 then pe1 else pb1) = true \/ a' <> x' /\ (if Nat.eqb a' 0 then pe2 else pb2) = true) ->
    entry2 (fw_bnd w) (ib * (n_maps spin1 * n_maps spin2) + (a * n_maps spin2 + a')) (jb * (n_maps spin1 * n_maps spin2) + (x * n_maps spin2 + x')) = 0.
Proof.
  intros Hc HSQ Hlx Hly Hf1 Hf2 HPr. set (g1 := FF s spin1 pe1 pb1 mask1 beam1 [] true). set (g2 := FF s spin2 pe2 pb2 mask2 beam2 [] true). exists (wsp_of pi fsqrt trunc ph g1 g2 b c false). split; [|split; [reflexivity|]].
  - apply pworkspace_eq; assumption.
  - intros a a' x x' ib jb Ha Ha' Hx Hx' Hib Hjb HD. set (n2 := n_maps spin2) in *. assert (Hi : (a * n2 + a' < n_maps spin1 * n2)%nat) by nia. assert (Hj : (x * n2 + x' < n_maps spin1 * n2)%nat) by nia.
    pose proof (ws_bnd _ _ _ _ _ _ _ _ _ _ (wsp_of_spec pi fsqrt trunc ph g1 g2 b c false) (a * n2 + a') ib (x * n2 + x') jb Hi Hj Hib Hjb) as E. change (n_spectra g1 g2 false) with (n_maps spin1 * n2)%nat in E. rewrite E. clear E. unfold coup. change (ff_fs g1) with s. change (ff_spin g1) with spin1. change (ff_spin g2) with spin2.
    rewrite lsum_zero; [ring|]. intros m1 M1. apply (in_modes pi fsqrt ph) in M1. apply lsum_zero. intros m2 M2. apply filter_In in M2. destruct M2 as [M2 _]. unfold weight.
    pose proof (block_resp pi fsqrt ph s g1 g2 (a * n2 + a') (x * n2 + x') m1 m2 eq_refl (sqrt_sign_real s HSQ) M1 M2 (flags1 spin1 pe1 pb1 Hf1) (flags1 spin2 pe2 pb2 Hf2) Hi Hj) as BE. cbv zeta in BE.
    change (ff_spin g1) with spin1 in BE. change (ff_spin g2) with spin2 in BE. change (ff_pe g1) with pe1 in BE. change (ff_pe g2) with pe2 in BE. change (ff_pb g1) with pb1 in BE. change (ff_pb g2) with pb2 in BE. fold n2 in BE. rewrite BE. destruct (div_mod_flat n2 a' a Ha') as [-> ->]. destruct (div_mod_flat n2 x' x Hx') as [-> ->].
    unfold L_PureMean.resp. destruct HD as [[D ->]|[D ->]]; rewrite (proj2 (Nat.eqb_neq _ _) D); ring.
Qed.
(** For all spectra without power beyond (bx,by) there is an ensemble of maps limited to (bx,by) with these spectra. *)
Lemma wave_limited (s : fsinfo) spin m c im x bx by_ : exact_roots ph s -> (0 < fs_nx s)%nat -> (0 < fs_ny s)%nat -> In m (grid s) -> (x < n_maps spin)%nat ->
  (Z.abs (freq (fs_nx s) (fst m)) <= bx)%Z -> (Z.abs (freq (fs_ny s) (snd m)) <= by_)%Z -> band_limited pi ph s bx by_ (nth x (wave_map pi fsqrt ph s spin m c im) []).
Proof.
  intros [HR [HH HF]] Nx Ny Hm Hx B1 B2 l Hl HB. assert (Hf : In (flip s m) (grid s)) by (apply (L_FlatMeanSpin.in_flip pi fsqrt); exact Hm).
  assert (AF : forall n i, (i < n)%nat -> Z.abs (freq n (opp_row n i)) = Z.abs (freq n i)). { intros n i Hi. destruct (Nat.eq_dec (2 * i) n) as [E|E]; [replace (opp_row n i) with i; [reflexivity|] | rewrite freq_flip by assumption; lia]. unfold opp_row. destruct i; [lia|]. rewrite Nat.mod_small by lia. lia. }
  assert (N1 : l <> m) by (intros ->; lia). assert (N2 : l <> flip s m). { intros ->. apply in_grid in Hm. cbn [flip fst snd] in HB. rewrite !AF in HB by tauto. lia. }
  set (z := unit_mode spin (rot pi fsqrt s spin m) c x). rewrite coeff_sum.
  rewrite (clsum_ext _ _ (fun p => cadd (cmul (cmul (norm_m2a pi s / fofZ 2, 0) (if im then (snd z, - fst z) else (fst z, snd z))) (cmul (wave ph s l p) (conjc (wave ph s m p)))) (cmul (cmul (norm_m2a pi s / fofZ 2, 0) (if im then (snd z, fst z) else (fst z, - snd z))) (cmul (wave ph s l p) (conjc (wave ph s (flip s m) p)))))).
  - pose proof (root_0 ph s HF Nx Ny) as R0. rewrite clsum_add, !clsum_mul_l, !(orthogonal pi fsqrt ph s HH HF R0) by assumption. destruct (pair_dec l m); [contradiction|]. destruct (pair_dec l (flip s m)); [contradiction|]. unfold c0. apply cplx_eq; cbn; ring.
  - intros p Hp. rewrite (wave_map_pix pi fsqrt ph s spin m c im x p Hx Hp). cbv zeta. fold z. rewrite (wflip pi ph s m p HR Hm). assert (T : (fofZ 2 : F) <> 0) by (apply fofZ_neq0; lia). assert (T' : (fofZ 2 : F) = 1 + 1) by reflexivity. rewrite T' in *. destruct im; apply cplx_eq; cbn [cscal cadd cmul conjc fst snd]; field; exact T.
Qed.
Definition limited (s : fsinfo) (bx by_ : Z) (m : nat * nat) : bool := ((Z.abs (freq (fs_nx s) (fst m)) <=? bx) && (Z.abs (freq (fs_ny s) (snd m)) <=? by_))%Z.
Definition zero_maps (s : fsinfo) (spin : Z) : mat := tab (n_maps spin) (fun _ => tab (fs_nx s * fs_ny s) (fun _ => 0)).
Definition lim_1 (s : fsinfo) (spin1 spin2 bx by_ : Z) (k : nat) : mat := if limited s bx by_ (ens_m s spin1 spin2 k) then ens_1 pi fsqrt ph s spin1 spin2 k else zero_maps s spin1.
Definition lim_2 (s : fsinfo) (spin1 spin2 bx by_ : Z) (k : nat) : mat := if limited s bx by_ (ens_m s spin1 spin2 k) then ens_2 pi fsqrt ph s spin1 spin2 k else zero_maps s spin2.
Theorem C87_ensemble_exists (s : fsinfo) (spin1 spin2 bx by_ : Z) (P : nat -> F -> F) : exact_roots ph s -> (0 < fs_nx s)%nat -> (0 < fs_ny s)%nat ->
  (forall j m, In m (grid s) -> (bx < Z.abs (freq (fs_nx s) (fst m)) \/ by_ < Z.abs (freq (fs_ny s) (snd m)))%Z -> P j (kmod_of s m) = 0) ->
  exists (K : nat) (pr : nat -> F) (t1 t2 : nat -> mat),
  (forall k, (k < K)%nat -> rect (n_maps spin1) (fs_nx s * fs_ny s) (t1 k) /\ rect (n_maps spin2) (fs_nx s * fs_ny s) (t2 k)) /\
  (forall k, (k < K)%nat -> (forall x, (x < n_maps spin1)%nat -> band_limited pi ph s bx by_ (nth x (t1 k) [])) /\ (forall x, (x < n_maps spin2)%nat -> band_limited pi ph s bx by_ (nth x (t2 k) []))) /\
  forall x y p p', (x < n_maps spin1)%nat -> (y < n_maps spin2)%nat -> In p (grid s) -> In p' (grid s) ->
  sum K (fun k => pr k * (pix s (nth x (t1 k) []) p * pix s (nth y (t2 k) []) p')) = iso_cov_spin pi fsqrt ph s spin1 spin2 P x y p p'.
Proof.
  intros HX Nx Ny HZ. exists (ens_n s spin1 spin2), (ens_w pi fsqrt s spin1 spin2 P), (lim_1 s spin1 spin2 bx by_), (lim_2 s spin1 spin2 bx by_). destruct (C86_ensemble_exists pi fsqrt ph s spin1 spin2 P) as [R E].
  assert (G : forall k, (k < ens_n s spin1 spin2)%nat -> In (ens_m s spin1 spin2 k) (grid s)). { intros k Hk. unfold ens_m. apply nth_In. apply Nat.div_lt_upper_bound; [pose proof (n_maps_pos spin1); pose proof (n_maps_pos spin2); nia|]. unfold ens_n in Hk. nia. }
  assert (ZB : forall spin x, (x < n_maps spin)%nat -> band_limited pi ph s bx by_ (nth x (zero_maps s spin) [])). { intros spin x Hx m Hm _. rewrite coeff_sum. apply clsum_zero. intros p Hp. apply in_grid in Hp. unfold pix, zero_maps. rewrite nth_tab by exact Hx. rewrite nth_tab by nia. unfold c0. apply cplx_eq; cbn; ring. }
  split; [|split].
  - intros k Hk. unfold lim_1, lim_2. destruct (limited _ _ _ _); [apply R | split; apply rect_tab].
  - intros k Hk. unfold lim_1, lim_2. destruct (limited s bx by_ (ens_m s spin1 spin2 k)) eqn:L; [|split; intros x Hx; apply ZB; exact Hx]. unfold limited in L. apply andb_prop in L. destruct L as [L1 L2]. apply Z.leb_le in L1, L2.
    split; intros x Hx; apply wave_limited; auto.
  - intros x y p p' Hx Hy Hp Hp'. rewrite <- (E x y p p' Hx Hy Hp Hp'). apply sum_ext. intros k Hk. unfold lim_1, lim_2. destruct (limited s bx by_ (ens_m s spin1 spin2 k)) eqn:L; [reflexivity|]. unfold ens_w. rewrite HZ; [ring | apply G; exact Hk|].
    unfold limited in L. apply Bool.andb_false_iff in L. destruct L as [L|L]; apply Z.leb_gt in L; auto.
Qed.
(** ** Fully purified fields with the same mask: the diagonal of the coupling matrix is positive *)
Lemma kratio_same (s : fsinfo) m : kmod_of s m <> 0 -> kratio pi fsqrt s m m = 1.
Proof. intro N. unfold L_Flat2.kmod_of in N. unfold kratio. cbv zeta. destruct (is_origin m); cbn [andb]; [ring|]. field. exact N. Qed.
Lemma kratio_nonneg (s : fsinfo) m m2 : 0 <= kratio pi fsqrt s m m2.
Proof. unfold kratio. cbv zeta. apply fsqr_nonneg. Qed.
Lemma code_prod_nonneg (s : fsinfo) w q : conj_roots ph s -> In q (grid s) -> 0 <= code_prod pi ph s w w q.
Proof. intros HR Hq. rewrite (code_prod_eq pi fsqrt ph s w w q HR Hq). unfold true_prod, cdot. destruct (_ <=? _)%nat; apply fadd_nonneg; apply fsqr_nonneg. Qed.
Lemma diagonal_positive (s : fsinfo) (mask : list F) (b : fbins) (c : cuts) (ib i : nat) : let g := FF s 2 true true mask (fun _ => 1) [] true in
  conj_roots ph s -> real_sqrt fsqrt -> pi <> 0 -> 0 < fs_lx s -> 0 < fs_ly s -> (0 < fs_nx s)%nat -> (0 < fs_ny s)%nat -> (i < 4)%nat -> (ib < n_bands b)%nat -> coeff s mask (0, 0)%nat <> c0 ->
  (exists m, In m (modes s b c ib) /\ kmod_of s m <> 0) -> 0 < entry2 (fw_bnd (wsp_of pi fsqrt trunc ph g g b c false)) (ib * 4 + i) (ib * 4 + i).
Proof.
  intros g HR HSQ Hpi Hlx Hly Nx Ny Hi Hib HM [m [Hm Hk]]. pose proof (ws_bnd _ _ _ _ _ _ _ _ _ _ (wsp_of_spec pi fsqrt trunc ph g g b c false) i ib i ib Hi Hi Hib Hib) as E. change (n_spectra g g false) with 4%nat in E. rewrite E. clear E. unfold coup. change (ff_fs g) with s. change (ff_spin g) with 2%Z.
  assert (W : forall m1 m2, In m1 (modes s b c ib) -> In m2 (grid s) -> weight pi fsqrt ph g g 4 (matrix_spins 2 2 false) i i m1 m2 = kratio pi fsqrt s m1 m2 * kratio pi fsqrt s m1 m2 * code_prod pi ph s mask mask (diff_mode s m1 m2)).
  { intros m1 m2 M1 M2. apply (in_modes pi fsqrt ph) in M1. unfold weight. pose proof (block_resp pi fsqrt ph s g g i i m1 m2 eq_refl (sqrt_sign_real s HSQ) M1 M2 ltac:(discriminate) ltac:(discriminate) Hi Hi) as BE. cbv zeta in BE.
    change (ff_spin g) with 2%Z in BE. change (n_maps 2) with 2%nat in BE. change (2 * 2)%nat with 4%nat in BE. rewrite BE. unfold L_PureMean.resp. change (ff_pe g) with true. change (ff_pb g) with true. rewrite !Nat.eqb_refl. unfold code_prod, beamprod. cbn [g ff_fs ff_mask ff_beam]. destruct (Nat.eqb (i / 2) 0), (Nat.eqb (i mod 2) 0); ring. }
  assert (S2 : forall m1, In m1 (modes s b c ib) -> 0 <= lsum (map (weight pi fsqrt ph g g 4 (matrix_spins 2 2 false) i i m1) (filter (fun m2 => inb b ib (kmod_of s m2)) (grid s)))).
  { intros m1 M1. apply lsum_nonneg. intros m2 M2. apply filter_In in M2. rewrite (W m1 m2 M1) by tauto. apply fmul_nonneg; [apply fmul_nonneg; apply kratio_nonneg|]. apply code_prod_nonneg; [exact HR|]. apply in_diff; [apply (in_modes pi fsqrt ph s b c ib); exact M1 | tauto]. }
  assert (D : diff_mode s m m = (0, 0)%nat) by (unfold diff_mode, diff; rewrite !Nat.leb_refl, !Nat.sub_diag; reflexivity).
  apply fmul_pos.
  - apply (lsum_pos _ _ m Hm); [exact S2|]. pose proof (in_modes pi fsqrt ph s b c ib m Hm) as G. pose proof Hm as Hm'. apply filter_In in Hm'. destruct Hm' as [_ Hb]. apply andb_prop in Hb. destruct Hb as [_ Hb].
    apply (lsum_pos _ _ m); [apply filter_In; split; assumption| |].
    + intros m2 M2. apply filter_In in M2. rewrite (W m m2 Hm) by tauto. apply fmul_nonneg; [apply fmul_nonneg; apply kratio_nonneg|]. apply code_prod_nonneg; [exact HR|]. apply in_diff; tauto.
    + rewrite (W m m Hm G), D, (kratio_same s m Hk). assert (G0 : In (0, 0)%nat (grid s)) by (apply in_grid; cbn; lia). apply fle_neq_lt; [replace (1 * 1 * code_prod pi ph s mask mask (0, 0)%nat) with (code_prod pi ph s mask mask (0, 0)%nat) by ring; apply code_prod_nonneg; assumption|].
      intro Z. apply HM. rewrite (code_prod_eq pi fsqrt ph s mask mask _ HR G0) in Z. change (2 * fst (0, 0) <=? fs_nx s)%nat with true in Z. cbv iota in Z. unfold true_prod, cdot in Z. destruct (sq_sum_zero (fst (coeff s mask (0, 0)%nat)) (snd (coeff s mask (0, 0)%nat))) as [Z1 Z2]; [|destruct (coeff s mask (0, 0)%nat) as [x y]; cbn [fst snd] in *; subst; reflexivity].
      assert (Z' : fst (coeff s mask (0, 0)%nat) * fst (coeff s mask (0, 0)%nat) + snd (coeff s mask (0, 0)%nat) * snd (coeff s mask (0, 0)%nat) = 0) by (etransitivity; [|symmetry; exact Z]; ring). rewrite Z'. apply fle_refl.
  - unfold fac_norm. destruct (modes s b c ib) as [|x l]; [destruct Hm|]. cbn [length]. replace (0 <? Z.of_nat (S (length l)))%Z with true by (symmetry; apply Z.ltb_lt; lia). rewrite fofZ_of_nat. apply fdiv_pos; [|apply fofnat_pos]. apply fdiv_pos; [|repeat apply fmul_pos; assumption].
    assert (P4 : (0 : F) < fofZ 4) by (change (fofZ 4 : F) with (fofZ (Z.of_nat 4) : F); rewrite fofZ_of_nat; apply fofnat_pos).
    replace (fofZ 4 * pi * pi) with (fofZ 4 * (pi * pi)) by ring. apply fmul_pos; [exact P4|]. apply fle_neq_lt; [apply fsqr_nonneg|]. intro Z. symmetry in Z. apply fmul_eq_0 in Z. tauto.
Qed.
Lemma nonsingular_diagonal n (A : mat) : square n A -> (forall i j, (i < n)%nat -> (j < n)%nat -> i <> j -> entry2 A i j = 0) -> (forall i, (i < n)%nat -> entry2 A i i <> 0) -> nonsingular n A.
Proof.
  clear. intros [L1 L2] HZ HD y Ly HE. assert (E : forall i, (i < n)%nat -> entry2 A i i * nth i y 0 = 0).
  { intros i Hi. assert (E : nth i (matvec A y) 0 = nth i (zeros n) 0) by (rewrite HE; reflexivity). unfold matvec in E. rewrite (nth_indep _ 0 (dot [] y)) in E by (rewrite map_length; lia). rewrite (map_nth (fun r => dot r y)) in E. rewrite (dot_sum _ _ n) in E by (try exact Ly; apply L2; apply nth_In; lia).
    unfold zeros in E. rewrite (nth_repeat 0 n i) in E. rewrite (sum_single n i) in E; [exact E | exact Hi |]. intros j Hj Nj. change (nth j (nth i A []) 0) with (entry2 A i j). rewrite HZ by auto. ring. }
  apply (nth_ext _ _ 0 0); [rewrite Ly; unfold zeros; rewrite repeat_length; reflexivity|]. intros i Hi. rewrite Ly in Hi. unfold zeros. rewrite nth_repeat. pose proof (E i Hi) as Z. apply fmul_eq_0 in Z. destruct Z as [Z|Z]; [exfalso; exact (HD i Hi Z) | exact Z].
Qed.
Lemma cos_mirror (s : fsinfo) a : conj_roots ph s -> (0 < fs_nx s)%nat -> (0 < fs_ny s)%nat -> mirror_mask s (cos_map ph s a (0, 1)%nat).
Proof.
  clear trunc eigh tol lite. intros HR Nx Ny p Hp. pose proof Hp as Hp'. apply in_grid in Hp'. assert (Hy : In (yflip s p) (grid s)) by (apply in_grid; cbn [yflip fst snd]; split; [tauto | unfold opp_row; apply Nat.mod_upper_bound; lia]).
  rewrite !(pix_cos fsqrt ph s) by assumption. f_equal. f_equal. transitivity (fst (wave ph s (0, 1)%nat (flip s p))).
  - unfold wave. cbn [yflip flip fst snd]. rewrite !Nat.mul_0_l. reflexivity.
  - rewrite wave_sym, (wflip pi ph s p _ HR Hp), (wave_sym ph s p). reflexivity.
Qed.
End Statements.
(** ** Example: square maps of n x n pixels, n >= 5, mask 2+2cos(2 pi y/n), E and B purified, one band with the 8 modes around the origin; all values v of the four spectra *)
Open Scope R_scope.
Section Real.
Variables (n : nat) (eigh : list (list R_field) -> list R_field * list (list R_field)) (trunc : R_field -> Z) (lite : bool).
Hypothesis Hn : (5 <= n)%nat.
Definition sR : fsinfo R_field := FS (F := R_field) n n 1 1.
Definition bR : fbins R_field := FBins (F := R_field) [PI] [3 * PI].
Definition cR : cuts R_field := Cuts (F := R_field) 1 0 1 0.
Definition maskR : list R_field := wmask (F := R_field) phR sR.
Notation kR := (kmod_of (F := R_field) PI sqrt sR).
Lemma kR_eq m : kR m = sqrt (4 * (PI * PI) * (IZR (freq n (fst m)) * IZR (freq n (fst m)) + IZR (freq n (snd m)) * IZR (freq n (snd m)))).
Proof.
  unfold kmod_of, kmodf, kxf, kyf, dkx, dky. rewrite !fofZ_IZR. cbn [fs_nx fs_ny fs_lx fs_ly sR]. apply (f_equal sqrt). change (@fadd R_field) with Rplus. change (@fmul R_field) with Rmult. change (@fdiv R_field) with Rdiv. change (@f1 R_field) with 1%R. field.
Qed.
Lemma band_mode m ib : inb bR ib (kR m) = true -> ib = 0%nat /\ (0 < freq n (fst m) * freq n (fst m) + freq n (snd m) * freq n (snd m) <= 2)%Z.
Proof.
  intro H. unfold inb in H. apply andb_prop in H. destruct H as [H1 H2]. unfold low, high in *. pose proof PI_RGT_0 as P. destruct ib as [|ib].
  2:{ exfalso. cbn [bR fb_l0 fb_lf] in H1, H2. assert (E : forall x : R_field, nth (S ib) [x] (f0 : R_field) = f0) by (intro; destruct ib; reflexivity). rewrite E in H1, H2. apply (R_le _ _) in H1. apply (R_lt _ _) in H2. change (f0 : R_field) with 0%R in *. lra. }
  split; [reflexivity|]. cbn [nth bR fb_l0 fb_lf] in H1, H2. apply (R_le _ _) in H1. apply (R_lt _ _) in H2. rewrite kR_eq in H1, H2. set (z := (freq n (fst m) * freq n (fst m) + freq n (snd m) * freq n (snd m))%Z). assert (Z0 : (0 <= z)%Z) by (unfold z; nia).
  assert (EZ : IZR (freq n (fst m)) * IZR (freq n (fst m)) + IZR (freq n (snd m)) * IZR (freq n (snd m)) = IZR z) by (unfold z; rewrite plus_IZR, !mult_IZR; reflexivity). rewrite EZ in H1, H2. assert (0 <= IZR z) by (apply (IZR_le 0); exact Z0).
  assert (P2 : 0 < PI * PI) by (apply Rmult_lt_0_compat; exact P). set (x := 4 * (PI * PI) * IZR z) in *. assert (X0 : 0 <= x) by (unfold x; apply Rmult_le_pos; lra). pose proof (sqrt_sqrt x X0) as S. set (k := sqrt x) in *.
  assert (A : PI * PI <= x) by (rewrite <- S; apply Rmult_le_compat; lra). assert (B : x < 9 * (PI * PI)) by (rewrite <- S; replace (9 * (PI * PI)) with ((3 * PI) * (3 * PI)) by ring; apply Rmult_le_0_lt_compat; lra).
  unfold x in A, B. split.
  - apply lt_IZR. apply (Rmult_lt_reg_l (4 * (PI * PI))); lra.
  - assert (z < 3)%Z; [|lia]. apply lt_IZR. apply (Rmult_lt_reg_l (4 * (PI * PI))); lra.
Qed.
Lemma cutR_y (k : R_field) : cut_y cR k = false.
Proof. unfold cut_y, cR. cbn [mn_y mx_y]. apply andb_false_iff. destruct (fleb (1 : R_field) k) eqn:A; [right | left; reflexivity]. destruct (fleb k (0 : R_field)) eqn:B; [|reflexivity]. apply (R_le 1 k) in A. apply (R_le k 0) in B. exfalso. exact (Rlt_irrefl 0 (Rlt_le_trans 0 1 0 Rlt_0_1 (Rle_trans 1 k 0 A B))). Qed.
Lemma cutR_x (k : R_field) : cut_x cR k = false.
Proof. exact (cutR_y k). Qed.
Lemma uncutR m : uncut (F := R_field) PI sR cR m = true.
Proof. unfold uncut. rewrite cutR_x, cutR_y. reflexivity. Qed.
Lemma first_mode : In (1, 0)%nat (modes (F := R_field) PI sqrt sR bR cR 0) /\ kR (1, 0)%nat <> 0.
Proof.
  pose proof PI_RGT_0 as P. assert (F1 : freq n 1 = 1%Z) by (unfold freq; destruct (Nat.leb_spec (2 * 1) n); lia). assert (F0 : freq n 0 = 0%Z) by reflexivity.
  assert (K : kR (1, 0)%nat = 2 * PI). { rewrite kR_eq. cbn [fst snd]. rewrite F1, F0. replace (4 * (PI * PI) * (1 * 1 + 0 * 0)) with ((2 * PI) * (2 * PI)) by ring. apply sqrt_square. lra. }
  split; [|rewrite K; lra]. apply filter_In. split; [apply in_grid; cbn [fst snd sR fs_nx fs_ny]; lia|]. apply andb_true_intro. split.
  - apply uncutR.
  - rewrite K. unfold inb, low, high. cbn [nth bR fb_l0 fb_lf]. apply andb_true_intro. split; [apply (R_le PI (2 * PI)%R); lra | apply (R_lt (2 * PI)%R (3 * PI)%R); lra].
Qed.
Lemma wave_freq i : (i < n)%nat -> (Z.abs (freq n i) <= 1)%Z -> (2 * i <> n)%nat.
Proof. intros Hi H E. unfold freq in H. rewrite E, Nat.leb_refl in H. lia. Qed.
Lemma roomR : room (F := R_field) sR 1 1 0 1.
Proof. unfold room. cbn [sR fs_nx fs_ny]. lia. Qed.
Example C87_ex (rows : list nat) (v : list (list R_field)) : all_rows (F := R_field) sR rows -> rect (F := R_field) 4 1 v ->
  exists (K : nat) (pr : nat -> R_field) (t1 t2 : nat -> list (list R_field)) (r : nat -> list (list R_field)),
  (forall k, (k < K)%nat -> decoupled_pure (F := R_field) PI sqrt trunc phR eigh (args (F := R_field) 0 lite sR maskR (fun _ => 1) 2 true true (Some (t1 k))) (args (F := R_field) 0 lite sR maskR (fun _ => 1) 2 true true (Some (t2 k))) bR cR rows = Ok (r k)) /\
  (forall j, (j < 4)%nat -> sum (F := R_field) K (fun k => pr k * entry2 (r k) j 0) = entry2 v j 0).
Proof.
  intros HPr Hv. pose proof PI_RGT_0 as P. set (C := fun (j : nat) (k : R_field) => if inb bR 0 k then entry2 v j 0 else (0 : R_field)).
  assert (HX : exact_roots (F := R_field) phR sR) by (apply C80_real_roots; cbn [sR fs_nx fs_ny]; lia). pose proof C80_real_sqrt as HSQ. assert (H1 : flt (F := R_field) 0 1) by (apply (R_lt 0 1); exact Rlt_0_1).
  assert (NP : (PI : R_field) <> f0) by (intro E; change (PI = 0) in E; lra).
  assert (HC0 : contiguous (F := R_field) bR). { split; [|intros i Hi; cbn in Hi; lia]. split; [reflexivity|]. split; [cbn; lia|]. split; [|intros i Hi; cbn in Hi; lia]. intros i Hi. destruct i; [|cbn in Hi; lia]. apply (R_lt PI (3 * PI)%R). lra. }
  assert (HY : y_symmetric (F := R_field) PI sR cR) by (intros iy _; rewrite !cutR_y; reflexivity).
  assert (ZB : forall j m, In m (grid sR) -> (1 < Z.abs (freq n (fst m)) \/ 1 < Z.abs (freq n (snd m)))%Z -> C j (kR m) = 0).
  { intros j m Hm HB. unfold C. destruct (inb bR 0 (kR m)) eqn:I; [|reflexivity]. exfalso. apply band_mode in I. destruct I as [_ I]. nia. }
  destruct (C87_ensemble_exists (F := R_field) PI sqrt trunc phR 0 sR 2 2 1 1 (fun j k => fmul (C j k) (fmul f1 f1))) as [K [pr [t1 [t2 [Ht [HB HE]]]]]]; try assumption; try (cbn [sR fs_nx fs_ny]; lia).
  { intros j m Hm HBm. rewrite (ZB j m Hm HBm). change (0 * (1 * 1) = 0). ring. }
  assert (L0 : (0 < fs_nx sR)%nat /\ (0 < fs_ny sR)%nat /\ (3 <= fs_nx sR)%nat /\ (3 <= fs_ny sR)%nat) by (cbn [sR fs_nx fs_ny]; lia). destruct L0 as [L1 [L2 [L3 L4]]]. destruct HX as [HR [HH HF]] eqn:EX. clear EX.
  pose proof (root_0 (F := R_field) phR sR HF L1 L2) as R0.
  assert (ML : band_limited (F := R_field) PI phR sR 0 1 maskR) by exact (mask_limited (F := R_field) PI sqrt phR sR NP HR HH HF L1 L2 R0 L3 L4).
  assert (EM : forall ib m, In m (modes (F := R_field) PI sqrt sR bR cR ib) -> (Z.abs (freq n (fst m)) <= 1 /\ Z.abs (freq n (snd m)) <= 1)%Z /\ m <> (0, 0)%nat).
  { intros ib m Hm. apply filter_In in Hm. destruct Hm as [_ Hm]. apply andb_prop in Hm. destruct Hm as [_ Hm]. apply band_mode in Hm. destruct Hm as [_ Hm]. split; [nia|]. intros ->. cbn in Hm. lia. }
  pose proof (C87_unbiased (F := R_field) PI sqrt trunc phR eigh 0 lite sR maskR maskR (fun _ => f1) (fun _ => f1) 2 2 true true true true bR cR HC0 HY HX HSQ NP H1 H1) as U.
  specialize (U ltac:(cbn [sR fs_nx]; lia) ltac:(cbn [sR fs_ny]; lia) ltac:(lia) ltac:(lia)).
  specialize (U ltac:(intros ib m Hm; destruct (EM ib m Hm) as [[_ E] _]; apply filter_In in Hm; destruct Hm as [Hm _]; apply in_grid in Hm; apply wave_freq; [apply Hm | exact E]) ltac:(intros _ ib m Hm; exact (proj2 (EM ib m Hm))) 1%Z 1%Z 0%Z 1%Z roomR K pr t1 t2 Ht).
  specialize (U ltac:(intros k Hk; destruct (HB k Hk) as [B1 B2]; split; intros _; (split; [reflexivity|]; split; [reflexivity|]; split; [exact ML|]; assumption)) ltac:(reflexivity) ltac:(reflexivity) C).
  assert (NE : no_edge_power (F := R_field) PI sqrt sR 2 2 (fun j k => fmul (C j k) (fmul f1 f1))).
  { split; [|left; reflexivity]. intros j m Hm HEd. rewrite (ZB j m Hm); [change (0 * (1 * 1) = 0); ring|]. unfold edge in HEd. cbn [sR fs_nx fs_ny] in HEd. destruct HEd as [E|E]; [left|right]; unfold freq; rewrite E, Nat.leb_refl; lia. }
  specialize (U NE HE rows v HPr Hv). 
  assert (MP : mirror_prod (F := R_field) PI phR sR maskR maskR). { assert (MM : mirror_mask (F := R_field) sR maskR) by (apply (cos_mirror (F := R_field) PI sqrt phR sR); assumption). apply (mirror_prod_mask (F := R_field) PI sqrt phR); [exact HR | left; split; exact MM]. }
  destruct (U MP) as [w [EW UU]].
  { intros j m Hj Hm. split.
    - intros ib Hib HI. destruct ib; [|cbn in Hib; lia]. unfold C. rewrite HI. reflexivity.
    - intro HI. unfold C. rewrite HI by (cbn; lia). reflexivity. }
  destruct (C87_no_mixing (F := R_field) PI sqrt trunc phR eigh 0 lite sR maskR maskR (fun _ => f1) (fun _ => f1) 2 2 true true true true bR cR rows HC0 HSQ H1 H1 ltac:(reflexivity) ltac:(reflexivity) HPr) as [w' [EW' [_ NM]]]. rewrite EW in EW'. injection EW' as <-.
  set (g := FF (F := R_field) sR 2 true true maskR (fun _ => f1) [] true).
  assert (EG : w = wsp_of (F := R_field) PI sqrt trunc phR g g bR cR false).
  { assert (E2 : workspace_pure (F := R_field) PI sqrt trunc phR eigh (args (F := R_field) 0 lite sR maskR (fun _ => f1) 2 true true None) (args (F := R_field) 0 lite sR maskR (fun _ => f1) 2 true true None) bR cR rows = Ok (wsp_of (F := R_field) PI sqrt trunc phR g g bR cR false)) by (apply pworkspace_eq; try assumption; reflexivity). rewrite EW in E2. injection E2 as E2. exact E2. }
  assert (SQ : square (F := R_field) 4 (fw_bnd w)) by (rewrite EG; exact (ws_sq _ _ _ _ _ _ _ _ _ _ (wsp_of_spec (F := R_field) PI sqrt trunc phR g g bR cR false))).
  destruct UU as [r [R1 R2]].
  { apply nonsingular_diagonal; [exact SQ | |].
    - intros i j Hi Hj Nij. change (n_maps 2 * n_maps 2 * n_bands bR)%nat with 4%nat in Hi, Hj. change (n_maps 2) with 2%nat in NM.
      pose proof (NM (i / 2) (i mod 2) (j / 2) (j mod 2) 0 0)%nat as Q. replace (0 * (2 * 2) + (i / 2 * 2 + i mod 2))%nat with i in Q by (pose proof (Nat.div_mod i 2); lia). replace (0 * (2 * 2) + (j / 2 * 2 + j mod 2))%nat with j in Q by (pose proof (Nat.div_mod j 2); lia).
      apply Q; try (apply Nat.div_lt_upper_bound; lia); try (apply Nat.mod_upper_bound; lia); try (cbn; lia). destruct (Nat.eq_dec (i / 2) (j / 2)) as [E|E]; [right; split; [|destruct (Nat.eqb (i mod 2) 0); reflexivity] | left; split; [exact E | destruct (Nat.eqb (i / 2) 0); reflexivity]]. intro E2. apply Nij. rewrite (Nat.div_mod i 2), (Nat.div_mod j 2), E, E2 by lia. reflexivity.
    - intros i Hi. change (n_maps 2 * n_maps 2 * n_bands bR)%nat with 4%nat in Hi. rewrite EG. apply fpos_neq0. apply (diagonal_positive (F := R_field) PI sqrt trunc phR 0 sR maskR bR cR 0 i); try assumption; try (cbn; lia).
      + assert (G0 : In (0, 0)%nat (grid sR)) by (apply in_grid; cbn [fst snd]; lia). unfold maskR. rewrite (coeff_mask (F := R_field) PI sqrt phR sR NP HR HH HF L1 L2 R0 L3 L4 (0, 0)%nat G0). destruct (pair_dec _ _) as [_|N]; [|congruence]. intro E. injection E as E _. assert (0 < 1 * 1 / ((1 + 1) * PI)) by (apply Rdiv_lt_0_compat; lra). lra.
      + exists (1, 0)%nat. exact first_mode. }
  exists K, pr, t1, t2, r. split; [intros k Hk; apply R1; exact Hk|]. intros j Hj. apply R2; [exact Hj | cbn; lia].
Qed.
End Real.
Print Assumptions C87_mean. Print Assumptions C87_couple_cell. Print Assumptions C87_unbiased. Print Assumptions C87_no_parity_mixing. Print Assumptions C87_parity_unbiased. Print Assumptions C87_no_mixing. Print Assumptions C87_ensemble_exists. Print Assumptions C87_ex.
