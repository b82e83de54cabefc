(** Properties of flat-sky deprojection: its bias (C82). *)
From Verif Require Import Base FieldR M_Utils M_Bins M_FlatBins M_LinAlg M_Workspace M_Flat M_WspFlat M_Syn M_FieldFlat M_BiasFlat P_FlatBins L_LinAlg L_Flat L_Flat2 L_Flat3 L_WspFlat L_WspFlat2 L_FlatLin L_FlatMean L_Pure P_FlatMean P_FieldFlat L_BiasFlat L_Syn2.
From Coq Require Import Permutation.
Open Scope nat_scope.

Section PBiasFlat.
Context {F : ofield}.
Local Open Scope F_scope.
Add Field FfPBF : (fth F).
Notation mat := (list (list F)).
Notation cplx := (cplx F).
Notation fsinfo := (fsinfo F).
Notation ffield := (ffield F).
Notation fbins := (fbins F).
Notation cuts := (cuts F).
Notation flat_args := (flat_args F).
Notation flat_field := (flat_field F).
Variables (pi : F) (fsqrt : F -> F) (ph : nat -> nat -> cplx) (eigh : mat -> list F * mat).
Notation flat_new := (flat_new pi fsqrt ph eigh).
Notation harm := (harm pi fsqrt ph).

(** the arguments of a field with other maps, and without templates *)
Definition set_maps (a : flat_args) (m : mat) : flat_args :=
  FlatArgs (g_nx a) (g_ny a) (g_lx a) (g_ly a) (g_mask a) (Some m) (g_spin a) (g_temp a) (g_beam a) (g_pe a) (g_pb a) (g_tol a) (g_masked a) (g_lite a).
Definition no_templates (a : flat_args) : flat_args :=
  FlatArgs (g_nx a) (g_ny a) (g_lx a) (g_ly a) (g_mask a) (g_maps a) (g_spin a) NoTemp (g_beam a) (g_pe a) (g_pb a) (g_tol a) (g_masked a) (g_lite a).
(** The maps [m1 k] (of spin sp1) and [m2 k] (of spin sp2), realisation k having weight [pr k], are correlated with the power spectra [C i j]:
    the mean of m1 <h, m2> is obtained by transforming h, multiplying every mode by the spectra and transforming back. *)
Definition correlated (s : fsinfo) (sp1 sp2 : Z) (C : nat -> nat -> F -> F) (N : nat) (pr : nat -> F) (m1 m2 : nat -> mat) : Prop :=
  forall h x y z, length h = nmap_of sp2 -> (forall r, In r h -> length r = npix_fs s) -> fs_map2alm pi fsqrt ph s sp2 h = Ok x ->
    length y = nmap_of sp1 -> (forall r, In r y -> length r = (fs_ny s * nhalf s)%nat) ->
    (forall i ix iy, (i < nmap_of sp1)%nat -> (ix < nhalf s)%nat -> (iy < fs_ny s)%nat ->
      nth (ix + nhalf s * iy) (nth i y []) c0 = csum (nmap_of sp2) (fun j => cscal (C i j (kmodf pi fsqrt s ix iy)) (nth (ix + nhalf s * iy) (nth j x []) c0))) ->
    field_maps pi fsqrt ph s sp1 y = Ok z ->
    forall i p, (i < nmap_of sp1)%nat -> (p < npix_fs s)%nat ->
      sum N (fun k => pr k * (sum (nmap_of sp2) (fun j => sum (npix_fs s) (fun q => nth q (nth j h []) 0 * nth q (nth j (m2 k) []) 0)) * (fs_lx s * fs_ly s / fofnat (npix_fs s))) * nth p (nth i (m1 k) []) 0) = nth p (nth i z []) 0.
Lemma correlated_spread (g1 g2 : ffield) C N pr m1 m2 t : let s := ff_fs g1 in ff_fs g2 = s -> correlated s (ff_spin g1) (ff_spin g2) C N pr m1 m2 -> (forall k, (k < N)%nat -> shaped (ff_nmaps g1) (npix_fs s) (m1 k)) -> length t = ff_nmaps g2 -> (forall k, (k < N)%nat -> length (m2 k) = ff_nmaps g2) ->
  exists z, spread pi fsqrt ph g2 g1 C t = Ok z /\ shaped (ff_nmaps g1) (npix_fs s) z /\ mlin N (fun k => pr k * maps_dot s (ff_nmaps g2) t (map (product s (ff_mask g2)) (m2 k))) z m1.
Proof.
  intros s Es Cor Sm Lt L2. unfold spread. rewrite Es. change (ff_nmaps g2) with (nmap_of (ff_spin g2)) in *. change (ff_nmaps g1) with (nmap_of (ff_spin g1)) in *. fold s. rewrite analysed_ok by (rewrite map_length; exact Lt). cbn [bind].
  set (x := analysed pi fsqrt ph s (ff_spin g2) _). destruct (filtered_full pi fsqrt s (nmap_of (ff_spin g1)) (nmap_of (ff_spin g2)) C x) as [Ly Fy]. destruct (field_maps_shape pi fsqrt ph s (ff_spin g1) _ Ly Fy) as [z [Ez Sz]]. exists z. split; [exact Ez|]. split; [exact Sz|].
  intros c p. destruct (Nat.lt_ge_cases c (nmap_of (ff_spin g1))) as [Hc|Hc]; [destruct (Nat.lt_ge_cases p (npix_fs s)) as [Hp|Hp]|].
  - unfold rlin. rewrite <- (Cor (map (product s (ff_mask g2)) t) x (filtered pi fsqrt s (nmap_of (ff_spin g1)) (nmap_of (ff_spin g2)) C x) z); try assumption.
    + apply sum_ext. intros k Hk. rewrite <- (maps_dot_masked s (nmap_of (ff_spin g2)) (ff_mask g2) t (m2 k) Lt (L2 k Hk)). unfold maps_dot, map_dot. rewrite sum_mul_r. reflexivity.
    + rewrite map_length. exact Lt.
    + intros r Hr. apply in_map_iff in Hr as [r' [<- _]]. apply length_tab.
    + apply analysed_ok. rewrite map_length. exact Lt.
    + intros i ix iy Hi Ix Iy. unfold filtered. destruct (half_index s ix iy Ix Iy) as [A [B D]]. rewrite nth_tab by exact Hi. rewrite nth_tab by exact A. unfold kmod_half. rewrite B, D. reflexivity.
  - eapply rlin_ext; [| |apply rlin_0]; [symmetry; apply (shaped_over _ _ _ _ _ Sz); right; exact Hp | intros k Hk; symmetry; apply (shaped_over _ _ _ _ _ (Sm k Hk)); right; exact Hp].
  - eapply rlin_ext; [| |apply rlin_0]; [symmetry; apply (shaped_over _ _ _ _ _ Sz); left; exact Hc | intros k Hk; symmetry; apply (shaped_over _ _ _ _ _ (Sm k Hk)); left; exact Hc].
Qed.
Lemma family (a : flat_args) N (m : nat -> mat) (f u : nat -> flat_field) n j : (j < N)%nat -> g_masked a = false -> g_lite a = false -> (forall k, (k < N)%nat -> length (m k) = n) ->
  (forall k, (k < N)%nat -> flat_new (set_maps a (m k)) = Ok (f k) /\ flat_new (no_templates (set_maps a (m k))) = Ok (u k)) ->
  exists sp ts, let s := geometry a in let wp := map (product s (g_mask a)) in n = nmap_of sp /\ ((g_pe a || g_pb a)%bool = true -> sp = 2%Z) /\ (forall x, In x ts -> shaped n (npix_fs s) x) /\ (forall k, (k < N)%nat -> shaped n (npix_fs s) (m k)) /\
    f_lite (f j) = false /\ temps_of (f j) = map wp ts /\ atemps_of (f j) = map (harm (core a sp)) ts /\
    forall k, (k < N)%nat -> f_base (f k) = FF s sp (g_pe a) (g_pb a) (g_mask a) (g_beam a) (harm (core a sp) (subtract s n (amplitudes s n (iM_of (f j)) (map wp ts) (wp (m k))) ts (m k))) false /\
      f_base (u k) = FF s sp (g_pe a) (g_pb a) (g_mask a) (g_beam a) (harm (core a sp) (m k)) false.
Proof.
  intros Hj Ek El Ln H. destruct (flat_facts pi fsqrt ph eigh (set_maps a (m j)) (f j) (m j) (proj1 (H j Hj)) eq_refl Ek El) as (sp & ts & X & A1 & A2 & A3 & A4 & A5 & A6 & A7 & A8 & A9 & A10 & A11 & A12 & A13 & A14). cbv zeta in *.
  change (geometry (set_maps a (m j))) with (geometry a) in *. cbn [set_maps g_spin g_temp g_mask g_pe g_pb g_beam g_tol] in *. change (core (set_maps a (m j)) sp) with (core a sp) in *. set (s := geometry a) in *. set (wp := map (product s (g_mask a))) in *.
  assert (En : n = nmap_of sp) by (rewrite <- (Ln j Hj); apply (proj1 A3)). rewrite (Ln j Hj) in *. exists sp, ts.
  assert (G : forall k, (k < N)%nat -> shaped n (npix_fs s) (m k) /\ f_base (f k) = FF s sp (g_pe a) (g_pb a) (g_mask a) (g_beam a) (harm (core a sp) (subtract s n (amplitudes s n (iM_of (f j)) (map wp ts) (wp (m k))) ts (m k))) false /\ f_base (u k) = FF s sp (g_pe a) (g_pb a) (g_mask a) (g_beam a) (harm (core a sp) (m k)) false).
  { intros k Hk. destruct (flat_facts pi fsqrt ph eigh (set_maps a (m k)) (f k) (m k) (proj1 (H k Hk)) eq_refl Ek El) as (sp' & ts' & X' & B1 & B2 & B3 & B4 & B5 & B6 & B7 & B8 & B9 & B10 & B11 & B12 & B13 & B14).
    destruct (flat_facts pi fsqrt ph eigh (no_templates (set_maps a (m k))) (u k) (m k) (proj2 (H k Hk)) eq_refl Ek El) as (sp'' & ts'' & X'' & C1 & C2 & C3 & C4 & C5 & C6 & C7 & C8 & C9 & C10 & C11 & C12 & C13 & C14). cbv zeta in *.
    cbn [no_templates set_maps g_spin g_temp g_mask g_pe g_pb g_beam g_tol] in *. rewrite (Ln k Hk) in *. assert (sp' = sp) by congruence. assert (sp'' = sp) by congruence. subst sp' sp''. change (geometry (set_maps a (m k))) with s in *. change (geometry (no_templates (set_maps a (m k)))) with s in *. assert (ts' = ts) by congruence. subst ts'.
    cbn [temps_from] in C4. injection C4 as <-. cbn [subtract fold_left seq length] in C12. subst X''. change (core (set_maps a (m k)) sp) with (core a sp) in *. change (core (no_templates (set_maps a (m k))) sp) with (core a sp) in *. fold wp in B12, B13.
    assert (EI : iM_of (f k) = iM_of (f j)). { destruct ts as [|t0 tr]; [rewrite B14, A14 by reflexivity; reflexivity|]. specialize (A13 ltac:(discriminate)). specialize (B13 ltac:(discriminate)). congruence. }
    rewrite EI in B12. subst X'. rewrite <- En in *. split; [exact B3|]. split; [exact B8 | exact C8]. }
  rewrite <- En in *. split; [reflexivity|]. split; [exact A2|]. split; [exact A5|]. split; [intros k Hk; apply (G k Hk)|]. split; [exact A9|]. split; [exact A10|]. split; [exact A11|]. intros k Hk. apply (G k Hk).
Qed.
Lemma harm_base s sp pe pb mask (beam beam' : F -> F) X X' mo mo' m : harm (FF s sp pe pb mask beam X mo) m = harm (FF s sp pe pb mask beam' X' mo') m.
Proof. reflexivity. Qed.
Lemma nth_amplitudes (s : fsinfo) n iM t m a : (a < length t)%nat -> nth a (amplitudes s n iM t m) 0 = sum (length t) (fun b => entry2 iM a b * maps_dot s n (nth b t []) m).
Proof. intro H. unfold amplitudes. rewrite nth_tab by exact H. reflexivity. Qed.
Lemma nth_map_temps {A} (h : mat -> A) (ts : list mat) i d : (i < length ts)%nat -> nth i (map h ts) d = h (nth i ts []).
Proof. intro H. rewrite (nth_indep _ d (h [])) by (rewrite map_length; exact H). apply map_nth. Qed.
Lemma wlin_change N (co co' : nat -> F) (a : list cplx) xs ys : (forall k, (k < N)%nat -> co k = co' k) -> (forall k, (k < N)%nat -> xs k = ys k) -> wlin N co a xs -> wlin N co' a ys.
Proof.
  intros Hc Hx W i. destruct (W i) as [A B]. split; unfold rlin in *; [rewrite A | rewrite B]; apply sum_ext; intros k Hk; rewrite (Hc k Hk), (Hx k Hk); reflexivity.
Qed.
(** ** C82: the deprojection bias.
    Two flat-sky fields, with any masks, spins, purification and templates, made from realisations of correlated maps: [f1 k], [f2 k] are cleaned of their
    templates, [u1 k], [u2 k] are not.  The mean of the pseudo-spectra of the cleaned fields differs from that of the others by the deprojection bias. *)
Theorem C82_bias (a1 a2 : flat_args) (N j : nat) (pr : nat -> F) (m1 m2 : nat -> mat) (f1 f2 u1 u2 : nat -> flat_field) (n1 n2 : nat) (b : fbins) (c : cuts) (ells : list F) (guess B : mat) (C D : nat -> mat) :
  (j < N)%nat -> g_masked a1 = false -> g_masked a2 = false -> g_lite a1 = false -> g_lite a2 = false ->
  (forall k, (k < N)%nat -> length (m1 k) = n1 /\ length (m2 k) = n2) ->
  (forall k, (k < N)%nat -> flat_new (set_maps a1 (m1 k)) = Ok (f1 k) /\ flat_new (no_templates (set_maps a1 (m1 k))) = Ok (u1 k)) ->
  (forall k, (k < N)%nat -> flat_new (set_maps a2 (m2 k)) = Ok (f2 k) /\ flat_new (no_templates (set_maps a2 (m2 k))) = Ok (u2 k)) ->
  let sp1 := ff_spin (f_base (f1 j)) in let sp2 := ff_spin (f_base (f2 j)) in let cl i i' := table ells (nth (i * n2 + i') guess []) in
  correlated (geometry a1) sp1 sp2 cl N pr m1 m2 -> correlated (geometry a1) sp2 sp1 (fun i' i => cl i i') N pr m2 m1 ->
  contiguous b ->
  (forall k, (k < N)%nat -> py_coupled_cell pi fsqrt (f_base (f1 k)) (f_base (f2 k)) b c = Ok (C k) /\ py_coupled_cell pi fsqrt (f_base (u1 k)) (f_base (u2 k)) b c = Ok (D k)) ->
  py_bias_flat pi fsqrt ph (f1 j) (f2 j) b ells guess c = Ok B ->
  forall i1 i2 ib, (i1 < n1)%nat -> (i2 < n2)%nat -> (ib < n_bands b)%nat ->
    sum N (fun k => pr k * nth ib (nth (i1 * n2 + i2) (C k) []) 0) = sum N (fun k => pr k * nth ib (nth (i1 * n2 + i2) (D k) []) 0) + nth ib (nth (i1 * n2 + i2) B []) 0.
Proof.
  intros Hj Ek1 Ek2 El1 El2 Ln H1 H2 sp1' sp2' cl Cor1 Cor2 Hc HCD HB i1 i2 ib Hi1 Hi2 Hib.
  destruct (family a1 N m1 f1 u1 n1 j Hj Ek1 El1 (fun k Hk => proj1 (Ln k Hk)) H1) as (sp1 & ts1 & A1 & A2 & A3 & A4 & A5 & A6 & A7 & A8).
  destruct (family a2 N m2 f2 u2 n2 j Hj Ek2 El2 (fun k Hk => proj2 (Ln k Hk)) H2) as (sp2 & ts2 & B1 & B2 & B3 & B4 & B5 & B6 & B7 & B8). cbv zeta in *.
  assert (Es1 : sp1' = sp1) by (unfold sp1'; rewrite (proj1 (A8 j Hj)); reflexivity). assert (Es2 : sp2' = sp2) by (unfold sp2'; rewrite (proj1 (B8 j Hj)); reflexivity). clearbody sp1' sp2'. subst sp1' sp2'.
  unfold py_bias_flat in HB. destruct (negb _) in HB; [discriminate HB|]. destruct (negb _) in HB; [discriminate HB|]. unfold bias_flat in HB. cbv zeta in HB. rewrite A5, B5, A6, A7, B6, B7 in HB. cbn [orb] in HB. destruct (negb (k_alloc_ok ells)); [discriminate HB|].
  set (g1 := f_base (f1 j)) in *. set (g2 := f_base (f2 j)) in *. destruct (negb (same_fs (ff_fs g1) (ff_fs g2))) eqn:ES; [discriminate HB|]. apply Bool.negb_false_iff in ES. apply same_fs_eq in ES.
  pose proof (proj1 (A8 j Hj)) as G1. pose proof (proj1 (B8 j Hj)) as G2. fold g1 in G1. fold g2 in G2. assert (Fs1 : ff_fs g1 = geometry a1) by (rewrite G1; reflexivity). assert (Fs2 : ff_fs g2 = geometry a2) by (rewrite G2; reflexivity). rewrite Fs1, Fs2 in ES. rewrite <- ES in *.
  assert (N1 : ff_nmaps g1 = n1) by (rewrite G1, A1; reflexivity). assert (N2 : ff_nmaps g2 = n2) by (rewrite G2, B1; reflexivity). rewrite N1, N2, Fs1 in HB.
  assert (Mk1 : ff_mask g1 = g_mask a1) by (rewrite G1; reflexivity). assert (Mk2 : ff_mask g2 = g_mask a2) by (rewrite G2; reflexivity). rewrite Mk1 in HB.
  assert (Sp1 : ff_spin g1 = sp1) by (rewrite G1; reflexivity). assert (Sp2 : ff_spin g2 = sp2) by (rewrite G2; reflexivity).
  set (s := geometry a1) in *. set (wp1 := map (product s (g_mask a1))) in *. set (wp2 := map (product s (g_mask a2))) in *.
  change (fun i j0 : nat => table ells (nth (i * n2 + j0) guess [])) with cl in HB. change (fun j0 i : nat => table ells (nth (i * n2 + j0) guess [])) with (fun i' i => cl i i') in HB.
  assert (Hm1 : forall m, harm g1 m = harm (core a1 sp1) m) by (intro m; rewrite G1; reflexivity). assert (Hm2 : forall m, harm g2 m = harm (core a2 sp2) m) by (intro m; rewrite G2; unfold core; rewrite <- ES; reflexivity).
  assert (PS1 : pure_spin g1) by (rewrite G1; exact A2). assert (PS2 : pure_spin g2) by (rewrite G2; exact B2).
  (* filtered templates *)
  assert (Z2 : forall t, In t (map wp2 ts2) -> exists z, spread pi fsqrt ph g2 g1 cl t = Ok z /\ shaped n1 (npix_fs s) z /\ mlin N (fun k => pr k * maps_dot s n2 t (wp2 (m2 k))) z m1).
  { intros t It. destruct (correlated_spread g1 g2 cl N pr m1 m2 t) as [z [Ez [Sz Mz]]]; rewrite ?Fs1, ?Fs2, ?Sp1, ?Sp2, ?N1, ?N2, ?Mk2 in *; try assumption; [reflexivity || exact (eq_sym ES) | apply in_map_iff in It as [t' [<- It]]; unfold wp2; rewrite map_length; apply (B3 t' It) | intros k Hk; apply (Ln k Hk)|]. exists z. split; [exact Ez|]. split; [exact Sz | exact Mz]. }
  assert (Z1 : forall t, In t (map wp1 ts1) -> exists z, spread pi fsqrt ph g1 g2 (fun i' i => cl i i') t = Ok z /\ shaped n2 (npix_fs s) z /\ mlin N (fun k => pr k * maps_dot s n1 t (wp1 (m1 k))) z m2).
  { intros t It. destruct (correlated_spread g2 g1 (fun i' i => cl i i') N pr m2 m1 t) as [z [Ez [Sz Mz]]]; rewrite ?Fs1, ?Fs2, ?Sp1, ?Sp2, ?N1, ?N2, ?Mk1 in *; rewrite <- ?ES in *; try assumption; try reflexivity; [apply in_map_iff in It as [t' [<- It]]; unfold wp1; rewrite map_length; apply (A3 t' It) | intros k Hk; apply (Ln k Hk)|]. exists z. split; [exact Ez|]. split; [exact Sz | exact Mz]. }
  set (z2 := fun t => from_ok [] (spread pi fsqrt ph g2 g1 cl t)). set (z1 := fun t => from_ok [] (spread pi fsqrt ph g1 g2 (fun i' i => cl i i') t)).
  assert (Z2' : forall t, In t (map wp2 ts2) -> spread pi fsqrt ph g2 g1 cl t = Ok (z2 t) /\ shaped n1 (npix_fs s) (z2 t) /\ mlin N (fun k => pr k * maps_dot s n2 t (wp2 (m2 k))) (z2 t) m1) by (intros t It; destruct (Z2 t It) as [z [Ez R]]; unfold z2; rewrite Ez; split; [reflexivity | exact R]).
  assert (Z1' : forall t, In t (map wp1 ts1) -> spread pi fsqrt ph g1 g2 (fun i' i => cl i i') t = Ok (z1 t) /\ shaped n2 (npix_fs s) (z1 t) /\ mlin N (fun k => pr k * maps_dot s n1 t (wp1 (m1 k))) (z1 t) m2) by (intros t It; destruct (Z1 t It) as [z [Ez R]]; unfold z1; rewrite Ez; split; [reflexivity | exact R]).
  clear Z1 Z2. clearbody z1 z2.
  rewrite (mapM_ok _ (fun t => harm g1 (z2 t))) in HB by (intros t It; destruct (Z2' t It) as [-> [S _]]; cbn [bind]; apply harm_ok; [exact PS1 | rewrite N1; apply S]). cbn [bind] in HB.
  assert (Fu1 : forall m, length m = n1 -> length (harm (core a1 sp1) m) = n1 /\ full s (harm (core a1 sp1) m)) by (intros m Lm; rewrite <- Hm1; destruct (harm_ok pi fsqrt ph g1 m PS1 ltac:(congruence)) as [_ [L Fu]]; rewrite Fs1 in Fu; rewrite L; split; [exact N1 | exact Fu]).
  assert (Fu2 : forall m, length m = n2 -> length (harm (core a2 sp2) m) = n2 /\ full s (harm (core a2 sp2) m)) by (intros m Lm; rewrite <- Hm2; destruct (harm_ok pi fsqrt ph g2 m PS2 ltac:(congruence)) as [_ [L Fu]]; rewrite Fs2 in Fu; rewrite L; split; [exact N2 | exact Fu]).
  set (k1 := length (map wp1 ts1)) in *. set (k2 := length (map wp2 ts2)) in *. assert (Ek1' : k1 = length ts1) by (unfold k1; apply map_length). assert (Ek2' : k2 = length ts2) by (unfold k2; apply map_length).
  set (Zv2 := fun q => harm (core a1 sp1) (z2 (nth q (map wp2 ts2) []))). set (Zv1 := fun q => harm (core a2 sp2) (z1 (nth q (map wp1 ts1) []))). set (T1 := fun q => harm (core a1 sp1) (nth q ts1 [])). set (T2 := fun q => harm (core a2 sp2) (nth q ts2 [])).
  assert (Q2 : forall q, (q < k2)%nat -> In (nth q (map wp2 ts2) []) (map wp2 ts2)) by (intros q Hq; apply nth_In; exact Hq). assert (Q1 : forall q, (q < k1)%nat -> In (nth q (map wp1 ts1) []) (map wp1 ts1)) by (intros q Hq; apply nth_In; exact Hq).
  assert (FZ2 : forall q, (q < k2)%nat -> length (Zv2 q) = n1 /\ full s (Zv2 q)) by (intros q Hq; apply Fu1; apply (Z2' _ (Q2 q Hq))). assert (FZ1 : forall q, (q < k1)%nat -> length (Zv1 q) = n2 /\ full s (Zv1 q)) by (intros q Hq; apply Fu2; apply (Z1' _ (Q1 q Hq))).
  assert (FT1 : forall q, (q < k1)%nat -> length (T1 q) = n1 /\ full s (T1 q)) by (intros q Hq; apply Fu1; apply (A3 (nth q ts1 [])); apply nth_In; lia). assert (FT2 : forall q, (q < k2)%nat -> length (T2 q) = n2 /\ full s (T2 q)) by (intros q Hq; apply Fu2; apply (B3 (nth q ts2 [])); apply nth_In; lia).
  rewrite (tabM_ok k2 _ (fun i => tab k2 (fun q => spectra pi fsqrt s b c (Zv2 q) (T2 i)))) in HB.
  2:{ intros i Hi. apply tabM_ok. intros q Hq. rewrite (nth_map_temps (fun t => harm g1 (z2 t)) (map wp2 ts2) q) by exact Hq. rewrite (nth_map_temps (harm (core a2 sp2)) ts2 i) by lia. rewrite Hm1. apply spectra_ok; [exact Hc | apply (FZ2 q Hq) | apply (FT2 i Hi)]. }
  cbn [bind] in HB.
  rewrite (mapM_ok _ (fun t => harm g2 (z1 t))) in HB by (intros t It; destruct (Z1' t It) as [-> [S _]]; cbn [bind]; apply harm_ok; [exact PS2 | rewrite N2; apply S]). cbn [bind] in HB.
  rewrite (tabM_ok k1 _ (fun i => tab k1 (fun q => spectra pi fsqrt s b c (T1 i) (Zv1 q)))) in HB.
  2:{ intros i Hi. apply tabM_ok. intros q Hq. rewrite (nth_map_temps (fun t => harm g2 (z1 t)) (map wp1 ts1) q) by exact Hq. rewrite (nth_map_temps (harm (core a1 sp1)) ts1 i) by lia. rewrite Hm2. apply spectra_ok; [exact Hc | apply (FT1 i Hi) | apply (FZ1 q Hq)]. }
  cbn [bind] in HB.
  set (P := fun x y => pband pi fsqrt s b c x y ib).
  set (M1 := fun i q => entry2 (iM_of (f1 j)) i q) in *. set (M2 := fun i q => entry2 (iM_of (f2 j)) i q) in *.
  set (pd := fun q r => maps_dot s n1 (map (product s (g_mask a1)) (z2 (nth r (map wp2 ts2) []))) (nth q (map wp1 ts1) [])).
  assert (EB : nth ib (nth (i1 * n2 + i2) B []) 0 = - sum k2 (fun i => sum k2 (fun q => P (nth i1 (Zv2 q) []) (nth i2 (T2 i) []) * M2 i q)) - sum k1 (fun i => sum k1 (fun q => P (nth i1 (T1 i) []) (nth i2 (Zv1 q) []) * M1 i q))
       + sum k1 (fun i => sum k2 (fun p => sum k1 (fun q => sum k2 (fun r => P (nth i1 (T1 i) []) (nth i2 (T2 p) []) * pd q r * M1 i q * M2 p r))))).
  { assert (I0 : (i1 * n2 + i2 < n1 * n2)%nat) by nia.
    assert (V2 : forall i q, (i < k2)%nat -> (q < k2)%nat -> nth ib (nth (i1 * n2 + i2) (nth q (nth i (tab k2 (fun i => tab k2 (fun q => spectra pi fsqrt s b c (Zv2 q) (T2 i)))) []) []) []) 0 = P (nth i1 (Zv2 q) []) (nth i2 (T2 i) [])).
    { intros i q Hi Hq. rewrite !nth_tab by assumption. rewrite <- (proj1 (FT2 i Hi)) at 1. apply nth_spectra; [rewrite (proj1 (FZ2 q Hq)); exact Hi1 | rewrite (proj1 (FT2 i Hi)); exact Hi2 | exact Hib]. }
    assert (V1 : forall i q, (i < k1)%nat -> (q < k1)%nat -> nth ib (nth (i1 * n2 + i2) (nth q (nth i (tab k1 (fun i => tab k1 (fun q => spectra pi fsqrt s b c (T1 i) (Zv1 q)))) []) []) []) 0 = P (nth i1 (T1 i) []) (nth i2 (Zv1 q) [])).
    { intros i q Hi Hq. rewrite !nth_tab by assumption. rewrite <- (proj1 (FZ1 q Hq)) at 1. apply nth_spectra; [rewrite (proj1 (FT1 i Hi)); exact Hi1 | rewrite (proj1 (FZ1 q Hq)); exact Hi2 | exact Hib]. }
    destruct ((0 <? k1) && (0 <? k2))%nat eqn:EK.
    - rewrite (mapM_ok _ (fun t => map (product s (g_mask a1)) (z2 t))) in HB by (intros t It; destruct (Z2' t It) as [-> _]; reflexivity). cbn [bind] in HB.
      rewrite (tabM_ok k1 _ (fun i => tab k2 (fun p => spectra pi fsqrt s b c (T1 i) (T2 p)))) in HB.
      2:{ intros i Hi. apply tabM_ok. intros q Hq. rewrite (nth_map_temps (harm (core a1 sp1)) ts1 i) by lia. rewrite (nth_map_temps (harm (core a2 sp2)) ts2 q) by lia. apply spectra_ok; [exact Hc | apply (FT1 i Hi) | apply (FT2 q Hq)]. }
      cbn [bind] in HB. injection HB as <-. rewrite nth_tab by exact I0. rewrite nth_tab by exact Hib. f_equal; [f_equal; [f_equal|]|].
      + apply sum_ext. intros i Hi. apply sum_ext. intros q Hq. rewrite V2 by assumption. reflexivity.
      + apply sum_ext. intros i Hi. apply sum_ext. intros q Hq. rewrite V1 by assumption. reflexivity.
      + apply sum_ext. intros i Hi. apply sum_ext. intros p Hp. apply sum_ext. intros q Hq. apply sum_ext. intros r Hr. rewrite (nth_map_temps (fun t => map (product s (g_mask a1)) (z2 t)) (map wp2 ts2) r) by exact Hr. rewrite !nth_tab by assumption.
        f_equal. f_equal. f_equal. rewrite <- (proj1 (FT2 p Hp)) at 1. apply nth_spectra; [rewrite (proj1 (FT1 i Hi)); exact Hi1 | rewrite (proj1 (FT2 p Hp)); exact Hi2 | exact Hib].
    - cbn [bind] in HB. injection HB as <-. rewrite nth_tab by exact I0. rewrite nth_tab by exact Hib. f_equal; [f_equal; [f_equal|]|].
      + apply sum_ext. intros i Hi. apply sum_ext. intros q Hq. rewrite V2 by assumption. reflexivity.
      + apply sum_ext. intros i Hi. apply sum_ext. intros q Hq. rewrite V1 by assumption. reflexivity.
      + symmetry. apply sum_zero. intros i Hi. apply sum_zero. intros p Hp. exfalso. apply Bool.andb_false_iff in EK. destruct EK as [E|E]; apply Nat.ltb_ge in E; lia. }
  rewrite EB. clear EB HB.
  (* spectra of the realisations *)
  set (x1 := fun k => nth i1 (ff_alms (f_base (f1 k))) []). set (x2 := fun k => nth i2 (ff_alms (f_base (f2 k))) []). set (y1 := fun k => nth i1 (harm (core a1 sp1) (m1 k)) []). set (y2 := fun k => nth i2 (harm (core a2 sp2) (m2 k)) []).
  assert (CV : forall k, (k < N)%nat -> nth ib (nth (i1 * n2 + i2) (C k) []) 0 = P (x1 k) (x2 k) /\ nth ib (nth (i1 * n2 + i2) (D k) []) 0 = P (y1 k) (y2 k)).
  { intros k Hk. destruct (HCD k Hk) as [HC HD]. unfold x1, x2. destruct (A8 k Hk) as [E1 E1']. destruct (B8 k Hk) as [E2 E2']. rewrite E1, E2 in HC |- *. rewrite E1', E2' in HD. unfold py_coupled_cell in HC, HD. cbn [ff_fs ff_mask_only ff_alms orb] in *.
    destruct (negb _) in HC; [discriminate HC|]. destruct (negb _) in HC; [discriminate HC|]. destruct (negb _) in HD; [discriminate HD|]. destruct (negb _) in HD; [discriminate HD|].
    assert (L1 := proj1 (A4 k Hk)). assert (L2 := proj1 (B4 k Hk)). assert (L1' := proj1 (subtract_shaped s n1 (amplitudes s n1 (iM_of (f1 j)) (map wp1 ts1) (wp1 (m1 k))) ts1 (m1 k) (A4 k Hk))). assert (L2' := proj1 (subtract_shaped s n2 (amplitudes s n2 (iM_of (f2 j)) (map wp2 ts2) (wp2 (m2 k))) ts2 (m2 k) (B4 k Hk))).
    rewrite spectra_ok in HC by (first [exact Hc | apply (Fu1 _ L1') | apply (Fu2 _ L2')]). rewrite spectra_ok in HD by (first [exact Hc | apply (Fu1 _ L1) | apply (Fu2 _ L2)]). injection HC as <-. injection HD as <-. split.
    - rewrite <- (proj1 (Fu2 _ L2')) at 1. apply nth_spectra; [rewrite (proj1 (Fu1 _ L1')); exact Hi1 | rewrite (proj1 (Fu2 _ L2')); exact Hi2 | exact Hib].
    - rewrite <- (proj1 (Fu2 _ L2)) at 1. apply nth_spectra; [rewrite (proj1 (Fu1 _ L1)); exact Hi1 | rewrite (proj1 (Fu2 _ L2)); exact Hi2 | exact Hib]. }
  rewrite (sum_ext N (fun k => pr k * nth ib (nth (i1 * n2 + i2) (C k) []) 0) (fun k => pr k * P (x1 k) (x2 k))) by (intros k Hk; rewrite (proj1 (CV k Hk)); reflexivity). rewrite (sum_ext N (fun k => pr k * nth ib (nth (i1 * n2 + i2) (D k) []) 0) (fun k => pr k * P (y1 k) (y2 k))) by (intros k Hk; rewrite (proj2 (CV k Hk)); reflexivity).
  apply (bias_algebra P (fun n co x xs y => pband_l pi fsqrt n co s b c x xs y ib) (fun n co x y ys => pband_r pi fsqrt n co s b c x y ys ib) N k1 k2 pr x1 y1 x2 y2 (fun q => nth i1 (T1 q) []) (fun q => nth i2 (T2 q) []) (fun q => nth i2 (Zv1 q) []) (fun q => nth i1 (Zv2 q) []) M1 M2
    (fun k q => maps_dot s n1 (nth q (map wp1 ts1) []) (wp1 (m1 k))) (fun k q => maps_dot s n2 (nth q (map wp2 ts2) []) (wp2 (m2 k))) pd).
  - intros k Hk. unfold x1. rewrite (proj1 (A8 k Hk)). cbn [ff_alms]. pose proof (lin_harm pi fsqrt ph _ _ (core a1 sp1) _ _ (subtract_mlin s n1 (amplitudes s n1 (iM_of (f1 j)) (map wp1 ts1) (wp1 (m1 k))) ts1 (m1 k) (A4 k Hk) A3) i1) as W. rewrite <- Ek1' in W. revert W. apply wlin_change; [|intros [|q] _; reflexivity].
    intros [|q] Hq; [reflexivity|]. cbn [co_minus]. rewrite nth_amplitudes by (fold k1; lia). reflexivity.
  - intros k Hk. unfold x2. rewrite (proj1 (B8 k Hk)). cbn [ff_alms]. pose proof (lin_harm pi fsqrt ph _ _ (core a2 sp2) _ _ (subtract_mlin s n2 (amplitudes s n2 (iM_of (f2 j)) (map wp2 ts2) (wp2 (m2 k))) ts2 (m2 k) (B4 k Hk) B3) i2) as W. rewrite <- Ek2' in W. revert W. apply wlin_change; [|intros [|q] _; reflexivity].
    intros [|q] Hq; [reflexivity|]. cbn [co_minus]. rewrite nth_amplitudes by (fold k2; lia). reflexivity.
  - intros q Hq. exact (lin_harm pi fsqrt ph _ _ (core a2 sp2) _ _ (proj2 (proj2 (Z1' _ (Q1 q Hq)))) i2).
  - intros q Hq. exact (lin_harm pi fsqrt ph _ _ (core a1 sp1) _ _ (proj2 (proj2 (Z2' _ (Q2 q Hq)))) i1).
  - intros q r Hq Hr. unfold pd. assert (Lq : length (nth q (map wp1 ts1) []) = n1) by (rewrite nth_map_temps by lia; unfold wp1; rewrite map_length; apply (A3 (nth q ts1 [])); apply nth_In; lia).
    rewrite maps_dot_masked by (try exact Lq; apply (Z2' _ (Q2 r Hr))). rewrite (maps_dot_lin _ _ s n1 _ _ _ (proj2 (proj2 (Z2' _ (Q2 r Hr))))). apply sum_ext. intros k Hk. rewrite <- maps_dot_masked by (try exact Lq; apply (Ln k Hk)). fold wp1. rewrite (maps_dot_sym s n1 (wp1 (m1 k))). ring.
Qed.
Lemma sum_pix (s : fsinfo) (h : list F) (g : nat -> F) : sum (npix_fs s) (fun q => nth q h 0 * g q) = lsum (map (fun p => pix s h p * g (fst p + fs_nx s * snd p)%nat) (grid s)).
Proof.
  unfold npix_fs. rewrite Nat.mul_comm, sum_flat. rewrite (sum_ext (fs_ny s) _ (fun y => sum (fs_nx s) (fun x => nth (x + fs_nx s * y) h 0 * g (x + fs_nx s * y)%nat))) by (intros y _; apply sum_ext; intros x _; rewrite (Nat.add_comm (fs_nx s * y)); reflexivity).
  exact (sum_grid s (fun x y => nth (x + fs_nx s * y) h 0 * g (x + fs_nx s * y)%nat)).
Qed.
Lemma cdot_clsum_l {A} (l : list A) (f : A -> cplx) (v : cplx) : cdot (clsum l f) v = lsum (map (fun a => cdot (f a) v) l).
Proof. unfold cdot at 1, clsum. cbn [fst snd]. rewrite <- !lsum_mul_r, <- lsum_add. apply lsum_ext. intros; reflexivity. Qed.
(** the hypothesis of the theorem holds for isotropic scalar maps: those with the covariance of a spectrum P(|k|) *)
Theorem C82_isotropic (s : fsinfo) (K : nat) (pr : nat -> F) (t1 t2 : nat -> list F) (P : F -> F) : conj_roots ph s -> 0 < fs_lx s -> 0 < fs_ly s -> pi <> 0 -> (0 < fs_nx s)%nat -> (0 < fs_ny s)%nat ->
  (forall p p', In p (grid s) -> In p' (grid s) -> sum K (fun k => pr k * (pix s (t1 k) p * pix s (t2 k) p')) = iso_cov pi fsqrt ph s P p p') ->
  correlated s 0 0 (fun _ _ => P) K pr (fun k => [t1 k]) (fun k => [t2 k]).
Proof.
  intros HR Hlx Hly Hpi Nx Ny HC h x y z Lh Sh Ex Ly Sy Hy Ez i p Hi Hp. change (nmap_of 0) with 1%nat in *.
  destruct h as [|h0 [|]]; try discriminate Lh. destruct y as [|y0 [|]]; try discriminate Ly. cbn in Ex. injection Ex as <-. cbn in Ez. injection Ez as <-. assert (i = 0)%nat by lia. subst i. cbn [nth] in *.
  set (q := (p mod fs_nx s, p / fs_nx s)%nat). assert (Iq : In q (grid s)) by (apply in_grid; cbn [q fst snd]; split; [apply Nat.mod_upper_bound; lia | apply Nat.div_lt_upper_bound; [lia | exact Hp]]).
  assert (Ep : p = (fst q + fs_nx s * snd q)%nat) by (cbn [q fst snd]; rewrite (Nat.div_mod p (fs_nx s)) at 1 by lia; lia). clearbody q. subst p.
  set (A := fs_lx s * fs_ly s). assert (HA : A <> 0) by (intro E; apply fmul_eq_0 in E as [E|E]; [rewrite E in Hlx; exact (flt_irrefl _ Hlx) | rewrite E in Hly; exact (flt_irrefl _ Hly)]).
  assert (Hn : (fofnat (fs_nx s) : F) <> 0) by (apply n_neq0; exact Nx). assert (Hn' : (fofnat (fs_ny s) : F) <> 0) by (apply n_neq0; exact Ny). assert (T : (fofZ 2 : F) <> 0) by (apply fofZ_neq0; lia).
  (* left: the covariance *)
  transitivity (lsum (map (fun p' => pix s h0 p' * (A / fofnat (npix_fs s) * iso_cov pi fsqrt ph s P q p')) (grid s))).
  - rewrite (sum_ext K _ (fun k => lsum (map (fun p' => pix s h0 p' * (A / fofnat (npix_fs s)) * (pr k * (pix s (t1 k) q * pix s (t2 k) p'))) (grid s)))).
    + rewrite <- lsum_swap. apply lsum_ext. intros p' Hp'. rewrite sum_mul_l, (HC q p' Iq Hp'). ring.
    + intros k _. cbn [sum nth]. rewrite (sum_pix s h0 (fun r => nth r (t2 k) 0)). fold (pix s (t1 k) q). fold A. transitivity (pr k * (A / fofnat (npix_fs s)) * pix s (t1 k) q * lsum (map (fun p0 => pix s h0 p0 * nth (fst p0 + fs_nx s * snd p0) (t2 k) 0) (grid s))); [ring|]. rewrite <- lsum_mul_l. apply lsum_ext. intros p' _. fold (pix s (t2 k) p'). ring.
  - fold (pix s (alm2map0 pi ph s y0) q). pose proof (proj1 (in_grid s q) Iq) as [P1 P2].
    assert (E : pix s (alm2map0 pi ph s y0) q = sum (fs_ny s) (fun iy => sum (nhalf s) (fun ix => col_weight s ix * (P (kmod_of pi fsqrt s (ix, iy)) * cdot (coeff pi ph s h0 (ix, iy)) (wave ph s (ix, iy) q)))) * (fofZ 2 * pi / A)).
    { unfold pix, alm2map0. rewrite nth_tab by nia. replace ((fst q + fs_nx s * snd q) mod fs_nx s)%nat with (fst q) by (rewrite Nat.mul_comm, Nat.mod_add, Nat.mod_small by lia; reflexivity).
      replace ((fst q + fs_nx s * snd q) / fs_nx s)%nat with (snd q) by (rewrite Nat.mul_comm, Nat.div_add, Nat.div_small by lia; reflexivity).
      f_equal. apply sum_ext. intros iy Iy. apply sum_ext. intros ix Ix. f_equal. pose proof (Hy 0%nat ix iy Nat.lt_0_1 Ix Iy) as Hv. cbn [nth] in Hv. rewrite Hv. unfold csum. cbn [sum nth]. rewrite nth_map2alm0 by assumption. unfold kmod_of, wave, cdot, cscal. cbn [fst snd]. ring. }
    rewrite E. rewrite (half_full s (fun ix iy => P (kmod_of pi fsqrt s (ix, iy)) * cdot (coeff pi ph s h0 (ix, iy)) (wave ph s (ix, iy) q))).
    2: exact Nx.
    2:{ intros ix iy Ix Iy. change (opp_row (fs_nx s) ix, opp_row (fs_ny s) iy) with (flip s (ix, iy)). rewrite (kmod_flip pi fsqrt), (wave_flip pi fsqrt ph) by (try assumption; apply in_grid; split; assumption). unfold flip. cbn [fst snd]. rewrite coeff_conj by assumption. rewrite cdot_conj. reflexivity. }
    rewrite (lsum_ext (fun m => P (kmod_of pi fsqrt s (fst m, snd m)) * _) (fun m => lsum (map (fun p' => norm_m2a pi s * pix s h0 p' * (P (kmod_of pi fsqrt s m) * cdot (wave ph s m q) (wave ph s m p'))) (grid s)))).
    2:{ intros [ix iy] _. cbn [fst snd]. rewrite coeff_sum, cdot_clsum_l, <- lsum_mul_l. apply lsum_ext. intros p' _. unfold cdot, cscal. cbn [fst snd]. ring. }
    rewrite lsum_swap2, <- lsum_mul_r. apply lsum_ext. intros p' _. rewrite lsum_mul_l. unfold iso_cov. fold A. set (S := lsum _). unfold norm_m2a. fold A. unfold npix_fs. rewrite fofnat_mul. field. repeat split; assumption.
Qed.
End PBiasFlat.
(** The example [ex_templates_unbiased] of P_FullFlat.v meets the hypotheses of both theorems. *)
Print Assumptions C82_bias.
Print Assumptions C82_isotropic.
