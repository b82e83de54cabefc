(** Properties C61-C62: rotation of flat-sky Fourier coefficients into E and B, and the flat-sky power spectrum estimator. *)
From Verif Require Import Base FieldR M_Utils M_Bins M_FlatBins M_Flat P_FlatBins L_Flat L_Flat2 L_Flat3.
From Coq Require Import Permutation Reals.
Open Scope nat_scope.

Section Statements.
Context {F : ofield}.
Local Open Scope F_scope.
Add Field FfPFl : (fth F).
Notation cplx := (cplx F).
Notation fsinfo := (fsinfo F).
Notation fbins := (fbins F).
Variables (pi : F) (fsqrt : F -> F).

Lemma ok_pair {A B} (a a' : A) (b b' : B) : Ok (a, b) = Ok (a', b') -> a = a' /\ b = b'.
Proof. intro H. injection H as -> ->. auto. Qed.
(** ** C61 *)
Definition n_modes (s : fsinfo) : nat := (fs_ny s * nhalf s)%nat.
Definition all_rows (s : fsinfo) (order : list nat) : Prop := Permutation order (seq 0 (fs_ny s)).
(** Whatever the distribution of the rows over the threads, rotating and rotating back is the identity. *)
Theorem C61_round_trip (s : fsinfo) (spin : Z) (q u : list cplx) (o1 o2 : list nat) :
  sqrt_on pi fsqrt s -> length q = n_modes s -> length u = n_modes s -> all_rows s o1 -> all_rows s o2 ->
  exists e b, qu2eb pi fsqrt s spin o1 (q, u) = Ok (e, b) /\ length e = n_modes s /\ length b = n_modes s /\ eb2qu pi fsqrt s spin o2 (e, b) = Ok (q, u).
Proof.
  intros HS Hq Hu P1 P2. unfold qu2eb, eb2qu. rewrite (rot_rows_all pi fsqrt eb_of s spin o1 (q, u) (n_modes s)) by auto. eexists _, _. split; [reflexivity|]. rewrite !length_tab. split; [reflexivity|]. split; [reflexivity|].
  rewrite (rot_rows_all pi fsqrt qu_of s spin o2 _ (n_modes s)) by (cbn [fst snd]; rewrite ?length_tab; auto). cbn [fst snd].
  assert (E : forall i, (i < n_modes s)%nat -> let p := at_index pi fsqrt eb_of s spin i (nth i q c0) (nth i u c0) in at_index pi fsqrt qu_of s spin i (fst p) (snd p) = (nth i q c0, nth i u c0)).
  { intros i Hi. unfold at_index. pose proof (nhalf_pos s).
    assert (U := rot_unit pi fsqrt s spin (i mod nhalf s) (i / nhalf s) HS ltac:(apply Nat.mod_upper_bound; lia) ltac:(apply Nat.div_lt_upper_bound; [lia | unfold n_modes in Hi; rewrite Nat.mul_comm; exact Hi])).
    pose proof (qu_eb spin (rot_at pi fsqrt s spin (i mod nhalf s) (i / nhalf s)) (nth i q c0) (nth i u c0) U) as E. cbv zeta. destruct (eb_of _ _ _ _). exact E. }
  f_equal. f_equal; apply (list_eq_nth _ _ c0); rewrite ?length_tab; auto; intros i Hi; rewrite !nth_tab by exact Hi; specialize (E i Hi); cbv zeta in E; rewrite E; reflexivity.
Qed.
Theorem C61_round_trip_back (s : fsinfo) (spin : Z) (e b : list cplx) (o1 o2 : list nat) :
  sqrt_on pi fsqrt s -> length e = n_modes s -> length b = n_modes s -> all_rows s o1 -> all_rows s o2 ->
  exists q u, eb2qu pi fsqrt s spin o1 (e, b) = Ok (q, u) /\ length q = n_modes s /\ length u = n_modes s /\ qu2eb pi fsqrt s spin o2 (q, u) = Ok (e, b).
Proof.
  intros HS Hq Hu P1 P2. unfold qu2eb, eb2qu. rewrite (rot_rows_all pi fsqrt qu_of s spin o1 (e, b) (n_modes s)) by auto. eexists _, _. split; [reflexivity|]. rewrite !length_tab. split; [reflexivity|]. split; [reflexivity|].
  rewrite (rot_rows_all pi fsqrt eb_of s spin o2 _ (n_modes s)) by (cbn [fst snd]; rewrite ?length_tab; auto). cbn [fst snd].
  assert (E : forall i, (i < n_modes s)%nat -> let p := at_index pi fsqrt qu_of s spin i (nth i e c0) (nth i b c0) in at_index pi fsqrt eb_of s spin i (fst p) (snd p) = (nth i e c0, nth i b c0)).
  { intros i Hi. unfold at_index. pose proof (nhalf_pos s).
    assert (U := rot_unit pi fsqrt s spin (i mod nhalf s) (i / nhalf s) HS ltac:(apply Nat.mod_upper_bound; lia) ltac:(apply Nat.div_lt_upper_bound; [lia | unfold n_modes in Hi; rewrite Nat.mul_comm; exact Hi])).
    pose proof (eb_qu spin (rot_at pi fsqrt s spin (i mod nhalf s) (i / nhalf s)) (nth i e c0) (nth i b c0) U) as E. cbv zeta. destruct (qu_of _ _ _ _). exact E. }
  f_equal. f_equal; apply (list_eq_nth _ _ c0); rewrite ?length_tab; auto; intros i Hi; rewrite !nth_tab by exact Hi; specialize (E i Hi); cbv zeta in E; rewrite E; reflexivity.
Qed.
(** Power is preserved mode by mode, for one field (q = q', u = u') and for two. *)
Theorem C61_power (s : fsinfo) (spin : Z) (q u q' u' e b e' b' : list cplx) (o1 o2 : list nat) (i : nat) :
  sqrt_on pi fsqrt s -> length q = n_modes s -> length u = n_modes s -> length q' = n_modes s -> length u' = n_modes s -> all_rows s o1 -> all_rows s o2 ->
  qu2eb pi fsqrt s spin o1 (q, u) = Ok (e, b) -> qu2eb pi fsqrt s spin o2 (q', u') = Ok (e', b') -> (i < n_modes s)%nat ->
  cdot (nth i e c0) (nth i e' c0) + cdot (nth i b c0) (nth i b' c0) = cdot (nth i q c0) (nth i q' c0) + cdot (nth i u c0) (nth i u' c0).
Proof.
  intros HS Hq Hu Hq' Hu' P1 P2 E1 E2 Hi. unfold qu2eb in *. rewrite (rot_rows_all pi fsqrt eb_of s spin o1 (q, u) (n_modes s)) in E1 by auto. rewrite (rot_rows_all pi fsqrt eb_of s spin o2 (q', u') (n_modes s)) in E2 by auto.
  injection E1 as <- <-. injection E2 as <- <-. rewrite !nth_tab by exact Hi. cbn [fst snd]. unfold at_index. pose proof (nhalf_pos s).
  assert (U := rot_unit pi fsqrt s spin (i mod nhalf s) (i / nhalf s) HS ltac:(apply Nat.mod_upper_bound; lia) ltac:(apply Nat.div_lt_upper_bound; [lia | unfold n_modes in Hi; rewrite Nat.mul_comm; exact Hi])).
  pose proof (eb_power spin (rot_at pi fsqrt s spin (i mod nhalf s) (i / nhalf s)) (nth i q c0) (nth i u c0) (nth i q' c0) (nth i u' c0) U) as E.
  exact E.
Qed.
Theorem C61_threads (s : fsinfo) (spin : Z) (q u : list cplx) (o1 o2 : list nat) :
  length q = n_modes s -> length u = n_modes s -> all_rows s o1 -> all_rows s o2 ->
  qu2eb pi fsqrt s spin o1 (q, u) = qu2eb pi fsqrt s spin o2 (q, u) /\ eb2qu pi fsqrt s spin o1 (q, u) = eb2qu pi fsqrt s spin o2 (q, u).
Proof. intros Hq Hu P1 P2. unfold qu2eb, eb2qu. split; rewrite !(rot_rows_all pi fsqrt _ s spin _ (q, u) (n_modes s)) by auto; reflexivity. Qed.
(** The power of the direction of the wavevector, (kx+i*ky)/|k| *)
Fixpoint cpown (z : cplx) (n : nat) : cplx := match n with O => (1, 0) | S m => cmul z (cpown z m) end.
Definition direction (s : fsinfo) (ix iy : nat) : cplx := (kxf pi s ix / kmodf pi fsqrt s ix iy, kyf pi s iy / kmodf pi fsqrt s ix iy).
Lemma rotn_cpown c sn n : rotn n c sn = cpown (c, sn) n.
Proof. induction n as [|n IH]; [reflexivity|]. cbn [rotn cpown]. rewrite IH. destruct (cpown (c, sn) n) as [x y]. apply cplx_eq; cbn; ring. Qed.
Lemma rot_direction (s : fsinfo) spin ix iy : 0 < ksq pi s ix iy -> rot_at pi fsqrt s spin ix iy = cpown (direction s ix iy) (Z.to_nat spin).
Proof.
  intro HK. unfold rot_at, cphi. fold (ksq pi s ix iy). cbv zeta. destruct (ksq pi s ix iy <=? 0) eqn:E; [exfalso; apply (proj1 (flt_not_le _ _) HK); exact E|]. rewrite rotn_cpown. f_equal. unfold direction, kmodf. fold (ksq pi s ix iy).
  apply cplx_eq; cbn [fst snd]; rewrite !(Fdiv_def (fth F)); ring.
Qed.
(** For spin 2: E = cos(2phi) Q - sin(2phi) U and B = sin(2phi) Q + cos(2phi) U. *)
Theorem C61_spin2 (s : fsinfo) (q u e b : list cplx) (o : list nat) (ix iy : nat) :
  sqrt_on pi fsqrt s -> length q = n_modes s -> length u = n_modes s -> all_rows s o -> qu2eb pi fsqrt s 2 o (q, u) = Ok (e, b) ->
  (ix < nhalf s)%nat -> (iy < fs_ny s)%nat -> 0 < ksq pi s ix iy ->
  let kx := kxf pi s ix in let ky := kyf pi s iy in let c2 := (kx * kx - ky * ky) / (kx * kx + ky * ky) in let s2 := (1 + 1) * kx * ky / (kx * kx + ky * ky) in
  let j := (ix + nhalf s * iy)%nat in
  nth j e c0 = csub (cscal c2 (nth j q c0)) (cscal s2 (nth j u c0)) /\ nth j b c0 = cadd (cscal s2 (nth j q c0)) (cscal c2 (nth j u c0)).
Proof.
  intros HS Hq Hu P E Hx Hy HK. cbv zeta. unfold qu2eb in E. rewrite (rot_rows_all pi fsqrt eb_of s 2 o (q, u) (n_modes s)) in E by auto. apply ok_pair in E. destruct E as [<- <-]. destruct (half_index s ix iy Hx Hy) as [A [B C]].
  rewrite !nth_tab by exact A. cbn [fst snd]. unfold at_index. rewrite B, C, rot_direction by exact HK. set (j := (ix + nhalf s * iy)%nat). change (Z.to_nat 2) with 2%nat. pose proof (HS ix iy Hx Hy) as Q.
  unfold direction, kmodf. fold (ksq pi s ix iy). fold (ksq pi s ix iy) in Q. set (r := fsqrt (ksq pi s ix iy)) in *. assert (NZ : r <> 0) by (intro W; rewrite W in Q; apply (fpos_neq _ HK); rewrite <- Q; ring).
  rewrite <- Q. clearbody r. clear Q HS. unfold eb_of. cbn [cpown]. unfold sig. cbn [Z.eqb]. change (ipow 2) with ((- (1), 0) : cplx).
  destruct (nth j q c0) as [q1 q2], (nth j u c0) as [u1 u2]. split; apply cplx_eq; unfold cmul, cscal, csub, cadd; cbn [fst snd]; field; exact NZ.
Qed.
(** A pure-E pattern has no B: every spin (non-negative), every wavevector. *)
Theorem C61_pure_e (s : fsinfo) (spin : Z) (q u e b : list cplx) (o : list nat) (ix iy : nat) (x : cplx) :
  sqrt_on pi fsqrt s -> (0 <= spin)%Z -> length q = n_modes s -> length u = n_modes s -> all_rows s o -> qu2eb pi fsqrt s spin o (q, u) = Ok (e, b) ->
  (ix < nhalf s)%nat -> (iy < fs_ny s)%nat -> 0 < ksq pi s ix iy ->
  let z := cpown (direction s ix iy) (Z.to_nat spin) in let j := (ix + nhalf s * iy)%nat in
  nth j q c0 = cscal (fst z) x -> nth j u c0 = cscal (- snd z) x -> nth j b c0 = c0 /\ cdot (nth j e c0) (nth j e c0) = cdot x x.
Proof.
  intros HS Hsp Hq Hu P E Hx Hy HK z j Eq Eu. unfold qu2eb in E. rewrite (rot_rows_all pi fsqrt eb_of s spin o (q, u) (n_modes s)) in E by auto. apply ok_pair in E. destruct E as [<- <-]. destruct (half_index s ix iy Hx Hy) as [A [B C]]. fold j in A, B, C.
  rewrite !nth_tab by exact A. cbn [fst snd]. unfold at_index. rewrite B, C. pose proof (rot_unit pi fsqrt s spin ix iy HS Hx Hy) as U. cbv zeta in U. rewrite rot_direction in * by exact HK. fold z in U |- *. rewrite Eq, Eu. clear Eq Eu.
  pose proof (sig_norm (F:=F) spin spin) as G. cbv zeta in G. unfold eb_of. destruct (sig (F:=F) spin spin) as [g1 g2]. destruct z as [c sn]. destruct x as [x1 x2]. unfold cmul, cscal, csub, cadd, cdot in *. cbn [fst snd] in *. split.
  - apply cplx_eq; cbn; ring.
  - transitivity ((g1 * g1 + g2 * g2) * ((c * c + sn * sn) * (c * c + sn * sn) * (x1 * x1 + x2 * x2))); [ring|]. rewrite G, U. ring.
Qed.
(** Negative spins are not rotated at all. *)
Theorem C61_negative_spin (s : fsinfo) (spin : Z) (q u : list cplx) (o : list nat) :
  (spin < 0)%Z -> length q = n_modes s -> length u = n_modes s -> all_rows s o ->
  qu2eb pi fsqrt s spin o (q, u) = Ok (map (cmul (sig spin spin)) q, map (cmul (sig spin spin)) u).
Proof.
  intros Hsp Hq Hu P. unfold qu2eb. rewrite (rot_rows_all pi fsqrt eb_of s spin o (q, u) (n_modes s)) by auto. cbn [fst snd].
  assert (R : forall i, rot_at pi fsqrt s spin (i mod nhalf s) (i / nhalf s) = (1, 0)). { intro i. unfold rot_at. destruct (cphi _ _ _). replace (Z.to_nat spin) with O by lia. reflexivity. }
  f_equal. f_equal; apply (list_eq_nth _ _ c0); rewrite ?length_tab, ?map_length; auto; intros i Hi; rewrite !nth_tab by exact Hi; unfold at_index; rewrite R; unfold eb_of; cbn [fst snd].
  - rewrite (nth_indep (map (cmul (sig spin spin)) q) c0 (cmul (sig spin spin) c0)) by (rewrite map_length, ?Hq, ?Hu; exact Hi). rewrite map_nth. f_equal. apply cplx_eq; cbn; ring.
  - rewrite (nth_indep (map (cmul (sig spin spin)) u) c0 (cmul (sig spin spin) c0)) by (rewrite map_length, ?Hq, ?Hu; exact Hi). rewrite map_nth. f_equal. apply cplx_eq; cbn; ring.
Qed.

(** ** C62 *)
Variable ph : nat -> nat -> cplx.
(** Every bandpower is the average, over the modes of the whole plane that lie in the band and are not excluded, of the product of the
    two sets of coefficients - whatever the order in which the threads add their contributions.  The plane is reconstructed from the stored
    half by Hermitian symmetry.  The excluded range of ky must not distinguish ky and -ky. *)
Theorem C62_bandpowers (s : fsinfo) (b : fbins) (c : cuts F) (a1 a2 : list cplx) :
  contiguous b -> length a1 = n_modes s -> length a2 = n_modes s -> y_symmetric pi s c ->
  alm2cl1 pi fsqrt s b c a1 a2 = Ok (tab (n_bands b) (fun i => average pi s (modes pi fsqrt s b c i) (fun m => cdot (plane s a1 m) (plane s a2 m)))) /\
  (forall us us', all_updates pi fsqrt s b c a1 a2 = Ok us -> Permutation us us' -> alm2cl_updates pi s b us' = alm2cl1 pi fsqrt s b c a1 a2).
Proof.
  intros Hc H1 H2 HY. pose proof (all_updates_eq pi fsqrt s b c a1 a2 Hc H1 H2) as EU.
  assert (E : forall us', Permutation (flat_map (mode_updates pi fsqrt s b c a1 a2) (grid s)) us' -> alm2cl_updates pi s b us' = Ok (tab (n_bands b) (fun i => average pi s (modes pi fsqrt s b c i) (fun m => cdot (plane s a1 m) (plane s a2 m))))).
  { intros us' P. rewrite (alm2cl_order pi fsqrt s b c a1 a2 _ us' Hc H1 H2 EU P). f_equal. apply tab_ext. intros i Hi. unfold average. rewrite (read_plane pi fsqrt s b c a1 a2 i HY). reflexivity. }
  assert (E1 : alm2cl1 pi fsqrt s b c a1 a2 = Ok (tab (n_bands b) (fun i => average pi s (modes pi fsqrt s b c i) (fun m => cdot (plane s a1 m) (plane s a2 m))))).
  { unfold alm2cl1. rewrite EU. cbn [bind]. apply E. reflexivity. }
  split; [exact E1|]. intros us us' Q P. rewrite E1. apply E. rewrite EU in Q. assert (us = flat_map (mode_updates pi fsqrt s b c a1 a2) (grid s)) as <- by congruence. exact P.
Qed.
(** For scalar maps the plane holds the Fourier coefficients of the maps at every wavevector. *)
Theorem C62_scalar (s : fsinfo) (b : fbins) (c : cuts F) (m1 m2 : list F) :
  contiguous b -> y_symmetric pi s c -> conj_roots ph s ->
  exists a1 a2, fs_map2alm pi fsqrt ph s 0 [m1] = Ok [a1] /\ fs_map2alm pi fsqrt ph s 0 [m2] = Ok [a2] /\
  fs_alm2cl pi fsqrt s b c [a1] [a2] = Ok [tab (n_bands b) (fun i => average pi s (modes pi fsqrt s b c i) (fun m => cdot (coeff pi ph s m1 m) (coeff pi ph s m2 m)))].
Proof.
  intros Hc HY HR. exists (map2alm0 pi ph s m1), (map2alm0 pi ph s m2). split; [reflexivity|]. split; [reflexivity|]. unfold fs_alm2cl. cbn [mapM].
  destruct (C62_bandpowers s b c (map2alm0 pi ph s m1) (map2alm0 pi ph s m2) Hc (length_map2alm0 pi ph s m1) (length_map2alm0 pi ph s m2) HY) as [E _]. rewrite E. cbn [bind concat app]. f_equal. f_equal. apply tab_ext. intros i Hi.
  unfold average. f_equal. destruct (Nat.eqb _ 0); [reflexivity|]. f_equal. f_equal. apply lsum_ext. intros m Hm. apply filter_In in Hm. destruct Hm as [Hm _]. rewrite !plane_map by assumption. reflexivity.
Qed.
(** For fields of positive spin the same holds for E and B obtained by rotating Q and U at every wavevector, if no selected mode is in the
    right half of the row ky = ny/2, where the direction of the wavevector is ambiguous (there is no such row for odd ny). *)
Theorem C62_spin (s : fsinfo) (b : fbins) (c : cuts F) (spin1 spin2 : Z) (q1 u1 q2 u2 : list F) :
  contiguous b -> y_symmetric pi s c -> conj_roots ph s -> (0 < spin1)%Z -> (0 < spin2)%Z -> kxf pi s 1 <> 0 ->
  (forall i m, In m (modes pi fsqrt s b c i) -> ~ nyquist s m) ->
  let X1 := full_eb pi fsqrt ph s spin1 q1 u1 in let X2 := full_eb pi fsqrt ph s spin2 q2 u2 in
  let cl g1 g2 := tab (n_bands b) (fun i => average pi s (modes pi fsqrt s b c i) (fun m => cdot (g1 (X1 m)) (g2 (X2 m)))) in
  exists a1 a2, fs_map2alm pi fsqrt ph s spin1 [q1; u1] = Ok a1 /\ fs_map2alm pi fsqrt ph s spin2 [q2; u2] = Ok a2 /\
  fs_alm2cl pi fsqrt s b c a1 a2 = Ok [cl fst fst; cl fst snd; cl snd fst; cl snd snd].
Proof.
  intros Hc HY HR Hs1 Hs2 Hk HN. cbv zeta. destruct (map2alm_spin pi fsqrt ph s spin1 q1 u1 ltac:(lia)) as [e1 [b1 [E1 [L1 [L1' R1]]]]]. destruct (map2alm_spin pi fsqrt ph s spin2 q2 u2 ltac:(lia)) as [e2 [b2 [E2 [L2 [L2' R2]]]]].
  exists [e1; b1], [e2; b2]. split; [exact E1|]. split; [exact E2|]. unfold fs_alm2cl. cbn [mapM].
  rewrite (proj1 (C62_bandpowers s b c e1 e2 Hc L1 L2 HY)), (proj1 (C62_bandpowers s b c e1 b2 Hc L1 L2' HY)), (proj1 (C62_bandpowers s b c b1 e2 Hc L1' L2 HY)), (proj1 (C62_bandpowers s b c b1 b2 Hc L1' L2' HY)). cbn [bind concat app].
  assert (G : forall (x1 x2 : list cplx) (g1 g2 : cplx * cplx -> cplx), (forall m, In m (grid s) -> ~ nyquist s m -> plane s x1 m = g1 (full_eb pi fsqrt ph s spin1 q1 u1 m)) -> (forall m, In m (grid s) -> ~ nyquist s m -> plane s x2 m = g2 (full_eb pi fsqrt ph s spin2 q2 u2 m)) ->
    tab (n_bands b) (fun i => average pi s (modes pi fsqrt s b c i) (fun m => cdot (plane s x1 m) (plane s x2 m))) = tab (n_bands b) (fun i => average pi s (modes pi fsqrt s b c i) (fun m => cdot (g1 (full_eb pi fsqrt ph s spin1 q1 u1 m)) (g2 (full_eb pi fsqrt ph s spin2 q2 u2 m))))).
  { intros x1 x2 g1 g2 H1 H2. apply tab_ext. intros i Hi. unfold average. destruct (Nat.eqb _ 0); [reflexivity|]. f_equal. f_equal. apply lsum_ext. intros m Hm. pose proof (HN i m Hm). apply filter_In in Hm. destruct Hm as [Hm _]. rewrite H1, H2 by assumption. reflexivity. }
  assert (P1 : forall m, In m (grid s) -> ~ nyquist s m -> (plane s e1 m, plane s b1 m) = full_eb pi fsqrt ph s spin1 q1 u1 m) by (intros m M1 M2; apply plane_eb; assumption).
  assert (P2 : forall m, In m (grid s) -> ~ nyquist s m -> (plane s e2 m, plane s b2 m) = full_eb pi fsqrt ph s spin2 q2 u2 m) by (intros m M1 M2; apply plane_eb; assumption).
  rewrite (G e1 e2 fst fst), (G e1 b2 fst snd), (G b1 e2 snd fst), (G b1 b2 snd snd) by (intros m M1 M2; rewrite <- ?(P1 m M1 M2), <- ?(P2 m M1 M2); reflexivity). reflexivity.
Qed.
(** Bands without modes give zero, even when nothing is known about the excluded range. *)
Theorem C62_empty_band (s : fsinfo) (b : fbins) (c : cuts F) (a1 a2 : list cplx) (cl : list F) (i : nat) :
  contiguous b -> length a1 = n_modes s -> length a2 = n_modes s -> alm2cl1 pi fsqrt s b c a1 a2 = Ok cl -> (i < n_bands b)%nat -> modes pi fsqrt s b c i = [] -> nth i cl 0 = 0.
Proof.
  intros Hc H1 H2 E Hi HM. unfold alm2cl1 in E. rewrite (all_updates_eq pi fsqrt s b c a1 a2 Hc H1 H2) in E. cbn [bind] in E.
  rewrite (alm2cl_order pi fsqrt s b c a1 a2 _ _ Hc H1 H2 (all_updates_eq pi fsqrt s b c a1 a2 Hc H1 H2) (Permutation_refl _)) in E. assert (Ec : cl = tab (n_bands b) (fun i => average pi s (modes pi fsqrt s b c i) (fun m => cdot (read_at s a1 m) (read_at s a2 m)))) by congruence.
  rewrite Ec, nth_tab by exact Hi. rewrite HM. reflexivity.
Qed.
End Statements.

(** ** Examples *)
Section Ex.
Notation Q := Qc_field.
(** 2x3 pixels, wavenumbers multiples of 3 and 4 *)
Definition s23 : fsinfo Q := FS 2 3 (q 2 3) (q 1 2).
Definition sq25 (x : Q) : Q := if feqb x (qz 9) then qz 3 else if feqb x (qz 16) then qz 4 else if feqb x (qz 25) then qz 5 else qz 0.
Definition cz (a b : Z) : cplx Q := (qz a, qz b).
Definition q23 : list (cplx Q) := [cz 1 2; cz 3 4; cz 5 (-6); cz 7 8; cz 9 1; cz 2 3].
Definition u23 : list (cplx Q) := [cz 4 2; cz 1 4; cz 5 6; cz (-7) 8; cz 9 2; cz 3 3].
Lemma sqrt23 : sqrt_on (qz 1) sq25 s23.
Proof. intros ix iy Hx Hy. change (nhalf s23) with 2%nat in Hx. change (fs_ny s23) with 3%nat in Hy. destruct ix as [|[|ix]]; try lia; destruct iy as [|[|[|iy]]]; try lia; apply out_inj; vm_compute; reflexivity. Qed.
Example ex_rotation : sqrt_on (qz 1) sq25 s23 /\ length q23 = n_modes s23 /\ length u23 = n_modes s23 /\ all_rows s23 [2; 0; 1]%nat /\
  (exists e b, qu2eb (qz 1) sq25 s23 2 [2; 0; 1]%nat (q23, u23) = Ok (e, b) /\ eb2qu (qz 1) sq25 s23 2 [0; 1; 2]%nat (e, b) = Ok (q23, u23) /\ out (fst (nth 3 e c0)) = (QArith_base.Qmake 119 25)) /\ flt (qz 0) (ksq (qz 1) s23 1 1).
Proof.
  assert (P : all_rows s23 [2; 0; 1]%nat). { unfold all_rows. cbn. apply (perm_trans (l' := [0; 2; 1]%nat)); [apply perm_swap | apply perm_skip, perm_swap]. }
  split; [exact sqrt23|]. split; [reflexivity|]. split; [reflexivity|]. split; [exact P|]. split; [|vm_compute; reflexivity].
  assert (Z : length q23 = n_modes s23 /\ length u23 = n_modes s23 /\ all_rows s23 [0; 1; 2]%nat) by (repeat split; apply Permutation_refl). destruct Z as [Z1 [Z2 Z3]].
  destruct (C61_round_trip (qz 1) sq25 s23 2 q23 u23 _ _ sqrt23 Z1 Z2 P Z3) as [e [b [H1 [_ [_ H2]]]]]. exists e, b. split; [exact H1|]. split; [exact H2|].
  assert (V : match qu2eb (qz 1) sq25 s23 2 [2; 0; 1]%nat (q23, u23) with Ok (e, _) => out (fst (nth 3 e c0)) | _ => QArith_base.Qmake 0 1 end = (QArith_base.Qmake 119 25)) by (vm_compute; reflexivity). rewrite H1 in V. exact V.
Qed.
(** A field of spin -2 whose Q and U follow a pure-E pattern gets a B mode. *)
Theorem C61_negative_spin_refuted : exists (s : fsinfo Q) (qq uu e b : list (cplx Q)) (x : cplx Q), let j := (1 + nhalf s * 1)%nat in let z := cpown (conjc (direction (qz 1) sq25 s 1 1)) 2 in
  sqrt_on (qz 1) sq25 s /\ length qq = n_modes s /\ length uu = n_modes s /\ qu2eb (qz 1) sq25 s (-2) (seq 0 (fs_ny s)) (qq, uu) = Ok (e, b) /\
  nth j qq c0 = cscal (fst z) x /\ nth j uu c0 = cscal (fopp (snd z)) x /\ nth j b c0 <> c0.
Proof.
  set (z := cpown (conjc (direction (qz 1) sq25 s23 1 1)) 2). set (x := cz 1 0). set (qq := upd (repeat c0 6) 3 (cscal (fst z) x)). set (uu := upd (repeat c0 6) 3 (cscal (fopp (snd z)) x)).
  exists s23, qq, uu, (map (cmul (sig (-2) (-2))) qq), (map (cmul (sig (-2) (-2))) uu), x. cbv zeta. split; [exact sqrt23|]. split; [reflexivity|]. split; [reflexivity|].
  split; [apply C61_negative_spin; [lia | reflexivity | reflexivity | apply Permutation_refl]|]. split; [reflexivity|]. split; [reflexivity|]. intro E. apply (f_equal fst) in E. apply (f_equal out) in E. vm_compute in E. discriminate E.
Qed.
(** 4x4 pixels, wavenumbers -1,0,1,2 *)
Definition s44 : fsinfo Q := FS 4 4 (qz 2) (qz 2).
Definition ph4 (n j : nat) : cplx Q :=
  match n, j with | _, O => cz 1 0 | 4%nat, 1%nat => cz 0 (-1) | 4%nat, 2%nat => cz (-1) 0 | 4%nat, 3%nat => cz 0 1 | _, _ => cz (-1) 0 end.
Definition sq8 (x : Q) : Q := if feqb x (qz 1) then qz 1 else if feqb x (qz 2) then q 1414 1000 else if feqb x (qz 4) then qz 2 else if feqb x (qz 5) then q 2236 1000 else if feqb x (qz 8) then q 2828 1000 else qz 0.
Definition b44 : fbins Q := FBins [q 1 2; q 6 5] [q 6 5; q 3 2].
Lemma contiguous44 : contiguous b44.
Proof.
  split; [split; [reflexivity|]; split; [cbn; lia|]; split|].
  - intros i Hi. change (n_bands b44) with 2%nat in Hi. destruct i as [|[|i]]; try lia; vm_compute; reflexivity.
  - intros i Hi. change (n_bands b44) with 2%nat in Hi. destruct i as [|i]; try lia. vm_compute; reflexivity.
  - intros i Hi. change (n_bands b44) with 2%nat in Hi. destruct i as [|i]; try lia. apply out_inj. vm_compute; reflexivity.
Qed.
Lemma roots44 : conj_roots ph4 s44.
Proof. split; intros j Hj; cbn [s44 fs_nx fs_ny] in *; destruct j as [|[|[|[|j]]]]; try lia; apply cplx_eq; apply out_inj; vm_compute; reflexivity. Qed.
(** the wave cos(2 pi (x+y)/4) *)
Definition wave44 : list Q := tab 16 (fun i => fst (ph4 4 ((i mod 4 + i / 4) mod 4))).
(** modes with |kx|<=1/2 excluded, all ky kept *)
Definition cut_low : cuts Q := Cuts (q (-1) 2) (q 1 2) (qz 1) (qz (-1)).
(** ky = -1 excluded, ky = 1 kept *)
Definition cut_one : cuts Q := Cuts (qz 1) (qz (-1)) (q (-3) 2) (q (-1) 2).
Lemma ysym44 : y_symmetric (qz 1) s44 cut_low.
Proof. intros iy Hy. cbn [s44 fs_ny] in Hy. destruct iy as [|[|[|[|iy]]]]; try lia; vm_compute; reflexivity. Qed.
Example ex_estimator : contiguous b44 /\ y_symmetric (qz 1) s44 cut_low /\ conj_roots ph4 s44 /\ modes (qz 1) sq8 s44 b44 cut_low 1 = [(1, 1); (3, 1); (1, 3); (3, 3)]%nat /\ kxf (qz 1) s44 1 <> qz 0 /\
  (forall i m, In m (modes (qz 1) sq8 s44 b44 cut_low i) -> ~ nyquist s44 m) /\
  match alm2cl1 (qz 1) sq8 s44 b44 cut_low (map2alm0 (qz 1) ph4 s44 wave44) (map2alm0 (qz 1) ph4 s44 wave44) with Ok l => map out l | _ => [] end = [QArith_base.Qmake 0 1; QArith_base.Qmake 1 2].
Proof.
  split; [exact contiguous44|]. split; [exact ysym44|]. split; [exact roots44|]. split; [vm_compute; reflexivity|]. split; [intro E; apply (f_equal out) in E; vm_compute in E; discriminate E|]. split; [|vm_compute; reflexivity].
  intros i m Hm [N1 N2]. cbn [s44 fs_nx fs_ny] in N1, N2. unfold modes in Hm. apply filter_In in Hm. destruct Hm as [Hm Hb]. apply in_grid in Hm. destruct m as [ix iy]. cbn [fst snd s44 fs_nx fs_ny] in *.
  assert (ix = 3)%nat as -> by lia. assert (iy = 2)%nat as -> by lia. destruct i as [|[|i]]; vm_compute in Hb; try discriminate Hb. destruct i; vm_compute in Hb; discriminate Hb.
Qed.
(** When ky = -1 is excluded but ky = 1 is not, the wave with (kx,ky) = (1,1) also enters in place of the one with (-1,1): the code reads its
    coefficient twice, and the bandpower is twice the average over the modes that were kept. *)
Theorem C62_asymmetric_range_refuted : exists (s : fsinfo Q) (b : fbins Q) (c : cuts Q) (m : list Q) (cl : list Q),
  contiguous b /\ conj_roots ph4 s /\ alm2cl1 (qz 1) sq8 s b c (map2alm0 (qz 1) ph4 s m) (map2alm0 (qz 1) ph4 s m) = Ok cl /\
  cl <> tab (n_bands b) (fun i => average (qz 1) s (modes (qz 1) sq8 s b c i) (fun p => cdot (coeff (qz 1) ph4 s m p) (coeff (qz 1) ph4 s m p))).
Proof.
  exists s44, b44, cut_one, wave44, (from_ok [] (alm2cl1 (qz 1) sq8 s44 b44 cut_one (map2alm0 (qz 1) ph4 s44 wave44) (map2alm0 (qz 1) ph4 s44 wave44))). split; [exact contiguous44|]. split; [exact roots44|]. split; [apply from_ok_eq; vm_compute; reflexivity|].
  intro E. apply (f_equal (map out)) in E. vm_compute in E. discriminate E.
Qed.
End Ex.

(** Over the real numbers FFTW's roots of unity and the square root satisfy the hypotheses for every map geometry. *)
Section RealRoots.
Open Scope R_scope.
Definition phR (n j : nat) : cplx R_field := (cos (2 * PI * INR j / INR n), - sin (2 * PI * INR j / INR n)).
Theorem C62_real_roots (s : fsinfo R_field) : conj_roots phR s.
Proof.
  assert (G : forall n j, (j < n)%nat -> phR n (opp_row n j) = conjc (phR n j)).
  { intros n j Hj. assert (Hn : INR n <> 0) by (apply not_0_INR; lia). unfold opp_row. destruct (Nat.eq_dec j 0) as [->|N].
    - rewrite Nat.sub_0_r, Nat.mod_same by lia. unfold phR, conjc. cbn [fst snd]. apply cplx_eq; cbn [fst snd]; [reflexivity|]. change (- sin (2 * PI * INR 0 / INR n) = - - sin (2 * PI * INR 0 / INR n)).
      replace (2 * PI * INR 0 / INR n) with 0 by (cbn; field; exact Hn). rewrite sin_0. ring.
    - rewrite Nat.mod_small by lia. unfold phR, conjc. cbn [fst snd]. rewrite minus_INR by lia. replace (2 * PI * (INR n - INR j) / INR n) with (- (2 * PI * INR j / INR n) + 2 * INR 1 * PI) by (cbn; field; exact Hn).
      apply cplx_eq; cbn [fst snd].
      + rewrite cos_period. apply cos_neg.
      + change (- sin (- (2 * PI * INR j / INR n) + 2 * INR 1 * PI) = - - sin (2 * PI * INR j / INR n)). rewrite sin_period, sin_neg. ring. }
  split; intros j Hj; apply G; exact Hj.
Qed.
Theorem C61_real_sqrt (pi : R) (s : fsinfo R_field) : sqrt_on (F := R_field) pi sqrt s.
Proof. intros ix iy _ _. unfold ksq. apply (sqrt_sqrt (_ + _)). apply Rplus_le_le_0_compat; apply (Rle_0_sqr (kxf (F := R_field) pi s ix)) || apply (Rle_0_sqr (kyf (F := R_field) pi s iy)). Qed.
End RealRoots.
Print Assumptions C61_round_trip. Print Assumptions C61_power. Print Assumptions C61_pure_e. Print Assumptions C61_spin2. Print Assumptions C61_negative_spin_refuted.
Print Assumptions C62_bandpowers. Print Assumptions C62_scalar. Print Assumptions C62_spin. Print Assumptions C62_asymmetric_range_refuted. Print Assumptions C62_real_roots.
