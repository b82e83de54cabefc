(** Properties C65 and C78: synthetic maps. *)
From Coq Require Import Permutation Reals Lra.
From Verif Require Import Base FieldR M_Utils M_Bins M_FlatBins M_LinAlg M_Workspace M_OMP L_OMP M_Flat M_WspFlat M_Syn P_FlatBins L_LinAlg L_Flat L_Flat2 L_Flat3 P_Flat L_FITS L_MCM L_WspFlat L_WspFlat2 P_WspFlat L_FlatMean P_FlatMean L_Syn L_Syn2.
Open Scope nat_scope.

Section Statements.
Context {F : ofield}.
Local Open Scope F_scope.
Add Field FfPSy : (fth F).
Notation mat := (list (list F)).
Notation cplx := (cplx F).
Notation fsinfo := (fsinfo F).
(** arguments that synfast_flat accepts *)
Definition beam_rows (n : nat) (spins : list Z) (beam : option mat) : mat := match beam with None => repeat (repeat 1 n) (length spins) | Some b => b end.
Definition map_count (spins : list Z) : nat := list_sum (map nmap_of spins).
Definition accepted (lx ly : F) (cls : mat) (spins : list Z) (beam : option mat) (n : nat) : Prop :=
  0 < lx /\ 0 < ly /\ (2 <= n)%nat /\ spins <> [] /\ (forall sp, In sp spins -> (0 <= sp)%Z) /\ length cls = ((map_count spins * (map_count spins + 1)) / 2)%nat /\ (forall c, In c cls -> length c = n) /\
  length (beam_rows n spins beam) = length spins /\ (forall c, In c (beam_rows n spins beam) -> length c = n).
(** numbering and work of the threads; seeds do not overflow *)
Definition threads_ok (ny : nat) (seed : Z) (parts : list (list nat)) (arrival : list nat) : Prop :=
  Permutation (concat parts) (seq 0 ny) /\ Permutation arrival (seq 0 (length parts)) /\ (0 <= seed)%Z /\ (seed + Z.of_nat (length parts) <= 2 ^ 31)%Z.
Definition beams_of (n : nat) (spins : list Z) (beam : option mat) : list (F -> F) := concat (map (fun p => repeat (table (ramp n) (snd p)) (nmap_of (fst p))) (combine spins (beam_rows n spins beam))).
Lemma nmap_pos sp : (1 <= nmap_of sp)%nat. Proof. unfold nmap_of. destruct (sp =? 0)%Z; lia. Qed.
Lemma map_count_pos spins : spins <> [] -> (1 <= map_count spins)%nat.
Proof. destruct spins as [|sp t]; [contradiction|]. intros _. unfold map_count. cbn [map list_sum fold_right]. pose proof (nmap_pos sp). lia. Qed.
Lemma length_beams n spins (b : mat) : length b = length spins -> length (concat (map (fun p => repeat (table (ramp n) (snd p)) (nmap_of (fst p))) (combine spins b))) = map_count spins.
Proof.
  revert b. induction spins as [|sp t IH]; intros [|x b] E; try discriminate; [reflexivity|]. cbn [combine map concat]. rewrite app_length, repeat_length, IH by (cbn in E; congruence). reflexivity.
Qed.
Section S.
Variables (pi : F) (fsqrt : F -> F) (ph : nat -> nat -> cplx) (sqrt2 : F) (root : mat -> mat).
Notation SYN g := (py_synfast_flat pi fsqrt ph sqrt2 g root).
Lemma syn_iff g nx ny lx ly cls spins beam n seed fresh parts arrival r : accepted lx ly cls spins beam n -> (0 <= seed)%Z ->
  SYN g nx ny lx ly cls spins beam seed fresh parts arrival r <->
  exists a, synalm_with pi fsqrt sqrt2 g root (FS nx ny lx ly) (map_count spins) (map (table (ramp n)) cls) (beams_of n spins beam) seed parts arrival a /\ r = (do alms <- a; maps_of pi fsqrt ph (FS nx ny lx ly) spins alms).
Proof.
  intros [H1 [H2 [H3 [H4 [H5 [H6 [H7 [H8 H9]]]]]]]] Hs. unfold py_synfast_flat. cbv zeta. rewrite (proj2 (Z.ltb_ge _ _) Hs). fold (map_count spins).
  replace (existsb _ spins) with false. 2:{ symmetry. apply Bool.not_true_iff_false. intro E. apply existsb_exists in E. destruct E as [sp [E1 E2]]. apply Z.ltb_lt in E2. specialize (H5 sp E1). lia. }
  rewrite <- H6, Nat.eqb_refl. cbn [negb]. destruct cls as [|c0 t].
  - exfalso. pose proof (map_count_pos spins H4) as HM. cbn [length] in H6. assert (1 <= (map_count spins * (map_count spins + 1)) / 2)%nat by (apply Nat.div_le_lower_bound; nia). lia.
  - assert (E0 : length c0 = n) by (apply H7; left; reflexivity). rewrite E0.
    assert (EB : (match beam with None => Ok (repeat (repeat 1 n) (length spins)) | Some b => if negb (Nat.eqb (length b) (length spins)) then Exn ValueError else match b with [] => Exn IndexError | b0 :: _ => if Nat.eqb (length b0) n then Ok b else Exn ValueError end end) = Ok (beam_rows n spins beam)).
    { destruct beam as [b|]; [|reflexivity]. cbn [beam_rows] in *. rewrite H8, Nat.eqb_refl. cbn [negb]. destruct b as [|b0 bt]; [destruct spins; [contradiction | discriminate]|]. rewrite (H9 b0 (or_introl eq_refl)), Nat.eqb_refl. reflexivity. }
    rewrite EB. replace (forallb _ (c0 :: t) && forallb _ (beam_rows n spins beam))%bool with true.
    2:{ symmetry. apply Bool.andb_true_iff. split; apply forallb_forall; intros l Hl; apply Nat.eqb_eq; auto. }
    cbn [negb]. unfold flt in H1, H2. rewrite H1, H2. cbn [andb negb]. rewrite (proj2 (Nat.ltb_ge n 2) H3). reflexivity.
Qed.
(** ** C65 *)
Lemma maps_ok (s : fsinfo) spins : forall alms, length alms = map_count spins -> (forall a, In a alms -> length a = (fs_ny s * nhalf s)%nat) ->
  exists m, maps_of pi fsqrt ph s spins alms = Ok m /\ length m = map_count spins /\ forall t, In t m -> length t = (fs_nx s * fs_ny s)%nat.
Proof.
  assert (L0 : forall a, length (alm2map0 pi ph s a) = (fs_nx s * fs_ny s)%nat) by (intro; apply length_tab).
  induction spins as [|sp t IH]; intros alms HL HA; [exists []; split; [reflexivity|]; split; [reflexivity | intros ? []]|].
  unfold map_count in HL. cbn [map list_sum fold_right] in HL. cbn [maps_of]. destruct (IH (skipn (nmap_of sp) alms)) as [m [E1 [E2 E3]]].
  { rewrite skipn_length, HL. unfold map_count, list_sum. lia. } { intros a Ha. apply HA. rewrite <- (firstn_skipn (nmap_of sp) alms). apply in_or_app. right. exact Ha. }
  rewrite E1. unfold field_maps. unfold nmap_of in HL, E2 |- *. destruct (Z.eqb_spec sp 0) as [E|E].
  - destruct alms as [|a rest]; [cbn in HL; lia|]. cbn [firstn rd bind nth_error Z.ltb Z.compare Z.to_nat]. exists (alm2map0 pi ph s a :: m). split; [reflexivity|]. split; [cbn [length]; rewrite E2; unfold map_count, nmap_of; cbn [map list_sum fold_right]; rewrite (proj2 (Z.eqb_eq sp 0) E); reflexivity|]. intros x [<-|Hx]; [apply L0 | apply E3; exact Hx].
  - destruct alms as [|a [|b rest]]; try (cbn in HL; lia). cbn [firstn]. change (rd [a; b] 0) with (Ok a). change (rd [a; b] 1) with (Ok b). cbn [bind]. unfold eb2qu. rewrite (rot_rows_all pi fsqrt (@qu_of F) s sp (rows_of s) (a, b) (fs_ny s * nhalf s)); [|apply Permutation_refl | reflexivity | apply HA; cbn; auto | apply HA; cbn; auto].
    cbn [bind]. eexists. split; [reflexivity|]. split; [cbn [app length]; rewrite E2; unfold map_count, nmap_of; cbn [map list_sum fold_right]; rewrite (proj2 (Z.eqb_neq sp 0) E); reflexivity|]. intros x Hx. cbn [app] in Hx. destruct Hx as [<-|[<-|Hx]]; [apply L0 | apply L0 | apply E3; exact Hx].
Qed.
Lemma fits_ok lx ly cls spins beam n nx ny : accepted lx ly cls spins beam n -> fits (FS nx ny lx ly) (map_count spins) (map (table (ramp n)) cls) (beams_of n spins beam).
Proof. intros [H1 [H2 [H3 [H4 [H5 [H6 [H7 [H8 H9]]]]]]]]. split; [rewrite map_length; exact H6 | apply length_beams; exact H8]. Qed.
Definition coefs (g : Z -> nat -> F * F) (s : fsinfo) (cls : mat) spins beam n seed parts arrival : list (list cplx) :=
  tab (map_count spins) (fun i => tab (fs_ny s * nhalf s) (fun q => final pi fsqrt sqrt2 g root s (map_count spins) (map (table (ramp n)) cls) (beams_of n spins beam) seed parts arrival i (q mod nhalf s) (q / nhalf s))).
Lemma syn_value g nx ny lx ly cls spins beam n seed fresh parts arrival r : accepted lx ly cls spins beam n -> threads_ok ny seed parts arrival ->
  SYN g nx ny lx ly cls spins beam seed fresh parts arrival r <-> r = maps_of pi fsqrt ph (FS nx ny lx ly) spins (coefs g (FS nx ny lx ly) cls spins beam n seed parts arrival).
Proof.
  intros HA [T1 [T2 [T3 T4]]]. rewrite (syn_iff g nx ny lx ly cls spins beam n) by assumption. pose proof (fits_ok lx ly cls spins beam n nx ny HA) as HF. split.
  - intros [a [A1 ->]]. rewrite (synalm_value pi fsqrt sqrt2 g root (FS nx ny lx ly) _ _ _ _ _ _ _ HF T1 T2 T4 A1). reflexivity.
  - intros ->. destruct (synalm_exists pi fsqrt sqrt2 g root (FS nx ny lx ly) (map_count spins) (map (table (ramp n)) cls) (beams_of n spins beam) seed parts arrival) as [a A1]. exists a. split; [exact A1|].
    rewrite (synalm_value pi fsqrt sqrt2 g root (FS nx ny lx ly) _ _ _ _ _ _ _ HF T1 T2 T4 A1). reflexivity.
Qed.
(** The stores of the threads never race: for a given division of the rows and a given numbering of the threads there is one result, whatever the
    interleaving; nothing is left uninitialised and no store is out of range. *)
Theorem C65_determined g nx ny lx ly cls spins beam n seed parts arrival : accepted lx ly cls spins beam n -> threads_ok ny seed parts arrival ->
  exists maps, length maps = map_count spins /\ (forall t, In t maps -> length t = (nx * ny)%nat) /\ forall fresh r, SYN g nx ny lx ly cls spins beam seed fresh parts arrival r <-> r = Ok maps.
Proof.
  intros HA HT. destruct (maps_ok (FS nx ny lx ly) spins (coefs g (FS nx ny lx ly) cls spins beam n seed parts arrival)) as [m [E1 [E2 E3]]]; [apply length_tab | intros a Ha; apply (In_nth _ _ []) in Ha; destruct Ha as [i [Hi <-]]; unfold coefs in *; rewrite length_tab in Hi; rewrite nth_tab by exact Hi; apply length_tab|].
  exists m. split; [exact E2|]. split; [exact E3|]. intros fresh r. rewrite (syn_value g nx ny lx ly cls spins beam n) by assumption. rewrite E1. reflexivity.
Qed.
(** With one thread the maps depend on the seed only. *)
Corollary C65_one_thread g nx ny lx ly cls spins beam n seed fresh fresh' arrival arrival' r r' : accepted lx ly cls spins beam n -> (0 <= seed < 2 ^ 31)%Z ->
  Permutation arrival [0%nat] -> Permutation arrival' [0%nat] ->
  SYN g nx ny lx ly cls spins beam seed fresh [seq 0 ny] arrival r -> SYN g nx ny lx ly cls spins beam seed fresh' [seq 0 ny] arrival' r' -> r = r' /\ exists maps, r = Ok maps.
Proof.
  intros HA Hs P1 P2 R1 R2. apply Permutation_sym, Permutation_length_1_inv in P1, P2. subst. assert (HT : threads_ok ny seed [seq 0 ny] [0%nat]). { split; [cbn [concat]; rewrite app_nil_r; apply Permutation_refl|]. split; [apply Permutation_refl|]. split; [lia|]. cbn [length]. lia. }
  destruct (C65_determined g nx ny lx ly cls spins beam n seed [seq 0 ny] [0%nat] HA HT) as [m [_ [_ D]]]. apply D in R1, R2. subst. split; [reflexivity | exists m; reflexivity].
Qed.
(** If two runs give the thread that works on row iy the same sum of seed and thread number, they give the same coefficients to that row. *)
Theorem C65_shared_streams g (s : fsinfo) nmaps cells beams seed seed' parts arrival arrival' r r' i ix iy : fits s nmaps cells beams -> threads_ok (fs_ny s) seed parts arrival -> threads_ok (fs_ny s) seed' parts arrival' ->
  synalm_with pi fsqrt sqrt2 g root s nmaps cells beams seed parts arrival (Ok r) -> synalm_with pi fsqrt sqrt2 g root s nmaps cells beams seed' parts arrival' (Ok r') ->
  (i < nmaps)%nat -> (ix < nhalf s)%nat -> (iy < fs_ny s)%nat ->
  (let t := part_of (owner s ix iy) parts in seed + Z.of_nat (nth t arrival 0%nat) = seed' + Z.of_nat (nth t arrival' 0%nat))%Z ->
  nth (ix + nhalf s * iy) (nth i r []) c0 = nth (ix + nhalf s * iy) (nth i r' []) c0.
Proof.
  intros HF [T1 [T2 [T3 T4]]] [U1 [U2 [U3 U4]]] R1 R2 Hi Hx Hy E. cbv zeta in E. pose proof (synalm_value _ _ _ _ _ _ _ _ _ _ _ _ _ HF T1 T2 T4 R1) as E1. pose proof (synalm_value _ _ _ _ _ _ _ _ _ _ _ _ _ HF U1 U2 U4 R2) as E2.
  injection E1 as ->. injection E2 as ->. destruct (half_index s ix iy Hx Hy) as [A [B C]]. do 2 (rewrite nth_tab by exact Hi; rewrite nth_tab by exact A). rewrite B, C. unfold final, seed_of. rewrite E. reflexivity.
Qed.
(** ** C78: covariance of the maps *)
(** upper triangle of a matrix of spectra, row by row *)
Definition upper (n : nat) (C : nat -> nat -> list F) : mat := flat_map (fun i => map (C i) (seq i (n - i))) (seq 0 n).
Lemma nth_upper n C i j : (i <= j < n)%nat -> nth (icl n i j) (upper n C) [] = C i j.
Proof.
  clear. intro H. unfold icl, upper.
  assert (L : forall m, length (flat_map (fun i => map (C i) (seq i (n - i))) (seq 0 m)) = list_sum (map (fun a => (n - a)%nat) (seq 0 m))).
  { induction m as [|m IH]; [reflexivity|]. rewrite seq_S, flat_map_app, app_length, map_app, list_sum_app, IH. f_equal. cbn [flat_map map list_sum fold_right Nat.add]. rewrite app_nil_r, map_length, seq_length. lia. }
  replace (seq 0 n) with (seq 0 i ++ seq i (n - i)) by (change (seq 0 i ++ seq (0 + i) (n - i) = seq 0 n); rewrite <- (seq_app i (n - i) 0); f_equal; lia). rewrite flat_map_app. rewrite app_nth2 by (rewrite L; lia). rewrite L. replace (list_sum _ + (j - i) - list_sum _)%nat with (j - i)%nat by lia.
  assert (Q : seq i (n - i) = i :: seq (S i) (n - S i)) by (replace (n - i)%nat with (S (n - S i)) by lia; reflexivity). rewrite Q at 1. cbn [flat_map]. rewrite app_nth1 by (rewrite map_length, seq_length; lia).
  rewrite (nth_indep _ [] (C i 0%nat)) by (rewrite map_length, seq_length; lia). rewrite map_nth. rewrite seq_nth by lia. f_equal. lia.
Qed.
Lemma maps_scalar (s : fsinfo) : forall nf alms, length alms = nf -> maps_of pi fsqrt ph s (repeat 0%Z nf) alms = Ok (map (alm2map0 pi ph s) alms).
Proof. induction nf as [|nf IH]; intros [|a t] E; try discriminate; [reflexivity|]. cbn [repeat maps_of map nmap_of firstn skipn]. change (field_maps pi fsqrt ph s 0 (firstn (nmap_of 0) (a :: t))) with (Ok [alm2map0 pi ph s a]). cbn [bind]. change (skipn (nmap_of 0) (a :: t)) with t. rewrite IH by (cbn in E; congruence). reflexivity. Qed.
Lemma count_scalar nf : map_count (repeat 0%Z nf) = nf.
Proof. clear. unfold map_count. induction nf as [|nf IH]; [reflexivity|]. cbn [repeat map list_sum fold_right] in *. unfold list_sum in IH. rewrite IH. reflexivity. Qed.
Lemma nth_beams nf : forall i n (b : mat), length b = nf -> (i < nf)%nat -> nth i (concat (map (fun p => repeat (table (ramp n) (snd p)) (nmap_of (fst p))) (combine (repeat 0%Z nf) b))) zero_fun = table (ramp n) (nth i b []).
Proof. clear. induction nf as [|nf IH]; intros i n [|x b] E Hi; try discriminate; try lia. cbn [repeat combine map concat fst snd]. change (nmap_of 0) with 1%nat. cbn [repeat app]. destruct i as [|i]; [reflexivity|]. cbn [nth]. apply IH; [cbn in E; congruence | lia]. Qed.
(** mean power of maps i and j at wavenumber k: spectrum times the two beams *)
Definition model_power (n : nat) (C : nat -> nat -> list F) (b : mat) (i j : nat) (k : F) : F := table (ramp n) (nth i b []) k * table (ramp n) (nth j b []) k * table (ramp n) (C i j) k.
(** Scalar maps made from independent random numbers have the covariance of isotropic fields with the given spectra and beams, if these vanish at
    the modes of the column nx/2 and at the mode (0,ny/2).  [root] is a square root of the matrix of spectra at every mode. *)
Theorem C78_covariance (K : nat) (pr : nat -> F) (g : nat -> Z -> nat -> F * F) (s : fsinfo) (nf n : nat) (C : nat -> nat -> list F) beam seed fresh parts arrival (maps : nat -> mat) i j p p' :
  accepted (fs_lx s) (fs_ly s) (upper nf C) (repeat 0%Z nf) beam n -> threads_ok (fs_ny s) seed parts arrival -> (forall i j, C i j = C j i) ->
  conj_roots ph s -> pi <> 0 -> sqrt2 * sqrt2 = fofZ 2 ->
  white K pr g seed (seed + Z.of_nat (length parts)) (fs_ny s * nhalf s * nf)%nat ->
  (forall ix iy, (ix < nhalf s)%nat -> (iy < fs_ny s)%nat ->
    let c := tab nf (fun i => tab nf (fun j => 1 / fofZ 2 * (1 / (dkx pi s * dky pi s)) * table (ramp n) (C i j) (kmod_of pi fsqrt s (ix, iy)))) in
    square nf (root c) /\ forall i j, (i < nf)%nat -> (j < nf)%nat -> sum nf (fun l => entry2 (root c) i l * entry2 (root c) j l) = entry2 c i j) ->
  (forall k, (k < K)%nat -> SYN (g k) (fs_nx s) (fs_ny s) (fs_lx s) (fs_ly s) (upper nf C) (repeat 0%Z nf) beam seed fresh parts arrival (Ok (maps k))) ->
  (i < nf)%nat -> (j < nf)%nat -> In p (grid s) -> In p' (grid s) ->
  (forall m, In m (grid s) -> (2 * fst m = fs_nx s)%nat \/ (fst m = 0%nat /\ (2 * snd m = fs_ny s)%nat) -> model_power n C (beam_rows n (repeat 0%Z nf) beam) i j (kmod_of pi fsqrt s m) = 0) ->
  sum K (fun k => pr k * (pix s (nth i (maps k) []) p * pix s (nth j (maps k) []) p')) = iso_cov pi fsqrt ph s (model_power n C (beam_rows n (repeat 0%Z nf) beam) i j) p p'.
Proof.
  intros HA HT Csym HC Hpi H2 HW HR HM Hi Hj Hp Hp' HU. destruct s as [nx ny lx ly]. cbn [fs_nx fs_ny fs_lx fs_ly] in HA, HT, HM. set (s := FS nx ny lx ly) in *. set (spins := repeat 0%Z nf) in *. set (cells := map (table (ramp n)) (upper nf C)). set (bs := beams_of n spins beam).
  assert (Hn : map_count spins = nf) by apply count_scalar. destruct HT as [T1 [T2 [T3 T4]]].
  assert (Lu : length (upper nf C) = ((nf * (nf + 1)) / 2)%nat). { destruct HA as [_ [_ [_ [_ [_ [E _]]]]]]. rewrite Hn in E. exact E. }
  assert (Ecell : forall a b k, (a < nf)%nat -> (b < nf)%nat -> nth (icl nf (Nat.min a b) (Nat.max a b)) cells zero_fun k = table (ramp n) (C a b) k).
  { intros a b k Ha Hb. unfold cells. assert (Q : (icl nf (Nat.min a b) (Nat.max a b) < length (upper nf C))%nat) by (rewrite Lu; apply icl_lt; split; [lia | apply Nat.max_lub_lt; assumption]).
    rewrite (nth_indep _ zero_fun (table (ramp n) [])) by (rewrite map_length; exact Q). rewrite map_nth. rewrite nth_upper by (split; [lia | apply Nat.max_lub_lt; assumption]). destruct (Nat.le_ge_cases a b) as [L|L]; [rewrite Nat.min_l, Nat.max_r by exact L; reflexivity | rewrite Nat.min_r, Nat.max_l, Csym by exact L; reflexivity]. }
  assert (Lb : length (beam_rows n spins beam) = nf). { destruct HA as [_ [_ [_ [_ [_ [_ [_ [E _]]]]]]]]. rewrite E. apply repeat_length. }
  assert (Epow : forall k, power nf cells bs i j k = model_power n C (beam_rows n spins beam) i j k). { intro k. unfold power, model_power. rewrite Ecell by assumption. unfold bs, beams_of, spins. rewrite !nth_beams by assumption. reflexivity. }
  assert (GR : good_root pi fsqrt root s nf cells).
  { intros ix iy Hx Hy. specialize (HR ix iy Hx Hy). replace (clmat_of pi s nf cells (kmodf pi fsqrt s ix iy)) with (tab nf (fun i0 => tab nf (fun j0 => 1 / fofZ 2 * (1 / (dkx pi s * dky pi s)) * table (ramp n) (C i0 j0) (kmod_of pi fsqrt s (ix, iy))))); [exact HR|].
    unfold clmat_of. apply tab_ext. intros a Ha. apply tab_ext. intros b Hb. rewrite Ecell by assumption. reflexivity. }
  assert (EM : forall k, (k < K)%nat -> forall a, (a < nf)%nat -> nth a (maps k) [] = alm2map0 pi ph s (alms pi fsqrt sqrt2 root s nf cells bs seed parts arrival g k a)).
  { intros k Hk a Ha. pose proof (HM k Hk) as M. apply (syn_value (g k) nx ny lx ly (upper nf C) spins beam n) in M; [|exact HA | repeat split; assumption]. unfold spins in M. rewrite maps_scalar in M by (unfold coefs; rewrite length_tab; apply count_scalar). injection M as ->.
    rewrite (nth_indep _ [] (alm2map0 pi ph s [])) by (rewrite map_length; unfold coefs; rewrite length_tab; fold spins; rewrite Hn; exact Ha). rewrite map_nth. f_equal. unfold coefs. fold spins. rewrite Hn. rewrite nth_tab by exact Ha. reflexivity. }
  rewrite (sum_ext K _ (fun k => pr k * (pix s (alm2map0 pi ph s (alms pi fsqrt sqrt2 root s nf cells bs seed parts arrival g k i)) p * pix s (alm2map0 pi ph s (alms pi fsqrt sqrt2 root s nf cells bs seed parts arrival g k j)) p'))) by (intros k Hk; rewrite !EM by assumption; reflexivity).
  destruct HA as [A1 [A2 _]]. assert (Px : (0 < nx)%nat) by (apply in_grid in Hp; cbn [s fs_nx] in Hp; lia).
  assert (Lx : fs_lx s <> 0) by (cbn [s fs_lx]; apply fpos_neq0; exact A1). assert (Ly : fs_ly s <> 0) by (cbn [s fs_ly]; apply fpos_neq0; exact A2).
  assert (HU' : forall ix iy, (ix < nhalf s)%nat -> (iy < fs_ny s)%nat -> unpaired s ix iy -> power nf cells bs i j (kmodf pi fsqrt s ix iy) = 0).
  { intros ix iy Hx Hy Q. rewrite Epow. apply (HU (ix, iy)); [|exact Q]. apply in_grid. cbn [fst snd]. split; [|exact Hy]. pose proof (half_ny nx). unfold nhalf in Hx. cbn [s fs_nx] in *. lia. }
  rewrite (map_cov pi fsqrt ph sqrt2 root s nf cells bs seed parts arrival T1 T2 T3 T4 K pr g HW GR H2 Px Lx Ly Hpi HC i j p p' Hi Hj Hp Hp' HU').
  unfold iso_cov. f_equal. apply lsum_ext. intros m _. rewrite Epow. reflexivity.
Qed.
(** Decoupling the spectra of such maps, observed through any two masks, is unbiased. *)
Theorem C78_master_unbiased (trunc : F -> Z) (K : nat) (pr : nat -> F) (g : nat -> Z -> nat -> F * F) (s : fsinfo) (nf n : nat) (C : nat -> nat -> list F) beam seed fresh parts arrival (maps : nat -> mat) i j (mask1 mask2 : list F) b c rows v :
  accepted (fs_lx s) (fs_ly s) (upper nf C) (repeat 0%Z nf) beam n -> threads_ok (fs_ny s) seed parts arrival -> (forall i j, C i j = C j i) ->
  conj_roots ph s -> hom_roots ph s -> pi <> 0 -> sqrt2 * sqrt2 = fofZ 2 ->
  white K pr g seed (seed + Z.of_nat (length parts)) (fs_ny s * nhalf s * nf)%nat ->
  (forall ix iy, (ix < nhalf s)%nat -> (iy < fs_ny s)%nat ->
    let c := tab nf (fun i => tab nf (fun j => 1 / fofZ 2 * (1 / (dkx pi s * dky pi s)) * table (ramp n) (C i j) (kmod_of pi fsqrt s (ix, iy)))) in
    square nf (root c) /\ forall i j, (i < nf)%nat -> (j < nf)%nat -> sum nf (fun l => entry2 (root c) i l * entry2 (root c) j l) = entry2 c i j) ->
  (forall k, (k < K)%nat -> SYN (g k) (fs_nx s) (fs_ny s) (fs_lx s) (fs_ly s) (upper nf C) (repeat 0%Z nf) beam seed fresh parts arrival (Ok (maps k))) ->
  (i < nf)%nat -> (j < nf)%nat ->
  (forall m, In m (grid s) -> (2 * fst m = fs_nx s)%nat \/ (fst m = 0%nat /\ (2 * snd m = fs_ny s)%nat) -> model_power n C (beam_rows n (repeat 0%Z nf) beam) i j (kmod_of pi fsqrt s m) = 0) ->
  contiguous b -> y_symmetric pi s c -> length mask1 = (fs_nx s * fs_ny s)%nat -> length mask2 = (fs_nx s * fs_ny s)%nat -> all_rows s rows -> length v = n_bands b ->
  (forall m, In m (grid s) -> (forall q, (q < n_bands b)%nat -> inb b q (kmod_of pi fsqrt s m) = true -> table (ramp n) (C i j) (kmod_of pi fsqrt s m) = nth q v 0) /\
    ((forall q, (q < n_bands b)%nat -> inb b q (kmod_of pi fsqrt s m) = false) -> table (ramp n) (C i j) (kmod_of pi fsqrt s m) = 0)) ->
  let beam_of a := table (ramp n) (nth a (beam_rows n (repeat 0%Z nf) beam) []) in
  exists w, workspace_of pi fsqrt trunc ph s mask1 mask2 (beam_of i) (beam_of j) b c rows = Ok w /\ (nonsingular (n_bands b) (fw_bnd w) ->
  exists r : nat -> list F, (forall k, (k < K)%nat -> decoupled_of pi fsqrt trunc ph s mask1 mask2 (beam_of i) (beam_of j) b c rows (nth i (maps k) []) (nth j (maps k) []) = Ok [r k] /\ length (r k) = n_bands b) /\
  forall q, (q < n_bands b)%nat -> sum K (fun k => pr k * nth q (r k) 0) = nth q v 0).
Proof.
  intros HA HT Csym HC HH Hpi H2 HW HR HM Hi Hj HU Hc HY M1 M2 HP Hv HCv beam_of. pose proof HA as [A1 [A2 _]].
  refine (C77_unbiased pi fsqrt trunc ph s mask1 mask2 (beam_of i) (beam_of j) b c Hc HY HC HH A1 A2 M1 M2 K pr (fun k => nth i (maps k) []) (fun k => nth j (maps k) []) _ (table (ramp n) (C i j)) _ rows v HP Hv HCv).
  - intros k Hk. destruct (C65_determined (g k) (fs_nx s) (fs_ny s) (fs_lx s) (fs_ly s) (upper nf C) (repeat 0%Z nf) beam n seed parts arrival HA HT) as [mm [L1 [L2 D]]]. pose proof (HM k Hk) as M. apply D in M. injection M as ->. rewrite count_scalar in L1. split; apply L2, nth_In; rewrite L1; assumption.
  - intros p p' Hp Hp'. rewrite (C78_covariance K pr g s nf n C beam seed fresh parts arrival maps i j p p' HA HT Csym HC Hpi H2 HW HR HM Hi Hj Hp Hp' HU). unfold iso_cov. f_equal. apply lsum_ext. intros m _. unfold model_power, beam_of. ring.
Qed.
(** Independent random numbers exist: one realisation for each number drawn. *)
Theorem C78_white_exists lo hi N : (lo <= hi)%Z -> exists K pr (g : nat -> Z -> nat -> F * F), white K pr g lo hi N.
Proof. clear. intros _. exists (2 * (Z.to_nat (hi - lo) * N))%nat, (fun _ => 1), (unit_draw lo N). apply white_exists. Qed.
End S.
End Statements.

Section Interp.
Context {F : ofield}.
Local Open Scope F_scope.
Add Field FfPSy2 : (fth F).
Lemma interp_nonneg (xs : list F) : forall ys x, increasing xs = true -> (forall y, In y ys -> 0 <= y) -> hd 0 xs <= x -> 0 <= interp_lin xs ys x.
Proof.
  induction xs as [|x0 [|x1 xt] IH]; intros ys x HI HY Hx; try (destruct ys as [|? [|? ?]]; apply fle_refl). destruct ys as [|y0 [|y1 yt]]; try apply fle_refl.
  change (0 <= if x <? x1 then y0 + (x - x0) / (x1 - x0) * (y1 - y0) else interp_lin (x1 :: xt) (y1 :: yt) x). cbn [increasing] in HI. apply Bool.andb_true_iff in HI. destruct HI as [I1 I2]. fold (flt x0 x1) in I1. destruct (x <? x1) eqn:E.
  - fold (flt x x1) in E. cbn [hd] in Hx. assert (D : 0 < x1 - x0) by (exact (proj1 (flt_sub_0 x0 x1) I1)). assert (N : x1 - x0 <> 0) by (apply not_eq_sym, flt_neq; exact D). replace (y0 + (x - x0) / (x1 - x0) * (y1 - y0)) with ((x1 - x) / (x1 - x0) * y0 + (x - x0) / (x1 - x0) * y1) by (field; exact N).
    replace 0 with (0 + 0 : F) by ring. apply fle_add; apply fmul_nonneg; [apply (fdiv_nonneg _ _ (proj1 (fle_sub_0 x x1) (flt_le _ _ E)) D) | apply HY; cbn; auto | apply (fdiv_nonneg _ _ (proj1 (fle_sub_0 x0 x) Hx) D) | apply HY; cbn; auto].
  - apply IH; [exact I2 | intros y Hy; apply HY; right; exact Hy | cbn [hd]; apply fle_not_lt; intro Q; unfold flt in Q; rewrite Q in E; discriminate].
Qed.
Lemma table_nonneg (ells cl : list F) k : (forall y, In y cl -> 0 <= y) -> 0 <= table ells cl k.
Proof.
  intro H. unfold table, spectrum_at. destruct cl as [|y0 t]; [apply fle_refl|]. change (rd (y0 :: t) 0) with (Ok y0). cbn [bind]. unfold k_function. destruct ((2 <=? length ells)%nat && increasing ells)%bool eqn:E; [|apply fle_refl]. apply Bool.andb_true_iff in E. destruct E as [E1 E2]. apply Nat.leb_le in E1.
  destruct ells as [|a [|a' r]]; cbn [length] in E1; try lia. change (rd (a :: a' :: r) 0) with (Ok a). cbn [bind]. destruct (rd (a :: a' :: r) _); [|apply fle_refl | apply fle_refl]. cbn [bind]. destruct (k <=? a) eqn:K1; [apply H; left; reflexivity|]. destruct (_ <=? k); [apply fle_refl|]. cbn [from_ok]. apply interp_nonneg; [exact E2 | exact H|]. cbn [hd]. destruct (fle_total a k) as [Q|Q]; [exact Q|]. unfold fle in Q. rewrite Q in K1. discriminate.
Qed.
End Interp.

(** ** Over the real numbers: one scalar map with an odd number of pixels on both sides and a spectrum without negative entries *)
Open Scope R_scope.
Definition root1 (m : list (list R_field)) : list (list R_field) := match m with [[c]] => [[sqrt c]] | _ => m end.
Theorem C78_real (K : nat) (pr : nat -> R_field) (g : nat -> Z -> nat -> R_field * R_field) (s : fsinfo R_field) (cl : list R_field) seed fresh parts arrival (m : nat -> list R_field) p p' :
  Nat.odd (fs_nx s) = true -> Nat.odd (fs_ny s) = true -> 0 < fs_lx s -> 0 < fs_ly s -> (2 <= length cl)%nat -> (forall y, In y cl -> 0 <= y) -> threads_ok (fs_ny s) seed parts arrival ->
  white K pr g seed (seed + Z.of_nat (length parts)) (fs_ny s * nhalf s * 1)%nat ->
  (forall k, (k < K)%nat -> py_synfast_flat (F := R_field) PI sqrt phR (sqrt 2) (g k) root1 (fs_nx s) (fs_ny s) (fs_lx s) (fs_ly s) [cl] [0%Z] (Some [repeat (1 : R_field) (length cl)]) seed fresh parts arrival (Ok [m k])) ->
  In p (grid s) -> In p' (grid s) ->
  sum K (fun k => (pr k * (pix s (m k) p * pix s (m k) p'))%F) =
  iso_cov (F := R_field) PI sqrt phR s (fun k => (table (ramp (length cl)) (repeat (1 : R_field) (length cl)) k * table (ramp (length cl)) (repeat (1 : R_field) (length cl)) k * table (ramp (length cl)) cl k)%F) p p'.
Proof.
  intros O1 O2 Hlx Hly Hn Hnn HT HW HM Hp Hp'. pose proof PI_RGT_0 as Hpi. set (n := length cl) in *.
  assert (HA : accepted (F := R_field) (fs_lx s) (fs_ly s) (upper 1 (fun _ _ => cl)) (repeat 0%Z 1) (Some [repeat (1 : R_field) n]) n).
  { split; [apply R_lt; exact Hlx|]. split; [apply R_lt; exact Hly|]. split; [exact Hn|]. split; [discriminate|]. split; [intros sp [<-|[]]; lia|]. split; [reflexivity|]. split; [intros x [<-|[]]; reflexivity|]. split; [reflexivity|]. intros x [<-|[]]. apply repeat_length. }
  pose proof (C78_covariance (F := R_field) PI sqrt phR (sqrt 2) root1 K pr g s 1 n (fun _ _ => cl) (Some [repeat (1 : R_field) n]) seed fresh parts arrival (fun k => [m k]) 0 0 p p' HA HT (fun _ _ => eq_refl) (C62_real_roots s)) as T.
  apply T; clear T; try assumption; try lia.
  - change (PI <> 0). lra.
  - change (sqrt 2 * sqrt 2 = 1 + 1). rewrite sqrt_sqrt by lra. ring.
  - intros ix iy Hx Hy. cbv zeta. set (c := (1 / fofZ 2 * (1 / (dkx (F := R_field) PI s * dky (F := R_field) PI s)) * table (ramp n) cl (kmod_of (F := R_field) PI sqrt s (ix, iy)))%F). change (tab 1 (fun _ => tab 1 (fun _ => c))) with [[c]]. cbn [root1]. split; [split; [reflexivity | intros x [<-|[]]; reflexivity]|].
    intros i j Hi Hj. assert (i = 0%nat) as -> by lia. assert (j = 0%nat) as -> by lia. cbn [sum]. unfold entry2. cbn [nth]. change (0 + sqrt c * sqrt c = c). rewrite sqrt_sqrt; [ring|]. apply R_le. unfold c. apply (fmul_nonneg (F := R_field)); [|apply (table_nonneg (F := R_field)); intros y Hy'; apply R_le; apply Hnn; exact Hy'].
    apply R_le. change (0 <= 1 / (1 + 1) * (1 / ((1 + 1) * PI / fs_lx s * ((1 + 1) * PI / fs_ly s)))). assert (0 < (1 + 1) * PI / fs_lx s) by (apply Rdiv_lt_0_compat; [lra | exact Hlx]). assert (0 < (1 + 1) * PI / fs_ly s) by (apply Rdiv_lt_0_compat; [lra | exact Hly]).
    apply Rmult_le_pos; [lra|]. apply Rlt_le, Rdiv_lt_0_compat; [lra | apply Rmult_lt_0_compat; assumption].
  - intros mm Hm [E|[_ E]]; exfalso; [rewrite <- E in O1 | rewrite <- E in O2]; rewrite Nat.odd_mul in *; cbn in *; discriminate.
Qed.
Close Scope R_scope.

(** ** Examples: 4x4 pixels with modes k=0,3,4,5,... *)
Section Ex.
Notation Q := Qc_field.
Definition sy : fsinfo Q := FS 4 4 (q 1 2) (q 2 3).
Definition sqy (x : Q) : Q :=
  if feqb x (qz 0) then qz 0 else if feqb x (qz 9) then qz 3 else if feqb x (qz 16) then qz 4 else if feqb x (qz 25) then qz 5 else if feqb x (qz 36) then qz 6 else
  if feqb x (qz 52) then q 7211 1000 else if feqb x (qz 64) then qz 8 else if feqb x (qz 73) then q 8544 1000 else qz 10.
Definition sqr (x : Q) : Q := if feqb x (qz 0) then qz 0 else if feqb x (qz 1) then qz 1 else if feqb x (q 1 4) then q 1 2 else if feqb x (qz 4) then qz 2 else qz 0.
(** root of [[c,c],[c,2c]] or of [[c]] *)
Definition rooty (m : list (list Q)) : list (list Q) := let r := sqr (entry2 m 0 0) in if Nat.eqb (length m) 1 then [[r]] else [[r; qz 0]; [r; r]].
Definition toy (s : Z) (n : nat) : Q * Q := (fadd (qz (s * s)) (fofnat n), fmul (qz (s + 3)) (fofnat (n + 2))).
Definition low : list (list Q) := [map qz [24; 24; 24; 24; 24; 0; 0]%Z].
Definition flat : list (list Q) := [map qz [24; 24; 24; 24; 24; 24; 24; 24; 24; 24; 24]%Z].
Definition syn (cls : list (list Q)) (seed : Z) := py_synfast_flat (qz 1) sqy ph4 (q 7 5) toy rooty 4 4 (q 1 2) (q 2 3) cls [0%Z] None seed 0.
Definition syn_maps (cls : list (list Q)) n seed parts arrival : list (list Q) := from_ok [] (maps_of (qz 1) sqy ph4 sy [0%Z] (coefs (qz 1) sqy (q 7 5) rooty toy sy cls [0%Z] None n seed parts arrival)).
Lemma syn_eq cls n seed parts arrival r : accepted (q 1 2) (q 2 3) cls [0%Z] None n -> threads_ok 4 seed parts arrival -> syn cls seed parts arrival r <-> r = Ok (syn_maps cls n seed parts arrival).
Proof.
  intros HA HT. unfold syn, syn_maps. rewrite (syn_value (qz 1) sqy ph4 (q 7 5) rooty toy 4 4 (q 1 2) (q 2 3) cls [0%Z] None n) by assumption. change (FS 4 4 (q 1 2) (q 2 3)) with sy. change [0%Z] with (repeat 0%Z 1). rewrite maps_scalar by reflexivity. reflexivity.
Qed.
Lemma in1 {A} (P : A -> Prop) x : P x -> forall y, In y [x] -> P y. Proof. intros H y [<-|[]]. exact H. Qed.
Lemma acc_low : accepted (q 1 2) (q 2 3) low [0%Z] None 7.
Proof. repeat split; try reflexivity; try (intros; discriminate); try lia; apply in1; lia || reflexivity. Qed.
Lemma acc_flat : accepted (q 1 2) (q 2 3) flat [0%Z] None 11.
Proof. repeat split; try reflexivity; try (intros; discriminate); try lia; apply in1; lia || reflexivity. Qed.
Definition two : list (list nat) := [[0; 1]; [2; 3]]%nat.
Lemma ok1 s : (0 <= s < 100)%Z -> threads_ok 4 s [[0; 1; 2; 3]%nat] [0%nat].
Proof. intro H. split; [apply Permutation_refl|]. split; [apply Permutation_refl|]. cbn [length]. lia. Qed.
Lemma ok2 s : (0 <= s < 100)%Z -> threads_ok 4 s two [0; 1]%nat.
Proof. intro H. split; [apply Permutation_refl|]. split; [apply Permutation_refl|]. cbn [length two]. lia. Qed.
Lemma ok2' s : (0 <= s < 100)%Z -> threads_ok 4 s two [1; 0]%nat.
Proof. intro H. split; [apply Permutation_refl|]. split; [apply perm_swap|]. cbn [length two]. lia. Qed.
Example ex_C65_one_thread : accepted (q 1 2) (q 2 3) flat [0%Z] None 11 /\ threads_ok 4 5 [[0; 1; 2; 3]%nat] [0%nat] /\ map (map out) (syn_maps flat 11 5 [[0; 1; 2; 3]%nat] [0%nat]) <> map (map out) (syn_maps flat 11 8 [[0; 1; 2; 3]%nat] [0%nat]).
Proof. split; [exact acc_flat|]. split; [apply ok1; lia|]. vm_compute. discriminate. Qed.
Lemma differ (a b : list (list Q)) : map (map out) a <> map (map out) b -> Ok a <> Ok b.
Proof. intros H E. injection E as ->. apply H. reflexivity. Qed.
(** The maps depend on the number of threads ... *)
Theorem C65_thread_count_refuted : exists r1 r2, syn flat 5 [[0; 1; 2; 3]%nat] [0%nat] r1 /\ syn flat 5 two [0; 1]%nat r2 /\ r1 <> r2.
Proof.
  exists (Ok (syn_maps flat 11 5 [[0; 1; 2; 3]%nat] [0%nat])), (Ok (syn_maps flat 11 5 two [0; 1]%nat)). split; [apply (syn_eq flat 11); [exact acc_flat | apply ok1; lia | reflexivity]|]. split; [apply (syn_eq flat 11); [exact acc_flat | apply ok2; lia | reflexivity]|]. apply differ. vm_compute. discriminate.
Qed.
(** ... and on the order in which they enter the critical section. *)
Theorem C65_arrival_refuted : exists r1 r2, syn flat 5 two [0; 1]%nat r1 /\ syn flat 5 two [1; 0]%nat r2 /\ r1 <> r2.
Proof.
  exists (Ok (syn_maps flat 11 5 two [0; 1]%nat)), (Ok (syn_maps flat 11 5 two [1; 0]%nat)). split; [apply (syn_eq flat 11); [exact acc_flat | apply ok2; lia | reflexivity]|]. split; [apply (syn_eq flat 11); [exact acc_flat | apply ok2'; lia | reflexivity]|]. apply differ. vm_compute. discriminate.
Qed.
(** Two seeds can give the same maps (that are not constant). *)
Theorem C65_distinct_seeds_refuted : exists m, syn low 5 two [1; 0]%nat (Ok [m]) /\ syn low 6 two [0; 1]%nat (Ok [m]) /\ nth 0 m f0 <> nth 1 m f0.
Proof.
  assert (E : syn_maps low 7 5 two [1; 0]%nat = syn_maps low 7 6 two [0; 1]%nat).
  { unfold syn_maps. do 2 f_equal. }
  exists (nth 0 (syn_maps low 7 6 two [0; 1]%nat) []). assert (L : syn_maps low 7 6 two [0; 1]%nat = [nth 0 (syn_maps low 7 6 two [0; 1]%nat) []]) by (unfold syn_maps; change [0%Z] with (repeat 0%Z 1); rewrite maps_scalar by reflexivity; reflexivity).
  split; [apply (syn_eq low 7); [exact acc_low | apply ok2'; lia | rewrite E; f_equal; symmetry; exact L]|]. split; [apply (syn_eq low 7); [exact acc_low | apply ok2; lia | f_equal; symmetry; exact L]|].
  intro X. apply (f_equal out) in X. vm_compute in X. discriminate X.
Qed.
(** If the spectrum does not vanish at the modes of column nx/2 and at (0,ny/2), their power is too low: 2x2 pixels, one thread.  Here only the origin has no power, so that the value of M_SQRT2 does not matter. *)
Definition s22 : fsinfo Q := FS 2 2 (q 1 2) (q 2 3).
Definition high : list Q := map qz [0; 0; 0; 24; 24; 24; 24]%Z.
Definition real22 (k : nat) : list Q := nth 0 (from_ok [] (maps_of (qz 1) sqy ph4 s22 [0%Z] (coefs (qz 1) sqy (q 7 5) rooty (unit_draw 5 4 k) s22 [high] [0%Z] None 7 5 [[0; 1]%nat] [0%nat]))) [].
Theorem C78_nyquist_refuted : accepted (q 1 2) (q 2 3) [high] [0%Z] None 7 /\ threads_ok 2 5 [[0; 1]%nat] [0%nat] /\ white (F := Q) 8 (fun _ => qz 1) (unit_draw 5 4) 5 6 4 /\
  (forall k, py_synfast_flat (qz 1) sqy ph4 (q 7 5) (unit_draw 5 4 k) rooty 2 2 (q 1 2) (q 2 3) [high] [0%Z] None 5 0 [[0; 1]%nat] [0%nat] (Ok [real22 k])) /\
  fmul (qz 2) (sum 8 (fun k => fmul (pix s22 (real22 k) (0, 0)%nat) (pix s22 (real22 k) (0, 0)%nat))) = iso_cov (qz 1) sqy ph4 s22 (table (ramp 7) high) (0, 0)%nat (0, 0)%nat /\
  iso_cov (qz 1) sqy ph4 s22 (table (ramp 7) high) (0, 0)%nat (0, 0)%nat <> qz 0.
Proof.
  assert (HA : accepted (q 1 2) (q 2 3) [high] [0%Z] None 7) by (repeat split; try reflexivity; try (intros; discriminate); try lia; apply in1; lia || reflexivity).
  assert (HT : threads_ok 2 5 [[0; 1]%nat] [0%nat]) by (split; [apply Permutation_refl|]; split; [apply Permutation_refl|]; cbn [length]; lia).
  split; [exact HA|]. split; [exact HT|]. split; [exact (white_exists (F := Q) 5 6 4)|]. split; [|split].
  - intro k. apply (syn_value (qz 1) sqy ph4 (q 7 5) rooty (unit_draw 5 4 k) 2 2 (q 1 2) (q 2 3) [high] [0%Z] None 7); [exact HA | exact HT|]. unfold real22. change (FS 2 2 (q 1 2) (q 2 3)) with s22. change [0%Z] with (repeat 0%Z 1). rewrite maps_scalar by reflexivity. reflexivity.
  - apply out_inj. vm_compute. reflexivity.
  - intro X. apply (f_equal out) in X. vm_compute in X. discriminate X.
Qed.
End Ex.

(** synfast_spherical ignores its seed unless it is negative *)
Theorem C65_spherical_ignores_seed {G A M : Type} (randint : G -> Z * G) (synalm : G -> A * G) (rest : A -> res M) seed seed' g : (0 <= seed)%Z -> (0 <= seed')%Z ->
  synfast_spherical randint synalm rest seed g = synfast_spherical randint synalm rest seed' g.
Proof. intros H H'. unfold synfast_spherical. rewrite (proj2 (Z.ltb_ge _ _) H), (proj2 (Z.ltb_ge _ _) H'). reflexivity. Qed.
(** ... so that two calls with the same seed give different maps: the state of the global generator has moved on *)
Theorem C65_spherical_seed_refuted : exists (G A M : Type) (randint : G -> Z * G) (synalm : G -> A * G) (rest : A -> res M) seed g, (0 <= seed)%Z /\
  let r := synfast_spherical randint synalm rest seed g in fst (synfast_spherical randint synalm rest seed (snd r)) <> fst r.
Proof. exists nat, nat, nat, (fun g => (Z.of_nat g, S g)), (fun g => (g, S g)), (fun a => Ok a), 7%Z, 0%nat. split; [lia|]. cbn. discriminate. Qed.

(** C78_real applies, for instance, to maps of 3x5 pixels made by two threads. *)
Example ex_C78_real : let s := FS (F := R_field) 3 5 1%R 2%R in Nat.odd (fs_nx s) = true /\ Nat.odd (fs_ny s) = true /\ threads_ok (fs_ny s) 12 [[0; 1; 2]; [3; 4]]%nat [1; 0]%nat /\
  (exists K pr (g : nat -> Z -> nat -> R_field * R_field), white K pr g 12 (12 + Z.of_nat 2) (fs_ny s * nhalf s * 1)) /\ forall y, In y [4; 1; 0; 3]%R -> (0 <= y)%R.
Proof.
  split; [reflexivity|]. split; [reflexivity|]. split; [split; [apply Permutation_refl|]; split; [apply perm_swap|]; cbn [length]; lia|]. split; [apply (C78_white_exists (F := R_field)); lia|]. intros y H. cbn in H. intuition lra.
Qed.
Print Assumptions C65_determined. Print Assumptions C65_one_thread. Print Assumptions C65_shared_streams. Print Assumptions C65_thread_count_refuted. Print Assumptions C65_arrival_refuted. Print Assumptions C65_distinct_seeds_refuted.
Print Assumptions C65_spherical_ignores_seed. Print Assumptions C65_spherical_seed_refuted. Print Assumptions C78_covariance. Print Assumptions C78_master_unbiased. Print Assumptions C78_white_exists. Print Assumptions C78_real. Print Assumptions C78_nyquist_refuted.
