(** Property C63: flat-sky workspaces; decoupling inverts coupling. *)
From Verif Require Import Base M_Utils M_Bins M_FlatBins M_LinAlg M_Workspace M_Flat M_WspFlat P_FlatBins L_LinAlg L_Flat L_Flat2 L_Flat3 P_Flat L_WspFlat L_WspFlat2.
From Coq Require Import Permutation.
Open Scope nat_scope.

Section Statements.
Context {F : ofield}.
Local Open Scope F_scope.
Add Field FfPWF : (fth F).
Notation mat := (list (list F)).
Notation cplx := (cplx F).
Notation fsinfo := (fsinfo F).
Notation fbins := (fbins F).
Notation cuts := (cuts F).
Notation ffield := (ffield F).
Notation fwsp := (fwsp F).

Definition add3 (n k : nat) (a x y : mat) : mat := tab n (fun i => tab k (fun j => entry2 a i j + entry2 x i j + entry2 y i j)).
Lemma entry_add3 n k a x y i j : (i < n)%nat -> (j < k)%nat -> entry2 (add3 n k a x y) i j = entry2 a i j + entry2 x i j + entry2 y i j.
Proof. intros Hi Hj. unfold entry2 at 1, add3. rewrite nth_tab by exact Hi. rewrite nth_tab by exact Hj. reflexivity. Qed.
(** decouple_cell returns the solution of the binned system, after the biases have been subtracted, and fails if there is not exactly one. *)
Theorem C63_decouple_solves (w : fwsp) (cl bias noise v : mat) : (0 < fw_ncls w)%nat -> square (fw_ncls w * fw_nb w) (fw_bnd w) ->
  rect (fw_ncls w) (fw_nb w) cl -> rect (fw_ncls w) (fw_nb w) bias -> rect (fw_ncls w) (fw_nb w) noise ->
  (py_decouple (Some w) cl (Some bias) (Some noise) = Ok v <->
   nonsingular (fw_ncls w * fw_nb w) (fw_bnd w) /\ rect (fw_ncls w) (fw_nb w) v /\
   forall i ib, (i < fw_ncls w)%nat -> (ib < fw_nb w)%nat -> entry2 cl i ib = apply_matrix (fw_bnd w) (fw_ncls w) (fw_nb w) v i ib + entry2 bias i ib + entry2 noise i ib).
Proof.
  intros Hn Hs H1 H2 H3. unfold py_decouple, need. cbn [bind]. rewrite !(check_shape_ok (fw_ncls w) (fw_nb w)) by assumption. cbn [bind]. rewrite (fdecouple_iff w cl noise bias v Hn Hs H1 H3 H2).
  split; intros [N [R H]]; (split; [exact N|]; split; [exact R|]); intros i ib Hi Hb; specialize (H i ib Hi Hb); [rewrite H; ring | rewrite H; ring].
Qed.
(** without biases *)
Theorem C63_no_bias (w : fwsp) (cl bias noise : mat) : (0 < fw_ncls w)%nat -> rect (fw_ncls w) (fw_nb w) cl -> rect (fw_ncls w) (fw_nb w) bias -> rect (fw_ncls w) (fw_nb w) noise ->
  (forall i ib, (i < fw_ncls w)%nat -> (ib < fw_nb w)%nat -> entry2 bias i ib = 0) -> (forall i ib, (i < fw_ncls w)%nat -> (ib < fw_nb w)%nat -> entry2 noise i ib = 0) ->
  py_decouple (Some w) cl None None = py_decouple (Some w) cl (Some bias) (Some noise) /\
  py_decouple (Some w) cl (Some bias) None = py_decouple (Some w) cl (Some bias) (Some noise) /\ py_decouple (Some w) cl None (Some noise) = py_decouple (Some w) cl (Some bias) (Some noise).
Proof.
  intros Hn H1 H2 H3 Z1 Z2. assert (E1 : zeros_like cl = bias). { apply (rect_ext (fw_ncls w) (fw_nb w)); [apply rect_zeros; exact H1 | exact H2|]. intros i j Hi Hj. rewrite entry_zeros, Z1 by assumption. reflexivity. }
  assert (E2 : zeros_like cl = noise). { apply (rect_ext (fw_ncls w) (fw_nb w)); [apply rect_zeros; exact H1 | exact H3|]. intros i j Hi Hj. rewrite entry_zeros, Z2 by assumption. reflexivity. }
  unfold py_decouple, need. cbn [bind]. rewrite !(check_shape_ok (fw_ncls w) (fw_nb w)) by assumption. cbn [bind]. rewrite <- E1, <- E2. auto.
Qed.
(** wrong shapes and missing workspaces are reported *)
Theorem C63_guards (p : option fwsp) (cl : mat) (bias noise : option mat) (pi : F) (fsqrt : F -> F) (trunc : F -> Z) (ells : list F) (rows : list nat) :
  match p with
  | None => py_decouple p cl bias noise = Exn AttributeError /\ py_couple pi fsqrt trunc p ells cl rows = Exn AttributeError
  | Some w => (0 < fw_ncls w)%nat ->
      (length cl <> fw_ncls w \/ length (hd [] cl) <> fw_nb w -> py_decouple p cl bias noise = Exn ValueError) /\
      (length cl <> fw_ncls w \/ length (hd [] cl) <> length ells -> py_couple pi fsqrt trunc p ells cl rows = Exn ValueError) /\
      (forall x, bias = Some x -> length cl = fw_ncls w -> length (hd [] cl) = fw_nb w -> length x <> fw_ncls w \/ length (hd [] x) <> fw_nb w -> py_decouple p cl bias noise = Exn ValueError) /\
      (forall x, bias = None -> noise = Some x -> length cl = fw_ncls w -> length (hd [] cl) = fw_nb w -> length x <> fw_ncls w \/ length (hd [] x) <> fw_nb w -> py_decouple p cl bias noise = Exn ValueError)
  end.
Proof.
  destruct p as [w|]; [|split; reflexivity]. intro Hn. unfold py_decouple, py_couple, need. cbn [bind].
  assert (S : forall k (a : mat), length a <> fw_ncls w \/ length (hd [] a) <> k -> check_shape (fw_ncls w) k a = Exn ValueError).
  { intros k a H. unfold check_shape. destruct (Nat.eqb_spec (length a) (fw_ncls w)) as [E|E]; [|reflexivity]. cbn [negb]. destruct a as [|r t]; [cbn in E; lia|]. destruct H as [H|H]; [congruence|]. apply Nat.eqb_neq in H. rewrite H. reflexivity. }
  assert (T : forall k (a : mat), length a = fw_ncls w -> length (hd [] a) = k -> check_shape (fw_ncls w) k a = Ok tt).
  { intros k a H1 H2. unfold check_shape. rewrite H1, Nat.eqb_refl. cbn [negb]. destruct a as [|r t]; [cbn in H1; lia|]. rewrite H2, Nat.eqb_refl. reflexivity. }
  repeat split.
  - intro H. rewrite (S _ _ H). reflexivity.
  - intro H. rewrite (S _ _ H). reflexivity.
  - intros x -> H1 H2 H. rewrite (T _ _ H1 H2). cbn [bind]. rewrite (S _ _ H). reflexivity.
  - intros x -> -> H1 H2 H. rewrite (T _ _ H1 H2). cbn [bind]. rewrite (S _ _ H). reflexivity.
Qed.

Section Computed.
Variables (pi : F) (fsqrt : F -> F) (trunc : F -> Z) (ph : nat -> nat -> cplx).
Notation kmod_of := (kmod_of pi fsqrt).
Notation modes := (modes pi fsqrt).
Notation ring := (ring pi fsqrt trunc).
Notation coupling_matrix := (coupling_matrix pi fsqrt trunc ph).

Lemma computed_spec f1 f2 b c teb rows w : contiguous b -> all_rows (ff_fs f1) rows -> coupling_matrix f1 f2 b c teb rows = Ok w -> wsp_spec pi fsqrt trunc ph w f1 f2 b c teb.
Proof.
  intros Hc P E. rewrite (coupling_matrix_eq pi fsqrt trunc ph f1 f2 b c teb rows Hc P) in E. destruct (negb _); [discriminate|]. destruct (teb && _)%bool; [discriminate|]. injection E as <-. apply wsp_of_spec.
Qed.
(** The workspace does not depend on how the rows are distributed over threads, nor does the result of couple_cell. *)
Theorem C63_threads f1 f2 b c teb rows rows' w ells cls o o' : contiguous b -> all_rows (ff_fs f1) rows -> all_rows (ff_fs f1) rows' -> all_rows (ff_fs f1) o -> all_rows (ff_fs f1) o' ->
  good_ells ells -> rect (n_spectra f1 f2 teb) (length ells) cls -> coupling_matrix f1 f2 b c teb rows = Ok w ->
  coupling_matrix f1 f2 b c teb rows' = Ok w /\ couple_fast pi fsqrt trunc w ells cls o = couple_fast pi fsqrt trunc w ells cls o'.
Proof.
  intros Hc P P' Po Po' He Hcl E. split.
  - rewrite (coupling_matrix_eq pi fsqrt trunc ph f1 f2 b c teb rows Hc P) in E. rewrite (coupling_matrix_eq pi fsqrt trunc ph f1 f2 b c teb rows' Hc P'). exact E.
  - pose proof (computed_spec f1 f2 b c teb rows w Hc P E) as W. rewrite !(couple_fast_ok pi fsqrt trunc ph w f1 f2 b c teb) by assumption. reflexivity.
Qed.
(** The workspace is refused for different pixelisations, and for a T-E-B matrix of the wrong spins; it is computed in all other cases. *)
Theorem C63_accepts f1 f2 b c teb rows : contiguous b -> all_rows (ff_fs f1) rows ->
  ((exists w, coupling_matrix f1 f2 b c teb rows = Ok w) <-> ff_fs f1 = ff_fs f2 /\ (teb = true -> ff_spin f1 = 0%Z /\ ff_spin f2 <> 0%Z)) /\
  ((forall w, coupling_matrix f1 f2 b c teb rows <> Ok w) -> coupling_matrix f1 f2 b c teb rows = Exn RuntimeError).
Proof.
  intros Hc P. rewrite (coupling_matrix_eq pi fsqrt trunc ph f1 f2 b c teb rows Hc P). destruct (same_fs (ff_fs f1) (ff_fs f2)) eqn:E; cbn [negb].
  - apply same_fs_eq in E. destruct teb; cbn [andb].
    + destruct (Z.eqb_spec (ff_spin f1) 0) as [E1|E1], (Z.eqb_spec (ff_spin f2) 0) as [E2|E2]; cbn [negb andb]; split; try (split; [intros [w Hw]; try discriminate; auto | intros [_ H]; try (specialize (H eq_refl); destruct H; congruence)]); try reflexivity.
      * eexists; reflexivity.
      * intro H. exfalso. eapply H. reflexivity.
    + split; [split; [intros _; split; [exact E | discriminate] | intros _; eexists; reflexivity]|]. intro H. exfalso. eapply H. reflexivity.
  - split; [|reflexivity]. split; [intros [w Hw]; discriminate|]. intros [H _]. exfalso. rewrite H in E. unfold same_fs in E. rewrite !Nat.eqb_refl in E. cbn [andb] in E.
    rewrite !(proj2 (feqb_eq _ _)) in E by reflexivity. discriminate.
Qed.
(** The number of modes recorded for each band is the number of modes that enter the estimator. *)
Theorem C63_cells f1 f2 b c teb rows w i : contiguous b -> all_rows (ff_fs f1) rows -> coupling_matrix f1 f2 b c teb rows = Ok w -> (i < n_bands b)%nat ->
  nth i (fw_cells w) 0%Z = Z.of_nat (length (modes (ff_fs f1) b c i)).
Proof. intros Hc P E Hi. apply (ws_cells _ _ _ _ _ _ _ _ _ _ (computed_spec f1 f2 b c teb rows w Hc P E)). exact Hi. Qed.

(** a spectrum that takes one value on the modes of each band and vanishes at all other modes *)
Definition piecewise (s : fsinfo) (b : fbins) (n : nat) (ells : list F) (cls v : mat) : Prop :=
  forall j m, (j < n)%nat -> In m (grid s) ->
    (forall i, (i < n_bands b)%nat -> inb b i (kmod_of s m) = true -> spec_val ells (nth j cls []) (kmod_of s m) = entry2 v j i) /\
    ((forall i, (i < n_bands b)%nat -> inb b i (kmod_of s m) = false) -> spec_val ells (nth j cls []) (kmod_of s m) = 0).
(** no ring of width dell contains modes of two bands, or of a band and of none *)
Definition rings_nested (s : fsinfo) (b : fbins) : Prop :=
  forall m m', In m (grid s) -> In m' (grid s) -> ring s m = ring s m' -> forall i, (i < n_bands b)%nat -> inb b i (kmod_of s m) = inb b i (kmod_of s m').
(** every mode that belongs to a band belongs to a ring *)
Definition rings_reach (s : fsinfo) (b : fbins) : Prop :=
  forall m i, In m (grid s) -> (i < n_bands b)%nat -> inb b i (kmod_of s m) = true -> (0 <= ring s m)%Z.
Lemma piecewise_value s b n ells cls v j m : contiguous b -> piecewise s b n ells cls v -> (j < n)%nat -> In m (grid s) -> spec_val ells (nth j cls []) (kmod_of s m) = band_value b (nth j v []) (kmod_of s m).
Proof.
  intros Hc Hp Hj Hm. destruct (Hp j m Hj Hm) as [A B]. destruct (find (fun i => inb b i (kmod_of s m)) (seq 0 (n_bands b))) as [i|] eqn:E.
  - apply find_some in E. destruct E as [E1 E2]. apply in_seq in E1. rewrite (band_value_in b _ _ i Hc) by (lia || exact E2). apply A; [lia | exact E2].
  - pose proof (find_none _ _ E) as N. assert (Z : forall i, (i < n_bands b)%nat -> inb b i (kmod_of s m) = false) by (intros i Hi; apply (N i); apply in_seq; lia). rewrite (band_value_out b) by exact Z. apply B. exact Z.
Qed.
Lemma ring_value_band s b n ells cls v j m : contiguous b -> piecewise s b n ells cls v -> rings_nested s b -> rings_reach s b -> (j < n)%nat -> In m (grid s) ->
  ring_value pi fsqrt trunc s ells (nth j cls []) m = band_value b (nth j v []) (kmod_of s m).
Proof.
  intros Hc Hp HN HR Hj Hm. unfold ring_value. destruct (Z.leb_spec 0 (ring s m)) as [H|H].
  - unfold ring_avg. cbv zeta. set (l := ring_modes pi fsqrt trunc s (Z.to_nat (ring s m))).
    assert (Il : forall m', In m' l -> In m' (grid s) /\ ring s m' = ring s m). { intros m' Q. unfold l, ring_modes in Q. apply filter_In in Q. destruct Q as [Q1 Q2]. apply Z.eqb_eq in Q2. rewrite Z2Nat.id in Q2 by exact H. auto. }
    assert (Im : In m l). { unfold l, ring_modes. apply filter_In. split; [exact Hm|]. apply Z.eqb_eq. rewrite Z2Nat.id by exact H. reflexivity. }
    rewrite (lsum_const _ (band_value b (nth j v []) (kmod_of s m))).
    + destruct l as [|x t]; [destruct Im|]. cbn [length Nat.eqb]. pose proof (fofnat_neq0 (F:=F) (length t)) as NZ. set (z := fofnat (S (length t))) in *. field. exact NZ.
    + intros m' Q. destruct (Il m' Q) as [Q1 Q2]. rewrite (piecewise_value s b n ells cls v j m' Hc Hp Hj Q1). unfold band_value. apply sum_ext. intros i Hi. rewrite (HN m' m Q1 Hm Q2 i Hi). reflexivity.
  - symmetry. apply band_value_out. intros i Hi. destruct (inb b i (kmod_of s m)) eqn:E; [|reflexivity]. pose proof (HR m i Hm Hi E). lia.
Qed.
(** Coupling a spectrum that is constant in each band with couple_cell, adding any biases and decoupling returns the bandpowers. *)
Theorem C63_round_trip f1 f2 b c teb rows w ells cls v bias noise o : contiguous b -> all_rows (ff_fs f1) rows -> all_rows (ff_fs f1) o -> coupling_matrix f1 f2 b c teb rows = Ok w ->
  nonsingular (fw_ncls w * fw_nb w) (fw_bnd w) -> good_ells ells -> rect (n_spectra f1 f2 teb) (length ells) cls ->
  rect (n_spectra f1 f2 teb) (n_bands b) v -> rect (n_spectra f1 f2 teb) (n_bands b) bias -> rect (n_spectra f1 f2 teb) (n_bands b) noise ->
  piecewise (ff_fs f1) b (n_spectra f1 f2 teb) ells cls v -> rings_nested (ff_fs f1) b -> rings_reach (ff_fs f1) b ->
  exists pcl, py_couple pi fsqrt trunc (Some w) ells cls o = Ok pcl /\ rect (n_spectra f1 f2 teb) (n_bands b) pcl /\
    py_decouple (Some w) pcl None None = Ok v /\
    py_decouple (Some w) (add3 (n_spectra f1 f2 teb) (n_bands b) pcl bias noise) (Some bias) (Some noise) = Ok v.
Proof.
  intros Hc P Po E N He Hcl Hv Hbi Hno Hp HN HR. pose proof (computed_spec f1 f2 b c teb rows w Hc P E) as W. pose proof (ws_ncls _ _ _ _ _ _ _ _ _ _ W) as En. assert (Eb : fw_nb w = n_bands b) by (unfold fw_nb, n_bands; rewrite (ws_bin _ _ _ _ _ _ _ _ _ _ W); reflexivity).
  pose proof (n_spectra_pos f1 f2 teb) as Hn. pose proof (ws_sq _ _ _ _ _ _ _ _ _ _ W) as Hs.
  set (pcl := tab (n_spectra f1 f2 teb) (fun i => tab (n_bands b) (fun ib => coupled pi fsqrt ph f1 f2 b c teb (fun j => ring_value pi fsqrt trunc (ff_fs f1) ells (nth j cls [])) i ib))).
  assert (Rp : rect (n_spectra f1 f2 teb) (n_bands b) pcl) by apply rect_tab. exists pcl. split; [|split; [exact Rp|]].
  - unfold py_couple, need. cbn [bind]. rewrite En, (check_shape_ok _ _ cls Hn Hcl). cbn [bind]. apply (couple_fast_ok pi fsqrt trunc ph w f1 f2 b c teb); assumption.
  - assert (Ep : forall i ib, (i < n_spectra f1 f2 teb)%nat -> (ib < n_bands b)%nat -> entry2 pcl i ib = apply_matrix (fw_bnd w) (n_spectra f1 f2 teb) (n_bands b) v i ib).
    { intros i ib Hi Hb. rewrite (binned_ok pi fsqrt trunc ph w f1 f2 b c teb v i ib W Hi Hb). unfold entry2, pcl. rewrite nth_tab by exact Hi. rewrite nth_tab by exact Hb. apply coupled_ext. intros j m Hj Hm. apply (ring_value_band (ff_fs f1) b (n_spectra f1 f2 teb)); assumption. }
    assert (Main : forall x y, rect (n_spectra f1 f2 teb) (n_bands b) x -> rect (n_spectra f1 f2 teb) (n_bands b) y -> py_decouple (Some w) (add3 (n_spectra f1 f2 teb) (n_bands b) pcl x y) (Some x) (Some y) = Ok v).
    { intros x y Hx Hy. apply C63_decouple_solves; rewrite ?En, ?Eb; try assumption; [apply rect_tab|]. rewrite En, Eb in N. split; [exact N|]. split; [exact Hv|]. intros i ib Hi Hb. rewrite (entry_add3 _ _ _ _ _ i ib Hi Hb), (Ep i ib Hi Hb). reflexivity. }
    split; [|apply Main; assumption]. set (z := zeros_like pcl). assert (Rz : rect (n_spectra f1 f2 teb) (n_bands b) z) by (apply rect_zeros; exact Rp).
    assert (Ez : add3 (n_spectra f1 f2 teb) (n_bands b) pcl z z = pcl). { apply (rect_ext (n_spectra f1 f2 teb) (n_bands b)); [apply rect_tab | exact Rp|]. intros i j Hi Hj. rewrite entry_add3 by assumption. unfold z. rewrite entry_zeros. ring. }
    destruct (C63_no_bias w pcl z z) as [-> _]; rewrite ?En, ?Eb; try assumption; try (intros; apply entry_zeros). rewrite <- Ez at 1. apply Main; assumption.
Qed.
(** nmt_couple_cl_l_flat_quick: decoupling returns the average of the spectrum over the modes of each band that are kept, for all spectra. *)
Theorem C63_quick_round_trip f1 f2 b c teb rows w ells cls : contiguous b -> all_rows (ff_fs f1) rows -> coupling_matrix f1 f2 b c teb rows = Ok w ->
  nonsingular (fw_ncls w * fw_nb w) (fw_bnd w) -> good_ells ells -> rect (n_spectra f1 f2 teb) (length ells) cls ->
  exists pcl v, couple_quick pi fsqrt w ells cls = Ok pcl /\ py_decouple (Some w) pcl None None = Ok v /\ rect (n_spectra f1 f2 teb) (n_bands b) v /\
    forall j i, (j < n_spectra f1 f2 teb)%nat -> (i < n_bands b)%nat ->
      fofnat (length (modes (ff_fs f1) b c i)) * entry2 v j i = lsum (map (fun m => spec_val ells (nth j cls []) (kmod_of (ff_fs f1) m)) (modes (ff_fs f1) b c i)).
Proof.
  intros Hc P E N He Hcl. pose proof (computed_spec f1 f2 b c teb rows w Hc P E) as W. pose proof (ws_ncls _ _ _ _ _ _ _ _ _ _ W) as En. assert (Eb : fw_nb w = n_bands b) by (unfold fw_nb, n_bands; rewrite (ws_bin _ _ _ _ _ _ _ _ _ _ W); reflexivity).
  pose proof (n_spectra_pos f1 f2 teb) as Hn. pose proof (ws_sq _ _ _ _ _ _ _ _ _ _ W) as Hs. rewrite (couple_quick_ok pi fsqrt trunc ph w f1 f2 b c teb ells cls Hc W He Hcl).
  set (v := tab (n_spectra f1 f2 teb) (fun j => tab (n_bands b) (mode_mean pi fsqrt (ff_fs f1) b c ells (nth j cls [])))). eexists _, v. split; [reflexivity|]. set (pcl := tab (n_spectra f1 f2 teb) _).
  assert (Rv : rect (n_spectra f1 f2 teb) (n_bands b) v) by apply rect_tab. assert (Rp : rect (n_spectra f1 f2 teb) (n_bands b) pcl) by apply rect_tab.
  split; [|split; [exact Rv|]].
  - set (z := zeros_like pcl). assert (Rz : rect (n_spectra f1 f2 teb) (n_bands b) z) by (apply rect_zeros; exact Rp).
    destruct (C63_no_bias w pcl z z) as [-> _]; rewrite ?En, ?Eb; try assumption; try (intros; apply entry_zeros). apply C63_decouple_solves; rewrite ?En, ?Eb; try assumption. rewrite En, Eb in N. split; [exact N|]. split; [exact Rv|].
    intros i ib Hi Hb. unfold z. rewrite entry_zeros. unfold entry2 at 1, pcl. rewrite nth_tab by exact Hi. rewrite nth_tab by exact Hb. ring.
  - intros j i Hj Hi. unfold entry2, v. rewrite nth_tab by exact Hj. rewrite nth_tab by exact Hi. unfold mode_mean. cbv zeta. destruct (modes (ff_fs f1) b c i) as [|x t]; [cbn; ring|]. cbn [length Nat.eqb]. set (y := lsum _). pose proof (fofnat_neq0 (F:=F) (length t)) as NZ. set (z := fofnat (S (length t))) in *. field. exact NZ.
Qed.
End Computed.
End Statements.

(** ** Examples *)
Section Ex.
Notation Q := Qc_field.
Definition trq (x : Q) : Z := (QArith_base.Qnum (out x) / Z.pos (QArith_base.Qden (out x)))%Z.
Definition mask44 : list Q := map qz [1; 1; 1; 0; 1; 2; 1; 0; 1; 1; 3; 0; 0; 0; 0; 1]%Z.
Definition field44 (spin : Z) (mask : list Q) : ffield Q := FF s44 spin false false mask (fun _ => qz 1) [] false.
Definition bring : fbins Q := FBins [qz 0; q 1 2] [q 1 2; qz 2].
Lemma contiguous_ring : contiguous bring.
Proof.
  split; [split; [reflexivity|split; [cbn; lia|split]]|].
  - intros i Hi. change (n_bands bring) with 2%nat in Hi. destruct i as [|[|i]]; try lia; vm_compute; reflexivity.
  - intros i Hi. change (n_bands bring) with 2%nat in Hi. destruct i as [|i]; try lia. vm_compute; reflexivity.
  - intros i Hi. change (n_bands bring) with 2%nat in Hi. destruct i as [|i]; try lia. apply out_inj. vm_compute; reflexivity.
Qed.
Definition free : cuts Q := Cuts (qz 1) (qz (-1)) (qz 1) (qz (-1)).
Definition wsp44 (spin : Z) (mask : list Q) (b : fbins Q) : res (fwsp Q) := coupling_matrix (qz 1) sq8 trq ph4 (field44 0 mask) (field44 spin mask) b free false [2; 0; 1; 3]%nat.
Definition dummy : fwsp Q := FW 0 s44 bring free [] [] [].
Definition ell4 : list Q := [qz 0; q 1 2; q 3 2; qz 2].
Lemma nonsingular_of_solution (w : fwsp Q) : (0 < fw_ncls w)%nat -> square (fw_ncls w * fw_nb w) (fw_bnd w) -> is_ok (py_decouple (Some w) (tab (fw_ncls w) (fun _ => tab (fw_nb w) (fun _ => qz 0))) None None) = true -> nonsingular (fw_ncls w * fw_nb w) (fw_bnd w).
Proof.
  intros Hn Hs H. set (z := tab (fw_ncls w) (fun _ => tab (fw_nb w) (fun _ => qz 0))) in *. assert (Rz : rect (fw_ncls w) (fw_nb w) z) by apply rect_tab.
  assert (Ez : forall i j, (i < fw_ncls w)%nat -> (j < fw_nb w)%nat -> entry2 z i j = qz 0). { intros i j Hi Hj. unfold entry2, z. rewrite nth_tab by exact Hi. rewrite nth_tab by exact Hj. reflexivity. }
  destruct (C63_no_bias w z z z Hn Rz Rz Rz) as [E _]; try exact Ez. rewrite E in H. destruct (py_decouple (Some w) z (Some z) (Some z)) as [v| |] eqn:Ev; try discriminate. apply (proj1 (C63_decouple_solves w z z z v Hn Hs Rz Rz Rz)) in Ev. exact (proj1 Ev).
Qed.
Lemma in_grid44 (P : nat * nat -> Prop) : (forall m, In m (grid s44) -> P m) <-> Forall P (grid s44).
Proof. rewrite Forall_forall. reflexivity. Qed.
Definition nested_b (s : fsinfo Q) (b : fbins Q) : bool :=
  forallb (fun m => forallb (fun m' => negb (ring (qz 1) sq8 trq s m =? ring (qz 1) sq8 trq s m')%Z || forallb (fun i => Bool.eqb (inb b i (kmod_of (qz 1) sq8 s m)) (inb b i (kmod_of (qz 1) sq8 s m'))) (seq 0 (n_bands b)))%bool (grid s)) (grid s).
Definition reach_b (s : fsinfo Q) (b : fbins Q) : bool :=
  forallb (fun m => forallb (fun i => negb (inb b i (kmod_of (qz 1) sq8 s m)) || (0 <=? ring (qz 1) sq8 trq s m)%Z)%bool (seq 0 (n_bands b))) (grid s).
Lemma nested_ok s b : nested_b s b = true -> rings_nested (qz 1) sq8 trq s b.
Proof.
  intros H m m' Hm Hm' E i Hi. unfold nested_b in H. rewrite forallb_forall in H. specialize (H m Hm). cbv beta in H. rewrite forallb_forall in H. specialize (H m' Hm'). cbv beta in H. rewrite E, Z.eqb_refl in H. cbn [negb orb] in H.
  rewrite forallb_forall in H. specialize (H i). apply Bool.eqb_prop. apply H. apply in_seq. lia.
Qed.
Lemma reach_ok s b : reach_b s b = true -> rings_reach (qz 1) sq8 trq s b.
Proof.
  intros H m i Hm Hi E. unfold reach_b in H. rewrite forallb_forall in H. specialize (H m Hm). cbv beta in H. rewrite forallb_forall in H. specialize (H i). cbv beta in H. rewrite E in H. cbn [negb orb] in H. apply Z.leb_le. apply H. apply in_seq. lia.
Qed.
Definition piecewise_b (s : fsinfo Q) (b : fbins Q) (n : nat) (ells : list Q) (cls v : list (list Q)) : bool :=
  forallb (fun j => forallb (fun m => feqb (spec_val ells (nth j cls []) (kmod_of (qz 1) sq8 s m)) (band_value b (nth j v []) (kmod_of (qz 1) sq8 s m))) (grid s)) (seq 0 n).
Lemma piecewise_ok s b n ells cls v : contiguous b -> piecewise_b s b n ells cls v = true -> piecewise (qz 1) sq8 s b n ells cls v.
Proof.
  intros Hc H j m Hj Hm. unfold piecewise_b in H. rewrite forallb_forall in H. assert (Q1 : In j (seq 0 n)) by (apply in_seq; lia). specialize (H j Q1). cbv beta in H. rewrite forallb_forall in H. specialize (H m Hm). cbv beta in H. apply feqb_eq in H. rewrite H. split.
  - intros i Hi E. apply band_value_in; assumption.
  - intro Z. apply band_value_out. exact Z.
Qed.
(** a spin-1 map correlated with a scalar map: four bandpowers come back through couple_cell and decouple_cell *)
Definition cls2 : list (list Q) := [map qz [7; 3; 3; 3]%Z; map qz [2; 5; 5; 5]%Z].
Definition v2 : list (list Q) := [map qz [7; 3]%Z; map qz [2; 5]%Z].
Example ex_round_trip : exists w, wsp44 1 mask44 bring = Ok w /\ contiguous bring /\ all_rows s44 [2; 0; 1; 3]%nat /\ nonsingular (fw_ncls w * fw_nb w) (fw_bnd w) /\ good_ells ell4 /\
  rect (n_spectra (field44 0 mask44) (field44 1 mask44) false) 4 cls2 /\ rect (n_spectra (field44 0 mask44) (field44 1 mask44) false) 2 v2 /\
  piecewise (qz 1) sq8 s44 bring 2 ell4 cls2 v2 /\ rings_nested (qz 1) sq8 trq s44 bring /\ rings_reach (qz 1) sq8 trq s44 bring /\
  match py_couple (qz 1) sq8 trq (Some w) ell4 cls2 [0; 1; 2; 3]%nat with Ok pcl => match py_decouple (Some w) pcl None None with Ok r => map (map out) r | _ => [] end | _ => [] end = map (map out) v2.
Proof.
  assert (E : is_ok (wsp44 1 mask44 bring) = true) by (vm_compute; reflexivity). exists (from_ok dummy (wsp44 1 mask44 bring)). split; [apply from_ok_eq; exact E|]. split; [exact contiguous_ring|].
  assert (P : all_rows s44 [2; 0; 1; 3]%nat). { unfold all_rows. cbn. apply (Permutation_cons_app [0; 1] [3] 2%nat). apply Permutation_refl. }
  split; [exact P|]. split.
  { assert (W : wsp_spec (qz 1) sq8 trq ph4 (from_ok dummy (wsp44 1 mask44 bring)) (field44 0 mask44) (field44 1 mask44) bring free false). { apply (computed_spec _ _ _ _ _ _ _ _ _ [2; 0; 1; 3]%nat); [exact contiguous_ring | exact P|]. apply from_ok_eq. exact E. }
    apply nonsingular_of_solution; [rewrite (ws_ncls _ _ _ _ _ _ _ _ _ _ W); cbn; lia | | vm_compute; reflexivity]. pose proof (ws_sq _ _ _ _ _ _ _ _ _ _ W) as S. rewrite (ws_ncls _ _ _ _ _ _ _ _ _ _ W). unfold fw_nb. rewrite (ws_bin _ _ _ _ _ _ _ _ _ _ W). exact S. }
  split; [split; [cbn; lia | vm_compute; reflexivity]|]. split; [split; [reflexivity | cbn; intros r [<-|[<-|[]]]; reflexivity]|]. split; [split; [reflexivity | cbn; intros r [<-|[<-|[]]]; reflexivity]|].
  split; [apply piecewise_ok; [exact contiguous_ring | vm_compute; reflexivity]|]. split; [apply nested_ok; vm_compute; reflexivity|]. split; [apply reach_ok; vm_compute; reflexivity|]. vm_compute. reflexivity.
Qed.
Definition result (w : res (fwsp Q)) (ells : list Q) (cls : list (list Q)) : res (list (list Q)) :=
  do w <- w; do pcl <- py_couple (qz 1) sq8 trq (Some w) ells cls [0; 1; 2; 3]%nat; py_decouple (Some w) pcl None None.
Definition ones44 : list Q := repeat (qz 1) 16.
(** Without the conditions on the rings the bandpowers do not come back, even for an unmasked map: the rings of width dell used by couple_cell mix the values of neighbouring bands... *)
Theorem C63_straddling_ring_refuted : exists (b : fbins Q) (ells : list Q) (cls v r : list (list Q)),
  contiguous b /\ good_ells ells /\ piecewise (qz 1) sq8 s44 b 1 ells cls v /\ rings_reach (qz 1) sq8 trq s44 b /\ result (wsp44 0 ones44 b) ells cls = Ok r /\ r <> v.
Proof.
  exists b44, [q 1 2; q 11 10; q 13 10; q 3 2], [[qz 0; qz 0; qz 1; qz 1]], [[qz 0; qz 1]], (from_ok [] (result (wsp44 0 ones44 b44) [q 1 2; q 11 10; q 13 10; q 3 2] [[qz 0; qz 0; qz 1; qz 1]])). split; [exact contiguous44|].
  split; [split; [cbn; lia | vm_compute; reflexivity]|]. split; [apply piecewise_ok; [exact contiguous44 | vm_compute; reflexivity]|]. split; [apply reach_ok; vm_compute; reflexivity|]. split; [apply from_ok_eq; vm_compute; reflexivity|].
  intro E. apply (f_equal (map (map out))) in E. vm_compute in E. discriminate E.
Qed.
(** ... and the rings leave out the modes of the highest wavenumbers: a spectrum that is constant in the only band does not come back. *)
Definition ball : fbins Q := FBins [q 1 2] [qz 3].
Theorem C63_outer_modes_refuted : exists (b : fbins Q) (ells : list Q) (cls v r : list (list Q)),
  contiguous b /\ good_ells ells /\ piecewise (qz 1) sq8 s44 b 1 ells cls v /\ (forall m m' i, In m (grid s44) -> In m' (grid s44) -> ring (qz 1) sq8 trq s44 m = ring (qz 1) sq8 trq s44 m' -> (i < n_bands b)%nat -> inb b i (kmod_of (qz 1) sq8 s44 m) = inb b i (kmod_of (qz 1) sq8 s44 m')) /\
  result (wsp44 0 ones44 b) ells cls = Ok r /\ r <> v.
Proof.
  assert (C : contiguous ball). { split; [split; [reflexivity|split; [cbn; lia|split]]|]; intros i Hi; change (n_bands ball) with 1%nat in Hi; destruct i as [|i]; try lia; vm_compute; reflexivity. }
  exists ball, [q 1 4; q 1 2; qz 3], [[qz 0; qz 1; qz 1]], [[qz 1]], (from_ok [] (result (wsp44 0 ones44 ball) [q 1 4; q 1 2; qz 3] [[qz 0; qz 1; qz 1]])). split; [exact C|].
  split; [split; [cbn; lia | vm_compute; reflexivity]|]. split; [apply piecewise_ok; [exact C | vm_compute; reflexivity]|]. split; [intros m m' i Hm Hm' E Hi; revert m m' Hm Hm' E i Hi; apply nested_ok; vm_compute; reflexivity|]. split; [apply from_ok_eq; vm_compute; reflexivity|].
  intro E. apply (f_equal (map (map out))) in E. vm_compute in E. discriminate E.
Qed.
End Ex.
Print Assumptions C63_decouple_solves. Print Assumptions C63_round_trip. Print Assumptions C63_quick_round_trip. Print Assumptions C63_threads. Print Assumptions C63_accepts.
Print Assumptions C63_straddling_ring_refuted. Print Assumptions C63_outer_modes_refuted.
