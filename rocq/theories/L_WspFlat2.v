(** Lemmas: decoupling solves the binned system; what the two couplings compute. *)
From Verif Require Import Base M_Utils M_Bins M_FlatBins M_LinAlg M_Workspace M_Flat M_WspFlat P_FlatBins L_LinAlg L_Flat L_Flat2 L_FITS L_MCM L_WspFlat.
From Coq Require Import Permutation.
Open Scope nat_scope.

Section LWspFlat2.
Context {F : ofield}.
Local Open Scope F_scope.
Add Field FfWF2 : (fth F).
Notation mat := (list (list F)).
Notation cplx := (cplx F).
Notation fsinfo := (fsinfo F).
Notation fbins := (fbins F).
Notation cuts := (cuts F).
Notation ffield := (ffield F).
Notation fwsp := (fwsp F).

Definition rect (n k : nat) (a : mat) : Prop := length a = n /\ forall r, In r a -> length r = k.
Lemma rect_row n k a i : rect n k a -> (i < n)%nat -> length (nth i a []) = k.
Proof. intros [H1 H2] Hi. apply H2. apply nth_In. lia. Qed.
Lemma rect_tab n k (f : nat -> nat -> F) : rect n k (tab n (fun i => tab k (f i))).
Proof. split; [apply length_tab|]. intros r Hr. apply in_map_iff in Hr. destruct Hr as [i [<- _]]. apply length_tab. Qed.
Lemma rect_ext n k (a a' : mat) : rect n k a -> rect n k a' -> (forall i j, (i < n)%nat -> (j < k)%nat -> entry2 a i j = entry2 a' i j) -> a = a'.
Proof.
  intros Ha Ha' H. apply (list_eq_nth _ _ []); [destruct Ha, Ha'; congruence|]. intros i Hi. assert (Hn : (i < n)%nat) by (destruct Ha; lia).
  apply (list_eq_nth _ _ 0); [rewrite (rect_row n k), (rect_row n k); auto|]. intros j Hj. rewrite (rect_row n k) in Hj by auto. apply H; assumption.
Qed.
Lemma rect_tab_eq n k (a : mat) : rect n k a -> tab n (fun i => tab k (fun j => entry2 a i j)) = a.
Proof. intro H. apply (rect_ext n k); [apply rect_tab | exact H|]. intros i j Hi Hj. unfold entry2 at 1. rewrite nth_tab by exact Hi. rewrite nth_tab by exact Hj. reflexivity. Qed.
Lemma rd2_ok n k (a : mat) i j : rect n k a -> (i < n)%nat -> (j < k)%nat -> rd2 a (Z.of_nat i) (Z.of_nat j) = Ok (entry2 a i j).
Proof. intros H Hi Hj. unfold rd2, entry2. rewrite (rd_nat a i []) by (destruct H; lia). cbn [bind]. rewrite (rd_nat _ j 0); [reflexivity|]. rewrite (rect_row n k); auto. Qed.
Lemma rect_zeros n k (a : mat) : rect n k a -> rect n k (zeros_like a).
Proof. intros [H1 H2]. unfold zeros_like. split; [rewrite map_length; exact H1|]. intros r Hr. apply in_map_iff in Hr. destruct Hr as [x [<- Hx]]. rewrite map_length. apply H2. exact Hx. Qed.
Lemma entry_zeros (a : mat) i j : entry2 (zeros_like a) i j = 0.
Proof.
  unfold entry2, zeros_like. destruct (Nat.lt_ge_cases i (length a)) as [H|H].
  - rewrite (nth_indep _ [] (map (fun _ : F => 0) [])) by (rewrite map_length; exact H). rewrite (map_nth (fun r => map (fun _ : F => 0) r)). generalize (nth i a []). clear. intro l. revert j. induction l as [|x l IH]; intros [|j]; cbn; auto.
  - rewrite (nth_overflow (map _ a)) by (rewrite map_length; exact H). destruct j; reflexivity.
Qed.
Lemma check_shape_ok n k (a : mat) : (0 < n)%nat -> rect n k a -> check_shape n k a = Ok tt.
Proof.
  intros Hn H. unfold check_shape. rewrite (proj1 H), Nat.eqb_refl. cbn [negb]. destruct a as [|r t]; [destruct H as [H _]; cbn in H; lia|]. cbn [hd].
  rewrite (proj2 H r) by (cbn; auto). rewrite Nat.eqb_refl. reflexivity.
Qed.
(** binned matrix applied to bandpowers *)
Definition apply_matrix (M : mat) (n nb : nat) (v : mat) (i ib : nat) : F :=
  sum n (fun j => sum nb (fun jb => entry2 M (ib * n + i) (jb * n + j) * entry2 v j jb)).
Definition flatten (n nb : nat) (v : mat) : list F := tab (n * nb) (fun r => entry2 v (r mod n) (r / n)).
Lemma nth_flatten n nb v i ib : (i < n)%nat -> (ib < nb)%nat -> nth (ib * n + i) (flatten n nb v) 0 = entry2 v i ib.
Proof. intros Hi Hb. unfold flatten. rewrite nth_tab by nia. destruct (div_mod_flat n i ib Hi) as [-> ->]. reflexivity. Qed.
Lemma matvec_flatten M n nb (v a : mat) : (0 < n)%nat -> square (n * nb) M ->
  ((forall i ib, (i < n)%nat -> (ib < nb)%nat -> entry2 a i ib = apply_matrix M n nb v i ib) <-> matvec M (flatten n nb v) = flatten n nb a).
Proof.
  intros Hn Hs. assert (G : forall r, (r < n * nb)%nat -> sum (n * nb) (fun q => entry2 M r q * nth q (flatten n nb v) 0) = apply_matrix M n nb v (r mod n) (r / n)).
  { intros r Hr. unfold entry2. rewrite flat_row by exact Hn. unfold apply_matrix. apply sum_ext. intros j Hj. apply sum_ext. intros jb Hb. rewrite (nth_flatten n nb v j jb Hj Hb). f_equal. unfold entry2.
    rewrite (Nat.mul_comm (r / n) n), <- Nat.div_mod by lia. reflexivity. }
  split.
  - intro H. apply (matvec_eq (n * nb)); [exact Hs | apply length_tab | apply length_tab|]. intros r Hr. rewrite (G r Hr). destruct (div_mod_lt n r nb Hn Hr). rewrite <- H by assumption. unfold flatten. rewrite nth_tab by exact Hr. reflexivity.
  - intros E i ib Hi Hb. assert (Hr : (ib * n + i < n * nb)%nat) by nia. rewrite <- (nth_flatten n nb a i ib Hi Hb), <- E. rewrite (nth_matvec (n * nb)) by (try assumption; apply length_tab). rewrite (G _ Hr).
    destruct (div_mod_flat n i ib Hi) as [-> ->]. reflexivity.
Qed.
Lemma fdecouple_flat (w : fwsp) (cl noise bias : mat) : (0 < fw_ncls w)%nat -> rect (fw_ncls w) (fw_nb w) cl -> rect (fw_ncls w) (fw_nb w) noise -> rect (fw_ncls w) (fw_nb w) bias ->
  fdecouple w cl noise bias =
  do x <- lu_solve (fw_bnd w) (flatten (fw_ncls w) (fw_nb w) (tab (fw_ncls w) (fun i => tab (fw_nb w) (fun ib => entry2 cl i ib - entry2 noise i ib - entry2 bias i ib))));
  tabM (fw_ncls w) (fun i => tabM (fw_nb w) (fun ib => rd x (Z.of_nat (fw_ncls w * ib + i)))).
Proof.
  intros Hn H1 H2 H3. unfold fdecouple. set (n := fw_ncls w) in *. set (nb := fw_nb w) in *.
  rewrite (tabM_ok _ _ (fun r => entry2 cl (r mod n) (r / n) - entry2 noise (r mod n) (r / n) - entry2 bias (r mod n) (r / n))).
  - cbn [bind]. f_equal. f_equal. apply tab_ext. intros r Hr. destruct (div_mod_lt n r nb Hn Hr) as [A B]. unfold entry2 at 4. rewrite nth_tab by exact B. rewrite nth_tab by exact A. reflexivity.
  - intros r Hr. destruct (div_mod_lt n r nb Hn Hr) as [A B]. rewrite (rd2_ok n nb cl), (rd2_ok n nb noise), (rd2_ok n nb bias) by assumption. reflexivity.
Qed.
Lemma fdecouple_iff (w : fwsp) (cl noise bias v : mat) : (0 < fw_ncls w)%nat -> square (fw_ncls w * fw_nb w) (fw_bnd w) ->
  rect (fw_ncls w) (fw_nb w) cl -> rect (fw_ncls w) (fw_nb w) noise -> rect (fw_ncls w) (fw_nb w) bias ->
  (fdecouple w cl noise bias = Ok v <-> nonsingular (fw_ncls w * fw_nb w) (fw_bnd w) /\ rect (fw_ncls w) (fw_nb w) v /\
   forall i ib, (i < fw_ncls w)%nat -> (ib < fw_nb w)%nat -> apply_matrix (fw_bnd w) (fw_ncls w) (fw_nb w) v i ib = entry2 cl i ib - entry2 noise i ib - entry2 bias i ib).
Proof.
  intros Hn Hs H1 H2 H3. rewrite (fdecouple_flat w cl noise bias Hn H1 H2 H3). set (n := fw_ncls w) in *. set (nb := fw_nb w) in *.
  set (a := tab n (fun i => tab nb (fun ib => entry2 cl i ib - entry2 noise i ib - entry2 bias i ib))).
  assert (Ea : forall i ib, (i < n)%nat -> (ib < nb)%nat -> entry2 a i ib = entry2 cl i ib - entry2 noise i ib - entry2 bias i ib). { intros i ib Hi Hb. unfold entry2 at 1, a. rewrite nth_tab by exact Hi. rewrite nth_tab by exact Hb. reflexivity. }
  assert (La : length (flatten n nb a) = (n * nb)%nat) by apply length_tab.
  assert (R : forall x : list F, length x = (n * nb)%nat -> tabM n (fun i => tabM nb (fun ib => rd x (Z.of_nat (n * ib + i)))) = Ok (tab n (fun i => tab nb (fun ib => nth (n * ib + i) x 0)))).
  { intros x Hx. apply tabM_ok. intros i Hi. apply tabM_ok. intros ib Hb. apply rd_nat. rewrite Hx. nia. }
  assert (Q : forall x : list F, length x = (n * nb)%nat -> flatten n nb (tab n (fun i => tab nb (fun ib => nth (n * ib + i) x 0))) = x).
  { intros x Hx. unfold flatten. apply (list_eq_nth _ _ 0); [rewrite length_tab; auto|]. rewrite length_tab. intros r Hr. rewrite nth_tab by exact Hr. destruct (div_mod_lt n r nb Hn Hr) as [A B]. unfold entry2. rewrite nth_tab by exact B. rewrite nth_tab by exact A. rewrite <- Nat.div_mod by lia. reflexivity. }
  split.
  - intro E. destruct (lu_solve (fw_bnd w) (flatten n nb a)) as [x| |] eqn:Ex; [|discriminate|discriminate]. apply (proj1 (lu_solve_iff _ _ _ _ Hs La)) in Ex. destruct Ex as [N [Lx Mx]]. cbn [bind] in E. rewrite (R x Lx) in E. injection E as <-.
    split; [exact N|]. split; [apply rect_tab|]. intros i ib Hi Hb. rewrite <- (Ea i ib Hi Hb). symmetry. revert i ib Hi Hb. apply (matvec_flatten (fw_bnd w) n nb); [exact Hn | exact Hs|]. rewrite (Q x Lx). exact Mx.
  - intros [N [Rv Hv]]. assert (Ex : lu_solve (fw_bnd w) (flatten n nb a) = Ok (flatten n nb v)).
    { apply (proj2 (lu_solve_iff _ _ _ _ Hs La)). split; [exact N|]. split; [apply length_tab|]. apply (matvec_flatten (fw_bnd w) n nb); [exact Hn | exact Hs|]. intros i ib Hi Hb. rewrite (Ea i ib Hi Hb). symmetry. apply Hv; assumption. }
    rewrite Ex. cbn [bind]. rewrite (R (flatten n nb v) (length_tab _ _)). f_equal. etransitivity; [|exact (rect_tab_eq n nb v Rv)]. apply tab_ext. intros i Hi. apply tab_ext. intros ib Hb. rewrite (Nat.mul_comm n ib). apply nth_flatten; assumption.
Qed.
(** the interpolated spectrum *)
Definition spec_val (ells cl : list F) (k : F) : F := from_ok 0 (spectrum_at ells cl k).
Definition good_ells (ells : list F) : Prop := (2 <= length ells)%nat /\ increasing ells = true.
Lemma spectrum_ok ells cl k : good_ells ells -> length cl = length ells -> spectrum_at ells cl k = Ok (spec_val ells cl k).
Proof.
  intros [H1 H2] H3. unfold spec_val. apply from_ok_eq. unfold spectrum_at. change 0%Z with (Z.of_nat 0). rewrite (rd_nat cl 0 0) by lia. cbn [bind]. unfold k_function.
  rewrite H2, (proj2 (Nat.leb_le _ _) H1). cbn [andb]. change 0%Z with (Z.of_nat 0). rewrite (rd_nat ells 0 0) by lia. replace (Z.of_nat (length ells) - 1)%Z with (Z.of_nat (length ells - 1)) by lia. rewrite (rd_nat ells _ 0) by lia. cbn [bind].
  destruct (k <=? _); [reflexivity|]. destruct (_ <=? k); reflexivity.
Qed.
Definition band_value (b : fbins) (v : list F) (k : F) : F := sum (n_bands b) (fun ib => if inb b ib k then nth ib v 0 else 0).
Lemma band_value_in b v k i : contiguous b -> (i < n_bands b)%nat -> inb b i k = true -> band_value b v k = nth i v 0.
Proof.
  intros Hc Hi E. unfold band_value. rewrite <- (sum_kron' (n_bands b) i (fun k => nth k v 0) Hi). apply sum_ext. intros j Hj. unfold kron.
  rewrite <- (bandz_eq b k j Hc Hj). rewrite <- (bandz_eq b k i Hc Hi) in E. apply Z.eqb_eq in E. rewrite E. destruct (Nat.eqb_spec i j) as [->|N]; [rewrite Z.eqb_refl; ring | rewrite (proj2 (Z.eqb_neq _ _)) by lia; ring].
Qed.
Lemma band_value_out b v k : (forall i, (i < n_bands b)%nat -> inb b i k = false) -> band_value b v k = 0.
Proof. intro H. unfold band_value. apply sum_zero. intros i Hi. rewrite (H i Hi). reflexivity. Qed.
Lemma lsum_const {A} (g : A -> F) (x : F) l : (forall a, In a l -> g a = x) -> lsum (map g l) = fofnat (length l) * x.
Proof. induction l as [|a t IH]; intro H; [cbn; ring|]. rewrite lsum_cons, IH by (intros; apply H; cbn; auto). rewrite H by (cbn; auto). cbn [length fofnat]. ring. Qed.
Section W.
Variables (pi : F) (fsqrt : F -> F) (trunc : F -> Z) (ph : nat -> nat -> cplx).
Notation kmod_of := (kmod_of pi fsqrt).
Notation modes := (modes pi fsqrt).
Notation coup := (coup pi fsqrt ph).
Notation weight := (weight pi fsqrt ph).
Notation wsp_of := (wsp_of pi fsqrt trunc ph).
Notation wsp_spec := (wsp_spec pi fsqrt trunc ph).
(** modes of a ring *)
Definition ring_modes (s : fsinfo) (ir : nat) : list (nat * nat) := filter (fun m => (ring pi fsqrt trunc s m =? Z.of_nat ir)%Z) (grid s).
Definition ring_avg (s : fsinfo) (ells cl : list F) (ir : nat) : F :=
  let l := ring_modes s ir in if Nat.eqb (length l) 0 then 0 else lsum (map (fun m => spec_val ells cl (kmod_of s m)) l) / fofnat (length l).
Lemma ring_label (s : fsinfo) m ir : (ir < n_ell pi fsqrt trunc s)%nat -> (trunc (kmod_of s m * (1 / dell pi s)) =? Z.of_nat ir)%Z = (ring pi fsqrt trunc s m =? Z.of_nat ir)%Z.
Proof.
  intro H. unfold ring, ring_of. fold (kmod_of s m). set (t := trunc _). destruct ((t <? 0) || (Z.of_nat (n_ell pi fsqrt trunc s) <=? t))%Z eqn:E; [|reflexivity].
  transitivity false; [|symmetry; apply Z.eqb_neq; lia]. apply Z.eqb_neq. apply Bool.orb_true_iff in E. rewrite Z.ltb_lt, Z.leb_le in E. lia.
Qed.
Lemma ring_mean_ok (s : fsinfo) ells cl rows ir : good_ells ells -> length cl = length ells -> Permutation rows (seq 0 (fs_ny s)) -> (ir < n_ell pi fsqrt trunc s)%nat ->
  ring_mean pi fsqrt trunc s ells cl rows ir = Ok (ring_avg s ells cl ir).
Proof.
  intros He Hl P Hr. unfold ring_mean, ring_sums. rewrite (lsumM_ok _ (fun m => if (trunc (kmod_of s m * (1 / dell pi s)) =? Z.of_nat ir)%Z then spec_val ells cl (kmod_of s m) else 0)).
  2:{ intros m _. unfold L_Flat2.kmod_of. destruct (_ =? _)%Z; [apply spectrum_ok; assumption | reflexivity]. }
  cbn [bind]. f_equal. rewrite (lsum_perm _ _ (Permutation_map _ (plane_of_perm s rows P))). rewrite lsum_filter.
  rewrite (filter_ext_in _ (fun m => (ring pi fsqrt trunc s m =? Z.of_nat ir)%Z)) by (intros m _; apply ring_label; exact Hr). fold (ring_modes s ir).
  unfold ring_cells, count_cells. rewrite (Permutation_length (Permutation_filter _ _ _ (plane_of_perm s rows P))).
  rewrite (filter_ext_in _ (fun m => (ring pi fsqrt trunc s m =? Z.of_nat ir)%Z)) by (intros m _; apply (ring_label s m ir Hr)). fold (ring_modes s ir). unfold ring_avg. cbv zeta.
  destruct (ring_modes s ir) as [|m t]; [reflexivity|]. cbn [length Nat.eqb]. replace (0 <? Z.of_nat (S (length t)))%Z with true by (symmetry; apply Z.ltb_lt; lia). rewrite fofZ_of_nat. reflexivity.
Qed.
(** what nmt_couple_cl_l_flat_fast returns *)
Definition ring_value (s : fsinfo) (ells cl : list F) (m : nat * nat) : F :=
  if (0 <=? ring pi fsqrt trunc s m)%Z then ring_avg s ells cl (Z.to_nat (ring pi fsqrt trunc s m)) else 0.
Definition coupled (f1 f2 : ffield) (b : fbins) (c : cuts) (teb : bool) (val : nat -> nat * nat -> F) (i ib : nat) : F :=
  sum (n_spectra f1 f2 teb) (fun j => lsum (map (fun m1 => lsum (map (fun m2 => weight f1 f2 (n_spectra f1 f2 teb) (matrix_spins (ff_spin f1) (ff_spin f2) teb) i j m1 m2 * val j m2) (grid (ff_fs f1)))) (modes (ff_fs f1) b c ib))
    * fac_norm pi (ff_fs f1) (Z.of_nat (length (modes (ff_fs f1) b c ib)))).
Lemma ring_lt (s : fsinfo) m : (ring pi fsqrt trunc s m < Z.of_nat (n_ell pi fsqrt trunc s))%Z.
Proof. unfold ring, ring_of. destruct (_ || _)%bool eqn:E; [lia|]. apply Bool.orb_false_iff in E. destruct E as [_ E]. apply Z.leb_gt in E. exact E. Qed.
Lemma couple_fast_ok w f1 f2 b c teb ells cls rows : wsp_spec w f1 f2 b c teb -> good_ells ells -> rect (n_spectra f1 f2 teb) (length ells) cls -> Permutation rows (seq 0 (fs_ny (ff_fs f1))) ->
  couple_fast pi fsqrt trunc w ells cls rows = Ok (tab (n_spectra f1 f2 teb) (fun i => tab (n_bands b) (fun ib => coupled f1 f2 b c teb (fun j => ring_value (ff_fs f1) ells (nth j cls [])) i ib))).
Proof.
  intros [Hn Hf Hb Hcut _ _ Hr _ Hu] He Hcl P. unfold couple_fast, fw_nb. rewrite Hn, Hf, Hb. fold (n_bands b). set (n := n_spectra f1 f2 teb) in *. set (s := ff_fs f1) in *. pose proof (n_spectra_pos f1 f2 teb) as Hp. fold n in Hp.
  rewrite (tabM_ok _ _ (fun q => ring_avg s ells (nth (q mod n) cls []) (q / n))).
  2:{ intros q Hq. destruct (div_mod_lt n q _ Hp Hq) as [A B]. rewrite (rd_nat cls _ []) by (destruct Hcl; lia). cbn [bind]. apply ring_mean_ok; [exact He | apply (rect_row n); assumption | exact P | exact A]. }
  cbn [bind]. apply tabM_ok. intros i Hi. apply tabM_ok. intros ib Hib. rewrite (rd_nat (fw_unb w) _ []) by (rewrite Hr; nia). cbn [bind]. f_equal.
  set (vv := tab _ _). rewrite (flat_row n (n_ell pi fsqrt trunc s) (nth (ib * n + i) (fw_unb w) []) vv Hp). unfold coupled. fold n s. apply sum_ext. intros j Hj.
  rewrite <- (coup_labels pi fsqrt ph f1 f2 b c n (matrix_spins (ff_spin f1) (ff_spin f2) teb) ib i j (n_ell pi fsqrt trunc s) (fun ir m => (ring pi fsqrt trunc s m =? Z.of_nat ir)%Z) (fun ir => ring_avg s ells (nth j cls []) ir)).
  - apply sum_ext. intros ir Hir. specialize (Hu i ib j ir Hi Hj Hib Hir). unfold entry2 in Hu. rewrite Hu. unfold vv. rewrite nth_tab by nia. destruct (div_mod_flat n j ir Hj) as [-> ->]. reflexivity.
  - intros m _. fold s. unfold ring_value. destruct (Z.leb_spec 0 (ring pi fsqrt trunc s m)) as [H|H].
    + pose proof (ring_lt s m) as L. set (r := ring pi fsqrt trunc s m) in *. rewrite (sum_ext _ _ (fun k => kron (Z.to_nat r) k * ring_avg s ells (nth j cls []) k)); [symmetry; apply sum_kron'; lia|].
      intros k Hk. unfold kron. destruct (Nat.eqb_spec (Z.to_nat r) k) as [E|E]; [rewrite (proj2 (Z.eqb_eq _ _)) by lia; ring | rewrite (proj2 (Z.eqb_neq _ _)) by lia; ring].
    + symmetry. apply sum_zero. intros k Hk. rewrite (proj2 (Z.eqb_neq _ _)) by lia. reflexivity.
Qed.
(** what the binned matrix does to bandpowers *)
Lemma binned_ok w f1 f2 b c teb v i ib : wsp_spec w f1 f2 b c teb -> (i < n_spectra f1 f2 teb)%nat -> (ib < n_bands b)%nat ->
  apply_matrix (fw_bnd w) (n_spectra f1 f2 teb) (n_bands b) v i ib = coupled f1 f2 b c teb (fun j m => band_value b (nth j v []) (kmod_of (ff_fs f1) m)) i ib.
Proof.
  intros [Hn Hf Hb Hcut _ _ Hr Hu _] Hi Hib. unfold apply_matrix, coupled. apply sum_ext. intros j Hj.
  rewrite <- (coup_labels pi fsqrt ph f1 f2 b c (n_spectra f1 f2 teb) (matrix_spins (ff_spin f1) (ff_spin f2) teb) ib i j (n_bands b) (fun jb m => inb b jb (kmod_of (ff_fs f1) m)) (fun jb => entry2 v j jb)).
  - apply sum_ext. intros jb Hjb. rewrite (Hu i ib j jb) by assumption. reflexivity.
  - intros m _. reflexivity.
Qed.
Lemma coupled_ext f1 f2 b c teb val val' i ib : (forall j m, (j < n_spectra f1 f2 teb)%nat -> In m (grid (ff_fs f1)) -> val j m = val' j m) -> coupled f1 f2 b c teb val i ib = coupled f1 f2 b c teb val' i ib.
Proof. intro H. unfold coupled. apply sum_ext. intros j Hj. f_equal. apply lsum_ext. intros m1 _. apply lsum_ext. intros m2 Hm. rewrite (H j m2 Hj Hm). reflexivity. Qed.

(** nmt_couple_cl_l_flat_quick *)
Definition quick_updates (s : fsinfo) (b : fbins) (c : cuts) (ells cl : list F) (m : nat * nat) : list (Z * F) :=
  if uncut pi s c m then match find (fun i => inb b i (kmod_of s m)) (seq 0 (n_bands b)) with Some i => [(Z.of_nat i, spec_val ells cl (kmod_of s m))] | None => [] end else [].
Lemma quick_cols_eq (s : fsinfo) b c ells cl iy : contiguous b -> good_ells ells -> length cl = length ells -> cut_y c (kyf pi s iy) = false ->
  forall cols ik, (ik < Z.of_nat (n_bands b))%Z -> quick_cols pi fsqrt s b c ells cl iy cols ik = Ok (flat_map (fun ix => quick_updates s b c ells cl (ix, iy)) cols).
Proof.
  intros Hc He Hl Hcy. induction cols as [|ix t IH]; intros ik Hik; [reflexivity|]. cbn [quick_cols flat_map].
  unfold quick_updates at 1, uncut. cbn [fst snd]. rewrite Hcy. destruct (cut_x c (kxf pi s ix)) eqn:Ex; cbn [negb andb app]; [apply IH; assumption|].
  rewrite (search_find fsqrt b _ ik Hc Hik). cbn [bind]. unfold L_Flat2.kmod_of at 1 2. cbn [fst snd]. destruct (find _ _) as [i|] eqn:Ef.
  - apply find_some in Ef. destruct Ef as [G1 G2]. apply in_seq in G1. replace (0 <=? Z.of_nat i)%Z with true by (symmetry; apply Z.leb_le; lia).
    rewrite (spectrum_ok ells cl _ He Hl). cbn [bind]. rewrite IH by lia. reflexivity.
  - replace (0 <=? -1)%Z with false by reflexivity. cbn [app]. apply IH. lia.
Qed.
Lemma quick_filter (s : fsinfo) b c ells cl i l : contiguous b -> (i < n_bands b)%nat ->
  filter (to_band i) (flat_map (quick_updates s b c ells cl) l) = map (fun m => (Z.of_nat i, spec_val ells cl (kmod_of s m))) (filter (fun m => uncut pi s c m && inb b i (kmod_of s m))%bool l).
Proof.
  intros Hc Hi. induction l as [|m t IH]; [reflexivity|]. cbn [flat_map filter]. rewrite filter_app, IH. unfold quick_updates. destruct (uncut pi s c m); cbn [andb]; [|reflexivity].
  pose proof (find_unique fsqrt b i (kmod_of s m) Hc Hi) as FU. destruct (find _ _) as [j|] eqn:E.
  - cbn [filter]. unfold to_band at 1. cbn [fst]. destruct (Z.eqb_spec (Z.of_nat j) (Z.of_nat i)) as [Q|Q].
    + assert (j = i) as -> by lia. rewrite (proj1 FU eq_refl). reflexivity.
    + destruct (inb b i (kmod_of s m)); [|reflexivity]. pose proof (proj2 FU eq_refl) as X. injection X as ->. congruence.
  - cbn [filter app]. destruct (inb b i (kmod_of s m)); [|reflexivity]. pose proof (proj2 FU eq_refl). discriminate.
Qed.
Definition mode_mean (s : fsinfo) (b : fbins) (c : cuts) (ells cl : list F) (i : nat) : F :=
  let l := modes s b c i in if Nat.eqb (length l) 0 then 0 else lsum (map (fun m => spec_val ells cl (kmod_of s m)) l) / fofnat (length l).
Lemma quick_mean_ok w f1 f2 b c teb ells cl : contiguous b -> wsp_spec w f1 f2 b c teb -> good_ells ells -> length cl = length ells ->
  quick_mean pi fsqrt w ells cl = Ok (tab (n_bands b) (mode_mean (ff_fs f1) b c ells cl)).
Proof.
  intros Hc [Hn Hf Hb Hcut Hce _ Hr _ Hu] He Hl. unfold quick_mean, fw_nb. rewrite Hf, Hb, Hcut. fold (n_bands b). set (s := ff_fs f1) in *.
  rewrite (mapM_ok _ (fun iy => flat_map (fun ix => quick_updates s b c ells cl (ix, iy)) (seq 0 (fs_nx s)))).
  2:{ intros iy Hy. destruct (cut_y c (kyf pi s iy)) eqn:Ey.
      - f_equal. clear -Ey. induction (seq 0 (fs_nx s)) as [|ix t IH]; [reflexivity|]. cbn [flat_map]. rewrite <- IH. unfold quick_updates, uncut. cbn [fst snd]. rewrite Ey, Bool.andb_false_r. reflexivity.
      - apply quick_cols_eq; auto. destruct Hc as [[_ [Q _]] _]. lia. }
  cbn [bind]. replace (concat _) with (flat_map (quick_updates s b c ells cl) (grid s)).
  2:{ unfold grid. induction (seq 0 (fs_ny s)) as [|iy t IH]; [reflexivity|]. cbn [map concat flat_map]. rewrite <- IH, flat_map_app. f_equal. clear. induction (seq 0 (fs_nx s)) as [|ix t IH]; [reflexivity|]. cbn. rewrite IH. reflexivity. }
  rewrite (accumulate pi fsqrt _ (n_bands b)).
  2:{ intros u Hu'. apply in_flat_map in Hu'. destruct Hu' as [m [_ H]]. unfold quick_updates in H. destruct (uncut pi s c m); [|contradiction]. destruct (find _ _) as [i|] eqn:E; [|contradiction].
      apply find_some in E. destruct E as [E _]. apply in_seq in E. destruct H as [<-|[]]. cbn. lia. }
  2,3: apply repeat_length.
  cbn [bind]. f_equal. apply tab_ext. intros i Hi. rewrite (Hce i Hi), nth_tab by exact Hi. rewrite (quick_filter s b c ells cl i _ Hc Hi), map_map. cbn [snd]. fold (modes s b c i). unfold mode_mean. cbv zeta. fold s. rewrite nth_repeat.
  set (x := lsum _). destruct (modes s b c i) as [|m t] eqn:E; [reflexivity|]. cbn [length Nat.eqb]. replace (0 <? Z.of_nat (S (length t)))%Z with true by (symmetry; apply Z.ltb_lt; lia). rewrite fofZ_of_nat. f_equal. ring.
Qed.
Lemma couple_quick_ok w f1 f2 b c teb ells cls : contiguous b -> wsp_spec w f1 f2 b c teb -> good_ells ells -> rect (n_spectra f1 f2 teb) (length ells) cls ->
  couple_quick pi fsqrt w ells cls = Ok (tab (n_spectra f1 f2 teb) (fun i => tab (n_bands b) (fun ib =>
    apply_matrix (fw_bnd w) (n_spectra f1 f2 teb) (n_bands b) (tab (n_spectra f1 f2 teb) (fun j => tab (n_bands b) (mode_mean (ff_fs f1) b c ells (nth j cls [])))) i ib))).
Proof.
  intros Hc W He Hcl. unfold couple_quick, fw_nb. rewrite (ws_ncls _ _ _ _ _ _ _ _ _ _ W), (ws_bin _ _ _ _ _ _ _ _ _ _ W). fold (n_bands b). set (n := n_spectra f1 f2 teb) in *.
  rewrite (tabM_ok _ _ (fun j => tab (n_bands b) (mode_mean (ff_fs f1) b c ells (nth j cls [])))).
  2:{ intros j Hj. rewrite (rd_nat cls _ []) by (destruct Hcl; lia). cbn [bind]. apply (quick_mean_ok w f1 f2 b c teb); auto. apply (rect_row n); assumption. }
  cbn [bind]. apply tabM_ok. intros i Hi. apply tabM_ok. intros ib Hib. destruct (ws_sq _ _ _ _ _ _ _ _ _ _ W) as [L _]. rewrite (rd_nat (fw_bnd w) _ []) by (rewrite L; fold n; nia). reflexivity.
Qed.
End W.
End LWspFlat2.
