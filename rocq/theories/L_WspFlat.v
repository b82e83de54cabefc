(** Lemmas for flat-sky workspaces: what the entries of the coupling matrices are. *)
From Verif Require Import Base M_Utils M_Bins M_FlatBins M_LinAlg M_Workspace M_Flat M_WspFlat P_FlatBins L_LinAlg L_Flat L_Flat2 L_FITS L_MCM.
From Coq Require Import Permutation.
Open Scope nat_scope.

Lemma Permutation_filter {A} (f : A -> bool) l l' : Permutation l l' -> Permutation (filter f l) (filter f l').
Proof. apply filter_length_perm. Qed.
Lemma Permutation_flat_map_list {A B} (f : A -> list B) l l' : Permutation l l' -> Permutation (flat_map f l) (flat_map f l').
Proof. apply Permutation_flat_map. Qed.

Lemma div_mod_lt n q k : (0 < n)%nat -> (q < n * k)%nat -> (q / n < k)%nat /\ (q mod n < n)%nat.
Proof. intros Hn H. split; [apply Nat.div_lt_upper_bound; lia | apply Nat.mod_upper_bound; lia]. Qed.
Lemma div_mod_flat n i j : (i < n)%nat -> ((j * n + i) / n = j)%nat /\ ((j * n + i) mod n = i)%nat.
Proof. intro H. split; [rewrite Nat.div_add_l by lia; rewrite Nat.div_small by lia; lia | rewrite Nat.add_comm, Nat.mod_add by lia; apply Nat.mod_small; lia]. Qed.

Section LWspFlat.
Context {F : ofield}.
Local Open Scope F_scope.
Add Field FfWF : (fth F).
Notation mat := (list (list F)).
Notation cplx := (cplx F).
Notation fsinfo := (fsinfo F).
Notation fbins := (fbins F).
Notation cuts := (cuts F).
Notation ffield := (ffield F).
Notation fwsp := (fwsp F).

Lemma lsum_filter {A} (p : A -> bool) (g : A -> F) l : lsum (map (fun m => if p m then g m else 0) l) = lsum (map g (filter p l)).
Proof. induction l as [|a t IH]; [reflexivity|]. rewrite lsum_cons, IH. cbn [filter]. destruct (p a); [rewrite lsum_cons; reflexivity | ring]. Qed.
Lemma plane_of_grid (s : fsinfo) : plane_of s (seq 0 (fs_ny s)) = grid s.
Proof. reflexivity. Qed.
Lemma plane_of_perm (s : fsinfo) rows : Permutation rows (seq 0 (fs_ny s)) -> Permutation (plane_of s rows) (grid s).
Proof. intro P. rewrite <- plane_of_grid. apply Permutation_flat_map_list. exact P. Qed.

(** weighted sums over labels become sums over modes *)
Lemma sum_labels {A} (l : list A) n (p : nat -> A -> bool) (g : A -> F) (v : nat -> F) (val : A -> F) :
  (forall a, In a l -> val a = sum n (fun k => if p k a then v k else 0)) ->
  sum n (fun k => lsum (map g (filter (p k) l)) * v k) = lsum (map (fun a => g a * val a) l).
Proof.
  intro H. rewrite (lsum_ext _ (fun a => sum n (fun k => (if p k a then g a else 0) * v k))).
  - rewrite lsum_swap. apply sum_ext. intros k _. rewrite lsum_mul_r, lsum_filter. reflexivity.
  - intros a Ha. rewrite (H a Ha), <- sum_mul_l. apply sum_ext. intros k _. destruct (p k a); ring.
Qed.
Lemma same_fs_eq (a d : fsinfo) : same_fs a d = true -> a = d.
Proof.
  unfold same_fs. rewrite !Bool.andb_true_iff. intros [[[H1 H2] H3] H4]. apply Nat.eqb_eq in H1, H2. apply feqb_eq in H3, H4. destruct a, d. cbn in *. congruence.
Qed.
(** matrix times vector, entry by entry *)
Lemma flat_row n k (r : list F) (v : list F) : (0 < n)%nat -> sum (n * k) (fun q => nth q r 0 * nth q v 0) = sum n (fun j => sum k (fun l => nth (l * n + j) r 0 * nth (l * n + j) v 0)).
Proof. intro Hn. rewrite Nat.mul_comm, sum_flat, sum_swap. apply sum_ext. intros j _. apply sum_ext. intros l _. rewrite (Nat.mul_comm n l). reflexivity. Qed.
Definition n_spectra (f1 f2 : ffield) (teb : bool) : nat := if teb then 7%nat else (ff_nmaps f1 * ff_nmaps f2)%nat.
Lemma n_spectra_pos f1 f2 teb : (0 < n_spectra f1 f2 teb)%nat.
Proof. unfold n_spectra, ff_nmaps. destruct teb, (ff_spin f1 =? 0)%Z, (ff_spin f2 =? 0)%Z; lia. Qed.
(** band of a wavenumber *)
Definition bandz (b : fbins) (k : F) : Z := match find (fun i => inb b i k) (seq 0 (n_bands b)) with Some i => Z.of_nat i | None => (-1)%Z end.
Lemma bandz_eq b k i : contiguous b -> (i < n_bands b)%nat -> (bandz b k =? Z.of_nat i)%Z = inb b i k.
Proof.
  intros Hc Hi. pose proof (find_unique (fun x => x) b i k Hc Hi) as FU. unfold bandz. destruct (find _ _) as [j|] eqn:E.
  - destruct (Z.eqb_spec (Z.of_nat j) (Z.of_nat i)) as [Q|Q].
    + assert (j = i) as -> by lia. symmetry. apply FU. reflexivity.
    + destruct (inb b i k); [|reflexivity]. pose proof (proj2 FU eq_refl) as X. injection X as ->. congruence.
  - destruct (inb b i k); [pose proof (proj2 FU eq_refl); discriminate|]. apply Z.eqb_neq. lia.
Qed.
Lemma bandz_range b k : (-1 <= bandz b k < Z.of_nat (n_bands b))%Z \/ n_bands b = 0%nat.
Proof. unfold bandz. destruct (find _ _) eqn:E; [left; apply find_some in E; destruct E as [E _]; apply in_seq in E; lia|]. destruct (n_bands b); [right; reflexivity | left; lia]. Qed.

Section G.
Variables (pi : F) (fsqrt : F -> F).
Lemma row_bands_ok (s : fsinfo) b iy cols : contiguous b -> forall ik, (ik < Z.of_nat (n_bands b))%Z ->
  row_bands pi fsqrt s b iy cols ik = Ok (map (fun ix => bandz b (kmodf pi fsqrt s ix iy)) cols).
Proof.
  intro Hc. induction cols as [|ix t IH]; intros ik Hik; [reflexivity|]. cbn [row_bands map]. rewrite (search_find fsqrt b _ ik Hc Hik). cbn [bind].
  change (match find (fun i => inb b i (kmodf pi fsqrt s ix iy)) (seq 0 (n_bands b)) with Some i => Z.of_nat i | None => (-1)%Z end) with (bandz b (kmodf pi fsqrt s ix iy)).
  rewrite IH; [reflexivity|]. destruct (bandz_range b (kmodf pi fsqrt s ix iy)) as [H|H]; [lia|]. destruct Hc as [[_ [Q _]] _]. lia.
Qed.
Definition bands_of (s : fsinfo) (b : fbins) : list (list Z) := map (fun iy => map (fun ix => bandz b (kmodf pi fsqrt s ix iy)) (seq 0 (fs_nx s))) (seq 0 (fs_ny s)).
Lemma grid_bands_ok (s : fsinfo) b : contiguous b -> grid_bands pi fsqrt s b = Ok (bands_of s b).
Proof. intro Hc. unfold grid_bands, bands_of. apply mapM_ok. intros iy _. apply row_bands_ok; [exact Hc|]. destruct Hc as [[_ [Q _]] _]. lia. Qed.
Lemma nocut_ok (s : fsinfo) b m : In m (grid s) -> nocut (bands_of s b) m = bandz b (kmod_of pi fsqrt s m).
Proof.
  rewrite in_grid. intros [H1 H2]. unfold nocut, bands_of, kmod_of.
  rewrite (nth_indep _ [] (map (fun ix => bandz b (kmodf pi fsqrt s ix 0)) (seq 0 (fs_nx s)))) by (rewrite map_length, seq_length; exact H2).
  rewrite (map_nth (fun iy => map (fun ix => bandz b (kmodf pi fsqrt s ix iy)) (seq 0 (fs_nx s))) (seq 0 (fs_ny s)) 0%nat). rewrite seq_nth by exact H2. cbn [Nat.add].
  rewrite (nth_indep _ (-1)%Z (bandz b (kmodf pi fsqrt s 0 (snd m)))) by (rewrite map_length, seq_length; exact H1).
  rewrite (map_nth (fun ix => bandz b (kmodf pi fsqrt s ix (snd m))) (seq 0 (fs_nx s)) 0%nat). rewrite seq_nth by exact H1. reflexivity.
Qed.
Lemma band_eq (s : fsinfo) b c m i : contiguous b -> In m (grid s) -> (i < n_bands b)%nat -> (band pi s c (bands_of s b) m =? Z.of_nat i)%Z = (uncut pi s c m && inb b i (kmod_of pi fsqrt s m))%bool.
Proof.
  intros Hc Hm Hi. unfold band, uncut. rewrite (Bool.orb_comm (cut_y _ _)), <- Bool.negb_orb. destruct (cut_x c (kxf pi s (fst m)) || cut_y c (kyf pi s (snd m)))%bool; cbn [negb andb]; [apply Z.eqb_neq; lia|].
  rewrite (nocut_ok s b m Hm). apply bandz_eq; assumption.
Qed.
Lemma nocut_eq (s : fsinfo) b m i : contiguous b -> In m (grid s) -> (i < n_bands b)%nat -> (nocut (bands_of s b) m =? Z.of_nat i)%Z = inb b i (kmod_of pi fsqrt s m).
Proof. intros Hc Hm Hi. rewrite (nocut_ok s b m Hm). apply bandz_eq; assumption. Qed.
Lemma filter_ext_in' {A} (f g : A -> bool) l : (forall a, In a l -> f a = g a) -> filter f l = filter g l.
Proof. intro H. apply filter_ext_in. exact H. Qed.
Lemma count_eq (s : fsinfo) b c rows i : contiguous b -> (i < n_bands b)%nat -> Permutation rows (seq 0 (fs_ny s)) ->
  count_cells s (band pi s c (bands_of s b)) rows i = Z.of_nat (length (modes pi fsqrt s b c i)).
Proof.
  intros Hc Hi P. unfold count_cells, modes. f_equal. rewrite (Permutation_length (Permutation_filter _ _ _ (plane_of_perm s rows P))).
  f_equal. apply filter_ext_in. intros m Hm. apply band_eq; assumption.
Qed.
End G.

Section W.
Variables (pi : F) (fsqrt : F -> F) (trunc : F -> Z) (ph : nat -> nat -> cplx).
Notation kmod_of := (kmod_of pi fsqrt).
Notation modes := (modes pi fsqrt).
(** contribution of a pair of modes to entry (i,j) *)
Definition weight (f1 f2 : ffield) (ncls : nat) (spins : Z * Z) (i j : nat) (m1 m2 : nat * nat) : F :=
  entry2 (pair_block pi fsqrt f1 f2 ncls spins m1 m2) i j *
  (maskprod (ff_fs f1) (map2alm0 pi ph (ff_fs f1) (ff_mask f1)) (map2alm0 pi ph (ff_fs f1) (ff_mask f2)) (diff_mode (ff_fs f1) m1 m2) * beamprod pi fsqrt f1 f2 m2).
(** average over the first modes *)
Definition coup (f1 f2 : ffield) (b : fbins) (c : cuts) (ncls : nat) (spins : Z * Z) (ib i j : nat) (p : nat * nat -> bool) : F :=
  lsum (map (fun m1 => lsum (map (weight f1 f2 ncls spins i j m1) (filter p (grid (ff_fs f1))))) (modes (ff_fs f1) b c ib)) * fac_norm pi (ff_fs f1) (Z.of_nat (length (modes (ff_fs f1) b c ib))).
Lemma raw_eq f1 f2 ncls spins (b : fbins) c rows lab ib i v j p : contiguous b -> (ib < n_bands b)%nat -> Permutation rows (seq 0 (fs_ny (ff_fs f1))) ->
  (forall m, In m (grid (ff_fs f1)) -> (lab m =? Z.of_nat v)%Z = p m) ->
  raw_entry pi fsqrt f1 f2 ncls spins (map2alm0 pi ph (ff_fs f1) (ff_mask f1)) (map2alm0 pi ph (ff_fs f1) (ff_mask f2)) rows (band pi (ff_fs f1) c (bands_of pi fsqrt (ff_fs f1) b)) lab ib i v j =
  lsum (map (fun m1 => lsum (map (weight f1 f2 ncls spins i j m1) (filter p (grid (ff_fs f1))))) (modes (ff_fs f1) b c ib)).
Proof.
  intros Hc Hi P Hl. unfold raw_entry. rewrite (lsum_perm _ _ (Permutation_map _ (plane_of_perm _ _ P))).
  rewrite lsum_filter. unfold L_Flat2.modes. rewrite (filter_ext_in _ (fun m => uncut pi (ff_fs f1) c m && inb b ib (kmod_of (ff_fs f1) m))%bool) by (intros m Hm; apply band_eq; assumption).
  apply lsum_ext. intros m1 H1. unfold gather. rewrite plane_of_grid, lsum_filter. rewrite (filter_ext_in _ p) by exact Hl. reflexivity.
Qed.
Lemma cells_nth (b : fbins) (s : fsinfo) c rows i : contiguous b -> (i < n_bands b)%nat -> Permutation rows (seq 0 (fs_ny s)) ->
  nth i (tab (n_bands b) (count_cells s (band pi s c (bands_of pi fsqrt s b)) rows)) 0%Z = Z.of_nat (length (modes s b c i)).
Proof. intros Hc Hi P. rewrite nth_tab by exact Hi. apply count_eq; assumption. Qed.

(** what a computed workspace contains *)
Record wsp_spec (w : fwsp) (f1 f2 : ffield) (b : fbins) (c : cuts) (teb : bool) : Prop := {
  ws_ncls : fw_ncls w = n_spectra f1 f2 teb;
  ws_fs : fw_fs w = ff_fs f1;
  ws_bin : fw_bin w = b;
  ws_cut : fw_cut w = c;
  ws_cells : forall i, (i < n_bands b)%nat -> nth i (fw_cells w) 0%Z = Z.of_nat (length (modes (ff_fs f1) b c i));
  ws_sq : square (n_spectra f1 f2 teb * n_bands b) (fw_bnd w);
  ws_rows : length (fw_unb w) = (n_spectra f1 f2 teb * n_bands b)%nat;
  ws_bnd : forall i ib j jb, (i < n_spectra f1 f2 teb)%nat -> (j < n_spectra f1 f2 teb)%nat -> (ib < n_bands b)%nat -> (jb < n_bands b)%nat ->
     entry2 (fw_bnd w) (ib * n_spectra f1 f2 teb + i) (jb * n_spectra f1 f2 teb + j) =
     coup f1 f2 b c (n_spectra f1 f2 teb) (matrix_spins (ff_spin f1) (ff_spin f2) teb) ib i j (fun m => inb b jb (kmod_of (ff_fs f1) m));
  ws_unb : forall i ib j ir, (i < n_spectra f1 f2 teb)%nat -> (j < n_spectra f1 f2 teb)%nat -> (ib < n_bands b)%nat -> (ir < n_ell pi fsqrt trunc (ff_fs f1))%nat ->
     entry2 (fw_unb w) (ib * n_spectra f1 f2 teb + i) (ir * n_spectra f1 f2 teb + j) =
     coup f1 f2 b c (n_spectra f1 f2 teb) (matrix_spins (ff_spin f1) (ff_spin f2) teb) ib i j (fun m => (ring pi fsqrt trunc (ff_fs f1) m =? Z.of_nat ir)%Z)
}.
(** the value computed, for any order of the rows *)
Definition wsp_of (f1 f2 : ffield) (b : fbins) (c : cuts) (teb : bool) : fwsp :=
  let n := n_spectra f1 f2 teb in let s := ff_fs f1 in let nb := n_bands b in
  let mat_of (k : nat) (p : nat -> nat * nat -> bool) := tab (n * nb) (fun r => tab (n * k) (fun q => coup f1 f2 b c n (matrix_spins (ff_spin f1) (ff_spin f2) teb) (r / n) (r mod n) (q mod n) (p (q / n)%nat))) in
  FW n s b c (tab nb (fun i => Z.of_nat (length (modes s b c i)))) (mat_of (n_ell pi fsqrt trunc s) (fun ir m => (ring pi fsqrt trunc s m =? Z.of_nat ir)%Z)) (mat_of nb (fun jb m => inb b jb (kmod_of s m))).
Lemma coupling_matrix_eq f1 f2 b c teb rows : contiguous b -> Permutation rows (seq 0 (fs_ny (ff_fs f1))) ->
  coupling_matrix pi fsqrt trunc ph f1 f2 b c teb rows =
  if negb (same_fs (ff_fs f1) (ff_fs f2)) then Exn RuntimeError
  else if (teb && negb ((ff_spin f1 =? 0)%Z && negb (ff_spin f2 =? 0)%Z))%bool then Exn RuntimeError
  else Ok (wsp_of f1 f2 b c teb).
Proof.
  intros Hc P. unfold coupling_matrix. destruct (negb (same_fs (ff_fs f1) (ff_fs f2))); [reflexivity|]. destruct (teb && _)%bool; [reflexivity|].
  rewrite (grid_bands_ok pi fsqrt _ b Hc). cbn [bind]. fold (n_spectra f1 f2 teb). fold (n_bands b). set (n := n_spectra f1 f2 teb). assert (Hn : (0 < n)%nat) by apply n_spectra_pos.
  unfold wsp_of. fold n. f_equal. f_equal.
  - apply tab_ext. intros i Hi. apply count_eq; assumption.
  - apply tab_ext. intros r Hr. apply tab_ext. intros q Hq. destruct (div_mod_lt n r _ Hn Hr) as [R1 R2]. destruct (div_mod_lt n q _ Hn Hq) as [Q1 Q2]. unfold coup. rewrite (cells_nth b (ff_fs f1) c rows (r / n)%nat Hc R1 P).
    f_equal. apply (raw_eq f1 f2 n _ b c rows _ _ _ _ _ (fun m => (ring pi fsqrt trunc (ff_fs f1) m =? Z.of_nat (q / n))%Z)); auto.
  - apply tab_ext. intros r Hr. apply tab_ext. intros q Hq. destruct (div_mod_lt n r _ Hn Hr) as [R1 R2]. destruct (div_mod_lt n q _ Hn Hq) as [Q1 Q2]. unfold coup. rewrite (cells_nth b (ff_fs f1) c rows (r / n)%nat Hc R1 P).
    f_equal. apply (raw_eq f1 f2 n _ b c rows _ _ _ _ _ (fun m => inb b (q / n) (kmod_of (ff_fs f1) m))); auto. intros m Hm. apply nocut_eq; assumption.
Qed.
Lemma wsp_of_spec f1 f2 b c teb : wsp_spec (wsp_of f1 f2 b c teb) f1 f2 b c teb.
Proof.
  pose proof (n_spectra_pos f1 f2 teb) as Hn. assert (A : forall i ib, (i < n_spectra f1 f2 teb)%nat -> (ib < n_bands b)%nat -> (ib * n_spectra f1 f2 teb + i < n_spectra f1 f2 teb * n_bands b)%nat) by (intros; nia).
  constructor; try reflexivity.
  - intros i Hi. unfold wsp_of. cbn [fw_cells]. rewrite nth_tab by exact Hi. reflexivity.
  - unfold wsp_of. cbn [fw_bnd]. apply square_tab.
  - unfold wsp_of. cbn [fw_unb]. apply length_tab.
  - intros i ib j jb Hi Hj Hib Hjb. unfold wsp_of, entry2. cbn [fw_bnd]. rewrite nth_tab by (apply A; assumption). rewrite nth_tab by (apply A; assumption).
    destruct (div_mod_flat _ _ ib Hi) as [-> ->]. destruct (div_mod_flat _ _ jb Hj) as [-> ->]. reflexivity.
  - intros i ib j jb Hi Hj Hib Hjb. unfold wsp_of, entry2. cbn [fw_unb]. rewrite nth_tab by (apply A; assumption). rewrite nth_tab by nia.
    destruct (div_mod_flat _ _ ib Hi) as [-> ->]. destruct (div_mod_flat _ _ jb Hj) as [-> ->]. reflexivity.
Qed.
Lemma coup_labels f1 f2 b c ncls spins ib i j n (p : nat -> nat * nat -> bool) (v : nat -> F) (val : nat * nat -> F) :
  (forall m, In m (grid (ff_fs f1)) -> val m = sum n (fun k => if p k m then v k else 0)) ->
  sum n (fun k => coup f1 f2 b c ncls spins ib i j (p k) * v k) =
  lsum (map (fun m1 => lsum (map (fun m2 => weight f1 f2 ncls spins i j m1 m2 * val m2) (grid (ff_fs f1)))) (modes (ff_fs f1) b c ib)) * fac_norm pi (ff_fs f1) (Z.of_nat (length (modes (ff_fs f1) b c ib))).
Proof.
  intro H. unfold coup. set (fn := fac_norm _ _ _). rewrite (sum_ext _ _ (fun k => lsum (map (fun m1 => lsum (map (weight f1 f2 ncls spins i j m1) (filter (p k) (grid (ff_fs f1)))) * v k) (modes (ff_fs f1) b c ib)) * fn)).
  - rewrite sum_mul_r. f_equal. rewrite <- lsum_swap. apply lsum_ext. intros m1 _. apply sum_labels. exact H.
  - intros k _. rewrite lsum_mul_r. ring.
Qed.
End W.
End LWspFlat.
