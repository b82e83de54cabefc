(** Lemmas for the flat-sky power spectrum estimator. *)
From Verif Require Import Base M_Utils M_Bins M_FlatBins M_Flat P_FlatBins L_Flat L_FITS L_MCM.
From Coq Require Import Permutation.
Open Scope nat_scope.

Lemma ix_here_le nx ix : (ix < nx)%nat -> (ix_here nx ix < nx / 2 + 1)%nat.
Proof. intro H. unfold ix_here. destruct (Nat.leb_spec (2 * ix) nx); [apply Nat.le_lt_trans with (nx / 2)%nat; [apply Nat.div_le_lower_bound; lia | lia]|].
  apply Nat.le_lt_trans with (nx / 2)%nat; [apply Nat.div_le_lower_bound; lia | lia]. Qed.
Definition opp_row (n i : nat) : nat := ((n - i) mod n)%nat.
Lemma opp_row_lt n i : (0 < n)%nat -> (opp_row n i < n)%nat.
Proof. intro H. unfold opp_row. apply Nat.mod_upper_bound. lia. Qed.
Lemma opp_row_inv n i : (i < n)%nat -> opp_row n (opp_row n i) = i.
Proof.
  intro H. unfold opp_row. destruct (Nat.eq_dec i 0) as [->|N].
  - rewrite Nat.sub_0_r, Nat.mod_same, Nat.sub_0_r, Nat.mod_same by lia. reflexivity.
  - rewrite (Nat.mod_small (n - i)) by lia. rewrite Nat.mod_small by lia. lia.
Qed.
Lemma freq_opp n i : (i < n)%nat -> freq n (opp_row n i) = (- freq n i)%Z \/ (opp_row n i = i).
Proof.
  intro H. unfold opp_row. destruct (Nat.eq_dec i 0) as [->|N].
  - right. rewrite Nat.sub_0_r, Nat.mod_same by lia. reflexivity.
  - rewrite Nat.mod_small by lia. destruct (Nat.eq_dec (2 * i) n) as [E|E]; [right; lia|]. left. unfold freq. destruct (Nat.leb_spec (2 * i) n), (Nat.leb_spec (2 * (n - i)) n); lia.
Qed.
Lemma rows_perm n : Permutation (map (opp_row n) (seq 0 n)) (seq 0 n).
Proof.
  apply NoDup_Permutation_bis.
  - assert (G : forall l, (forall i, In i l -> (i < n)%nat) -> NoDup l -> NoDup (map (opp_row n) l)).
    { induction l as [|x l IH]; intros HL ND; [constructor|]. inversion ND; subst. cbn. constructor; [|apply IH; [intros; apply HL; cbn; auto | assumption]].
      rewrite in_map_iff. intros [y [E Hy]]. apply (f_equal (opp_row n)) in E. rewrite !opp_row_inv in E by (apply HL; cbn; auto). subst. contradiction. }
    apply G; [intros i Hi; apply in_seq in Hi; lia | apply seq_NoDup].
  - rewrite map_length. lia.
  - intros i Hi. apply in_map_iff in Hi. destruct Hi as [j [<- Hj]]. apply in_seq in Hj. apply in_seq. pose proof (opp_row_lt n j). lia.
Qed.

Section LFlat2.
Context {F : ofield}.
Local Open Scope F_scope.
Add Field FfFl2 : (fth F).
Notation cplx := (cplx F).
Notation fsinfo := (fsinfo F).
Notation fbins := (fbins F).
Notation cuts := (cuts F).

(** ** Vocabulary *)
Definition inb (b : fbins) (i : nat) (k : F) : bool := (low b i <=? k) && (k <? high b i).
Lemma inb_contains b i k : (i < n_bands b)%nat -> inb b i k = true <-> contains b i k.
Proof. intro H. unfold inb, contains. rewrite Bool.andb_true_iff. unfold fle, flt. unfold fltb. rewrite Bool.negb_true_iff. tauto. Qed.
(** all modes of the plane, column by row *)
Definition grid (s : fsinfo) : list (nat * nat) := flat_map (fun iy => map (fun ix => (ix, iy)) (seq 0 (fs_nx s))) (seq 0 (fs_ny s)).
Lemma in_grid s m : In m (grid s) <-> (fst m < fs_nx s)%nat /\ (snd m < fs_ny s)%nat.
Proof.
  unfold grid. rewrite in_flat_map. split.
  - intros [iy [H1 H2]]. apply in_map_iff in H2. destruct H2 as [ix [<- H2]]. apply in_seq in H1, H2. cbn. lia.
  - destruct m as [ix iy]. cbn. intros [H1 H2]. exists iy. split; [apply in_seq; lia|]. apply in_map_iff. exists ix. split; [reflexivity | apply in_seq; lia].
Qed.
Section Sel.
Variables (pi : F) (fsqrt : F -> F).
Definition uncut (s : fsinfo) (c : cuts) (m : nat * nat) : bool := negb (cut_x c (kxf pi s (fst m))) && negb (cut_y c (kyf pi s (snd m))).
Definition kmod_of (s : fsinfo) (m : nat * nat) : F := kmodf pi fsqrt s (fst m) (snd m).
Definition modes (s : fsinfo) (b : fbins) (c : cuts) (i : nat) : list (nat * nat) := filter (fun m => uncut s c m && inb b i (kmod_of s m)) (grid s).
Definition average (s : fsinfo) (l : list (nat * nat)) (g : nat * nat -> F) : F :=
  if Nat.eqb (length l) 0 then 0 else fofZ 4 * pi * pi / (fs_lx s * fs_ly s) * (lsum (map g l) / fofnat (length l)).
(** what the code reads for a mode *)
Definition read_at (s : fsinfo) (a : list cplx) (m : nat * nat) : cplx := nth (ix_here (fs_nx s) (fst m) + nhalf s * snd m) a c0.
Definition mode_updates (s : fsinfo) (b : fbins) (c : cuts) (a1 a2 : list cplx) (m : nat * nat) : list (Z * F) :=
  if uncut s c m then match find (fun i => inb b i (kmod_of s m)) (seq 0 (n_bands b)) with Some i => [(Z.of_nat i, cdot (read_at s a1 m) (read_at s a2 m))] | None => [] end else [].
Lemma search_find b k il : contiguous b -> (il < Z.of_nat (n_bands b))%Z ->
  search_fast b k il = Ok (match find (fun i => inb b i k) (seq 0 (n_bands b)) with Some i => Z.of_nat i | None => (-1)%Z end).
Proof.
  intros Hc Hil. destruct (C10_search_exact b k il Hc Hil) as [r [E [_ [C1 C2]]]]. rewrite E. f_equal.
  destruct (find _ _) as [i|] eqn:Ef.
  - apply find_some in Ef. destruct Ef as [H1 H2]. apply in_seq in H1. apply C1. apply inb_contains; [lia | exact H2].
  - apply C2. intros i Hi. pose proof (find_none _ _ Ef i) as N. assert (Q : inb b i k = true) by (apply inb_contains; [exact (proj1 Hi) | exact Hi]). cbn in N. rewrite N in Q; [discriminate|]. apply in_seq. destruct Hi. lia.
Qed.
Lemma row_cols_eq s b c a1 a2 iy : contiguous b -> length a1 = (fs_ny s * nhalf s)%nat -> length a2 = (fs_ny s * nhalf s)%nat -> (iy < fs_ny s)%nat ->
  cut_y c (kyf pi s iy) = false -> forall cols ik, (forall ix, In ix cols -> (ix < fs_nx s)%nat) -> (ik < Z.of_nat (n_bands b))%Z ->
  row_cols pi fsqrt s b c a1 a2 iy cols ik = Ok (flat_map (fun ix => mode_updates s b c a1 a2 (ix, iy)) cols).
Proof.
  intros Hc H1 H2 Hy Hcy. induction cols as [|ix t IH]; intros ik Hx Hik; [reflexivity|]. cbn [row_cols flat_map].
  assert (Hix : (ix < fs_nx s)%nat) by (apply Hx; cbn; auto). assert (Ht : forall ix, In ix t -> (ix < fs_nx s)%nat) by (intros; apply Hx; cbn; auto).
  unfold mode_updates at 1, uncut. cbn [fst snd]. rewrite Hcy. destruct (cut_x c (kxf pi s ix)) eqn:Ex; cbn [negb andb app]; [apply IH; assumption|].
  rewrite (search_find b _ ik Hc Hik). cbn [bind]. unfold kmod_of. cbn [fst snd]. destruct (find _ _) as [i|] eqn:Ef.
  - apply find_some in Ef. destruct Ef as [G1 G2]. apply in_seq in G1. replace (0 <=? Z.of_nat i)%Z with true by (symmetry; apply Z.leb_le; lia).
    assert (L : (ix_here (fs_nx s) ix + nhalf s * iy < fs_ny s * nhalf s)%nat). { pose proof (ix_here_le _ _ Hix). unfold nhalf in *. nia. }
    rewrite (rd_nat a1 _ c0), (rd_nat a2 _ c0) by lia. cbn [bind]. rewrite IH by (assumption || lia). reflexivity.
  - replace (0 <=? -1)%Z with false by reflexivity. cbn [app]. apply IH; [assumption | lia].
Qed.
Lemma all_updates_eq s b c a1 a2 : contiguous b -> length a1 = (fs_ny s * nhalf s)%nat -> length a2 = (fs_ny s * nhalf s)%nat ->
  all_updates pi fsqrt s b c a1 a2 = Ok (flat_map (mode_updates s b c a1 a2) (grid s)).
Proof.
  intros Hc H1 H2. unfold all_updates, rows_of, grid.
  rewrite (mapM_ok _ (fun iy => flat_map (fun ix => mode_updates s b c a1 a2 (ix, iy)) (seq 0 (fs_nx s)))).
  - cbn [bind]. f_equal. induction (seq 0 (fs_ny s)) as [|iy t IH]; [reflexivity|]. cbn [map concat flat_map]. rewrite IH, flat_map_app. f_equal.
    clear. induction (seq 0 (fs_nx s)) as [|ix t IH]; [reflexivity|]. cbn. rewrite IH. reflexivity.
  - intros iy Hy. apply in_seq in Hy. unfold row_updates. destruct (cut_y c (kyf pi s iy)) eqn:Ey.
    + f_equal. clear -Ey. induction (seq 0 (fs_nx s)) as [|ix t IH]; [reflexivity|]. cbn [flat_map]. rewrite <- IH. unfold mode_updates, uncut. cbn [fst snd]. rewrite Ey, Bool.andb_false_r. reflexivity.
    + apply row_cols_eq; auto; [lia | intros ix Hx; apply in_seq in Hx; lia|]. destruct Hc as [[_ [Hn _]] _]. lia.
Qed.
(** the accumulation *)
Definition to_band (i : nat) (u : Z * F) : bool := (fst u =? Z.of_nat i)%Z.
Lemma accumulate us nb : (forall u, In u us -> (0 <= fst u < Z.of_nat nb)%Z) -> forall (v : list F) (n : list Z), length v = nb -> length n = nb ->
  foldM add_update (v, n) us = Ok (tab nb (fun i => nth i v 0 + lsum (map snd (filter (to_band i) us))), tab nb (fun i => nth i n 0 + Z.of_nat (length (filter (to_band i) us)))%Z).
Proof.
  induction us as [|u t IH]; intros HU v n Hv Hn.
  - cbn. f_equal. f_equal; [apply (list_eq_nth _ _ 0) | apply (list_eq_nth _ _ 0%Z)]; rewrite ?length_tab; auto; intros i Hi; rewrite nth_tab by lia; cbn; [ring | lia].
  - assert (Hu : (0 <= fst u < Z.of_nat nb)%Z) by (apply HU; cbn; auto). cbn [foldM]. unfold add_update at 1. cbn [fst snd]. destruct u as [k x]. cbn [fst snd] in *.
    destruct (Z_of_nat_complete k (proj1 Hu)) as [j ->]. rewrite (rd_nat v j 0), (rd_nat n j 0%Z) by lia. cbn [bind]. rewrite Nat2Z.id.
    rewrite IH by (rewrite ?length_upd; auto; intros; apply HU; cbn; auto). f_equal. f_equal; apply tab_ext; intros i Hi.
    + rewrite nth_upd by lia. cbn [filter]. unfold to_band at 2. cbn [fst]. destruct (Nat.eqb_spec i j) as [->|N].
      * rewrite Z.eqb_refl. cbn [map snd]. change (lsum (?x :: ?l)) with (x + lsum l). ring.
      * destruct (Z.eqb_spec (Z.of_nat j) (Z.of_nat i)) as [E|E]; [lia|]. reflexivity.
    + rewrite nth_upd by lia. cbn [filter]. unfold to_band at 2. cbn [fst]. destruct (Nat.eqb_spec i j) as [->|N].
      * rewrite Z.eqb_refl. cbn [length]. lia.
      * destruct (Z.eqb_spec (Z.of_nat j) (Z.of_nat i)) as [E|E]; [lia|]. reflexivity.
Qed.
Lemma filter_length_perm {A} (f : A -> bool) l l' : Permutation l l' -> Permutation (filter f l) (filter f l').
Proof. induction 1 as [|x l l' H IH|x y l|l1 l2 l3 H1 IH1 H2 IH2]; cbn; [constructor | destruct (f x); [constructor; exact IH | exact IH] | destruct (f x), (f y); try apply perm_swap; reflexivity | eapply Permutation_trans; eauto]. Qed.
(** the outcome does not depend on the order in which the threads add their terms *)
Lemma alm2cl_perm s b us us' : Permutation us us' -> (forall u, In u us -> (0 <= fst u < Z.of_nat (n_bands b))%Z) -> alm2cl_updates pi s b us' = alm2cl_updates pi s b us.
Proof.
  intros P HU. unfold alm2cl_updates. fold (n_bands b). rewrite (accumulate us (n_bands b)) by (rewrite ?repeat_length; auto).
  rewrite (accumulate us' (n_bands b)) by (rewrite ?repeat_length; auto; intros u Hu; apply HU; apply (Permutation_in _ (Permutation_sym P)); exact Hu). cbn [bind]. f_equal. apply tab_ext. intros i Hi. rewrite !nth_tab by exact Hi.
  pose proof (filter_length_perm (to_band i) _ _ P) as Q. rewrite (Permutation_length Q). f_equal. f_equal. symmetry. apply lsum_perm. apply Permutation_map. exact Q.
Qed.
Lemma updates_in s b c a1 a2 l u : In u (flat_map (mode_updates s b c a1 a2) l) -> (0 <= fst u < Z.of_nat (n_bands b))%Z.
Proof.
  rewrite in_flat_map. intros [m [_ H]]. unfold mode_updates in H. destruct (uncut s c m); [|contradiction]. destruct (find _ _) as [i|] eqn:E; [|contradiction].
  apply find_some in E. destruct E as [E _]. apply in_seq in E. destruct H as [<-|[]]. cbn. lia.
Qed.
Lemma find_unique b i k : contiguous b -> (i < n_bands b)%nat -> (find (fun i => inb b i k) (seq 0 (n_bands b)) = Some i <-> inb b i k = true).
Proof.
  intros Hc Hi. assert (H0 : (0 < Z.of_nat (n_bands b))%Z) by lia. destruct (C10_search_exact b k 0 Hc H0) as [r [E [_ [C1 C2]]]]. rewrite (search_find b k 0 Hc H0) in E. injection E as E.
  rewrite (inb_contains b i k Hi), C1. destruct (find _ _) as [j|]; split; intro H; try discriminate; [injection H as ->; lia | f_equal; lia | lia].
Qed.
Lemma filter_updates s b c a1 a2 i l : contiguous b -> (i < n_bands b)%nat ->
  filter (to_band i) (flat_map (mode_updates s b c a1 a2) l) = map (fun m => (Z.of_nat i, cdot (read_at s a1 m) (read_at s a2 m))) (filter (fun m => uncut s c m && inb b i (kmod_of s m)) l).
Proof.
  intros Hc Hi. induction l as [|m t IH]; [reflexivity|]. cbn [flat_map filter]. rewrite filter_app, IH. unfold mode_updates. destruct (uncut s c m); cbn [andb]; [|reflexivity].
  pose proof (find_unique b i (kmod_of s m) Hc Hi) as FU. destruct (find _ _) as [j|] eqn:E.
  - cbn [filter]. unfold to_band at 1. cbn [fst]. destruct (Z.eqb_spec (Z.of_nat j) (Z.of_nat i)) as [Q|Q].
    + assert (j = i) as -> by lia. rewrite (proj1 FU eq_refl). reflexivity.
    + destruct (inb b i (kmod_of s m)); [|reflexivity]. pose proof (proj2 FU eq_refl) as X. injection X as ->. congruence.
  - cbn [filter app]. destruct (inb b i (kmod_of s m)); [|reflexivity]. pose proof (proj2 FU eq_refl). discriminate.
Qed.
Lemma normalise_average s l g : normalise pi s (lsum (map g l)) (Z.of_nat (length l)) = average s l g.
Proof.
  unfold normalise, average. destruct l as [|m t]; [reflexivity|]. replace (Z.of_nat (length (m :: t)) <=? 0)%Z with false by (symmetry; apply Z.leb_gt; cbn [length]; lia).
  replace (Nat.eqb (length (m :: t)) 0) with false by reflexivity. set (x := lsum _). set (n := length _). replace (fofZ (Z.of_nat n)) with (fofnat (F:=F) n) by (symmetry; apply fofZ_of_nat).
  rewrite !(Fdiv_def (fth F)). ring.
Qed.
(** any execution: the updates in any order *)
Lemma alm2cl_order s b c a1 a2 us us' : contiguous b -> length a1 = (fs_ny s * nhalf s)%nat -> length a2 = (fs_ny s * nhalf s)%nat ->
  all_updates pi fsqrt s b c a1 a2 = Ok us -> Permutation us us' -> 
  alm2cl_updates pi s b us' = Ok (tab (n_bands b) (fun i => average s (modes s b c i) (fun m => cdot (read_at s a1 m) (read_at s a2 m)))).
Proof.
  intros Hc H1 H2 E P. rewrite (all_updates_eq s b c a1 a2 Hc H1 H2) in E. assert (Eu : us = flat_map (mode_updates s b c a1 a2) (grid s)) by congruence.
  rewrite (alm2cl_perm s b us us' P) by (intros u Hu; rewrite Eu in Hu; apply updates_in in Hu; exact Hu). rewrite Eu. unfold alm2cl_updates. fold (n_bands b).
  rewrite (accumulate _ (n_bands b)) by (rewrite ?repeat_length; auto; intros u Hu; apply updates_in in Hu; exact Hu). cbn [bind]. f_equal. apply tab_ext. intros i Hi. rewrite !nth_tab by exact Hi.
  rewrite (filter_updates s b c a1 a2 i _ Hc Hi). rewrite map_map, map_length. cbn [snd]. fold (modes s b c i). rewrite <- normalise_average. rewrite nth_repeat, nth_repeat. f_equal. ring.
Qed.
(** ** The full plane *)
(** the value at (ix,iy), from the stored half plane: the right half by Hermitian symmetry *)
Definition plane (s : fsinfo) (a : list cplx) (m : nat * nat) : cplx :=
  if (2 * fst m <=? fs_nx s)%nat then nth (fst m + nhalf s * snd m) a c0 else conjc (nth (fs_nx s - fst m + nhalf s * opp_row (fs_ny s) (snd m)) a c0).
Lemma ky_opp s iy : (iy < fs_ny s)%nat -> kyf pi s (opp_row (fs_ny s) iy) = - kyf pi s iy \/ kyf pi s (opp_row (fs_ny s) iy) = kyf pi s iy.
Proof. intro H. unfold kyf. destruct (freq_opp (fs_ny s) iy H) as [E|E]; rewrite E; [left; rewrite fofZ_opp; ring | right; reflexivity]. Qed.
Lemma kmod_opp s ix iy : (iy < fs_ny s)%nat -> kmodf pi fsqrt s ix (opp_row (fs_ny s) iy) = kmodf pi fsqrt s ix iy.
Proof. intro H. unfold kmodf. f_equal. destruct (ky_opp s iy H) as [E|E]; rewrite E; ring. Qed.
Lemma sum_opp_row n (g : nat -> F) : sum n (fun i => g (opp_row n i)) = sum n g.
Proof. rewrite <- !lsum_seq. rewrite <- (map_map (opp_row n) g). apply lsum_perm. apply Permutation_map. apply rows_perm. Qed.
Lemma lsum_grid s (p : nat * nat -> bool) (g : nat * nat -> F) :
  lsum (map g (filter p (grid s))) = sum (fs_nx s) (fun ix => sum (fs_ny s) (fun iy => if p (ix, iy) then g (ix, iy) else 0)).
Proof.
  rewrite sum_swap. unfold grid. rewrite <- lsum_seq. induction (seq 0 (fs_ny s)) as [|iy t IH]; [reflexivity|]. cbn [flat_map map]. rewrite filter_app, map_app, lsum_app, IH. cbn [lsum]. 
  rewrite <- lsum_seq. change (lsum (?x :: ?l)) with (x + lsum l). f_equal. clear IH. induction (seq 0 (fs_nx s)) as [|ix u IHu]; [reflexivity|]. cbn [map filter]. destruct (p (ix, iy)); cbn [map]; rewrite !lsum_cons_F || idtac.
  - change (lsum (?x :: ?l)) with (x + lsum l). rewrite IHu. reflexivity.
  - change (lsum (?x :: ?l)) with (x + lsum l). rewrite IHu. ring.
Qed.
(** selection is symmetric in ky *)
Definition y_symmetric (s : fsinfo) (c : cuts) : Prop := forall iy, (iy < fs_ny s)%nat -> cut_y c (kyf pi s (opp_row (fs_ny s) iy)) = cut_y c (kyf pi s iy).
Lemma read_plane s b c a1 a2 i : y_symmetric s c ->
  lsum (map (fun m => cdot (read_at s a1 m) (read_at s a2 m)) (modes s b c i)) = lsum (map (fun m => cdot (plane s a1 m) (plane s a2 m)) (modes s b c i)).
Proof.
  intro HS. unfold modes. rewrite !lsum_grid. apply sum_ext. intros ix Hx. unfold read_at, plane, ix_here. cbn [fst snd]. destruct (2 * ix <=? fs_nx s)%nat; [reflexivity|].
  rewrite <- sum_opp_row. apply sum_ext. intros iy Hy. rewrite cdot_conj. unfold uncut, kmod_of. cbn [fst snd]. rewrite (kmod_opp s ix iy Hy), (HS iy Hy). reflexivity.
Qed.
End Sel.
End LFlat2.
