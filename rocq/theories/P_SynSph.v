(** Property C93: synthetic maps on the sphere. *)
From Coq Require Import ZArith.
From Verif Require Import Base M_Utils L_Utils M_Field L_Field L_Field2 P_Utils P_Field P_Field2 P_Field3 P_Field4 P_Field5 P_Field6 P_Field7 M_Cell M_SynSph.
Section Lists.
Lemma firstn_skipn_concat' {A} (l : list (list A)) : forall i, (i < length l)%nat -> firstn (length (nth i l [])) (skipn (list_sum (map (@length A) (firstn i l))) (concat l)) = nth i l [].
Proof.
  induction l as [|x l IH]; intros i Hi; cbn [length] in Hi; [lia|]. destruct i as [|i]; cbn [concat nth firstn map list_sum fold_right].
  - cbn [skipn]. rewrite firstn_app, Nat.sub_diag, firstn_O, app_nil_r. apply firstn_all.
  - change (fold_right Nat.add 0%nat (map (@length A) (firstn i l))) with (list_sum (map (@length A) (firstn i l))). rewrite skipn_app. rewrite skipn_all2 by lia. cbn [app]. replace (length x + list_sum (map (@length A) (firstn i l)) - length x)%nat with (list_sum (map (@length A) (firstn i l))) by lia. apply IH. lia.
Qed.
Lemma mapM_firstn {A B} (g : A -> res B) l : forall r n, mapM g l = Ok r -> mapM g (firstn n l) = Ok (firstn n r).
Proof.
  induction l as [|x l IH]; intros r n H; cbn [mapM] in H; [injection H as <-; rewrite !firstn_nil; reflexivity|]. apply bind_ok in H as (y & Ey & H). apply bind_ok in H as (r' & Er & H). injection H as <-. destruct n as [|n]; [reflexivity|]. cbn [firstn mapM]. rewrite Ey. cbn [bind]. rewrite (IH _ n Er). reflexivity.
Qed.
Lemma mapM_skipn {A B} (g : A -> res B) l : forall r n, mapM g l = Ok r -> mapM g (skipn n l) = Ok (skipn n r).
Proof.
  induction l as [|x l IH]; intros r n H; cbn [mapM] in H; [injection H as <-; rewrite !skipn_nil; reflexivity|]. destruct n as [|n]; [cbn [skipn mapM]; exact H|]. apply bind_ok in H as (y & Ey & H). apply bind_ok in H as (r' & Er & H). injection H as <-. cbn [skipn]. apply IH, Er.
Qed.
Lemma cumsum_length l : forall a, length (cumsum a l) = length l.
Proof. induction l as [|x l IH]; intro a; [reflexivity|]. cbn [cumsum length]. rewrite IH. reflexivity. Qed.
Lemma cumsum_nth l : forall a i, (i < length l)%nat -> nth i (cumsum a l) 0%nat = (a + list_sum (firstn (S i) l))%nat.
Proof.
  induction l as [|x l IH]; intros a i Hi; cbn [length] in Hi; [lia|]. destruct i as [|i]; cbn [cumsum nth].
  - cbn [firstn list_sum fold_right]. lia.
  - rewrite IH by lia. cbn [firstn list_sum fold_right]. change (fold_right Nat.add 0%nat ?l) with (list_sum l). lia.
Qed.
Lemma nth_removelast {A} (l : list A) d i : (S i < length l)%nat -> nth i (removelast l) d = nth i l d.
Proof.
  revert i. induction l as [|x l IH]; intros i Hi; cbn [length] in Hi; [lia|]. cbn [removelast]. destruct l as [|y l]; [cbn [length] in Hi; lia|]. destruct i as [|i]; [reflexivity|]. cbn [nth]. apply IH. lia.
Qed.
Lemma map_first_length l : l <> [] -> length (map_first l) = length l.
Proof.
  intro H. unfold map_first. cbn [length]. assert (E : forall {A} (l : list A), length (removelast l) = pred (length l)) by (induction l0 as [|x [|y l0] IH]; [reflexivity | reflexivity |]; cbn [removelast length] in *; rewrite IH; reflexivity).
  rewrite E, cumsum_length. destruct l; [contradiction|]. reflexivity.
Qed.
Lemma map_first_nth l i : (i < length l)%nat -> nth i (map_first l) 0%nat = list_sum (firstn i l).
Proof.
  intro Hi. unfold map_first. destruct i as [|i]; [reflexivity|]. cbn [nth]. rewrite nth_removelast by (rewrite cumsum_length; lia). rewrite cumsum_nth by lia. lia.
Qed.
Lemma list_sum_firstn_le l i : (i < length l)%nat -> (list_sum (firstn i l) + nth i l 0 <= list_sum l)%nat.
Proof.
  revert i. induction l as [|x l IH]; intros i Hi; cbn [length] in Hi; [lia|]. destruct i as [|i]; cbn [firstn nth list_sum fold_right]; [lia|]. specialize (IH i ltac:(lia)). unfold list_sum in IH. lia.
Qed.
End Lists.

Section C93.
Context {F : ofield}.
Local Open Scope F_scope.
Add Field FfC93 : (fth F).
Notation mat := (list (list F)).
Variable pi : F.
Variables (fround ftrunc : F -> Z).
Variable ring_wts : nat -> list F.
Notation sky_info := (sky_info pi fround ftrunc ring_wts).
Notation synfast := (synfast pi fround ftrunc ring_wts).

(** the maps (or coefficients) that belong to field i: those of the fields before it come first *)
Definition first (spins : list Z) (i : nat) : nat := list_sum (map nmap_of (firstn i spins)).
Definition part {A} (spins : list Z) (i : nat) (l : list A) : list A := firstn (nmap_of (nth i spins 0%Z)) (skipn (first spins i) l).
(** the last multipole *)
Definition last_ell (cls : mat) (lmax : Z) : Z := Z.min (Z.of_nat (length (hd [] cls)) - 1) lmax.
(** the beam of field i at multipole l *)
Definition beam_at (beam : option mat) (i : nat) (l : Z) : F := match beam with None => 1 | Some b => nth (Z.to_nat l) (nth i b []) 0 end.
(** coefficients of field i after convolution with its beam *)
Definition smoothed (L : Z) (a : mat) (spins : list Z) (beam : option mat) (i : nat) : mat :=
  tab (nmap_of (nth i spins 0%Z)) (fun c => tab (n_alm L) (fun k => mg a (first spins i + c) k * beam_at beam i (nth k (ells L) 0%Z))).

Lemma list_sum_map_firstn spins i : list_sum (firstn i (map nmap_of spins)) = first spins i.
Proof. unfold first. rewrite firstn_map. reflexivity. Qed.
Lemma first_le spins i : (i < length spins)%nat -> (first spins i + nmap_of (nth i spins 0%Z) <= list_sum (map nmap_of spins))%nat.
Proof.
  intro Hi. pose proof (list_sum_firstn_le (map nmap_of spins) i) as H. rewrite map_length in H. specialize (H Hi). rewrite list_sum_map_firstn in H. rewrite (nth_indep _ 0%nat (nmap_of 0)) in H by (rewrite map_length; exact Hi). rewrite map_nth in H. exact H.
Qed.
Lemma beam_per_cons n nmap x (b : mat) : beam_per (n :: nmap) (x :: b) = repeat x n ++ beam_per nmap b.
Proof. reflexivity. Qed.
Lemma beam_per_nth nmap (b : mat) : forall i c, length b = length nmap -> (i < length nmap)%nat -> (c < nth i nmap 0)%nat -> nth (list_sum (firstn i nmap) + c) (beam_per nmap b) [] = nth i b [].
Proof.
  revert b. induction nmap as [|n nmap IH]; intros b i c Lb Hi Hc; cbn [length] in *; [lia|]. destruct b as [|x b]; [discriminate Lb|]. rewrite beam_per_cons. destruct i as [|i]; cbn [firstn list_sum fold_right nth] in *.
  - rewrite app_nth1 by (rewrite repeat_length; exact Hc). rewrite (nth_indep _ [] x) by (rewrite repeat_length; exact Hc). apply nth_repeat.
  - rewrite app_nth2 by (rewrite repeat_length; lia). rewrite repeat_length. change (fold_right Nat.add 0%nat (firstn i nmap)) with (list_sum (firstn i nmap)). replace (n + list_sum (firstn i nmap) + c - n)%nat with (list_sum (firstn i nmap) + c)%nat by lia. apply IH; [cbn [length] in Lb; lia | lia | exact Hc].
Qed.
Lemma beam_per_length nmap (b : mat) : length b = length nmap -> length (beam_per nmap b) = list_sum nmap.
Proof.
  revert b. induction nmap as [|n nmap IH]; intros [|x b] Lb; cbn [length] in Lb; try discriminate Lb; [reflexivity|]. rewrite beam_per_cons. cbn [list_sum fold_right]. rewrite app_length, repeat_length. rewrite IH by lia. reflexivity.
Qed.
Lemma part_nth {A} spins i (l : list A) d c : (c < nmap_of (nth i spins 0%Z))%nat -> nth c (part spins i l) d = nth (first spins i + c) l d.
Proof.
  intro Hc. unfold part. transitivity (nth c (skipn (first spins i) l) d).
  - generalize (skipn (first spins i) l) as v, (nmap_of (nth i spins 0%Z)) as n, Hc. clear. intro v. revert c. induction v as [|x v IH]; intros c n Hc; [rewrite firstn_nil; reflexivity|]. destruct n as [|n]; [lia|]. destruct c as [|c]; [reflexivity|]. cbn [firstn nth]. apply IH. lia.
  - generalize (first spins i) as k. clear. intro k. revert l. induction k as [|k IH]; intro l; [reflexivity|]. destruct l as [|x l]; [cbn [skipn nth Nat.add]; destruct c; reflexivity|]. cbn [skipn nth Nat.add]. apply IH.
Qed.
Lemma part_length {A} spins i (l : list A) : (i < length spins)%nat -> length l = list_sum (map nmap_of spins) -> length (part spins i l) = nmap_of (nth i spins 0%Z).
Proof. intros Hi L. unfold part. rewrite firstn_length, skipn_length. pose proof (first_le spins i Hi). lia. Qed.
Lemma smoothed_shape L a spins beam i : shaped (nmap_of (nth i spins 0%Z)) (n_alm L) (smoothed L a spins beam i).
Proof. split; [apply length_tab|]. apply Forall_forall. intros r Hr. apply (In_nth _ _ []) in Hr as (k & Hk & <-). unfold smoothed in Hk. rewrite length_tab in Hk. unfold smoothed. rewrite nth_tab by exact Hk. apply length_tab. Qed.
Lemma part_smoothed L (a : mat) spins beam (a' : mat) i : (i < length spins)%nat -> shaped (list_sum (map nmap_of spins)) (n_alm L) a ->
  match beam with None => Ok a | Some b => if negb (Nat.eqb (length b) (length spins)) then Exn ValueError else match b with [] => Exn IndexError | b0 :: _ => if (Z.of_nat (length b0) <? L + 1)%Z then Exn ValueError else Ok (zipw (almxfl L) a (beam_per (map nmap_of spins) b)) end end = Ok a' ->
  part spins i a' = smoothed L a spins beam i.
Proof.
  intros Hi Sa H. assert (La' : length a' = list_sum (map nmap_of spins)).
  { destruct beam as [b|]; [|injection H as <-; exact (proj1 Sa)]. destruct (Nat.eqb_spec (length b) (length spins)) as [Lb|]; cbn [negb] in H; [|discriminate H]. destruct b as [|b0 b]; [discriminate H|]. destruct (_ <? _)%Z; [discriminate H|]. injection H as <-. rewrite length_zipw, (proj1 Sa), beam_per_length by (rewrite map_length; exact Lb). apply Nat.min_id. }
  apply (list_eq_nth _ _ []); [rewrite part_length by assumption; unfold smoothed; rewrite length_tab; reflexivity|]. intros c Hc. rewrite part_length in Hc by assumption. rewrite part_nth by exact Hc. unfold smoothed. rewrite nth_tab by exact Hc.
  pose proof (first_le spins i Hi) as Le. assert (Hf : (first spins i + c < list_sum (map nmap_of spins))%nat) by lia. pose proof (shaped_nth _ _ a _ [] Sa Hf) as Lr.
  destruct beam as [b|].
  - destruct (Nat.eqb_spec (length b) (length spins)) as [Lb|]; cbn [negb] in H; [|discriminate H]. destruct b as [|b0 b]; [discriminate H|]. destruct (_ <? _)%Z; [discriminate H|]. injection H as <-.
    rewrite (nth_zipw _ a _ _ [] [] []); [|rewrite (proj1 Sa); exact Hf | rewrite beam_per_length by (rewrite map_length; exact Lb); exact Hf].
    rewrite <- (list_sum_map_firstn spins i). rewrite beam_per_nth; [|rewrite map_length; exact Lb | rewrite map_length; exact Hi | rewrite (nth_indep _ 0%nat (nmap_of 0)) by (rewrite map_length; exact Hi); rewrite map_nth; exact Hc]. rewrite list_sum_map_firstn.
    unfold almxfl. apply (list_eq_nth _ _ 0); [rewrite length_zipw, length_tab, Lr; unfold n_alm; apply Nat.min_id|]. intros k Hk. rewrite length_zipw, Lr in Hk. assert (Hk' : (k < n_alm L)%nat) by (unfold n_alm in *; lia). rewrite nth_tab by exact Hk'. rewrite (nth_zipw _ _ _ k 0 0%Z 0); [reflexivity | rewrite Lr; exact Hk' | exact Hk'].
  - injection H as <-. apply (list_eq_nth _ _ 0); [rewrite length_tab; exact Lr|]. intros k Hk. rewrite Lr in Hk. rewrite nth_tab by exact Hk. unfold mg, beam_at. ring.
Qed.
(** what the user gets is what NmtField reads back *)
Lemma reform_layout (s : minfo F) v im : layout s v = Ok im -> reform_map s im = Ok v.
Proof.
  destruct s as [n w | ny nx nf fth fph wts]; cbn [layout].
  - destruct (_ =? _)%Z eqn:E; [|discriminate]. intro H. injection H as <-. cbn [reform_map]. rewrite E. reflexivity.
  - destruct (Nat.eqb_spec (length v) (ny * nx)) as [L|]; [|discriminate]. cbv zeta. intro H. injection H as <-. cbn [reform_map].
    assert (Lr : length (if fph then map (@rev F) (if fth then rev (chunks ny nx v) else chunks ny nx v) else if fth then rev (chunks ny nx v) else chunks ny nx v) = ny) by (destruct fth, fph; rewrite ?map_length, ?rev_length; apply (chunks_shaped ny nx v L)).
    rewrite Lr, !Nat.eqb_refl. cbn [andb]. cbv zeta. f_equal. transitivity (concat (chunks ny nx v)); [f_equal | apply concat_chunks, L].
    assert (RR : forall r : mat, map (@rev F) (map (@rev F) r) = r) by (intro r; rewrite map_map; rewrite <- (map_id r) at 2; apply map_ext; intro; apply rev_involutive).
    destruct fth, fph; rewrite <- ?map_rev, ?rev_involutive, ?RR; reflexivity.
Qed.
Lemma layout_rect (s : minfo F) v im : layout s v = Ok im -> rect im.
Proof.
  destruct s as [n w | ny nx nf fth fph wts]; cbn [layout].
  - destruct (_ =? _)%Z eqn:E; [|discriminate]. intro H. injection H as <-. exact I.
  - destruct (Nat.eqb_spec (length v) (ny * nx)) as [L|]; [|discriminate]. cbv zeta. intro H. injection H as <-. cbn [rect]. pose proof (chunks_shaped ny nx v L) as S. destruct fth, fph; [apply (shaped_map_rev ny nx), shaped_rev, S | apply (shaped_rev ny nx), S | apply (shaped_map_rev ny nx), S | apply S].
Qed.
Lemma mapM_reform (s : minfo F) vs ims : mapM (layout s) vs = Ok ims -> mapM (reform_map s) ims = Ok vs.
Proof.
  revert ims. induction vs as [|v vs IH]; intros ims H; cbn [mapM] in H; [injection H as <-; reflexivity|]. apply bind_ok in H as (y & Ey & H). apply bind_ok in H as (r & Er & H). injection H as <-. cbn [mapM]. rewrite (reform_layout _ _ _ Ey). cbn [bind]. rewrite (IH _ Er). reflexivity.
Qed.
(** everything that happens before the coefficients are drawn, and what comes out *)
Lemma synfast_inv synalm K x cls spins beam lmax maps : synfast synalm K x cls spins beam lmax = Ok maps ->
  exists s lm, sky_info x = Ok (s, lm) /\ let L := last_ell cls (opt lmax lm) in
  (forall i, (i < length spins)%nat -> (0 <= nth i spins 0)%Z) /\ spins <> [] /\ cls <> [] /\ (0 <= L)%Z /\
  let nmaps := list_sum (map nmap_of spins) in length cls = ((nmaps * (nmaps + 1)) / 2)%nat /\
  exists a ms, match beam with None => Ok (synalm cls L) | Some b => if negb (Nat.eqb (length b) (length spins)) then Exn ValueError else match b with [] => Exn IndexError | b0 :: _ => if (Z.of_nat (length b0) <? L + 1)%Z then Exn ValueError else Ok (zipw (almxfl L) (synalm cls L) (beam_per (map nmap_of spins) b)) end end = Ok a /\
    length ms = length spins /\ (forall i, (i < length spins)%nat -> isht K (nth i spins 0%Z) s L (part spins i a) = Ok (nth i ms [])) /\ mapM (layout s) (concat ms) = Ok maps.
Proof.
  intro H. unfold M_SynSph.synfast in H. apply bind_ok in H as ([s lm] & Es & H). exists s, lm. split; [exact Es|]. cbv zeta in H. destruct (existsb _ spins) eqn:EN; [discriminate H|]. destruct (Nat.eqb_spec ((list_sum (map nmap_of spins) * (list_sum (map nmap_of spins) + 1)) / 2) (length cls)) as [EC|]; cbn [negb] in H; [|discriminate H].
  destruct cls as [|c0 cls]; [discriminate H|]. apply bind_ok in H as (ne & En & H). apply bind_ok in H as (a & Ea & H). apply bind_ok in H as (ms & Em & H). cbv zeta. change (last_ell (c0 :: cls) (opt lmax lm)) with (Z.min (Z.of_nat (length c0) - 1) (opt lmax lm)). set (L := Z.min (Z.of_nat (length c0) - 1) (opt lmax lm)) in *.
  assert (NS : spins <> []) by (intros ->; discriminate EC).
  split; [intros i Hi; destruct (Z_lt_le_dec (nth i spins 0%Z) 0) as [Q|Q]; [|exact Q]; exfalso; assert (T : existsb (fun sp => (sp <? 0)%Z) spins = true) by (apply existsb_exists; exists (nth i spins 0%Z); split; [apply nth_In, Hi | apply Z.ltb_lt, Q]); congruence|].
  split; [exact NS|]. split; [discriminate|]. split; [destruct (Z_lt_le_dec L 0) as [Q|Q]; [rewrite C46_negative in En by exact Q; discriminate En | exact Q]|]. split; [symmetry; exact EC|].
  exists a, ms. split; [exact Ea|].
  assert (LC : length (combine (map_first (map nmap_of spins)) (combine (map nmap_of spins) spins)) = length spins).
  { rewrite !combine_length, map_first_length, !map_length by (intro Q; apply map_eq_nil in Q; contradiction). lia. }
  split; [rewrite (mapM_length _ _ _ Em); exact LC|]. split; [|exact H].
  intros i Hi. assert (N : nth_error (combine (map_first (map nmap_of spins)) (combine (map nmap_of spins) spins)) i = Some (first spins i, (nmap_of (nth i spins 0%Z), nth i spins 0%Z))).
  { rewrite (nth_error_nth' _ (0%nat, (nmap_of 0, 0%Z))) by (rewrite LC; exact Hi). f_equal. rewrite combine_nth by (rewrite map_first_length, combine_length, !map_length by (intro Q; apply map_eq_nil in Q; contradiction); lia). rewrite combine_nth by apply map_length. rewrite map_first_nth by (rewrite map_length; exact Hi). rewrite map_nth, list_sum_map_firstn. reflexivity. }
  destruct (mapM_inv _ _ _ Em i _ N) as (m & Hm & Nm). cbv beta iota in Hm. rewrite (nth_error_nth _ _ [] Nm). exact Hm.
Qed.
(** ** The maps of each field, read back by NmtField, are the transform (at the spin of the field) of the coefficients drawn for it, each multiplied by the
    beam of the field at its multipole, whatever the number and kinds of the fields and the orientation of the axes of the WCS *)
Theorem C93_maps synalm K x cls spins beam lmax maps s lm : map_shape K -> sky_info x = Ok (s, lm) -> let L := last_ell cls (opt lmax lm) in
  shaped (list_sum (map nmap_of spins)) (n_alm L) (synalm cls L) -> synfast synalm K x cls spins beam lmax = Ok maps ->
  length maps = list_sum (map nmap_of spins) /\ forall i, (i < length spins)%nat -> exists m, isht K (nth i spins 0%Z) s L (smoothed L (synalm cls L) spins beam i) = Ok m /\ mapM (reform_map s) (part spins i maps) = Ok m.
Proof.
  intros MS Es L Sa H. destruct (synfast_inv _ _ _ _ _ _ _ _ H) as (s' & lm' & Es' & _ & _ & _ & _ & _ & a & ms & Ea & Lm & Ei & Ey). rewrite Es in Es'. injection Es' as <- <-. fold L in Ea, Ei.
  assert (Ln : forall i, (i < length spins)%nat -> length (nth i ms []) = nmap_of (nth i spins 0%Z)).
  { intros i Hi. specialize (Ei i Hi). unfold isht in Ei. destruct (_ && _)%bool; [discriminate Ei|]. unfold alm2map in Ei. rewrite (mapM_length _ _ _ Ei), MS, (part_smoothed L (synalm cls L) spins beam a i Hi Sa Ea). apply smoothed_shape. }
  assert (EL : map (@length (list F)) ms = map nmap_of spins).
  { apply (list_eq_nth _ _ 0%nat); [rewrite !map_length; exact Lm|]. intros i Hi. rewrite map_length, Lm in Hi. rewrite (nth_indep _ 0%nat (length (@nil (list F)))) by (rewrite map_length, Lm; exact Hi). rewrite map_nth, Ln by exact Hi. rewrite (nth_indep _ 0%nat (nmap_of 0)) by (rewrite map_length; exact Hi). rewrite map_nth. reflexivity. }
  split.
  - rewrite (mapM_length _ _ _ Ey). rewrite <- EL. clear. induction ms as [|x ms IH]; [reflexivity|]. cbn [concat map list_sum fold_right]. rewrite app_length, IH. reflexivity.
  - intros i Hi. exists (nth i ms []). split; [rewrite <- (part_smoothed L (synalm cls L) spins beam a i Hi Sa Ea); apply Ei, Hi|].
    pose proof (mapM_reform _ _ _ Ey) as Er. assert (E : part spins i (concat ms) = nth i ms []).
    { unfold part, first. rewrite <- firstn_map, <- EL, firstn_map, <- (Ln i Hi). apply firstn_skipn_concat'. rewrite Lm. exact Hi. }
    rewrite <- E. unfold part. apply mapM_firstn, mapM_skipn, Er.
Qed.

(** ** Rings of synthetic rectangular maps are complete and reach the poles *)
Lemma fabs_bound (x c : F) : fabs x <= c -> x <= c /\ - x <= c.
Proof.
  intro H. unfold fabs in H. destruct (0 <=? x) eqn:E.
  - split; [exact H|]. eapply fle_trans; [|eapply fle_trans; [exact E | exact H]]. apply (proj2 (fle_sub_0 _ _)). replace (0 - - x) with x by ring. exact E.
  - split; [|exact H]. assert (N : x <= 0) by (destruct (fle_total 0 x) as [Q|Q]; [unfold fle in Q; congruence | exact Q]). eapply fle_trans; [exact N|]. eapply fle_trans; [apply fopp_nonneg, N | exact H].
Qed.
Lemma ltb_false (x y : F) : (x <? y) = false -> y <= x.
Proof. unfold fltb. intro H. apply negb_false_iff in H. exact H. Qed.
Lemma fofZ_le_inv x y : (fofZ x : F) <= fofZ y -> (x <= y)%Z.
Proof. intro H. destruct (Z_lt_le_dec y x) as [Q|Q]; [|exact Q]. exfalso. apply (flt_irrefl (fofZ y : F)). eapply flt_le_trans; [apply fofZ_lt, Q | exact H]. Qed.
Lemma centi (x : F) : x <= fofZ 1 / fofZ 100 -> fofZ 100 * x <= 1.
Proof. intro H. replace (1 : F) with (fofZ 100 * (fofZ 1 / fofZ 100) : F) by (rewrite fofZ_1; field; apply fofZ_neq0; lia). apply fle_mul_l; [apply flt_le, fofZ_pos; lia | exact H]. Qed.
Lemma near_le k m (x : F) : fabs (fofZ k - x) <= fofZ 1 / fofZ 100 -> fabs (fofZ m - x) <= fofZ 1 / fofZ 100 -> (k <= m)%Z.
Proof.
  intros Hk Hm. apply fabs_bound in Hk as [H1 _]. apply fabs_bound in Hm as [_ H2]. apply centi in H1. apply centi in H2. pose proof (fle_add _ _ _ _ H1 H2) as H. replace (fofZ 100 * (fofZ k - x) + fofZ 100 * - (fofZ m - x)) with (fofZ (100 * (k - m)) : F) in H by (rewrite fofZ_mul, fofZ_sub; ring). replace (1 + 1 : F) with (fofZ 2 : F) in H by reflexivity. apply fofZ_le_inv in H. lia.
Qed.
Lemma near_nonneg k (x : F) : 0 <= x -> fabs (fofZ k - x) <= fofZ 1 / fofZ 100 -> (0 <= k)%Z.
Proof.
  intros Hx Hk. apply fabs_bound in Hk as [_ H]. apply centi in H. assert (H' : fofZ (100 * - k) <= (fofZ 1 : F)).
  { rewrite fofZ_1. eapply fle_trans; [|exact H]. apply (proj2 (fle_sub_0 _ _)). replace (fofZ 100 * - (fofZ k - x) - fofZ (100 * - k)) with (fofZ 100 * x) by (rewrite fofZ_mul, fofZ_opp; ring). apply fmul_nonneg; [apply flt_le, fofZ_pos; lia | exact Hx]. }
  apply fofZ_le_inv in H'. lia.
Qed.
Lemma fabs_pos_of (x : F) : x <> 0 -> 0 < fabs x.
Proof. intro H. unfold fabs. destruct (0 <=? x) eqn:E; [apply fle_neq_lt; [exact E | congruence]|]. apply fle_neq_lt; [apply fopp_nonneg; destruct (fle_total 0 x) as [Q|Q]; [unfold fle in Q; congruence | exact Q] | intro Q; apply H; transitivity (- - x); [ring | rewrite <- Q; ring]]. Qed.
Lemma le_fabs (x : F) : x <= fabs x /\ - x <= fabs x.
Proof. apply fabs_bound, fle_refl. Qed.
Theorem C93_full_sky dra ddec r0 e0 s lm : P_Utils.trunc_law ftrunc -> sky_info (Rect dra ddec r0 e0) = Ok (s, lm) ->
  exists ny nx fth fph wts, s = Car ny nx nx fth fph wts /\ (0 < ny)%nat /\ (fth = true <-> 0 < ddec) /\ (fph = true <-> dra < 0) /\
    fabs (fofnat nx * fabs dra - fofZ 360) <= fofZ 1 / fofZ 100 * fabs dra /\
    let north := fofZ 90 - (if fth then e0 + fofnat (ny - 1) * ddec else e0) in
    0 <= north /\ north <= edge_tol pi /\ fofZ 180 - edge_tol pi <= north + fofnat (ny - 1) * fabs ddec /\ north + fofnat (ny - 1) * fabs ddec <= fofZ 180.
Proof.
  intros T H. cbn [M_SynSph.sky_info] in H. destruct (_ || _)%bool eqn:E0; [discriminate H|]. apply orb_false_iff in E0 as [Z1 Z2]. apply feqb_neq in Z1, Z2. cbv zeta in H. destruct (_ || _)%bool eqn:E1 in H; [discriminate H|]. apply orb_false_iff in E1 as [O1 O2]. destruct (_ || _)%bool eqn:E2 in H; [discriminate H|]. apply orb_false_iff in E2 as [P1 P2]. destruct (_ <? _) eqn:E3 in H; [discriminate H|]. destruct (_ || _)%bool eqn:E4 in H; [discriminate H|]. apply orb_false_iff in E4 as [Q1 Q2].
  unfold off_integer in O1, O2. apply ltb_false in O1, O2, P1, P2, E3, Q1, Q2. assert (HS := f_equal (fun r => match r with Ok (a, _) => a | _ => s end) H); cbv beta iota in HS; clear H; subst s. set (dph := fabs dra) in *. set (dth := fabs ddec) in *. assert (Dp : 0 < dph) by (apply fabs_pos_of, Z1). assert (Dt : 0 < dth) by (apply fabs_pos_of, Z2).
  set (n_ra := fround (fofZ 360 / dph)) in *. set (n_d := fround (fofZ 180 / dth)) in *.
  assert (X1 : (0 : F) <= fofZ 360 / dph) by (apply fdiv_nonneg; [apply flt_le, fofZ_pos; lia | exact Dp]). assert (X2 : (0 : F) <= fofZ 180 / dth) by (apply fdiv_nonneg; [apply flt_le, fofZ_pos; lia | exact Dt]).
  pose proof (near_nonneg _ _ X1 O1) as N1. pose proof (near_nonneg _ _ X2 O2) as N2.
  assert (W : width_ok fround (fofZ 360) dph n_ra = true).
  { unfold width_ok. apply andb_true_intro. split; apply negb_true_iff; unfold fltb; apply negb_false_iff; [exact O1|]. change (fofZ n_ra * dph <= fofZ 360 + fofZ 1 / fofZ 10 * dph). eapply fle_trans; [|exact E3]. unfold dph, fabs at 1. destruct (0 <=? dra); [apply (proj1 (le_fabs (fofZ n_ra * dra)))|]. replace (fofZ n_ra * - dra) with (- (fofZ n_ra * dra)) by ring. apply (proj2 (le_fabs (fofZ n_ra * dra))). }
  destruct (C48_rings_long_enough ftrunc fround (fofZ 360) dph n_ra T ltac:(apply fofZ_pos; lia) Dp W) as [_ NF]. assert (EF : nx_full ftrunc (fofZ 360) dph = n_ra) by (apply Z.le_antisymm; eapply near_le; eassumption).
  rewrite EF. exists (Z.to_nat (n_d + 1)), (Z.to_nat n_ra), (cg_fth (car_geometry (n_d + 1) n_ra e0 ddec r0 dra)), (cg_fph (car_geometry (n_d + 1) n_ra e0 ddec r0 dra)), (ring_wts (Z.to_nat (n_d + 1))).
  split; [reflexivity|]. split; [lia|]. split; [split; intro Q; exact Q|]. split; [split; intro Q; exact Q|].
  assert (EN : (fofnat (Z.to_nat n_ra) : F) = fofZ n_ra) by (rewrite <- fofZ_of_nat, Z2Nat.id by lia; reflexivity). rewrite EN.
  assert (ED : (fofnat (Z.to_nat (n_d + 1) - 1) : F) = fofZ n_d) by (rewrite <- fofZ_of_nat; f_equal; lia). rewrite ED.
  split.
  { replace (fofZ n_ra * dph - fofZ 360) with (dph * (fofZ n_ra - fofZ 360 / dph)) by (field; apply fpos_neq, Dp). apply fabs_bound in O1 as [O3 O4]. replace (fofZ 1 / fofZ 100 * dph) with (dph * (fofZ 1 / fofZ 100)) by ring. unfold fabs. destruct (0 <=? _) eqn:E; [apply fle_mul_l; [apply flt_le, Dp | exact O3]|]. replace (- (dph * (fofZ n_ra - fofZ 360 / dph))) with (dph * - (fofZ n_ra - fofZ 360 / dph)) by ring. apply fle_mul_l; [apply flt_le, Dp | exact O4]. }
  unfold car_geometry in *. cbn [cg_fth cg_theta_min] in *. replace (n_d + 1 - 1)%Z with n_d in * by lia. cbv zeta. assert (Fn : (0 : F) <= fofZ n_d) by (change (0 : F) with (fofZ 0 : F); apply fofZ_le; exact N2).
  assert (Z0 : e0 + fofZ 0 * ddec = e0) by (change (fofZ 0 : F) with (0 : F); ring). rewrite Z0 in *.
  assert (MM : fmax e0 (e0 + fofZ n_d * ddec) = (if 0 <? ddec then e0 + fofZ n_d * ddec else e0) /\ fmin e0 (e0 + fofZ n_d * ddec) = (if 0 <? ddec then e0 else e0 + fofZ n_d * ddec) /\ fofZ n_d * dth = if 0 <? ddec then fofZ n_d * ddec else - (fofZ n_d * ddec)).
  { unfold fmax, fmin, dth, fabs. destruct (0 <? ddec) eqn:SG.
    - assert (S : 0 <= ddec) by (apply flt_le; exact SG). pose proof S as S'. unfold fle in S'. rewrite S'. split; [|split; [|ring]].
      + destruct (e0 <? _) eqn:C; [reflexivity|]. apply ltb_false in C. apply fle_antisym; [|exact C]. apply (proj2 (fle_sub_0 _ _)). replace (e0 + fofZ n_d * ddec - e0) with (fofZ n_d * ddec) by ring. apply fmul_nonneg; assumption.
      + destruct (_ <? e0) eqn:C; [|reflexivity]. exfalso. apply (flt_irrefl e0). eapply fle_lt_trans; [|exact C]. apply (proj2 (fle_sub_0 _ _)). replace (e0 + fofZ n_d * ddec - e0) with (fofZ n_d * ddec) by ring. apply fmul_nonneg; assumption.
    - apply ltb_false in SG. assert (S' : (0 <=? ddec) = false) by (destruct (0 <=? ddec) eqn:Q; [exfalso; apply Z2; apply fle_antisym; assumption | reflexivity]). rewrite S'. assert (NN : 0 <= - (fofZ n_d * ddec)) by (replace (- (fofZ n_d * ddec)) with (fofZ n_d * - ddec) by ring; apply fmul_nonneg; [exact Fn | apply fopp_nonneg, SG]). split; [|split; [|ring]].
      + destruct (e0 <? _) eqn:C; [|reflexivity]. exfalso. apply (flt_irrefl e0). eapply flt_le_trans; [exact C|]. apply (proj2 (fle_sub_0 _ _)). replace (e0 - (e0 + fofZ n_d * ddec)) with (- (fofZ n_d * ddec)) by ring. exact NN.
      + destruct (_ <? e0) eqn:C; [reflexivity|]. apply ltb_false in C. apply fle_antisym; [exact C|]. apply (proj2 (fle_sub_0 _ _)). replace (e0 - (e0 + fofZ n_d * ddec)) with (- (fofZ n_d * ddec)) by ring. exact NN. }
  destruct MM as (M1 & M2 & M3). rewrite M1 in *. rewrite M2 in *. apply fabs_bound in Q1 as [Q1 _]. apply fabs_bound in Q2 as [_ Q2].
  assert (SUM : fofZ 90 - (if 0 <? ddec then e0 + fofZ n_d * ddec else e0) + fofZ n_d * dth = fofZ 90 - (if 0 <? ddec then e0 else e0 + fofZ n_d * ddec)) by (rewrite M3; destruct (0 <? ddec); ring).
  split; [exact P1|]. split; [exact Q1|]. rewrite SUM. split; [|exact P2]. apply (proj2 (fle_sub_0 _ _)). apply (proj1 (fle_sub_0 _ _)) in Q2. match goal with |- 0 <= ?x => match type of Q2 with 0 <= ?y => replace x with y by ring end end. exact Q2.
Qed.

Lemma sky_rect dra ddec r0 e0 s lm : sky_info (Rect dra ddec r0 e0) = Ok (s, lm) -> s = Car (Z.to_nat (fround (fofZ 180 / fabs ddec) + 1)) (Z.to_nat (fround (fofZ 360 / fabs dra))) (Z.to_nat (nx_full ftrunc (fofZ 360) (fabs dra))) (0 <? ddec) (dra <? 0) (ring_wts (Z.to_nat (fround (fofZ 180 / fabs ddec) + 1))).
Proof.
  intro H. cbn [M_SynSph.sky_info] in H. destruct (_ || _)%bool; [discriminate H|]. cbv zeta in H. do 2 (destruct (_ || _)%bool; [discriminate H|]). destruct (_ <? _) in H; [discriminate H|]. destruct (_ || _)%bool; [discriminate H|]. assert (HS := f_equal (fun r => match r with Ok (a, _) => a | _ => s end) H). cbv beta iota in HS. symmetry. exact HS.
Qed.
Lemma synfast_rect synalm K x cls spins beam lmax maps : synfast synalm K x cls spins beam lmax = Ok maps -> Forall rect maps.
Proof.
  intro H. destruct (synfast_inv _ _ _ _ _ _ _ _ H) as (s & lm & _ & _ & _ & _ & _ & _ & a & ms & _ & _ & _ & E). apply Forall_forall. intros im Him. apply (In_nth _ _ im) in Him as (k & Hk & <-). rewrite (mapM_length _ _ _ E) in Hk. destruct (nth_error (concat ms) k) as [v|] eqn:N; [|apply nth_error_None in N; lia]. destruct (mapM_inv _ _ _ E k _ N) as (b & Hb & Nb). rewrite (nth_error_nth _ _ im Nb). eapply layout_rect, Hb.
Qed.
(** ** What is accepted *)
Lemma sky_geom x s lm : P_Utils.trunc_law ftrunc -> sky_info x = Ok (s, lm) -> match s with Hpx n _ => (0 <= n)%Z | Car _ nx nf _ _ _ => nx = nf end.
Proof.
  intros T Es. destruct x as [n|dra ddec r0 e0].
  - cbn [M_SynSph.sky_info] in Es. apply bind_ok in Es as (n' & En & Es). assert (HS := f_equal (fun r => match r with Ok (a, _) => a | _ => s end) Es). cbv beta iota in HS. rewrite <- HS. apply C47_accepted_sizes in En as (k & Hk & -> & _). apply Z.pow_nonneg. lia.
  - destruct (C93_full_sky dra ddec r0 e0 _ _ T Es) as (ny & nx & fth & fph & wts & -> & _). reflexivity.
Qed.
Definition beam_ok (beam : option mat) (nfields : nat) (L : Z) : Prop := match beam with None => True | Some b => length b = nfields /\ (L < Z.of_nat (length (nth 0 b [])))%Z end.
(** maps are returned exactly if the pixelisation is accepted, no spin is negative, there are n(n+1)/2 spectra for n maps, the first spectrum has at least
    one element, lmax is not negative and there is one beam per field, the first of which reaches the last multipole *)
Theorem C93_accepts synalm K x cls spins beam lmax s lm : P_Utils.trunc_law ftrunc -> map_shape K -> pix_shape K -> sky_info x = Ok (s, lm) -> (c_healpy K = false \/ is_car s = false) ->
  let L := last_ell cls (opt lmax lm) in let nmaps := list_sum (map nmap_of spins) in shaped nmaps (n_alm L) (synalm cls L) ->
  ((exists maps, synfast synalm K x cls spins beam lmax = Ok maps) <-> spins <> [] /\ Forall (fun sp => 0 <= sp)%Z spins /\ length cls = ((nmaps * (nmaps + 1)) / 2)%nat /\ (0 <= L)%Z /\ beam_ok beam (length spins) L).
Proof.
  intros T MS PS Es HC L nmaps Sa. split.
  - intros [maps H]. destruct (synfast_inv _ _ _ _ _ _ _ _ H) as (s' & lm' & Es' & H1 & H2 & H3 & H4 & H5 & a & ms & Ea & _). rewrite Es in Es'. injection Es' as <- <-. fold L in H4, Ea. split; [exact H2|]. split; [apply Forall_forall; intros y Hy; apply (In_nth _ _ 0%Z) in Hy as (k & Hk & <-); apply H1, Hk|]. split; [exact H5|]. split; [exact H4|].
    unfold beam_ok. destruct beam as [b|]; [|exact I]. destruct (Nat.eqb_spec (length b) (length spins)) as [Lb|]; cbn [negb] in Ea; [|discriminate Ea]. destruct b as [|b0 b]; [discriminate Ea|]. destruct (Z.ltb_spec (Z.of_nat (length b0)) (L + 1)); [discriminate Ea|]. split; [exact Lb | cbn [nth]; lia].
  - intros (H1 & H2 & H3 & H4 & H5). unfold M_SynSph.synfast. rewrite Es. cbn [bind]. cbv zeta. assert (EN : existsb (fun sp => (sp <? 0)%Z) spins = false).
    { destruct (existsb _ spins) eqn:Q; [|reflexivity]. apply existsb_exists in Q as (y & Hy & Q). rewrite Forall_forall in H2. specialize (H2 y Hy). apply Z.ltb_lt in Q. lia. }
    rewrite EN. fold nmaps. rewrite <- H3, Nat.eqb_refl. cbn [negb]. destruct cls as [|c0 cls].
    { exfalso. clear - H1 H3. assert (nmaps > 0)%nat by (unfold nmaps; destruct spins as [|sp spins]; [contradiction|]; cbn [map list_sum fold_right]; unfold nmap_of at 1; destruct (sp =? 0)%Z; lia). cbn [length] in H3. assert (2 <= nmaps * (nmaps + 1))%nat by nia. symmetry in H3. apply Nat.div_small_iff in H3; lia. }
    change (Z.min (Z.of_nat (length c0) - 1) (opt lmax lm)) with L. assert (NE : exists n, nelem L = Ok n) by (destruct (C46_layout L H4) as (n0 & Q & _); exists n0; exact Q). destruct NE as [ne ->]. cbn [bind].
    assert (EB : exists a, match beam with None => Ok (synalm (c0 :: cls) L) | Some b => if negb (Nat.eqb (length b) (length spins)) then Exn ValueError else match b with [] => Exn IndexError | b0 :: _ => if (Z.of_nat (length b0) <? L + 1)%Z then Exn ValueError else Ok (zipw (almxfl L) (synalm (c0 :: cls) L) (beam_per (map nmap_of spins) b)) end end = Ok a).
    { destruct beam as [b|]; [|eexists; reflexivity]. destruct H5 as [Lb Hb]. rewrite Lb, Nat.eqb_refl. cbn [negb]. destruct b as [|b0 b]; [destruct spins; [contradiction | discriminate Lb]|]. cbn [nth] in Hb. destruct (Z.ltb_spec (Z.of_nat (length b0)) (L + 1)); [lia|]. eexists; reflexivity. }
    destruct EB as [a EB]. rewrite EB. cbn [bind]. pose proof (sky_geom _ _ _ T Es) as G. assert (PG : pad_geom s) by (unfold pad_geom; destruct s; [exact I | lia]).
    destruct (mapM_all (fun p => let '(i0, (n, sp)) := p in isht K sp s L (firstn n (skipn i0 a))) (combine (map_first (map nmap_of spins)) (combine (map nmap_of spins) spins))) as [ms Em]; [intros [i0 [n sp]] _; apply isht_ok; assumption|].
    rewrite Em. cbn [bind]. apply mapM_all. intros v Hv. apply in_concat in Hv as (m & Hm & Hv). apply (In_nth _ _ []) in Hm as (k & Hk & <-). rewrite (mapM_length _ _ _ Em) in Hk. destruct (nth_error (combine (map_first (map nmap_of spins)) (combine (map nmap_of spins) spins)) k) as [[i0 [n sp]]|] eqn:N; [|apply nth_error_None in N; lia].
    destruct (mapM_inv _ _ _ Em k _ N) as (m & Hm & Nm). rewrite (nth_error_nth _ _ [] Nm) in Hv. pose proof (isht_shaped _ _ _ _ _ _ PS PG Hm) as [_ Sv]. rewrite Forall_forall in Sv. specialize (Sv v Hv). destruct s as [nn w|ny nx nf f1 f2 wts]; cbn [layout npix] in *.
    + rewrite Sv, Z2Nat.id by nia. rewrite Z.eqb_refl. eexists; reflexivity.
    + rewrite Sv, Nat.eqb_refl. eexists; reflexivity.
Qed.
(** ** Reading the maps back *)
Lemma pad_unpad (s : minfo F) v u : match s with Hpx _ _ => True | Car _ nx nf _ _ _ => nx = nf end -> length v = full s -> unpad_map s v = Ok u -> u = v /\ pad_map s v = Ok v.
Proof.
  destruct s as [n w | ny nx nf f1 f2 wts]; cbn [unpad_map pad_map full]; [intros _ _ H; injection H as <-; split; reflexivity|]. intros <- L H. rewrite L, Nat.eqb_refl in H. cbn [negb] in H. injection H as <-. rewrite L, Nat.eqb_refl, Nat.ltb_irrefl. cbn [negb].
  pose proof (chunks_shaped ny nx v L) as [_ S]. split.
  - rewrite <- (concat_chunks ny nx v L) at 2. f_equal. rewrite <- (map_id (chunks ny nx v)) at 2. apply map_ext_in. intros r Hr. rewrite Forall_forall in S. rewrite <- (S r Hr). apply firstn_all.
  - f_equal. rewrite <- (concat_chunks ny nx v L) at 2. f_equal. rewrite <- (map_id (chunks ny nx v)) at 2. apply map_ext. intro r. rewrite Nat.sub_diag. apply app_nil_r.
Qed.
Lemma vmul_ones (w v : list F) : Forall (eq 1) w -> length w = length v -> vmul w v = v.
Proof.
  intros H L. apply (list_eq_nth _ _ 0); [rewrite length_vmul; lia|]. intros k Hk. rewrite length_vmul in Hk. unfold vmul. rewrite (nth_zipw _ w v k 0 0) by lia. rewrite Forall_forall in H. rewrite <- (H (nth k w 0)) by (apply nth_In; lia). ring.
Qed.
Lemma msub_zero (a z : mat) nc k : shaped nc k a -> shaped nc k z -> all_zero z -> msub a z = a.
Proof.
  intros Sa Sz Z. apply (P_Utils.mat_eq nc k); [apply msub_shaped; assumption | assumption|]. intros i j Hi Hj. rewrite (g_msub nc k) by assumption. replace (nth j (nth i z []) 0) with (0 : F); [ring|]. unfold all_zero, zeros in Z. rewrite Forall_forall in Z. assert (I : In (nth i z []) z) by (apply nth_In; rewrite (proj1 Sz); exact Hi). specialize (Z _ I). rewrite Forall_forall in Z. apply Z. apply nth_In. rewrite (shaped_nth nc k z i [] Sz Hi). exact Hj.
Qed.
Lemma msub_self (a : mat) nc k : shaped nc k a -> all_zero (msub a a).
Proof.
  intro Sa. apply Forall_forall. intros r Hr. apply (In_nth _ _ []) in Hr as (i & Hi & <-). pose proof (msub_shaped nc k a a Sa Sa) as S. rewrite (proj1 S) in Hi. apply Forall_forall. intros x Hx. apply (In_nth _ _ 0) in Hx as (j & Hj & <-). rewrite (shaped_nth nc k _ i [] S Hi) in Hj. rewrite (g_msub nc k) by assumption. ring.
Qed.
Lemma refine_exact (m2a a2m : mat -> mat) n nc np na (B : mat) : shaped nc na B -> shaped nc np (a2m B) -> (forall x, length (m2a x) = length x) -> (forall x, Forall (fun r => length r = na) (m2a x)) -> (forall m, all_zero m -> all_zero (m2a m)) -> refine m2a a2m n (a2m B) B = B.
Proof.
  intros SB SA LM SM ZZ. induction n as [|n IH]; [reflexivity|]. cbn [refine]. rewrite (msub_zero B _ nc na); [exact IH | exact SB | | apply ZZ, (msub_self _ nc np SA)]. split; [rewrite LM; apply (msub_shaped nc np); exact SA | apply SM].
Qed.
Variable fsqrt : F -> F.
Variable eigh : mat -> list F * mat.
Variable np_inv : mat -> res mat.
Notation new := (field_new (fofZ 4 * pi) fsqrt eigh np_inv).
(** a field made, with a mask of ones, of the maps of field i (templates and purification off) *)
Definition field_for (a : fargs F) (spins : list Z) (i : nat) (maps : list (imap F)) : Prop :=
  rect_args a /\ Forall (eq 1) (ivals (a_mask a)) /\ a_mask22 a = None /\ a_mask12 a = None /\ a_maps a = Some (part spins i maps) /\ a_spin a = Some (nth i spins 0%Z) /\ a_temp a = TNone /\ a_pe a = false /\ a_pb a = false.
(** if the transforms are exact for these coefficients, NmtField recovers the coefficients drawn, times the beam of the field, for any number of
    iterations *)
Theorem C93_field synalm K p x cls spins beam lmax maps i a f s lm : P_Utils.trunc_law ftrunc -> alm_shape K -> map_shape K -> pix_shape K -> zero_to_zero K ->
  sky_info x = Ok (s, lm) -> let L := last_ell cls (opt lmax lm) in shaped (list_sum (map nmap_of spins)) (n_alm L) (synalm cls L) -> synfast synalm K x cls spins beam lmax = Ok maps ->
  (i < length spins)%nat -> field_for a spins i maps -> new K p a = Ok f -> f_info f = s -> f_lmax f = L ->
  let B := smoothed L (synalm cls L) spins beam i in c_m2a K (nth i spins 0%Z) s L (c_a2m K (nth i spins 0%Z) s L B) = B -> get_alms f = Ok B.
Proof.
  intros T AS MS PS ZZ Es L Sa H Hi (R & W1 & W2 & W3 & Em & Esp & ET & E1 & E2) Hf If Lf B X. destruct (C93_maps synalm K x cls spins beam lmax maps s lm MS Es Sa H) as [_ G]. destruct (G i Hi) as (m & Im & Rm). fold L in Im. fold B in Im. clear G H.
  rewrite new_staged in Hf. unfold staged in Hf. apply bind_ok in Hf as (h & Eh & Hf). rewrite Em in Hf. apply bind_ok in Hf as ([[sp m'] tm] & Eb & Hf). apply bind_ok in Hf as ([[[c cu] iM] als] & Ec & Hf).
  destruct (body_inv _ _ _ _ _ _ Eb) as (Bs & Bm & _ & _ & Bt). rewrite ET in Bt. cbn [temps_of] in Bt. injection Bt as <-. cbn [clean] in Ec. injection Ec as <- <- <- <-. unfold alms_of in Hf. unfold L_Field2.pure in Hf. rewrite E1, E2 in Hf. cbn [orb] in Hf. apply bind_ok in Hf as (alm & Ea & Hf). cbn [option_map] in Hf. cbn [bind] in Hf. injection Hf as <-. cbn [field_of f_info f_lmax get_alms stored f_alm] in *. unfold get_alms. cbn [field_of f_alm stored].
  subst s. rewrite Rm in Bm. injection Bm as <-. rewrite Lf in Ea. rewrite Esp in Bs. assert (sp = nth i spins 0%Z) as -> by (unfold spin_of in Bs; destruct (_ && _)%bool in Bs; [discriminate Bs|]; destruct (_ || _)%bool in Bs; [discriminate Bs|]; injection Bs as <-; reflexivity).
  assert (PG : match h_s h with Hpx _ _ => True | Car _ nx nf _ _ _ => nx = nf end).
  { destruct x as [n|dra ddec r0 e0].
    - cbn [M_SynSph.sky_info] in Es. apply bind_ok in Es as (n' & _ & Es). assert (HS := f_equal (fun r => match r with Ok (a, _) => a | _ => h_s h end) Es). cbv beta iota in HS. rewrite <- HS. exact I.
    - destruct (C93_full_sky dra ddec r0 e0 _ _ T Es) as (ny & nx & fth & fph & wts & -> & _). reflexivity. }
  assert (PG' : pad_geom (h_s h)) by (unfold pad_geom; destruct (h_s h); [exact I | lia]).
  pose proof (smoothed_shape L (synalm cls L) spins beam i) as SB. fold B in SB. pose proof (isht_shaped _ _ _ _ _ _ PS PG' Im) as Sm. rewrite (proj1 SB) in Sm.
  destruct (head_mask _ a h R Eh) as [Lm _].
  assert (HM : Forall (eq 1) (h_mask h) /\ h_mask_a h = None).
  { unfold head_of in Eh. rewrite W2, W3 in Eh. cbn [weights is_some orb] in Eh. cbn [bind] in Eh. apply bind_ok in Eh as ([[s' lm'] ang] & E3 & Eh). apply bind_ok in Eh as (mk & E4 & Eh). cbn [bind] in Eh. cbv zeta in Eh. destruct (_ || _)%bool in Eh; [discriminate Eh|]. apply bind_ok in Eh as (bm & _ & Eh). injection Eh as <-. cbn [h_mask h_mask_a]. split; [|reflexivity].
    apply Forall_forall. intros v Hv. rewrite Forall_forall in W1. apply W1. eapply in_reform; eassumption. }
  destruct HM as [HM HA]. assert (EM : masked a h m = m).
  { unfold masked. destruct (a_moi a); [reflexivity|]. rewrite HA. cbn [apply_mask]. rewrite <- (map_id m) at 2. apply map_ext_in. intros v Hv. apply vmul_ones; [exact HM|]. rewrite Lm. destruct Sm as [_ Sm]. rewrite Forall_forall in Sm. symmetry. apply Sm, Hv. }
  rewrite EM in Ea.
  assert (EP : m = c_a2m K (nth i spins 0%Z) (h_s h) L B /\ mapM (pad_map (h_s h)) m = Ok m).
  { clear Ea EM Rm Sm Eb. unfold isht in Im. destruct (_ && _)%bool; [discriminate Im|]. unfold alm2map in Im. pose proof (PS (nth i spins 0%Z) (h_s h) L B) as [_ SP]. clear X. revert m Im SP. induction (c_a2m K (nth i spins 0%Z) (h_s h) L B) as [|v vs IH]; intros m Im SP; cbn [mapM] in Im; [injection Im as <-; split; reflexivity|].
    apply bind_ok in Im as (u & Eu & Im). apply bind_ok in Im as (us & Eus & Im). injection Im as <-. inversion SP as [|? ? S1 S2]; subst. destruct (pad_unpad _ _ _ PG S1 Eu) as [-> Ep]. destruct (IH _ Eus S2) as [-> Er]. split; [reflexivity|]. cbn [mapM]. rewrite Ep. cbn [bind]. rewrite Er. reflexivity. }
  destruct EP as [EP1 EP2]. unfold sht in Ea. rewrite EP2 in Ea. cbn [bind] in Ea. destruct (_ && _)%bool; [discriminate Ea|]. injection Ea as <-. f_equal. rewrite EP1 at 2. rewrite X. rewrite EP1. pose proof (PS (nth i spins 0%Z) (h_s h) L B) as SP. rewrite (proj1 SB) in SP.
  apply (refine_exact _ _ _ (nmap_of (nth i spins 0%Z)) (full (h_s h)) (n_alm L)); [exact SB | exact SP | intro; apply AS | intro; apply AS | intros z Hz; apply (ZZ _ _ _ z Hz)].
Qed.

(** ** The spectra of the maps *)
(** variances of the real and imaginary parts of the coefficients of a real field of unit power: 1 and 0 for m = 0, a half each otherwise (healpy.synalm) *)
Definition alm_var (L : Z) : list F :=
  flat_map (fun m => flat_map (fun _ : nat => if Nat.eqb m 0 then [1; 0] else [1 / fofZ 2; 1 / fofZ 2]) (seq m (Z.to_nat (L + 1) - m))) (seq 0 (Z.to_nat (L + 1))).
Definition overlap (l : Z) (e : list Z) (w v : list F) : F := sum (length e) (fun k => if (nth k e 0 =? l)%Z then nth k w 0 * nth k v 0 else 0).
Lemma overlap_app l e1 e2 w1 w2 v1 v2 : length w1 = length e1 -> length v1 = length e1 -> overlap l (e1 ++ e2) (w1 ++ w2) (v1 ++ v2) = overlap l e1 w1 v1 + overlap l e2 w2 v2.
Proof.
  intros Lw Lv. unfold overlap. rewrite app_length, sum_plus. f_equal; apply sum_ext; intros k Hk.
  - rewrite !app_nth1 by lia. reflexivity.
  - rewrite !app_nth2 by lia. rewrite Lw, Lv. replace (length e1 + k - length e1)%nat with k by lia. reflexivity.
Qed.
Lemma overlap_pair l x (a b c d : F) : overlap l [x; x] [a; b] [c; d] = if (x =? l)%Z then a * c + b * d else 0.
Proof. unfold overlap. cbn [length sum nth]. destruct (_ =? _)%Z; ring. Qed.
Lemma flat2_length {A B} (f : A -> list B) l : (forall x, length (f x) = 2%nat) -> length (flat_map f l) = (2 * length l)%nat.
Proof. intro H. induction l as [|x l IH]; [reflexivity|]. cbn [flat_map]. rewrite app_length, H, IH. cbn [length]. lia. Qed.
Lemma two_halves : fofZ 2 * (1 / fofZ 2) + fofZ 2 * (1 / fofZ 2) = (fofZ 2 : F).
Proof. assert (W : (fofZ 2 : F) <> 0) by (apply fofZ_neq0; lia). assert (E : (fofZ 2 : F) = 1 + 1) by reflexivity. revert W E. generalize (fofZ 2 : F). intros t W E. transitivity (1 + 1 : F); [field; exact W | symmetry; exact E]. Qed.
Lemma overlap_row (l : nat) m n : forall st, overlap (Z.of_nat l) (flat_map (fun l => [Z.of_nat l; Z.of_nat l]) (seq st n))
    (flat_map (fun _ : nat => if Nat.eqb m 0 then [1; 0] else [fofZ 2; fofZ 2]) (seq st n)) (flat_map (fun _ : nat => if Nat.eqb m 0 then [1; 0] else [1 / fofZ 2; 1 / fofZ 2]) (seq st n))
  = if ((st <=? l) && (l <? st + n))%nat%bool then (if Nat.eqb m 0 then 1 else fofZ 2) else (0 : F).
Proof.
  induction n as [|n IH]; intro st.
  - cbn [seq flat_map]. unfold overlap. cbn [length sum]. destruct (Nat.leb_spec st l), (Nat.ltb_spec l (st + 0)); cbn [andb]; try reflexivity. lia.
  - cbn [seq flat_map]. rewrite overlap_app by (destruct (Nat.eqb m 0); reflexivity). rewrite IH. assert (P : overlap (Z.of_nat l) [Z.of_nat st; Z.of_nat st] (if Nat.eqb m 0 then [1; 0] else [fofZ 2; fofZ 2]) (if Nat.eqb m 0 then [1; 0] else [1 / fofZ 2; 1 / fofZ 2]) = if (Z.of_nat st =? Z.of_nat l)%Z then (if Nat.eqb m 0 then 1 else fofZ 2) else (0 : F)).
    { destruct (Nat.eqb m 0); rewrite overlap_pair; destruct (_ =? _)%Z; try reflexivity; [ring | apply two_halves]. }
    rewrite P. destruct (Z.eqb_spec (Z.of_nat st) (Z.of_nat l)), (Nat.leb_spec st l), (Nat.ltb_spec l (st + S n)), (Nat.leb_spec (S st) l), (Nat.ltb_spec l (S st + n)); cbn [andb]; try lia; ring.
Qed.
Lemma overlap_rows (l N : nat) n : forall st, (0 < st)%nat -> (l < N)%nat -> (st + n <= N)%nat -> overlap (Z.of_nat l) (flat_map (fun m => flat_map (fun l => [Z.of_nat l; Z.of_nat l]) (seq m (N - m))) (seq st n))
    (flat_map (fun m => flat_map (fun _ : nat => if Nat.eqb m 0 then [1; 0] else [fofZ 2; fofZ 2]) (seq m (N - m))) (seq st n)) (flat_map (fun m => flat_map (fun _ : nat => if Nat.eqb m 0 then [1; 0] else [1 / fofZ 2; 1 / fofZ 2]) (seq m (N - m))) (seq st n))
  = (fofZ (2 * Z.of_nat (Nat.min n (l + 1 - st))) : F).
Proof.
  induction n as [|n IH]; intros st Hs Hl Hn; [reflexivity|]. cbn [seq flat_map]. rewrite overlap_app by (rewrite !flat2_length by (intro; destruct (Nat.eqb st 0); reflexivity); reflexivity). rewrite overlap_row, IH by lia. destruct (Nat.eqb_spec st 0); [lia|].
  destruct (Nat.leb_spec st l), (Nat.ltb_spec l (st + (N - st))); cbn [andb]; try lia.
  - rewrite <- fofZ_add. f_equal. lia.
  - replace (0 : F) with (fofZ 0 : F) by reflexivity. rewrite <- fofZ_add. f_equal. lia.
Qed.
(** one real mode at m = 0 and two at every m from 1 to l *)
Lemma count_modes (L : Z) (l : nat) : (Z.of_nat l <= L)%Z -> overlap (Z.of_nat l) (ells L) (alm_wts L) (alm_var L) = (fofZ (2 * Z.of_nat l + 1) : F).
Proof.
  intro Hl. unfold ells, alm_wts, alm_var. set (N := Z.to_nat (L + 1)). assert (HN : N = S (Z.to_nat L)) by lia. assert (SQ : seq 0 N = 0%nat :: seq 1 (Z.to_nat L)) by (rewrite HN; reflexivity). rewrite SQ. cbn [flat_map]. rewrite overlap_app by (rewrite !flat2_length by (intro; reflexivity); reflexivity). rewrite overlap_row, overlap_rows by lia. destruct (Nat.leb_spec 0 l), (Nat.ltb_spec l (0 + (N - 0))); cbn [andb]; try lia. cbn [Nat.eqb]. rewrite <- fofZ_1, <- fofZ_add. f_equal. lia.
Qed.
(** *** Averages: any linear functional of functions on a set of outcomes *)
Section Mean.
Context {Om : Type}.
Variable E : (Om -> F) -> F.
Definition average : Prop := (forall f g, (forall w, f w = g w) -> E f = E g) /\ (forall f g, E (fun w => f w + g w) = E f + E g) /\ (forall c f, E (fun w => c * f w) = c * E f).
Lemma E_sum n (f : nat -> Om -> F) : average -> E (fun w => sum n (fun k => f k w)) = sum n (fun k => E (f k)).
Proof.
  intros (X & A & S). induction n as [|n IH]; cbn [sum]; [|rewrite (A (fun w => sum n (fun k => f k w)) (f n)), IH; reflexivity].
  rewrite (X (fun _ => 0) (fun _ => 0 * 0)) by (intro; ring). rewrite S. ring.
Qed.
(** index of the spectrum of maps i and j in the list given: upper triangle, row by row *)
Definition tri (n i j : nat) : nat := (Nat.min i j * n - Nat.min i j * (Nat.min i j + 1) / 2 + Nat.max i j)%nat.
(** what healpy.synalm promises: the coefficients of maps i and j have the covariance given by their spectrum *)
Definition drawn (L : Z) (nmaps : nat) (cls : mat) (d : Om -> mat) : Prop :=
  forall i j k, (i < nmaps)%nat -> (j < nmaps)%nat -> (k < n_alm L)%nat ->
    E (fun w => mg (d w) i k * mg (d w) j k) = nth k (alm_var L) 0 * nth (Z.to_nat (nth k (ells L) 0%Z)) (nth (tri nmaps i j) cls []) 0.
Lemma mean_alm2cl L nmaps cls d i j (bi bj : Z -> F) l : average -> drawn L nmaps cls d -> (i < nmaps)%nat -> (j < nmaps)%nat -> (Z.of_nat l <= L)%Z ->
  E (fun w => sum (n_alm L) (fun k => if (nth k (ells L) 0 =? Z.of_nat l)%Z then nth k (alm_wts L) 0 * (mg (d w) i k * bi (nth k (ells L) 0%Z) * (mg (d w) j k * bj (nth k (ells L) 0%Z))) else 0) / fofZ (2 * Z.of_nat l + 1))
  = nth l (nth (tri nmaps i j) cls []) 0 * bi (Z.of_nat l) * bj (Z.of_nat l).
Proof.
  intros AV D Hi Hj Hl. destruct AV as (X & A & S). set (q := fofZ (2 * Z.of_nat l + 1) : F). assert (Q : q <> 0) by (apply fofZ_neq0; lia). set (c := nth l (nth (tri nmaps i j) cls []) 0).
  transitivity (sum (n_alm L) (fun k => (if (nth k (ells L) 0 =? Z.of_nat l)%Z then nth k (alm_wts L) 0 * nth k (alm_var L) 0 else 0)) * (c * bi (Z.of_nat l) * bj (Z.of_nat l) / q)).
  - rewrite (X _ (fun w => sum (n_alm L) (fun k => (if (nth k (ells L) 0 =? Z.of_nat l)%Z then nth k (alm_wts L) 0 * (bi (Z.of_nat l) * bj (Z.of_nat l) / q) else 0) * (mg (d w) i k * mg (d w) j k)))).
    + rewrite E_sum by (split; [exact X | split; assumption]). rewrite (sum_ext _ _ (fun k => (c * bi (Z.of_nat l) * bj (Z.of_nat l) / q) * (if (nth k (ells L) 0 =? Z.of_nat l)%Z then nth k (alm_wts L) 0 * nth k (alm_var L) 0 else 0))).
      * rewrite sum_mul_l. ring.
      * intros k Hk. rewrite S, D by assumption. destruct (Z.eqb_spec (nth k (ells L) 0%Z) (Z.of_nat l)) as [e|e]; [rewrite e, Nat2Z.id; fold c; field; exact Q | ring].
    + intro w. rewrite (Fdiv_def (fth F)). replace (sum (n_alm L) (fun k => if (nth k (ells L) 0 =? Z.of_nat l)%Z then nth k (alm_wts L) 0 * (mg (d w) i k * bi (nth k (ells L) 0%Z) * (mg (d w) j k * bj (nth k (ells L) 0%Z))) else 0) * / q) with (/ q * sum (n_alm L) (fun k => if (nth k (ells L) 0 =? Z.of_nat l)%Z then nth k (alm_wts L) 0 * (mg (d w) i k * bi (nth k (ells L) 0%Z) * (mg (d w) j k * bj (nth k (ells L) 0%Z))) else 0)) by ring.
      rewrite <- sum_mul_l. apply sum_ext. intros k _. destruct (Z.eqb_spec (nth k (ells L) 0%Z) (Z.of_nat l)) as [e|e]; [rewrite e; field; exact Q | ring].
  - change (sum (n_alm L) _) with (overlap (Z.of_nat l) (ells L) (alm_wts L) (alm_var L)). rewrite count_modes by exact Hl. fold q. field. exact Q.
Qed.
(** the mean of the coupled spectra of two of the fields is their input spectrum times both beams, for all components and multipoles *)
Theorem C93_mean K p x cls spins beam lmax s lm i j (d : Om -> mat) (maps : Om -> list (imap F)) (ai aj : Om -> fargs F) (fi fj : Om -> nfield F) (cell : Om -> mat) same :
  average -> P_Utils.trunc_law ftrunc -> alm_shape K -> map_shape K -> pix_shape K -> zero_to_zero K -> sky_info x = Ok (s, lm) -> let L := last_ell cls (opt lmax lm) in let nmaps := list_sum (map nmap_of spins) in
  (forall w, shaped nmaps (n_alm L) (d w)) -> drawn L nmaps cls d -> (forall w, synfast (fun _ _ => d w) K x cls spins beam lmax = Ok (maps w)) -> (i < length spins)%nat -> (j < length spins)%nat ->
  (forall w, field_for (ai w) spins i (maps w) /\ new K p (ai w) = Ok (fi w) /\ f_info (fi w) = s /\ f_lmax (fi w) = L) ->
  (forall w, field_for (aj w) spins j (maps w) /\ new K p (aj w) = Ok (fj w) /\ f_info (fj w) = s /\ f_lmax (fj w) = L) ->
  (forall w k, k = i \/ k = j -> let B := smoothed L (d w) spins beam k in c_m2a K (nth k spins 0%Z) s L (c_a2m K (nth k spins 0%Z) s L B) = B) ->
  (forall w, compute_coupled_cell same (of_map (fi w)) (of_map (fj w)) = Ok (cell w)) ->
  let ni := nmap_of (nth i spins 0%Z) in let nj := nmap_of (nth j spins 0%Z) in
  forall c c' l, (c < ni)%nat -> (c' < nj)%nat -> (Z.of_nat l <= L)%Z ->
    E (fun w => mg (cell w) (c * nj + c') l) = nth l (nth (tri nmaps (first spins i + c) (first spins j + c')) cls []) 0 * beam_at beam i (Z.of_nat l) * beam_at beam j (Z.of_nat l).
Proof.
  intros AV T AS MS PS ZZ Es L nmaps Sd D H Hi Hj Hfi Hfj X HC ni nj c c' l Hc Hc' Hl. pose proof (first_le spins i Hi) as Fi. pose proof (first_le spins j Hj) as Fj. fold nmaps ni in Fi. fold nmaps nj in Fj.
  rewrite <- (mean_alm2cl L nmaps cls d _ _ (beam_at beam i) (beam_at beam j) l AV D) by (try exact Hl; lia). apply (proj1 AV). intro w.
  destruct (Hfi w) as (A1 & A2 & A3 & A4). destruct (Hfj w) as (B1 & B2 & B3 & B4).
  pose proof (C93_field (fun _ _ => d w) K p x cls spins beam lmax (maps w) i (ai w) (fi w) s lm T AS MS PS ZZ Es (Sd w) (H w) Hi A1 A2 A3 A4 (X w i (or_introl eq_refl))) as Gi. pose proof (C93_field (fun _ _ => d w) K p x cls spins beam lmax (maps w) j (aj w) (fj w) s lm T AS MS PS ZZ Es (Sd w) (H w) Hj B1 B2 B3 B4 (X w j (or_intror eq_refl))) as Gj.
  fold L in Gi, Gj. specialize (HC w). unfold compute_coupled_cell in HC. destruct (negb _); [discriminate HC|]. cbn [of_map g_alm g_Nf g_lmax] in HC. unfold get_alms in Gi, Gj. rewrite Gi, Gj in HC. cbn [bind] in HC. rewrite A4, B4, Z.min_id in HC. apply bind_ok in HC as (cl & Ecl & HC).
  assert (Z0 : ((if same then 0 else 0) =? (0 : F)) = true) by (destruct same; apply feqb_eq; reflexivity). rewrite Z0 in HC. injection HC as <-.
  set (Bi := smoothed L (d w) spins beam i) in *. set (Bj := smoothed L (d w) spins beam j) in *. pose proof (smoothed_shape L (d w) spins beam i) as Si. pose proof (smoothed_shape L (d w) spins beam j) as Sj. fold Bi ni in Si. fold Bj nj in Sj.
  unfold cross in Ecl. assert (Lc : length cl = ni) by (rewrite (mapM_length _ _ _ Ecl); apply Si).
  assert (Rows : forall r, (r < ni)%nat -> mapM (alm2cl L (nth r Bi [])) Bj = Ok (nth r cl [])).
  { intros r Hr. assert (N : nth_error Bi r = Some (nth r Bi [])) by (apply nth_error_nth'; rewrite (proj1 Si); exact Hr). destruct (mapM_inv _ _ _ Ecl r _ N) as (b & Hb & Nb). rewrite (nth_error_nth _ _ [] Nb). exact Hb. }
  assert (Sc : shaped ni nj cl). { split; [exact Lc|]. apply Forall_forall. intros r Hr. apply (In_nth _ _ []) in Hr as (k & Hk & <-). rewrite Lc in Hk. rewrite (mapM_length _ _ _ (Rows k Hk)). apply Sj. }
  unfold mg at 1. rewrite (nth_concat ni nj) by assumption.
  assert (N : nth_error Bj c' = Some (nth c' Bj [])) by (apply nth_error_nth'; rewrite (proj1 Sj); exact Hc'). destruct (mapM_inv _ _ _ (Rows c Hc) c' _ N) as (b & Hb & Nb). rewrite (nth_error_nth _ _ [] Nb). unfold alm2cl in Hb. cbv zeta in Hb. rewrite (shaped_nth _ _ Bi c [] Si Hc), (shaped_nth _ _ Bj c' [] Sj Hc') in Hb. unfold n_alm in Hb. rewrite Nat.eqb_refl in Hb. cbn [andb] in Hb. injection Hb as <-.
  rewrite nth_tab by lia. f_equal. apply sum_ext. intros k Hk. fold (n_alm L) in Hk. destruct (_ =? _)%Z; [|reflexivity]. f_equal. unfold Bi, Bj, smoothed. rewrite !nth_tab by assumption. reflexivity.
Qed.
End Mean.
End C93.

Print Assumptions C93_maps. Print Assumptions C93_full_sky. Print Assumptions C93_accepts. Print Assumptions C93_field. Print Assumptions C93_mean.
