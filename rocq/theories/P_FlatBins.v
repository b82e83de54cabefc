(** Properties C10-C11: flat-sky binning. *)
From Verif Require Import Base M_Bins M_FlatBins L_Bins L_Bins2 P_Bins.
From Coq Require Import ZifyBool ZifyNat.
Open Scope nat_scope.

Section Statements.
Context {F : ofield}.
Local Open Scope F_scope.
Add Field FfPF : (fth F).
Notation fbins := (fbins F).

(** ** Specification vocabulary *)
Definition low (b : fbins) (i : nat) : F := nth i (fb_l0 b) 0.
Definition high (b : fbins) (i : nat) : F := nth i (fb_lf b) 0.
Definition n_bands (b : fbins) : nat := length (fb_l0 b).
(** [k] lies in band [i] *)
Definition contains (b : fbins) (i : nat) (k : F) : Prop := (i < n_bands b)%nat /\ low b i <= k /\ k < high b i.
(** non-empty bands in increasing order without overlap *)
Definition sorted_bands (b : fbins) : Prop :=
  length (fb_lf b) = n_bands b /\ (0 < n_bands b)%nat /\
  (forall i, (i < n_bands b)%nat -> low b i < high b i) /\
  (forall i, (S i < n_bands b)%nat -> high b i <= low b (S i)).
(** ... and without gaps *)
Definition contiguous (b : fbins) : Prop :=
  sorted_bands b /\ forall i, (S i < n_bands b)%nat -> high b i = low b (S i).
Definition below_all (b : fbins) (k : F) : Prop := k < low b 0.
Definition above_all (b : fbins) (k : F) : Prop := high b (n_bands b - 1) <= k.

Lemma sorted_lt b : sorted_bands b -> forall i j, (i < j < n_bands b)%nat -> high b i <= low b j.
Proof.
  intros [HL [Hn [H1 H2]]] i j Hij. induction j as [|j IH]; [lia|].
  destruct (Nat.eq_dec i j) as [->|N]; [apply H2; lia|].
  eapply fle_trans; [apply IH; lia|]. eapply fle_trans; [apply flt_le, H1; lia | apply H2; lia].
Qed.
Lemma low_mono b : sorted_bands b -> forall i j, (i <= j < n_bands b)%nat -> low b i <= low b j.
Proof.
  intros H i j Hij. destruct (Nat.eq_dec i j) as [->|N]; [apply fle_refl|].
  eapply fle_trans; [|apply (sorted_lt b H i j); lia]. apply flt_le. apply (proj1 (proj2 (proj2 H))). lia.
Qed.
Lemma high_mono b : sorted_bands b -> forall i j, (i <= j < n_bands b)%nat -> high b i <= high b j.
Proof.
  intros H i j Hij. destruct (Nat.eq_dec i j) as [->|N]; [apply fle_refl|].
  eapply fle_trans; [apply (sorted_lt b H i j); lia|]. apply flt_le. apply (proj1 (proj2 (proj2 H))). lia.
Qed.

Lemma search_back_in b k i : sorted_bands b -> contains b i k -> forall n, (i < n <= n_bands b)%nat ->
  search_back (fb_l0 b) k n = Ok (Z.of_nat i).
Proof.
  intros Hs [Hi [Hl Hh]]. induction n as [|n IH]; intro Hn; [lia|]. cbn [search_back].
  rewrite (rd_nat _ n 0) by (unfold n_bands in *; lia). cbn [bind]. fold (low b n).
  destruct (Nat.eq_dec i n) as [->|N].
  - unfold fltb. rewrite Hl. reflexivity.
  - assert (G : k < low b n) by (eapply flt_le_trans; [exact Hh | apply sorted_lt; [exact Hs | lia]]).
    unfold flt in G. rewrite G. apply IH. lia.
Qed.
Lemma search_back_below b k : sorted_bands b -> below_all b k -> forall n, (n <= n_bands b)%nat ->
  search_back (fb_l0 b) k n = Ok (-1)%Z.
Proof.
  intros Hs Hb. induction n as [|n IH]; intro Hn; [reflexivity|]. cbn [search_back].
  rewrite (rd_nat _ n 0) by (unfold n_bands in *; lia). cbn [bind]. fold (low b n).
  assert (G : k < low b n) by (eapply flt_le_trans; [exact Hb | apply low_mono; [exact Hs | lia]]).
  unfold flt in G. rewrite G. apply IH. lia.
Qed.
Lemma skipn_nth_cons {A} (l : list A) n d : (n < length l)%nat -> skipn n l = nth n l d :: skipn (S n) l.
Proof. revert n. induction l as [|a l IH]; intros [|n] H; simpl in *; try lia; [reflexivity|]. apply IH. lia. Qed.
Lemma search_fwd_in b k i : sorted_bands b -> contains b i k -> forall m n, (n_bands b - n = m)%nat -> (n <= i)%nat ->
  search_fwd (skipn n (fb_lf b)) k (Z.of_nat n) = Z.of_nat i.
Proof.
  intros Hs [Hi [Hl Hh]]. destruct Hs as [HL Hs']. pose proof (conj HL Hs') as Hs.
  induction m as [|m IH]; intros n Em Hn; [lia|].
  rewrite (skipn_nth_cons _ n 0) by lia. cbn [search_fwd]. fold (high b n).
  destruct (Nat.eq_dec i n) as [->|N].
  - unfold flt, fltb in Hh. destruct (high b n <=? k); [discriminate | reflexivity].
  - assert (G : high b n <= k) by (eapply fle_trans; [apply (sorted_lt b Hs n i); lia | exact Hl]).
    rewrite G. replace (Z.of_nat n + 1)%Z with (Z.of_nat (S n)) by lia. apply IH; lia.
Qed.
Lemma search_fwd_above b k : sorted_bands b -> above_all b k -> forall m n, (n_bands b - n = m)%nat ->
  search_fwd (skipn n (fb_lf b)) k (Z.of_nat n) = (-1)%Z.
Proof.
  intros Hs Ha. destruct Hs as [HL Hs']. pose proof (conj HL Hs') as Hs.
  induction m as [|m IH]; intros n Em.
  - rewrite skipn_all2 by lia. reflexivity.
  - rewrite (skipn_nth_cons _ n 0) by lia. cbn [search_fwd]. fold (high b n).
    assert (G : high b n <= k) by (eapply fle_trans; [apply (high_mono b Hs n (n_bands b - 1)); lia | exact Ha]).
    rewrite G. replace (Z.of_nat n + 1)%Z with (Z.of_nat (S n)) by lia. apply IH; lia.
Qed.

(** ** C10 *)
(** whatever the previous result, the search finds the band that contains k *)
Theorem C10_search_finds_band (b : fbins) k i il :
  sorted_bands b -> (il < Z.of_nat (n_bands b))%Z -> contains b i k -> search_fast b k il = Ok (Z.of_nat i).
Proof.
  intros Hs Hil Hc. pose proof Hc as [Hi [Hl Hh]]. unfold search_fast.
  set (j := if (il <? 0)%Z then 0%Z else il).
  assert (Hj : (0 <= j < Z.of_nat (n_bands b))%Z) by (unfold j; destruct (Z.ltb_spec il 0); lia).
  assert (Ej : j = Z.of_nat (Z.to_nat j)) by lia. set (n := Z.to_nat j) in *. rewrite Ej.
  assert (Hn : (n < n_bands b)%nat) by lia.
  rewrite (rd_nat _ n 0) by exact Hn. cbn [bind]. fold (low b n).
  destruct (Nat.lt_trichotomy i n) as [Lt|[->|Gt]].
  - assert (G : k < low b n) by (eapply flt_le_trans; [exact Hh | apply sorted_lt; [exact Hs | lia]]).
    unfold flt in G. rewrite G. rewrite ?Nat2Z.id. apply search_back_in; [exact Hs | exact Hc | lia].
  - unfold fltb at 1. rewrite Hl. cbn [negb]. rewrite (rd_nat _ n 0) by (destruct Hs as [-> _]; exact Hn).
    cbn [bind]. fold (high b n). unfold flt, fltb in Hh. destruct (high b n <=? k); [discriminate | reflexivity].
  - assert (G : low b n <= k) by (eapply fle_trans; [apply (low_mono b Hs n i); lia | exact Hl]).
    unfold fltb at 1. rewrite G. cbn [negb]. rewrite (rd_nat _ n 0) by (destruct Hs as [-> _]; exact Hn).
    cbn [bind]. fold (high b n).
    assert (G2 : high b n <= k) by (eapply fle_trans; [apply (sorted_lt b Hs n i); lia | exact Hl]).
    rewrite G2. f_equal. replace (Z.of_nat n + 1)%Z with (Z.of_nat (S n)) by lia. rewrite ?Nat2Z.id.
    eapply search_fwd_in; [exact Hs | exact Hc | reflexivity | lia].
Qed.

Theorem C10_search_outside (b : fbins) k il :
  sorted_bands b -> (il < Z.of_nat (n_bands b))%Z -> below_all b k \/ above_all b k -> search_fast b k il = Ok (-1)%Z.
Proof.
  intros Hs Hil Ho. unfold search_fast.
  set (j := if (il <? 0)%Z then 0%Z else il).
  assert (Hj : (0 <= j < Z.of_nat (n_bands b))%Z).
  { unfold j. destruct Hs as [_ [Hn _]]. destruct (Z.ltb_spec il 0); lia. }
  assert (Ej : j = Z.of_nat (Z.to_nat j)) by lia. set (n := Z.to_nat j) in *. rewrite Ej.
  assert (Hn : (n < n_bands b)%nat) by lia.
  rewrite (rd_nat _ n 0) by exact Hn. cbn [bind]. fold (low b n). destruct Ho as [Ho|Ho].
  - assert (G : k < low b n) by (eapply flt_le_trans; [exact Ho | apply low_mono; [exact Hs | lia]]).
    unfold flt in G. rewrite G. rewrite ?Nat2Z.id. apply search_back_below; [exact Hs | exact Ho | lia].
  - assert (G2 : high b n <= k) by (eapply fle_trans; [apply (high_mono b Hs n (n_bands b - 1)); lia | exact Ho]).
    assert (G : low b n <= k) by (eapply fle_trans; [apply flt_le, (proj1 (proj2 (proj2 Hs))); exact Hn | exact G2]).
    unfold fltb at 1. rewrite G. cbn [negb]. rewrite (rd_nat _ n 0) by (destruct Hs as [-> _]; exact Hn).
    cbn [bind]. fold (high b n). rewrite G2. f_equal.
    replace (Z.of_nat n + 1)%Z with (Z.of_nat (S n)) by lia. rewrite ?Nat2Z.id.
    eapply search_fwd_above; [exact Hs | exact Ho | reflexivity].
Qed.

Lemma contiguous_cases b k : contiguous b -> below_all b k \/ above_all b k \/ exists i, contains b i k.
Proof.
  intros [Hs Hc]. destruct (fle_lt_dec (low b 0) k) as [H0|H0]; [|left; exact H0]. right.
  assert (G : forall n, (n < n_bands b)%nat -> (high b n <= k) \/ exists i, contains b i k).
  { induction n as [|n IH]; intro Hn.
    - destruct (fle_lt_dec (high b 0) k) as [H|H]; [left; exact H|]. right. exists 0%nat. split; [exact Hn|]. auto.
    - destruct IH as [IH|IH]; [lia| |right; exact IH].
      destruct (fle_lt_dec (high b (S n)) k) as [H|H]; [left; exact H|]. right. exists (S n).
      split; [exact Hn|]. split; [|exact H]. rewrite <- Hc by exact Hn. exact IH. }
  destruct Hs as [_ [Hn _]]. destruct (G (n_bands b - 1)%nat) as [G1|G1]; [lia | left; exact G1 | right; exact G1].
Qed.

(** for contiguous bands the result is determined by k alone and says exactly which band contains k *)
Theorem C10_search_exact (b : fbins) k il :
  contiguous b -> (il < Z.of_nat (n_bands b))%Z ->
  exists r, search_fast b k il = Ok r /\ (-1 <= r < Z.of_nat (n_bands b))%Z /\
    (forall i, contains b i k <-> r = Z.of_nat i) /\
    (r = (-1)%Z <-> forall i, ~ contains b i k).
Proof.
  intros Hc Hil. pose proof Hc as [Hs _].
  assert (U : forall i j, contains b i k -> contains b j k -> i = j).
  { intros i j [Hi [Hi1 Hi2]] [Hj [Hj1 Hj2]]. destruct (Nat.lt_trichotomy i j) as [L|[E|L]]; [|exact E|]; exfalso.
    - apply (flt_irrefl k). eapply flt_le_trans; [exact Hi2|]. eapply fle_trans; [apply (sorted_lt b Hs i j); lia | exact Hj1].
    - apply (flt_irrefl k). eapply flt_le_trans; [exact Hj2|]. eapply fle_trans; [apply (sorted_lt b Hs j i); lia | exact Hi1]. }
  destruct (contiguous_cases b k Hc) as [H|[H|[i H]]].
  - exists (-1)%Z. rewrite (C10_search_outside b k il Hs Hil (or_introl H)).
    assert (N : forall i, ~ contains b i k).
    { intros i [Hi [H1 _]]. apply (flt_irrefl k). eapply flt_le_trans; [exact H|].
      eapply fle_trans; [apply (low_mono b Hs 0 i); lia | exact H1]. }
    split; [reflexivity|]. split; [lia|]. split; [intro i; split; [intro C; destruct (N i C) | lia]|]. tauto.
  - exists (-1)%Z. rewrite (C10_search_outside b k il Hs Hil (or_intror H)).
    assert (N : forall i, ~ contains b i k).
    { intros i [Hi [_ H1]]. apply (flt_irrefl k). eapply flt_le_trans; [exact H1|].
      eapply fle_trans; [apply (high_mono b Hs i (n_bands b - 1)); lia | exact H]. }
    split; [reflexivity|]. split; [lia|]. split; [intro i; split; [intro C; destruct (N i C) | lia]|]. tauto.
  - exists (Z.of_nat i). rewrite (C10_search_finds_band b k i il Hs Hil H). split; [reflexivity|].
    pose proof H as [Hi _]. split; [lia|]. split.
    + intro j. split; [intro Hj; rewrite (U i j H Hj); reflexivity | intro E; assert (i = j) by lia; subst; exact H].
    + split; [lia|]. intro N. destruct (N i H).
Qed.

Theorem C10_guess_independent (b : fbins) k il il' :
  contiguous b -> (il < Z.of_nat (n_bands b))%Z -> (il' < Z.of_nat (n_bands b))%Z ->
  search_fast b k il = search_fast b k il'.
Proof.
  intros Hc H1 H2. destruct (C10_search_exact b k il Hc H1) as [r [-> [Hr [C1 C2]]]].
  destruct (C10_search_exact b k il' Hc H2) as [r' [-> [Hr' [C1' C2']]]]. f_equal.
  destruct (Z.eq_dec r (-1)) as [E|E].
  - rewrite E. symmetry. apply C2'. apply C2. exact E.
  - assert (Hi : r = Z.of_nat (Z.to_nat r)) by lia. rewrite Hi. symmetry. apply C1'. apply C1. exact Hi.
Qed.

(** ** C11 *)
(** what unbinning should return at one ell *)
Definition unbinned_value (b : fbins) (cl : list F) (l v : F) : Prop :=
  (forall i, contains b i l -> v = nth i cl 0) /\ ((forall i, ~ contains b i l) -> v = fofZ (-999)).

Lemma unbin_flat1_spec b cl : contiguous b -> length cl = n_bands b -> forall ells ib, (ib < Z.of_nat (n_bands b))%Z ->
  exists o, unbin_flat1 b cl ells ib = Ok o /\ length o = length ells /\
    forall j, (j < length ells)%nat -> unbinned_value b cl (nth j ells 0) (nth j o 0).
Proof.
  intros Hc HL. induction ells as [|l t IH]; intros ib Hib.
  - exists []. split; [reflexivity|]. split; [reflexivity|]. simpl. intros; lia.
  - cbn [unbin_flat1]. destruct (C10_search_exact b l ib Hc Hib) as [r [-> [Hr [C1 C2]]]]. cbn [bind].
    assert (Ev : exists v, (if (0 <=? r)%Z then rd cl r else Ok (fofZ (-999))) = Ok v /\ unbinned_value b cl l v).
    { destruct (Z.leb_spec 0 r) as [H0|H0].
      - exists (nth (Z.to_nat r) cl 0). split; [apply rd_nth; lia|]. split.
        + intros i Hi. apply C1 in Hi. rewrite Hi, Nat2Z.id. reflexivity.
        + intro N. apply C2 in N. lia.
      - exists (fofZ (-999)). split; [reflexivity|]. split; [|reflexivity]. intros i Hi. apply C1 in Hi. lia. }
    destruct Ev as [v [-> Hv]]. cbn [bind]. destruct (IH r ltac:(lia)) as [o [-> [Ho1 Ho2]]]. cbn [bind].
    exists (v :: o). split; [reflexivity|]. split; [simpl; congruence|].
    intros [|j] Hj; simpl in *; [exact Hv | apply Ho2; lia].
Qed.

(** the unbinned value at each ell is that of the band containing it (in any order of the ells);
    ells outside all bands are marked with -999 *)
Theorem C11_unbin_values (b : fbins) (v : list F) (ells : list F) :
  contiguous b -> length v = n_bands b ->
  exists o, flat_unbin_cell b (A1 v) ells = Ok (A1 o) /\ length o = length ells /\
    forall j, (j < length ells)%nat -> unbinned_value b v (nth j ells 0) (nth j o 0).
Proof.
  intros Hc HL. destruct (unbin_flat1_spec b v Hc HL ells 0) as [o [Ho [H1 H2]]].
  { destruct Hc as [[_ [Hn _]] _]. lia. }
  exists o. split; [|auto]. unfold flat_unbin_cell, shape_guard, fb_n. fold (n_bands b). rewrite HL, Z.eqb_refl. cbn [bind].
  unfold nmt_unbin_cls_flat. cbn [mapM]. rewrite Ho. reflexivity.
Qed.
(** same for a set of spectra *)
Theorem C11_unbin_values_2d (b : fbins) (v : list (list F)) (ells : list F) :
  contiguous b -> v <> [] -> Forall (fun r => length r = n_bands b) v ->
  exists o, flat_unbin_cell b (A2 (n_bands b) v) ells = Ok (A2 (length ells) o) /\
    Forall2 (fun r w => length w = length ells /\
      forall j, (j < length ells)%nat -> unbinned_value b r (nth j ells 0) (nth j w 0)) v o.
Proof.
  intros Hc Hne HF. unfold flat_unbin_cell, shape_guard, fb_n. fold (n_bands b). destruct v as [|r0 v0] eqn:Ev; [congruence|].
  rewrite Z.eqb_refl. cbn [bind]. rewrite <- Ev in *. clear Ev Hne r0 v0.
  assert (G : exists o, nmt_unbin_cls_flat b v ells = Ok o /\ Forall2 (fun r w => length w = length ells /\
      forall j, (j < length ells)%nat -> unbinned_value b r (nth j ells 0) (nth j w 0)) v o).
  { unfold nmt_unbin_cls_flat. induction HF as [|r v Hr HF IH]; [exists []; split; [reflexivity | constructor]|].
    cbn [mapM]. destruct (unbin_flat1_spec b r Hc Hr ells 0) as [w [-> Hw]].
    { destruct Hc as [[_ [Hn _]] _]. lia. }
    cbn [bind]. destruct IH as [o [-> Ho]]. cbn [bind]. exists (w :: o). split; [reflexivity | constructor; assumption]. }
  destruct G as [o [-> Ho]]. exists o. split; [reflexivity | exact Ho].
Qed.

(** strictly increasing samples *)
Definition increasing_samples (xs : list F) : Prop := forall i, (S i < length xs)%nat -> nth i xs 0 < nth (S i) xs 0.
Lemma increasing_ok xs : increasing_samples xs -> increasing xs = true.
Proof.
  induction xs as [|x [|y t] IH]; intro H; try reflexivity. cbn [increasing].
  assert (G : x < y) by (apply (H 0%nat); simpl; lia). unfold flt in G. rewrite G. cbn [andb]. apply IH.
  intros i Hi. apply (H (S i)). simpl in *. lia.
Qed.
Lemma incr_lt xs : increasing_samples xs -> forall i j, (i < j < length xs)%nat -> nth i xs 0 < nth j xs 0.
Proof.
  intros H i j Hij. induction j as [|j IH]; [lia|]. destruct (Nat.eq_dec i j) as [->|N]; [apply H; lia|].
  eapply flt_trans; [apply IH; lia | apply H; lia].
Qed.

Lemma interp_at xs : increasing_samples xs -> forall ys x i, length ys = length xs -> (S i < length xs)%nat ->
  nth i xs 0 <= x -> x < nth (S i) xs 0 ->
  interp_lin xs ys x = nth i ys 0 + (x - nth i xs 0) / (nth (S i) xs 0 - nth i xs 0) * (nth (S i) ys 0 - nth i ys 0).
Proof.
  induction xs as [|x0 xs IH]; intros Hinc ys x i HL Hi H1 H2; [simpl in Hi; lia|].
  destruct ys as [|y0 ys]; [discriminate|]. destruct xs as [|x1 xs]; [simpl in Hi; lia|].
  destruct ys as [|y1 ys]; [discriminate|]. cbn [interp_lin]. destruct i as [|i].
  - cbn in H1, H2. unfold flt in H2. rewrite H2. reflexivity.
  - assert (G : x1 <= x).
    { destruct i as [|i]; [exact H1|]. eapply fle_trans; [|exact H1]. apply flt_le.
      apply (incr_lt _ Hinc 1 (S (S i))). simpl in *. lia. }
    unfold fltb. rewrite G. cbn [negb].
    transitivity (interp_lin (x1 :: xs) (y1 :: ys) x); [reflexivity|].
    rewrite IH with (i := i); [reflexivity| |simpl in *; lia|simpl in *; lia|exact H1|exact H2].
    intros k Hk. apply (Hinc (S k)). simpl in *. lia.
Qed.

(** k_function inside the range returns the linear interpolation, and constant values when the two
    samples around x agree *)
Lemma k_function_same xs ys x i v : increasing_samples xs -> length ys = length xs -> (S i < length xs)%nat ->
  nth i xs 0 <= x -> x <= nth (S i) xs 0 -> nth i ys 0 = v -> nth (S i) ys 0 = v ->
  (x < nth (S i) xs 0 \/ S i = (length xs - 1)%nat) ->
  k_function xs ys (nth 0 ys 0) (nth (length xs - 1) ys 0) x = Ok v.
Proof.
  intros Hinc HL Hi H1 H2 V1 V2 Hlast. unfold k_function.
  replace (2 <=? length xs)%nat with true by lia. rewrite increasing_ok by exact Hinc. cbn [andb].
  rewrite (rd_nth _ _ 0) by lia. cbn [bind]. rewrite (rd_nth _ _ 0) by lia. cbn [bind].
  replace (Z.to_nat (Z.of_nat (length xs) - 1)) with (length xs - 1)%nat by lia. change (Z.to_nat 0) with 0%nat.
  destruct (x <=? nth 0 xs 0) eqn:E0.
  - (* x is the first sample *)
    destruct i as [|i]; [rewrite V1; reflexivity|]. exfalso. apply (flt_irrefl x).
    eapply fle_lt_trans; [exact E0|]. eapply flt_le_trans; [apply (incr_lt xs Hinc 0 (S i)); lia | exact H1].
  - destruct (nth (length xs - 1) xs 0 <=? x) eqn:E1.
    + destruct (Nat.eq_dec (S i) (length xs - 1)) as [E|E]; [rewrite <- E, V2; reflexivity|]. exfalso.
      apply (flt_irrefl x). eapply fle_lt_trans; [exact H2|]. eapply flt_le_trans; [|exact E1].
      apply (incr_lt xs Hinc); lia.
    + f_equal. assert (Hlt : x < nth (S i) xs 0).
      { destruct Hlast as [Hlt|E]; [exact Hlt|]. rewrite E. unfold flt, fltb. rewrite E1. reflexivity. }
      rewrite (interp_at xs Hinc ys x i HL Hi H1 Hlt), V1, V2. 
      assert (nth (S i) xs 0 - nth i xs 0 <> 0).
      { intro E. apply (flt_irrefl (nth i xs 0)). rewrite <- (fsub_0_eq _ _ E) at 2. apply Hinc. exact Hi. }
      field. exact H.
Qed.

(** binning evaluates the spectrum at the centre of each band: it undoes unbinning as soon as the two
    samples around each band centre lie inside the band *)
Theorem C11_bin_unbin (b : fbins) (v ells : list F) o :
  contiguous b -> length v = n_bands b -> increasing_samples ells ->
  (forall i, (i < n_bands b)%nat -> exists j, (S j < length ells)%nat /\
     contains b i (nth j ells 0) /\ contains b i (nth (S j) ells 0) /\
     nth j ells 0 <= half (low b i) (high b i) /\ half (low b i) (high b i) < nth (S j) ells 0) ->
  flat_unbin_cell b (A1 v) ells = Ok o -> flat_bin_cell b ells o = Ok (A1 v).
Proof.
  intros Hc HL Hinc Hs Ho. destruct (C11_unbin_values b v ells Hc HL) as [w [Hw [Hw1 Hw2]]].
  rewrite Hw in Ho. injection Ho as <-. unfold flat_bin_cell, shape_guard. rewrite Hw1, Z.eqb_refl. cbn [bind].
  assert (Hlen : (2 <= length ells)%nat).
  { destruct Hc as [[_ [Hn _]] _]. destruct (Hs 0%nat Hn) as [j [Hj _]]. lia. }
  unfold nmt_bin_cls_flat. cbn [mapM]. rewrite (rd_nth _ _ 0) by lia. cbn [bind].
  rewrite (rd_nth _ _ 0) by lia. cbn [bind].
  replace (Z.to_nat (Z.of_nat (length ells) - 1)) with (length ells - 1)%nat by lia. change (Z.to_nat 0) with 0%nat.
  assert (Em : mapM (fun p => k_function ells w (nth 0 w 0) (nth (length ells - 1) w 0) (half (fst p) (snd p)))
     (combine (fb_l0 b) (fb_lf b)) = Ok v).
  { assert (Ec : combine (fb_l0 b) (fb_lf b) = tab (n_bands b) (fun i => (low b i, high b i))).
    { destruct Hc as [[HLf _] _]. apply (list_eq_nth _ _ (0, 0)).
      - rewrite combine_length, length_tab, HLf. fold (n_bands b). lia.
      - intros i Hi. rewrite combine_length, HLf in Hi. fold (n_bands b) in Hi.
        rewrite nth_tab by lia. rewrite combine_nth by (rewrite HLf; reflexivity). reflexivity. }
    rewrite Ec. unfold tab. rewrite mapM_map.
    rewrite (mapM_ok _ (fun i => nth i v 0)).
    - rewrite <- HL. symmetry. f_equal. apply list_tab.
    - intros i Hi. apply in_seq in Hi. destruct (Hs i ltac:(lia)) as [j [Hj [C1 [C2 [H1 H2]]]]]. cbn [fst snd].
      apply (k_function_same ells w (half (low b i) (high b i)) j); try assumption; try lia.
      + apply flt_le. exact H2.
      + apply (Hw2 j); [lia | exact C1].
      + apply (Hw2 (S j)); [lia | exact C2].
      + left. exact H2. }
  rewrite Em. reflexivity.
Qed.

Theorem C11_effective_ells (b : fbins) i : sorted_bands b -> (i < n_bands b)%nat ->
  length (flat_effective_ells b) = n_bands b /\ contains b i (nth i (flat_effective_ells b) 0).
Proof.
  intros Hs Hi. pose proof Hs as [HL [Hn [H1 H2]]]. unfold flat_effective_ells. rewrite map_length, combine_length, HL.
  fold (n_bands b). split; [lia|].
  assert (E : nth i (map (fun p : F * F => half (fst p) (snd p)) (combine (fb_l0 b) (fb_lf b))) 0 = half (low b i) (high b i)).
  { rewrite nth_indep with (d' := (fun p : F * F => half (fst p) (snd p)) (0, 0)) by (rewrite map_length, combine_length, HL; fold (n_bands b); lia).
    rewrite (map_nth (fun p : F * F => half (fst p) (snd p))). rewrite combine_nth by (rewrite HL; reflexivity). reflexivity. }
  rewrite E. specialize (H1 i Hi). set (a := low b i) in *. set (z := high b i) in *.
  assert (T : (1 + 1 : F) <> 0). { apply fpos_neq. replace (1 + 1 : F) with (fofZ 2 : F) by reflexivity. apply fofZ_pos. lia. }
  assert (P : 0 < / (1 + 1 : F)). { apply finv_pos. replace (1 + 1 : F) with (fofZ 2 : F) by reflexivity. apply fofZ_pos. lia. }
  split; [exact Hi|]. unfold half. split.
  - apply fle_sub_0. fold a. replace (1 / (1 + 1) * (a + z) - a) with (/ (1 + 1) * (z - a)) by (field; exact T).
    apply flt_le, fmul_pos; [exact P|]. apply (proj1 (flt_sub_0 _ _)). exact H1.
  - apply flt_sub_0. fold z. replace (z - 1 / (1 + 1) * (a + z)) with (/ (1 + 1) * (z - a)) by (field; exact T).
    apply fmul_pos; [exact P|]. apply (proj1 (flt_sub_0 _ _)). exact H1.
Qed.

Lemma k_function_node xs ys i : increasing_samples xs -> length ys = length xs -> (2 <= length xs)%nat -> (i < length xs)%nat ->
  k_function xs ys (nth 0 ys 0) (nth (length xs - 1) ys 0) (nth i xs 0) = Ok (nth i ys 0).
Proof.
  intros Hinc HL H2 Hi. unfold k_function.
  replace (2 <=? length xs)%nat with true by lia. rewrite increasing_ok by exact Hinc. cbn [andb].
  rewrite (rd_nth _ _ 0) by lia. cbn [bind]. rewrite (rd_nth _ _ 0) by lia. cbn [bind].
  replace (Z.to_nat (Z.of_nat (length xs) - 1)) with (length xs - 1)%nat by lia. change (Z.to_nat 0) with 0%nat.
  destruct (nth i xs 0 <=? nth 0 xs 0) eqn:E0.
  - destruct i as [|i]; [reflexivity|]. exfalso. apply (flt_irrefl (nth 0 xs 0)).
    eapply flt_le_trans; [|exact E0]. apply (incr_lt xs Hinc); lia.
  - destruct (nth (length xs - 1) xs 0 <=? nth i xs 0) eqn:E1.
    + destruct (Nat.eq_dec i (length xs - 1)) as [->|N]; [reflexivity|]. exfalso.
      apply (flt_irrefl (nth i xs 0)). eapply flt_le_trans; [|exact E1]. apply (incr_lt xs Hinc); lia.
    + f_equal. destruct (Nat.eq_dec i (length xs - 1)) as [E|N].
      { rewrite E in E1. exfalso. pose proof (fle_refl (nth (length xs - 1) xs 0)) as R. unfold fle in R. congruence. }
      assert (Hd : nth (S i) xs 0 - nth i xs 0 <> 0).
      { intro E. apply (flt_irrefl (nth i xs 0)). rewrite <- (fsub_0_eq _ _ E) at 2. apply Hinc. lia. }
      rewrite (interp_at xs Hinc ys _ i HL); [field; exact Hd | lia | apply fle_refl | apply Hinc; lia].
Qed.

Lemma effective_nth (b : fbins) i : sorted_bands b -> (i < n_bands b)%nat ->
  nth i (flat_effective_ells b) 0 = half (low b i) (high b i).
Proof.
  intros [HL _] Hi. unfold flat_effective_ells.
  rewrite nth_indep with (d' := (fun p : F * F => half (fst p) (snd p)) (0, 0)) by (rewrite map_length, combine_length, HL; fold (n_bands b); lia).
  rewrite (map_nth (fun p : F * F => half (fst p) (snd p))). rewrite combine_nth by (rewrite HL; reflexivity). reflexivity.
Qed.
Lemma combine_bands (b : fbins) : sorted_bands b ->
  combine (fb_l0 b) (fb_lf b) = tab (n_bands b) (fun i => (low b i, high b i)).
Proof.
  intros [HLf _]. apply (list_eq_nth _ _ (0, 0)).
  - rewrite combine_length, length_tab, HLf. fold (n_bands b). lia.
  - intros i Hi. rewrite combine_length, HLf in Hi. fold (n_bands b) in Hi.
    rewrite nth_tab by lia. rewrite combine_nth by (rewrite HLf; reflexivity). reflexivity.
Qed.

(** a spectrum sampled at the effective ells is its own set of bandpowers *)
Theorem C11_bin_at_effective_ells (b : fbins) (v : list F) :
  sorted_bands b -> (2 <= n_bands b)%nat -> length v = n_bands b ->
  flat_bin_cell b (flat_effective_ells b) (A1 v) = Ok (A1 v).
Proof.
  intros Hs H2 HL. pose proof (C11_effective_ells b) as HE.
  assert (Hlen : length (flat_effective_ells b) = n_bands b) by (apply (HE 0%nat Hs); lia).
  assert (Hinc : increasing_samples (flat_effective_ells b)).
  { intros i Hi. rewrite Hlen in Hi. destruct (HE i Hs ltac:(lia)) as [_ [_ [_ G1]]].
    destruct (HE (S i) Hs ltac:(lia)) as [_ [_ [G2 _]]]. eapply flt_le_trans; [exact G1|].
    eapply fle_trans; [|exact G2]. apply (sorted_lt b Hs); lia. }
  unfold flat_bin_cell, shape_guard. rewrite Hlen, HL, Z.eqb_refl. cbn [bind].
  unfold nmt_bin_cls_flat. cbn [mapM]. rewrite (rd_nth _ _ 0) by lia. cbn [bind].
  rewrite (rd_nth _ _ 0) by lia. cbn [bind]. rewrite combine_bands by exact Hs. unfold tab. rewrite mapM_map.
  rewrite (mapM_ok _ (fun i => nth i v 0)).
  - cbn [bind]. rewrite <- HL. cbn [reshape]. do 2 f_equal. symmetry. apply list_tab.
  - intros i Hi. apply in_seq in Hi. cbn [fst snd]. rewrite <- effective_nth by (try exact Hs; lia).
    replace (Z.to_nat (Z.of_nat (length (flat_effective_ells b)) - 1)) with (length (flat_effective_ells b) - 1)%nat by lia.
    apply k_function_node; try assumption; lia.
Qed.

End Statements.

(** ** Findings *)
Definition gap_bins : fbins Qc_field := FBins [qz 0; qz 10] [qz 5; qz 15].
(** C10: with a gap between bands a wavenumber in the gap is attributed to a neighbouring band, and to
    which one depends on the previous look-up *)
Theorem C10_gap_refuted :
  sorted_bands gap_bins /\ (forall i, ~ contains gap_bins i (qz 7)) /\
  search_fast gap_bins (qz 7) 0 = Ok 1%Z /\ search_fast gap_bins (qz 7) 1 = Ok 0%Z.
Proof.
  split; [|split; [|split; vm_compute; reflexivity]].
  - split; [reflexivity|]. split; [unfold n_bands; simpl; lia|]. split; intros [|[|i]] H; unfold n_bands in H; simpl in H; try lia; vm_compute; reflexivity.
  - intros [|[|i]] [H [H1 H2]]; unfold n_bands in H; simpl in H; try lia; vm_compute in H1, H2; discriminate.
Qed.
(** C11: bin_cell does not average over the band (as documented) but samples the centre: a spectrum
    that is non-zero only away from the centre is lost *)
Theorem C11_bin_not_average_refuted :
  exists o, flat_bin_cell (FBins [qz 0] [qz 8]) [qz 0; qz 2; qz 4; qz 6; qz 8] (A1 [qz 9; qz 9; qz 0; qz 9; qz 9]) = Ok o
   /\ show o = [out (qz 0)].
Proof. apply ex_ok. vm_compute. reflexivity. Qed.

(** ** Non-vacuity *)
Definition ex_fb : fbins Qc_field := FBins [qz 0; qz 4; qz 10] [qz 4; qz 10; qz 12].
Example ex_fb_contiguous : contiguous ex_fb.
Proof.
  split; [split; [reflexivity|split; [unfold n_bands; simpl; lia|split]]|]; intros [|[|[|i]]] H; unfold n_bands in H; simpl in H; try lia; vm_compute; reflexivity.
Qed.
Example ex_fb_unbin : exists o, flat_unbin_cell ex_fb (A1 [qz 1; qz 2; qz 3]) [qz 11; qz 3; qz 20; qz 4] = Ok o /\
  show o = map out [qz 3; qz 1; qz (-999); qz 2].
Proof. apply ex_ok. vm_compute. reflexivity. Qed.
Example ex_fb_roundtrip : exists o, flat_unbin_cell ex_fb (A1 [qz 1; qz 2; qz 3]) [qz 1; qz 3; qz 6; qz 8; qz 10; q 23 2] = Ok o /\
  match flat_bin_cell ex_fb [qz 1; qz 3; qz 6; qz 8; qz 10; q 23 2] o with Ok r => show r = map out [qz 1; qz 2; qz 3] | _ => False end.
Proof. apply ex_ok. vm_compute. reflexivity. Qed.

Print Assumptions C10_search_finds_band.
Print Assumptions C10_search_outside.
Print Assumptions C10_search_exact.
Print Assumptions C10_guess_independent.
Print Assumptions C11_unbin_values.
Print Assumptions C11_unbin_values_2d.
Print Assumptions C11_bin_unbin.
Print Assumptions C11_effective_ells.
Print Assumptions C11_bin_at_effective_ells.
