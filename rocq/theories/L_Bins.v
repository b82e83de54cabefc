(** Lemmas about curved-sky binning. *)
From Verif Require Import Base M_Bins.
From Coq Require Import ZifyBool ZifyNat.
Ltac Zify.zify_post_hook ::= Z.div_mod_to_equations.
Open Scope nat_scope.

Lemma upd_tab {A} n (f : nat -> A) k v :
  k < n -> upd (tab n f) k v = tab n (fun i => if Nat.eqb i k then v else f i).
Proof.
  intro H. apply (list_eq_nth _ _ v).
  - rewrite length_upd, !length_tab. reflexivity.
  - intros i Hi. rewrite length_upd, length_tab in Hi.
    rewrite nth_upd by (rewrite length_tab; exact H). rewrite !nth_tab by exact Hi. reflexivity.
Qed.
Lemma rd_tab {A} n (f : nat -> A) i : (0 <= i < Z.of_nat n)%Z -> rd (tab n f) i = Ok (f (Z.to_nat i)).
Proof. intro H. apply rd_ok. split; [lia|]. apply nth_error_tab. lia. Qed.
Lemma wr_tab {A} n (f : nat -> A) i v : (0 <= i < Z.of_nat n)%Z ->
  wr (tab n f) i v = Ok (tab n (fun k => if Nat.eqb k (Z.to_nat i) then v else f k)).
Proof.
  intro H. unfold wr. rewrite length_tab.
  replace ((0 <=? i) && (i <? Z.of_nat n))%Z with true by lia.
  rewrite upd_tab by lia. reflexivity.
Qed.
Lemma repeat_tab {A} n (a : A) : repeat a n = tab n (fun _ => a).
Proof. induction n as [|n IH]; [reflexivity|]. rewrite tab_cons. simpl. f_equal. exact IH. Qed.

Section LBins.
Context {F : ofield}.
Local Open Scope F_scope.
Add Field FfB : (fth F).
Notation row := (row F). Notation entry := (entry F). Notation bins := (bins F).

(** ** Construction *)
(** rows that belong to band [b] *)
Definition sel (lmax : Z) (b : Z) (rows : list row) : list row :=
  filter (fun r => (r_ell r <=? lmax)%Z && (r_bpw r =? b)%Z) rows.
Definition ent (r : row) : entry := Entry (r_ell r) (r_w r) (fix_f (r_f r)).
Definition rows_ok (lmax : Z) (nb : nat) (rows : list row) : Prop :=
  forall r, In r rows -> (r_ell r <= lmax)%Z -> (r_bpw r < Z.of_nat nb)%Z.

Lemma count_pass_gen lmax nb rows : rows_ok lmax nb rows -> forall c,
  foldM (count_step lmax) (tab nb c) rows =
  Ok (tab nb (fun b => (c b + length (sel lmax (Z.of_nat b) rows))%nat)).
Proof.
  induction rows as [|r rows IH]; intros H c.
  - simpl. f_equal. apply tab_ext. intros. lia.
  - assert (Hr : rows_ok lmax nb rows) by (intros r' Hr'; apply H; right; exact Hr').
    specialize (IH Hr). simpl. unfold count_step at 1.
    destruct (Z.leb_spec (r_ell r) lmax) as [Hl|Hl].
    + destruct (Z.leb_spec 0 (r_bpw r)) as [Hb|Hb].
      * assert (Hr0 : (r_bpw r < Z.of_nat nb)%Z) by (apply H; [left; reflexivity | exact Hl]).
        rewrite rd_tab by lia. simpl. rewrite wr_tab by lia. simpl. rewrite IH. f_equal.
        apply tab_ext. intros i Hi. destruct (Nat.eqb_spec i (Z.to_nat (r_bpw r))) as [->|N].
        -- replace (r_bpw r =? Z.of_nat (Z.to_nat (r_bpw r)))%Z with true by lia. simpl. lia.
        -- replace (r_bpw r =? Z.of_nat i)%Z with false by lia. simpl. lia.
      * simpl. rewrite IH. f_equal. apply tab_ext. intros i Hi.
        replace (r_bpw r =? Z.of_nat i)%Z with false by lia. simpl. lia.
    + simpl. rewrite IH. reflexivity.
Qed.

Lemma fill_pass_gen lmax nb rows : rows_ok lmax nb rows -> forall (cap : nat -> nat) (c : nat -> list entry),
  (forall b, (b < nb)%nat -> (length (c b) + length (sel lmax (Z.of_nat b) rows) <= cap b)%nat) ->
  foldM (fill_step lmax) (tab nb (fun b => (cap b, c b))) rows =
  Ok (tab nb (fun b => (cap b, c b ++ map ent (sel lmax (Z.of_nat b) rows)))).
Proof.
  induction rows as [|r rows IH]; intros H cap c Hc.
  - simpl. f_equal. apply tab_ext. intros. rewrite app_nil_r. reflexivity.
  - assert (Hr : rows_ok lmax nb rows) by (intros r' Hr'; apply H; right; exact Hr').
    specialize (IH Hr). cbn [foldM]. unfold fill_step at 1.
    destruct (Z.leb_spec (r_ell r) lmax) as [Hl|Hl].
    + destruct (Z.leb_spec 0 (r_bpw r)) as [Hb|Hb].
      * assert (Hr0 : (r_bpw r < Z.of_nat nb)%Z) by (apply H; [left; reflexivity | exact Hl]).
        rewrite rd_tab by lia. cbn [bind fst snd].
        set (k := Z.to_nat (r_bpw r)).
        assert (Hk : (k < nb)%nat) by lia.
        assert (Es : forall i, sel lmax (Z.of_nat i) (r :: rows) =
                    if Nat.eqb i k then r :: sel lmax (Z.of_nat i) rows else sel lmax (Z.of_nat i) rows).
        { intro i. unfold sel at 1. cbn [filter]. replace (r_ell r <=? lmax)%Z with true by lia.
          destruct (Nat.eqb_spec i k) as [->|N].
          - replace (r_bpw r =? Z.of_nat k)%Z with true by lia. reflexivity.
          - replace (r_bpw r =? Z.of_nat i)%Z with false by lia. reflexivity. }
        assert (Hck := Hc k Hk). rewrite Es, Nat.eqb_refl in Hck. cbn [length] in Hck.
        replace (length (c k) <? cap k)%nat with true by lia.
        rewrite wr_tab by lia. cbn [bind]. fold k.
        rewrite (tab_ext nb _ (fun b => (cap b, if Nat.eqb b k then c k ++ [ent r] else c b))).
        2:{ intros i Hi. destruct (Nat.eqb_spec i k) as [->|N]; reflexivity. }
        rewrite IH.
        -- f_equal. apply tab_ext. intros i Hi. rewrite Es. f_equal.
           destruct (Nat.eqb_spec i k) as [->|N]; [rewrite <- app_assoc; reflexivity | reflexivity].
        -- intros b Hb'. specialize (Hc b Hb'). rewrite Es in Hc.
           destruct (Nat.eqb_spec b k) as [->|N]; [rewrite app_length|]; cbn [length] in *; lia.
      * cbn [bind]. assert (Es : forall i, sel lmax (Z.of_nat i) (r :: rows) = sel lmax (Z.of_nat i) rows).
        { intro i. unfold sel. cbn [filter]. replace (r_bpw r =? Z.of_nat i)%Z with false by lia.
          rewrite andb_false_r. reflexivity. }
        rewrite IH by (intros b Hb'; rewrite <- Es; apply Hc; exact Hb').
        f_equal. apply tab_ext. intros i Hi. rewrite Es. reflexivity.
    + cbn [bind]. assert (Es : forall i, sel lmax (Z.of_nat i) (r :: rows) = sel lmax (Z.of_nat i) rows).
      { intro i. unfold sel. cbn [filter]. replace (r_ell r <=? lmax)%Z with false by lia. reflexivity. }
      rewrite IH by (intros b Hb'; rewrite <- Es; apply Hc; exact Hb').
      f_equal. apply tab_ext. intros i Hi. rewrite Es. reflexivity.
Qed.

Lemma nband_max_fold lmax (rows : list row) n0 :
  let m := fold_left (fun n r => if (r_ell r <=? lmax)%Z then (if (n <? r_bpw r)%Z then r_bpw r else n) else n) rows n0 in
  (n0 <= m)%Z /\ (forall r, In r rows -> (r_ell r <= lmax)%Z -> (r_bpw r <= m)%Z) /\
  (m = n0 \/ exists r, In r rows /\ (r_ell r <= lmax)%Z /\ r_bpw r = m).
Proof.
  revert n0. induction rows as [|r rows IH]; intro n0; simpl.
  - split; [lia|]. split; [intros ? []|]. left. reflexivity.
  - set (n1 := if (r_ell r <=? lmax)%Z then if (n0 <? r_bpw r)%Z then r_bpw r else n0 else n0).
    destruct (IH n1) as [H1 [H2 H3]]. unfold n1 in *.
    destruct (Z.leb_spec (r_ell r) lmax); [destruct (Z.ltb_spec n0 (r_bpw r))|].
    + split; [lia|]. split.
      * intros r' [<-|Hr'] Hl; [lia | apply H2; assumption].
      * right. destruct H3 as [H3|[r' [? ?]]]; [exists r; rewrite H3; auto | exists r'; intuition].
    + split; [lia|]. split.
      * intros r' [<-|Hr'] Hl; [lia | apply H2; assumption].
      * destruct H3 as [H3|[r' [? ?]]]; [left; exact H3 | right; exists r'; intuition].
    + split; [lia|]. split.
      * intros r' [<-|Hr'] Hl; [lia | apply H2; assumption].
      * destruct H3 as [H3|[r' [? ?]]]; [left; exact H3 | right; exists r'; intuition].
Qed.

Lemma nband_max_spec lmax (rows : list row) :
  (1 <= nband_max lmax rows)%Z /\ rows_ok lmax (Z.to_nat (nband_max lmax rows)) rows /\
  (nband_max lmax rows = 1%Z \/ exists r, In r rows /\ (r_ell r <= lmax)%Z /\ r_bpw r = (nband_max lmax rows - 1)%Z).
Proof.
  unfold nband_max. destruct (nband_max_fold lmax rows 0) as [H1 [H2 H3]].
  split; [lia|]. split.
  - intros r Hr Hl. specialize (H2 r Hr Hl). lia.
  - destruct H3 as [H3|[r [? [? ?]]]]; [left; lia | right; exists r; repeat split; try assumption; lia].
Qed.

(** the raw bands before normalisation *)
Definition raw_bands (lmax : Z) (rows : list row) : list (list entry) :=
  tab (Z.to_nat (nband_max lmax rows)) (fun b => map ent (sel lmax (Z.of_nat b) rows)).

Lemma mapM_map {A B C} (f : B -> res C) (g : A -> B) l : mapM f (map g l) = mapM (fun a => f (g a)) l.
Proof. induction l as [|a l IH]; simpl; [reflexivity | rewrite IH; reflexivity]. Qed.

Lemma create_eq rows lmax :
  nmt_bins_create rows lmax = do ns <- mapM normalise (raw_bands lmax rows); Ok (Bins lmax ns).
Proof.
  unfold nmt_bins_create, count_pass, fill_pass, alloc_pass.
  destruct (nband_max_spec lmax rows) as [_ [Hok _]].
  rewrite repeat_tab, count_pass_gen by exact Hok. cbn [bind]. rewrite map_tab.
  rewrite (fill_pass_gen lmax _ rows Hok (fun b => (0 + length (sel lmax (Z.of_nat b) rows))%nat) (fun _ => [])).
  2:{ intros; simpl; lia. }
  cbn [bind]. unfold raw_bands.
  replace (tab (Z.to_nat (nband_max lmax rows)) (fun b => map ent (sel lmax (Z.of_nat b) rows)))
    with (map snd (tab (Z.to_nat (nband_max lmax rows)) (fun b => ((0 + length (sel lmax (Z.of_nat b) rows))%nat, [] ++ map ent (sel lmax (Z.of_nat b) rows))))).
  2:{ rewrite map_tab. apply tab_ext. reflexivity. }
  rewrite mapM_map. reflexivity.
Qed.

Lemma mapM_cases {A B} (f : A -> res B) l :
  (exists r, mapM f l = Ok r /\ Forall2 (fun a b => f a = Ok b) l r) \/
  (exists a, In a l /\ ((exists e, f a = Exn e /\ mapM f l = Exn e) \/ (f a = UB /\ mapM f l = UB))).
Proof.
  induction l as [|a l IH]; simpl.
  - left. exists []. split; [reflexivity | constructor].
  - destruct (f a) as [b|e|] eqn:E; simpl.
    + destruct IH as [[r [H1 H2]]|[a' [Ha [[e [H1 H2]]|[H1 H2]]]]].
      * left. rewrite H1. exists (b :: r). split; [reflexivity | constructor; assumption].
      * right. exists a'. split; [right; exact Ha|]. left. exists e. rewrite H2. auto.
      * right. exists a'. split; [right; exact Ha|]. right. rewrite H2. auto.
    + right. exists a. split; [left; reflexivity|]. left. exists e. auto.
    + right. exists a. split; [left; reflexivity|]. right. auto.
Qed.

Definition wsum (x : list entry) : F := lsum (map e_w x).
Definition norm_band (x : list entry) : list entry :=
  map (fun e => Entry (e_ell e) (e_w e / wsum x) (e_f e)) x.

Lemma normalise_eq x : normalise x = if wsum x <=? 0 then Exn RuntimeError else Ok (norm_band x).
Proof. reflexivity. Qed.
Lemma normalise_ok x y : normalise x = Ok y <-> 0 < wsum x /\ y = norm_band x.
Proof.
  rewrite normalise_eq. unfold flt, fltb. destruct (wsum x <=? 0); simpl; split; intro H.
  - discriminate.
  - destruct H; discriminate.
  - injection H as <-. auto.
  - destruct H as [_ ->]. reflexivity.
Qed.

(** construction succeeds exactly when every raw band has positive total weight, and then
    normalises each of them *)
Lemma create_ok rows lmax b :
  nmt_bins_create rows lmax = Ok b <->
  (forall x, In x (raw_bands lmax rows) -> 0 < wsum x) /\
  b = Bins lmax (map norm_band (raw_bands lmax rows)).
Proof.
  rewrite create_eq. split.
  - intro H. apply bind_ok in H. destruct H as [ns [H1 H2]]. injection H2 as <-.
    revert ns H1. generalize (raw_bands lmax rows) as L. induction L as [|x L IH]; simpl; intros ns H.
    + injection H as <-. split; [intros ? []|reflexivity].
    + apply bind_ok in H. destruct H as [y [Hy H]]. apply bind_ok in H. destruct H as [u [Hu H]].
      injection H as <-. apply normalise_ok in Hy. destruct Hy as [Hp ->].
      destruct (IH u Hu) as [H1 H2]. injection H2 as ->. split.
      * intros x' [<-|Hx']; [exact Hp | apply H1; exact Hx'].
      * reflexivity.
  - intros [Hp ->]. rewrite (mapM_ok _ norm_band); [reflexivity|].
    intros x Hx. apply normalise_ok. split; [apply Hp; exact Hx | reflexivity].
Qed.
Lemma create_fail rows lmax :
  (exists b, nmt_bins_create rows lmax = Ok b) \/
  (nmt_bins_create rows lmax = Exn RuntimeError /\ exists x, In x (raw_bands lmax rows) /\ wsum x <= 0).
Proof.
  rewrite create_eq. destruct (mapM_cases normalise (raw_bands lmax rows)) as [[r [H _]]|[x [Hx [[e [H1 H2]]|[H1 H2]]]]].
  - left. rewrite H. eexists. reflexivity.
  - right. rewrite H2. rewrite normalise_eq in H1. destruct (wsum x <=? 0) eqn:E; [|discriminate].
    injection H1 as <-. split; [reflexivity|]. exists x. split; [exact Hx | exact E].
  - exfalso. rewrite normalise_eq in H1. destruct (wsum x <=? 0); discriminate.
Qed.

(** ** Normalised bands *)
Lemma wsum_norm x : 0 < wsum x -> wsum (norm_band x) = 1.
Proof.
  intro H. unfold norm_band. unfold wsum at 1. rewrite map_map. cbn.
  rewrite (lsum_ext _ (fun e => e_w e * (/ wsum x))).
  2:{ intros e _. field. apply fpos_neq. exact H. }
  rewrite lsum_mul_r. fold (wsum x). field. apply fpos_neq. exact H.
Qed.

(** rows zipped from arrays *)
Lemma zip_rows_spec bpws ells (ws fs : list F) :
  (length bpws = length ells /\ length ells = length ws /\ length ws = length fs /\
   exists rows, zip_rows bpws ells ws fs = Ok rows /\ map r_bpw rows = bpws /\ map r_ell rows = ells /\
     map r_w rows = ws /\ map r_f rows = fs) \/
  (~ (length bpws = length ells /\ length ells = length ws /\ length ws = length fs) /\
   zip_rows bpws ells ws fs = Exn RuntimeError).
Proof.
  revert ells ws fs. induction bpws as [|b bpws IH]; intros [|l ells] [|w ws] [|f fs]; simpl;
    try (right; split; [lia | reflexivity]).
  - left. repeat split. exists []. auto.
  - destruct (IH ells ws fs) as [[H1 [H2 [H3 [rows [H4 [H5 [H6 [H7 H8]]]]]]]]|[H1 H2]].
    + left. repeat split; try lia. exists (Row b l w f :: rows). rewrite H4. simpl.
      rewrite H5, H6, H7, H8. auto.
    + right. split; [lia|]. rewrite H2. reflexivity.
Qed.

End LBins.
