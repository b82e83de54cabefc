(** Lemmas about curved-sky binning: convenience constructors, bin/unbin. *)
From Verif Require Import Base M_Bins L_Bins L_Bins2.
From Coq Require Import ZifyBool ZifyNat.
Ltac Zify.zify_post_hook ::= Z.div_mod_to_equations.
Open Scope nat_scope.

Lemma combine_app {A B} (a1 a2 : list A) (b1 b2 : list B) :
  length a1 = length b1 -> combine (a1 ++ a2) (b1 ++ b2) = combine a1 b1 ++ combine a2 b2.
Proof.
  revert b1. induction a1 as [|x a1 IH]; intros [|y b1] H; simpl in *; try discriminate; [reflexivity|].
  f_equal. apply IH. lia.
Qed.
Lemma filter_all {A} (p : A -> bool) l : (forall a, In a l -> p a = true) -> filter p l = l.
Proof. induction l as [|a l IH]; intro H; [reflexivity|]. simpl. rewrite H by (left; reflexivity). f_equal. apply IH. intros; apply H; right; assumption. Qed.
Lemma filter_none {A} (p : A -> bool) l : (forall a, In a l -> p a = false) -> filter p l = [].
Proof. induction l as [|a l IH]; intro H; [reflexivity|]. simpl. rewrite H by (left; reflexivity). apply IH. intros; apply H; right; assumption. Qed.
Lemma map_snd_combine {A B} (a : list A) (b : list B) : length a = length b -> map snd (combine a b) = b.
Proof. revert b. induction a as [|x a IH]; intros [|y b] H; simpl in *; try discriminate; [reflexivity|]. f_equal. apply IH. lia. Qed.
Lemma map_fst_combine {A B} (a : list A) (b : list B) : length a = length b -> map fst (combine a b) = a.
Proof. revert b. induction a as [|x a IH]; intros [|y b] H; simpl in *; try discriminate; [reflexivity|]. f_equal. apply IH. lia. Qed.

Section LBins3.
Context {F : ofield}.
Local Open Scope F_scope.
Add Field FfB3 : (fth F).
Notation row := (row F). Notation entry := (entry F). Notation bins := (bins F).

(** ** Linear constructors *)
Lemma arange_seq lmax : arange lmax = map Z.of_nat (seq 0 (Z.to_nat (lmax + 1))).
Proof. reflexivity. Qed.
Lemma ones_map n s : ones (F:=F) n = map (fun _ => 1) (seq s n).
Proof. revert s. unfold ones in *. induction n as [|n IH]; intro s; [reflexivity|]. simpl. f_equal. apply IH. Qed.
Lemma length_arange lmax : length (arange lmax) = Z.to_nat (lmax + 1).
Proof. unfold arange. rewrite map_length, seq_length. reflexivity. Qed.

Definition lin_fs (pi : F) (is_Dell : bool) (f_ell : option (list F)) (k : nat) : F :=
  match f_ell with
  | Some f => nth k f 0
  | None => if is_Dell then dell pi (Z.of_nat k) else 1
  end.

Lemma from_lmax_rows (pi : F) lmax nlb is_Dell f_ell :
  (1 <= nlb)%Z -> (0 <= lmax)%Z ->
  (match f_ell with Some f => length f = Z.to_nat (lmax + 1) | None => True end) ->
  from_lmax_linear pi lmax nlb is_Dell f_ell =
  nmt_bins_create (map (lin_row (lin_fs pi is_Dell f_ell) lmax nlb) (seq 0 (Z.to_nat (lmax + 1)))) lmax.
Proof.
  intros Hn Hl Hf. unfold from_lmax_linear. rewrite bpw_linear_eq by assumption. cbn [bind].
  unfold NmtBin. cbn [bind].
  set (n := Z.to_nat (lmax + 1)).
  assert (Efs : match opt_f_ell pi is_Dell f_ell (arange lmax) with
                | Some f => f | None => ones (length (arange lmax)) end = map (lin_fs pi is_Dell f_ell) (seq 0 n)).
  { unfold opt_f_ell, lin_fs. destruct f_ell as [f|].
    - fold n in Hf. rewrite (list_tab f 0) at 1. rewrite Hf. reflexivity.
    - destruct is_Dell.
      + rewrite arange_seq, map_map. reflexivity.
      + rewrite length_arange. apply ones_map. }
  rewrite Efs, length_arange. fold n. rewrite (ones_map n 0), arange_seq, map_map. fold n.
  rewrite zip_rows_map. cbn [bind]. reflexivity.
Qed.

Lemma dell_pos (pi : F) l : 0 < pi -> (1 <= l)%Z -> 0 < dell pi l.
Proof.
  intros Hp Hl. unfold dell.
  assert (H1 : (0 : F) < fofZ (l * (l + 1))) by (apply fofZ_pos; nia).
  assert (H2 : 0 < fofZ 2 * pi) by (apply fmul_pos; [apply fofZ_pos; lia | exact Hp]).
  replace (fofZ (l * (l + 1)) / (fofZ 2 * pi)) with (fofZ (l * (l + 1)) * / (fofZ 2 * pi)) by (field; split; [apply fpos_neq, Hp | apply fpos_neq, fofZ_pos; lia]).
  apply fmul_pos; [exact H1 | apply finv_pos, H2].
Qed.
Lemma fix_f_id (f : F) : 0 < f -> fix_f f = f.
Proof. unfold fix_f, flt, fltb. intro H. destruct (f <=? 0); [discriminate | reflexivity]. Qed.

Lemma from_lmax_constant (pi : F) lmax nlb is_Dell :
  0 < pi -> (1 <= nlb)%Z -> (nlb + 1 <= lmax)%Z ->
  from_lmax_linear pi lmax nlb is_Dell None = Ok (nmt_bins_constant pi nlb lmax is_Dell).
Proof.
  intros Hp Hn Hl. rewrite from_lmax_rows; [|lia|lia|exact I]. rewrite create_lin by lia.
  unfold nmt_bins_constant. f_equal. f_equal. unfold nfull. rewrite Z.quot_div_nonneg by lia.
  apply map_ext. intro ii. apply map_ext. intro jj. cbv zeta. f_equal.
  unfold lin_fs. destruct is_Dell.
  - rewrite fix_f_id by (apply dell_pos; [exact Hp | nia]). unfold dell. rewrite Z2Nat.id by nia.
    rewrite !fofZ_mul, !(fofZ_add _ 1), fofZ_1. reflexivity.
  - apply fix_f_id, f0_lt_1.
Qed.

Lemma from_lmax_fail (pi : F) lmax nlb is_Dell f_ell :
  (1 <= nlb)%Z -> (lmax < nlb + 1)%Z -> exists e, from_lmax_linear pi lmax nlb is_Dell f_ell = Exn e.
Proof.
  intros Hn Hl. destruct (Z.leb_spec 0 lmax) as [H0|H0].
  - assert (D : (match f_ell with Some f => length f = Z.to_nat (lmax + 1) | None => True end) \/
                exists f, f_ell = Some f /\ length f <> Z.to_nat (lmax + 1)).
    { destruct f_ell as [f|]; [|left; exact I]. destruct (Nat.eq_dec (length f) (Z.to_nat (lmax + 1))); [left; assumption|]. right. eauto. }
    destruct D as [D|[f [-> D]]].
    + exists RuntimeError. rewrite from_lmax_rows by assumption. apply create_lin_fail; lia.
    + exists RuntimeError. unfold from_lmax_linear. rewrite bpw_linear_eq by lia. cbn [bind]. unfold NmtBin. cbn [bind opt_f_ell].
      match goal with |- context [zip_rows ?a ?b ?c ?d] => destruct (zip_rows_spec a b c d) as [Z|[_ Z]] end.
      * destruct Z as [_ [H1 [H2 _]]]. rewrite length_arange in H1, H2. congruence.
      * rewrite Z. reflexivity.
  - exists IndexError. unfold from_lmax_linear, bpw_arrays_linear, arange.
    replace (Z.to_nat (lmax + 1)) with 0%nat by lia. reflexivity.
Qed.

(** ** Edges *)
Definition edges_ok (E : list (Z * Z)) : Prop := forall p, In p E -> (fst p < snd p)%Z.

Lemma in_zrange l li le : In l (zrange li le) <-> (li <= l < le)%Z.
Proof.
  unfold zrange. rewrite in_map_iff. split.
  - intros [k [<- Hk]]. apply in_seq in Hk. lia.
  - intro H. exists (Z.to_nat (l - li)). split; [lia|]. apply in_seq. lia.
Qed.
Lemma length_zrange li le : length (zrange li le) = Z.to_nat (le - li).
Proof. unfold zrange. rewrite map_length, seq_length. reflexivity. Qed.

Lemma edge_arrays_spec ib E : edges_ok E ->
  exists ells bpws ws, edge_arrays (F:=F) ib (map fst E) (map snd E) = Ok (ells, bpws, ws) /\
    length bpws = length ells /\ length ws = length ells /\
    (forall b, In b bpws -> (ib <= b < ib + Z.of_nat (length E))%Z) /\
    (forall l, In l ells -> exists p, In p E /\ (fst p <= l < snd p)%Z) /\
    (forall p l, In p E -> (fst p <= l < snd p)%Z -> In l ells) /\
    (forall j p, nth_error E j = Some p ->
       filter (fun t => (fst (fst t) =? ib + Z.of_nat j)%Z) (combine (combine bpws ells) ws) =
       map (fun l => ((ib + Z.of_nat j)%Z, l, 1 / fofZ (snd p - fst p))) (zrange (fst p) (snd p))).
Proof.
  revert ib. induction E as [|[li le] E IH]; intros ib H.
  - exists [], [], []. simpl. repeat split; try contradiction. intros [|j] p; discriminate.
  - assert (Hp : (li < le)%Z) by (apply (H (li, le)); left; reflexivity).
    assert (HE : edges_ok E) by (intros p Hi; apply H; right; exact Hi).
    destruct (IH (ib + 1)%Z HE) as [ells [bpws [ws [E1 [E2 [E3 [E4 [E5 [E6 E7]]]]]]]]].
    cbn [map fst snd edge_arrays]. replace (le - li =? 0)%Z with false by lia. rewrite E1. cbn [bind].
    exists (zrange li le ++ ells), (repeat ib (Z.to_nat (le - li)) ++ bpws), (repeat (1 / fofZ (le - li)) (Z.to_nat (le - li)) ++ ws).
    split; [reflexivity|].
    rewrite !app_length, !repeat_length, length_zrange, E2, E3.
    split; [reflexivity|]. split; [reflexivity|]. split; [|split; [|split]].
    + intros b Hb. apply in_app_or in Hb. cbn [length]. destruct Hb as [Hb|Hb]; [apply repeat_spec in Hb; lia|].
      specialize (E4 b Hb). lia.
    + intros l Hl. apply in_app_or in Hl. destruct Hl as [Hl|Hl].
      * apply in_zrange in Hl. exists (li, le). split; [left; reflexivity | exact Hl].
      * destruct (E5 l Hl) as [p [Hi Hr]]. exists p. split; [right; exact Hi | exact Hr].
    + intros p l [<-|Hi] Hr; apply in_or_app; [left; apply in_zrange; exact Hr | right; eapply E6; eassumption].
    + intros j p Hj.
      rewrite combine_app by (rewrite repeat_length, length_zrange; reflexivity).
      rewrite combine_app by (rewrite combine_length, !repeat_length, length_zrange; lia).
      rewrite filter_app.
      assert (Ehd : combine (combine (repeat ib (Z.to_nat (le - li))) (zrange li le)) (repeat (1 / fofZ (le - li) : F) (Z.to_nat (le - li)))
                    = map (fun l => (ib, l, 1 / fofZ (le - li))) (zrange li le)).
      { unfold zrange. generalize (Z.to_nat (le - li)) as n. generalize 0%nat as s. intros s n. revert s.
        induction n as [|n IHn]; intro s; simpl; [reflexivity|]. f_equal. apply IHn. }
      rewrite Ehd. destruct j as [|j]; cbn [nth_error] in Hj.
      * injection Hj as <-. cbn [fst snd]. rewrite Z.add_0_r.
        rewrite filter_all, filter_none, app_nil_r; [reflexivity| |].
        -- intros [[b l] w] Ht. cbn. apply in_combine_l in Ht. apply in_combine_l in Ht. specialize (E4 b Ht). lia.
        -- intros t Ht. apply in_map_iff in Ht. destruct Ht as [l [<- _]]. cbn. lia.
      * rewrite filter_none.
        -- cbn [app]. replace (ib + Z.of_nat (S j))%Z with (ib + 1 + Z.of_nat j)%Z by lia. apply E7. exact Hj.
        -- intros t Ht. apply in_map_iff in Ht. destruct Ht as [l [<- _]]. cbn. lia.
Qed.

(** weights of a band in terms of the inputs *)
Lemma sel_combine_w lmax ib (rows : list row) :
  map r_w (sel lmax ib rows) =
  map snd (filter (fun t => (fst (fst t) =? ib)%Z && (snd (fst t) <=? lmax)%Z)
    (combine (combine (map r_bpw rows) (map r_ell rows)) (map r_w rows))).
Proof.
  induction rows as [|r rows IH]; [reflexivity|]. simpl.
  destruct (r_ell r <=? lmax)%Z, (r_bpw r =? ib)%Z; simpl; rewrite IH; reflexivity.
Qed.

(** ** Binning one band *)
Definition bp_val (cl : list F) (x : list entry) : F :=
  lsum (map (fun e => e_w e * e_f e * nth (Z.to_nat (e_ell e)) cl 0) x).

Lemma bin_band_eq cl (x : list entry) :
  (forall e, In e x -> (0 <= e_ell e < Z.of_nat (length cl))%Z) -> bin_band cl x = Ok (bp_val cl x).
Proof.
  unfold bin_band, bp_val. intro H.
  assert (G : forall acc, foldM (fun acc e => do c <- rd cl (e_ell e); Ok (acc + e_w e * e_f e * c)) acc x
     = Ok (acc + lsum (map (fun e => e_w e * e_f e * nth (Z.to_nat (e_ell e)) cl 0) x))).
  { induction x as [|e x IH]; intro acc.
    - cbn. f_equal. ring.
    - cbn [foldM]. rewrite (rd_nth _ _ 0) by (apply H; left; reflexivity). cbn [bind].
      rewrite IH by (intros; apply H; right; assumption). rewrite lsum_cons. f_equal. ring. }
  rewrite G. f_equal. ring.
Qed.

(** ** Unbinning *)
Definition writes (cl : list F) (bands : list (list entry)) : list (Z * F) :=
  flat_map (fun p => map (fun e => (e_ell e, fst p / e_f e)) (snd p)) (combine cl bands).
Definition wr_all (W : list (Z * F)) (o : list F) : list F :=
  fold_left (fun o p => upd o (Z.to_nat (fst p)) (snd p)) W o.

Lemma foldM_app {A S} (f : S -> A -> res S) s l1 l2 :
  foldM f s (l1 ++ l2) = do s' <- foldM f s l1; foldM f s' l2.
Proof. revert s. induction l1 as [|a l IH]; intro s; simpl; [reflexivity|]. destruct (f s a); simpl; auto. Qed.

Lemma unbin_writes out cb :
  foldM unbin_band out cb =
  foldM (fun o p => wr o (fst p) (snd p)) out (flat_map (fun p => map (fun e => (e_ell e, fst p / e_f (F:=F) e)) (snd p)) cb).
Proof.
  revert out. induction cb as [|[c x] cb IH]; intro out; [reflexivity|]. cbn [foldM flat_map].
  rewrite foldM_app. unfold unbin_band at 1. cbn [fst snd].
  assert (E : forall o, foldM (fun o e => wr o (e_ell e) (c / e_f e)) o x =
     foldM (fun o p => wr o (fst p) (snd p)) o (map (fun e => (e_ell e, c / e_f e)) x)).
  { clear. induction x as [|e x IH]; intro o; [reflexivity|]. cbn. destruct (wr o (e_ell e) (c / e_f e)); cbn; auto. }
  rewrite E. destruct (foldM _ out _); cbn [bind]; [apply IH | reflexivity | reflexivity].
Qed.
Lemma wr_all_eq W o : (forall p, In p W -> (0 <= fst p < Z.of_nat (length o))%Z) ->
  foldM (fun o p => wr o (fst p) (snd p)) o W = Ok (wr_all W o).
Proof.
  revert o. induction W as [|p W IH]; intros o H; [reflexivity|]. cbn [foldM]. unfold wr at 1.
  assert (Hp := H p (or_introl eq_refl)).
  replace ((0 <=? fst p) && (fst p <? Z.of_nat (length o)))%Z with true by lia. cbn [bind].
  rewrite IH; [reflexivity|]. intros p' Hp'. rewrite length_upd. apply H. right. exact Hp'.
Qed.
Lemma length_wr_all W o : length (wr_all W o) = length o.
Proof. revert o. induction W as [|p W IH]; intro o; [reflexivity|]. unfold wr_all in *. simpl. rewrite IH, length_upd. reflexivity. Qed.
Lemma nth_wr_all_none W o k d : (forall p, In p W -> Z.to_nat (fst p) <> k) -> nth k (wr_all W o) d = nth k o d.
Proof.
  revert o. induction W as [|p W IH]; intros o H; [reflexivity|]. unfold wr_all in *. simpl.
  rewrite IH by (intros; apply H; right; assumption).
  destruct (Nat.ltb_spec (Z.to_nat (fst p)) (length o)).
  - rewrite nth_upd by assumption. destruct (Nat.eqb_spec k (Z.to_nat (fst p))) as [E|E]; [|reflexivity].
    exfalso. apply (H p); [left; reflexivity | auto].
  - replace (upd o (Z.to_nat (fst p)) (snd p)) with o; [reflexivity|].
    clear -H0. revert H0. generalize (Z.to_nat (fst p)) as n. induction o as [|a o IHo]; intros [|n] Hn; simpl in *; try lia; [reflexivity|reflexivity|].
    f_equal. apply IHo. lia.
Qed.
Lemma nth_wr_all_some W o k v d : (k < length o)%nat ->
  (exists p, In p W /\ Z.to_nat (fst p) = k) ->
  (forall p, In p W -> Z.to_nat (fst p) = k -> snd p = v) -> nth k (wr_all W o) d = v.
Proof.
  revert o. induction W as [|p W IH]; intros o Hk [p0 [Hin Hp0]] H; [destruct Hin|].
  unfold wr_all. simpl. fold (wr_all W (upd o (Z.to_nat (fst p)) (snd p))).
  destruct (in_dec Nat.eq_dec k (map (fun p => Z.to_nat (fst p)) W)) as [Hi|Hi].
  - apply IH.
    + rewrite length_upd. exact Hk.
    + apply in_map_iff in Hi. destruct Hi as [p' [E Hp']]. exists p'. auto.
    + intros p' Hp'. apply H. right. exact Hp'.
  - assert (p0 = p) as ->.
    { destruct Hin as [E|Hin]; [symmetry; exact E|]. exfalso. apply Hi. apply in_map_iff. exists p0. auto. }
    rewrite nth_wr_all_none.
    + rewrite nth_upd by lia. rewrite Hp0, Nat.eqb_refl. apply H; [left; reflexivity | exact Hp0].
    + intros p' Hp' E. apply Hi. apply in_map_iff. exists p'. auto.
Qed.

Definition ells_in (b : bins) : Prop :=
  forall x e, In x (b_bands b) -> In e x -> (0 <= e_ell e <= b_lmax b)%Z.

Definition unbin1 (b : bins) (cl : list F) : list F :=
  wr_all (writes cl (b_bands b)) (repeat 0 (Z.to_nat (b_lmax b + 1))).

Lemma unbin_eq b cls : ells_in b -> nmt_unbin_cls b cls = Ok (map (unbin1 b) cls).
Proof.
  intro H. unfold nmt_unbin_cls. apply mapM_ok. intros cl _. rewrite unbin_writes, wr_all_eq; [reflexivity|].
  intros p Hp. rewrite repeat_length. apply in_flat_map in Hp. destruct Hp as [[c x] [Hc Hp]].
  apply in_map_iff in Hp. destruct Hp as [e [<- He]]. cbn [fst snd] in *. apply in_combine_r in Hc.
  specialize (H x e Hc He). lia.
Qed.
Lemma bin_eq b cls : ells_in b -> Forall (fun cl => Z.of_nat (length cl) = (b_lmax b + 1)%Z) cls ->
  nmt_bin_cls b cls = Ok (map (fun cl => map (bp_val cl) (b_bands b)) cls).
Proof.
  intros H HL. unfold nmt_bin_cls. apply mapM_ok. intros cl Hcl. apply mapM_ok. intros x Hx.
  apply bin_band_eq. intros e He. specialize (H x e Hx He). rewrite Forall_forall in HL. specialize (HL cl Hcl). lia.
Qed.

Definition disjoint (b : bins) : Prop :=
  forall i j x y e e', nth_error (b_bands b) i = Some x -> nth_error (b_bands b) j = Some y ->
    In e x -> In e' y -> e_ell e = e_ell e' -> i = j /\ e_f e = e_f e'.

Lemma in_combine_nth {A B} (a : list A) (b : list B) x y :
  In (x, y) (combine a b) -> exists i, nth_error a i = Some x /\ nth_error b i = Some y.
Proof.
  revert b. induction a as [|x' a IH]; intros [|y' b] H; simpl in H; try contradiction.
  destruct H as [H|H]; [injection H as -> ->; exists 0%nat; auto|]. destruct (IH b H) as [i Hi]. exists (S i). exact Hi.
Qed.
Lemma nth_combine_in {A B} (a : list A) (b : list B) i x y :
  nth_error a i = Some x -> nth_error b i = Some y -> In (x, y) (combine a b).
Proof.
  revert b i. induction a as [|x' a IH]; intros [|y' b] [|i] H1 H2; simpl in *; try discriminate.
  - injection H1 as ->. injection H2 as ->. left. reflexivity.
  - right. eapply IH; eassumption.
Qed.

Lemma unbin1_nth b cl i x e c : ells_in b -> disjoint b ->
  nth_error (b_bands b) i = Some x -> In e x -> nth_error cl i = Some c ->
  nth (Z.to_nat (e_ell e)) (unbin1 b cl) 0 = c / e_f e.
Proof.
  intros He Hd Hx Hin Hc. unfold unbin1.
  assert (Hr := He x e (nth_error_In _ _ Hx) Hin).
  apply nth_wr_all_some.
  - rewrite repeat_length. lia.
  - exists (e_ell e, c / e_f e). split; [|reflexivity]. unfold writes. apply in_flat_map.
    exists (c, x). split; [eapply nth_combine_in; eassumption|]. cbn. apply in_map_iff. exists e. auto.
  - intros p Hp Ep. unfold writes in Hp. apply in_flat_map in Hp. destruct Hp as [[c' x'] [Hc' Hp]].
    apply in_map_iff in Hp. destruct Hp as [e' [<- He']]. cbn [fst snd] in *.
    apply in_combine_nth in Hc'. destruct Hc' as [j [Hj1 Hj2]].
    assert (Hr' := He x' e' (nth_error_In _ _ Hj2) He').
    assert (Ee : e_ell e = e_ell e') by lia.
    destruct (Hd _ _ _ _ _ _ Hx Hj2 Hin He' Ee) as [<- Ef]. rewrite Hc in Hj1. injection Hj1 as <-.
    rewrite Ef. reflexivity.
Qed.
Lemma unbin1_zero b cl l : ells_in b -> (0 <= l)%Z ->
  (forall x e, In x (b_bands b) -> In e x -> e_ell e <> l) -> nth (Z.to_nat l) (unbin1 b cl) 0 = 0.
Proof.
  intros He Hl H. unfold unbin1. rewrite nth_wr_all_none.
  - destruct (Nat.ltb_spec (Z.to_nat l) (Z.to_nat (b_lmax b + 1))).
    + rewrite repeat_tab, nth_tab by assumption. reflexivity.
    + apply nth_overflow. rewrite repeat_length. exact H0.
  - intros p Hp E. unfold writes in Hp. apply in_flat_map in Hp. destruct Hp as [[c' x'] [Hc' Hp]].
    apply in_map_iff in Hp. destruct Hp as [e' [<- He']]. cbn [fst snd] in *. apply in_combine_r in Hc'.
    apply (H x' e' Hc' He'). specialize (He x' e' Hc' He'). lia.
Qed.
Lemma length_unbin1 b cl : length (unbin1 b cl) = Z.to_nat (b_lmax b + 1).
Proof. unfold unbin1. rewrite length_wr_all, repeat_length. reflexivity. Qed.

Lemma bin_unbin1 b cl : wf b -> ells_in b -> disjoint b -> length cl = length (b_bands b) ->
  map (bp_val (unbin1 b cl)) (b_bands b) = cl.
Proof.
  intros Hw He Hd HL. apply (list_eq_nth _ _ 0).
  - rewrite map_length. auto.
  - intros i Hi. rewrite map_length in Hi.
    rewrite nth_indep with (d' := bp_val (unbin1 b cl) []) by (rewrite map_length; exact Hi).
    rewrite map_nth.
    assert (Hx : nth_error (b_bands b) i = Some (nth i (b_bands b) [])) by (apply nth_error_nth'; exact Hi).
    assert (Hc : nth_error cl i = Some (nth i cl 0)) by (apply nth_error_nth'; lia).
    set (x := nth i (b_bands b) []) in *. set (c := nth i cl 0) in *.
    unfold bp_val. rewrite (lsum_ext _ (fun e => e_w e * c)).
    + rewrite lsum_mul_r. fold (wsum x). rewrite (wf_sum b Hw x (nth_error_In _ _ Hx)). ring.
    + intros e Hin. rewrite (unbin1_nth b cl i x e c He Hd Hx Hin Hc).
      field. apply fpos_neq. eapply wf_f; [exact Hw | eapply nth_error_In; exact Hx | exact Hin].
Qed.

(** ** Bounds of weighted averages *)
Lemma avg_bounds {A} (w v : A -> F) lo hi l :
  (forall a, In a l -> 0 <= w a /\ lo <= v a /\ v a <= hi) -> lsum (map w l) = 1 ->
  lo <= lsum (map (fun a => w a * v a) l) /\ lsum (map (fun a => w a * v a) l) <= hi.
Proof.
  intros H E. split.
  - replace lo with (lsum (map w l) * lo) by (rewrite E; ring). rewrite <- lsum_mul_r.
    apply lsum_le. intros a Ha. destruct (H a Ha) as [H1 [H2 H3]]. apply fle_mul_l; assumption.
  - replace hi with (lsum (map w l) * hi) by (rewrite E; ring). rewrite <- lsum_mul_r.
    apply lsum_le. intros a Ha. destruct (H a Ha) as [H1 [H2 H3]]. apply fle_mul_l; assumption.
Qed.
End LBins3.
