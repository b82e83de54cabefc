(** Lemmas about curved-sky binning: membership, constructors, bin/unbin. *)
From Verif Require Import Base M_Bins L_Bins.
From Coq Require Import ZifyBool ZifyNat.
Ltac Zify.zify_post_hook ::= Z.div_mod_to_equations.
Open Scope nat_scope.

(** ** Lists *)
Lemma filter_seq_interval (p : nat -> bool) a b n :
  a <= b -> b <= n -> (forall i, i < n -> p i = (a <=? i) && (i <? b)) ->
  filter p (seq 0 n) = seq a (b - a).
Proof.
  intros Hab Hbn Hp.
  replace n with (a + ((b - a) + (n - b))) by lia.
  rewrite seq_app, seq_app, !filter_app.
  assert (E0 : forall s m q, (forall i, s <= i < s + m -> q i = false) -> filter q (seq s m) = []).
  { intros s m. revert s. induction m as [|m IH]; intros s q Hq; [reflexivity|]. simpl.
    rewrite Hq by lia. apply IH. intros. apply Hq. lia. }
  assert (E1 : forall s m q, (forall i, s <= i < s + m -> q i = true) -> filter q (seq s m) = seq s m).
  { intros s m. revert s. induction m as [|m IH]; intros s q Hq; [reflexivity|]. simpl.
    rewrite Hq by lia. f_equal. apply IH. intros. apply Hq. lia. }
  rewrite (E0 0 a), (E1 (0 + a) (b - a)), (E0 (0 + a + (b - a)) (n - b)).
  - rewrite app_nil_r. reflexivity.
  - intros i Hi. rewrite Hp by lia. lia.
  - intros i Hi. rewrite Hp by lia. lia.
  - intros i Hi. rewrite Hp by lia. lia.
Qed.
Lemma filter_map_comm {A B} (g : A -> B) (p : B -> bool) l :
  filter p (map g l) = map g (filter (fun a => p (g a)) l).
Proof. induction l as [|a l IH]; simpl; [reflexivity|]. destruct (p (g a)); simpl; rewrite IH; reflexivity. Qed.
Lemma nth_error_map' {A B} (f : A -> B) l n : nth_error (map f l) n = option_map f (nth_error l n).
Proof. revert n. induction l as [|a l IH]; intros [|n]; simpl; auto. Qed.

Section LBins2.
Context {F : ofield}.
Local Open Scope F_scope.
Add Field FfB2 : (fth F).
Notation row := (row F). Notation entry := (entry F). Notation bins := (bins F).

(** ** Membership in terms of the input arrays *)
Definition lmax_of (lmax : option Z) (ells : list Z) : Z :=
  match lmax with Some l => l | None => fold_right Z.max (hd 0%Z ells) ells end.

Lemma amax_spec l m : amax l = Ok m -> m = fold_right Z.max (hd 0%Z l) l.
Proof.
  destruct l as [|a l]; [discriminate|]. unfold amax. intro H. injection H as <-.
  rewrite fold_symmetric by lia. cbn [hd fold_right].
  assert (G : forall l x, (fold_right Z.max x l >= x)%Z) by (induction l0; simpl; intros; [lia | specialize (IHl0 x); lia]).
  specialize (G l a). lia.
Qed.

Lemma NmtBin_ok bpws ells lmax (weights f_ell : option (list F)) b :
  NmtBin bpws ells lmax weights f_ell = Ok b ->
  exists rows,
    map r_bpw rows = bpws /\ map r_ell rows = ells /\
    map r_w rows = match weights with None => ones (length ells) | Some w => w end /\
    map r_f rows = match f_ell with None => ones (length ells) | Some w => w end /\
    nmt_bins_create rows (lmax_of lmax ells) = Ok b.
Proof.
  unfold NmtBin. intro H. apply bind_ok in H. destruct H as [lm [Hl H]].
  apply bind_ok in H. destruct H as [rows [Hr H]].
  assert (El : lm = lmax_of lmax ells).
  { destruct lmax; [injection Hl as <-; reflexivity|]. apply amax_spec in Hl. exact Hl. }
  subst lm.
  match type of Hr with zip_rows ?a ?b ?c ?d = _ => destruct (zip_rows_spec a b c d) as [Z|[_ Z]] end; [|congruence].
  destruct Z as [_ [_ [_ [rows' [Z1 [Z2 [Z3 [Z4 Z5]]]]]]]]. rewrite Z1 in Hr. injection Hr as <-.
  exists rows'. auto 6.
Qed.

Lemma NmtBin_total bpws ells lmax (weights f_ell : option (list F)) :
  NmtBin bpws ells lmax weights f_ell <> UB.
Proof.
  unfold NmtBin. destruct lmax as [l|].
  - simpl. match goal with |- context [zip_rows ?a ?b ?c ?d] => destruct (zip_rows_spec a b c d) as [Z|[_ Z]] end.
    + destruct Z as [_ [_ [_ [rows [Z1 _]]]]]. rewrite Z1. simpl.
      destruct (create_fail rows l) as [[b E]|[E _]]; rewrite E; discriminate.
    + rewrite Z. discriminate.
  - unfold amax. destruct ells as [|a t]; [discriminate|]. simpl.
    match goal with |- context [zip_rows ?a ?b ?c ?d] => destruct (zip_rows_spec a b c d) as [Z|[_ Z]] end.
    + destruct Z as [_ [_ [_ [rows [Z1 _]]]]]. rewrite Z1. simpl.
      match goal with |- context [nmt_bins_create ?x ?y] => destruct (create_fail x y) as [[b E]|[E _]]; rewrite E; discriminate end.
    + rewrite Z. discriminate.
Qed.

Lemma bands_nth (rows : list row) lmax (b : bins) ib :
  nmt_bins_create rows lmax = Ok b -> (0 <= ib < get_n_bands b)%Z ->
  get_band b ib = Ok (norm_band (map ent (sel lmax ib rows))).
Proof.
  intros H Hb. apply create_ok in H. destruct H as [_ ->]. unfold get_band, get_n_bands in *.
  cbn [b_bands] in *. replace (ib <? _)%Z with true by lia.
  unfold raw_bands in *. rewrite map_tab in *. rewrite length_tab in Hb.
  rewrite rd_tab by lia. rewrite Z2Nat.id by lia. reflexivity.
Qed.

Lemma sel_combine lmax ib (rows : list row) :
  map r_ell (sel lmax ib rows) =
  map snd (filter (fun p => (fst p =? ib)%Z && (snd p <=? lmax)%Z) (combine (map r_bpw rows) (map r_ell rows))).
Proof.
  induction rows as [|r rows IH]; [reflexivity|]. simpl.
  destruct (r_ell r <=? lmax)%Z, (r_bpw r =? ib)%Z; simpl; rewrite IH; reflexivity.
Qed.
Lemma map_ell_norm (x : list entry) : map e_ell (norm_band (F:=F) x) = map e_ell x.
Proof. unfold norm_band. rewrite map_map. reflexivity. Qed.
Lemma map_ell_ent (l : list row) : map e_ell (map ent l) = map r_ell l.
Proof. rewrite map_map. reflexivity. Qed.

(** invariants of every successfully created scheme *)
Record wf (b : bins) : Prop := {
  wf_pos : (0 < get_n_bands b)%Z;
  wf_sum : forall x, In x (b_bands b) -> wsum x = 1;
  wf_ell : forall x e, In x (b_bands b) -> In e x -> (e_ell e <= b_lmax b)%Z;
  wf_f : forall x e, In x (b_bands b) -> In e x -> 0 < e_f e
}.

Lemma fix_f_pos (f : F) : 0 < fix_f f.
Proof. unfold fix_f. destruct (f <=? 0) eqn:E; [apply f0_lt_1|]. unfold flt, fltb. rewrite E. reflexivity. Qed.

Lemma create_wf (rows : list row) lmax (b : bins) : nmt_bins_create rows lmax = Ok b -> wf b.
Proof.
  intro H. apply create_ok in H. destruct H as [Hp ->]. constructor; cbn [b_bands b_lmax].
  - unfold get_n_bands. cbn [b_bands]. rewrite map_length. unfold raw_bands. rewrite length_tab.
    destruct (nband_max_spec lmax rows) as [? _]. lia.
  - intros x Hx. apply in_map_iff in Hx. destruct Hx as [y [<- Hy]]. apply wsum_norm, Hp, Hy.
  - intros x e Hx He. apply in_map_iff in Hx. destruct Hx as [y [<- Hy]].
    unfold norm_band in He. apply in_map_iff in He. destruct He as [e' [<- He']]. cbn.
    unfold raw_bands, tab in Hy. apply in_map_iff in Hy. destruct Hy as [k [<- _]].
    apply in_map_iff in He'. destruct He' as [r [<- Hr]]. unfold sel in Hr. apply filter_In in Hr.
    destruct Hr as [_ Hr]. cbn. lia.
  - intros x e Hx He. apply in_map_iff in Hx. destruct Hx as [y [<- Hy]].
    unfold norm_band in He. apply in_map_iff in He. destruct He as [e' [<- He']]. cbn.
    unfold raw_bands, tab in Hy. apply in_map_iff in Hy. destruct Hy as [k [<- _]].
    apply in_map_iff in He'. destruct He' as [r [<- Hr]]. apply fix_f_pos.
Qed.
Lemma NmtBin_wf bpws ells lmax (weights f_ell : option (list F)) b :
  NmtBin bpws ells lmax weights f_ell = Ok b -> wf b.
Proof. intro H. apply NmtBin_ok in H. destruct H as [rows [_ [_ [_ [_ H]]]]]. eapply create_wf, H. Qed.
Lemma NmtBin_lmax bpws ells lmax (weights f_ell : option (list F)) b :
  NmtBin bpws ells lmax weights f_ell = Ok b -> b_lmax b = lmax_of lmax ells.
Proof.
  intro H. apply NmtBin_ok in H. destruct H as [rows [_ [_ [_ [_ H]]]]].
  apply create_ok in H. destruct H as [_ ->]. reflexivity.
Qed.

Lemma create_nbands (rows : list row) lmax (b : bins) : nmt_bins_create rows lmax = Ok b ->
  (forall r, In r rows -> (r_ell r <= lmax)%Z -> (r_bpw r < get_n_bands b)%Z) /\
  (exists r, In r rows /\ (r_ell r <= lmax)%Z /\ r_bpw r = (get_n_bands b - 1)%Z).
Proof.
  intro H. pose proof H as H'. apply create_ok in H. destruct H as [Hp ->].
  unfold get_n_bands. cbn [b_bands]. rewrite map_length. unfold raw_bands. rewrite length_tab.
  destruct (nband_max_spec lmax rows) as [H1 [H2 H3]]. split.
  - intros r Hr Hl. exact (H2 r Hr Hl).
  - rewrite Z2Nat.id by lia. destruct H3 as [H3|H3]; [|exact H3].
    assert (Hx : In (map ent (sel lmax 0 rows)) (raw_bands lmax rows)).
    { unfold raw_bands, tab. apply in_map_iff. exists 0%nat. split; [reflexivity|]. apply in_seq. lia. }
    apply Hp in Hx. destruct (sel lmax 0 rows) as [|r t] eqn:E.
    + exfalso. exact (flt_irrefl _ Hx).
    + assert (Hr : In r (sel lmax 0 rows)) by (rewrite E; left; reflexivity).
      unfold sel in Hr. apply filter_In in Hr. exists r. split; [tauto|]. lia.
Qed.

(** ** Linear binning *)
Definition nfull (lmax nlb : Z) : Z := ((lmax - 1) / nlb)%Z.
Definition bpw_lin (lmax nlb l : Z) : Z :=
  if ((2 <=? l) && ((l - 2) / nlb <? nfull lmax nlb))%Z then ((l - 2) / nlb)%Z else (-1)%Z.

Lemma last_map_seq (f : nat -> Z) n d : last (map f (seq 0 (S n))) d = f n.
Proof. rewrite seq_S, map_app. simpl. apply last_last. Qed.

Lemma div_unique_range l n q : (0 < n)%Z -> ((l / n =? q) = ((q * n <=? l) && (l <? (q + 1) * n)))%Z.
Proof.
  intro Hn. destruct (Z.eqb_spec (l / n) q) as [E|E].
  - symmetry. rewrite andb_true_iff, Z.leb_le, Z.ltb_lt. subst q. split; nia.
  - symmetry. apply not_true_is_false. intro H. rewrite andb_true_iff, Z.leb_le, Z.ltb_lt in H. apply E. nia.
Qed.

Lemma bpw_linear_eq lmax nlb : (0 <= lmax)%Z -> (1 <= nlb)%Z ->
  bpw_arrays_linear lmax nlb = Ok (arange lmax, map (bpw_lin lmax nlb) (arange lmax)).
Proof.
  intros Hl Hn. unfold bpw_arrays_linear.
  assert (En : Z.to_nat (lmax + 1) = S (Z.to_nat lmax)) by lia.
  set (ells := arange lmax). set (bp := map (bpw_raw nlb) ells).
  assert (Elast : last bp (-1)%Z = bpw_raw nlb lmax).
  { unfold bp, ells, arange. rewrite map_map, En.
    rewrite (last_map_seq (fun k => bpw_raw nlb (Z.of_nat k))). rewrite Z2Nat.id by lia. reflexivity. }
  assert (Hne : bp <> []). { unfold bp, ells, arange. rewrite En. cbn [seq map]. discriminate. }
  assert (Hcase : (if (count_eq (bpw_raw nlb lmax) bp =? nlb)%Z then bp
                   else map (fun b => if (b =? bpw_raw nlb lmax)%Z then (-1)%Z else b) bp) = map (bpw_lin lmax nlb) ells).
  { destruct (Z.ltb_spec lmax 2) as [H2|H2].
    - (* lmax < 2: every raw entry is -1 *)
      assert (E1 : bpw_raw nlb lmax = (-1)%Z) by (unfold bpw_raw; replace (lmax <? 2)%Z with true by lia; reflexivity).
      rewrite E1.
      assert (A : forall l, In l ells -> bpw_raw nlb l = (-1)%Z).
      { intros l Hin. unfold ells, arange in Hin. apply in_map_iff in Hin. destruct Hin as [k [<- Hk]].
        apply in_seq in Hk. unfold bpw_raw. replace (_ <? 2)%Z with true by lia. reflexivity. }
      assert (B : forall l, In l ells -> bpw_lin lmax nlb l = (-1)%Z).
      { intros l Hin. unfold ells, arange in Hin. apply in_map_iff in Hin. destruct Hin as [k [<- Hk]].
        apply in_seq in Hk. unfold bpw_lin. replace (2 <=? _)%Z with false by lia. reflexivity. }
      destruct (_ =? nlb)%Z.
      + unfold bp. apply map_ext_in. intros l Hin. rewrite A, B by exact Hin. reflexivity.
      + unfold bp. rewrite map_map. apply map_ext_in. intros l Hin. rewrite A, B by exact Hin. reflexivity.
    - assert (E1 : bpw_raw nlb lmax = ((lmax - 2) / nlb)%Z) by (unfold bpw_raw; replace (lmax <? 2)%Z with false by lia; reflexivity).
      rewrite E1. set (qq := ((lmax - 2) / nlb)%Z).
      assert (Hq : (0 <= qq)%Z) by (apply Z.div_pos; lia).
      assert (Hq1 : (qq * nlb <= lmax - 2)%Z) by (unfold qq; nia).
      assert (Hq2 : (lmax - 2 < (qq + 1) * nlb)%Z) by (unfold qq; nia).
      assert (Ec : count_eq qq bp = (lmax - 1 - qq * nlb)%Z).
      { unfold count_eq, bp, ells, arange. rewrite map_map, filter_map_comm, map_length.
        rewrite (filter_seq_interval _ (Z.to_nat (2 + qq * nlb)) (Z.to_nat (lmax + 1))).
        - rewrite seq_length. nia.
        - nia.
        - lia.
        - intros i Hi. unfold bpw_raw.
          destruct (Z.ltb_spec (Z.of_nat i) 2) as [Hi2|Hi2].
          + replace (-1 =? qq)%Z with false by lia. symmetry. apply andb_false_iff. left. nia.
          + rewrite div_unique_range by lia. nia. }
      rewrite Ec.
      assert (Hnf : nfull lmax nlb = if (lmax - 1 - qq * nlb =? nlb)%Z then (qq + 1)%Z else qq).
      { unfold nfull. destruct (Z.eqb_spec (lmax - 1 - qq * nlb) nlb) as [E|E].
        - symmetry. apply Z.div_unique with (r := 0%Z); nia.
        - symmetry. apply Z.div_unique with (r := (lmax - 1 - qq * nlb)%Z); nia. }
      destruct (Z.eqb_spec (lmax - 1 - qq * nlb) nlb) as [E|E].
      + unfold bp. apply map_ext_in. intros l Hin. unfold ells, arange in Hin. apply in_map_iff in Hin.
        destruct Hin as [k [<- Hk]]. apply in_seq in Hk. unfold bpw_raw, bpw_lin. rewrite Hnf.
        destruct (Z.ltb_spec (Z.of_nat k) 2); [replace (2 <=? Z.of_nat k)%Z with false by lia; reflexivity|].
        replace (2 <=? Z.of_nat k)%Z with true by lia. cbn [andb].
        assert ((Z.of_nat k - 2) / nlb <= qq)%Z by (unfold qq; apply Z.div_le_mono; lia).
        replace ((Z.of_nat k - 2) / nlb <? qq + 1)%Z with true by lia. reflexivity.
      + unfold bp. rewrite map_map. apply map_ext_in. intros l Hin. unfold ells, arange in Hin. apply in_map_iff in Hin.
        destruct Hin as [k [<- Hk]]. apply in_seq in Hk. unfold bpw_raw, bpw_lin. rewrite Hnf.
        destruct (Z.ltb_spec (Z.of_nat k) 2).
        * replace (2 <=? Z.of_nat k)%Z with false by lia. cbn [andb]. destruct (-1 =? qq)%Z; reflexivity.
        * replace (2 <=? Z.of_nat k)%Z with true by lia. cbn [andb].
          assert (H5 : ((Z.of_nat k - 2) / nlb <= qq)%Z) by (unfold qq; apply Z.div_le_mono; lia).
          destruct (Z.eqb_spec ((Z.of_nat k - 2) / nlb) qq) as [Eq|Nq].
          -- rewrite Eq. replace (qq <? qq)%Z with false by lia. reflexivity.
          -- replace (_ <? qq)%Z with true by lia. reflexivity. }
  destruct bp as [|b0 bt] eqn:Ebp; [congruence|]. rewrite Elast, <- Hcase.
  destruct (_ =? nlb)%Z; reflexivity.
Qed.

Definition lin_row (fs : nat -> F) (lmax nlb : Z) (k : nat) : row :=
  Row (bpw_lin lmax nlb (Z.of_nat k)) (Z.of_nat k) 1 (fs k).

Lemma zip_rows_map (n : nat) (bp el : nat -> Z) (w f : nat -> F) s :
  zip_rows (map bp (seq s n)) (map el (seq s n)) (map w (seq s n)) (map f (seq s n)) =
  Ok (map (fun k => Row (bp k) (el k) (w k) (f k)) (seq s n)).
Proof. revert s. induction n as [|n IH]; intro s; simpl; [reflexivity|]. rewrite IH. reflexivity. Qed.

Lemma sel_lin fs lmax nlb ib : (1 <= nlb)%Z -> (0 <= lmax)%Z -> (0 <= ib < nfull lmax nlb)%Z ->
  sel lmax ib (map (lin_row fs lmax nlb) (seq 0 (Z.to_nat (lmax + 1)))) =
  map (lin_row fs lmax nlb) (seq (Z.to_nat (2 + ib * nlb)) (Z.to_nat nlb)).
Proof.
  intros Hn Hl Hib. unfold sel. rewrite filter_map_comm. f_equal.
  assert (Hf : (nfull lmax nlb * nlb <= lmax - 1)%Z) by (unfold nfull; nia).
  rewrite (filter_seq_interval _ (Z.to_nat (2 + ib * nlb)) (Z.to_nat (2 + (ib + 1) * nlb))).
  - f_equal. nia.
  - nia.
  - nia.
  - intros i Hi. unfold lin_row. cbn [r_ell r_bpw]. replace (Z.of_nat i <=? lmax)%Z with true by lia. cbn [andb].
    unfold bpw_lin. destruct (Z.leb_spec 2 (Z.of_nat i)) as [H2|H2]; cbn [andb].
    + destruct (Z.ltb_spec ((Z.of_nat i - 2) / nlb) (nfull lmax nlb)) as [Hs|Hs].
      * rewrite div_unique_range by lia. nia.
      * replace (-1 =? ib)%Z with false by lia. symmetry. apply andb_false_iff. right.
        assert (ib < (Z.of_nat i - 2) / nlb)%Z by lia.
        assert ((ib + 1) * nlb <= Z.of_nat i - 2)%Z by nia. nia.
    + replace (-1 =? ib)%Z with false by lia. symmetry. apply andb_false_iff. left. nia.
Qed.

Lemma lsum_ones {A} (l : list A) : lsum (map (fun _ => 1 : F) l) = fofnat (length l).
Proof. induction l as [|a l IH]; [reflexivity|]. rewrite lsum_cons, IH. simpl. ring. Qed.

Lemma wsum_const (x : list entry) w : (forall e, In e x -> e_w e = w) -> wsum x = w * fofnat (length x).
Proof.
  intro H. unfold wsum. rewrite (lsum_ext _ (fun _ => w * 1)).
  - rewrite lsum_mul_l, lsum_ones. reflexivity.
  - intros e He. rewrite H by exact He. ring.
Qed.

Lemma create_lin fs lmax nlb : (1 <= nlb)%Z -> (nlb + 1 <= lmax)%Z ->
  nmt_bins_create (map (lin_row fs lmax nlb) (seq 0 (Z.to_nat (lmax + 1)))) lmax =
  Ok (Bins lmax (map (fun ii => map (fun jj =>
        let ell := (2 + Z.of_nat ii * nlb + Z.of_nat jj)%Z in
        Entry ell (1 / fofZ nlb) (fix_f (fs (Z.to_nat ell)))) (seq 0 (Z.to_nat nlb)))
      (seq 0 (Z.to_nat (nfull lmax nlb))))).
Proof.
  intros Hn Hl. set (rows := map (lin_row fs lmax nlb) (seq 0 (Z.to_nat (lmax + 1)))).
  assert (Hf : (1 <= nfull lmax nlb)%Z) by (unfold nfull; nia).
  assert (Hf2 : (nfull lmax nlb * nlb <= lmax - 1)%Z) by (unfold nfull; nia).
  assert (Enb : nband_max lmax rows = nfull lmax nlb).
  { destruct (nband_max_spec lmax rows) as [H1 [H2 H3]].
    assert (U : forall r, In r rows -> (r_bpw r <= nfull lmax nlb - 1)%Z).
    { intros r Hr. unfold rows in Hr. apply in_map_iff in Hr. destruct Hr as [k [<- _]].
      unfold lin_row, bpw_lin. cbn. destruct (Z.leb_spec 2 (Z.of_nat k)); cbn [andb]; [|lia].
      destruct (Z.ltb_spec ((Z.of_nat k - 2) / nlb) (nfull lmax nlb)); lia. }
    assert (L : (nfull lmax nlb <= nband_max lmax rows)%Z).
    { set (k := Z.to_nat (2 + (nfull lmax nlb - 1) * nlb)).
      assert (Hk : Z.of_nat k = (2 + (nfull lmax nlb - 1) * nlb)%Z) by (unfold k; nia).
      assert (Hin : In (lin_row fs lmax nlb k) rows).
      { unfold rows. apply in_map. apply in_seq. nia. }
      assert (Hq : ((Z.of_nat k - 2) / nlb)%Z = (nfull lmax nlb - 1)%Z).
      { rewrite Hk. symmetry. apply Z.div_unique with (r := 0%Z); nia. }
      specialize (H2 _ Hin). unfold lin_row, bpw_lin in H2. cbn [r_ell r_bpw] in H2. rewrite Hq in H2.
      replace ((2 <=? Z.of_nat k) && (nfull lmax nlb - 1 <? nfull lmax nlb))%Z with true in H2 by nia.
      nia. }
    destruct H3 as [H3|[r [Hr [_ Hb]]]]; [lia|]. specialize (U r Hr). lia. }
  apply create_ok.
  assert (Eraw : raw_bands lmax rows = map (fun ii => map (fun jj =>
        let ell := (2 + Z.of_nat ii * nlb + Z.of_nat jj)%Z in
        Entry ell 1 (fix_f (fs (Z.to_nat ell)))) (seq 0 (Z.to_nat nlb))) (seq 0 (Z.to_nat (nfull lmax nlb)))).
  { unfold raw_bands. rewrite Enb. unfold tab. apply map_ext_in. intros ii Hii. apply in_seq in Hii.
    unfold rows. rewrite sel_lin by lia. rewrite map_map.
    rewrite <- (Nat.add_0_r (Z.to_nat (2 + Z.of_nat ii * nlb))) at 1.
    assert (S0 : forall n a s, seq (a + s) n = map (fun j => (a + j)%nat) (seq s n)).
    { induction n as [|n IH]; intros a s; [reflexivity|]. simpl. f_equal. rewrite <- IH. f_equal. lia. }
    rewrite S0, map_map. apply map_ext. intro jj. unfold ent, lin_row. cbn [r_ell r_w r_f].
    replace (Z.of_nat (Z.to_nat (2 + Z.of_nat ii * nlb) + jj))%Z with (2 + Z.of_nat ii * nlb + Z.of_nat jj)%Z by nia.
    cbv zeta. f_equal. f_equal. f_equal. nia. }
  rewrite Eraw.
  assert (Ew : forall ii, wsum (map (fun jj => let ell := (2 + Z.of_nat ii * nlb + Z.of_nat jj)%Z in
        Entry ell 1 (fix_f (fs (Z.to_nat ell)))) (seq 0 (Z.to_nat nlb))) = fofZ nlb).
  { intro ii. rewrite (wsum_const _ 1).
    - rewrite map_length, seq_length. rewrite <- fofZ_of_nat, Z2Nat.id by lia. ring.
    - intros e He. apply in_map_iff in He. destruct He as [jj [<- _]]. reflexivity. }
  split.
  - intros x Hx. apply in_map_iff in Hx. destruct Hx as [ii [<- _]]. rewrite Ew. apply fofZ_pos. lia.
  - f_equal. rewrite map_map. apply map_ext. intro ii. unfold norm_band. rewrite Ew, map_map. reflexivity.
Qed.

Lemma create_lin_fail fs lmax nlb : (1 <= nlb)%Z -> (0 <= lmax < nlb + 1)%Z ->
  nmt_bins_create (map (lin_row fs lmax nlb) (seq 0 (Z.to_nat (lmax + 1)))) lmax = Exn RuntimeError.
Proof.
  intros Hn Hl. set (rows := map (lin_row fs lmax nlb) (seq 0 (Z.to_nat (lmax + 1)))).
  assert (Hf : (nfull lmax nlb <= 0)%Z) by (unfold nfull; assert ((lmax - 1) / nlb < 1)%Z by (apply Z.div_lt_upper_bound; lia); lia).
  assert (A : forall r, In r rows -> r_bpw r = (-1)%Z).
  { intros r Hr. unfold rows in Hr. apply in_map_iff in Hr. destruct Hr as [k [<- _]].
    unfold lin_row, bpw_lin. cbn. destruct (Z.leb_spec 2 (Z.of_nat k)); cbn [andb]; [|reflexivity].
    assert (0 <= (Z.of_nat k - 2) / nlb)%Z by (apply Z.div_pos; lia).
    replace (_ <? nfull lmax nlb)%Z with false by lia. reflexivity. }
  destruct (create_fail rows lmax) as [[b E]|[E _]]; [|exact E]. exfalso.
  apply create_nbands in E as E2. destruct E2 as [_ [r [Hr [_ Hb]]]].
  rewrite (A r Hr) in Hb. apply create_wf in E. destruct E. lia.
Qed.
End LBins2.
