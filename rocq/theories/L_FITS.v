(** Lemmas about workspace files. *)
From Coq Require Import Permutation Sorted.
From Verif Require Import Base M_Bins M_LinAlg M_Workspace M_FITS L_Bins L_Bins2 L_Bins3 P_Bins L_LinAlg L_Workspace P_Workspace.
Open Scope Z_scope.

(** ** Sorted lists *)
Section Keyed.
Context {A : Type} (key : A -> Z).
Lemma sorted_perm_eq (l1 l2 : list A) : StronglySorted Z.lt (map key l1) -> StronglySorted Z.lt (map key l2) -> Permutation l1 l2 -> l1 = l2.
Proof.
  revert l2. induction l1 as [|a l1 IH]; intros l2 S1 S2 P; [apply Permutation_nil in P; subst; reflexivity|].
  destruct l2 as [|b l2]; [symmetry in P; apply Permutation_nil in P; discriminate|].
  cbn in S1, S2. apply StronglySorted_inv in S1. apply StronglySorted_inv in S2. destruct S1 as [S1 A1], S2 as [S2 A2]. rewrite Forall_forall in A1, A2.
  assert (E : a = b).
  { assert (Ha : In a (b :: l2)) by (eapply Permutation_in; [exact P | left; reflexivity]).
    assert (Hb : In b (a :: l1)) by (eapply Permutation_in; [symmetry; exact P | left; reflexivity]).
    destruct Ha as [Ha|Ha]; [congruence|]. destruct Hb as [Hb|Hb]; [congruence|].
    apply (in_map key) in Ha. apply (in_map key) in Hb. specialize (A1 _ Hb). specialize (A2 _ Ha). lia. }
  subst b. f_equal. apply IH; try assumption. eapply Permutation_cons_inv. exact P.
Qed.
Lemma sorted_nodup (l : list A) : StronglySorted Z.lt (map key l) -> NoDup l.
Proof.
  induction l as [|a l IH]; intro S; [constructor|]. cbn in S. apply StronglySorted_inv in S. destruct S as [S H]. rewrite Forall_forall in H.
  constructor; [|apply IH; exact S]. intro I. apply (in_map key) in I. specialize (H _ I). lia.
Qed.
Lemma sorted_filter (P : A -> bool) (g : nat -> A) n : forall a, (forall l, P (g l) = true -> key (g l) = Z.of_nat l) ->
  StronglySorted Z.lt (map key (filter P (map g (seq a n)))) /\ Forall (fun z => (Z.of_nat a <= z)%Z) (map key (filter P (map g (seq a n)))).
Proof.
  induction n as [|n IH]; intros a H; [split; constructor|]. cbn [seq map filter]. destruct (IH (S a) H) as [I1 I2].
  destruct (P (g a)) eqn:E; cbn [map].
  - rewrite (H a E). split; constructor; try assumption; try lia; rewrite Forall_forall in *; intros z Hz; specialize (I2 z Hz); lia.
  - split; [exact I1|]. rewrite Forall_forall in *. intros z Hz. specialize (I2 z Hz). lia.
Qed.
End Keyed.

Lemma nodup_l {A} (l m : list A) : NoDup (l ++ m) -> NoDup l.
Proof. induction l as [|a l IH]; intro H; [constructor|]. cbn in H. inversion H as [|? ? N1 N2]; subst. constructor; [|apply IH; exact N2]. intro I. apply N1. apply in_or_app. left. exact I. Qed.
Lemma nodup_r {A} (l m : list A) : NoDup (l ++ m) -> NoDup m.
Proof. induction l as [|a l IH]; intro H; [exact H|]. cbn in H. inversion H; subst. apply IH. assumption. Qed.
Lemma forall2_tab {A B} (Q : A -> B -> Prop) (d : B) (l : list B) : forall g, (forall k, (k < length l)%nat -> Q (g k) (nth k l d)) -> Forall2 Q (tab (length l) g) l.
Proof.
  induction l as [|x l IH]; intros g H; [constructor|]. cbn [length]. rewrite tab_cons. constructor; [apply (H 0%nat); cbn; lia|].
  apply IH. intros k Hk. apply (H (S k)). cbn. lia.
Qed.
Section LFITS.
Context {F : ofield}.
Local Open Scope F_scope.
Add Field FfLF : (fth F).
Notation bins := (bins F).
Notation entry := (entry F).
Notation tup := (Z * Z * F * F)%type.

Lemma lsum_perm (l l' : list F) : Permutation l l' -> lsum l = lsum l'.
Proof. intro P. induction P; cbn; [reflexivity | fold (lsum l); fold (lsum l'); rewrite IHP; reflexivity | unfold lsum; cbn; ring | congruence]. Qed.
Lemma wsum_perm (x y : list entry) : Permutation x y -> wsum x = wsum y.
Proof. intro P. apply lsum_perm, Permutation_map, P. Qed.

(** ** The table of bandpowers *)
Definition wlist (bands : list (list entry)) (k0 : nat) : list (Z * entry) :=
  flat_map (fun '(ii, x) => map (fun e => (Z.of_nat ii, e)) x) (combine (seq k0 (length bands)) bands).
Definition tup_of (p : Z * entry) : tup := (fst p, e_ell (snd p), e_w (snd p), e_f (snd p)).
Definition put_all (W : list (Z * entry)) (t : list tup) : list tup := fold_left (fun t p => upd t (Z.to_nat (e_ell (snd p))) (tup_of p)) W t.
Lemma foldM_put W : forall t, (forall p, In p W -> (0 <= e_ell (snd p) < Z.of_nat (length t))%Z) ->
  foldM (fun t p => put_entry (fst p) t (snd p)) t W = Ok (put_all W t) /\ length (put_all W t) = length t.
Proof.
  induction W as [|p W IH]; intros t H; [split; reflexivity|]. cbn [foldM put_all fold_left].
  assert (Hp : (0 <= e_ell (snd p) < Z.of_nat (length t))%Z) by (apply H; left; reflexivity).
  unfold put_entry at 1, wr. replace ((0 <=? e_ell (snd p)) && (e_ell (snd p) <? Z.of_nat (length t)))%Z with true by lia. cbn [bind].
  destruct (IH (upd t (Z.to_nat (e_ell (snd p))) (tup_of p))) as [I1 I2].
  { intros q Hq. rewrite length_upd. apply H. right. exact Hq. }
  unfold tup_of in I1 at 1. cbn [fst snd] in I1 |- *. rewrite I1. unfold put_all in I2 |- *. split; [reflexivity|]. rewrite I2. apply length_upd.
Qed.
Lemma foldM_flat {A B S} (g : A -> list B) (f : S -> B -> res S) (h : S -> A -> res S) (L : list A) : forall s,
  (forall s a, In a L -> h s a = foldM f s (g a)) -> foldM h s L = foldM f s (flat_map g L).
Proof.
  induction L as [|a L IH]; intros s H; [reflexivity|]. cbn [foldM flat_map]. rewrite foldM_app, H by (left; reflexivity).
  destruct (foldM f s (g a)); try reflexivity. cbn [bind]. apply IH. intros s' b Hb. apply H. right. exact Hb.
Qed.
Lemma foldM_map {A B S} (f : S -> B -> res S) (g : A -> B) (L : list A) : forall s, foldM f s (map g L) = foldM (fun s a => f s (g a)) s L.
Proof. induction L as [|a L IH]; intro s; [reflexivity|]. cbn [foldM map]. destruct (f s (g a)); try reflexivity. cbn. apply IH. Qed.
Lemma bands_table_eq (b : bins) : ells_in b ->
  bands_table b = Ok (put_all (wlist (b_bands b) 0) (repeat ((-1)%Z, (-1)%Z, 0, 0) (Z.to_nat (b_lmax b + 1)))) /\
  length (put_all (wlist (b_bands b) 0) (repeat ((-1)%Z, (-1)%Z, 0, 0) (Z.to_nat (b_lmax b + 1)))) = Z.to_nat (b_lmax b + 1).
Proof.
  intro H. unfold bands_table.
  rewrite (foldM_flat (fun '(ii, x) => map (fun e => (Z.of_nat ii, e)) x) (fun t p => put_entry (fst p) t (snd p))).
  2:{ intros s [ii x] _. rewrite foldM_map. reflexivity. }
  fold (wlist (b_bands b) 0).
  destruct (foldM_put (wlist (b_bands b) 0) (repeat ((-1)%Z, (-1)%Z, 0, 0) (Z.to_nat (b_lmax b + 1)))) as [E1 E2].
  { intros [i e] Hp. rewrite repeat_length. unfold wlist in Hp. apply in_flat_map in Hp. destruct Hp as [[ii x] [Hc Hp]]. apply in_combine_r in Hc.
    apply in_map_iff in Hp. destruct Hp as [e' [Ee He]]. injection Ee as _ <-. cbn [snd]. specialize (H x e' Hc He). lia. }
  split; [exact E1|]. rewrite E2, repeat_length. reflexivity.
Qed.
Lemma in_wlist bands : forall k0 i e, In (i, e) (wlist bands k0) <-> exists x k, nth_error bands k = Some x /\ In e x /\ i = Z.of_nat (k0 + k).
Proof.
  induction bands as [|x bands IH]; intros k0 i e.
  - split; [intros [] | intros [x [k [H _]]]; destruct k; discriminate].
  - unfold wlist. cbn [length seq combine flat_map]. rewrite in_app_iff. fold (wlist bands (S k0)). rewrite IH, in_map_iff. split.
    + intros [[e' [Ee He]]|[y [k [Hk [He ->]]]]].
      * injection Ee as <- <-. exists x, 0%nat. rewrite Nat.add_0_r. auto.
      * exists y, (S k). split; [exact Hk|]. split; [exact He|]. f_equal. lia.
    + intros [y [[|k] [Hk [He ->]]]]; cbn in Hk.
      * injection Hk as ->. left. exists e. rewrite Nat.add_0_r. auto.
      * right. exists y, k. split; [exact Hk|]. split; [exact He|]. f_equal. lia.
Qed.
Lemma wlist_ells bands k0 : map (fun p => e_ell (snd p)) (wlist bands k0) = flat_map (map e_ell) bands.
Proof.
  revert k0. induction bands as [|x bands IH]; intro k0; [reflexivity|]. unfold wlist. cbn [length seq combine flat_map].
  fold (wlist bands (S k0)). rewrite map_app, map_map, IH. reflexivity.
Qed.
Lemma nth_upd_other {A} (t : list A) n v : forall m d, m <> n -> nth m (upd t n v) d = nth m t d.
Proof. revert n. induction t as [|a t IH]; intros [|n] [|m] d H; cbn; try reflexivity; try congruence. apply IH. congruence. Qed.
Lemma put_other W : forall t l d, (forall p, In p W -> Z.to_nat (e_ell (snd p)) <> l) -> nth l (put_all W t) d = nth l t d.
Proof.
  induction W as [|p W IH]; intros t l d H; [reflexivity|]. cbn [put_all fold_left]. fold (put_all W (upd t (Z.to_nat (e_ell (snd p))) (tup_of p))).
  rewrite IH by (intros q Hq; apply H; right; exact Hq). apply nth_upd_other.
  intro E. apply (H p); [left; reflexivity | symmetry; exact E].
Qed.
Lemma put_in W : forall t p d, NoDup (map (fun p => e_ell (snd p)) W) -> (forall q, In q W -> (0 <= e_ell (snd q) < Z.of_nat (length t))%Z) -> In p W ->
  nth (Z.to_nat (e_ell (snd p))) (put_all W t) d = tup_of p.
Proof.
  induction W as [|q W IH]; intros t p d ND R Hp; [destruct Hp|]. cbn [put_all fold_left]. fold (put_all W (upd t (Z.to_nat (e_ell (snd q))) (tup_of q))).
  cbn [map] in ND. inversion ND as [|? ? N1 N2]; subst. destruct Hp as [->|Hp].
  - rewrite put_other.
    + pose proof (R p (or_introl eq_refl)). rewrite nth_upd by lia. rewrite Nat.eqb_refl. reflexivity.
    + intros r Hr E. apply N1. apply in_map_iff. exists r. split; [|exact Hr]. pose proof (R r (or_intror Hr)). pose proof (R p (or_introl eq_refl)). lia.
  - apply IH; [exact N2| |exact Hp]. intros r Hr. rewrite length_upd. apply R. right. exact Hr.
Qed.

(** ** Reading the table back *)
Definition row_of (t : tup) : row F := let '(i, l, w, f) := t in Row i l w f.
Lemma zip_table (t : list tup) : zip_rows (map (fun '(i, l, w, f) => i) t) (map (fun '(i, l, w, f) => l) t) (map (fun '(i, l, w, f) => w) t) (map (fun '(i, l, w, f) => f) t) = Ok (map row_of t).
Proof. induction t as [|[[[i l] w] f] t IH]; [reflexivity|]. cbn [map zip_rows]. rewrite IH. reflexivity. Qed.

Definition ascending (x : list entry) : Prop := StronglySorted Z.lt (map e_ell x).

Section RoundTrip.
Variable b : bins.
Hypothesis (W : wf b) (R : ells_in b) (O : once b).
Let N := Z.to_nat (b_lmax b + 1).
Let d : tup := ((-1)%Z, (-1)%Z, 0, 0).
Let T : list tup := put_all (wlist (b_bands b) 0) (repeat d N).
Local Lemma Tlen : length T = N. Proof. exact (proj2 (bands_table_eq b R)). Qed.
Local Lemma wl_in p : In p (wlist (b_bands b) 0) -> (0 <= e_ell (snd p) < Z.of_nat N)%Z /\ (0 <= fst p < Z.of_nat (length (b_bands b)))%Z /\ 0 < e_f (snd p).
Proof.
  intro H. destruct p as [i e]. apply in_wlist in H. destruct H as [x [k [Hk [He ->]]]]. cbn [fst snd Nat.add].
  pose proof (nth_error_In _ _ Hk) as Hx. pose proof (R x e Hx He). assert (k < length (b_bands b))%nat by (apply nth_error_Some; congruence).
  repeat split; try (unfold N; lia). apply (wf_f b W x e Hx He).
Qed.
Local Lemma wl_nd : NoDup (map (fun p => e_ell (snd p)) (wlist (b_bands b) 0)).
Proof. rewrite wlist_ells. exact O. Qed.
(** element l of the table *)
Local Lemma T_nth l : (l < N)%nat -> (exists p, In p (wlist (b_bands b) 0) /\ e_ell (snd p) = Z.of_nat l /\ nth l T d = tup_of p) \/
   (nth l T d = d).
Proof.
  intro Hl. destruct (in_dec Z.eq_dec (Z.of_nat l) (map (fun p => e_ell (snd p)) (wlist (b_bands b) 0))) as [I|I].
  - left. apply in_map_iff in I. destruct I as [p [E Hp]]. exists p. split; [exact Hp|]. split; [exact E|].
    replace l with (Z.to_nat (e_ell (snd p))) by (rewrite E; lia). apply put_in; [apply wl_nd| |exact Hp].
    intros q Hq. rewrite repeat_length. apply wl_in. exact Hq.
  - right. unfold T. rewrite put_other.
    + rewrite repeat_tab. exact (nth_tab N (fun _ => d) l d Hl).
    + intros p Hp E. apply I. apply in_map_iff. exists p. split; [|exact Hp]. pose proof (wl_in p Hp). lia.
Qed.
Local Lemma T_tab : map row_of T = map (fun l => row_of (nth l T d)) (seq 0 N).
Proof.
  apply (list_eq_nth _ _ (row_of d)); [rewrite !map_length, seq_length; apply Tlen|].
  intros l Hl. rewrite map_length in Hl. rewrite (map_nth row_of T d l). rewrite Tlen in Hl.
  symmetry. exact (nth_tab N (fun l => row_of (nth l T d)) l (row_of d) Hl).
Qed.
Local Lemma rows_in r : (0 <= r_bpw r)%Z -> In r (map row_of T) <-> exists p, In p (wlist (b_bands b) 0) /\ r = row_of (tup_of p).
Proof.
  intro Hr. split.
  - rewrite T_tab. intro H. apply in_map_iff in H. destruct H as [l [<- Hl]]. apply in_seq in Hl.
    destruct (T_nth l ltac:(lia)) as [[p [Hp [_ E]]]|E]; rewrite E in *; [exists p; auto | cbn in Hr; lia].
  - intros [p [Hp ->]]. apply in_map. pose proof (wl_in p Hp) as [Hl _].
    rewrite <- (put_in (wlist (b_bands b) 0) (repeat d N) p d wl_nd); [|intros q Hq; rewrite repeat_length; apply wl_in; exact Hq|exact Hp].
    fold T. apply nth_In. rewrite Tlen. lia.
Qed.
Local Lemma sel_sorted k : StronglySorted Z.lt (map e_ell (map ent (sel (b_lmax b) (Z.of_nat k) (map row_of T)))).
Proof.
  rewrite map_map. cbn [ent e_ell]. unfold sel. rewrite T_tab.
  set (g := fun l => row_of (nth l T d)). change (map (fun x => r_ell x)) with (map (@r_ell F)).
  enough (H : forall n, (n <= N)%nat -> StronglySorted Z.lt (map r_ell (filter (fun r => (r_ell r <=? b_lmax b)%Z && (r_bpw r =? Z.of_nat k)%Z) (map g (seq 0 n))))) by (apply H; lia).
  intros n Hn.
  (* outside the table the default row is never selected *)
  apply (sorted_filter r_ell (fun r => (r_ell r <=? b_lmax b)%Z && (r_bpw r =? Z.of_nat k)%Z) g n 0).
  intros l Hl. apply andb_true_iff in Hl. destruct Hl as [_ Hl]. unfold g in *.
  destruct (Nat.lt_ge_cases l N) as [L|L].
  - destruct (T_nth l L) as [[p [Hp [E1 E2]]]|E]; [rewrite E2; exact E1 | rewrite E in Hl; cbn [row_of d r_bpw] in Hl; lia].
  - rewrite nth_overflow in Hl by (rewrite Tlen; exact L). cbn [row_of d r_bpw] in Hl. lia.
Qed.
Lemma fix_pos (f : F) : 0 < f -> fix_f f = f.
Proof. intro H. unfold fix_f. unfold flt, fltb in H. destruct (f <=? 0); [discriminate H | reflexivity]. Qed.
Local Lemma sel_in k e : In e (map ent (sel (b_lmax b) (Z.of_nat k) (map row_of T))) <-> exists x, nth_error (b_bands b) k = Some x /\ In e x.
Proof.
  rewrite in_map_iff. unfold sel. split.
  - intros [r [<- H]]. apply filter_In in H. destruct H as [Hr Hc]. assert (Hk : r_bpw r = Z.of_nat k) by lia.
    apply rows_in in Hr; [|lia]. destruct Hr as [[i e] [Hp ->]]. pose proof (wl_in _ Hp) as [_ [_ Hf]]. apply in_wlist in Hp.
    destruct Hp as [x [k' [Hx [He E]]]]. cbn in Hk, E. exists x. assert (k' = k) by lia. subst k'. split; [exact Hx|].
    unfold ent. cbn [row_of tup_of fst snd r_ell r_w r_f]. cbn [snd] in Hf. rewrite fix_pos by exact Hf. destruct e; exact He.
  - intros [x [Hx He]]. exists (row_of (tup_of (Z.of_nat k, e))).
    assert (Hp : In (Z.of_nat k, e) (wlist (b_bands b) 0)) by (apply in_wlist; exists x, k; auto).
    pose proof (wl_in _ Hp) as [Hl [_ Hf]]. split.
    + unfold ent. cbn [row_of tup_of fst snd r_ell r_w r_f]. cbn [snd] in Hf. rewrite fix_pos by exact Hf. destruct e; reflexivity.
    + apply filter_In. split; [apply rows_in; [cbn; lia|]; exists (Z.of_nat k, e); auto|]. cbn. cbn in Hl. unfold N in Hl. lia.
Qed.
Local Lemma sel_perm k x : nth_error (b_bands b) k = Some x -> Permutation (map ent (sel (b_lmax b) (Z.of_nat k) (map row_of T))) x.
Proof.
  intro Hx. apply NoDup_Permutation.
  - apply (sorted_nodup e_ell). apply sel_sorted.
  - pose proof O as ND. unfold once in ND. apply nth_error_split in Hx. destruct Hx as [l1 [l2 [E _]]]. rewrite E in ND.
    rewrite flat_map_app in ND. apply nodup_r in ND. cbn in ND. apply nodup_l in ND. apply NoDup_map_inv in ND. exact ND.
  - intro e. rewrite sel_in. split; [intros [y [Hy He]]; congruence | intro He; exists x; auto].
Qed.
Lemma norm_band_one (x : list entry) : wsum x = 1 -> norm_band x = x.
Proof.
  intro H. unfold norm_band. rewrite H. rewrite <- (map_id x) at 2. apply map_ext. intros [l w f]. cbn. f_equal. field. apply f1_neq_0.
Qed.
Local Lemma nband_T : nband_max (b_lmax b) (map row_of T) = Z.of_nat (length (b_bands b)).
Proof.
  destruct (nband_max_spec (b_lmax b) (map row_of T)) as [H1 [H2 H3]].
  pose proof (wf_pos b W) as P. unfold get_n_bands in P.
  assert (Hb : forall r, In r (map row_of T) -> (r_bpw r < Z.of_nat (length (b_bands b)))%Z).
  { intros r Hr. destruct (Z.ltb_spec (r_bpw r) 0); [lia|]. apply rows_in in Hr; [|lia]. destruct Hr as [p [Hp ->]]. pose proof (wl_in p Hp). cbn. lia. }
  assert (Hl : (Z.of_nat (length (b_bands b)) <= nband_max (b_lmax b) (map row_of T))%Z).
  { destruct (nth_error (b_bands b) (length (b_bands b) - 1)) as [x|] eqn:Hx; [|apply nth_error_None in Hx; lia].
    destruct x as [|e x].
    { apply nth_error_In in Hx. pose proof (wf_sum b W [] Hx) as S. unfold wsum, lsum in S. cbn in S. exfalso. apply (f1_neq_0 (F:=F)). symmetry. exact S. }
    assert (Hp : In (Z.of_nat (length (b_bands b) - 1), e) (wlist (b_bands b) 0)).
    { apply in_wlist. exists (e :: x), (length (b_bands b) - 1)%nat. split; [exact Hx|]. split; [left; reflexivity | reflexivity]. }
    pose proof (wl_in _ Hp) as [He _]. unfold rows_ok in H2.
    specialize (H2 (row_of (tup_of (Z.of_nat (length (b_bands b) - 1), e)))). cbn [row_of tup_of fst snd r_ell r_bpw] in H2.
    assert (I : In (row_of (tup_of (Z.of_nat (length (b_bands b) - 1), e))) (map row_of T)) by (apply rows_in; [cbn; lia | eexists; split; [exact Hp | reflexivity]]).
    specialize (H2 I). cbn [snd] in He. unfold N in He. lia. }
  destruct H3 as [H3|[r [Hr [_ E]]]]; [lia|]. specialize (Hb r Hr). lia.
Qed.
Definition sorted_bins : bins := Bins (b_lmax b) (tab (length (b_bands b)) (fun k => map ent (sel (b_lmax b) (Z.of_nat k) (map row_of T)))).
Lemma raw_T : raw_bands (b_lmax b) (map row_of T) = b_bands sorted_bins.
Proof. unfold raw_bands. rewrite nband_T, Nat2Z.id. reflexivity. Qed.
Lemma sorted_bins_sum x : In x (b_bands sorted_bins) -> wsum x = 1.
Proof.
  intro H. cbn in H. unfold tab in H. apply in_map_iff in H. destruct H as [k [<- Hk]]. apply in_seq in Hk.
  destruct (nth_error (b_bands b) k) as [y|] eqn:E; [|apply nth_error_None in E; lia].
  rewrite (wsum_perm _ _ (sel_perm k y E)). apply (wf_sum b W). apply nth_error_In in E. exact E.
Qed.
Lemma create_T : nmt_bins_create (map row_of T) (b_lmax b) = Ok sorted_bins.
Proof.
  apply create_ok. rewrite raw_T. split.
  - intros x Hx. rewrite (sorted_bins_sum x Hx). apply f0_lt_1.
  - unfold sorted_bins at 1. f_equal. change (tab _ _) with (b_bands sorted_bins).
    rewrite <- (map_id (b_bands sorted_bins)) at 1. apply map_ext_in. intros x Hx. symmetry. apply norm_band_one, sorted_bins_sum, Hx.
Qed.
Lemma sorted_bins_perm : Forall2 (@Permutation _) (b_bands sorted_bins) (b_bands b).
Proof.
  cbn. apply (forall2_tab _ []). intros k Hk. apply sel_perm. apply nth_error_nth'. exact Hk.
Qed.
Lemma sorted_bins_asc x : In x (b_bands sorted_bins) -> ascending x.
Proof. intro H. cbn in H. unfold tab in H. apply in_map_iff in H. destruct H as [k [<- Hk]]. apply sel_sorted. Qed.
Lemma sorted_bins_eq : (forall x, In x (b_bands b) -> ascending x) -> sorted_bins = b.
Proof.
  intro A. enough (E : b_bands sorted_bins = b_bands b) by (unfold sorted_bins in *; cbn in E; rewrite E; destruct b; reflexivity).
  pose proof sorted_bins_asc as B. pose proof sorted_bins_perm as P. clear - A B P. induction P as [|x y l l' H P IH]; [reflexivity|].
  f_equal; [|apply IH; intros z Hz; [apply A | apply B]; right; exact Hz].
  apply (sorted_perm_eq e_ell); [apply B; left; reflexivity | apply A; left; reflexivity | exact H].
Qed.
Definition bands_hdu : hdu F := Hdu true "BANDPOWERS" [("N_BANDS"%string, Z.of_nat (length (b_bands b))); ("ELL_MAX"%string, b_lmax b)]
        (b_lmax b + 1) [CI (map (fun '(i, l, w, f) => i) T); CI (map (fun '(i, l, w, f) => l) T);
                        CD (map (fun '(i, l, w, f) => w) T); CD (map (fun '(i, l, w, f) => f) T)] [].
Lemma bins_tohdus_eq : bins_tohdus b = Ok bands_hdu.
Proof. unfold bins_tohdus. rewrite (proj1 (bands_table_eq b R)). reflexivity. Qed.
Lemma bins_fromhdus_eq J f : find_hdu f true "BANDPOWERS" = Some bands_hdu -> (0 <= b_lmax b)%Z -> bins_fromhdus J f = Ok (sorted_bins, true).
Proof.
  intros Hf Hl. unfold bins_fromhdus, movnam. rewrite Hf. cbn [read_key find bands_hdu h_keys String.eqb Ascii.eqb fst snd Bool.eqb num_rows h_nrows].
  destruct (Z.ltb_spec (b_lmax b + 1) 0); [lia|]. pose proof Tlen as TL.
  assert (K : forall A (g : tup -> A), (b_lmax b + 1 <=? Z.of_nat (length (map g T)))%Z = true /\ firstn (Z.to_nat (b_lmax b + 1)) (map g T) = map g T).
  { intros A g. rewrite map_length, TL. split; [unfold N; lia|]. apply firstn_all2. rewrite map_length, TL. unfold N. lia. }
  unfold read_coli, read_cold. cbn [bands_hdu h_cols nth_error].
  do 4 (cbn [bands_hdu h_cols nth_error]; rewrite (fun A (g : tup -> A) => proj1 (K A g)), (fun A (g : tup -> A) => proj2 (K A g))).
  rewrite zip_table. cbn [bind]. rewrite create_T. cbn [bind sorted_bins b_bands]. rewrite length_tab, Z.eqb_refl. reflexivity.
Qed.
End RoundTrip.
End LFITS.
