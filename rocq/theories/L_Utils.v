(** Lemmas on the layouts of M_Utils.v. *)
From Verif Require Import Base M_Utils.
Open Scope Z_scope.

(** ** Lists *)
Lemma length_zipw {A B C} (f : A -> B -> C) x y : length (zipw f x y) = Nat.min (length x) (length y).
Proof. unfold zipw. rewrite map_length. apply combine_length. Qed.
Lemma zipw_cons {A B C} (f : A -> B -> C) a x b y : zipw f (a :: x) (b :: y) = f a b :: zipw f x y.
Proof. reflexivity. Qed.
Lemma nth_zipw {A B C} (f : A -> B -> C) x y i da db dc : (i < length x)%nat -> (i < length y)%nat -> nth i (zipw f x y) dc = f (nth i x da) (nth i y db).
Proof.
  revert y i. induction x as [|a x IH]; intros [|b y] i; cbn [length]; try lia. intros H1 H2. rewrite zipw_cons. destruct i as [|i]; [reflexivity|]. cbn [nth]. apply IH; lia.
Qed.
Definition shaped {A} (n k : nat) (x : list (list A)) : Prop := length x = n /\ Forall (fun r => length r = k) x.
Lemma shaped_nth {A} n k (x : list (list A)) i d : shaped n k x -> (i < n)%nat -> length (nth i x d) = k.
Proof. intros [H1 H2] H. rewrite Forall_forall in H2. apply H2, nth_In. lia. Qed.
Lemma length_concat {A} n k (x : list (list A)) : shaped n k x -> length (concat x) = (n * k)%nat.
Proof.
  revert n. induction x as [|r x IH]; intros n [H1 H2]; cbn in H1; subst n; [reflexivity|]. inversion H2; subst. cbn. rewrite app_length, (IH (length x)) by (split; auto). lia.
Qed.
Lemma nth_concat {A} n k (x : list (list A)) i j d : shaped n k x -> (i < n)%nat -> (j < k)%nat -> nth (i * k + j) (concat x) d = nth j (nth i x []) d.
Proof.
  revert n i. induction x as [|r x IH]; intros n i [H1 H2] Hi Hj; cbn in H1; [lia|]. inversion H2 as [|? ? E H3]; subst. cbn [concat].
  destruct i as [|i]; [cbn; apply app_nth1; lia|]. rewrite app_nth2 by (cbn; lia). cbn [nth].
  rewrite <- (IH (length x) i) by (try split; auto; lia). f_equal. cbn. lia.
Qed.
Lemma skipn_skipn' {A} a b (v : list A) : skipn a (skipn b v) = skipn (b + a) v.
Proof. revert v. induction b as [|b IH]; intro v; [reflexivity|]. destruct v; cbn; [destruct a; reflexivity | apply IH]. Qed.
Lemma chunks_eq {A} n k (v : list A) : chunks n k v = tab n (fun i => firstn k (skipn (i * k) v)).
Proof.
  revert v. induction n as [|n IH]; intro v; [reflexivity|]. rewrite tab_cons. cbn [chunks]. f_equal. rewrite IH. apply tab_ext. intros i Hi. rewrite skipn_skipn'. f_equal.
Qed.
Lemma chunks_shaped {A} n k (v : list A) : length v = (n * k)%nat -> shaped n k (chunks n k v).
Proof.
  revert v. induction n as [|n IH]; intros v H; [split; [reflexivity | constructor]|]. cbn [chunks]. destruct (IH (skipn k v)) as [I1 I2]; [rewrite skipn_length; lia|].
  split; [cbn; lia|]. constructor; [rewrite firstn_length; lia | exact I2].
Qed.
Lemma concat_chunks {A} n k (v : list A) : length v = (n * k)%nat -> concat (chunks n k v) = v.
Proof.
  revert v. induction n as [|n IH]; intros v H; [destruct v; [reflexivity | discriminate H]|]. cbn [chunks concat]. rewrite IH by (rewrite skipn_length; lia). apply firstn_skipn.
Qed.
Lemma chunks_concat {A} n k (x : list (list A)) : shaped n k x -> chunks n k (concat x) = x.
Proof.
  revert n. induction x as [|r x IH]; intros n [H1 H2]; cbn in H1; subst n; [reflexivity|]. inversion H2 as [|? ? E H3]; subst. cbn [length chunks concat].
  rewrite firstn_app, Nat.sub_diag, firstn_all, firstn_O, app_nil_r. f_equal. rewrite skipn_app, Nat.sub_diag, skipn_all. cbn. apply IH. split; auto.
Qed.
Lemma nth_chunks {A} n k (v : list A) i j d : length v = (n * k)%nat -> (i < n)%nat -> (j < k)%nat -> nth j (nth i (chunks n k v) []) d = nth (i * k + j) v d.
Proof. intros H Hi Hj. rewrite <- (nth_concat n k) by (try apply chunks_shaped; assumption). rewrite concat_chunks by exact H. reflexivity. Qed.
Lemma shaped_map {A B} (f : list A -> list B) n k k' x : (forall r, length r = k -> length (f r) = k') -> shaped n k x -> shaped n k' (map f x).
Proof. intros Hf [H1 H2]. split; [rewrite map_length; exact H1|]. rewrite Forall_forall in *. intros r Hr. apply in_map_iff in Hr. destruct Hr as [y [<- Hy]]. auto. Qed.

(** ** Harmonic coefficients *)
Lemma mstart_eq L m : 0 <= m -> 2 * mstart L m = m * (2 * L + 1 - m).
Proof.
  intro Hm. unfold mstart. assert (E : (m * (2 * L + 1 - m)) mod 2 = 0).
  { rewrite <- Zmult_mod_idemp_l, <- Zmult_mod_idemp_r. pose proof (Z.mod_pos_bound m 2 ltac:(lia)) as B.
    destruct (Z.eq_dec (m mod 2) 0) as [E|E]; [rewrite E; reflexivity|]. assert (E1 : m mod 2 = 1) by lia.
    replace ((2 * L + 1 - m) mod 2) with 0; [rewrite Z.mul_0_r; reflexivity|]. pose proof (Z.div_mod m 2 ltac:(lia)) as D. symmetry.
    replace (2 * L + 1 - m) with ((L - m / 2) * 2) by lia. apply Z.mod_mul. lia. }
  apply Z.div_exact in E; lia.
Qed.
Lemma mstart_step L m : 0 <= m -> mstart L (m + 1) + (m + 1) = mstart L m + L + 1.
Proof. intro H. pose proof (mstart_eq L m H). pose proof (mstart_eq L (m + 1) ltac:(lia)). nia. Qed.
Lemma mstart_mono L a b : 0 <= a <= b -> b <= L -> mstart L a <= mstart L b.
Proof. intros H1 H2. pose proof (mstart_eq L a ltac:(lia)). pose proof (mstart_eq L b ltac:(lia)). nia. Qed.
Lemma fold_max l : forall a, (forall x, In x l -> x <= fold_left Z.max l a) /\ a <= fold_left Z.max l a /\ (fold_left Z.max l a = a \/ In (fold_left Z.max l a) l).
Proof.
  induction l as [|b l IH]; intro a; [split; [intros x []|split; [apply Z.le_refl | left; reflexivity]]|]. cbn [fold_left]. destruct (IH (Z.max a b)) as [H1 [H2 H3]]. split; [|split].
  - intros x [<-|Hx]; [lia | auto].
  - lia.
  - destruct H3 as [H3|H3]; [|right; right; exact H3]. rewrite H3. destruct (Z.max_spec a b) as [[_ ->]|[_ ->]]; [right; left; reflexivity | left; reflexivity].
Qed.
Lemma nelem_eq L : 0 <= L -> nelem L = Ok (mstart L L + L + 1).
Proof.
  intro H. unfold nelem, np_max, mstarts. replace (Z.to_nat (L + 1)) with (S (Z.to_nat L)) by lia. cbn [seq map].
  set (l := map (fun m => mstart L (Z.of_nat m)) (seq 1 (Z.to_nat L))). destruct (fold_max l (mstart L (Z.of_nat 0))) as [H1 [H2 H3]]. cbn [bind]. f_equal.
  enough (fold_left Z.max l (mstart L (Z.of_nat 0)) = mstart L L) by lia. apply Z.le_antisymm.
  - destruct H3 as [->|H3]; [apply mstart_mono; lia|]. apply in_map_iff in H3. destruct H3 as [m [<- Hm]]. apply in_seq in Hm. apply mstart_mono; lia.
  - destruct (Z.eq_dec L 0) as [->|N]; [exact H2|]. apply H1. apply in_map_iff. exists (Z.to_nat L). split; [f_equal; lia | apply in_seq; lia].
Qed.
Lemma alm_index_eq L l m : 0 <= m <= L -> alm_index L l m = Ok (mstart L m + l).
Proof.
  intro H. unfold alm_index, mstarts. rewrite (rd_nth _ _ 0) by (rewrite map_length, seq_length; lia). cbn [bind]. f_equal. f_equal.
  replace m with (Z.of_nat (Z.to_nat m)) at 2 by lia. apply (nth_tab _ (fun m => mstart L (Z.of_nat m))). lia.
Qed.

(** ** Rings *)
Lemma limits_step N r : 1 <= N -> 1 <= r < 4 * N - 1 -> fst (get_ring_limits N (r + 1)) = snd (get_ring_limits N r) + 1.
Proof.
  intros HN Hr. unfold get_ring_limits.
  repeat match goal with |- context [Z.leb ?a ?b] => destruct (Z.leb_spec a b) | |- context [Z.ltb ?a ?b] => destruct (Z.ltb_spec a b) end; cbn [andb fst snd]; try lia; try nia.
Qed.
Lemma limits_count N r : 1 <= N -> 1 <= r <= 4 * N - 1 -> snd (get_ring_limits N r) - fst (get_ring_limits N r) + 1 = nphi N r /\ 0 < nphi N r.
Proof.
  intros HN Hr. unfold get_ring_limits, nphi, north. destruct (Z.ltb_spec (2 * N) r).
  all: repeat match goal with |- context [Z.leb ?a ?b] => destruct (Z.leb_spec a b) | |- context [Z.ltb ?a ?b] => destruct (Z.ltb_spec a b) end; cbn [andb fst snd]; split; try lia; nia.
Qed.
Lemma limits_first N : 1 <= N -> fst (get_ring_limits N 1) = 0.
Proof.
  intro HN. unfold get_ring_limits. repeat match goal with |- context [Z.leb ?a ?b] => destruct (Z.leb_spec a b) | |- context [Z.ltb ?a ?b] => destruct (Z.ltb_spec a b) end; cbn [andb fst snd]; try lia; try nia.
Qed.
Lemma limits_last N : 1 <= N -> snd (get_ring_limits N (4 * N - 1)) = 12 * N * N - 1.
Proof.
  intro HN. unfold get_ring_limits. repeat match goal with |- context [Z.leb ?a ?b] => destruct (Z.leb_spec a b) | |- context [Z.ltb ?a ?b] => destruct (Z.ltb_spec a b) end; cbn [andb fst snd]; try lia; try nia.
Qed.
Lemma zseq_app a n m : map (fun k => a + Z.of_nat k) (seq 0 (n + m)) = map (fun k => a + Z.of_nat k) (seq 0 n) ++ map (fun k => a + Z.of_nat n + Z.of_nat k) (seq 0 m).
Proof.
  revert a. induction n as [|n IH]; intro a; cbn [Nat.add seq map app].
  - apply map_ext. intro k. lia.
  - f_equal. rewrite <- !seq_shift, !map_map. rewrite (map_ext (fun k => a + Z.of_nat (S k)) (fun k => (a + 1) + Z.of_nat k)) by (intro; lia). rewrite IH.
    rewrite (map_ext (fun k => a + Z.of_nat (S k)) (fun k => (a + 1) + Z.of_nat k)) by (intro; lia). f_equal. apply map_ext. intro. lia.
Qed.
Definition zrange (a : Z) (n : nat) : list Z := map (fun k => a + Z.of_nat k) (seq 0 n).
Lemma rings_pixels N n : forall a, 1 <= N -> 1 <= a -> a + Z.of_nat n <= 4 * N ->
  flat_map (fun iz => let '(lo, hi) := get_ring_limits N iz in map (fun k => lo + Z.of_nat k) (seq 0 (Z.to_nat (hi - lo + 1)))) (zrange a n)
  = zrange (fst (get_ring_limits N a)) (Z.to_nat (match n with O => 0 | S _ => snd (get_ring_limits N (a + Z.of_nat n - 1)) - fst (get_ring_limits N a) + 1 end)).
Proof.
  induction n as [|n IH]; intros a HN Ha Hn; [reflexivity|].
  unfold zrange at 1. cbn [seq map flat_map]. rewrite <- seq_shift, map_map.
  rewrite (map_ext (fun k => a + Z.of_nat (S k)) (fun k => (a + 1) + Z.of_nat k)) by (intro; lia). fold (zrange (a + 1) n).
  replace (a + Z.of_nat 0) with a by lia. destruct (get_ring_limits N a) as [lo hi] eqn:E.
  destruct (limits_count N a HN ltac:(lia)) as [C1 C2]. rewrite E in C1. cbn [fst snd] in *.
  destruct n as [|n].
  - cbn [zrange seq map flat_map]. rewrite app_nil_r. replace (a + Z.of_nat 1 - 1) with a by lia. rewrite E. reflexivity.
  - rewrite IH by lia. pose proof (limits_step N a HN ltac:(lia)) as St. rewrite E in St. cbn [snd] in St. rewrite St.
    replace (a + 1 + Z.of_nat (S n) - 1) with (a + Z.of_nat (S (S n)) - 1) by lia.
    assert (M : forall n b, 1 <= b -> b + Z.of_nat n <= 4 * N - 1 -> snd (get_ring_limits N b) <= snd (get_ring_limits N (b + Z.of_nat n))).
    { clear - HN. induction n as [|n IH]; intros b H1 H2; [rewrite Z.add_0_r; lia|]. replace (b + Z.of_nat (S n)) with (b + Z.of_nat n + 1) by lia.
      pose proof (limits_step N (b + Z.of_nat n) HN ltac:(lia)). destruct (limits_count N (b + Z.of_nat n + 1) HN ltac:(lia)). specialize (IH b H1 ltac:(lia)). lia. }
    pose proof (M (S n) a ltac:(lia) ltac:(lia)) as Mo. replace (a + Z.of_nat (S (S n)) - 1) with (a + Z.of_nat (S n)) by lia.
    rewrite E in Mo. cbn [snd] in Mo. set (h := snd (get_ring_limits N (a + Z.of_nat (S n)))) in *.
    unfold zrange. replace (Z.to_nat (h - lo + 1)) with (Z.to_nat (hi - lo + 1) + Z.to_nat (h - (hi + 1) + 1))%nat by lia.
    rewrite zseq_app. f_equal. apply map_ext. intro k. lia.
Qed.
Lemma offsets_nth l : forall s k, (k < length l)%nat -> nth k (offsets_from s l) 0 = s + fold_right Z.add 0 (firstn k l).
Proof.
  induction l as [|n l IH]; intros s k Hk; cbn in Hk; [lia|]. destruct k as [|k]; cbn [offsets_from nth firstn fold_right]; [lia|]. rewrite IH by lia. lia.
Qed.
Lemma nth_rings N k d : (k < Z.to_nat (4 * N - 1))%nat -> nth k (rings N) d = Z.of_nat k + 1.
Proof. intro H. apply (nth_tab _ (fun k => Z.of_nat k + 1)). exact H. Qed.
Lemma length_rings N : length (rings N) = Z.to_nat (4 * N - 1).
Proof. unfold rings. rewrite map_length. apply seq_length. Qed.
Lemma nth_nphis N k d : (k < Z.to_nat (4 * N - 1))%nat -> nth k (nphis N) d = nphi N (Z.of_nat k + 1).
Proof. intro H. unfold nphis, rings. rewrite map_map. apply (nth_tab _ (fun k => nphi N (Z.of_nat k + 1))). exact H. Qed.
Lemma sum_nphis N k : 1 <= N -> (k < Z.to_nat (4 * N - 1))%nat -> fold_right Z.add 0 (firstn k (nphis N)) = fst (get_ring_limits N (Z.of_nat k + 1)).
Proof.
  intros HN. induction k as [|k IH]; intro Hk; [symmetry; apply (limits_first N HN)|].
  assert (Fs : forall (l : list Z) k, (k < length l)%nat -> fold_right Z.add 0 (firstn (S k) l) = fold_right Z.add 0 (firstn k l) + nth k l 0).
  { induction l as [|a l I]; intros j Hj; [cbn in Hj; lia|]. destruct j as [|j]; [cbn; lia|]. cbn [firstn fold_right nth]. cbn in Hj. specialize (I j ltac:(lia)). cbn [firstn] in I. rewrite I. lia. }
  rewrite Fs by (unfold nphis; rewrite map_length, length_rings; lia). rewrite IH by lia. rewrite nth_nphis by lia.
  destruct (limits_count N (Z.of_nat k + 1) HN ltac:(lia)) as [C _]. replace (Z.of_nat (S k) + 1) with (Z.of_nat k + 1 + 1) by lia. rewrite (limits_step N (Z.of_nat k + 1)) by lia. lia.
Qed.
