(** Properties C46-C51: layouts, rings, padding, axis order, iterated transforms, default parameters. *)
From Coq Require Import QArith Qcanon Znumtheory.
From Verif Require Import Base M_Utils L_Utils.
Open Scope Z_scope.

(** ** C46 *)
Definition is_lm (L l m : Z) : Prop := 0 <= m <= l /\ l <= L.
Theorem C46_layout L : 0 <= L ->
  exists n, nelem L = Ok n /\ 2 * n = (L + 1) * (L + 2) /\
  (forall l m, is_lm L l m -> exists i, alm_index L l m = Ok i /\ 0 <= i < n) /\
  (forall i, 0 <= i < n -> exists l m, is_lm L l m /\ alm_index L l m = Ok i) /\
  (forall l m l' m' i i', is_lm L l m -> is_lm L l' m' -> alm_index L l m = Ok i -> alm_index L l' m' = Ok i' ->
     (i < i' <-> m < m' \/ (m = m' /\ l < l')) /\ (i = i' -> l = l' /\ m = m')).
Proof.
  intro HL. exists (mstart L L + L + 1). split; [apply nelem_eq, HL|]. pose proof (mstart_eq L L HL) as EL. split; [nia|].
  assert (Lt : forall l m l' m', is_lm L l m -> is_lm L l' m' -> m < m' -> mstart L m + l < mstart L m' + l').
  { intros l m l' m' [H1 H2] [H3 H4] H. pose proof (mstart_step L m ltac:(lia)). pose proof (mstart_mono L (m + 1) m' ltac:(lia) ltac:(lia)).
    pose proof (mstart_eq L (m + 1) ltac:(lia)). pose proof (mstart_eq L m' ltac:(lia)). nia. }
  split; [|split].
  - intros l m [H1 H2]. exists (mstart L m + l). split; [apply alm_index_eq; lia|]. pose proof (mstart_eq L m ltac:(lia)). pose proof (mstart_mono L m L ltac:(lia) ltac:(lia)). nia.
  - intros i Hi. assert (K : forall k : nat, Z.of_nat k <= L -> i < mstart L (Z.of_nat k) + L + 1 -> exists l m, is_lm L l m /\ alm_index L l m = Ok i).
    { induction k as [|k IH]; intros Hk Hu.
      - exists i, 0. assert (M0 : mstart L 0 = 0) by reflexivity. change (Z.of_nat 0) with 0 in Hu. split; [split; lia|]. rewrite alm_index_eq by lia. rewrite M0. reflexivity.
      - destruct (Z_lt_le_dec i (mstart L (Z.of_nat k) + L + 1)) as [H|H]; [apply IH; lia|]. pose proof (mstart_step L (Z.of_nat k) ltac:(lia)) as St.
        exists (i - mstart L (Z.of_nat (S k))), (Z.of_nat (S k)). replace (Z.of_nat (S k)) with (Z.of_nat k + 1) in * by lia.
        split; [split; lia|]. rewrite alm_index_eq by lia. f_equal. lia. }
    apply (K (Z.to_nat L)); rewrite ?Z2Nat.id; lia.
  - intros l m l' m' i i' H H' E E'. rewrite alm_index_eq in E by (destruct H; lia). rewrite alm_index_eq in E' by (destruct H'; lia). injection E as <-. injection E' as <-.
    destruct (Z.lt_trichotomy m m') as [C|[C|C]].
    + pose proof (Lt _ _ _ _ H H' C). split; [split; intro; [auto | lia] | intro; exfalso; lia].
    + subst m'. split; [split; intro; [right; lia | lia] | intro; lia].
    + pose proof (Lt _ _ _ _ H' H C). split; [split; intro; lia | intro; exfalso; lia].
Qed.
Theorem C46_negative L : L < 0 -> nelem L = Exn ValueError.
Proof. intro H. unfold nelem, mstarts. replace (Z.to_nat (L + 1)) with 0%nat by lia. reflexivity. Qed.
Example ex_alm : nelem 3 = Ok 10 /\ map (fun '(l, m) => alm_index 3 l m) [(0, 0); (3, 0); (1, 1); (3, 1); (2, 2); (3, 3)] = map (@Ok Z) [0; 3; 4; 6; 7; 9].
Proof. split; reflexivity. Qed.

(** ** C47 *)
Notation first_pix N r := (fst (get_ring_limits N r)).
Notation last_pix N r := (snd (get_ring_limits N r)).
(** the ring starts and counts handed to the transforms by the Python code are the ones the C code uses *)
Theorem C47_python_and_c_agree N k : 1 <= N -> (k < Z.to_nat (4 * N - 1))%nat ->
  nth k (offsets N) 0 = first_pix N (Z.of_nat k + 1) /\ nth k (nphis N) 0 = last_pix N (Z.of_nat k + 1) - first_pix N (Z.of_nat k + 1) + 1.
Proof.
  intros HN Hk. split.
  - unfold offsets. rewrite offsets_nth by (unfold nphis; rewrite map_length, length_rings; exact Hk). rewrite sum_nphis by assumption. lia.
  - rewrite nth_nphis by exact Hk. destruct (limits_count N (Z.of_nat k + 1) HN ltac:(lia)) as [<- _]. reflexivity.
Qed.
(** going through all rings visits every pixel once, in order *)
Theorem C47_partition N : 1 <= N -> strip_pixels N 1 (4 * N - 1) = map Z.of_nat (seq 0 (Z.to_nat (12 * N * N))).
Proof.
  intro HN. unfold strip_pixels. replace (4 * N - 1 - 1 + 1) with (4 * N - 1) by lia.
  fold (zrange 1 (Z.to_nat (4 * N - 1))). rewrite (rings_pixels N (Z.to_nat (4 * N - 1)) 1 HN ltac:(lia) ltac:(lia)). rewrite limits_first by exact HN. unfold zrange.
  destruct (Z.to_nat (4 * N - 1)) as [|n] eqn:E; [lia|]. replace (1 + Z.of_nat (S n) - 1) with (4 * N - 1) by lia. rewrite limits_last by exact HN.
  replace (12 * N * N - 1 - 0 + 1) with (12 * N * N) by lia. apply map_ext. intro. lia.
Qed.
Lemma first_mono N a n : 1 <= N -> 1 <= a -> a + Z.of_nat n <= 4 * N - 1 -> n <> 0%nat -> last_pix N a < first_pix N (a + Z.of_nat n).
Proof.
  intros HN Ha. induction n as [|n IH]; intros Hn Z0; [contradiction|]. replace (a + Z.of_nat (S n)) with (a + Z.of_nat n + 1) by lia. rewrite limits_step by lia.
  destruct n as [|n]; [rewrite Z.add_0_r; lia|]. specialize (IH ltac:(lia) ltac:(discriminate)). destruct (limits_count N (a + Z.of_nat (S n)) HN ltac:(lia)). lia.
Qed.
(** every pixel lies in exactly one ring *)
Theorem C47_unique_ring N p : 1 <= N -> 0 <= p < 12 * N * N ->
  exists r, 1 <= r <= 4 * N - 1 /\ first_pix N r <= p <= last_pix N r /\
  forall r', 1 <= r' <= 4 * N - 1 -> first_pix N r' <= p <= last_pix N r' -> r' = r.
Proof.
  intros HN Hp. assert (K : forall n : nat, (Z.of_nat n) + 1 <= 4 * N - 1 -> p <= last_pix N (Z.of_nat n + 1) -> exists r, 1 <= r <= 4 * N - 1 /\ first_pix N r <= p <= last_pix N r).
  { induction n as [|n IH]; intros Hn Hu.
    - exists 1. change (Z.of_nat 0 + 1) with 1 in Hu. rewrite limits_first by exact HN. lia.
    - destruct (Z_le_gt_dec p (last_pix N (Z.of_nat n + 1))) as [H|H]; [apply IH; lia|]. exists (Z.of_nat (S n) + 1). split; [lia|]. split; [|exact Hu].
      replace (Z.of_nat (S n) + 1) with (Z.of_nat n + 1 + 1) by lia. rewrite (limits_step N (Z.of_nat n + 1)) by lia. lia. }
  destruct (K (Z.to_nat (4 * N - 2))) as [r [Hr Hr']]; [lia| |].
  { replace (Z.of_nat (Z.to_nat (4 * N - 2)) + 1) with (4 * N - 1) by lia. rewrite limits_last by exact HN. lia. }
  exists r. split; [exact Hr|]. split; [exact Hr'|]. intros r' H1 H2. destruct (Z.lt_trichotomy r r') as [C|[C|C]]; [|auto|].
  - pose proof (first_mono N r (Z.to_nat (r' - r)) HN ltac:(lia) ltac:(lia) ltac:(lia)) as M. replace (r + Z.of_nat (Z.to_nat (r' - r))) with r' in M by lia. lia.
  - pose proof (first_mono N r' (Z.to_nat (r - r')) HN ltac:(lia) ltac:(lia) ltac:(lia)) as M. replace (r' + Z.of_nat (Z.to_nat (r - r'))) with r in M by lia. lia.
Qed.
(** reflection about the equator reverses the pixel order *)
Theorem C47_mirror N r : 1 <= N -> 1 <= r <= 4 * N - 1 ->
  nphi N (4 * N - r) = nphi N r /\ first_pix N (4 * N - r) = 12 * N * N - 1 - last_pix N r.
Proof.
  intros HN Hr. split.
  - unfold nphi, north. repeat match goal with |- context [Z.ltb ?a ?b] => lazymatch a with context [if _ then _ else _] => fail | _ => destruct (Z.ltb_spec a b) end end; try lia.
  - unfold get_ring_limits. repeat match goal with |- context [Z.leb ?a ?b] => destruct (Z.leb_spec a b) | |- context [Z.ltb ?a ?b] => destruct (Z.ltb_spec a b) end; cbn [andb fst snd]; try lia; try nia.
Qed.
Section RingNum.
Context {F : ofield}.
Local Open Scope F_scope.
Add Field FfPU : (fth F).
Variable fsqrt : F -> F.
Variable ftrunc : F -> Z.
(** the only laws of sqrt and of the conversion to int that are used *)
Definition sqrt_law : Prop := forall x, 0 <= x -> fsqrt (x * x) = x.
Definition trunc_law : Prop := forall x, 0 <= x -> fofZ (ftrunc x) <= x /\ x < fofZ (ftrunc x + 1).
Lemma trunc_eq : trunc_law -> forall x n, (0 <= n)%Z -> fofZ n <= x -> x < fofZ (n + 1) -> ftrunc x = n.
Proof.
  intros T x n Hn H1 H2. destruct (T x) as [T1 T2]. { eapply fle_trans; [|exact H1]. change (0 : F) with (fofZ (F:=F) 0). apply fofZ_le. exact Hn. }
  destruct (Z.lt_trichotomy (ftrunc x) n) as [C|[C|C]]; [|exact C|].
  - exfalso. apply (flt_irrefl x). eapply flt_le_trans; [exact T2|]. eapply fle_trans; [|exact H1]. apply fofZ_le. lia.
  - exfalso. apply (flt_irrefl x). eapply flt_le_trans; [exact H2|]. eapply fle_trans; [|exact T1]. apply fofZ_le. lia.
Qed.
Lemma half_pos : (0 : F) < 1 / fofZ 2 /\ 1 / fofZ 2 < (1 : F).
Proof.
  assert (P : (0 : F) < / fofZ 2) by (apply finv_pos, fofZ_pos; lia). rewrite (Fdiv_def (fth F)). replace (1 * / fofZ 2) with (/ fofZ 2 : F) by ring. split; [exact P|].
  apply flt_sub_0. replace (1 - / fofZ 2 : F) with (/ fofZ 2 : F); [exact P|].
  assert (W : (fofZ 2 : F) <> 0) by (apply fofZ_neq0; lia). assert (E : (fofZ 2 : F) = 1 + 1) by reflexivity. revert W E. generalize (fofZ 2 : F). intros t W E.
  assert (A : (1 : F) = / t + / t). { transitivity (t * / t); [field; exact W|]. rewrite E at 1. ring. } rewrite A at 1. ring.
Qed.
Lemma trunc_half : trunc_law -> forall n, (0 <= n)%Z -> ftrunc (fofZ n + 1 / fofZ 2) = n.
Proof.
  intros T n Hn. destruct half_pos as [H1 H2]. apply trunc_eq; try assumption.
  - replace (fofZ n : F) with (fofZ n + 0 : F) at 1 by ring. apply fle_add_l, flt_le, H1.
  - rewrite fofZ_add, fofZ_1. apply flt_sub_0. replace (fofZ n + 1 - (fofZ n + 1 / fofZ 2)) with (1 - 1 / fofZ 2 : F) by ring. apply (proj1 (flt_sub_0 _ _)). exact H2.
Qed.
Lemma frac_sub (k d t y x : F) : d <> 0 -> t <> 0 -> x <> 0 -> k / (t * d) - y / x = (k * x - y * (t * d)) / (x * (t * d)).
Proof. intros. field. auto. Qed.
Lemma frac_opp (k d : F) : d <> 0 -> - (k / d) = (- k) / d.
Proof. intros. field. auto. Qed.
(** the ring of a ring centre is that ring *)
Theorem C47_ring_of_centre N r : sqrt_law -> trunc_law -> (1 <= N <= 100000000)%Z -> (1 <= r <= 4 * N - 1)%Z -> ring_num fsqrt ftrunc N (ring_z N r) = r.
Proof.
  intros SQ T HN Hr. unfold ring_num. cbv zeta.
  assert (N0 : (fofZ N : F) <> 0) by (apply fofZ_neq0; lia). assert (T0 : (fofZ 3 : F) <> 0) by (apply fofZ_neq0; lia). assert (W0 : (fofZ 2 : F) <> 0) by (apply fofZ_neq0; lia).
  assert (Np : (0 : F) < fofZ N) by (apply fofZ_pos; lia). assert (Tp : (0 : F) < fofZ 3) by (apply fofZ_pos; lia).
  assert (X0 : (fofZ 100000000 : F) <> 0) by (apply fofZ_neq0; lia). assert (Xp : (0 : F) < fofZ 100000000) by (apply fofZ_pos; lia).
  assert (T32 : (fofZ 3 - fofZ 2 : F) = 1) by (rewrite <- fofZ_sub; exact fofZ_1).
  (** comparison of a fraction k/(3 d) with 0.66666666 *)
  assert (CMP : forall k d : Z, (0 < d)%Z -> ((two3 : F) <? fofZ k / (fofZ 3 * fofZ d)) = (66666666 * (3 * d) <? k * 100000000)%Z).
  { intros k d Hd. assert (Dp : (0 : F) < fofZ d) by (apply fofZ_pos; exact Hd). assert (D0 : (fofZ d : F) <> 0) by (apply fpos_neq; exact Dp).
    assert (Pp : (0 : F) < fofZ 100000000 * (fofZ 3 * fofZ d)) by (apply fmul_pos; [exact Xp | apply fmul_pos; [exact Tp | exact Dp]]).
    assert (E : (fofZ k / (fofZ 3 * fofZ d) - two3 : F) = (fofZ (k * 100000000 - 66666666 * (3 * d))) / (fofZ 100000000 * (fofZ 3 * fofZ d))).
    { unfold two3. rewrite frac_sub by assumption. rewrite fofZ_sub, (fofZ_mul k), (fofZ_mul 66666666), (fofZ_mul 3). reflexivity. }
    destruct (Z.ltb_spec (66666666 * (3 * d)) (k * 100000000)) as [C|C].
    - apply (proj2 (flt_sub_0 _ _)). rewrite E, (Fdiv_def (fth F)). apply fmul_pos; [apply fofZ_pos; lia | apply finv_pos; exact Pp].
    - unfold fltb. apply negb_false_iff. apply (proj2 (fle_sub_0 _ _)). replace (two3 - fofZ k / (fofZ 3 * fofZ d) : F) with (- (fofZ k / (fofZ 3 * fofZ d) - two3) : F) by ring. rewrite E.
      replace (- (fofZ (k * 100000000 - 66666666 * (3 * d)) / (fofZ 100000000 * (fofZ 3 * fofZ d))) : F) with (fofZ (- (k * 100000000 - 66666666 * (3 * d))) / (fofZ 100000000 * (fofZ 3 * fofZ d)) : F) by (rewrite fofZ_opp; symmetry; apply frac_opp, fpos_neq, Pp).
      apply fdiv_nonneg; [|exact Pp]. change (0 : F) with (fofZ (F:=F) 0). apply fofZ_le. lia. }
  assert (CMN : forall k d : Z, (0 < d)%Z -> (fofZ k / (fofZ 3 * fofZ d) <? - (two3 : F)) = (66666666 * (3 * d) <? - k * 100000000)%Z).
  { intros k d Hd. rewrite <- (CMP (- k)%Z d Hd). assert (D0 : (fofZ d : F) <> 0) by (apply fofZ_neq0; lia).
    assert (E : (fofZ (- k) / (fofZ 3 * fofZ d) : F) = - (fofZ k / (fofZ 3 * fofZ d))) by (rewrite fofZ_opp; field; auto). rewrite E.
    unfold fltb. f_equal. apply eq_true_iff_eq. split; intro H; apply (proj2 (fle_sub_0 _ _)); apply (proj1 (fle_sub_0 _ _)) in H.
    - replace (two3 - - (fofZ k / (fofZ 3 * fofZ d)) : F) with (fofZ k / (fofZ 3 * fofZ d) - - two3 : F) by ring. exact H.
    - replace (fofZ k / (fofZ 3 * fofZ d) - - two3 : F) with (two3 - - (fofZ k / (fofZ 3 * fofZ d)) : F) by ring. exact H. }
  assert (RT : forall x, (0 <= x)%Z -> ftrunc (fofZ N * fsqrt (fofZ 3 * (fofZ (x * x) / (fofZ 3 * fofZ (N * N)))) + 1 / fofZ 2) = x).
  { intros x Hx. replace (fofZ 3 * (fofZ (x * x) / (fofZ 3 * fofZ (N * N))) : F) with ((fofZ x / fofZ N) * (fofZ x / fofZ N) : F) by (rewrite !fofZ_mul; field; auto).
    rewrite SQ. 2:{ apply fdiv_nonneg; [|exact Np]. change (0 : F) with (fofZ (F:=F) 0). apply fofZ_le. lia. }
    replace (fofZ N * (fofZ x / fofZ N)) with (fofZ x : F) by (field; auto). apply trunc_half; assumption. }
  unfold ring_z. destruct (Z.leb_spec r (N - 1)) as [C1|C1]; [|destruct (Z.leb_spec r (3 * N)) as [C2|C2]].
  - assert (Ez : (1 - fofZ (r * r) * (1 / (fofZ 3 * fofZ (N * N))) : F) = fofZ (3 * (N * N) - r * r) / (fofZ 3 * fofZ (N * N))).
    { rewrite fofZ_sub, !fofZ_mul. field. auto. }
    rewrite Ez. rewrite CMP, CMN by nia.
    destruct (Z.ltb_spec (66666666 * (3 * (N * N))) ((3 * (N * N) - r * r) * 100000000)) as [D|D]; [|nia].
    destruct (Z.ltb_spec (66666666 * (3 * (N * N))) (- (3 * (N * N) - r * r) * 100000000)) as [D'|D']; [nia|].
    replace (1 - fofZ (3 * (N * N) - r * r) / (fofZ 3 * fofZ (N * N)) : F) with (fofZ (r * r) / (fofZ 3 * fofZ (N * N)) : F) by (rewrite fofZ_sub, !fofZ_mul; field; auto).
    rewrite RT by lia. destruct (Z.eqb_spec r 0); lia.
  - assert (Ez : (fofZ (2 * N - r) * (fofZ 2 / (fofZ 3 * fofZ N)) : F) = fofZ (2 * (2 * N - r)) / (fofZ 3 * fofZ N)) by (rewrite !fofZ_mul; field; auto).
    rewrite Ez. rewrite CMP, CMN by lia.
    assert (Q : forall x, (0 <= x)%Z -> (x = N \/ False) -> ftrunc (fofZ N * fsqrt (fofZ 3 * (fofZ N / (fofZ 3 * fofZ N))) + 1 / fofZ 2) = N).
    { intros x _ _. replace (fofZ 3 * (fofZ N / (fofZ 3 * fofZ N)) : F) with (1 * 1 : F) by (field; auto). rewrite SQ by apply f0_le_1. replace (fofZ N * 1 : F) with (fofZ N : F) by ring. apply trunc_half; [assumption | lia]. }
    destruct (Z.ltb_spec (66666666 * (3 * N)) (- (2 * (2 * N - r)) * 100000000)) as [D'|D'].
    + assert (r = 3 * N)%Z by lia. subst r.
      replace (1 + fofZ (2 * (2 * N - 3 * N)) / (fofZ 3 * fofZ N) : F) with (fofZ N / (fofZ 3 * fofZ N) : F).
      2:{ replace (2 * (2 * N - 3 * N))%Z with (- (2 * N))%Z by lia. rewrite fofZ_opp, fofZ_mul. transitivity ((fofZ 3 - fofZ 2) * fofZ N / (fofZ 3 * fofZ N) : F); [rewrite T32; f_equal; ring | field; auto]. }
      rewrite (Q N) by (auto; lia). destruct (Z.eqb_spec N 0); lia.
    + destruct (Z.ltb_spec (66666666 * (3 * N)) (2 * (2 * N - r) * 100000000)) as [D|D].
      * assert (r = N)%Z by lia. subst r.
        replace (1 - fofZ (2 * (2 * N - N)) / (fofZ 3 * fofZ N) : F) with (fofZ N / (fofZ 3 * fofZ N) : F).
        2:{ replace (2 * (2 * N - N))%Z with (2 * N)%Z by lia. rewrite fofZ_mul. transitivity ((fofZ 3 - fofZ 2) * fofZ N / (fofZ 3 * fofZ N) : F); [rewrite T32; f_equal; ring | field; auto]. }
        rewrite (Q N) by (auto; lia). destruct (Z.eqb_spec N 0); lia.
      * replace (fofZ N * (fofZ 2 - fofZ 3 / fofZ 2 * (fofZ (2 * (2 * N - r)) / (fofZ 3 * fofZ N))) : F) with (fofZ r : F); [apply trunc_half; [assumption | lia]|].
        rewrite fofZ_mul, fofZ_sub, fofZ_mul. field. auto.
  - set (x := (4 * N - r)%Z) in *. assert (Hx : (1 <= x <= N - 1)%Z) by lia. assert (Ex : (r = 4 * N - x)%Z) by lia. clearbody x.
    assert (Ez : (- (1) + 1 / (fofZ 3 * fofZ (N * N)) * fofZ x * fofZ x : F) = fofZ (- (3 * (N * N) - x * x)) / (fofZ 3 * fofZ (N * N))).
    { rewrite fofZ_opp, fofZ_sub, !fofZ_mul. field. auto. }
    rewrite Ez. rewrite CMP, CMN by nia.     destruct (Z.ltb_spec (66666666 * (3 * (N * N))) (- (- (3 * (N * N) - x * x)) * 100000000)) as [D|D]; [|nia].
    replace (1 + fofZ (- (3 * (N * N) - x * x)) / (fofZ 3 * fofZ (N * N)) : F) with (fofZ (x * x) / (fofZ 3 * fofZ (N * N)) : F) by (rewrite fofZ_opp, fofZ_sub, !fofZ_mul; field; auto).
    rewrite RT by lia. destruct (Z.eqb_spec x 0); lia.
Qed.
End RingNum.
Theorem C47_accepted_sizes npix n : healpix_nside npix = Ok n <-> exists k, 1 <= k <= 16 /\ n = 2 ^ k /\ npix = 12 * n * n.
Proof.
  assert (K : forall f k, 1 <= k -> Z.of_nat f + k = 17 -> (find_nside f (2 ^ k) npix = Ok n <-> exists j, k <= j <= 16 /\ n = 2 ^ j /\ npix = 12 * n * n)).
  { induction f as [|f IH]; intros k H1 H2.
    - cbn. split; [discriminate | intros (j & Hj & _); lia].
    - cbn [find_nside]. destruct (Z.eqb_spec (12 * 2 ^ k * 2 ^ k) npix) as [E|E].
      + split.
        * intro H. injection H as <-. exists k. split; [lia|]. split; [reflexivity | lia].
        * intros (j & Hj & -> & En). f_equal. pose proof (Z.pow_pos_nonneg 2 k ltac:(lia) ltac:(lia)). pose proof (Z.pow_pos_nonneg 2 j ltac:(lia) ltac:(lia)). nia.
      + assert (P : 2 ^ k * 2 = 2 ^ (k + 1)) by (rewrite Z.pow_add_r; lia). destruct (Z.ltb_spec 65536 (2 ^ k * 2)) as [C|C].
        * split; [discriminate|]. intros (j & Hj & -> & En). exfalso. destruct (Z.eq_dec j k) as [->|D]; [apply E; symmetry; exact En|].
          pose proof (Z.pow_le_mono_r 2 (k + 1) 16 ltac:(lia) ltac:(lia)). change (2 ^ 16) with 65536 in *. lia.
        * rewrite P. assert (k < 16) by (destruct (Z_lt_le_dec k 16); [assumption|]; assert (k = 16) by lia; subst k; change (2 ^ 16) with 65536 in C; lia).
          rewrite IH by lia. split; intros (j & Hj & -> & En); exists j; (split; [|auto]); [lia|]. destruct (Z.eq_dec j k) as [->|D]; [exfalso; apply E; symmetry; exact En | lia]. }
  exact (K 16%nat 1 ltac:(lia) ltac:(lia)).
Qed.
(** a 12-pixel map (nside 1) is a HEALPix map, but no field can be built on it *)
Theorem C47_nside_one_refuted : healpix_nside 12 = Exn ValueError.
Proof. reflexivity. Qed.
Example ex_rings : nphis 2 = [4; 8; 8; 8; 8; 8; 4] /\ offsets 2 = [0; 4; 12; 20; 28; 36; 44] /\ get_ring_limits 2 7 = (44, 47) /\ healpix_nside 48 = Ok 2.
Proof. repeat split; reflexivity. Qed.

(** ** C48 *)
Section Rect.
Context {F : ofield}.
Local Open Scope F_scope.
Add Field FfPU2 : (fth F).
Theorem C48_unpad_pad (s : minfo F) v p : pad_map s v = Ok p -> unpad_map s p = Ok v.
Proof.
  destruct s as [nside w | ny nx nf f1 f2 wts]; cbn [pad_map unpad_map]; [congruence|].
  destruct (Nat.eqb_spec (length v) (ny * nx)) as [L|L]; [|discriminate]. cbn [negb]. destruct (Nat.ltb_spec nf nx) as [C|C]; [discriminate|]. intro H. injection H as <-.
  pose proof (chunks_shaped ny nx v L) as Sh.
  assert (Sp : shaped ny nf (map (fun r => r ++ repeat 0 (nf - nx)) (chunks ny nx v))) by (eapply shaped_map; [|exact Sh]; intros r Hr; rewrite app_length, repeat_length; lia).
  rewrite (length_concat ny nf) by exact Sp. rewrite Nat.eqb_refl. cbn [negb]. rewrite chunks_concat by exact Sp. rewrite map_map. f_equal.
  rewrite <- (concat_chunks ny nx v L) at 2. f_equal. rewrite <- (map_id (chunks ny nx v)) at 2. apply map_ext_in. intros r Hr.
  destruct Sh as [_ Sh]. rewrite Forall_forall in Sh. rewrite firstn_app, (Sh r Hr), Nat.sub_diag, firstn_O, app_nil_r. apply firstn_all2. rewrite (Sh r Hr). lia.
Qed.
Theorem C48_values ny nx nf f1 f2 wts (v p : list F) : pad_map (Car ny nx nf f1 f2 wts) v = Ok p ->
  length p = (ny * nf)%nat /\ forall i j, (i < ny)%nat -> (j < nf)%nat -> nth (i * nf + j) p 0 = if (j <? nx)%nat then nth (i * nx + j) v 0 else 0.
Proof.
  cbn [pad_map]. destruct (Nat.eqb_spec (length v) (ny * nx)) as [L|L]; [|discriminate]. cbn [negb]. destruct (Nat.ltb_spec nf nx) as [C|C]; [discriminate|]. intro H. injection H as <-.
  pose proof (chunks_shaped ny nx v L) as Sh.
  assert (Sp : shaped ny nf (map (fun r => r ++ repeat 0 (nf - nx)) (chunks ny nx v))) by (eapply shaped_map; [|exact Sh]; intros r Hr; rewrite app_length, repeat_length; lia).
  split; [apply (length_concat ny nf); exact Sp|]. intros i j Hi Hj. rewrite (nth_concat ny nf) by assumption.
  rewrite (nth_indep _ [] ((fun r => r ++ repeat 0 (nf - nx)) [])) by (rewrite map_length; destruct Sh as [-> _]; exact Hi).
  rewrite (map_nth (fun r : list F => r ++ repeat 0 (nf - nx)) (chunks ny nx v) []). pose proof (shaped_nth ny nx (chunks ny nx v) i [] Sh Hi) as Lr. destruct (Nat.ltb_spec j nx) as [D|D].
  - rewrite app_nth1 by lia. apply nth_chunks; assumption.
  - rewrite app_nth2 by lia. apply nth_repeat.
Qed.
(** a map of the declared size is padded without error as soon as the rings are at least as long as the map is wide *)
Theorem C48_total ny nx nf f1 f2 wts (v : list F) : (nx <= nf)%nat -> length v = (ny * nx)%nat -> exists p, pad_map (Car ny nx nf f1 f2 wts) v = Ok p.
Proof. intros H L. cbn [pad_map]. rewrite L, Nat.eqb_refl. cbn [negb]. destruct (Nat.ltb_spec nf nx); [lia|]. eexists. reflexivity. Qed.
(** ... and they are, for every pixelisation NmtMapInfo accepts *)
Theorem C48_rings_long_enough ftrunc fround (twopi dph : F) nx : trunc_law ftrunc -> 0 < twopi -> 0 < dph -> width_ok fround twopi dph nx = true ->
  (nx <= nx_full ftrunc twopi dph)%Z /\ fabs (fofZ (nx_full ftrunc twopi dph) - twopi / dph) <= fofZ 1 / fofZ 100.
Proof.
  intros T P D H. unfold width_ok in H. apply andb_prop in H. destruct H as [H1 H2]. apply negb_true_iff in H1, H2. unfold fltb in H1, H2. apply negb_false_iff in H1, H2.
  set (x := twopi / dph) in *. set (k := fround x) in *. assert (D0 : dph <> 0) by (apply fpos_neq; exact D). assert (Ex : twopi = x * dph) by (unfold x; field; exact D0).
  assert (Px : 0 <= x) by (apply fdiv_nonneg; [apply flt_le, P | exact D]).
  assert (C0 : (fofZ 100 : F) <> 0) by (apply fofZ_neq0; lia). assert (Cp : (0 : F) < fofZ 100) by (apply fofZ_pos; lia). assert (Tn : (fofZ 10 : F) <> 0) by (apply fofZ_neq0; lia). assert (W0 : (fofZ 2 : F) <> 0) by (apply fofZ_neq0; lia).
  assert (A : fofZ k - x <= fofZ 1 / fofZ 100 /\ x - fofZ k <= fofZ 1 / fofZ 100).
  { assert (N : (0 : F) <= fofZ 1 / fofZ 100) by (apply fdiv_nonneg; [rewrite fofZ_1; apply f0_le_1 | exact Cp]).
    unfold fabs in H1. destruct (0 <=? fofZ k - x) eqn:E.
    - split; [exact H1|]. eapply fle_trans; [|exact N]. apply (proj2 (fle_sub_0 _ _)). replace (0 - (x - fofZ k)) with (fofZ k - x) by ring. exact E.
    - replace (- (fofZ k - x)) with (x - fofZ k) in H1 by ring. split; [|exact H1]. destruct (fle_total 0 (fofZ k - x)) as [Q|Q]; [unfold fle in Q; congruence | eapply fle_trans; [exact Q | exact N]]. }
  destruct A as [A1 A2].
  assert (SM : forall a b c : F, a <= b -> fofZ 100 * a <= fofZ 100 * b) by (intros; apply fle_mul_l; [apply flt_le, Cp | assumption]).
  assert (E100 : fofZ 100 * (fofZ 1 / fofZ 100) = (1 : F)) by (rewrite fofZ_1; field; exact C0).
  assert (k0 : (0 <= k)%Z).
  { destruct (Z_lt_le_dec k 0) as [Q|Q]; [|exact Q]. exfalso. apply (flt_irrefl (0 : F)). apply (flt_le_trans _ (fofZ 100 * (x - fofZ k) - 1)).
    - replace (fofZ 100 * (x - fofZ k) - 1) with (fofZ 100 * x + (fofZ (100 * - k - 1))) by (rewrite fofZ_sub, fofZ_mul, fofZ_opp, fofZ_1; ring).
      replace (0 : F) with (0 + 0 : F) by ring. eapply flt_le_trans; [apply (flt_add_r 0 (fofZ (100 * - k - 1)) 0), fofZ_pos; lia|]. replace (fofZ (100 * - k - 1) + 0) with (0 + fofZ (100 * - k - 1) : F) by ring. apply fle_add_r. apply fmul_nonneg; [apply flt_le, Cp | exact Px].
    - apply (SM _ _ 0) in A2. rewrite E100 in A2. apply (proj2 (fle_sub_0 _ _)). replace (0 - (fofZ 100 * (x - fofZ k) - 1)) with (1 - fofZ 100 * (x - fofZ k)) by ring. apply (proj1 (fle_sub_0 _ _)). exact A2. }
  assert (EN : nx_full ftrunc twopi dph = k).
  { unfold nx_full. fold x. apply trunc_eq; [exact T | exact k0 | |].
    - apply (proj2 (fle_sub_0 _ _)). assert (V : fofZ 100 * (x + 1 / fofZ 2 - fofZ k) = (1 - fofZ 100 * (fofZ k - x)) + fofZ 49).
      { assert (E50 : (fofZ 100 : F) = fofZ 50 * fofZ 2) by (rewrite <- fofZ_mul; reflexivity). assert (E49 : (fofZ 50 : F) = 1 + fofZ 49) by (rewrite <- fofZ_1, <- fofZ_add; reflexivity).
        rewrite E50. replace (fofZ 50 * fofZ 2 * (x + 1 / fofZ 2 - fofZ k)) with (fofZ 50 * fofZ 2 * (x - fofZ k) + fofZ 50) by (field; exact W0). rewrite E49. ring. }
      destruct (fle_total 0 (x + 1 / fofZ 2 - fofZ k)) as [Q|Q]; [exact Q|]. exfalso.
      apply (SM _ _ 0) in Q. rewrite V in Q. apply (flt_irrefl (0 : F)). eapply flt_le_trans; [|eapply fle_trans; [exact Q|]].
      + eapply flt_le_trans; [apply (fofZ_pos 49); lia|]. replace (fofZ 49 : F) with (0 + fofZ 49 : F) at 1 by ring. apply fle_add_r. apply (proj1 (fle_sub_0 _ _)). rewrite <- E100. apply SM; [exact 0 | exact A1].
      + replace (fofZ 100 * 0) with (0 : F) by ring. apply fle_refl.
    - rewrite fofZ_add, fofZ_1. apply (proj2 (flt_sub_0 _ _)). assert (V : fofZ 100 * (fofZ k + 1 - (x + 1 / fofZ 2)) = (1 - fofZ 100 * (x - fofZ k)) + fofZ 49).
      { assert (E50 : (fofZ 100 : F) = fofZ 50 * fofZ 2) by (rewrite <- fofZ_mul; reflexivity). assert (E49 : (fofZ 50 : F) = 1 + fofZ 49) by (rewrite <- fofZ_1, <- fofZ_add; reflexivity). assert (E2 : (fofZ 2 : F) = 1 + 1) by reflexivity.
        rewrite E50. replace (fofZ 50 * fofZ 2 * (fofZ k + 1 - (x + 1 / fofZ 2))) with (fofZ 50 * fofZ 2 * (fofZ k - x) + (fofZ 50 * fofZ 2 - fofZ 50)) by (field; exact W0). rewrite E49, E2. ring. }
      destruct (fle_lt_dec (fofZ k + 1 - (x + 1 / fofZ 2)) 0) as [Q|Q]; [|exact Q]. exfalso.
      apply (SM _ _ 0) in Q. rewrite V in Q. apply (flt_irrefl (0 : F)). eapply flt_le_trans; [|eapply fle_trans; [exact Q|]].
      + eapply flt_le_trans; [apply (fofZ_pos 49); lia|]. replace (fofZ 49 : F) with (0 + fofZ 49 : F) at 1 by ring. apply fle_add_r. apply (proj1 (fle_sub_0 _ _)). rewrite <- E100. apply SM; [exact 0 | exact A2].
      + replace (fofZ 100 * 0) with (0 : F) by ring. apply fle_refl. }
  rewrite EN. split; [|exact H1].
  destruct (Z_le_gt_dec nx k) as [Q|Q]; [exact Q|]. exfalso.
  (** (k+1) dph <= nx dph <= (x + 1/10) dph and x <= k + 1/100 *)
  assert (B : (fofZ nx - x - fofZ 1 / fofZ 10) * dph <= 0).
  { apply (proj2 (fle_sub_0 _ _)). replace (0 - (fofZ nx - x - fofZ 1 / fofZ 10) * dph) with (x * dph + fofZ 1 / fofZ 10 * dph - fofZ nx * dph) by ring. rewrite <- Ex. apply (proj1 (fle_sub_0 _ _)). exact H2. }
  assert (Y : (0 : F) < fofZ nx - x - fofZ 1 / fofZ 10).
  { assert (V : fofZ 100 * (fofZ nx - x - fofZ 1 / fofZ 10) = fofZ (100 * (nx - k) - 11) + (1 - fofZ 100 * (x - fofZ k))).
    { rewrite fofZ_sub, fofZ_mul, fofZ_sub, fofZ_1. assert (E : (fofZ 100 : F) = fofZ 10 * fofZ 10) by (rewrite <- fofZ_mul; reflexivity). assert (E11 : (fofZ 11 : F) = 1 + fofZ 10) by (rewrite <- fofZ_1, <- fofZ_add; reflexivity). rewrite E, E11. field. exact Tn. }
    destruct (fle_lt_dec (fofZ nx - x - fofZ 1 / fofZ 10) 0) as [Z|Z]; [|exact Z]. exfalso. apply (SM _ _ 0) in Z. rewrite V in Z. apply (flt_irrefl (0 : F)).
    eapply flt_le_trans; [|eapply fle_trans; [exact Z|]].
    - replace (0 : F) with (0 + 0 : F) by ring. apply flt_le_add; [apply fofZ_pos; lia|]. apply (proj1 (fle_sub_0 _ _)). rewrite <- E100. apply SM; [exact 0 | exact A2].
    - replace (fofZ 100 * 0) with (0 : F) by ring. apply fle_refl. }
  apply (flt_irrefl (0 : F)). eapply flt_le_trans; [apply (fmul_pos _ _ Y D) | exact B].
Qed.
Lemma lsum_concat (l : list (list F)) : lsum (concat l) = lsum (map lsum l).
Proof. induction l as [|a l IH]; [reflexivity|]. cbn [concat map]. rewrite lsum_app, IH. reflexivity. Qed.
Lemma weighted ny nx nf f1 f2 wts k (v r : list F) : times_weight (Car ny nx nf f1 f2 wts) v = Ok r -> length v = (ny * k)%nat ->
  (ny <> 0)%nat /\ length wts = ny /\ lsum r = sum ny (fun i => sum k (fun j => nth (i * k + j) v 0 * nth i wts 0)).
Proof.
  cbn [times_weight]. destruct (Nat.eqb_spec ny 0) as [Z|Z]; [discriminate|]. cbv zeta. intros H L. rewrite L in H. rewrite (Nat.mul_comm ny k), Nat.div_mul, (Nat.mul_comm k ny), Nat.eqb_refl in H by exact Z. cbn [negb] in H.
  destruct (Nat.eqb_spec (length wts) ny) as [W|W]; [|discriminate]. cbn [negb] in H. injection H as <-. split; [exact Z|]. split; [exact W|].
  rewrite lsum_concat. pose proof (chunks_shaped ny k v L) as Sh. rewrite (lsum_map_nth _ _ []). rewrite length_zipw, W, (proj1 Sh), Nat.min_id. apply sum_ext. intros i Hi.
  rewrite (nth_zipw _ _ _ i [] 0 []) by (rewrite ?W, ?(proj1 Sh); exact Hi). rewrite (lsum_map_nth _ _ 0). rewrite (shaped_nth ny k _ i [] Sh Hi). apply sum_ext. intros j Hj. rewrite nth_chunks by assumption. reflexivity.
Qed.
Lemma weighted_ok ny nx nf f1 f2 wts k (v : list F) : (ny <> 0)%nat -> length wts = ny -> length v = (ny * k)%nat -> exists r, times_weight (Car ny nx nf f1 f2 wts) v = Ok r.
Proof.
  intros Z W L. cbn [times_weight]. destruct (Nat.eqb_spec ny 0) as [Z'|_]; [contradiction|]. cbv zeta. rewrite L. rewrite (Nat.mul_comm ny k), Nat.div_mul, (Nat.mul_comm k ny), Nat.eqb_refl by exact Z. cbn [negb]. rewrite W, Nat.eqb_refl. cbn [negb]. eexists. reflexivity.
Qed.
Lemma dot_pad (s : minfo F) a b p q r : pad_map s a = Ok p -> pad_map s b = Ok q -> times_weight s (zipw fmul a b) = Ok r ->
  exists r', times_weight s (zipw fmul p q) = Ok r' /\ lsum r' = lsum r.
Proof.
  destruct s as [nside w | ny nx nf f1 f2 wts]; intros Hp Hq Hr.
  - cbn [pad_map] in *. injection Hp as <-. injection Hq as <-. exists r. auto.
  - assert (La : length a = (ny * nx)%nat /\ (nx <= nf)%nat). { cbn [pad_map] in Hp. destruct (Nat.eqb_spec (length a) (ny * nx)); [|discriminate]. cbn [negb] in Hp. destruct (Nat.ltb_spec nf nx); [discriminate|]. auto. }
    assert (Lb : length b = (ny * nx)%nat). { cbn [pad_map] in Hq. destruct (Nat.eqb_spec (length b) (ny * nx)); [|discriminate]. auto. }
    destruct La as [La Hn]. destruct (C48_values _ _ _ _ _ _ _ _ Hp) as [Lp Vp]. destruct (C48_values _ _ _ _ _ _ _ _ Hq) as [Lq Vq].
    destruct (weighted _ _ _ _ _ _ nx _ _ Hr) as (Z & W & S1); [rewrite length_zipw; lia|].
    destruct (weighted_ok ny nx nf f1 f2 wts nf (zipw fmul p q) Z W) as [r' Hr']; [rewrite length_zipw; lia|]. exists r'. split; [exact Hr'|].
    destruct (weighted _ _ _ _ _ _ nf _ _ Hr') as (_ & _ & S2); [rewrite length_zipw; lia|]. rewrite S1, S2. apply sum_ext. intros i Hi.
    assert (Ix : forall k j, (j < k)%nat -> (i * k + j < ny * k)%nat) by (intros; nia).
    replace nf with (nx + (nf - nx))%nat at 1 by lia. rewrite sum_plus. rewrite (sum_zero (nf - nx)).
    + rewrite (sum_ext nx _ (fun j => nth (i * nx + j) (zipw fmul a b) 0 * nth i wts 0)); [ring|]. intros j Hj.
      rewrite (nth_zipw _ p q _ 0 0 0), (nth_zipw _ a b _ 0 0 0) by (rewrite ?Lp, ?Lq, ?La, ?Lb; apply Ix; lia). rewrite Vp, Vq by lia. destruct (Nat.ltb_spec j nx); [reflexivity | lia].
    + intros j Hj. rewrite (nth_zipw _ p q _ 0 0 0) by (rewrite ?Lp, ?Lq; apply Ix; lia). rewrite Vp by lia. destruct (Nat.ltb_spec (nx + j) nx); [lia | ring].
Qed.
(** scalar products of maps (used for template deprojection) do not see the padding *)
Theorem C48_dot (s : minfo F) m1 m2 p1 p2 d : mapM (pad_map s) m1 = Ok p1 -> mapM (pad_map s) m2 = Ok p2 -> dot_map s m1 m2 = Ok d -> dot_map s p1 p2 = Ok d.
Proof.
  unfold dot_map. revert m2 p1 p2 d. induction m1 as [|a m1 IH]; intros m2 p1 p2 d H1 H2 H.
  - cbn in H1. injection H1 as <-. exact H.
  - destruct m2 as [|b m2].
    + cbn in H2. injection H2 as <-. assert (N : forall (x : list (list F)), zipw (zipw fmul) x [] = []) by (intro x; destruct x; reflexivity). rewrite N in *. exact H.
    + cbn [mapM] in H1, H2. apply bind_ok in H1 as (p & Ep & H1). apply bind_ok in H1 as (p1' & E1 & H1). injection H1 as <-.
      apply bind_ok in H2 as (q & Eq & H2). apply bind_ok in H2 as (p2' & E2 & H2). injection H2 as <-. rewrite zipw_cons in H. rewrite zipw_cons. cbn [mapM] in *.
      apply bind_ok in H as (rs & H & Hd). apply bind_ok in H as (r & Er & H). apply bind_ok in H as (rs' & Ers & H). injection H as <-. injection Hd as <-. cbn [map lsum fold_right].
      destruct (dot_pad s a b p q r Ep Eq Er) as (r' & Er' & El). rewrite Er'. cbn [bind].
      specialize (IH m2 p1' p2' (lsum (map lsum rs')) E1 E2). rewrite Ers in IH. specialize (IH eq_refl). apply bind_ok in IH as (z & Ez & IH). injection IH as IH. rewrite Ez. cbn [bind map lsum fold_right].
      fold (lsum (map lsum z)). fold (lsum (map lsum rs')). fold (lsum r'). fold (lsum r). rewrite IH, El. reflexivity.
Qed.

(** ** C49 *)
Definition pick (n : nat) (flip : bool) (i : nat) : nat := if flip then (n - 1 - i)%nat else i.
Lemma nth_rev' {A} (l : list A) i d : (i < length l)%nat -> nth i (rev l) d = nth (length l - 1 - i) l d.
Proof. intro H. rewrite rev_nth by exact H. f_equal. lia. Qed.
Lemma shaped_rev {A} n k (x : list (list A)) : shaped n k x -> shaped n k (rev x).
Proof. intros [L H]. split; [rewrite rev_length; exact L|]. apply Forall_rev, H. Qed.
Lemma shaped_map_rev {A} n k (x : list (list A)) : shaped n k x -> shaped n k (map (@rev A) x).
Proof. apply shaped_map. intros r Hr. rewrite rev_length. exact Hr. Qed.
Lemma reform_eq ny nx nf fth fph wts (rows : list (list F)) : shaped ny nx rows ->
  exists v, reform_map (Car ny nx nf fth fph wts) (I2 nx rows) = Ok v /\ length v = (ny * nx)%nat /\
  forall i j, (i < ny)%nat -> (j < nx)%nat -> nth (i * nx + j) v 0 = nth (pick nx fph j) (nth (pick ny fth i) rows []) 0.
Proof.
  intro Sh. cbn [reform_map]. rewrite (proj1 Sh), !Nat.eqb_refl. cbn [andb]. cbv zeta.
  set (r1 := if fth then rev rows else rows). assert (S1 : shaped ny nx r1) by (unfold r1; destruct fth; [apply shaped_rev|]; exact Sh).
  set (r2 := if fph then map (@rev F) r1 else r1). assert (S2 : shaped ny nx r2) by (unfold r2; destruct fph; [apply shaped_map_rev|]; exact S1).
  exists (concat r2). split; [reflexivity|]. split; [apply length_concat; exact S2|]. intros i j Hi Hj. rewrite (nth_concat ny nx) by assumption.
  assert (E1 : nth i r1 [] = nth (pick ny fth i) rows []) by (unfold r1, pick; destruct fth; [rewrite nth_rev' by (rewrite (proj1 Sh); exact Hi); rewrite (proj1 Sh)|]; reflexivity).
  assert (E2 : nth i r2 [] = if fph then rev (nth i r1 []) else nth i r1 []) by (unfold r2; destruct fph; [exact (map_nth (@rev F) r1 [] i)|]; reflexivity).
  rewrite E2, E1. assert (Lr : length (nth (pick ny fth i) rows []) = nx) by (apply (shaped_nth ny); [exact Sh | unfold pick; destruct fth; lia]).
  unfold pick at 2. destruct fph; [rewrite nth_rev' by (rewrite Lr; exact Hj); rewrite Lr|]; reflexivity.
Qed.
(** the value stored at ring i, column j of the internal map belongs to the array pixel that lies at colatitude
    theta_min + i*d_theta and azimuth phi0 + j*d_phi, for any orientation of the two axes of the array *)
Theorem C49_sky ny nx nf wts (rows : list (list F)) (e0 ddec r0 dra : F) : shaped ny nx rows -> ddec <> 0 -> dra <> 0 ->
  let g := car_geometry (Z.of_nat ny) (Z.of_nat nx) e0 ddec r0 dra in
  exists v, reform_map (Car ny nx nf (cg_fth g) (cg_fph g) wts) (I2 nx rows) = Ok v /\ length v = (ny * nx)%nat /\
  forall a b, (a < ny)%nat -> (b < nx)%nat -> exists i j, (i < ny)%nat /\ (j < nx)%nat /\ nth (i * nx + j) v 0 = nth b (nth a rows []) 0 /\
    cg_theta_min g + fofZ (Z.of_nat i) * cg_dth g = fofZ 90 - (e0 + fofZ (Z.of_nat a) * ddec) /\
    cg_phi0 g + fofZ (Z.of_nat j) * cg_dph g = r0 + fofZ (Z.of_nat b) * dra.
Proof.
  intros Sh D1 D2 g. destruct (reform_eq ny nx nf (cg_fth g) (cg_fph g) wts rows Sh) as (v & Ev & Lv & V). exists v. split; [exact Ev|]. split; [exact Lv|].
  intros a b Ha Hb. exists (pick ny (cg_fth g) a), (pick nx (cg_fph g) b).
  assert (I1 : (pick ny (cg_fth g) a < ny)%nat) by (unfold pick; destruct (cg_fth g); lia). assert (I2 : (pick nx (cg_fph g) b < nx)%nat) by (unfold pick; destruct (cg_fph g); lia).
  split; [exact I1|]. split; [exact I2|]. split.
  { rewrite V by assumption. assert (P : forall n f i, (i < n)%nat -> pick n f (pick n f i) = i) by (intros n f i Hi; unfold pick; destruct f; lia). rewrite !P by assumption. reflexivity. }
  assert (ABS : forall x : F, x <> 0 -> (0 < x /\ fabs x = x) \/ (x < 0 /\ fabs x = - x)).
  { intros x Hx. unfold fabs. destruct (0 <=? x) eqn:E; [left; split; [apply fle_neq_lt; [exact E | congruence] | reflexivity] | right; split; [unfold flt, fltb; rewrite E; reflexivity | reflexivity]]. }
  assert (SG : forall x : F, x < 0 -> (0 <? x) = false). { intros x Hx. unfold fltb. apply negb_false_iff. apply flt_le in Hx. exact Hx. }
  assert (SG' : forall x : F, 0 < x -> (x <? 0) = false). { intros x Hx. unfold fltb. apply negb_false_iff. apply flt_le in Hx. exact Hx. }
  split; unfold g, car_geometry; cbn [cg_theta_min cg_dth cg_fth cg_phi0 cg_dph cg_fph].
  - destruct (ABS ddec D1) as [[S ->]|[S ->]].
    + unfold pick. rewrite S. unfold fmax. destruct (e0 + fofZ 0 * ddec <? e0 + fofZ (Z.of_nat ny - 1) * ddec) eqn:M.
      * replace (Z.of_nat (ny - 1 - a)) with (Z.of_nat ny - 1 - Z.of_nat a)%Z by lia. rewrite !fofZ_sub. ring.
      * assert (ny = 1)%nat.
        { destruct (Nat.eq_dec ny 1) as [E|E]; [exact E|]. exfalso. unfold fltb in M. apply negb_false_iff in M. apply (flt_irrefl (e0 + fofZ 0 * ddec)). eapply flt_le_trans; [|exact M].
          apply (proj2 (flt_sub_0 _ _)). replace (e0 + fofZ (Z.of_nat ny - 1) * ddec - (e0 + fofZ 0 * ddec)) with (fofZ (Z.of_nat ny - 1 - 0) * ddec) by (rewrite (fofZ_sub (Z.of_nat ny - 1) 0); ring). apply fmul_pos; [apply fofZ_pos; lia | exact S]. }
        subst ny. replace a with 0%nat by lia. replace (Z.of_nat (1 - 1 - 0)) with 0%Z by reflexivity. change (Z.of_nat 0) with 0%Z. change (fofZ 0 : F) with (0 : F). ring.
    + unfold pick. rewrite (SG _ S). unfold fmax. assert (M : (e0 + fofZ 0 * ddec <? e0 + fofZ (Z.of_nat ny - 1) * ddec) = false).
      { unfold fltb. apply negb_false_iff. apply (proj2 (fle_sub_0 _ _)). replace (e0 + fofZ 0 * ddec - (e0 + fofZ (Z.of_nat ny - 1) * ddec)) with (fofZ (Z.of_nat ny - 1 - 0) * (0 - ddec)) by (rewrite (fofZ_sub (Z.of_nat ny - 1) 0); ring).
        apply fmul_nonneg; [change (0 : F) with (fofZ 0 : F); apply fofZ_le; lia | apply (proj1 (fle_sub_0 _ _)), flt_le, S]. }
      rewrite M. change (fofZ 0 : F) with (0 : F). ring.
  - destruct (ABS dra D2) as [[S ->]|[S ->]].
    + unfold pick. rewrite (SG' _ S). change (fofZ 0 : F) with (0 : F). ring.
    + unfold pick. rewrite S. replace (Z.of_nat (nx - 1 - b)) with (Z.of_nat nx - 1 - Z.of_nat b)%Z by lia. rewrite !fofZ_sub. ring.
Qed.
(** the same sky stored with a reversed axis gives the same internal map *)
Theorem C49_same_sky ny nx nf fth fph wts (rows : list (list F)) : shaped ny nx rows ->
  reform_map (Car ny nx nf (negb fth) fph wts) (I2 nx (rev rows)) = reform_map (Car ny nx nf fth fph wts) (I2 nx rows) /\
  reform_map (Car ny nx nf fth (negb fph) wts) (I2 nx (map (@rev F) rows)) = reform_map (Car ny nx nf fth fph wts) (I2 nx rows).
Proof.
  intros [L _]. cbn [reform_map]. rewrite rev_length, map_length, L, !Nat.eqb_refl. cbn [andb]. cbv zeta. split.
  - destruct fth; cbn [negb]; [reflexivity|]. rewrite rev_involutive. reflexivity.
  - assert (E : forall r : list (list F), map (@rev F) (map (@rev F) r) = r) by (intro r; rewrite map_map; rewrite <- (map_id r) at 2; apply map_ext; intro; apply rev_involutive).
    destruct fth, fph; cbn [negb]; rewrite ?map_rev, ?E; try reflexivity.
Qed.
(** nothing is lost: different maps have different internal maps *)
Theorem C49_injective ny nx nf fth fph wts (x y : list (list F)) v : shaped ny nx x -> shaped ny nx y ->
  reform_map (Car ny nx nf fth fph wts) (I2 nx x) = Ok v -> reform_map (Car ny nx nf fth fph wts) (I2 nx y) = Ok v -> x = y.
Proof.
  intros Sx Sy Hx Hy. destruct (reform_eq ny nx nf fth fph wts x Sx) as (v1 & E1 & _ & V1). destruct (reform_eq ny nx nf fth fph wts y Sy) as (v2 & E2 & _ & V2).
  rewrite Hx in E1. injection E1 as <-. rewrite Hy in E2. injection E2 as <-.
  apply (list_eq_nth _ _ []); [rewrite (proj1 Sx), (proj1 Sy); reflexivity|]. intros a Ha. rewrite (proj1 Sx) in Ha.
  apply (list_eq_nth _ _ 0); [rewrite (shaped_nth ny nx x a [] Sx Ha), (shaped_nth ny nx y a [] Sy Ha); reflexivity|]. intros b Hb. rewrite (shaped_nth ny nx x a [] Sx Ha) in Hb.
  assert (I1 : (pick ny fth a < ny)%nat) by (unfold pick; destruct fth; lia). assert (I2 : (pick nx fph b < nx)%nat) by (unfold pick; destruct fph; lia).
  specialize (V1 _ _ I1 I2). specialize (V2 _ _ I1 I2). assert (P : forall n f i, (i < n)%nat -> pick n f (pick n f i) = i) by (intros n f i Hi; unfold pick; destruct f; lia). rewrite !P in * by assumption. congruence.
Qed.
(** arrays of the wrong shape are refused *)
Theorem C49_wrong_shape (s : minfo F) m : (exists v, reform_map s m = Ok v) <->
  match s, m with Hpx nside _, I1 v => Z.of_nat (length v) = (12 * nside * nside)%Z | Car ny nx _ _ _ _, I2 k rows => length rows = ny /\ k = nx | _, _ => False end.
Proof.
  destruct s as [nside w | ny nx nf f1 f2 wts], m as [v | k rows]; cbn [reform_map].
  - destruct (Z.eqb_spec (Z.of_nat (length v)) (12 * nside * nside)); split; try (intros [? H]; discriminate H); eauto. contradiction.
  - split; [intros [? H]; discriminate H | contradiction].
  - split; [intros [? H]; discriminate H | contradiction].
  - destruct (Nat.eqb_spec (length rows) ny), (Nat.eqb_spec k nx); cbn [andb]; split; try (intros [? H]; discriminate H); try tauto; eauto.
Qed.
End Rect.

(** ** C50 *)
Section Iter.
Context {F : ofield}.
Local Open Scope F_scope.
Add Field FfPU3 : (fth F).
Notation mat := (list (list F)).
Notation g x i j := (nth j (nth i x []) (0 : F)).
Variable m2a a2m : mat -> mat.
Variables (nc np na : nat).
(** the transforms are linear and keep the number of components; [np] pixels, [na] real coefficients *)
Definition transforms : Prop :=
  (forall x, shaped nc np x -> shaped nc na (m2a x)) /\ (forall a, shaped nc na a -> shaped nc np (a2m a)) /\
  (forall x y, shaped nc np x -> shaped nc np y -> m2a (msub x y) = msub (m2a x) (m2a y)) /\
  (forall a b, shaped nc na a -> shaped nc na b -> a2m (msub a b) = msub (a2m a) (a2m b)).
(** what is left of a map after analysis and synthesis *)
Definition defect (x : mat) : mat := msub x (a2m (m2a x)).
Fixpoint power (f : mat -> mat) (n : nat) (x : mat) : mat := match n with O => x | S n' => f (power f n' x) end.
Lemma msub_shaped c p (x y : mat) : shaped c p x -> shaped c p y -> shaped c p (msub x y).
Proof.
  intros [Lx Hx] [Ly Hy]. split; [unfold msub; rewrite length_zipw, Lx, Ly; apply Nat.min_id|]. apply Forall_forall. intros r Hr. apply (In_nth _ _ []) in Hr as (i & Hi & <-).
  unfold msub in Hi. rewrite length_zipw in Hi. unfold msub. rewrite (nth_zipw _ x y i [] [] []) by lia. rewrite length_zipw.
  rewrite (shaped_nth c p x i []), (shaped_nth c p y i []) by (try split; auto; lia). apply Nat.min_id.
Qed.
Lemma g_msub c p (x y : mat) i j : shaped c p x -> shaped c p y -> (i < c)%nat -> (j < p)%nat -> g (msub x y) i j = g x i j - g y i j.
Proof.
  intros Sx Sy Hi Hj. unfold msub. rewrite (nth_zipw _ x y i [] [] []) by (rewrite ?(proj1 Sx), ?(proj1 Sy); exact Hi).
  apply nth_zipw; rewrite (shaped_nth c p) by assumption; exact Hj.
Qed.
Lemma mat_eq c p (x y : mat) : shaped c p x -> shaped c p y -> (forall i j, (i < c)%nat -> (j < p)%nat -> g x i j = g y i j) -> x = y.
Proof.
  intros Sx Sy H. apply (list_eq_nth _ _ []); [rewrite (proj1 Sx), (proj1 Sy); reflexivity|]. intros a Ha. rewrite (proj1 Sx) in Ha.
  apply (list_eq_nth _ _ 0); [rewrite (shaped_nth c p x a [] Sx Ha), (shaped_nth c p y a [] Sy Ha); reflexivity|]. intros b Hb. rewrite (shaped_nth c p x a [] Sx Ha) in Hb. apply H; assumption.
Qed.
Hypothesis T : transforms.
Ltac sh := first [assumption | apply msub_shaped; sh | apply (proj1 T); sh | apply (proj1 (proj2 T)); sh].
Lemma defect_step m alm : shaped nc np m -> shaped nc na alm -> msub m (a2m (msub alm (m2a (msub (a2m alm) m)))) = defect (msub m (a2m alm)).
Proof.
  intros Sm Sa. destruct T as (T1 & T2 & T3 & T4). unfold defect. rewrite (T4 alm _) by sh. rewrite !T3 by sh. rewrite !T4 by sh.
  apply (mat_eq nc np); try sh. intros i j Hi Hj. rewrite !(g_msub nc np) by (try assumption; sh). ring.
Qed.
Lemma refine_shaped n m : shaped nc np m -> forall alm, shaped nc na alm -> shaped nc na (refine m2a a2m n m alm).
Proof. intro Sm. induction n as [|n IH]; intros alm Sa; [exact Sa|]. cbn [refine]. apply IH. sh. Qed.
Lemma defect_shaped x : shaped nc np x -> shaped nc np (defect x).
Proof. intro. unfold defect. sh. Qed.
Lemma power_swap f n x : power f n (f x) = f (power f n x).
Proof. induction n as [|n IH]; [reflexivity|]. cbn [power]. rewrite IH. reflexivity. Qed.
Lemma refine_residual n m : shaped nc np m -> forall alm, shaped nc na alm -> msub m (a2m (refine m2a a2m n m alm)) = power defect n (msub m (a2m alm)).
Proof.
  intro Sm. induction n as [|n IH]; intros alm Sa; [reflexivity|]. cbn [refine]. rewrite IH by sh. rewrite defect_step by assumption. apply power_swap.
Qed.
Lemma pad_all_shaped (s : minfo F) maps m : mapM (pad_map s) maps = Ok m -> length m = length maps.
Proof. apply mapM_length. Qed.
(** after n iterations the residual is the (n+1)-th power of the defect operator applied to the (padded) map *)
Theorem C50_residual (s : minfo F) n maps m alm : mapM (pad_map s) maps = Ok m -> shaped nc np m -> map2alm m2a a2m s n maps = Ok alm ->
  msub m (a2m alm) = power defect (S n) m.
Proof.
  intros E Sm H. unfold map2alm in H. rewrite E in H. cbn [bind] in H. injection H as <-. rewrite refine_residual by sh. exact (power_swap defect n m).
Qed.
(** a map that the transform represents exactly is not changed by iterating *)
Theorem C50_exact_fixed (s : minfo F) n maps m : mapM (pad_map s) maps = Ok m -> shaped nc np m -> a2m (m2a m) = m -> map2alm m2a a2m s n maps = map2alm m2a a2m s 0 maps.
Proof.
  intros E Sm X. unfold map2alm. rewrite E. cbn [bind]. f_equal. induction n as [|n IH]; [reflexivity|]. cbn [refine] in *. rewrite X. destruct T as (T1 & T2 & T3 & T4). rewrite T3 by assumption.
  replace (msub (m2a m) (msub (m2a m) (m2a m))) with (m2a m); [exact IH|]. apply (mat_eq nc na); try sh. intros i j Hi Hj. rewrite !(g_msub nc na) by (try assumption; sh). ring.
Qed.
(** the result is additive in the map *)
Theorem C50_additive (s : minfo F) n maps maps' maps'' m m' alm alm' : mapM (pad_map s) maps = Ok m -> mapM (pad_map s) maps' = Ok m' -> mapM (pad_map s) maps'' = Ok (msub m m') -> shaped nc np m -> shaped nc np m' ->
  map2alm m2a a2m s n maps = Ok alm -> map2alm m2a a2m s n maps' = Ok alm' -> map2alm m2a a2m s n maps'' = Ok (msub alm alm').
Proof.
  intros E E' E'' Sm Sm' H H'. unfold map2alm in *. rewrite E in H. rewrite E' in H'. rewrite E''. cbn [bind] in *. injection H as <-. injection H' as <-. f_equal.
  assert (G : forall a b, shaped nc na a -> shaped nc na b -> refine m2a a2m n (msub m m') (msub a b) = msub (refine m2a a2m n m a) (refine m2a a2m n m' b)).
  { clear E E' E''. induction n as [|n IH]; intros a b Sa Sb; [reflexivity|]. cbn [refine]. rewrite <- IH by sh. f_equal. destruct T as (T1 & T2 & T3 & T4). rewrite (T4 a b) by assumption. rewrite !T3 by sh.
    apply (mat_eq nc na); try sh. intros i j Hi Hj. rewrite !(g_msub nc na) by (try assumption; sh). ring. }
  rewrite <- G by sh. f_equal. apply (proj1 (proj2 (proj2 T))); assumption.
Qed.
End Iter.

(** ** C51 *)
Section Params.
Context {F : ofield}.
Local Open Scope F_scope.
Variable ftrunc : F -> Z.
Definition in_unit (t : num F) : Prop := exists x, t = Fin x /\ 0 <= x /\ x <= 1.
Definition valid (ducc : bool) (p : params F) : Prop :=
  (sht_calculator p = "healpy"%string \/ (sht_calculator p = "ducc"%string /\ ducc = true)) /\ (0 <= n_iter_default p)%Z /\ (0 <= n_iter_mask_default p)%Z /\ (in_unit (tol_pinv_default p) \/ tol_pinv_default p = NaN).
Definition trunc_nonneg : Prop := forall x, 0 <= x -> (0 <= ftrunc x)%Z.
(** a refused value changes nothing *)
Theorem C51_rejected_unchanged ducc (p : params F) c e : snd (set_step ftrunc ducc p c) = Exn e -> fst (set_step ftrunc ducc p c) = p.
Proof.
  destruct c as [s | n mask | t]; cbn [set_step].
  - unfold set_sht_calculator. destruct (negb _); [reflexivity|]. destruct (_ && _)%bool; [reflexivity | discriminate].
  - unfold set_n_iter_default. destruct (num_lt _ _); [reflexivity|]. destruct (num_int ftrunc n); [discriminate | reflexivity | reflexivity].
  - unfold set_tol_pinv_default. destruct (_ || _)%bool; [reflexivity | discriminate].
Qed.
(** exactly these values are accepted *)
Theorem C51_accepted ducc (p : params F) c : snd (set_step ftrunc ducc p c) = Ok tt <->
  match c with
  | SetCalc s => s = "healpy"%string \/ (s = "ducc"%string /\ ducc = true)
  | SetIter n _ => exists x, n = Fin x /\ 0 <= x
  | SetTol t => in_unit t \/ t = NaN
  end.
Proof.
  destruct c as [s | n mask | t]; cbn [set_step].
  - unfold set_sht_calculator. destruct (String.eqb_spec s "ducc") as [->|N1]; [|destruct (String.eqb_spec s "healpy") as [->|N2]]; cbn [orb negb andb snd].
    + destruct ducc; cbn [andb negb snd]; split; auto; [discriminate|]. intros [H|[_ H]]; discriminate H.
    + split; auto.
    + split; [discriminate|]. intros [H|[H _]]; contradiction.
  - unfold set_n_iter_default. destruct n as [x| | |]; cbn [num_lt num_int].
    + destruct (x <? 0) eqn:E; cbn [snd].
      * split; [discriminate|]. intros (y & H & P). injection H as <-. exfalso. apply (proj1 (flt_not_le _ _) E P).
      * split; [|reflexivity]. intros _. exists x. split; [reflexivity|]. unfold fltb in E. apply negb_false_iff in E. exact E.
    + split; [discriminate|]. intros (y & H & _). discriminate H.
    + split; [discriminate|]. intros (y & H & _). discriminate H.
    + split; [discriminate|]. intros (y & H & _). discriminate H.
  - unfold set_tol_pinv_default, in_unit. destruct t as [x| | |]; cbn [num_lt orb].
    + destruct (1 <? x) eqn:E1; cbn [orb snd].
      * split; [discriminate|]. intros [(y & H & P1 & P2)|H]; [|discriminate H]. injection H as <-. exfalso. apply (proj1 (flt_not_le _ _) E1 P2).
      * destruct (x <? 0) eqn:E2; cbn [snd].
        -- split; [discriminate|]. intros [(y & H & P1 & P2)|H]; [|discriminate H]. injection H as <-. exfalso. apply (proj1 (flt_not_le _ _) E2 P1).
        -- split; [|reflexivity]. intros _. left. exists x. split; [reflexivity|]. unfold fltb in *. apply negb_false_iff in E1, E2. split; assumption.
    + split; [discriminate|]. intros [(y & H & _)|H]; discriminate H.
    + split; [discriminate|]. intros [(y & H & _)|H]; discriminate H.
    + split; auto.
Qed.
(** an accepted value is the one in force afterwards, and nothing else changes *)
Theorem C51_takes_effect ducc (p : params F) c : snd (set_step ftrunc ducc p c) = Ok tt ->
  let p' := fst (set_step ftrunc ducc p c) in
  match c with
  | SetCalc s => sht_calculator p' = s /\ n_iter_default p' = n_iter_default p /\ n_iter_mask_default p' = n_iter_mask_default p /\ tol_pinv_default p' = tol_pinv_default p
  | SetIter n mask => exists x, n = Fin x /\ sht_calculator p' = sht_calculator p /\ tol_pinv_default p' = tol_pinv_default p /\
      (if mask then n_iter_mask_default p' = ftrunc x /\ n_iter_default p' = n_iter_default p else n_iter_default p' = ftrunc x /\ n_iter_mask_default p' = n_iter_mask_default p)
  | SetTol t => tol_pinv_default p' = t /\ sht_calculator p' = sht_calculator p /\ n_iter_default p' = n_iter_default p /\ n_iter_mask_default p' = n_iter_mask_default p
  end.
Proof.
  destruct c as [s | n mask | t]; cbn [set_step].
  - unfold set_sht_calculator. destruct (negb _); [discriminate|]. destruct (_ && _)%bool; [discriminate|]. cbn. auto.
  - unfold set_n_iter_default. destruct (num_lt _ _); [discriminate|]. destruct n as [x| | |]; cbn [num_int snd]; try discriminate. intros _. exists x. destruct mask; cbn; auto.
  - unfold set_tol_pinv_default. destruct (_ || _)%bool; [discriminate|]. cbn. auto.
Qed.
(** whatever the user calls, the settings stay valid *)
Theorem C51_always_valid ducc tol0 cs : trunc_nonneg -> 0 <= tol0 -> tol0 <= 1 -> valid ducc (fst (settings ftrunc ducc (init_params ducc tol0) cs)).
Proof.
  intros TN T0 T1. assert (G : forall cs p, valid ducc p -> valid ducc (fst (settings ftrunc ducc p cs))).
  { clear cs. induction cs as [|c cs IH]; intros p V; [exact V|]. cbn [settings]. destruct (set_step ftrunc ducc p c) as [p1 r] eqn:E. specialize (IH p1). destruct (settings ftrunc ducc p1 cs) as [p2 rs]. cbn [fst] in *. apply IH.
    destruct r as [[]|e|].
    - pose proof (C51_accepted ducc p c) as A. pose proof (C51_takes_effect ducc p c) as B. rewrite E in A, B. cbn [fst snd] in A, B. specialize (B eq_refl). cbv zeta in B. destruct V as (V1 & V2 & V3 & V4). unfold valid. destruct c as [s | n mask | t].
      + destruct B as (-> & -> & -> & ->). split; [apply A; reflexivity | auto].
      + destruct B as (x & -> & -> & -> & B). destruct (proj1 A eq_refl) as (y & Hy & P). injection Hy as <-. split; [exact V1|]. destruct mask; destruct B as [-> ->]; auto.
      + destruct B as (-> & -> & -> & ->). split; [exact V1|]. split; [exact V2|]. split; [exact V3|]. apply A. reflexivity.
    - pose proof (C51_rejected_unchanged ducc p c e) as R. rewrite E in R. cbn [fst snd] in R. rewrite (R eq_refl). exact V.
    - exfalso. destruct c as [s | n mask | t]; cbn [set_step] in E.
      + unfold set_sht_calculator in E. destruct (negb _); [discriminate E|]. destruct (_ && _)%bool; discriminate E.
      + unfold set_n_iter_default in E. destruct (num_lt _ _); [discriminate E|]. destruct n; discriminate E.
      + unfold set_tol_pinv_default in E. destruct (_ || _)%bool; discriminate E. }
  apply G. unfold init_params. split; [destruct ducc; cbn; auto|]. split; [cbn; lia|]. split; [cbn; lia|]. left. exists tol0. auto.
Qed.
(** a NaN tolerance passes the range check: the documented range is not enforced *)
Theorem C51_nan_refuted ducc (p : params F) : snd (set_step ftrunc ducc p (SetTol NaN)) = Ok tt /\ tol_pinv_default (fst (set_step ftrunc ducc p (SetTol NaN))) = NaN.
Proof. split; reflexivity. Qed.
End Params.

(** ** Concrete cases *)
Definition shown (r : res (list Qc_field)) : option (list Q) := match r with Ok v => Some (map out v) | _ => None end.
Definition rows23 : list (list Qc_field) := [[qz 1; qz 2; qz 3]; [qz 4; qz 5; qz 6]].
Example ex_reform :
  shown (reform_map (Car 2 3 4 true true []) (I2 3 rows23)) = Some (map inject_Z [6; 5; 4; 3; 2; 1]) /\
  shown (reform_map (Car 2 3 4 true false []) (I2 3 rows23)) = Some (map inject_Z [4; 5; 6; 1; 2; 3]) /\
  reform_map (Car 3 2 4 true false []) (I2 3 rows23) = Exn ValueError.
Proof. repeat split; vm_compute; reflexivity. Qed.
Example ex_pad :
  shown (pad_map (Car 2 3 4 true true []) (map qz [6; 5; 4; 3; 2; 1])) = Some (map inject_Z [6; 5; 4; 0; 3; 2; 1; 0]) /\
  (exists d, dot_map (F:=Qc_field) (Car 2 3 4 true true [qz 1; qz 2]) [map qz [6; 5; 4; 3; 2; 1]] [map qz [1; 1; 1; 1; 1; 1]] = Ok d /\ out d = inject_Z 27).
Proof. split; [vm_compute; reflexivity|]. apply ex_ok. vm_compute. reflexivity. Qed.
(** truncation and rounding of rationals; an azimuth step of 360/8 degrees and a map five pixels wide *)
Definition qtrunc (x : Qc_field) : Z := (Qnum (out x) / Zpos (Qden (out x)))%Z.
Lemma qofZ (z : Z) : (fofZ z : Qc_field) = qz z.
Proof.
  apply out_inj. assert (N : forall n, out (fofnat n : Qc_field) = inject_Z (Z.of_nat n)).
  { induction n as [|n IH]; [reflexivity|]. change (fofnat (S n) : Qc_field) with (Qcplus (fofnat n : Qc_field) (f1 : Qc_field)). unfold out in *. cbn [Qcplus Q2Qc this]. rewrite IH.
    transitivity (Qred (inject_Z (Z.of_nat (S n)))); [|apply Qred_identity; cbn [Qnum Qden inject_Z]; apply Z.gcd_1_r].
    apply Qred_complete. change (this (f1 : Qc_field)) with (inject_Z 1). rewrite <- inject_Z_plus. f_equiv. lia. }
  assert (Q1 : forall k, out (qz k) = inject_Z k) by (intro k; apply Qred_identity; apply Z.gcd_1_r). rewrite Q1.
  destruct (Z_lt_le_dec z 0) as [C|C].
  - replace z with (- Z.of_nat (Z.to_nat (- z)))%Z at 1 by lia. rewrite fofZ_opp, fofZ_of_nat. change (fopp (fofnat (Z.to_nat (- z)) : Qc_field)) with (Qcopp (fofnat (Z.to_nat (- z)) : Qc_field)).
    unfold out in *. cbn [Qcopp Q2Qc this]. rewrite N. transitivity (Qred (inject_Z z)); [|apply Qred_identity; apply Z.gcd_1_r]. apply Qred_complete. rewrite <- inject_Z_opp. f_equiv. lia.
  - replace z with (Z.of_nat (Z.to_nat z)) at 1 by lia. rewrite fofZ_of_nat, N. f_equal. lia.
Qed.
Example ex_trunc_law : trunc_law qtrunc.
Proof.
  intros x _. rewrite !qofZ. unfold qtrunc. set (n := Qnum (out x)). set (d := Qden (out x)).
  assert (Q1 : forall k, this (qz k) = inject_Z k) by (intro k; apply Qred_identity; apply Z.gcd_1_r).
  pose proof (Z_div_mod_eq_full n (Zpos d)). pose proof (Z.mod_pos_bound n (Zpos d) ltac:(lia)).
  split.
  - apply Qc_leb_le. unfold Qcle. rewrite Q1. unfold Qle. cbn [inject_Z Qnum Qden]. fold (out x). fold n d. nia.
  - apply flt_not_le. intro H1. apply Qc_leb_le in H1. unfold Qcle in H1. rewrite Q1 in H1. unfold Qle in H1. cbn [inject_Z Qnum Qden] in H1. fold (out x) in H1. fold n d in H1. nia.
Qed.
(** square roots of squares of rationals *)
Definition qsqrt (x : Qc_field) : Qc_field := q (Z.sqrt (Qnum (out x))) (Z.to_pos (Z.sqrt (Zpos (Qden (out x))))).
Example ex_sqrt_law : sqrt_law qsqrt.
Proof.
  intros x Hx. apply Qc_leb_le in Hx. unfold Qcle, Qle in Hx. cbn in Hx. apply out_inj. unfold qsqrt, q. unfold out in *. destruct x as [[n d] C]. cbn [this Qnum Qden] in *.
  assert (Cop : rel_prime n (Zpos d)). { apply Zgcd_1_rel_prime. apply Qred_identity2 in C. exact C. }
  change (fmul (Qcmake (n # d) C : Qc_field) (Qcmake (n # d) C : Qc_field)) with (Qcmult (Qcmake (n # d) C) (Qcmake (n # d) C)). cbn [Qcmult Q2Qc this].
  assert (E : Qred ((n # d) * (n # d)) = (n * n # d * d)%Q).
  { apply Qred_identity. cbn [Qmult Qnum Qden]. apply Zgcd_1_rel_prime. change (Zpos (d * d)) with (Zpos d * Zpos d)%Z.
    apply rel_prime_sym, rel_prime_mult; apply rel_prime_sym, rel_prime_mult; (exact Cop || apply rel_prime_sym; exact Cop) || idtac. }
  rewrite E. cbn [Qnum Qden]. rewrite Z.sqrt_square by lia. change (Zpos (d * d)) with (Zpos d * Zpos d)%Z. rewrite Z.sqrt_square by lia. exact C.
Qed.
(** the rings of nside 4 *)
Example ex_ring_num : forallb (fun k => (ring_num qsqrt qtrunc 4 (ring_z 4 (Z.of_nat k)) =? Z.of_nat k)%Z) (seq 1 15) = true.
Proof. vm_compute. reflexivity. Qed.
Example ex_width : width_ok (F:=Qc_field) qtrunc (qz 360) (q 360 8) 5 = true /\ nx_full (F:=Qc_field) qtrunc (qz 360) (q 360 8) = 8.
Proof. split; vm_compute; reflexivity. Qed.
(** declination increasing and right ascension decreasing along the array *)
Example ex_sky : let g := car_geometry (F:=Qc_field) 2 3 (qz (-10)) (qz 5) (qz 100) (qz (-20)) in
  cg_fth g = true /\ cg_fph g = true /\ out (cg_theta_min g) = inject_Z 95 /\ out (cg_phi0 g) = inject_Z 60.
Proof. vm_compute. repeat split; reflexivity. Qed.
(** an inexact analysis (half the exact one): the residual after one iteration is a quarter of the map *)
Definition halve (x : list (list Qc_field)) : list (list Qc_field) := map (map (fun a => fmul (q 1 2) a)) x.
Lemma ex_dist (a b c : Qc_field) : fsub (fmul a b) (fmul a c) = fmul a (fsub b c).
Proof. change (Qcminus (Qcmult a b) (Qcmult a c) = Qcmult a (Qcminus b c)). ring. Qed.
Example ex_transforms : transforms halve (fun x => x) 1 3 3.
Proof.
  split; [|split; [|split]].
  - intros x. apply shaped_map. intros r Hr. rewrite map_length. exact Hr.
  - auto.
  - intros x y Sx Sy. assert (SH : forall x, shaped 1 3 x -> shaped 1 3 (halve x)) by (intros z; apply shaped_map; intros r Hr; rewrite map_length; exact Hr).
    apply (mat_eq 1 3); [apply SH, msub_shaped; assumption | apply msub_shaped; auto |]. intros i j Hi Hj. rewrite (g_msub 1 3) by auto.
    assert (G : forall z, shaped 1 3 z -> nth j (nth i (halve z) []) f0 = fmul (q 1 2) (nth j (nth i z []) f0)).
    { intros z Sz. unfold halve. rewrite (nth_indep _ [] (map (fun a => fmul (q 1 2) a) [])) by (rewrite map_length, (proj1 Sz); exact Hi). rewrite (map_nth (map (fun a : Qc_field => fmul (q 1 2) a)) z []).
      rewrite (nth_indep _ f0 (fmul (q 1 2) f0)) by (rewrite map_length, (shaped_nth 1 3 z i [] Sz Hi); exact Hj). apply (map_nth (fun a : Qc_field => fmul (q 1 2) a)). }
    rewrite !G by (try apply msub_shaped; assumption). rewrite (g_msub 1 3) by assumption. rewrite ex_dist. reflexivity.
  - reflexivity.
Qed.
Example ex_iterate : exists alm, map2alm (F:=Qc_field) halve (fun x => x) (Hpx 1 (qz 1)) 1 [map qz [4; 8; 12]] = Ok alm /\ map (map out) alm = [map inject_Z [3; 6; 9]].
Proof. apply ex_ok. vm_compute. reflexivity. Qed.
(** a history with accepted and refused calls *)
Example ex_settings : let r := settings (F:=Qc_field) qtrunc false (init_params false (q 1 10000000000)) [SetCalc "ducc"; SetIter (Fin (q 7 2)) true; SetTol (Fin (qz 2)); SetIter NInf false; SetTol (Fin (q 1 2)); SetCalc "libsharp"] in
  snd r = [Exn ValueError; Ok tt; Exn ValueError; Exn ValueError; Ok tt; Exn KeyError] /\ n_iter_mask_default (fst r) = 3 /\ sht_calculator (fst r) = "healpy"%string.
Proof. vm_compute. repeat split; reflexivity. Qed.
Example ex_trunc_nonneg : trunc_nonneg qtrunc.
Proof. intros x Hx. apply Qc_leb_le in Hx. unfold qtrunc. apply Z.div_pos; [|lia]. unfold Qcle, Qle in Hx. cbn in Hx. unfold out. lia. Qed.

Print Assumptions C46_layout. Print Assumptions C46_negative.
Print Assumptions C47_python_and_c_agree. Print Assumptions C47_partition. Print Assumptions C47_unique_ring. Print Assumptions C47_mirror. Print Assumptions C47_ring_of_centre. Print Assumptions C47_accepted_sizes. Print Assumptions C47_nside_one_refuted.
Print Assumptions C48_unpad_pad. Print Assumptions C48_values. Print Assumptions C48_total. Print Assumptions C48_rings_long_enough. Print Assumptions C48_dot.
Print Assumptions C49_sky. Print Assumptions C49_same_sky. Print Assumptions C49_injective. Print Assumptions C49_wrong_shape.
Print Assumptions C50_residual. Print Assumptions C50_exact_fixed. Print Assumptions C50_additive.
Print Assumptions C51_rejected_unchanged. Print Assumptions C51_accepted. Print Assumptions C51_takes_effect. Print Assumptions C51_always_valid. Print Assumptions C51_nan_refuted.
