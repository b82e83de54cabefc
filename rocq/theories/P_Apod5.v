(** C64: with square pixels, apodisation of the transposed flat mask gives the transposed result.
    Concrete cases for the theorems of P_Apod.v, P_Apod2.v and P_Apod3.v. *)
From Coq Require Import String QArith Qcanon.
From Verif Require Import Base M_Utils L_Utils M_Field M_Apod L_Apod P_Apod P_Apod2 M_ApodPar P_Apod3.
Open Scope Z_scope.

Section P.
Context {F : ofield}.
Local Open Scope F_scope.
Add Field FfPAp5 : (fth F).
Lemma argmin {A} (f : A -> F) (l : list A) : l <> [] -> exists a, In a l /\ forall b, In b l -> f a <= f b.
Proof.
  induction l as [|x l IH]; [congruence|]. intros _. destruct l as [|y l].
  - exists x. split; [left; reflexivity|]. intros b [<-|[]]. apply fle_refl.
  - destruct IH as [a [Ia Ha]]; [discriminate|]. destruct (fle_total (f x) (f a)) as [L|L].
    + exists x. split; [left; reflexivity|]. intros b [<-|Hb]; [apply fle_refl|]. eapply fle_trans; [exact L | apply Ha; exact Hb].
    + exists a. split; [right; exact Ia|]. intros b [<-|Hb]; [exact L | apply Ha; exact Hb].
Qed.
Definition transpose (k : nat) (rows : list (list F)) : list (list F) := tab k (fun x => tab (length rows) (fun y => nth x (nth y rows []) 0)).
Lemma transpose_shaped (k : nat) (rows : list (list F)) : shaped k (length rows) (transpose k rows).
Proof. split; [apply length_tab|]. apply Forall_forall. intros r Hr. unfold transpose, tab in Hr. apply in_map_iff in Hr. destruct Hr as [x [<- _]]. apply length_tab. Qed.

Variable M : libm F.
Variable gauss : Z -> Z -> F -> F -> F -> list F -> list F.
Notation apod := (mask_apodization_flat M gauss).
Lemma flat_at (n k x y : nat) : (x < k)%nat -> ((Z.of_nat (y * k + x)) mod Z.of_nat k = Z.of_nat x /\ Z.of_nat (y * k + x) / Z.of_nat k = Z.of_nat y)%Z.
Proof.
  intros H. replace (Z.of_nat (y * k + x)) with (Z.of_nat x + Z.of_nat y * Z.of_nat k)%Z by lia. split.
  - rewrite Z.mod_add by lia. apply Z.mod_small. lia.
  - rewrite Z.div_add by lia. rewrite Z.div_small by lia. lia.
Qed.
Lemma flat_dist_transpose (n k x y u v : nat) (w : F) : (x < k)%nat -> (u < k)%nat -> (y < n)%nat -> (v < n)%nat ->
  flat_dist M (Z.of_nat k) w w (y * k + x) (v * k + u) = flat_dist M (Z.of_nat n) w w (x * n + y) (u * n + v).
Proof.
  intros Hx Hu Hy Hv. unfold flat_dist. destruct (flat_at n k x y Hx) as [-> ->]. destruct (flat_at n k u v Hu) as [-> ->].
  destruct (flat_at k n y x Hy) as [-> ->]. destruct (flat_at k n v u Hv) as [-> ->]. cbv zeta. f_equal. ring.
Qed.
Theorem C64_apodization_square (rows : list (list F)) (k : nat) (lx ly aposize : F) (c2 : bool) (out out' : imap F) :
  trunc_pos M -> (forall x : F, 0 <= x -> 0 <= m_sqrt M x /\ m_sqrt M x * m_sqrt M x = x) -> 0 < m_pi M ->
  0 < aposize -> (0 < k)%nat -> Forall (fun r => length r = k) rows -> rows <> [] ->
  lx / fofnat k = ly / fofnat (length rows) -> radians M aposize <= fofZ 100000 ->
  apod (I2 k rows) lx ly aposize (Some (ty c2)) = Ok out ->
  apod (I2 (length rows) (transpose k rows)) ly lx aposize (Some (ty c2)) = Ok out' ->
  forall x y, (x < k)%nat -> (y < length rows)%nat -> pix out (y * k + x) = pix out' (x * length rows + y).
Proof.
  intros HT HSq HPi Ha Hk HF Hr Hw Hs E E' x y Hx Hy.
  set (n := length rows) in *. assert (Hn : (0 < n)%nat) by lia.
  assert (Sh : shaped n k rows) by (split; [reflexivity | exact HF]). pose proof (transpose_shaped k rows) as Sh'. fold n in Sh'.
  assert (HF' : Forall (fun r => length r = n) (transpose k rows)) by apply Sh'. assert (HL' : length (transpose k rows) = k) by apply Sh'.
  assert (CV : forall u v, (u < k)%nat -> (v < n)%nat -> pix (I2 n (transpose k rows)) (u * n + v) = pix (I2 k rows) (v * k + u)).
  { intros u v Hu Hv. unfold pix. cbn [ivals]. rewrite (nth_concat k n) by assumption. rewrite (nth_concat n k) by assumption. unfold transpose. rewrite nth_tab by exact Hu. fold n. rewrite nth_tab by exact Hv. reflexivity. }
  assert (LC : length (concat rows) = (n * k)%nat) by (apply length_concat; exact Sh). assert (LC' : length (concat (transpose k rows)) = (k * n)%nat) by (apply length_concat; exact Sh').
  assert (Hw' : ly / fofnat n = lx / fofnat (length (transpose k rows))) by (rewrite HL'; symmetry; exact Hw).
  assert (Hp : (y * k + x < n * k)%nat) by nia. assert (Hp' : (x * n + y < k * n)%nat) by nia.
  destruct (fle_lt_dec (pix (I2 k rows) (y * k + x)) 0) as [Mp|Mp].
  { destruct (api_flat M gauss rows k lx ly aposize c2 out Ha Hk HF E) as (npx & npy & o & L1 & L2 & L3 & -> & L5 & L6 & L7 & L8 & HP).
    destruct (api_flat M gauss (transpose k rows) n ly lx aposize c2 out' Ha Hn HF' E') as (npx' & npy' & o' & L1' & L2' & L3' & -> & L5' & L6' & L7' & L8' & HP').
    unfold pix. cbn [ivals]. rewrite L5, L5'.
    specialize (HP (y * k + x)%nat). rewrite LC in HP. specialize (HP Hp). specialize (HP' (x * n + y)%nat). rewrite LC' in HP'. specialize (HP' Hp').
    apply flat_cases in HP; [|lia | rewrite LC; exact Hp]. apply flat_cases in HP'; [|lia | rewrite LC'; exact Hp'].
    pose proof (CV x y Hx Hy) as C0. unfold pix in C0, Mp. cbn [ivals] in C0, Mp. cbv zeta in HP, HP'. rewrite C0 in HP'.
    destruct HP as [[_ ->]|[C _]]; [|exfalso; apply (proj1 (fle_not_lt _ _) Mp C)]. destruct HP' as [[_ ->]|[C _]]; [reflexivity | exfalso; apply (proj1 (fle_not_lt _ _) Mp C)]. }
  set (w := lx / fofnat k) in *.
  set (cand := filter (fun q => andb (pix (I2 k rows) q <=? 0) (flat_dist M (Z.of_nat k) w w (y * k + x) q <? radians M aposize)) (seq 0 (n * k))).
  assert (QS : forall q, (q < n * k)%nat -> exists u v, (u < k)%nat /\ (v < n)%nat /\ q = (v * k + u)%nat).
  { intros q Hq. exists (q mod k)%nat, (q / k)%nat. split; [apply Nat.mod_upper_bound; lia|]. split; [apply Nat.div_lt_upper_bound; lia|]. rewrite Nat.mul_comm. apply Nat.div_mod. lia. }
  assert (QS' : forall q, (q < k * n)%nat -> exists u v, (u < k)%nat /\ (v < n)%nat /\ q = (u * n + v)%nat).
  { intros q Hq. exists (q / n)%nat, (q mod n)%nat. split; [apply Nat.div_lt_upper_bound; lia|]. split; [apply Nat.mod_upper_bound; lia|]. rewrite Nat.mul_comm. apply Nat.div_mod. lia. }
  assert (IC : forall q, In q cand <-> (q < n * k)%nat /\ pix (I2 k rows) q <= 0 /\ flat_dist M (Z.of_nat k) w w (y * k + x) q < radians M aposize).
  { intros q. unfold cand. rewrite filter_In, in_seq, andb_true_iff. unfold fle, flt. intuition lia. }
  assert (D : cand = [] \/ cand <> []) by (destruct cand; [left; reflexivity | right; discriminate]).
  destruct D as [D|D].
  - rewrite (C58_flat_far M gauss rows k lx ly aposize c2 out (y * k + x) Ha Hk HF Hw Hs E); [| rewrite LC; exact Hp |].
    + rewrite (C58_flat_far M gauss (transpose k rows) n ly lx aposize c2 out' (x * n + y) Ha Hn HF' Hw' Hs E'); [symmetry; apply CV; assumption | rewrite LC'; exact Hp' |].
      intros q Hq Mq. rewrite LC' in Hq. destruct (QS' q Hq) as (u & v & Hu & Hv & ->). rewrite CV in Mq by assumption. rewrite <- Hw'. rewrite <- Hw.
      rewrite <- (flat_dist_transpose n k x y u v w Hx Hu Hy Hv). apply flt_false. apply not_true_iff_false. intros C.
      assert (I : In (v * k + u)%nat cand) by (apply IC; split; [nia | split; [exact Mq | exact C]]). rewrite D in I. destruct I.
    + intros q Hq Mq. rewrite LC in Hq. fold n. fold w. rewrite <- Hw. apply flt_false. apply not_true_iff_false. intros C.
      assert (I : In q cand) by (apply IC; split; [exact Hq | split; [exact Mq | exact C]]). rewrite D in I. destruct I.
  - destruct (argmin (flat_dist M (Z.of_nat k) w w (y * k + x)) cand D) as [q [Iq Hq]]. apply IC in Iq. destruct Iq as [Q1 [Q2 Q3]].
    assert (MIN : forall r, (r < n * k)%nat -> pix (I2 k rows) r <= 0 -> flat_dist M (Z.of_nat k) w w (y * k + x) q <= flat_dist M (Z.of_nat k) w w (y * k + x) r).
    { intros r Hr' Mr. destruct (fle_lt_dec (radians M aposize) (flat_dist M (Z.of_nat k) w w (y * k + x) r)) as [L|L].
      - eapply fle_trans; [apply flt_le; exact Q3 | exact L].
      - apply Hq. apply IC. split; [exact Hr' | split; [exact Mr | exact L]]. }
    destruct (QS q Q1) as (u & v & Hu & Hv & ->).
    rewrite (C58_flat_nearest M gauss rows k lx ly aposize c2 out (y * k + x) (v * k + u) HT HSq HPi Ha Hk HF Hw Hs E); rewrite ?LC; fold n; fold w; rewrite <- ?Hw; try assumption.
    rewrite (C58_flat_nearest M gauss (transpose k rows) n ly lx aposize c2 out' (x * n + y) (u * n + v) HT HSq HPi Ha Hn HF' Hw' Hs E'); rewrite ?LC'; rewrite <- ?Hw', <- ?Hw; fold w; rewrite ?CV by assumption; rewrite <- ?(flat_dist_transpose n k x y u v w Hx Hu Hy Hv); try assumption.
    + reflexivity.
    + nia.
    + intros r Hr' Mr. destruct (QS' r Hr') as (u' & v' & Hu' & Hv' & ->). rewrite CV in Mr by assumption. rewrite <- (flat_dist_transpose n k x y u' v' w Hx Hu' Hy Hv'). apply MIN; [nia | exact Mr].
Qed.
End P.
Print Assumptions C64_apodization_square.
