(** Lemmas about mask apodisation (M_Apod.v). *)
From Coq Require Import String Permutation.
From Verif Require Import Base M_Utils M_Field M_Apod.
Open Scope Z_scope.

Lemma in_range (lo hi x : Z) : In x (range lo hi) <-> (lo <= x <= hi).
Proof.
  unfold range. rewrite in_map_iff. split.
  - intros [k [E H]]. apply in_seq in H. lia.
  - intros H. exists (Z.to_nat (x - lo)). split; [lia|]. apply in_seq. lia.
Qed.
Lemma range_length (lo hi : Z) : length (range lo hi) = Z.to_nat (hi - lo + 1).
Proof. unfold range. rewrite map_length, seq_length. reflexivity. Qed.
Lemma range_nth (lo hi : Z) (n : nat) : (n < Z.to_nat (hi - lo + 1))%nat -> nth_error (range lo hi) n = Some (lo + Z.of_nat n).
Proof.
  intros H. unfold range. rewrite nth_error_map.
  assert (E : nth_error (seq 0 (Z.to_nat (hi - lo + 1))) n = Some n).
  { rewrite (nth_error_nth' _ 0%nat) by (rewrite seq_length; exact H). rewrite seq_nth by exact H. reflexivity. }
  rewrite E. reflexivity.
Qed.

Lemma apo_nside_ok (fuel : nat) (n npix k : Z) : apo_nside fuel n npix = Ok k -> npix = (12 * k * k)%Z /\ ((1 <= n)%Z -> (1 <= k)%Z).
Proof.
  revert n. induction fuel as [|f IH]; intros n; cbn [apo_nside]; [discriminate|].
  destruct (12 * n * n =? npix)%Z eqn:E; [intros H; injection H as <-; split; lia|].
  destruct (65536 <? n)%Z; [discriminate|]. intros H. apply IH in H. split; [tauto | lia].
Qed.

Section L.
Context {F : ofield}.
Local Open Scope F_scope.
Add Field FfAp : (fth F).
Implicit Types (mask : list F).

(** running minimum over the masked pixels *)
Definition minstep {A : Type} (mask : list F) (g : A -> Z) (h : A -> F) (r : F) (p : A) : res F :=
  do m2 <- rd mask (g p); Ok (if m2 <=? 0 then (let d := h p in if d <? r then d else r) else r).
Definition masked (mask : list F) (i : Z) : Prop := exists m, rd mask i = Ok m /\ m <= 0.
Lemma minfold {A : Type} (mask : list F) (g : A -> Z) (h : A -> F) (l : list A) (r0 r : F) : foldM (minstep mask g h) r0 l = Ok r ->
  r <= r0 /\ (forall p, In p l -> masked mask (g p) -> r <= h p) /\ (r = r0 \/ exists p, In p l /\ masked mask (g p) /\ r = h p).
Proof.
  revert r0. induction l as [|p l IH]; intros r0; simpl.
  - intros E. injection E as <-. split; [apply fle_refl|]. split; [intros p []|]. left. reflexivity.
  - unfold minstep at 1. destruct (rd mask (g p)) as [m| |] eqn:Em; try discriminate. simpl.
    intros E. apply IH in E. destruct E as [H1 [H2 H3]].
    assert (B : (if m <=? 0 then (if h p <? r0 then h p else r0) else r0) <= r0).
    { destruct (m <=? 0); [|apply fle_refl]. destruct (h p <? r0) eqn:C; [apply flt_le; exact C | apply fle_refl]. }
    split; [eapply fle_trans; [exact H1 | exact B]|]. split.
    + intros q [->|I] Hm; [|apply H2; assumption].
      destruct Hm as [m' [Em' Hm]]. rewrite Em in Em'. injection Em' as <-. rewrite Hm in H1.
      eapply fle_trans; [exact H1|]. destruct (h q <? r0) eqn:C; [apply fle_refl|].
      unfold fltb in C. apply negb_false_iff in C. exact C.
    + destruct H3 as [->|[q [I [Mq Eq]]]].
      * destruct (m <=? 0) eqn:C; [|left; reflexivity]. destruct (h p <? r0) eqn:C2; [|left; reflexivity].
        right. exists p. split; [left; reflexivity|]. split; [exists m; split; [exact Em | exact C] | reflexivity].
      * right. exists q. split; [right; exact I|]. split; assumption.
Qed.
Lemma minfold_ok {A : Type} (mask : list F) (g : A -> Z) (h : A -> F) (l : list A) (r0 : F) :
  (forall p, In p l -> (0 <= g p < Z.of_nat (length mask))%Z) -> exists r, foldM (minstep mask g h) r0 l = Ok r.
Proof.
  revert r0. induction l as [|p l IH]; intros r0 H; simpl; [exists r0; reflexivity|].
  unfold minstep at 1. rewrite (rd_nth mask (g p) 0) by (apply H; left; reflexivity). simpl.
  apply IH. intros q I. apply H. right. exact I.
Qed.
Lemma masked_nth (mask : list F) (p : nat) : (p < length mask)%nat -> masked mask (Z.of_nat p) <-> nth p mask 0 <= 0.
Proof.
  intros H. unfold masked. rewrite (rd_nat mask p 0 H). split.
  - intros [m [E L]]. injection E as <-. exact L.
  - intros L. exists (nth p mask 0). split; [reflexivity | exact L].
Qed.
Lemma flt_false (x y : F) : (x <? y) = false -> y <= x.
Proof. unfold fltb. intros H. apply negb_false_iff in H. exact H. Qed.
Lemma fle_false (x y : F) : (x <=? y) = false -> y < x.
Proof. intros H. apply flt_not_le. unfold fle. rewrite H. discriminate. Qed.
Lemma ratio_range (d t : F) : 0 <= d -> d < t -> 0 <= d * (1 / t) /\ d * (1 / t) < 1.
Proof.
  intros H0 H1. assert (T : 0 < t) by (eapply fle_lt_trans; eassumption).
  pose proof (fpos_neq t T) as N. pose proof (finv_pos t T) as P.
  assert (E : d * (1 / t) = d * / t) by (rewrite !(Fdiv_def (fth F)); ring). rewrite E. split.
  - apply fmul_nonneg; [exact H0 | apply flt_le; exact P].
  - apply flt_sub_0. assert (E2 : 1 - d * / t = (t - d) * / t) by (field; exact N). rewrite E2.
    apply fmul_pos; [apply (proj1 (flt_sub_0 d t)); exact H1 | exact P].
Qed.
Lemma sqr_lt_1 (s : F) : 0 <= s -> s * s < 1 -> s < 1.
Proof.
  intros H0 H1. apply flt_not_le. intros C. apply (flt_not_le (s * s) 1); [exact H1|].
  eapply fle_trans; [exact C|]. assert (E : s = s * 1) by ring. rewrite E at 1. apply fle_mul_l; assumption.
Qed.
Lemma mul_between (m f : F) : 0 <= m -> 0 <= f -> f <= 1 -> 0 <= m * f /\ m * f <= m.
Proof.
  intros A B C. split; [apply fmul_nonneg; assumption|]. assert (E : m = m * 1) by ring. rewrite E at 2. apply fle_mul_l; assumption.
Qed.
End L.

Section Spec.
Context {F : ofield}.
Local Open Scope F_scope.
Add Field FfAp2 : (fth F).
Variable M : libm F.
Variable centre_of : Z -> Z -> centre F.
(** what the theorems need of libm; met by the real functions (P_Apod4.v) *)
Record win_laws : Prop := WinLaws {
  wl_sqrt : forall x : F, 0 <= x -> x < 1 -> 0 <= m_sqrt M x /\ m_sqrt M x <= 1;
  wl_sqrt_pos : forall x : F, 0 < x -> x < 1 -> 0 < m_sqrt M x;
  wl_range : forall (c2 : bool) (x : F), 0 <= x -> x <= 1 -> 0 <= window M c2 x /\ window M c2 x <= 1;
  wl_pos : forall (c2 : bool) (x : F), 0 < x -> x <= 1 -> 0 < window M c2 x }.
Definition dist2 (nside : Z) (p q : nat) : F := x2 (centre_of nside (Z.of_nat p)) (centre_of nside (Z.of_nat q)).
Definition thr (aposize : F) : F := 1 - m_cos M (radians M aposize).

Lemma x2dist_is (nside : Z) (mask : list F) (ip : Z) (disc : list Z) :
  x2dist centre_of nside mask ip disc = foldM (minstep mask (fun q => q) (fun q => x2 (centre_of nside ip) (centre_of nside q))) (fofZ 1000) disc.
Proof. reflexivity. Qed.

(** the four possibilities for a pixel *)
Lemma pixel_cases (nside : Z) (mask : list F) (aporad : F) (c2 : bool) (len : Z) (p : nat) (v : F) : (p < length mask)%nat ->
  apodized_pixel M centre_of nside mask aporad c2 len (Z.of_nat p) = Ok v ->
  let m := nth p mask 0 in
  let t := 1 - m_cos M aporad in
  (m <= 0 /\ v = m) \/
  (0 < m /\ exists disc d, query_disc M nside (v_z (centre_of nside (Z.of_nat p))) (v_phi (centre_of nside (Z.of_nat p))) (dec 6 5 * aporad) (len / 2) = Ok disc /\
     d <= fofZ 1000 /\
     (forall q, In q disc -> masked mask q -> d <= x2 (centre_of nside (Z.of_nat p)) (centre_of nside q)) /\
     (d = fofZ 1000 \/ exists q, In q disc /\ masked mask q /\ d = x2 (centre_of nside (Z.of_nat p)) (centre_of nside q)) /\
     ((t <= d /\ v = m) \/ (d < t /\ d <= 0 /\ v = 0) \/ (d < t /\ 0 < d /\ v = m * window M c2 (m_sqrt M (d * (1 / t)))))).
Proof.
  intros Hp. unfold apodized_pixel. rewrite (rd_nat mask p 0 Hp). simpl. intros E. cbv zeta.
  destruct (0 <? nth p mask 0) eqn:C.
  - right. split; [exact C|].
    destruct (query_disc _ _ _ _ _ _) as [disc| |] eqn:Q; try discriminate. simpl in E.
    destruct (x2dist centre_of nside mask (Z.of_nat p) disc) as [d| |] eqn:D; try discriminate. simpl in E.
    rewrite x2dist_is in D. apply minfold in D. destruct D as [D1 [D2 D3]].
    exists disc, d. split; [reflexivity|]. split; [exact D1|]. split; [exact D2|]. split; [exact D3|].
    destruct (d <? 1 - m_cos M aporad) eqn:T.
    + right. destruct (d <=? 0) eqn:Z0.
      * left. split; [exact T|]. split; [exact Z0|]. injection E as <-. ring.
      * right. split; [exact T|]. split; [apply fle_false; exact Z0|]. injection E as <-. reflexivity.
    + left. split; [apply flt_false; exact T|]. injection E as <-. reflexivity.
  - left. injection E as <-. split; [apply flt_false; exact C | reflexivity].
Qed.

Definition ty (c2 : bool) : apo := if c2 then C2 else C1.
Lemma api_sphere (K : calc F) (mask : list F) (aposize : F) (c2 : bool) (out : list F) : 0 < aposize ->
  mask_apodization M centre_of K mask aposize (Some (ty c2)) = Ok out ->
  exists nside len, (1 <= nside)%Z /\ Z.of_nat (length mask) = (12 * nside * nside)%Z /\ list_size M nside (dec 6 5 * radians M aposize) = Ok len /\ length out = length mask /\
    forall p, (p < length mask)%nat -> apodized_pixel M centre_of nside mask (radians M aposize) c2 len (Z.of_nat p) = Ok (nth p out 0).
Proof.
  intros Ha E. unfold mask_apodization, apomask in E.
  destruct (apo_nside 18 1 (Z.of_nat (length mask))) as [n| |] eqn:N; try (destruct c2; discriminate).
  apply apo_nside_ok in N. destruct N as [N N1]. specialize (N1 ltac:(lia)).
  assert (E' : apodize_CX M centre_of n mask aposize c2 = Ok out).
  { revert E. cbv beta iota zeta delta [bind nmt_apodize_mask].
    assert (A1 : (aposize <? 0) = false) by (unfold fltb; apply negb_false_iff; apply flt_le; exact Ha).
    assert (A2 : (aposize =? 0) = false) by (apply feqb_neq; apply fpos_neq; exact Ha).
    rewrite A1, A2. destruct c2; simpl; destruct (apodize_CX M centre_of n mask aposize _); intro H; try discriminate; exact H. }
  clear E. unfold apodize_CX in E'. destruct (list_size M n _) as [len| |] eqn:L; try discriminate. cbn [bind] in E'.
  exists n, len. split; [exact N1|]. split; [lia|]. split; [exact L|].
  pose proof (mapM_length _ _ _ E') as EL. rewrite range_length in EL. split; [lia|].
  intros p Hp. destruct (mapM_inv _ _ _ E' p (0 + Z.of_nat p)%Z) as [b [B1 B2]].
  { apply range_nth. lia. }
  rewrite Z.add_0_l in B1. rewrite B1. f_equal. symmetry. apply nth_error_nth. exact B2.
Qed.
End Spec.
