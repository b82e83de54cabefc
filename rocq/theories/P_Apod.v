(** C58, C59: apodisation of HEALPix masks. *)
From Coq Require Import String QArith Qcanon.
From Verif Require Import Base M_Utils M_Field M_Apod L_Apod.
Open Scope Z_scope.

Section P.
Context {F : ofield}.
Local Open Scope F_scope.
Add Field FfPAp : (fth F).
Variable M : libm F.
Variable centre_of : Z -> Z -> centre F.
Notation mask_apodization := (mask_apodization M centre_of).
Notation dist2 := (dist2 centre_of).
Notation thr := (thr M).

(** masked pixels are left alone and the others stay between zero and their value *)
Theorem C58_bounds (K : calc F) (mask : list F) (aposize : F) (c2 : bool) (out : list F) : win_laws M -> 0 < aposize ->
  mask_apodization K mask aposize (Some (ty c2)) = Ok out ->
  length out = length mask /\
  forall p, (p < length mask)%nat ->
    (nth p mask 0 <= 0 -> nth p out 0 = nth p mask 0) /\ (0 < nth p mask 0 -> 0 <= nth p out 0 /\ nth p out 0 <= nth p mask 0).
Proof.
  intros W Ha E. destruct (api_sphere M centre_of K mask aposize c2 out Ha E) as [n [len [N1 [N2 [_ [EL HP]]]]]].
  split; [exact EL|]. intros p Hp. specialize (HP p Hp). apply pixel_cases in HP; [|exact Hp]. cbv zeta in HP.
  destruct HP as [[Hm Hv]|[Hm [disc [d [_ [_ [_ [_ HV]]]]]]]].
  - rewrite Hv. split; [reflexivity|]. intros C. exfalso. revert Hm. apply flt_not_le. exact C.
  - split; [intros C; exfalso; revert C; apply flt_not_le; exact Hm|]. intros _.
    destruct HV as [[_ ->]|[[_ [_ ->]]|[T [D ->]]]].
    + split; [apply flt_le; exact Hm | apply fle_refl].
    + split; [apply fle_refl | apply flt_le; exact Hm].
    + destruct (ratio_range d _ (flt_le _ _ D) T) as [R0 R1].
      destruct (wl_sqrt M W _ R0 R1) as [S0 S1]. destruct (wl_range M W c2 _ S0 S1) as [W0 W1].
      apply mul_between; [apply flt_le; exact Hm | exact W0 | exact W1].
Qed.

(** a positive pixel stays positive as long as no masked pixel has the same centre *)
Theorem C58_positive (K : calc F) (mask : list F) (aposize : F) (c2 : bool) (out : list F) (p : nat) : win_laws M -> 0 < aposize ->
  mask_apodization K mask aposize (Some (ty c2)) = Ok out -> (p < length mask)%nat -> 0 < nth p mask 0 ->
  (forall nside q, Z.of_nat (length mask) = (12 * nside * nside)%Z -> (1 <= nside)%Z -> (q < length mask)%nat -> nth q mask 0 <= 0 -> 0 < dist2 nside p q) ->
  0 < nth p out 0.
Proof.
  intros W Ha E Hp Hm HD. destruct (api_sphere M centre_of K mask aposize c2 out Ha E) as [n [len [N1 [N2 [_ [EL HP]]]]]].
  specialize (HP p Hp). apply pixel_cases in HP; [|exact Hp]. cbv zeta in HP.
  destruct HP as [[C _]|[_ [disc [d [_ [_ [_ [HF HV]]]]]]]]; [exfalso; revert C; apply flt_not_le; exact Hm|].
  assert (D : 0 < d).
  { destruct HF as [->|[q [_ [Mq ->]]]]; [apply fofZ_pos; lia|].
    destruct Mq as [m [Rq Lq]]. apply rd_ok in Rq. destruct Rq as [Q0 Q1].
    assert (Q2 : (Z.to_nat q < length mask)%nat) by (apply nth_error_Some; rewrite Q1; discriminate).
    specialize (HD n (Z.to_nat q) N2 N1 Q2). unfold L_Apod.dist2 in HD. rewrite Z2Nat.id in HD by exact Q0. apply HD.
    rewrite (nth_error_nth _ _ 0 Q1). exact Lq. }
  destruct HV as [[_ ->]|[[_ [C _]]|[T [_ ->]]]]; [exact Hm | exfalso; revert C; apply flt_not_le; exact D|].
  destruct (ratio_range d _ (flt_le _ _ D) T) as [R0 R1].
  destruct (wl_sqrt M W _ R0 R1) as [S0 S1]. apply fmul_pos; [exact Hm|]. apply (wl_pos M W); [|exact S1]. apply (wl_sqrt_pos M W); [|exact R1].
  rewrite (Fdiv_def (fth F)). apply fmul_pos; [exact D|]. apply fmul_pos; [apply f0_lt_1|]. apply finv_pos. eapply flt_trans; eassumption.
Qed.

(** a pixel farther than the scale from every masked pixel keeps its value *)
Theorem C58_far (K : calc F) (mask : list F) (aposize : F) (c2 : bool) (out : list F) (p : nat) : 0 < aposize -> - (1) <= m_cos M (radians M aposize) ->
  mask_apodization K mask aposize (Some (ty c2)) = Ok out -> (p < length mask)%nat ->
  (forall nside q, Z.of_nat (length mask) = (12 * nside * nside)%Z -> (1 <= nside)%Z -> (q < length mask)%nat -> nth q mask 0 <= 0 -> thr aposize <= dist2 nside p q) ->
  nth p out 0 = nth p mask 0.
Proof.
  intros Ha Hc E Hp HD. destruct (api_sphere M centre_of K mask aposize c2 out Ha E) as [n [len [N1 [N2 [_ [EL HP]]]]]].
  specialize (HP p Hp). apply pixel_cases in HP; [|exact Hp]. cbv zeta in HP.
  destruct HP as [[_ ->]|[_ [disc [d [_ [_ [_ [HF HV]]]]]]]]; [reflexivity|].
  assert (D : 1 - m_cos M (radians M aposize) <= d).
  { destruct HF as [->|[q [_ [Mq ->]]]].
    - apply fle_trans with (fofZ 2); [|apply fofZ_le; lia]. apply fle_sub_0.
      assert (E2 : fofZ 2 - (1 - m_cos M (radians M aposize)) = m_cos M (radians M aposize) - - (1)) by (change (fofZ 2 : F) with (1 + 1 : F); ring).
      rewrite E2. apply (proj1 (fle_sub_0 _ _)). exact Hc.
    - destruct Mq as [m [Rq Lq]]. apply rd_ok in Rq. destruct Rq as [Q0 Q1].
      assert (Q2 : (Z.to_nat q < length mask)%nat) by (apply nth_error_Some; rewrite Q1; discriminate).
      specialize (HD n (Z.to_nat q) N2 N1 Q2). unfold L_Apod.dist2 in HD. rewrite Z2Nat.id in HD by exact Q0. apply HD.
      rewrite (nth_error_nth _ _ 0 Q1). exact Lq. }
  destruct HV as [[_ ->]|[[T _]|[T _]]]; [reflexivity | exfalso; revert D; apply flt_not_le; exact T | exfalso; revert D; apply flt_not_le; exact T].
Qed.

(** otherwise it is multiplied by the documented window at the distance of the nearest masked pixel, provided the disc
    query returns every pixel closer than the scale ([complete]; C74 says when it does) *)
Definition complete (nside : Z) (aposize : F) (p : nat) : Prop :=
  forall cap disc q, query_disc M nside (v_z (centre_of nside (Z.of_nat p))) (v_phi (centre_of nside (Z.of_nat p))) (dec 6 5 * radians M aposize) cap = Ok disc ->
    (Z.of_nat q < 12 * nside * nside)%Z -> dist2 nside p q < thr aposize -> In (Z.of_nat q) disc.
Theorem C58_nearest (K : calc F) (mask : list F) (aposize : F) (c2 : bool) (out : list F) (p q nside : nat) : 0 < aposize -> - (1) <= m_cos M (radians M aposize) ->
  mask_apodization K mask aposize (Some (ty c2)) = Ok out -> length mask = (12 * nside * nside)%nat ->
  complete (Z.of_nat nside) aposize p -> (p < length mask)%nat -> (q < length mask)%nat ->
  0 < nth p mask 0 -> nth q mask 0 <= 0 ->
  (forall r, (r < length mask)%nat -> nth r mask 0 <= 0 -> dist2 (Z.of_nat nside) p q <= dist2 (Z.of_nat nside) p r) ->
  0 < dist2 (Z.of_nat nside) p q -> dist2 (Z.of_nat nside) p q < thr aposize ->
  nth p out 0 = nth p mask 0 * window M c2 (m_sqrt M (dist2 (Z.of_nat nside) p q / thr aposize)).
Proof.
  intros Ha Hc E N0 HC Hp Hq Mp Mq Hmin D0 DT. destruct (api_sphere M centre_of K mask aposize c2 out Ha E) as [n [len [N1 [N2 [_ [EL HP]]]]]].
  assert (En : n = Z.of_nat nside) by nia. rewrite En in *. clear En.
  specialize (HP p Hp). apply pixel_cases in HP; [|exact Hp]. cbv zeta in HP.
  destruct HP as [[C _]|[_ [disc [d [Q [D1 [HI [HF HV]]]]]]]]; [exfalso; revert C; apply flt_not_le; exact Mp|].
  assert (I : In (Z.of_nat q) disc) by (apply (HC _ _ _ Q); [lia | exact DT]).
  assert (Dq : d <= dist2 (Z.of_nat nside) p q) by (apply HI; [exact I | apply masked_nth; assumption]).
  assert (Ed : d = dist2 (Z.of_nat nside) p q).
  { apply fle_antisym; [exact Dq|]. destruct HF as [->|[r [_ [Mr ->]]]].
    - apply flt_le. eapply flt_trans; [exact DT|]. unfold L_Apod.thr. apply fle_lt_trans with (fofZ 2); [|apply fofZ_lt; lia]. apply fle_sub_0.
      assert (E2 : fofZ 2 - (1 - m_cos M (radians M aposize)) = m_cos M (radians M aposize) - - (1)) by (change (fofZ 2 : F) with (1 + 1 : F); ring).
      rewrite E2. apply (proj1 (fle_sub_0 _ _)). exact Hc.
    - destruct Mr as [m [Rr Lr]]. apply rd_ok in Rr. destruct Rr as [R0 R1].
      assert (R2 : (Z.to_nat r < length mask)%nat) by (apply nth_error_Some; rewrite R1; discriminate).
      specialize (Hmin (Z.to_nat r) R2). unfold L_Apod.dist2 in *. rewrite Z2Nat.id in Hmin by exact R0. apply Hmin.
      rewrite (nth_error_nth _ _ 0 R1). exact Lr. }
  rewrite Ed in HV. destruct HV as [[C _]|[[_ [C _]]|[_ [_ ->]]]].
  - exfalso. revert C. apply flt_not_le. exact DT.
  - exfalso. revert C. apply flt_not_le. exact D0.
  - f_equal. f_equal. f_equal. rewrite !(Fdiv_def (fth F)). unfold L_Apod.thr. ring.
Qed.

(** *** Dispatch *)
Definition size_ok (mask : list F) : Prop := exists k, (k <= 17)%nat /\ Z.of_nat (length mask) = (12 * 2 ^ Z.of_nat k * 2 ^ Z.of_nat k)%Z.
Lemma apo_nside_from (k j : nat) : (j + k <= 17)%nat -> apo_nside (S k) (2 ^ Z.of_nat j) (12 * 2 ^ Z.of_nat (j + k) * 2 ^ Z.of_nat (j + k)) = Ok (2 ^ Z.of_nat (j + k))%Z.
Proof.
  revert j. induction k as [|k IH]; intros j Hj; cbn [apo_nside].
  - rewrite Nat.add_0_r, Z.eqb_refl. reflexivity.
  - assert (P : (0 < 2 ^ Z.of_nat j)%Z) by (apply Z.pow_pos_nonneg; lia).
    assert (L : (2 * 2 ^ Z.of_nat j <= 2 ^ Z.of_nat (j + S k))%Z).
    { rewrite <- Z.pow_succ_r by lia. apply Z.pow_le_mono_r; lia. }
    assert (U : (2 ^ Z.of_nat j <= 65536)%Z) by (change 65536%Z with (2 ^ 16)%Z; apply Z.pow_le_mono_r; lia).
    replace (_ =? _)%Z with false by (symmetry; apply Z.eqb_neq; nia).
    replace (65536 <? _)%Z with false by (symmetry; apply Z.ltb_ge; lia).
    replace (2 ^ Z.of_nat j * 2)%Z with (2 ^ Z.of_nat (S j))%Z by (rewrite Nat2Z.inj_succ, Z.pow_succ_r; lia).
    replace (j + S k)%nat with (S j + k)%nat by lia. apply IH. lia.
Qed.
Lemma apo_nside_fuel (f g : nat) (n npix k : Z) : (f <= g)%nat -> apo_nside f n npix = Ok k -> apo_nside g n npix = Ok k.
Proof.
  revert g n. induction f as [|f IH]; intros g n H; cbn [apo_nside]; [discriminate|].
  destruct g as [|g]; [lia|]. cbn [apo_nside]. destruct (_ =? npix)%Z; [auto|]. destruct (65536 <? n)%Z; [auto|]. apply IH. lia.
Qed.
Lemma size_found (mask : list F) : size_ok mask -> exists n, apo_nside 18 1 (Z.of_nat (length mask)) = Ok n.
Proof.
  intros [k [Hk ->]]. exists (2 ^ Z.of_nat k)%Z. apply (apo_nside_fuel (S k)); [lia|]. apply (apo_nside_from k 0). lia.
Qed.
Lemma size_sound (f : nat) (j : nat) (npix n : Z) : (j + f <= 18)%nat -> apo_nside f (2 ^ Z.of_nat j) npix = Ok n -> exists k, (k <= 17)%nat /\ n = (2 ^ Z.of_nat k)%Z.
Proof.
  revert j. induction f as [|f IH]; intros j Hj; cbn [apo_nside]; [discriminate|].
  destruct (_ =? npix)%Z; [intros E; injection E as <-; exists j; split; [lia | reflexivity]|]. destruct (65536 <? _)%Z; [discriminate|].
  replace (2 ^ Z.of_nat j * 2)%Z with (2 ^ Z.of_nat (S j))%Z by (rewrite Nat2Z.inj_succ, Z.pow_succ_r; lia). apply IH. lia.
Qed.
Lemma apo_nside_total (f : nat) (j : nat) (npix : Z) : (j + f = 18)%nat -> (exists n, apo_nside f (2 ^ Z.of_nat j) npix = Ok n) \/ apo_nside f (2 ^ Z.of_nat j) npix = Exn RuntimeError \/ f = 0%nat.
Proof.
  revert j. induction f as [|f IH]; intros j Hj; cbn [apo_nside]; [right; right; reflexivity|].
  destruct (_ =? npix)%Z; [left; eexists; reflexivity|]. destruct (65536 <? 2 ^ Z.of_nat j)%Z eqn:C; [right; left; reflexivity|].
  replace (2 ^ Z.of_nat j * 2)%Z with (2 ^ Z.of_nat (S j))%Z by (rewrite Nat2Z.inj_succ, Z.pow_succ_r; lia).
  destruct (IH (S j) ltac:(lia)) as [H|[H|H]]; [left; exact H | right; left; exact H|].
  exfalso. rewrite H in Hj. assert (j = 17)%nat by lia. subst j. vm_compute in C. discriminate C.
Qed.

Theorem C59_zero_scale (K : calc F) (mask : list F) (c2 : bool) : size_ok mask -> mask_apodization K mask 0 (Some (ty c2)) = Ok mask.
Proof.
  intros H. apply size_found in H. destruct H as [n E]. unfold M_Apod.mask_apodization, apomask. rewrite E. cbn [bind]. unfold nmt_apodize_mask.
  assert (A : ((0 : F) <? 0) = false) by (unfold fltb; apply negb_false_iff; apply fle_refl).
  assert (B : ((0 : F) =? 0) = true) by (apply feqb_eq; reflexivity). rewrite A, B. destruct c2; reflexivity.
Qed.
Theorem C59_negative_scale (K : calc F) (mask : list F) (aposize : F) (t : apo) : size_ok mask -> aposize < 0 -> mask_apodization K mask aposize (Some t) = Exn RuntimeError.
Proof.
  intros H A. apply size_found in H. destruct H as [n E]. unfold M_Apod.mask_apodization, apomask. rewrite E. cbn [bind]. unfold nmt_apodize_mask.
  rewrite A. reflexivity.
Qed.
Theorem C59_unknown_type (K : calc F) (mask : list F) (aposize : F) : mask_apodization K mask aposize None = Exn ValueError.
Proof. reflexivity. Qed.
(** any other number of pixels is refused *)
Theorem C59_wrong_size (K : calc F) (mask : list F) (aposize : F) (t : apo) : ~ size_ok mask -> mask_apodization K mask aposize (Some t) = Exn RuntimeError.
Proof.
  intros H. unfold M_Apod.mask_apodization, apomask.
  destruct (apo_nside_total 18 0 (Z.of_nat (length mask)) eq_refl) as [[n E]|[E|E]]; [|change (2 ^ Z.of_nat 0)%Z with 1%Z in E; rewrite E; reflexivity | discriminate].
  exfalso. apply H. destruct (size_sound 18 0 _ n ltac:(lia) E) as [k [Hk En]]. apply apo_nside_ok in E. exists k. split; [exact Hk|]. rewrite En in E. lia.
Qed.

(** Smooth: the result vanishes wherever the input does *)
Theorem C58_smooth_zero (K : calc F) (mask : list F) (aposize : F) (out : list F) (p : nat) :
  mask_apodization K mask aposize (Some Smooth) = Ok out -> nth p mask 0 = 0 -> nth p out 0 = 0.
Proof.
  unfold M_Apod.mask_apodization. destruct (apomask _ _ _ _ _) as [m| |]; try discriminate. cbn [bind].
  destruct (healpix_nside _) as [n| |]; try discriminate. cbn [bind].
  destruct (sht _ _ _ _ _ _) as [a| |]; try discriminate. cbn [bind].
  destruct (isht _ _ _ _ _) as [r| |]; try discriminate. cbn [bind]. intros E. injection E as <-. intros H.
  generalize (nth 0 r []). clear -H. revert p H. induction mask as [|x mask IH]; intros p H l; [destruct l, p; reflexivity|].
  destruct l as [|y l]; [destruct p; reflexivity|]. destruct p as [|p]; simpl in *; [rewrite H; ring | apply (IH p H l)].
Qed.
(** finding: with Smooth a zero scale is not a copy; with transforms that reproduce the mask it returns the square of the mask *)
Theorem C59_smooth_zero_scale (K : calc F) (mask : list F) (nside : Z) : m_exp M 0 = 1 -> healpix_nside (Z.of_nat (length mask)) = Ok nside -> size_ok mask ->
  (forall s lmax, c_healpy K = true -> exists a, sht K 0 s lmax 3 [mask] = Ok [a] /\ length a = length (ells lmax) /\ isht K 0 s lmax [a] = Ok [mask]) ->
  c_healpy K = true ->
  Forall (fun l => (0 <= l <= 3 * nside - 1)%Z) (ells (3 * nside - 1)) ->
  mask_apodization K mask 0 (Some Smooth) = Ok (zipw fmul mask mask).
Proof.
  intros He HN HS HT HK HF. apply size_found in HS. destruct HS as [n E]. unfold M_Apod.mask_apodization, apomask. rewrite E. cbn [bind]. unfold nmt_apodize_mask.
  assert (A : ((0 : F) <? 0) = false) by (unfold fltb; apply negb_false_iff; apply fle_refl).
  assert (B : ((0 : F) =? 0) = true) by (apply feqb_eq; reflexivity). rewrite A, B. cbn [bind]. rewrite HN. cbn [bind].
  destruct (HT (Hpx nside (fofZ 4 * m_pi M / fofZ (12 * nside * nside))) (3 * nside - 1)%Z HK) as [a [S1 [S2 S3]]]. rewrite S1. cbn [bind nth].
  assert (X : almxfl (3 * nside - 1) a (tab (Z.to_nat (3 * nside - 1 + 1)) (fun l => m_exp M (- (1 / fofZ 2) * fofnat l * (fofnat l + 1) * (radians M 0 * radians M 0)))) = a).
  { clear -He S2 HF. unfold almxfl. revert S2 HF. generalize (ells (3 * nside - 1)).
    induction a as [|x a IH]; intros [|l L] EL HF; try discriminate; [reflexivity|].
    inversion HF; subst. unfold zipw in *. cbn [combine map fst snd]. rewrite IH; [|simpl in EL; lia | assumption].
    f_equal. rewrite nth_tab by lia. replace (- (1 / fofZ 2) * _ * _ * _) with (0 : F); [rewrite He; ring|].
    unfold radians. rewrite (Fdiv_def (fth F) (0 * m_pi M)). ring. }
  rewrite X, S3. reflexivity.
Qed.
End P.
