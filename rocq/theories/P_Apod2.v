(** C58, C59, C64: apodisation of flat-sky masks. *)
From Coq Require Import String QArith Qcanon.
From Verif Require Import Base M_Utils L_Utils M_Field M_Apod L_Apod.
Open Scope Z_scope.

Lemma in_patch (nx ny npx npy ix iy iyy ixx : Z) : In (iyy, ixx) (patch nx ny npx npy ix iy) <->
  (0 <= iyy <= 2 * npy /\ 0 <= iy + iyy - npy < ny /\ 0 <= ixx <= 2 * npx /\ 0 <= ix + ixx - npx < nx).
Proof.
  unfold patch. rewrite in_flat_map. split.
  - intros [y [Hy H]]. apply in_range in Hy. destruct ((0 <=? iy + y - npy) && (iy + y - npy <? ny)) eqn:C; [|destruct H].
    apply in_flat_map in H. destruct H as [x [Hx H]]. apply in_range in Hx. destruct ((0 <=? ix + x - npx) && (ix + x - npx <? nx)) eqn:D; [|destruct H].
    destruct H as [H|[]]. injection H as -> ->. apply andb_true_iff in C, D. lia.
  - intros H. exists iyy. split; [apply in_range; lia|].
    replace ((0 <=? iy + iyy - npy) && (iy + iyy - npy <? ny)) with true by (symmetry; apply andb_true_iff; split; lia).
    apply in_flat_map. exists ixx. split; [apply in_range; lia|].
    replace ((0 <=? ix + ixx - npx) && (ix + ixx - npx <? nx)) with true by (symmetry; apply andb_true_iff; split; lia). left. reflexivity.
Qed.

Section P.
Context {F : ofield}.
Local Open Scope F_scope.
Add Field FfPAp2 : (fth F).
Lemma fle_mul_r (x y z : F) : 0 <= z -> x <= y -> x * z <= y * z.
Proof. intros A B. assert (E1 : x * z = z * x) by ring. assert (E2 : y * z = z * y) by ring. rewrite E1, E2. apply fle_mul_l; assumption. Qed.
Lemma sqr_le (x y : F) : 0 <= x -> 0 <= y -> x * x <= y * y -> x <= y.
Proof.
  intros X Y H. destruct (fle_lt_dec x y) as [C|C]; [exact C|]. exfalso. revert H. apply flt_not_le.
  apply flt_sub_0. assert (E : x * x - y * y = (x - y) * (x + y)) by ring. rewrite E. apply fmul_pos; [apply (proj1 (flt_sub_0 _ _)); exact C|].
  assert (E2 : x + y = y + x) by ring. rewrite E2. apply fle_lt_trans with (0 + 0); [assert (E3 : (0 : F) + 0 = 0) by ring; rewrite E3; apply fle_refl|].
  assert (E4 : y + x = x + y) by ring. rewrite E4. apply flt_le_add; [eapply fle_lt_trans; [exact Y | exact C] | exact Y].
Qed.
Lemma fofZ_lt_inv (a b : Z) : (fofZ a : F) < fofZ b -> (a < b)%Z.
Proof. intros H. destruct (Z_lt_dec a b) as [C|C]; [exact C|]. exfalso. revert H. apply fle_not_lt. apply fofZ_le. lia. Qed.

Variable M : libm F.
Variable gauss : Z -> Z -> F -> F -> F -> list F -> list F.
Notation mask_apodization_flat := (mask_apodization_flat M gauss).
Definition trunc_pos : Prop := forall x : F, 0 <= x -> (fofZ (m_trunc M x) <= x)%F /\ (x < fofZ (m_trunc M x + 1))%F.

(** distance between the centres of pixels p and q of an array with nx columns; wx, wy: size of a pixel *)
Definition flat_dist (nx : Z) (wx wy : F) (p q : nat) : F :=
  let ddx := fofZ (Z.of_nat q mod nx - Z.of_nat p mod nx) * wx in
  let ddy := fofZ (Z.of_nat q / nx - Z.of_nat p / nx) * wy in
  m_sqrt M (ddx * ddx + ddy * ddy).

Lemma flat_cases (nx ny npx npy : Z) (d aporad : F) (mask : list F) (c2 : bool) (p : nat) (v : F) : (0 < nx)%Z -> (p < length mask)%nat ->
  flat_pixel M nx ny npx npy d d aporad mask c2 (Z.of_nat p) = Ok v ->
  let m := nth p mask 0 in
  (m <= 0 /\ v = m) \/
  (0 < m /\ exists r, r <= fofZ 100000 /\
     (forall q, (q < length mask)%nat -> Z.of_nat (length mask) = (nx * ny)%Z -> nth q mask 0 <= 0 ->
        (- npx <= Z.of_nat q mod nx - Z.of_nat p mod nx <= npx)%Z -> (- npy <= Z.of_nat q / nx - Z.of_nat p / nx <= npy)%Z -> r <= flat_dist nx d d p q) /\
     (r = fofZ 100000 \/ exists q, (q < length mask)%nat /\ nth q mask 0 <= 0 /\ r = flat_dist nx d d p q) /\
     ((aporad <= r /\ v = m) \/ (r < aporad /\ r < 0 /\ v = 0) \/ (r < aporad /\ 0 <= r /\ v = m * window M c2 (r * (1 / aporad))))).
Proof.
  intros Hn Hp. unfold flat_pixel. rewrite (rd_nat mask p 0 Hp). cbn [bind]. intros E. cbv zeta.
  destruct (0 <? nth p mask 0) eqn:C.
  2:{ left. injection E as <-. split; [apply flt_false; exact C | reflexivity]. }
  right. split; [exact C|].
  destruct (flat_rmin M nx ny npx npy d d mask (Z.of_nat p mod nx) (Z.of_nat p / nx)) as [r| |] eqn:R; try discriminate. cbn [bind] in E.
  assert (R' : foldM (minstep mask (fun q : Z * Z => Z.of_nat p mod nx + snd q - npx + nx * (Z.of_nat p / nx + fst q - npy))%Z (fun q => rarr M d d npx npy (fst q) (snd q))) (fofZ 100000)
                 (patch nx ny npx npy (Z.of_nat p mod nx) (Z.of_nat p / nx)) = Ok r).
  { rewrite <- R. unfold flat_rmin. generalize (patch nx ny npx npy (Z.of_nat p mod nx) (Z.of_nat p / nx)). intros L.
    generalize (fofZ 100000 : F). induction L as [|[a b] L IH]; intros r0; [reflexivity|]. cbn [foldM]. unfold minstep at 1. cbn [fst snd].
    destruct (rd mask _); cbn [bind]; [apply IH | reflexivity | reflexivity]. }
  clear R. apply minfold in R'. destruct R' as [R1 [R2 R3]].
  exists r. split; [exact R1|]. split; [|split].
  - intros q Hq HL Mq Hx Hy.
    specialize (R2 (Z.of_nat q / nx - Z.of_nat p / nx + npy, Z.of_nat q mod nx - Z.of_nat p mod nx + npx)%Z). cbn [fst snd] in R2.
    assert (B : (0 <= Z.of_nat q mod nx < nx)%Z) by (apply Z.mod_pos_bound; exact Hn).
    assert (B2 : (0 <= Z.of_nat q / nx < ny)%Z) by (split; [apply Z.div_pos; lia | apply Z.div_lt_upper_bound; lia]).
    assert (I : In (Z.of_nat q / nx - Z.of_nat p / nx + npy, Z.of_nat q mod nx - Z.of_nat p mod nx + npx)%Z (patch nx ny npx npy (Z.of_nat p mod nx) (Z.of_nat p / nx))).
    { apply in_patch. lia. }
    specialize (R2 I). replace (Z.of_nat p mod nx + _ - npx + _)%Z with (Z.of_nat q) in R2.
    2:{ rewrite (Z.div_mod (Z.of_nat q) nx) at 1 by lia. lia. }
    specialize (R2 (proj2 (masked_nth mask q Hq) Mq)). eapply fle_trans; [exact R2|].
    unfold rarr, flat_dist. rewrite !Z.add_simpl_r. apply fle_refl.
  - destruct R3 as [->|[[iyy ixx] [I [Mq ->]]]]; [left; reflexivity|]. right. cbn [fst snd] in Mq.
    apply in_patch in I. destruct Mq as [m [Rm Lm]]. apply rd_ok in Rm. destruct Rm as [Q0 Q1].
    set (q := (Z.of_nat p mod nx + ixx - npx + nx * (Z.of_nat p / nx + iyy - npy))%Z) in *.
    exists (Z.to_nat q). split; [apply nth_error_Some; rewrite Q1; discriminate|]. split; [rewrite (nth_error_nth _ _ 0 Q1); exact Lm|].
    unfold rarr, flat_dist. rewrite (Z2Nat.id q Q0). cbn [fst snd].
    assert (Eq1 : (q mod nx = Z.of_nat p mod nx + ixx - npx)%Z).
    { symmetry. apply (Z.mod_unique q nx (Z.of_nat p / nx + iyy - npy)); [left; lia | unfold q; lia]. }
    assert (Eq2 : (q / nx = Z.of_nat p / nx + iyy - npy)%Z).
    { symmetry. apply (Z.div_unique q nx (Z.of_nat p / nx + iyy - npy) (Z.of_nat p mod nx + ixx - npx)); [left; lia | unfold q; lia]. }
    rewrite Eq1, Eq2.
    replace (Z.of_nat p mod nx + ixx - npx - Z.of_nat p mod nx)%Z with (ixx - npx)%Z by lia.
    replace (Z.of_nat p / nx + iyy - npy - Z.of_nat p / nx)%Z with (iyy - npy)%Z by lia. reflexivity.
  - destruct (r <? aporad) eqn:T.
    + right. destruct (r <? 0) eqn:Z0.
      * left. injection E as <-. split; [exact T|]. split; [exact Z0|]. ring.
      * right. injection E as <-. split; [exact T|]. split; [apply flt_false; exact Z0 | reflexivity].
    + left. injection E as <-. split; [apply flt_false; exact T | reflexivity].
Qed.

Lemma api_flat (rows : list (list F)) (k : nat) (lx ly aposize : F) (c2 : bool) (out : imap F) : 0 < aposize -> (0 < k)%nat -> Forall (fun r => length r = k) rows ->
  mask_apodization_flat (I2 k rows) lx ly aposize (Some (ty c2)) = Ok out ->
  exists npx npy o, 0 < lx /\ 0 < ly /\ rows <> [] /\ out = I2 k (chunks (length rows) k o) /\ concat (chunks (length rows) k o) = o /\ length o = length (concat rows) /\
    to_int M (dec 6 5 * radians M aposize / (lx / fofnat k)) = Ok npx /\ to_int M (dec 6 5 * radians M aposize / (lx / fofnat k)) = Ok npy /\
    forall p, (p < length (concat rows))%nat ->
      flat_pixel M (Z.of_nat k) (Z.of_nat (length rows)) npx npy (lx / fofnat k) (lx / fofnat k) (radians M aposize) (concat rows) c2 (Z.of_nat p) = Ok (nth p o 0).
Proof.
  intros Ha Hk HR E. destruct rows as [|r0 rows]; [discriminate|].
  remember (r0 :: rows) as R. assert (Rn : R <> []) by (rewrite HeqR; discriminate).
  assert (E1 : (do _ <- guard (0 <? lx) RuntimeError; do _ <- guard (0 <? ly) RuntimeError;
                do m <- nmt_apodize_mask_flat M gauss (Z.of_nat k) (Z.of_nat (length R)) lx ly (concat R) aposize (Some (ty c2)); Ok (I2 k (chunks (length R) k m))) = Ok out).
  { rewrite <- E. rewrite HeqR. reflexivity. }
  clear E HeqR. unfold guard in E1. destruct (0 <? lx) eqn:LX; [|discriminate]. cbn [bind] in E1. destruct (0 <? ly) eqn:LY; [|discriminate]. cbn [bind] in E1.
  assert (A1 : (aposize <? 0) = false) by (unfold fltb; apply negb_false_iff; apply flt_le; exact Ha).
  assert (A2 : (aposize =? 0) = false) by (apply feqb_neq; apply fpos_neq; exact Ha).
  assert (E2 : exists o, apodize_flat_CX M (Z.of_nat k) (Z.of_nat (length R)) lx ly (concat R) aposize c2 = Ok o /\ out = I2 k (chunks (length R) k o)).
  { revert E1. unfold nmt_apodize_mask_flat. rewrite A1, A2. destruct c2; cbn [ty]; destruct (apodize_flat_CX M _ _ lx ly _ aposize _) as [o| |]; cbn [bind]; intros X; try discriminate;
      (exists o; split; [reflexivity | injection X as <-; reflexivity]). }
  clear E1. destruct E2 as [o [E2 EO]]. unfold apodize_flat_CX, flat_step in E2. rewrite fofZ_of_nat in E2.
  destruct (to_int M (dec 6 5 * radians M aposize / (lx / fofnat k))) as [npx| |] eqn:T; try discriminate. cbn [bind] in E2.
  assert (LC : length (concat R) = (k * length R)%nat).
  { clear -HR. induction HR as [|r l H1 H2 IH]; [simpl; lia|]. cbn [concat length]. rewrite app_length, IH, H1. lia. }
  pose proof (mapM_length _ _ _ E2) as EL. rewrite range_length in EL.
  assert (EL' : length o = (k * length R)%nat) by lia.
  exists npx, npx, o. split; [exact LX|]. split; [exact LY|]. split; [exact Rn|]. split; [exact EO|]. split; [|split; [lia|]].
  { apply concat_chunks. lia. }
  split; [reflexivity|]. split; [reflexivity|].
  intros p Hp. destruct (mapM_inv _ _ _ E2 p (0 + Z.of_nat p)%Z) as [b [B1 B2]].
  { apply range_nth. lia. }
  rewrite Z.add_0_l in B1. rewrite B1. f_equal. symmetry. apply nth_error_nth. exact B2.
Qed.
Definition pix (a : imap F) (p : nat) : F := nth p (ivals a) 0.

Theorem C58_flat_bounds (rows : list (list F)) (k : nat) (lx ly aposize : F) (c2 : bool) (out : imap F) : win_laws M -> 0 < m_pi M -> 0 < aposize -> (0 < k)%nat -> Forall (fun r => length r = k) rows ->
  mask_apodization_flat (I2 k rows) lx ly aposize (Some (ty c2)) = Ok out ->
  length (ivals out) = length (concat rows) /\
  forall p, (p < length (concat rows))%nat ->
    (pix (I2 k rows) p <= 0 -> pix out p = pix (I2 k rows) p) /\ (0 < pix (I2 k rows) p -> 0 <= pix out p /\ pix out p <= pix (I2 k rows) p).
Proof.
  intros W Hpi Ha Hk HR E. destruct (api_flat rows k lx ly aposize c2 out Ha Hk HR E) as [npx [npy [o [LX [LY [Rn [-> [CC [EL [_ [_ HP]]]]]]]]]]].
  unfold pix. cbn [ivals]. rewrite CC. split; [exact EL|]. intros p Hp. specialize (HP p Hp). apply flat_cases in HP; [|lia | exact Hp]. cbv zeta in HP.
  destruct HP as [[Hm ->]|[Hm [r [_ [_ [_ HV]]]]]].
  - split; [reflexivity|]. intros C. exfalso. revert Hm. apply flt_not_le. exact C.
  - split; [intros C; exfalso; revert C; apply flt_not_le; exact Hm|]. intros _.
    destruct HV as [[_ ->]|[[_ [_ ->]]|[T [D ->]]]].
    + split; [apply flt_le; exact Hm | apply fle_refl].
    + split; [apply fle_refl | apply flt_le; exact Hm].
    + destruct (ratio_range r _ D T) as [R0 R1]. destruct (wl_range M W c2 _ R0 (flt_le _ _ R1)) as [W0 W1].
      apply mul_between; [apply flt_le; exact Hm | exact W0 | exact W1].
Qed.

(** square pixels: the documented window at the distance of the nearest masked pixel *)
Theorem C58_flat_far (rows : list (list F)) (k : nat) (lx ly aposize : F) (c2 : bool) (out : imap F) (p : nat) : 0 < aposize -> (0 < k)%nat -> Forall (fun r => length r = k) rows ->
  lx / fofnat k = ly / fofnat (length rows) -> radians M aposize <= fofZ 100000 ->
  mask_apodization_flat (I2 k rows) lx ly aposize (Some (ty c2)) = Ok out -> (p < length (concat rows))%nat ->
  (forall q, (q < length (concat rows))%nat -> pix (I2 k rows) q <= 0 -> radians M aposize <= flat_dist (Z.of_nat k) (lx / fofnat k) (ly / fofnat (length rows)) p q) ->
  pix out p = pix (I2 k rows) p.
Proof.
  intros Ha Hk HR SQ HB E Hp HD. rewrite <- SQ in HD. destruct (api_flat rows k lx ly aposize c2 out Ha Hk HR E) as [npx [npy [o [LX [LY [Rn [-> [CC [EL [_ [_ HP]]]]]]]]]]].
  unfold pix in *. cbn [ivals] in *. rewrite CC. specialize (HP p Hp). apply flat_cases in HP; [|lia | exact Hp]. cbv zeta in HP.
  destruct HP as [[Hm ->]|[Hm [r [_ [_ [R3 HV]]]]]]; [reflexivity|].
  assert (B : radians M aposize <= r).
  { destruct R3 as [->|[q [Hq [Mq ->]]]]; [exact HB | apply HD; assumption]. }
  destruct HV as [[_ ->]|[[T _]|[T _]]]; [reflexivity | exfalso; revert B; apply flt_not_le; exact T | exfalso; revert B; apply flt_not_le; exact T].
Qed.
Lemma reach (D : Z) (w s aporad : F) (np : Z) : trunc_pos -> 0 < w -> 0 < aporad -> to_int M (dec 6 5 * aporad / w) = Ok np ->
  (fofZ D * w) * (fofZ D * w) <= s * s -> 0 <= s -> s < aporad -> (- np <= D <= np)%Z.
Proof.
  intros TR W0 A0 TI HS S0 SA.
  assert (NP : np = m_trunc M (dec 6 5 * aporad / w)).
  { unfold to_int in TI. destruct ((-2147483648 <=? _) && _)%Z; [injection TI as <-; reflexivity | discriminate]. }
  assert (D65 : (1 : F) <= dec 6 5).
  { apply fle_sub_0. assert (E : (dec 6 5 : F) - 1 = 1 / fofZ 5).
    { unfold dec. assert (N5 : (fofZ 5 : F) <> 0) by (apply fofZ_neq0; lia). assert (E6 : (fofZ 6 : F) = fofZ 5 + 1) by (rewrite <- fofZ_1, <- fofZ_add; reflexivity).
      rewrite E6. revert N5. generalize (fofZ 5 : F). intros t N5. field. exact N5. }
    rewrite E. apply fdiv_nonneg; [apply f0_le_1 | apply fofZ_pos; lia]. }
  assert (X0 : 0 <= dec 6 5 * aporad / w).
  { apply fdiv_nonneg; [|exact W0]. apply fmul_nonneg; [eapply fle_trans; [apply f0_le_1 | exact D65] | apply flt_le; exact A0]. }
  destruct (TR _ X0) as [_ T2]. rewrite <- NP in T2.
  assert (AB : fofZ (Z.abs D) * w <= s).
  { apply sqr_le; [apply fmul_nonneg; [rewrite <- (Z2Nat.id (Z.abs D)), fofZ_of_nat by lia; apply fofnat_nonneg | apply flt_le; exact W0] | exact S0|].
    assert (E : fofZ (Z.abs D) * w * (fofZ (Z.abs D) * w) = fofZ D * w * (fofZ D * w)).
    { destruct (Z.abs_eq_or_opp D) as [-> | ->]; [reflexivity | rewrite fofZ_opp; ring]. }
    rewrite E. exact HS. }
  assert (L : (Z.abs D < np + 1)%Z).
  { apply (fofZ_lt_inv (Z.abs D) (np + 1)). eapply fle_lt_trans; [|exact T2].
    assert (E : fofZ (Z.abs D) = fofZ (Z.abs D) * w * / w) by (field; apply fpos_neq; exact W0). rewrite E. rewrite (Fdiv_def (fth F)).
    apply fle_mul_r; [apply flt_le; apply finv_pos; exact W0|]. eapply fle_trans; [exact AB|]. eapply fle_trans; [apply flt_le; exact SA|].
    assert (E2 : aporad = 1 * aporad) by ring. rewrite E2 at 1. apply fle_mul_r; [apply flt_le; exact A0 | exact D65]. }
  lia.
Qed.
Theorem C58_flat_nearest (rows : list (list F)) (k : nat) (lx ly aposize : F) (c2 : bool) (out : imap F) (p q : nat) :
  trunc_pos -> (forall x : F, 0 <= x -> 0 <= m_sqrt M x /\ m_sqrt M x * m_sqrt M x = x) -> 0 < m_pi M ->
  0 < aposize -> (0 < k)%nat -> Forall (fun r => length r = k) rows ->
  lx / fofnat k = ly / fofnat (length rows) -> radians M aposize <= fofZ 100000 ->
  mask_apodization_flat (I2 k rows) lx ly aposize (Some (ty c2)) = Ok out -> (p < length (concat rows))%nat -> (q < length (concat rows))%nat ->
  0 < pix (I2 k rows) p -> pix (I2 k rows) q <= 0 ->
  (forall r, (r < length (concat rows))%nat -> pix (I2 k rows) r <= 0 ->
     flat_dist (Z.of_nat k) (lx / fofnat k) (ly / fofnat (length rows)) p q <= flat_dist (Z.of_nat k) (lx / fofnat k) (ly / fofnat (length rows)) p r) ->
  flat_dist (Z.of_nat k) (lx / fofnat k) (ly / fofnat (length rows)) p q < radians M aposize ->
  pix out p = pix (I2 k rows) p * window M c2 (flat_dist (Z.of_nat k) (lx / fofnat k) (ly / fofnat (length rows)) p q / radians M aposize).
Proof.
  intros TR SQRT Hpi Ha Hk HR SQ HB E Hp Hq Mp Mq Hmin HT. rewrite <- SQ in *. destruct (api_flat rows k lx ly aposize c2 out Ha Hk HR E) as [npx [npy [o [LX [LY [Rn [-> [CC [EL [TX [TY HP]]]]]]]]]]].
  unfold pix in *. cbn [ivals] in *. rewrite CC. specialize (HP p Hp). apply flat_cases in HP; [|lia | exact Hp]. cbv zeta in HP.
  destruct HP as [[C _]|[_ [r [R1 [R2 [R3 HV]]]]]]; [exfalso; revert C; apply flt_not_le; exact Mp|].
  assert (W0 : 0 < lx / fofnat k).
  { rewrite (Fdiv_def (fth F)). apply fmul_pos; [exact LX|]. apply finv_pos. destruct k; [lia | apply fofnat_pos]. }
  assert (A0 : 0 < radians M aposize).
  { unfold radians. rewrite (Fdiv_def (fth F)). apply fmul_pos; [apply fmul_pos; assumption|]. apply finv_pos, fofZ_pos. lia. }
  assert (LC : length (concat rows) = (k * length rows)%nat).
  { clear -HR. induction HR as [|x l H1 H2 IH]; [simpl; lia|]. cbn [concat length]. rewrite app_length, IH, H1. lia. }
  set (w := lx / fofnat k) in *.
  assert (SD : forall dx dy : F, 0 <= m_sqrt M (dx * dx + dy * dy) /\ m_sqrt M (dx * dx + dy * dy) * m_sqrt M (dx * dx + dy * dy) = dx * dx + dy * dy).
  { intros. apply SQRT. apply fadd_nonneg; apply fsqr_nonneg. }
  assert (Dq : r <= flat_dist (Z.of_nat k) w w p q).
  { apply R2; [exact Hq | lia | exact Mq | |].
    - eapply (reach _ w (flat_dist (Z.of_nat k) w w p q) (radians M aposize) npx TR W0 A0 TX); [|apply SD | exact HT].
      unfold flat_dist. rewrite (proj2 (SD _ _)). apply fle_sub_0. 
      match goal with |- 0 <= ?a + ?b - ?a => assert (EE : a + b - a = b) by ring; rewrite EE end. apply fsqr_nonneg.
    - eapply (reach _ w (flat_dist (Z.of_nat k) w w p q) (radians M aposize) npy TR W0 A0 TY); [|apply SD | exact HT].
      unfold flat_dist. rewrite (proj2 (SD _ _)). apply fle_sub_0. 
      match goal with |- 0 <= ?a + ?b - ?b => assert (EE : a + b - b = a) by ring; rewrite EE end. apply fsqr_nonneg. }
  assert (Ed : r = flat_dist (Z.of_nat k) w w p q).
  { apply fle_antisym; [exact Dq|]. destruct R3 as [->|[t [Ht [Mt ->]]]]; [eapply fle_trans; [apply flt_le; exact HT | exact HB] | apply Hmin; assumption]. }
  rewrite Ed in HV. destruct HV as [[C _]|[[_ [C _]]|[_ [_ ->]]]].
  - exfalso. revert C. apply flt_not_le. exact HT.
  - exfalso. revert C. apply fle_not_lt. apply SD.
  - f_equal. f_equal. rewrite !(Fdiv_def (fth F)). ring.
Qed.

(** *** Dispatch *)
Theorem C59_flat_zero_scale (rows : list (list F)) (k : nat) (lx ly : F) (t : option apo) : rows <> [] -> Forall (fun r => length r = k) rows -> 0 < lx -> 0 < ly ->
  mask_apodization_flat (I2 k rows) lx ly 0 t = Ok (I2 k rows).
Proof.
  intros Rn HR LX LY. destruct rows as [|r0 rows]; [congruence|]. unfold M_Apod.mask_apodization_flat, guard. rewrite LX, LY. cbn [bind]. unfold nmt_apodize_mask_flat.
  assert (A : ((0 : F) <? 0) = false) by (unfold fltb; apply negb_false_iff; apply fle_refl).
  assert (B : ((0 : F) =? 0) = true) by (apply feqb_eq; reflexivity). rewrite A, B. cbn [bind]. rewrite chunks_concat; [reflexivity | exact (conj eq_refl HR)].
Qed.
Theorem C59_flat_negative_scale (rows : list (list F)) (k : nat) (lx ly aposize : F) (t : option apo) : rows <> [] -> aposize < 0 ->
  mask_apodization_flat (I2 k rows) lx ly aposize t = Exn RuntimeError.
Proof.
  intros Rn HA. destruct rows as [|r0 rows]; [congruence|]. unfold M_Apod.mask_apodization_flat, guard, nmt_apodize_mask_flat.
  destruct (0 <? lx); [|reflexivity]. destruct (0 <? ly); [|reflexivity]. cbn [bind]. rewrite HA. reflexivity.
Qed.
Theorem C59_flat_unknown_type (rows : list (list F)) (k : nat) (lx ly aposize : F) : rows <> [] -> aposize <> 0 ->
  mask_apodization_flat (I2 k rows) lx ly aposize None = Exn RuntimeError.
Proof.
  intros Rn HA. destruct rows as [|r0 rows]; [congruence|]. unfold M_Apod.mask_apodization_flat, guard, nmt_apodize_mask_flat.
  destruct (0 <? lx); [|reflexivity]. destruct (0 <? ly); [|reflexivity]. cbn [bind]. apply feqb_neq in HA. rewrite HA. destruct (aposize <? 0); reflexivity.
Qed.
(** finding: an unknown type goes unnoticed when the scale is zero *)
Corollary C59_flat_unknown_type_refuted (rows : list (list F)) (k : nat) (lx ly : F) : rows <> [] -> Forall (fun r => length r = k) rows -> 0 < lx -> 0 < ly ->
  mask_apodization_flat (I2 k rows) lx ly 0 None = Ok (I2 k rows).
Proof. intros. apply C59_flat_zero_scale; assumption. Qed.
(** the result is defined as soon as the patches fit in an int *)
Theorem C58_flat_defined (rows : list (list F)) (k : nat) (lx ly aposize : F) (c2 : bool) (np : Z) : 0 < aposize -> (0 < k)%nat -> rows <> [] -> Forall (fun r => length r = k) rows ->
  0 < lx -> 0 < ly -> to_int M (dec 6 5 * radians M aposize / (lx / fofnat k)) = Ok np ->
  exists out, mask_apodization_flat (I2 k rows) lx ly aposize (Some (ty c2)) = Ok out.
Proof.
  intros Ha Hk Rn HR LX LY T.
  assert (LC : length (concat rows) = (k * length rows)%nat).
  { clear -HR. induction HR as [|x l H1 H2 IH]; [simpl; lia|]. cbn [concat length]. rewrite app_length, IH, H1. lia. }
  assert (A1 : (aposize <? 0) = false) by (unfold fltb; apply negb_false_iff; apply flt_le; exact Ha).
  assert (A2 : (aposize =? 0) = false) by (apply feqb_neq; apply fpos_neq; exact Ha).
  assert (X : exists o, apodize_flat_CX M (Z.of_nat k) (Z.of_nat (length rows)) lx ly (concat rows) aposize c2 = Ok o).
  { unfold apodize_flat_CX, flat_step. rewrite fofZ_of_nat, T. cbn [bind].
    assert (G : forall L, (forall i, In i L -> (0 <= i < Z.of_nat (length (concat rows)))%Z) ->
              exists o, mapM (flat_pixel M (Z.of_nat k) (Z.of_nat (length rows)) np np (lx / fofnat k) (lx / fofnat k) (radians M aposize) (concat rows) c2) L = Ok o).
    { induction L as [|i L IH]; intros HL; [exists []; reflexivity|]. destruct IH as [o Eo]; [intros j Hj; apply HL; right; exact Hj|].
      assert (PX : exists v, flat_pixel M (Z.of_nat k) (Z.of_nat (length rows)) np np (lx / fofnat k) (lx / fofnat k) (radians M aposize) (concat rows) c2 i = Ok v).
      { specialize (HL i (or_introl eq_refl)). unfold flat_pixel. rewrite (rd_nth _ i 0) by exact HL. cbn [bind].
        destruct (0 <? nth (Z.to_nat i) (concat rows) 0); [|eexists; reflexivity].
        assert (R : exists r, flat_rmin M (Z.of_nat k) (Z.of_nat (length rows)) np np (lx / fofnat k) (lx / fofnat k) (concat rows) (i mod Z.of_nat k) (i / Z.of_nat k) = Ok r).
        { unfold flat_rmin.
          assert (G2 : forall P r0, (forall a b, In (a, b) P -> (0 <= i mod Z.of_nat k + b - np + Z.of_nat k * (i / Z.of_nat k + a - np) < Z.of_nat (length (concat rows)))%Z) ->
             exists r, foldM (fun r p => let '(iyy, ixx) := p in do m2 <- rd (concat rows) (i mod Z.of_nat k + ixx - np + Z.of_nat k * (i / Z.of_nat k + iyy - np));
               Ok (if m2 <=? 0 then (let d := rarr M (lx / fofnat k) (lx / fofnat k) np np iyy ixx in if d <? r then d else r) else r)) r0 P = Ok r).
          { induction P as [|[a b] P IHP]; intros r0 HP; [exists r0; reflexivity|]. cbn [foldM]. rewrite (rd_nth _ _ 0) by (apply HP; left; reflexivity). cbn [bind].
            apply IHP. intros c d I. apply HP. right. exact I. }
          apply G2. intros a b I. apply in_patch in I. rewrite LC. rewrite Nat2Z.inj_mul. nia. }
        destruct R as [r ->]. cbn [bind]. destruct (r <? radians M aposize); eexists; reflexivity. }
      destruct PX as [v Ev]. exists (v :: o). cbn [mapM]. rewrite Ev. cbn [bind]. rewrite Eo. reflexivity. }
    apply G. intros i Hi. apply in_range in Hi. rewrite LC, Nat2Z.inj_mul. lia. }
  destruct X as [o Eo]. exists (I2 k (chunks (length rows) k o)). destruct rows as [|r0 rows]; [congruence|].
  unfold M_Apod.mask_apodization_flat, guard. rewrite LX, LY. cbn [bind]. unfold nmt_apodize_mask_flat. rewrite A1, A2. destruct c2; cbn [ty]; rewrite Eo; reflexivity.
Qed.
End P.
