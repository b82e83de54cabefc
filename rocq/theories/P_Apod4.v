(** C58 and C64 with the real functions of libm: the laws assumed in P_Apod.v and P_Apod2.v hold, the window grows with
    the distance, and a concrete flat map.  C64: the flat code ignores the height of the pixels. *)
From Coq Require Import Reals Lra Lia ZArith List.
From Verif Require Import Base FieldR M_Utils L_Utils M_Field M_Apod L_Apod P_Apod2.
Import ListNotations.

Lemma fofnat_INR (n : nat) : (fofnat n : R_field) = INR n.
Proof. induction n as [|n IH]; [reflexivity|]. rewrite S_INR, <- IH. reflexivity. Qed.
Lemma fofZ_IZR (z : Z) : (fofZ z : R_field) = IZR z.
Proof.
  destruct (Z_le_dec 0 z) as [H|H].
  - rewrite <- (Z2Nat.id z H), fofZ_of_nat, fofnat_INR, <- INR_IZR_INZ. reflexivity.
  - replace z with (- Z.of_nat (Z.to_nat (- z)))%Z by lia. rewrite fofZ_opp, fofZ_of_nat, fofnat_INR, opp_IZR, <- INR_IZR_INZ. reflexivity.
Qed.
(** conversion of a double to an int *)
Definition truncR (x : R) : Z := if Rle_dec 0 x then Int_part x else (- Int_part (- x))%Z.
Definition libmR : libm R_field := @Libm R_field PI sin cos asin acos sqrt exp truncR.

Lemma truncR_pos : trunc_pos libmR.
Proof.
  intros x Hx. apply R_le in Hx. cbn in Hx |- *. unfold truncR. destruct (Rle_dec 0 x) as [_|C]; [|contradiction].
  destruct (base_Int_part x) as [A B]. rewrite !fofZ_IZR, plus_IZR. split; [apply R_le; exact A | apply R_lt; cbn; lra].
Qed.
Lemma sqrtR_law : forall x : R_field, (f0 <= x)%F -> (f0 <= m_sqrt libmR x)%F /\ (m_sqrt libmR x * m_sqrt libmR x)%F = x.
Proof. intros x Hx. apply R_le in Hx. split; [apply R_le; apply sqrt_pos | apply sqrt_sqrt; exact Hx]. Qed.
Lemma windowR (c2 : bool) (x : R) : window libmR c2 x = (if c2 then 1 / 2 * (1 - cos (x * PI)) else x - sin (x * 2 * PI) / (2 * PI))%R.
Proof. unfold window, libmR. cbn [m_cos m_sin m_pi]. rewrite fofZ_IZR. destruct c2; reflexivity. Qed.
Lemma sin_diff (a b : R) : (a <= b)%R -> (sin b - sin a <= b - a)%R.
Proof.
  intros H. rewrite form4. pose proof (COS_bound ((b + a) / 2)) as [C1 C2].
  set (h := ((b - a) / 2)%R). assert (Hh : (0 <= h)%R) by (unfold h; lra).
  assert (S1 : (- h <= sin h <= h)%R).
  { destruct (Req_dec h 0) as [E|E]; [rewrite E, sin_0; lra|]. assert (P : (0 < h)%R) by lra. pose proof (sin_lt_x h P). split; [|lra].
    destruct (Rle_dec h PI) as [L|L].
    - pose proof (sin_ge_0 h Hh L). lra.
    - pose proof (SIN_bound h). pose proof PI2_1. unfold PI2 in *. pose proof PI_RGT_0. lra. }
  set (c := cos ((b + a) / 2)) in *. set (s := sin h) in *. assert (A : (c * s <= h)%R) by (clearbody c s; nra). unfold h in *. lra.
Qed.
(** the window of libm never decreases with the distance, from 0 to 1 *)
Lemma window_mono (c2 : bool) (x y : R) : (0 <= x)%R -> (x <= y)%R -> (y <= 1)%R -> (window libmR c2 x <= window libmR c2 y)%R.
Proof.
  intros H0 H1 H2. pose proof PI_RGT_0 as PP. rewrite !windowR. destruct c2.
  - assert (C : (cos (y * PI) <= cos (x * PI))%R) by (apply cos_decr_1; nra). lra.
  - pose proof (sin_diff (x * 2 * PI) (y * 2 * PI)) as S. assert (L : (x * 2 * PI <= y * 2 * PI)%R) by nra. specialize (S L).
    apply (Rmult_le_reg_r (2 * PI)); [lra|]. field_simplify; [|lra|lra]. lra.
Qed.
Lemma window_0 (c2 : bool) : window libmR c2 0%R = 0%R.
Proof. rewrite windowR. destruct c2; [rewrite Rmult_0_l, cos_0; lra | rewrite !Rmult_0_l, sin_0; unfold Rdiv; lra]. Qed.
Lemma window_1 (c2 : bool) : window libmR c2 1%R = 1%R.
Proof. rewrite windowR. destruct c2; [rewrite Rmult_1_l, cos_PI; lra | rewrite !Rmult_1_l, sin_2PI; unfold Rdiv; lra]. Qed.
Lemma window_pos (c2 : bool) (x : R) : (0 < x)%R -> (x <= 1)%R -> (0 < window libmR c2 x)%R.
Proof.
  intros H0 H1. pose proof PI_RGT_0 as PP. rewrite windowR. destruct c2.
  - assert (C : (cos (x * PI) < cos 0)%R) by (apply cos_decreasing_1; nra). rewrite cos_0 in C. lra.
  - assert (S : (sin (x * 2 * PI) < x * 2 * PI)%R) by (apply sin_lt_x; nra).
    apply (Rmult_lt_reg_r (2 * PI)); [lra|]. field_simplify; [|lra]. lra.
Qed.
Theorem C58_libm_laws : win_laws libmR.
Proof.
  constructor.
  - intros x H0 H1. apply R_le in H0. apply R_lt in H1. cbn in *. split; apply R_le; [apply sqrt_pos|]. rewrite <- sqrt_1. apply sqrt_le_1; lra.
  - intros x H0 H1. apply R_lt in H0. apply R_lt. apply sqrt_lt_R0. exact H0.
  - intros c2 x H0 H1. apply R_le in H0. apply R_le in H1. change (f1 : R_field) with 1%R in *. change (f0 : R_field) with 0%R in *. split; apply R_le.
    + rewrite <- (window_0 c2). apply window_mono; lra.
    + rewrite <- (window_1 c2). apply window_mono; lra.
  - intros c2 x H0 H1. apply R_lt in H0. apply R_le in H1. apply R_lt. apply window_pos; assumption.
Qed.
(** with the functions of libm the factor grows with the distance to the masked area: 0 at the edge, 1 at the scale *)
Theorem C58_window_grows (c2 : bool) (x y : R) : (0 <= x)%R -> (x <= y)%R -> (y <= 1)%R ->
  (window libmR c2 x <= window libmR c2 y)%R /\ window libmR c2 0%R = 0%R /\ window libmR c2 1%R = 1%R.
Proof. intros A B C. split; [apply window_mono; assumption | split; [apply window_0 | apply window_1]]. Qed.

(** C64: for C1 and C2 the height of the map has no influence at all *)
Section Height.
Context {F : ofield}.
Local Open Scope F_scope.
Variable M : libm F.
Variable gauss : Z -> Z -> F -> F -> F -> list F -> list F.
Theorem C64_apodization_ignores_height (rows : list (list F)) (k : nat) (lx ly ly' aposize : F) (c2 : bool) : 0 < ly -> 0 < ly' ->
  mask_apodization_flat M gauss (I2 k rows) lx ly aposize (Some (ty c2)) = mask_apodization_flat M gauss (I2 k rows) lx ly' aposize (Some (ty c2)).
Proof.
  intros H H'. unfold mask_apodization_flat. destruct rows as [|r0 rows]; [reflexivity|]. unfold guard. assert (E1 : (0 <? ly) = true) by exact H. assert (E2 : (0 <? ly') = true) by exact H'. rewrite E1, E2.
  unfold nmt_apodize_mask_flat. destruct c2; reflexivity.
Qed.
End Height.

(** ** a concrete flat map *)
Section Example.
Variable gauss : Z -> Z -> R_field -> R_field -> R_field -> list R_field -> list R_field.
Notation apod := (mask_apodization_flat libmR gauss).
(** a scale of two radians *)
Definition two_rad : R_field := (360 / PI)%R.
Lemma radians_two : radians libmR two_rad = 2%R.
Proof.
  unfold radians, two_rad. rewrite fofZ_IZR. cbn. pose proof PI_RGT_0. field. lra.
Qed.
Lemma two_rad_pos : (f0 < two_rad)%F.
Proof. apply R_lt. cbn. unfold two_rad. pose proof PI_RGT_0. apply Rdiv_lt_0_compat; lra. Qed.
Lemma scale_ok : (radians libmR two_rad <= fofZ 100000)%F.
Proof. rewrite radians_two, fofZ_IZR. apply R_le. lra. Qed.
Lemma Int_part_unique (x : R) (z : Z) : (IZR z <= x < IZR z + 1)%R -> Int_part x = z.
Proof.
  intros [A B]. destruct (base_Int_part x) as [C D]. assert (E1 : (IZR (Int_part x) < IZR (z + 1))%R) by (rewrite plus_IZR; lra).
  assert (E2 : (IZR z < IZR (Int_part x + 1))%R) by (rewrite plus_IZR; lra). apply lt_IZR in E1. apply lt_IZR in E2. lia.
Qed.
Lemma to_int_step (w : R) (z : Z) : (0 < w)%R -> (0 <= z <= 1000)%Z -> (IZR z * w <= 12 / 5 < (IZR z + 1) * w)%R -> to_int libmR (dec 6 5 * radians libmR two_rad / w)%F = Ok z.
Proof.
  intros Hw Hz [A B]. unfold to_int. rewrite radians_two. unfold dec. rewrite !fofZ_IZR. cbn [m_trunc libmR].
  assert (E : truncR (@fdiv R_field (@fmul R_field (@fdiv R_field 6%R 5%R) 2%R) w) = z).
  { change (truncR (6 / 5 * 2 / w) = z). unfold truncR. assert (P : (0 <= 6 / 5 * 2 / w)%R) by (apply Rlt_le, Rdiv_lt_0_compat; lra).
    destruct (Rle_dec 0 (6 / 5 * 2 / w)) as [_|C]; [|contradiction]. apply Int_part_unique. split.
    - apply (Rmult_le_reg_r w); [exact Hw|]. field_simplify; lra.
    - apply (Rmult_lt_reg_r w); [exact Hw|]. field_simplify; lra. }
  rewrite E. replace ((-2147483648 <=? z) && (z <=? 2147483647))%Z with true; [reflexivity|]. symmetry. apply andb_true_iff. split; apply Z.leb_le; lia.
Qed.
(** two pixels side by side or one above the other, the second one masked; width w of a (square) pixel *)
Lemma pair_value (rows : list (list R_field)) (k : nat) (lx ly w : R_field) (c2 : bool) (out : imap R_field) (z : Z) : (0 < w)%R -> (w < 2)%R -> (0 <= z <= 1000)%Z -> (IZR z * w <= 12 / 5 < (IZR z + 1) * w)%R ->
  (rows = [[f1; f0]] /\ k = 2%nat /\ lx = (2 * w)%R /\ ly = w) \/ (rows = [[f1]; [f0]] /\ k = 1%nat /\ lx = w /\ ly = (2 * w)%R) ->
  apod (I2 k rows) lx ly two_rad (Some (ty c2)) = Ok out -> pix out 0 = window libmR c2 (w / 2)%R.
Proof.
  intros Hw W2 Hz HS D E.
  assert (G : (forall s : R_field, flat_dist libmR (Z.of_nat k) s s 0 1 = sqrt (s * s)) /\ concat rows = [f1; f0] /\ (0 < k)%nat /\ Forall (fun r => length r = k) rows /\
     (lx / fofnat k)%F = w /\ (ly / fofnat (length rows))%F = w).
  { destruct D as [[-> [-> [-> ->]]]|[-> [-> [-> ->]]]].
    - repeat split; try (repeat constructor; fail).
      + intros s. unfold flat_dist. change (Z.of_nat 1 mod Z.of_nat 2 - Z.of_nat 0 mod Z.of_nat 2)%Z with 1%Z. change (Z.of_nat 1 / Z.of_nat 2 - Z.of_nat 0 / Z.of_nat 2)%Z with 0%Z. rewrite !fofZ_IZR. cbn. f_equal. ring.
      + rewrite fofnat_INR. cbn. field.
      + rewrite fofnat_INR. cbn. field.
    - repeat split; try (repeat constructor; fail).
      + intros s. unfold flat_dist. change (Z.of_nat 1 mod Z.of_nat 1 - Z.of_nat 0 mod Z.of_nat 1)%Z with 0%Z. change (Z.of_nat 1 / Z.of_nat 1 - Z.of_nat 0 / Z.of_nat 1)%Z with 1%Z. rewrite !fofZ_IZR. cbn. f_equal. ring.
      + rewrite fofnat_INR. cbn. field.
      + rewrite fofnat_INR. cbn. field. }
  destruct G as [G1 [G2 [G3 [G4 [G5 G6]]]]].
  assert (DD : flat_dist libmR (Z.of_nat k) w w 0 1 = w) by (rewrite G1; apply sqrt_square; lra).
  pose proof (C58_flat_nearest libmR gauss rows k lx ly two_rad c2 out 0 1 truncR_pos sqrtR_law) as N.
  assert (PI0 : (f0 < m_pi libmR)%F) by (apply R_lt; exact PI_RGT_0).
  specialize (N PI0 two_rad_pos G3 G4). rewrite G5, G6 in N. specialize (N eq_refl scale_ok E). unfold pix in *. cbn [ivals] in N. rewrite G2 in N. cbn [length nth] in N.
  rewrite DD, radians_two in N. unfold pix. rewrite N.
  - cbn. ring.
  - repeat constructor.
  - repeat constructor.
  - apply R_lt. cbn. lra.
  - apply R_le. cbn. lra.
  - intros [|[|r]] Hr Mr; [exfalso; apply R_le in Mr; cbn in Mr; lra | apply R_le; rewrite DD; cbn; lra | exfalso; cbn in Hr; lia].
  - apply R_lt. cbn. exact W2.
Qed.
Lemma pair_defined (rows : list (list R_field)) (k : nat) (lx ly w : R_field) (c2 : bool) (z : Z) : lx = (w * INR k)%R -> (0 < k)%nat -> rows <> [] -> Forall (fun r => length r = k) rows -> (0 < lx)%R -> (0 < ly)%R ->
  (0 <= z <= 1000)%Z -> (IZR z * w <= 12 / 5 < (IZR z + 1) * w)%R -> exists out, apod (I2 k rows) lx ly two_rad (Some (ty c2)) = Ok out.
Proof.
  intros Hw Hk Hr HF Hx Hy Hz HS. assert (Pk : (0 < INR k)%R) by (apply (lt_INR 0); exact Hk). apply (C58_flat_defined libmR gauss rows k lx ly two_rad c2 z two_rad_pos Hk Hr HF).
  - apply R_lt. exact Hx.
  - apply R_lt. exact Hy.
  - rewrite fofnat_INR. assert (EW : @fdiv R_field lx (INR k) = w) by (rewrite Hw; change (w * INR k / INR k = w)%R; unfold Rdiv; rewrite Rmult_assoc, Rinv_r by lra; apply Rmult_1_r). rewrite EW. apply (to_int_step w z); try assumption. subst lx. clear -Hx Pk. nra.
Qed.
(** C2, scale 2 rad, a pixel at one radian from the masked one: half its value *)
Example flat_c2_example : exists out, apod (I2 2 [[f1; f0]]) 2%R 1%R two_rad (Some C2) = Ok out /\ pix out 0 = (1 / 2)%R.
Proof.
  destruct (pair_defined [[f1; f0]] 2 2%R 1%R 1%R true 2) as [out E]; try (cbn; lia) || (cbn; lra) || discriminate.
  - repeat constructor.
  - exists out. split; [exact E|]. rewrite (pair_value [[f1; f0]] 2 2%R 1%R 1%R true out 2); try lra; try lia; [|left; repeat split; cbn; lra|exact E].
    rewrite windowR. replace (1 / 2 * PI)%R with (PI / 2)%R by field. rewrite cos_PI2. lra.
Qed.
(** finding: pixels that are not square.  The transpose of the mask on the transpose of the patch (here one radian by one
    radian) is not apodised to the transpose: the code takes the width of a pixel for its height *)
Theorem C64_apodization_refuted : exists (out out' : imap R_field),
  apod (I2 1 [[f1]; [f0]]) 1%R 1%R two_rad (Some C2) = Ok out /\ apod (I2 2 [[f1; f0]]) 1%R 1%R two_rad (Some C2) = Ok out' /\ pix out 0 <> pix out' 0.
Proof.
  assert (P1 : (f0 < (1%R : R_field))%F) by (apply R_lt; cbn; lra). assert (P2 : (f0 < (2%R : R_field))%F) by (apply R_lt; cbn; lra). assert (PH : (f0 < ((1 / 2)%R : R_field))%F) by (apply R_lt; cbn; lra).
  destruct (pair_defined [[f1]; [f0]] 1 1%R 2%R 1%R true 2) as [out E]; try (cbn; lia) || (cbn; lra) || discriminate; [repeat constructor|].
  destruct (pair_defined [[f1; f0]] 2 1%R (1 / 2)%R (1 / 2)%R true 4) as [out' E']; try (cbn; lia) || (cbn; lra) || discriminate; [repeat constructor|].
  exists out, out'.
  pose proof (pair_value [[f1]; [f0]] 1 1%R 2%R 1%R true out 2) as V. pose proof (pair_value [[f1; f0]] 2 1%R (1 / 2)%R (1 / 2)%R true out' 4) as V'.
  change (Some C2) with (Some (ty true)).
  rewrite (C64_apodization_ignores_height libmR gauss [[f1]; [f0]] 1 1%R 1%R 2%R two_rad true P1 P2).
  rewrite (C64_apodization_ignores_height libmR gauss [[f1; f0]] 2 1%R 1%R (1 / 2)%R two_rad true P1 PH).
  split; [exact E|]. split; [exact E'|].
  rewrite V, V'; try lra; try lia; try assumption; [|left; repeat split; cbn; lra|right; repeat split; cbn; lra].
  rewrite !windowR. replace (1 / 2 * PI)%R with (PI / 2)%R by field. replace (1 / 2 / 2 * PI)%R with (PI / 4)%R by field. rewrite cos_PI2, cos_PI4.
  intros C. assert (S : (0 < 1 / sqrt 2)%R) by (apply Rdiv_lt_0_compat; [lra|]; apply sqrt_lt_R0; lra). lra.
Qed.
End Example.
Print Assumptions C58_libm_laws.
Print Assumptions C64_apodization_ignores_height.
Print Assumptions C64_apodization_refuted.
