(** Property C90: the multipoles of flat-sky spectra (NmtFieldFlat.get_ell_sampling). *)
From Coq Require Import Lia.
From Verif Require Import Base M_Flat M_FlatEll L_Apod P_Apod2.
Open Scope nat_scope.
Section EllFlat.
Context {F : ofield}.
Local Open Scope F_scope.
Notation fsinfo := (fsinfo F).
Add Field FfEll : (fth F).
Variables (pi : F) (fsqrt : F -> F) (trunc : F -> Z).
Lemma flt_mul_r (x y z : F) : 0 < z -> x < y -> x * z < y * z.
Proof. intros Z H. apply flt_sub_0. assert (E : y * z - x * z = (y - x) * z) by ring. rewrite E. apply fmul_pos; [apply (proj1 (flt_sub_0 _ _)); exact H | exact Z]. Qed.
Definition sqrt_law : Prop := forall x : F, 0 <= x -> 0 <= fsqrt x /\ fsqrt x * fsqrt x = x.
Definition trunc_law : Prop := forall x : F, 0 <= x -> fofZ (trunc x) <= x /\ x < fofZ (trunc x + 1).
(** smaller of the two steps of the Fourier grid *)
Definition is_step (s : fsinfo) (w : F) : Prop := w <= fofZ 2 * pi / fs_lx s /\ w <= fofZ 2 * pi / fs_ly s /\ (w = fofZ 2 * pi / fs_lx s \/ w = fofZ 2 * pi / fs_ly s).
Lemma dell_step (s : fsinfo) (w : F) : is_step s w -> dell pi s = w.
Proof.
  intros [A [B C]]. unfold dell, fmin2, dkx, dky. destruct (_ <? _) eqn:E.
  - destruct C as [-> | ->]; [reflexivity|]. exfalso. exact (proj1 (flt_not_le _ _) E A).
  - apply flt_false in E. destruct C as [-> | ->]; [|reflexivity]. apply fle_antisym; assumption.
Qed.
Lemma step_pos (s : fsinfo) (w : F) : 0 < pi -> 0 < fs_lx s -> 0 < fs_ly s -> is_step s w -> 0 < w.
Proof.
  intros P X Y W. assert (D : forall l : F, 0 < l -> 0 < fofZ 2 * pi / l).
  { intros l L. assert (E : fofZ 2 * pi / l = fofZ 2 * pi * / l) by (field; apply fpos_neq; exact L). rewrite E. apply fmul_pos; [apply fmul_pos; [apply fofZ_pos; lia | exact P] | apply finv_pos; exact L]. }
  destruct W as [_ [_ [-> | ->]]]; apply D; assumption.
Qed.
Lemma count_spec (d km : F) : forall fuel n, let m := count_ell fuel n d km in (n <= m)%nat /\ (m = n \/ fofnat m * d <= km) /\ ((m < n + fuel)%nat -> km < fofnat (m + 1) * d).
Proof.
  induction fuel as [|fuel IH]; intro n; cbn [count_ell]; [split; [lia | split; [left; reflexivity | lia]]|]. destruct (fofnat (n + 1) * d <=? km) eqn:E.
  - destruct (IH (n + 1)%nat) as [A [B C]]. set (m := count_ell fuel (n + 1) d km) in *. split; [lia|]. split; [right; destruct B as [-> | B]; [exact E | exact B]|]. intro H. apply C. lia.
  - cbv zeta. split; [lia|]. split; [left; reflexivity|]. intros _. apply fle_false. exact E.
Qed.
(** largest wavenumbers of the map on both axes and of all modes *)
Definition top (s : fsinfo) : F := let kx := fofZ 2 * pi / fs_lx s * fofnat (fs_nx s / 2) in let ky := fofZ 2 * pi / fs_ly s * fofnat (fs_ny s / 2) in ky * ky + kx * kx.
Lemma top_nonneg (s : fsinfo) : 0 <= top s. Proof. apply fadd_nonneg; apply fsqr_nonneg. Qed.
(** number of entries: as many steps as fit below the largest wavenumber *)
Theorem C90_count (s : fsinfo) (w : F) : sqrt_law -> trunc_law -> 0 < pi -> 0 < fs_lx s -> 0 < fs_ly s -> is_step s w ->
  let n := length (get_ell_sampling pi fsqrt trunc s) in (fofnat n * w) * (fofnat n * w) <= top s /\ top s < (fofnat (n + 1) * w) * (fofnat (n + 1) * w).
Proof.
  intros SQ TR P X Y W. pose proof (step_pos s w P X Y W) as W0. cbv zeta. unfold get_ell_sampling. rewrite length_tab. unfold n_ell. rewrite (dell_step s w W).
  destruct (SQ (top s) (top_nonneg s)) as [K0 KK]. change (kmax pi fsqrt s) with (fsqrt (top s)). set (K := fsqrt (top s)) in *.
  assert (Q0 : 0 <= K / w) by (apply fdiv_nonneg; assumption). destruct (TR _ Q0) as [T1 T2]. set (t := trunc (K / w)) in *.
  pose proof (count_spec w K (S (Z.to_nat t)) 0) as C. cbv zeta in C. set (m := count_ell _ _ _ _) in *. destruct C as [_ [C1 C2]].
  assert (NW : w <> 0) by (apply fpos_neq; exact W0). assert (KW : K = K / w * w) by (field; exact NW).
  assert (L1 : fofnat m * w <= K). { destruct C1 as [-> | C1]; [|exact C1]. cbn [fofnat]. assert (E : (0 : F) * w = 0) by ring. rewrite E. exact K0. }
  assert (L2 : K < fofnat (m + 1) * w).
  { destruct (Nat.lt_ge_cases m (0 + S (Z.to_nat t))) as [H|H]; [exact (C2 H)|]. apply flt_le_trans with (fofZ (t + 1) * w).
    - rewrite KW at 1. apply flt_mul_r; assumption.
    - apply fle_mul_r; [apply flt_le; exact W0|]. rewrite <- fofZ_of_nat. apply fofZ_le. lia. }
  assert (P0 : 0 <= fofnat m * w) by (apply fmul_nonneg; [apply fofnat_nonneg | apply flt_le; exact W0]).
  rewrite <- KK. split.
  - apply fle_trans with (K * (fofnat m * w)); [apply fle_mul_r; assumption|]. assert (E : K * (fofnat m * w) = fofnat m * w * K) by ring. rewrite E. apply fle_mul_r; assumption.
  - assert (P1 : 0 < fofnat (m + 1) * w) by (eapply fle_lt_trans; [exact K0 | exact L2]). apply fle_lt_trans with (fofnat (m + 1) * w * K); [apply fle_mul_r; [exact K0 | apply flt_le; exact L2]|]. assert (E : fofnat (m + 1) * w * K = K * (fofnat (m + 1) * w)) by ring. rewrite E. apply flt_mul_r; assumption.
Qed.
Theorem C90_values (s : fsinfo) (w : F) (i : nat) : is_step s w -> (i < length (get_ell_sampling pi fsqrt trunc s))%nat -> nth i (get_ell_sampling pi fsqrt trunc s) 0 = (fofnat i + 1 / fofZ 2) * w.
Proof.
  intros W H. unfold get_ell_sampling in *. rewrite length_tab in H. rewrite nth_tab by exact H. rewrite (dell_step s w W). ring.
Qed.
Lemma freq_range (n i : nat) : (i < n)%nat -> (- Z.of_nat (n / 2) <= freq n i <= Z.of_nat (n / 2))%Z.
Proof.
  intro H. unfold freq. pose proof (Nat.div_mod n 2 ltac:(lia)) as E. pose proof (Nat.mod_upper_bound n 2 ltac:(lia)) as B. destruct (Nat.leb_spec (2 * i) n); lia.
Qed.
Lemma sqr_bound (z : Z) (h : nat) (d : F) : (- Z.of_nat h <= z <= Z.of_nat h)%Z -> (fofZ z * d) * (fofZ z * d) <= (d * fofnat h) * (d * fofnat h).
Proof.
  intro H. rewrite <- fofZ_of_nat. assert (E1 : fofZ z * d * (fofZ z * d) = fofZ (z * z) * (d * d)) by (rewrite fofZ_mul; ring). assert (E2 : d * fofZ (Z.of_nat h) * (d * fofZ (Z.of_nat h)) = fofZ (Z.of_nat h * Z.of_nat h) * (d * d)) by (rewrite fofZ_mul; ring).
  rewrite E1, E2. apply fle_mul_r; [apply fsqr_nonneg|]. apply fofZ_le. nia.
Qed.
(** wavenumber of a Fourier mode of the map *)
Definition k2_of (s : fsinfo) (ix iy : nat) : F := kxf pi s ix * kxf pi s ix + kyf pi s iy * kyf pi s iy.
Theorem C90_top (s : fsinfo) (ix iy : nat) : (ix < fs_nx s)%nat -> (iy < fs_ny s)%nat -> k2_of s ix iy <= top s.
Proof.
  intros HX HY. unfold k2_of, top. cbv zeta. assert (E : forall a b : F, a + b = b + a) by (intros; ring). rewrite E. apply fle_add; unfold kxf, kyf, dkx, dky; apply sqr_bound; apply freq_range; assumption.
Qed.
(** Every mode closer to the origin than n steps lies within half a step of exactly one entry; the code counts it there.  The others are not counted *)
Theorem C90_modes (s : fsinfo) (w : F) (ix iy : nat) : sqrt_law -> trunc_law -> 0 < pi -> 0 < fs_lx s -> 0 < fs_ly s -> is_step s w ->
  let l := get_ell_sampling pi fsqrt trunc s in let n := length l in let k := kmodf pi fsqrt s ix iy in let h := 1 / fofZ 2 * w in
  (k < fofnat n * w -> exists i, (i < n)%nat /\ ring_of pi fsqrt trunc s k = Z.of_nat i /\ nth i l 0 - h <= k /\ k < nth i l 0 + h /\
     forall j, (j < n)%nat -> nth j l 0 - h <= k -> k < nth j l 0 + h -> j = i) /\
  (fofnat n * w <= k -> ring_of pi fsqrt trunc s k = (-1)%Z).
Proof.
  intros SQ TR P X Y W l n k h. pose proof (step_pos s w P X Y W) as W0. assert (NW : w <> 0) by (apply fpos_neq; exact W0).
  assert (K0 : 0 <= k) by (apply SQ; apply fadd_nonneg; apply fsqr_nonneg).
  assert (LN : n = n_ell pi fsqrt trunc s) by (unfold n, l, get_ell_sampling; apply length_tab).
  assert (Q : k * (1 / w) = k / w) by (field; exact NW). assert (Q0 : 0 <= k / w) by (apply fdiv_nonneg; assumption). destruct (TR _ Q0) as [T1 T2].
  assert (KW : k = k / w * w) by (field; exact NW). assert (T0 : (0 <= trunc (k / w))%Z). { destruct (Z_lt_le_dec (trunc (k / w)) 0) as [L|L]; [|exact L]. exfalso. apply (proj1 (flt_not_le _ _) (fle_lt_trans _ _ _ Q0 T2)). apply (fofZ_le (trunc (k / w) + 1) 0). lia. }
  assert (HV : forall j, (j < n)%nat -> nth j l 0 - h = fofnat j * w /\ nth j l 0 + h = fofnat (j + 1) * w).
  { intros j Hj. unfold l. rewrite (C90_values s w j W Hj), fofnat_add. unfold h. assert (E2 : (fofZ 2 : F) = 1 + 1) by (change 2%Z with (1 + 1)%Z; rewrite fofZ_add, fofZ_1; reflexivity). assert (N2 : (1 : F) + 1 <> 0) by (rewrite <- E2; apply fofZ_neq0; lia). rewrite E2. cbn [fofnat]. split; field; exact N2. }
  unfold ring_of. rewrite (dell_step s w W), Q, <- LN. set (t := trunc (k / w)) in *.
  assert (A1 : fofZ t * w <= k) by (rewrite KW at 1; apply fle_mul_r; [apply flt_le; exact W0 | exact T1]). assert (A2 : k < fofZ (t + 1) * w) by (rewrite KW at 1; apply flt_mul_r; assumption).
  assert (UP : forall a b : Z, fofZ a * w < fofZ b * w -> (a < b)%Z).
  { intros a b H. destruct (Z_lt_le_dec a b) as [L|L]; [exact L|]. exfalso. apply (proj1 (flt_not_le _ _) H). apply fle_mul_r; [apply flt_le; exact W0 | apply fofZ_le; exact L]. }
  split.
  - intro H. assert (TN : (t < Z.of_nat n)%Z) by (apply UP; rewrite fofZ_of_nat; eapply fle_lt_trans; [exact A1 | exact H]).
    exists (Z.to_nat t). assert (TI : (Z.to_nat t < n)%nat) by lia. split; [exact TI|]. replace ((t <? 0) || (Z.of_nat n <=? t))%Z with false by (symmetry; apply orb_false_iff; split; [apply Z.ltb_ge; lia | apply Z.leb_gt; lia]). split; [lia|].
    destruct (HV _ TI) as [V1 V2]. rewrite V1, V2, <- !fofZ_of_nat. replace (Z.of_nat (Z.to_nat t)) with t by lia. replace (Z.of_nat (Z.to_nat t + 1)) with (t + 1)%Z by lia. split; [exact A1|]. split; [exact A2|].
    intros j Hj B1 B2. destruct (HV j Hj) as [U1 U2]. rewrite U1, <- fofZ_of_nat in B1. rewrite U2, <- fofZ_of_nat in B2. pose proof (UP _ _ (fle_lt_trans _ _ _ B1 A2)). pose proof (UP _ _ (fle_lt_trans _ _ _ A1 B2)). lia.
  - intro H. replace ((t <? 0) || (Z.of_nat n <=? t))%Z with true; [reflexivity|]. symmetry. apply orb_true_iff. right. apply Z.leb_le. assert (Z.of_nat n < t + 1)%Z; [|lia]. apply UP. rewrite fofZ_of_nat. eapply fle_lt_trans; [exact H | exact A2].
Qed.
End EllFlat.

(** ** Cases *)
From Coq Require Import ZArith List.
Import ListNotations.
From Verif Require Import P_WspFlat.
(** a strip of 8 x 2 pixels, 4 rad x 1/4 rad, with pi replaced by 1: the step is that of the long side, and 16 steps fit below the largest wavenumber although the map has 8 + 2 pixels on its sides *)
Definition strip82 : fsinfo Qc_field := FS 8 2 (qz 4) (q 1 4).
(** square roots rounded down to the next hundredth; the one that is used here is close to sqrt(68) *)
Definition sqh (x : Qc_field) : Qc_field := q (Z.sqrt (10000 * QArith_base.Qnum (out x) / Z.pos (QArith_base.Qden (out x)))) 100.
Example strip_step : is_step (qz 1) strip82 (q 1 2).
Proof. split; [vm_compute; reflexivity|]. split; [vm_compute; reflexivity|]. left. apply out_inj. vm_compute. reflexivity. Qed.
Example strip_ells : map out (get_ell_sampling (qz 1) sqh trq strip82) = map (fun i => out (q (2 * Z.of_nat i + 1) 4)) (seq 0 16) /\ (16 > fs_nx strip82 + fs_ny strip82)%nat.
Proof. split; [vm_compute; reflexivity | cbn; lia]. Qed.
(** real numbers: 4 x 4 pixels, steps of 1; two steps fit below sqrt 8 *)
From Coq Require Import Reals Lra.
From Verif Require Import FieldR P_Apod4.
Definition grid4 : fsinfo R_field := @FS R_field 4 4 (2 * PI)%R (2 * PI)%R.
Example real_case : sqrt_law (F := R_field) sqrt /\ trunc_law (F := R_field) truncR /\ @is_step R_field PI grid4 1%R /\ length (@get_ell_sampling R_field PI sqrt truncR grid4) = 2%nat.
Proof.
  pose proof PI_RGT_0 as PP. assert (S : sqrt_law (F := R_field) sqrt) by (intros x H; apply (R_le f0 x) in H; change (@f0 R_field) with 0%R in H; split; [apply (R_le f0); apply sqrt_pos | apply sqrt_sqrt; exact H]).
  assert (T : trunc_law (F := R_field) truncR) by (exact truncR_pos).
  assert (E : @fdiv R_field (@fmul R_field (fofZ 2) PI) (2 * PI)%R = 1%R) by (rewrite fofZ_IZR; cbn -[IZR]; field; lra).
  assert (W : @is_step R_field PI grid4 1%R) by (unfold is_step, grid4; cbn [fs_lx fs_ly]; rewrite E; split; [apply fle_refl | split; [apply fle_refl | left; reflexivity]]).
  split; [exact S|]. split; [exact T|]. split; [exact W|]. assert (L : @fltb R_field f0 (2 * PI)%R = true) by (apply (R_lt f0); change (@f0 R_field) with 0%R; lra).
  destruct (@C90_count R_field PI sqrt truncR grid4 1%R S T) as [A B]; [apply (R_lt f0); exact PP | exact L | exact L | exact W|]. set (n := length _) in *. clearbody n.
  apply (R_le _ _) in A. apply (R_lt _ _) in B. unfold top, grid4 in A, B. cbn [fs_lx fs_ly fs_nx fs_ny] in A, B. rewrite E, !fofnat_INR in A. rewrite E, !fofnat_INR in B. change (Nat.div 4 2) with 2%nat in *. change (INR 2) with 2%R in *.
  change (INR n * 1 * (INR n * 1) <= 1 * 2 * (1 * 2) + 1 * 2 * (1 * 2))%R in A. change (1 * 2 * (1 * 2) + 1 * 2 * (1 * 2) < INR (n + 1) * 1 * (INR (n + 1) * 1))%R in B.
  rewrite plus_INR in B. change (INR 1) with 1%R in B. destruct n as [|[|[|n]]]; [cbn in B; lra | cbn in B; lra | reflexivity|]. exfalso. rewrite !S_INR in A. pose proof (pos_INR n). nra.
Qed.
Print Assumptions C90_count.
Print Assumptions C90_values.
Print Assumptions C90_top.
Print Assumptions C90_modes.
