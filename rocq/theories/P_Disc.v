(** Property C89: the disc query of HEALPix maps is complete away from the poles; apodisation with it. *)
From Coq Require Import Reals Lra Lia ZArith List Bool.
From Verif Require Import Base FieldR M_Utils L_Utils P_Utils M_Field M_Apod L_Apod P_Apod P_Apod2 P_Apod4 P_Apod7.
Import ListNotations.
Open Scope R_scope.

(** ** Rings between two heights *)
Definition zR (N iz : Z) : R := @ring_z R_field N iz.
Definition ringR (N : Z) (z : R) : Z := @ring_num R_field sqrt truncR N z.
Lemma zR_eq (N iz : Z) : (1 <= N)%Z -> zR N iz = if (iz <=? N - 1)%Z then 1 - IZR iz * IZR iz / (3 * (IZR N * IZR N)) else if (iz <=? 3 * N)%Z then (2 * IZR N - IZR iz) * (2 / (3 * IZR N)) else - 1 + IZR (4 * N - iz) * IZR (4 * N - iz) / (3 * (IZR N * IZR N)).
Proof.
  intros HN. assert (0 < IZR N) by (apply (IZR_lt 0); lia). unfold zR, ring_z. rewrite !fofZ_IZR.
  destruct (iz <=? N - 1)%Z; [|destruct (iz <=? 3 * N)%Z]; cbn -[IZR Z.sub Z.mul]; rewrite ?mult_IZR, ?minus_IZR, ?mult_IZR. all: field; lra.
Qed.
Definition t3 : R := 66666666 / 100000000.
Lemma Rltb_spec (x y : R) : @fltb R_field x y = true <-> x < y. Proof. apply (R_lt x y). Qed.
Lemma ringR_eq (N : Z) (z : R) : ringR N z =
  if Rlt_dec z (- t3) then (let k := truncR (IZR N * sqrt (3 * (1 + z)) + 1 / 2) in 4 * N - (if k =? 0 then 1 else k))%Z
  else if Rlt_dec t3 z then (let k := truncR (IZR N * sqrt (3 * (1 - z)) + 1 / 2) in if k =? 0 then 1 else k)%Z
  else truncR (IZR N * (2 - 3 / 2 * z) + 1 / 2).
Proof.
  unfold ringR, ring_num. cbv zeta. rewrite !fofZ_IZR. unfold two3. rewrite !fofZ_IZR.
  change (@fdiv R_field 66666666%R 100000000%R) with t3.
  destruct (Rlt_dec z (- t3)) as [A|A].
  - replace (@fltb R_field z (@fopp R_field t3)) with true by (symmetry; apply Rltb_spec; exact A). reflexivity.
  - replace (@fltb R_field z (@fopp R_field t3)) with false by (symmetry; apply not_true_iff_false; intro C; apply Rltb_spec in C; apply A; exact C).
    destruct (Rlt_dec t3 z) as [B|B].
    + replace (@fltb R_field t3 z) with true by (symmetry; apply Rltb_spec; exact B). reflexivity.
    + replace (@fltb R_field t3 z) with false by (symmetry; apply not_true_iff_false; intro C; apply Rltb_spec in C; apply B; exact C). reflexivity.
Qed.
Lemma trunc_pos_bounds (x : R) : 0 <= x -> IZR (truncR x) <= x < IZR (truncR x) + 1.
Proof. intro H. unfold truncR. destruct (Rle_dec 0 x); [|contradiction]. destruct (base_Int_part x). lra. Qed.
(** sqrt(3(1-z)) in terms of what it is compared with *)
Lemma sq_le (N : Z) (u x : R) : (1 <= N)%Z -> 0 <= x -> 0 <= u -> IZR N * IZR N * u <= x * x -> IZR N * sqrt u <= x.
Proof.
  intros HN Hx Hu H. assert (P : 0 < IZR N) by (apply (IZR_lt 0); lia). apply Rsqr_incr_0_var; [|exact Hx]. unfold Rsqr. replace (IZR N * sqrt u * (IZR N * sqrt u)) with (IZR N * IZR N * (sqrt u * sqrt u)) by ring. rewrite sqrt_sqrt by exact Hu. exact H.
Qed.
Lemma sq_ge (N : Z) (u x : R) : (1 <= N)%Z -> 0 <= x -> 0 <= u -> x * x <= IZR N * IZR N * u -> x <= IZR N * sqrt u.
Proof.
  intros HN Hx Hu H. assert (P : 0 < IZR N) by (apply (IZR_lt 0); lia). apply Rsqr_incr_0_var; [|apply Rmult_le_pos; [lra | apply sqrt_pos]]. unfold Rsqr. replace (IZR N * sqrt u * (IZR N * sqrt u)) with (IZR N * IZR N * (sqrt u * sqrt u)) by ring. rewrite sqrt_sqrt by exact Hu. exact H.
Qed.
Section Rings.
Variables (N iz : Z) (Z0 : R).
Hypotheses (HN : (1 <= N <= 40000000)%Z) (Hi : (1 <= iz <= 4 * N - 1)%Z) (HZ : -1 <= Z0 <= 1).
Let n := IZR N.
Lemma n_pos : 1 <= n <= 40000000. Proof. unfold n. split; apply IZR_le; lia. Qed.
Let q := IZR iz.
Lemma zone : ((iz <= N - 1)%Z /\ 3 * (n * n) * (1 - zR N iz) = q * q) \/ ((N <= iz <= 3 * N)%Z /\ 3 * n * zR N iz = 2 * (2 * n - q)) \/ ((3 * N + 1 <= iz)%Z /\ 3 * (n * n) * (1 + zR N iz) = (4 * n - q) * (4 * n - q)).
Proof.
  pose proof n_pos. rewrite (zR_eq N iz ltac:(lia)), minus_IZR, mult_IZR. fold n q. destruct (Z.leb_spec iz (N - 1)); [left | right; destruct (Z.leb_spec iz (3 * N)); [left | right]]; (split; [lia | field; lra]).
Qed.
Lemma near_third (u : R) : 0 <= u -> u <= 3 * (1 - t3) -> n * sqrt u <= n + 1 / 2.
Proof.
  intros H0 H. pose proof n_pos. apply sq_le; [lia | lra | exact H0|]. fold n. unfold t3 in H. assert (n * n * u <= n * n * (3 * (1 - 66666666 / 100000000))) by (apply Rmult_le_compat_l; nra). nra.
Qed.
Lemma below1 (x y : Z) : IZR x < IZR y + 1 -> (x <= y)%Z.
Proof. intro H. apply Z.lt_succ_r. apply lt_IZR. rewrite succ_IZR. exact H. Qed.
(** a ring that is not above the height is at most one ring above the ring of the height *)
Lemma ring_above : zR N iz <= Z0 -> (ringR N Z0 <= iz + 1)%Z.
Proof.
  intros Hz. pose proof n_pos as [P1 P2]. assert (Pn : 0 < n) by lra. assert (I1 : 1 <= q) by (apply IZR_le; lia). rewrite ringR_eq. fold n.
  assert (I3 : q <= 4 * n - 1) by (unfold q, n; rewrite <- mult_IZR, <- minus_IZR; apply IZR_le; lia).
  assert (N2 : 0 < n * n) by (apply Rmult_lt_0_compat; lra). pose proof zone as ZN. set (z := zR N iz) in *. clearbody z.
  destruct (Rlt_dec Z0 (- t3)) as [A|A]; [|destruct (Rlt_dec t3 Z0) as [B|B]]; cbv zeta.
  - set (w := n * sqrt (3 * (1 + Z0))). assert (W0 : 0 <= w) by (apply Rmult_le_pos; [lra | apply sqrt_pos]). pose proof (trunc_pos_bounds (w + 1 / 2) ltac:(lra)) as [_ T]. set (k := truncR (w + 1 / 2)) in *. clearbody k.
    assert (K : (k <= if (k =? 0)%Z then 1 else k)%Z) by (destruct (Z.eqb_spec k 0); lia). set (k' := if (k =? 0)%Z then 1%Z else k) in *. clearbody k'. apply IZR_le in K.
    assert (G : 4 * n - q <= w \/ (n <= w /\ q >= 3 * n - 1)).
    { destruct ZN as [[L E]|[[L E]|[L E]]].
      - exfalso. unfold t3 in A. assert (q <= n - 1) by (unfold q, n; rewrite <- minus_IZR; apply IZR_le; lia). assert (3 * (n * n) * (1 - z) >= 3 * (n * n) * (1 - Z0)) by (apply Rle_ge, Rmult_le_compat_l; lra). assert (q * q <= n * n) by (apply Rmult_le_compat; lra). nra.
      - right. unfold t3 in A. assert (q <= 3 * n) by (unfold q, n; rewrite <- mult_IZR; apply IZR_le; lia). split.
        + apply sq_ge; [lia | lra | lra|]. fold n. assert (- 2 / 3 <= Z0) by nra. assert (n * n * 1 <= n * n * (3 * (1 + Z0))) by (apply Rmult_le_compat_l; lra). lra.
        + assert (3 * n * z <= 3 * n * Z0) by (apply Rmult_le_compat_l; lra). assert (3 * n * Z0 <= 3 * n * (- (66666666 / 100000000))) by (apply Rmult_le_compat_l; lra). nra.
      - left. apply sq_ge; [lia | lra | lra|]. fold n. rewrite <- E. assert (3 * (n * n) * (1 + z) <= 3 * (n * n) * (1 + Z0)) by (apply Rmult_le_compat_l; lra). lra. }
    apply below1. rewrite minus_IZR, mult_IZR, plus_IZR. fold n q. destruct G as [G|[G1 G2]]; lra.
  - set (w := n * sqrt (3 * (1 - Z0))). assert (W0 : 0 <= w) by (apply Rmult_le_pos; [lra | apply sqrt_pos]). pose proof (trunc_pos_bounds (w + 1 / 2) ltac:(lra)) as [T _]. set (k := truncR (w + 1 / 2)) in *. clearbody k. destruct (Z.eqb_spec k 0) as [K|K]; [lia|].
    apply below1. rewrite plus_IZR. fold q. destruct ZN as [[L E]|ZN'].
    + assert (w <= q); [|lra]. apply sq_le; [lia | lra | lra|]. fold n. rewrite <- E. assert (3 * (n * n) * (1 - Z0) <= 3 * (n * n) * (1 - z)) by (apply Rmult_le_compat_l; lra). lra.
    + assert (w <= n + 1 / 2) by (apply near_third; lra). assert (n <= q) by (apply IZR_le; destruct ZN' as [[? _]|[? _]]; lia). lra.
  - pose proof (trunc_pos_bounds (n * (2 - 3 / 2 * Z0) + 1 / 2)) as T. unfold t3 in *. destruct T as [T _]; [nra|]. set (k := truncR _) in *. clearbody k. apply below1. rewrite plus_IZR. fold q. destruct ZN as [[L E]|[[L E]|[L E]]].
    + exfalso. assert (q <= n - 1) by (unfold q, n; rewrite <- minus_IZR; apply IZR_le; lia). assert (3 * (n * n) * (1 - z) >= 3 * (n * n) * (1 - 66666666 / 100000000)) by (apply Rle_ge, Rmult_le_compat_l; lra). assert (q * q <= (n - 1) * (n - 1)) by (apply Rmult_le_compat; lra). nra.
    + assert (3 * n * z <= 3 * n * Z0) by (apply Rmult_le_compat_l; lra). lra.
    + assert (3 * n + 1 <= q) by (unfold q, n; rewrite <- mult_IZR, <- plus_IZR; apply IZR_le; lia). assert (n * (- (66666666 / 100000000)) <= n * Z0) by (apply Rmult_le_compat_l; lra). lra.
Qed.
(** a ring that is not below the height is at most one ring below the ring of the height *)
Lemma ring_below : Z0 <= zR N iz -> (iz <= ringR N Z0 + 1)%Z.
Proof.
  intros Hz. pose proof n_pos as [P1 P2]. assert (Pn : 0 < n) by lra. assert (I1 : 1 <= q) by (apply IZR_le; lia). rewrite ringR_eq. fold n.
  assert (I3 : q <= 4 * n - 1) by (unfold q, n; rewrite <- mult_IZR, <- minus_IZR; apply IZR_le; lia).
  assert (N2 : 0 < n * n) by (apply Rmult_lt_0_compat; lra). pose proof zone as ZN. set (z := zR N iz) in *. clearbody z.
  destruct (Rlt_dec Z0 (- t3)) as [A|A]; [|destruct (Rlt_dec t3 Z0) as [B|B]]; cbv zeta.
  - set (w := n * sqrt (3 * (1 + Z0))). assert (W0 : 0 <= w) by (apply Rmult_le_pos; [lra | apply sqrt_pos]). pose proof (trunc_pos_bounds (w + 1 / 2) ltac:(lra)) as [T _]. set (k := truncR (w + 1 / 2)) in *. clearbody k. destruct (Z.eqb_spec k 0) as [K|K]; [lia|].
    apply below1. rewrite plus_IZR, minus_IZR, mult_IZR. fold n q. assert (H3 : (iz <= 3 * N)%Z \/ w <= 4 * n - q).
    { destruct ZN as [[L E]|[[L E]|[L E]]]; [left; lia | left; lia | right]. apply sq_le; [lia | lra | lra|]. fold n. rewrite <- E. assert (3 * (n * n) * (1 + Z0) <= 3 * (n * n) * (1 + z)) by (apply Rmult_le_compat_l; lra). lra. }
    destruct H3 as [H3|H3]; [|lra]. assert (w <= n + 1 / 2) by (apply near_third; lra). assert (q <= 3 * n) by (unfold q, n; rewrite <- mult_IZR; apply IZR_le; lia). lra.
  - set (w := n * sqrt (3 * (1 - Z0))). assert (W0 : 0 <= w) by (apply Rmult_le_pos; [lra | apply sqrt_pos]). pose proof (trunc_pos_bounds (w + 1 / 2) ltac:(lra)) as [_ T]. set (k := truncR (w + 1 / 2)) in *. clearbody k.
    assert (K : (k <= if (k =? 0)%Z then 1 else k)%Z) by (destruct (Z.eqb_spec k 0); lia). set (k' := if (k =? 0)%Z then 1%Z else k) in *. clearbody k'. apply IZR_le in K.
    apply below1. rewrite plus_IZR. fold q. assert (q - 1 <= w); [|lra]. apply sq_ge; [lia | lra | lra|]. fold n. assert (H1 : 3 * (n * n) * (1 - z) <= 3 * (n * n) * (1 - Z0)) by (apply Rmult_le_compat_l; lra). unfold t3 in B. destruct ZN as [[L E]|[[L E]|[L E]]].
    + nra.
    + assert (n <= q) by (apply IZR_le; lia). assert (3 * n * (66666666 / 100000000) <= 3 * n * z) by (apply Rmult_le_compat_l; lra). assert (q - 1 <= n) by nra. assert (z <= 2 / 3) by nra. assert ((q - 1) * (q - 1) <= n * n) by (apply Rmult_le_compat; lra). assert (n * n * 1 <= n * n * (3 * (1 - z))) by (apply Rmult_le_compat_l; lra). lra.
    + exfalso. assert (3 * n + 1 <= q) by (unfold q, n; rewrite <- mult_IZR, <- plus_IZR; apply IZR_le; lia). assert ((4 * n - q) * (4 * n - q) <= n * n) by (apply Rmult_le_compat; lra). nra.
  - unfold t3 in *. pose proof (trunc_pos_bounds (n * (2 - 3 / 2 * Z0) + 1 / 2)) as T. destruct T as [_ T]; [nra|]. set (k := truncR _) in *. clearbody k. apply below1. rewrite plus_IZR. fold q. destruct ZN as [[L E]|[[L E]|[L E]]].
    + assert (q <= n - 1) by (unfold q, n; rewrite <- minus_IZR; apply IZR_le; lia). assert (n * Z0 <= n * (66666666 / 100000000)) by (apply Rmult_le_compat_l; lra). lra.
    + assert (3 * n * Z0 <= 3 * n * z) by (apply Rmult_le_compat_l; lra). lra.
    + exfalso. assert (3 * n + 1 <= q) by (unfold q, n; rewrite <- mult_IZR, <- plus_IZR; apply IZR_le; lia). assert ((4 * n - q) * (4 * n - q) <= (n - 1) * (n - 1)) by (apply Rmult_le_compat; lra). assert (3 * (n * n) * (1 + z) >= 3 * (n * n) * (1 - 66666666 / 100000000)) by (apply Rle_ge, Rmult_le_compat_l; lra). nra.
Qed.
End Rings.

(** ** Geometry of a disc *)
(** cosine of the angle between two points given by height and azimuth *)
Definition cos_dist (z0 phi0 z phi : R) : R := z * z0 + sqrt (1 - z * z) * sqrt (1 - z0 * z0) * cos (phi - phi0).
Lemma cos_mono (x y : R) : 0 <= x <= PI -> 0 <= y <= PI -> cos x <= cos y -> y <= x.
Proof. intros Hx Hy H. destruct (Rle_lt_dec y x) as [L|L]; [exact L|]. pose proof (cos_decreasing_1 x y ltac:(lra) ltac:(lra) ltac:(lra) ltac:(lra) L). lra. Qed.
Lemma heights (z0 phi0 z phi r : R) : -1 <= z0 <= 1 -> -1 <= z <= 1 -> 0 <= r <= PI -> cos r <= cos_dist z0 phi0 z phi -> asin z0 - r <= asin z <= asin z0 + r.
Proof.
  intros H0 Hz Hr H. pose proof (asin_bound z0) as B0. pose proof (asin_bound z) as B. pose proof PI_RGT_0 as PP. unfold cos_dist in H.
  assert (C : cos r <= cos (asin z - asin z0)).
  { rewrite cos_minus, !sin_asin, !cos_asin by assumption. unfold Rsqr. pose proof (COS_bound (phi - phi0)) as [_ CB]. assert (Q : 0 <= sqrt (1 - z * z) * sqrt (1 - z0 * z0)) by (apply Rmult_le_pos; apply sqrt_pos). nra. }
  assert (A : Rabs (asin z - asin z0) <= r).
  { apply cos_mono; [lra | split; [apply Rabs_pos | apply Rabs_le; lra]|]. unfold Rabs. destruct (Rcase_abs _); [rewrite cos_neg|]; exact C. }
  apply Rabs_le_inv in A. lra.
Qed.
Lemma cos_turns (x : R) (t : Z) : cos (x + IZR t * (2 * PI)) = cos x.
Proof.
  destruct (Z_le_dec 0 t) as [H|H].
  - rewrite <- (Z2Nat.id t H), <- INR_IZR_INZ. replace (x + INR (Z.to_nat t) * (2 * PI)) with (x + 2 * INR (Z.to_nat t) * PI) by ring. apply cos_period.
  - replace x with (x + IZR t * (2 * PI) + 2 * INR (Z.to_nat (- t)) * PI) at 2; [symmetry; apply cos_period|]. rewrite INR_IZR_INZ, Z2Nat.id, opp_IZR by lia. ring.
Qed.
Lemma turn (x d : R) : 0 <= d <= PI -> cos d <= cos x -> exists t : Z, Rabs (x + IZR t * (2 * PI)) <= d.
Proof.
  intros Hd H. pose proof PI_RGT_0 as PP. set (t := (- up (x / (2 * PI) - 1 / 2))%Z). exists t. destruct (archimed (x / (2 * PI) - 1 / 2)) as [A1 A2].
  assert (E : x = x / (2 * PI) * (2 * PI)) by (field; lra). set (u := x / (2 * PI)) in *. assert (B : - PI <= x + IZR t * (2 * PI) <= PI) by (unfold t; rewrite opp_IZR, E; nra).
  apply cos_mono; [exact Hd | split; [apply Rabs_pos | apply Rabs_le; lra]|]. unfold Rabs. destruct (Rcase_abs _); [rewrite cos_neg|]; rewrite cos_turns; exact H.
Qed.

(** ** The query *)
Definition eff (nside : Z) (r : R) : R := r + 1071 / 1000 * PI / (4 * IZR nside).
(** cosine of the half-width in azimuth of the part of ring iz that lies in the enlarged disc (below -1 if the ring lies in it) *)
Definition cos_width (nside : Z) (z0 r : R) (iz : Z) : R := (cos (eff nside r) - zR nside iz * z0) / sqrt ((1 - z0 * z0) * (1 - zR nside iz * zR nside iz)).
(** the part of the ring outside the disc is empty or longer than one pixel *)
Definition roomy (nside : Z) (z0 r : R) (iz : Z) : Prop :=
  cos_width nside z0 r iz < -1 \/ PI - acos (cos_width nside z0 r iz) < 1 / 1000000 \/ acos (cos_width nside z0 r iz) * IZR (ring_size nside iz) < PI * (IZR (ring_size nside iz) - 1).
Lemma fold_incl {A} (step : list A -> Z -> res (list A)) : (forall acc iz l, step acc iz = Ok l -> incl acc l) -> forall L acc l, foldM step acc L = Ok l -> incl acc l.
Proof.
  intros HS L. induction L as [|iz L IH]; intros acc l; cbn [foldM]; [intro E; injection E as <-; apply incl_refl|]. intro E. apply bind_ok in E as (a & E1 & E2). eapply incl_tran; [exact (HS _ _ _ E1) | exact (IH _ _ E2)].
Qed.
Lemma fold_in {A} (step : list A -> Z -> res (list A)) (p : A) (iz : Z) : (forall acc iz l, step acc iz = Ok l -> incl acc l) -> (forall acc l, step acc iz = Ok l -> In p l) -> forall L acc l, In iz L -> foldM step acc L = Ok l -> In p l.
Proof.
  intros HS HP L. induction L as [|i L IH]; intros acc l HI; [destruct HI|]. cbn [foldM]. intro E. apply bind_ok in E as (a & E1 & E2). destruct HI as [-> | HI]; [exact (fold_incl step HS L a l E2 p (HP _ _ E1)) | exact (IH a l HI E2)].
Qed.
Lemma zR_inside (nside iz : Z) : (1 <= nside <= 40000000)%Z -> (1 <= iz <= 4 * nside - 1)%Z -> -1 < zR nside iz < 1.
Proof.
  intros HN Hi. pose proof (n_pos nside HN) as [P1 P2]. pose proof (zone nside iz HN) as ZN. assert (I1 : 1 <= IZR iz) by (apply IZR_le; lia). assert (I3 : IZR iz <= 4 * IZR nside - 1) by (rewrite <- mult_IZR, <- minus_IZR; apply IZR_le; lia).
  set (n := IZR nside) in *. set (q := IZR iz) in *. set (z := zR nside iz) in *. assert (N2 : 0 < n * n) by (apply Rmult_lt_0_compat; lra). destruct ZN as [[L E]|[[L E]|[L E]]].
  - assert (q <= n - 1) by (unfold q, n; rewrite <- minus_IZR; apply IZR_le; lia). assert (0 < q * q) by nra. assert (q * q <= n * n) by (apply Rmult_le_compat; lra). split; nra.
  - assert (n <= q) by (apply IZR_le; lia). assert (q <= 3 * n) by (unfold q, n; rewrite <- mult_IZR; apply IZR_le; lia). split; nra.
  - assert (3 * n + 1 <= q) by (unfold q, n; rewrite <- mult_IZR, <- plus_IZR; apply IZR_le; lia). assert ((4 * n - q) * (4 * n - q) <= n * n) by (apply Rmult_le_compat; lra). assert (0 < (4 * n - q) * (4 * n - q)) by (apply Rmult_lt_0_compat; lra). split; nra.
Qed.
Lemma ring_size_pos (nside iz : Z) : (1 <= nside)%Z -> (1 <= iz <= 4 * nside - 1)%Z -> (4 <= ring_size nside iz)%Z.
Proof.
  intros HN Hi. unfold ring_size, ring_first, ring_geom. destruct (Z.leb_spec nside iz); cbn [andb]; [destruct (Z.leb_spec iz (3 * nside))|]; cbn [fst snd]; try lia; destruct (Z.ltb_spec iz nside); cbn iota beta delta [fst snd]; lia.
Qed.
Theorem C89_complete (nside : Z) (z0 phi0 r : R) (cap : Z) (l : list Z) (iz k : Z) : (1 <= nside <= 40000000)%Z -> -1 < z0 < 1 -> 0 <= r -> eff nside r <= PI ->
  query_disc libmR nside z0 phi0 r cap = Ok l -> (1 <= iz <= 4 * nside - 1)%Z -> (0 <= k < ring_size nside iz)%Z ->
  cos r <= cos_dist z0 phi0 (zR nside iz) (azimuth (ring_size nside iz) (ring_shift nside iz) k) -> roomy nside z0 r iz ->
  In (ring_first nside iz + k)%Z l.
Proof.
  intros HN H0 Hr He Q Hi Hk HD HR. pose proof PI_RGT_0 as PP. pose proof (zR_inside nside iz HN Hi) as HZ. pose proof (n_pos nside HN) as [P1 P2].
  assert (Ep : r <= eff nside r) by (unfold eff; assert (0 < 1071 / 1000 * PI / (4 * IZR nside)) by (apply Rdiv_lt_0_compat; lra); lra).
  assert (HD' : cos (eff nside r) <= cos_dist z0 phi0 (zR nside iz) (azimuth (ring_size nside iz) (ring_shift nside iz) k)) by (apply Rle_trans with (cos r); [apply cos_decr_1; lra | exact HD]).
  pose proof (heights z0 phi0 (zR nside iz) (azimuth (ring_size nside iz) (ring_shift nside iz) k) (eff nside r) ltac:(lra) ltac:(lra) ltac:(lra) HD') as [Hl Hu].
  unfold query_disc in Q. match type of Q with (if ?b then _ else _) = _ => destruct b; [discriminate Q|] end. cbv zeta in Q.
  assert (EF : @fadd R_field r (@fdiv R_field (@fmul R_field (dec 1071 1000) (m_pi libmR)) (@fmul R_field (fofZ 4) (fofZ nside))) = eff nside r) by (unfold dec; rewrite !fofZ_IZR; reflexivity).
  rewrite EF in Q. clear EF. set (e := eff nside r) in *.
  match type of Q with foldM ?step _ (range ?lo ?hi) = _ => assert (RG : In iz (range lo hi)); [|assert (INC : forall acc iz l, step acc iz = Ok l -> incl acc l); [|refine (fold_in step _ iz INC _ _ _ _ RG Q); clear Q]] end.
  - apply in_range. cbn [m_asin m_sin m_sqrt m_trunc m_pi libmR]. rewrite !fofZ_IZR. change (@fadd R_field (asin z0) e) with (asin z0 + e). change (@fsub R_field (asin z0) e) with (asin z0 - e). change (@fmul R_field (@fdiv R_field f1 2%R) PI) with (1 / 2 * PI).
    split.
    + set (zm := if @fleb R_field _ _ then _ else _). assert (ZM : zR nside iz <= zm /\ -1 <= zm <= 1).
      { unfold zm. destruct (@fleb R_field (1 / 2 * PI)%R (asin z0 + e)%R) eqn:B; [change (@f1 R_field) with 1; lra|]. apply not_true_iff_false in B. assert (B' : asin z0 + e < 1 / 2 * PI) by (apply Rnot_le_lt; intro C; apply B; apply R_le; exact C). split; [|apply SIN_bound].
        rewrite <- (sin_asin (zR nside iz)) by lra. pose proof (asin_bound (zR nside iz)). pose proof (asin_bound z0). apply sin_incr_1; lra. }
      destruct ZM as [ZM1 ZM2]. pose proof (ring_above nside iz zm HN Hi ZM2 ZM1) as U. unfold ringR in U. destruct (Z.ltb_spec (@ring_num R_field sqrt truncR nside zm) 2); lia.
    + set (zm := if @fleb R_field _ _ then _ else _). assert (ZM : zm <= zR nside iz /\ -1 <= zm <= 1).
      { unfold zm. destruct (@fleb R_field (asin z0 - e)%R (@fopp R_field (1 / 2 * PI)%R)) eqn:B; [change (@fopp R_field (@f1 R_field)) with (-(1)); lra|]. apply not_true_iff_false in B. assert (B' : - (1 / 2 * PI) < asin z0 - e) by (apply Rnot_le_lt; intro C; apply B; apply R_le; exact C). split; [|apply SIN_bound].
        rewrite <- (sin_asin (zR nside iz)) by lra. pose proof (asin_bound (zR nside iz)). pose proof (asin_bound z0). apply sin_incr_1; lra. }
      destruct ZM as [ZM1 ZM2]. pose proof (ring_below nside iz zm HN Hi ZM2 ZM1) as U. unfold ringR in U. destruct (Z.ltb_spec (4 * nside - 2) (@ring_num R_field sqrt truncR nside zm)); lia.
  - intros acc i l' E. assert (ADD : forall dphi, (do l <- in_ring libmR nside i phi0 dphi cap; if (cap <? Z.of_nat (length acc + length l))%Z then Exn RuntimeError else Ok (acc ++ l)) = Ok l' -> incl acc l').
    { intros dphi E'. apply bind_ok in E' as (l1 & _ & E'). destruct (cap <? _)%Z; [discriminate E'|]. injection E' as <-. apply incl_appl, incl_refl. }
    destruct (@feqb R_field z0 f1); [destruct (@fltb R_field f0 _); [injection E as <-; apply incl_refl | exact (ADD _ E)]|]. destruct (@fleb R_field _ f1); [exact (ADD _ E)|]. destruct (@fltb R_field _ _); [injection E as <-; apply incl_refl | exact (ADD _ E)].
  - intros acc l' E. cbv beta in E. destruct (@feqb R_field z0 f1) eqn:E1. { apply feqb_eq in E1. change (@f1 R_field) with 1 in E1. lra. }
    assert (SP : 0 < (1 - z0 * z0) * (1 - zR nside iz * zR nside iz)) by (apply Rmult_lt_0_compat; nra). pose proof (sqrt_lt_R0 _ SP) as SP'.
    assert (EX : @fdiv R_field (@fsub R_field (m_cos libmR e) (@fmul R_field (ring_z nside iz) z0)) (m_sqrt libmR (@fmul R_field (@fsub R_field f1 (@fmul R_field z0 z0)) (@fsub R_field f1 (@fmul R_field (ring_z nside iz) (ring_z nside iz))))) = cos_width nside z0 r iz) by reflexivity.
    rewrite EX in E. clear EX. set (X := cos_width nside z0 r iz) in *. set (phi := azimuth (ring_size nside iz) (ring_shift nside iz) k) in *.
    assert (CX : X <= cos (phi - phi0)).
    { unfold X, cos_width. fold e. unfold cos_dist in HD'. apply (Rmult_le_reg_r (sqrt ((1 - z0 * z0) * (1 - zR nside iz * zR nside iz)))); [exact SP'|]. unfold Rdiv. rewrite Rmult_assoc, Rinv_l by lra. rewrite sqrt_mult in * by nra. lra. }
    pose proof (COS_bound (phi - phi0)) as [_ CB].
    assert (ADD : forall dphi, (do l <- in_ring libmR nside iz phi0 dphi cap; if (cap <? Z.of_nat (length acc + length l))%Z then Exn RuntimeError else Ok (acc ++ l)) = Ok l' -> exists l1, in_ring libmR nside iz phi0 dphi cap = Ok l1 /\ incl l1 l').
    { intros dphi E'. apply bind_ok in E' as (l1 & E2 & E'). destruct (cap <? _)%Z; [discriminate E'|]. injection E' as <-. exists l1. split; [exact E2 | apply incl_appr, incl_refl]. }
    assert (FULL : forall dphi l1, Rabs (dphi - PI) < 1 / 1000000 -> in_ring libmR nside iz phi0 dphi cap = Ok l1 -> In (ring_first nside iz + k)%Z l1) by (intros dphi l1 HF E2; apply (C74_full_ring nside iz phi0 dphi cap l1 HF E2); lia).
    assert (SZ := ring_size_pos nside iz ltac:(lia) Hi).
    destruct (@fleb R_field (@fabs R_field X) f1) eqn:E2.
    + assert (AX : -1 <= X <= 1). { apply (R_le (@fabs R_field X) f1) in E2. unfold fabs in E2. destruct (@fleb R_field f0 X) eqn:S; change (@f1 R_field) with 1 in E2; [apply (R_le f0 X) in S; change (@f0 R_field) with 0 in S; lra | apply not_true_iff_false in S; assert (X < 0) by (apply Rnot_le_lt; intro C; apply S; apply (R_le f0 X); exact C); change (@fopp R_field X) with (- X) in E2; lra]. }
      apply ADD in E as [l1 [E3 IL]]. apply IL. change (m_acos libmR X) with (acos X) in E3. pose proof (acos_bound X) as AB.
      destruct (Rlt_le_dec (Rabs (acos X - PI)) (1 / 1000000)) as [NF|NF]; [exact (FULL _ _ NF E3)|].
      destruct HR as [HR|[HR|HR]]; [fold X in HR; lra | fold X in HR; rewrite Rabs_left1 in NF by lra; lra|]. fold X in HR.
      destruct (turn (phi - phi0) (acos X) AB) as [t Ht]; [rewrite cos_acos by lra; exact CX|].
      apply (C74_ring_query nside iz phi0 (acos X) cap l1 ltac:(lia) ltac:(lra) HR ltac:(lra) E3) with (turns := t); [exact Hk|]. fold phi. replace (phi + IZR t * (2 * PI) - phi0) with (phi - phi0 + IZR t * (2 * PI)) by ring. exact Ht.
    + assert (NX : X < -1). { apply Rnot_le_lt. intro C. apply not_true_iff_false in E2. apply E2. apply (R_le (@fabs R_field X) f1). unfold fabs. destruct (@fleb R_field f0 X) eqn:S; change (@f1 R_field) with 1; [lra | change (@fopp R_field X) with (- X); lra]. }
      pose proof (COS_bound phi0) as [CB1 _]. replace (@fltb R_field (m_cos libmR phi0) X) with false in E by (symmetry; apply not_true_iff_false; intro C; apply Rltb_spec in C; change (m_cos libmR phi0) with (cos phi0) in C; lra).
      apply ADD in E as [l1 [E3 IL]]. apply IL. apply (FULL PI l1); [|exact E3]. rewrite Rminus_diag_eq by reflexivity. rewrite Rabs_R0. lra.
Qed.
(** the enlarged disc does not contain a pole *)
Definition clear_of_poles (nside : Z) (z0 r : R) : Prop := Rabs z0 < cos (eff nside r).
Lemma clear_roomy (nside : Z) (z0 r : R) (iz : Z) : (1 <= nside <= 40000000)%Z -> (1 <= iz <= 4 * nside - 1)%Z -> clear_of_poles nside z0 r -> roomy nside z0 r iz.
Proof.
  intros HN Hi HC. right. right. unfold clear_of_poles in HC. pose proof PI_RGT_0 as PP. pose proof (zR_inside nside iz HN Hi) as HZ. pose proof (ring_size_pos nside iz ltac:(lia) Hi) as SZ. apply IZR_le in SZ. pose proof (COS_bound (eff nside r)) as [_ CB].
  assert (NU : 0 < cos (eff nside r) - zR nside iz * z0) by (unfold Rabs in HC; destruct (Rcase_abs z0); nra).
  assert (Z1 : -1 < z0 < 1) by (unfold Rabs in HC; destruct (Rcase_abs z0); lra).
  assert (SP : 0 < (1 - z0 * z0) * (1 - zR nside iz * zR nside iz)) by (apply Rmult_lt_0_compat; nra). pose proof (sqrt_lt_R0 _ SP) as SP'.
  assert (XP : 0 < cos_width nside z0 r iz) by (apply Rdiv_lt_0_compat; assumption).
  assert (A : acos (cos_width nside z0 r iz) <= PI / 2).
  { rewrite <- acos_0. destruct (Rle_lt_dec (cos_width nside z0 r iz) 1) as [L|L].
    - apply cos_mono; [apply acos_bound | apply acos_bound|]. rewrite !cos_acos by lra. lra.
    - unfold acos at 1. destruct (Rle_dec _ _); [lra|]. destruct (Rle_dec _ _); [apply acos_bound | lra]. }
  nra.
Qed.
Theorem C89_complete_clear (nside : Z) (z0 phi0 r : R) (cap : Z) (l : list Z) (iz k : Z) : (1 <= nside <= 40000000)%Z -> 0 <= r -> eff nside r <= PI -> clear_of_poles nside z0 r ->
  query_disc libmR nside z0 phi0 r cap = Ok l -> (1 <= iz <= 4 * nside - 1)%Z -> (0 <= k < ring_size nside iz)%Z ->
  cos r <= cos_dist z0 phi0 (zR nside iz) (azimuth (ring_size nside iz) (ring_shift nside iz) k) -> In (ring_first nside iz + k)%Z l.
Proof.
  intros HN Hr He HC Q Hi Hk HD. assert (Z1 : -1 < z0 < 1) by (pose proof (COS_bound (eff nside r)) as [_ CB]; unfold clear_of_poles, Rabs in HC; destruct (Rcase_abs z0); lra).
  exact (C89_complete nside z0 phi0 r cap l iz k HN Z1 Hr He Q Hi Hk HD (clear_roomy nside z0 r iz HN Hi HC)).
Qed.

(** ** Apodisation with real functions and HEALPix centres *)
(** he_pix2vec_ring of chealpix: unit vector and azimuth of pixel k of ring iz *)
Definition ring_centre (nside iz k : Z) : centre R_field :=
  let z := zR nside iz in let phi := azimuth (ring_size nside iz) (ring_shift nside iz) k in
  @Centre R_field (sqrt (1 - z * z) * cos phi)%R (sqrt (1 - z * z) * sin phi)%R z phi.
Definition healpix_centres (centre_of : Z -> Z -> centre R_field) (nside : Z) : Prop :=
  forall iz k, (1 <= iz <= 4 * nside - 1)%Z -> (0 <= k < ring_size nside iz)%Z -> centre_of nside (ring_first nside iz + k)%Z = ring_centre nside iz k.
Lemma geom_limits (nside iz : Z) : fst (ring_geom nside iz) = get_ring_limits nside iz.
Proof. unfold ring_geom, get_ring_limits. destruct (_ && _)%bool; [reflexivity|]. destruct (iz <? nside)%Z; reflexivity. Qed.
Lemma pixel_ring (nside : Z) (p : Z) : (1 <= nside)%Z -> (0 <= p < 12 * nside * nside)%Z -> exists iz k, (1 <= iz <= 4 * nside - 1)%Z /\ (0 <= k < ring_size nside iz)%Z /\ p = (ring_first nside iz + k)%Z.
Proof.
  intros HN Hp. destruct (C47_unique_ring nside p HN Hp) as [iz [Hi [Hl _]]]. exists iz, (p - ring_first nside iz)%Z. unfold ring_size, ring_first. rewrite geom_limits. split; [exact Hi|]. lia.
Qed.
Lemma x2_centres (nside iz k iz' k' : Z) : x2 (ring_centre nside iz k) (ring_centre nside iz' k') = 1 - cos_dist (zR nside iz) (azimuth (ring_size nside iz) (ring_shift nside iz) k) (zR nside iz') (azimuth (ring_size nside iz') (ring_shift nside iz') k').
Proof.
  unfold x2, ring_centre, cos_dist. cbn [v_x v_y v_z]. rewrite cos_minus. cbn -[IZR azimuth ring_shift ring_size zR]. ring.
Qed.
Definition disc_radius (aposize : R) : R := 6 / 5 * (aposize * PI / 180).
Lemma complete_clear (centre_of : Z -> Z -> centre R_field) (nside : nat) (aposize : R) (p : nat) : (1 <= Z.of_nat nside <= 40000000)%Z -> healpix_centres centre_of (Z.of_nat nside) -> 0 < aposize -> eff (Z.of_nat nside) (disc_radius aposize) <= PI ->
  (p < 12 * nside * nside)%nat -> clear_of_poles (Z.of_nat nside) (v_z (centre_of (Z.of_nat nside) (Z.of_nat p))) (disc_radius aposize) -> complete libmR centre_of (Z.of_nat nside) aposize p.
Proof.
  intros HN HC Ha He Hp HP cap disc q Q Hq D. pose proof PI_RGT_0 as PP. set (N := Z.of_nat nside) in *.
  destruct (pixel_ring N (Z.of_nat p) ltac:(lia) ltac:(unfold N; lia)) as (iz0 & k0 & Hi0 & Hk0 & Ep). destruct (pixel_ring N (Z.of_nat q) ltac:(lia) ltac:(lia)) as (iz & k & Hi & Hk & Eq).
  unfold L_Apod.dist2 in D. rewrite Ep, Eq in D. rewrite Ep in Q, HP. rewrite !HC in D by assumption. rewrite HC in Q, HP by assumption. rewrite x2_centres in D.
  assert (ER : @fmul R_field (dec 6 5) (radians libmR aposize) = disc_radius aposize) by (unfold dec, radians; rewrite !fofZ_IZR; cbn [m_pi libmR]; unfold disc_radius; cbn -[IZR]; field).
  rewrite ER in Q. rewrite Eq. cbn [ring_centre v_z v_phi] in Q, HP.
  assert (R0 : 0 < disc_radius aposize) by (unfold disc_radius; assert (0 < aposize * PI) by (apply Rmult_lt_0_compat; lra); lra).
  apply (C89_complete_clear N (zR N iz0) (azimuth (ring_size N iz0) (ring_shift N iz0) k0) (disc_radius aposize) cap disc iz k HN ltac:(lra) He HP Q Hi Hk).
  apply (R_lt _ _) in D. unfold L_Apod.thr, radians in D. rewrite fofZ_IZR in D. cbn [m_cos m_pi libmR] in D. change (@fsub R_field f1 (cos (@fdiv R_field (@fmul R_field aposize PI) 180))) with (1 - cos (aposize * PI / 180)) in D.
  assert (cos (disc_radius aposize) <= cos (aposize * PI / 180)); [|lra]. pose proof (n_pos N HN) as [P1 P2]. assert (0 < 1071 / 1000 * PI / (4 * IZR N)) by (apply Rdiv_lt_0_compat; lra). unfold eff in He. unfold disc_radius in *. assert (0 < aposize * PI / 180) by (assert (0 < aposize * PI) by (apply Rmult_lt_0_compat; lra); lra). apply cos_decr_1; lra.
Qed.
(** Away from the poles an apodised pixel is multiplied by the documented function of its distance to the nearest masked pixel, for all masks. *)
Theorem C89_apodization (centre_of : Z -> Z -> centre R_field) (K : calc R_field) (mask : list R) (aposize : R) (c2 : bool) (out : list R) (p q nside : nat) :
  (1 <= Z.of_nat nside <= 40000000)%Z -> healpix_centres centre_of (Z.of_nat nside) -> 0 < aposize -> eff (Z.of_nat nside) (disc_radius aposize) <= PI ->
  mask_apodization libmR centre_of K mask aposize (Some (ty c2)) = Ok out -> length mask = (12 * nside * nside)%nat ->
  (p < length mask)%nat -> (q < length mask)%nat -> clear_of_poles (Z.of_nat nside) (v_z (centre_of (Z.of_nat nside) (Z.of_nat p))) (disc_radius aposize) ->
  0 < nth p mask 0 -> nth q mask 0 <= 0 ->
  let d j := @x2 R_field (centre_of (Z.of_nat nside) (Z.of_nat p)) (centre_of (Z.of_nat nside) (Z.of_nat j)) in
  (forall j, (j < length mask)%nat -> nth j mask 0 <= 0 -> d q <= d j) ->
  let w x := if c2 then 1 / 2 * (1 - cos (x * PI)) else x - sin (x * 2 * PI) / (2 * PI) in
  (d q < 1 - cos (aposize * PI / 180) -> 0 < d q -> nth p out 0 = nth p mask 0 * w (sqrt (d q / (1 - cos (aposize * PI / 180))))) /\
  (1 - cos (aposize * PI / 180) <= d q -> nth p out 0 = nth p mask 0).
Proof.
  intros HN HC Ha He E EL Hp Hq HP Mp Mq d Hmin w.
  assert (TH : @L_Apod.thr R_field libmR aposize = 1 - cos (aposize * PI / 180)) by (unfold L_Apod.thr, radians; rewrite fofZ_IZR; reflexivity).
  assert (CL : complete libmR centre_of (Z.of_nat nside) aposize p) by (apply complete_clear; try assumption; rewrite <- EL; exact Hp).
  assert (CB : (@fopp R_field f1 <= m_cos libmR (radians libmR aposize))%F) by (apply R_le; apply COS_bound).
  assert (Ha' : (@f0 R_field < aposize)%F) by (apply (R_lt f0 aposize); exact Ha).
  split.
  - intros D1 D0. pose proof (C58_nearest libmR centre_of K mask aposize c2 out p q nside Ha' CB E EL CL Hp Hq) as T. unfold L_Apod.dist2 in T. rewrite TH in T.
    transitivity (@nth R_field p out (@f0 R_field)); [reflexivity|]. rewrite T.
    + rewrite windowR. reflexivity.
    + apply (R_lt f0). exact Mp.
    + apply (R_le _ f0). exact Mq.
    + intros j Hj Mj. apply R_le. apply Hmin; [exact Hj | apply (R_le _ f0); exact Mj].
    + apply (R_lt f0). exact D0.
    + apply R_lt. exact D1.
  - intros D1. apply (C58_far libmR centre_of K mask aposize c2 out p Ha' CB E Hp). intros ns j E2 E3 Hj Mj. assert (ns = Z.of_nat nside) by (assert (E4 : Z.of_nat (length mask) = (12 * ns * ns)%Z) by exact E2; rewrite EL in E4; nia). subst ns. unfold L_Apod.dist2. rewrite TH. apply R_le. eapply Rle_trans; [exact D1|]. apply Hmin; [exact Hj | apply (R_le _ f0); exact Mj].
Qed.

(** ** The query always returns if the list is long enough *)
Lemma modu_range (a n : Z) : (0 < n)%Z -> (0 <= modu a n < n)%Z.
Proof. intro H. rewrite modu_mod by exact H. apply Z.mod_pos_bound. exact H. Qed.
Lemma in_ring_ok (nside iz : Z) (phi0 dphi : R) (cap : Z) : (1 <= nside)%Z -> (1 <= iz <= 4 * nside - 1)%Z -> (ring_size nside iz <= cap)%Z ->
  exists l, in_ring libmR nside iz phi0 dphi cap = Ok l /\ (Z.of_nat (length l) <= ring_size nside iz)%Z /\ forall p, In p l -> (ring_first nside iz <= p < ring_first nside iz + ring_size nside iz)%Z.
Proof.
  intros HN Hi Hc. pose proof (ring_size_pos nside iz HN Hi) as SZ. unfold in_ring. unfold ring_size, ring_first in *. destruct (ring_geom nside iz) as [[i1 i2] ks]. cbn [fst snd] in *. cbv zeta.
  set (nr := (i2 - i1 + 1)%Z) in *. destruct (@fltb R_field _ _).
  - rewrite range_length. replace (cap <? Z.of_nat (Z.to_nat (i2 - i1 + 1)))%Z with false by (symmetry; apply Z.ltb_ge; lia). eexists. split; [reflexivity|]. rewrite range_length. split; [lia|]. intros p Hp. apply in_range in Hp. lia.
  - match goal with |- context [(modu ?y nr <? modu ?x nr)%Z] => set (a := x); set (b := y) end. pose proof (modu_range a nr ltac:(lia)). pose proof (modu_range b nr ltac:(lia)). destruct (Z.ltb_spec (modu b nr) (modu a nr)).
    + match goal with |- context [if ?c then _ else _] => replace c with false end; [|symmetry; apply Z.ltb_ge; rewrite app_length, !range_length; lia]. eexists. split; [reflexivity|]. rewrite app_length, !range_length. split; [lia|]. intros p Hp. rewrite in_app_iff, !in_range in Hp. lia.
    + match goal with |- context [if ?c then _ else _] => replace c with false end; [|symmetry; apply Z.ltb_ge; rewrite range_length; lia]. eexists. split; [reflexivity|]. rewrite range_length. split; [lia|]. intros p Hp. rewrite in_range in Hp. lia.
Qed.
Lemma ring_size_max (nside iz : Z) : (1 <= nside)%Z -> (1 <= iz <= 4 * nside - 1)%Z -> (ring_size nside iz <= 4 * nside)%Z.
Proof.
  intros HN Hi. unfold ring_size, ring_first, ring_geom. destruct (Z.leb_spec nside iz); cbn [andb]; [destruct (Z.leb_spec iz (3 * nside))|]; cbn [fst snd]; try lia; destruct (Z.ltb_spec iz nside); cbn iota beta delta [fst snd]; lia.
Qed.
(** the rings follow each other *)
Lemma ring_next (nside iz : Z) : (1 <= nside)%Z -> (1 <= iz <= 4 * nside - 2)%Z -> (ring_first nside (iz + 1) = ring_first nside iz + ring_size nside iz)%Z.
Proof.
  intros HN Hi. unfold ring_size, ring_first, ring_geom.
  destruct (Z.leb_spec nside iz), (Z.leb_spec iz (3 * nside)), (Z.leb_spec nside (iz + 1)), (Z.leb_spec (iz + 1) (3 * nside)); cbn [andb fst snd]; try lia;
    destruct (Z.ltb_spec iz nside), (Z.ltb_spec (iz + 1) nside); cbn iota beta delta [fst snd]; try lia; try nia.
Qed.
Definition sizes (nside : Z) (L : list Z) : Z := fold_right (fun iz s => (ring_size nside iz + s)%Z) 0%Z L.
Lemma sizes_run (nside : Z) (HN : (1 <= nside)%Z) : forall (n : nat) (lo : Z), (1 <= lo)%Z -> (lo + Z.of_nat n <= 4 * nside - 1)%Z -> sizes nside (map (fun i => lo + Z.of_nat i)%Z (seq 0 (S n))) = (ring_first nside (lo + Z.of_nat n) + ring_size nside (lo + Z.of_nat n) - ring_first nside lo)%Z.
Proof.
  induction n as [|n IH]; intros lo H1 H2; [unfold sizes; cbn [seq map fold_right]; change (Z.of_nat 0) with 0%Z; rewrite !Z.add_0_r; lia|].
  change (seq 0 (S (S n))) with (0%nat :: seq 1 (S n)). rewrite <- seq_shift, map_cons, map_map. cbn [sizes fold_right]. fold (sizes nside (map (fun x => (lo + Z.of_nat (S x))%Z) (seq 0 (S n)))).
  rewrite (map_ext (fun x => lo + Z.of_nat (S x))%Z (fun i => (lo + 1) + Z.of_nat i)%Z) by (intros; lia). rewrite IH by lia. change (Z.of_nat 0) with 0%Z. rewrite Z.add_0_r, (ring_next nside lo HN) by lia. replace (lo + 1 + Z.of_nat n)%Z with (lo + Z.of_nat (S n))%Z by lia. lia.
Qed.
Lemma ring_inside (nside iz k : Z) : (1 <= nside)%Z -> (1 <= iz <= 4 * nside - 1)%Z -> (0 <= k < ring_size nside iz)%Z -> (0 <= ring_first nside iz + k < 12 * nside * nside)%Z.
Proof.
  intros HN Hi. unfold ring_size, ring_first, ring_geom. destruct (Z.leb_spec nside iz); cbn [andb]; [destruct (Z.leb_spec iz (3 * nside))|]; cbn [fst snd]; try nia; destruct (Z.ltb_spec iz nside); cbn iota beta delta [fst snd]; nia.
Qed.
(** one pass of the loop over rings: the list grows by pixels of that ring *)
Definition grows (nside cap : Z) (step : list Z -> Z -> res (list Z)) : Prop := forall acc iz, (1 <= iz <= 4 * nside - 1)%Z -> (Z.of_nat (length acc) + ring_size nside iz <= cap)%Z ->
  exists l, step acc iz = Ok (acc ++ l) /\ (Z.of_nat (length l) <= ring_size nside iz)%Z /\ forall p, In p l -> (0 <= p < 12 * nside * nside)%Z.
Lemma sizes_pos (nside : Z) (L : list Z) : (1 <= nside)%Z -> (forall iz, In iz L -> (1 <= iz <= 4 * nside - 1)%Z) -> (0 <= sizes nside L)%Z.
Proof.
  intros HN. induction L as [|i L IH]; intro H; [cbn; lia|]. cbn [sizes fold_right]. fold (sizes nside L). pose proof (ring_size_pos nside i HN (H i (or_introl eq_refl))). specialize (IH (fun x Hx => H x (or_intror Hx))). lia.
Qed.
Lemma grow_all (nside cap : Z) (step : list Z -> Z -> res (list Z)) : (1 <= nside)%Z -> grows nside cap step -> forall L acc, (forall iz, In iz L -> (1 <= iz <= 4 * nside - 1)%Z) -> (Z.of_nat (length acc) + sizes nside L <= cap)%Z -> (forall p, In p acc -> (0 <= p < 12 * nside * nside)%Z) ->
  exists l, foldM step acc L = Ok l /\ forall p, In p l -> (0 <= p < 12 * nside * nside)%Z.
Proof.
  intros HN HG L. induction L as [|iz L IH]; intros acc HL HC HA; [exists acc; split; [reflexivity | exact HA]|]. cbn [foldM]. cbn [sizes fold_right] in HC. fold (sizes nside L) in HC. pose proof (sizes_pos nside L HN (fun x Hx => HL x (or_intror Hx))).
  destruct (HG acc iz (HL iz (or_introl eq_refl)) ltac:(lia)) as (l & E & B & IN). rewrite E. cbn [bind]. apply IH; [intros i Hi; apply HL; right; exact Hi | rewrite app_length; lia|]. intros p Hp. apply in_app_or in Hp as [Hp|Hp]; [exact (HA p Hp) | exact (IN p Hp)].
Qed.
Lemma sizes_range (nside lo hi : Z) : (1 <= nside)%Z -> (1 <= lo)%Z -> (hi <= 4 * nside - 1)%Z -> (sizes nside (range lo hi) <= 12 * nside * nside)%Z.
Proof.
  intros HN Hl Hh. unfold range. destruct (Z_le_dec lo hi) as [L|L]; [|replace (Z.to_nat (hi - lo + 1)) with 0%nat by lia; change (0 <= 12 * nside * nside)%Z; nia].
  replace (Z.to_nat (hi - lo + 1)) with (S (Z.to_nat (hi - lo))) by lia. rewrite sizes_run by lia. pose proof (ring_inside nside lo 0 HN ltac:(lia) ltac:(pose proof (ring_size_pos nside lo HN ltac:(lia)); lia)). set (h := (lo + Z.of_nat (Z.to_nat (hi - lo)))%Z). assert (Hh' : (1 <= h <= 4 * nside - 1)%Z) by (unfold h; lia).
  pose proof (ring_inside nside h (ring_size nside h - 1) HN Hh' ltac:(pose proof (ring_size_pos nside h HN Hh'); lia)). lia.
Qed.
Lemma query_ok (nside : Z) (z0 phi0 r : R) (cap : Z) : (1 <= nside)%Z -> 0 <= r <= PI -> (12 * nside * nside <= cap)%Z -> exists l, query_disc libmR nside z0 phi0 r cap = Ok l /\ forall p, In p l -> (0 <= p < 12 * nside * nside)%Z.
Proof.
  intros HN Hr Hc. unfold query_disc. replace (@fltb R_field r f0) with false by (symmetry; apply not_true_iff_false; intro C; apply Rltb_spec in C; change (@f0 R_field) with 0 in C; lra).
  replace (@fltb R_field (m_pi libmR) r) with false by (symmetry; apply not_true_iff_false; intro C; apply Rltb_spec in C; change (m_pi libmR) with PI in C; lra). cbn [orb]. cbv zeta.
  match goal with |- context [foldM ?step [] (range ?lo ?hi)] => set (st := step); assert (LO : (1 <= lo)%Z /\ (hi <= 4 * nside - 1)%Z); [|assert (G : grows nside cap st); [|destruct (grow_all nside cap st HN G (range lo hi) []) as [l [E IN]]; [| | intros p [] | exists l; split; assumption]]] end.
  - match goal with |- (1 <= (if (?a <? 2)%Z then _ else _))%Z /\ ((if (_ <? ?b)%Z then _ else _) <= _)%Z => generalize a, b end. intros a b. destruct (Z.ltb_spec a 2), (Z.ltb_spec (4 * nside - 2) b); lia.
  - intros acc iz Hi HA. assert (ADD : forall dphi, exists l, (do l <- in_ring libmR nside iz phi0 dphi cap; if (cap <? Z.of_nat (length acc + length l))%Z then Exn RuntimeError else Ok (acc ++ l)) = Ok (acc ++ l) /\ (Z.of_nat (length l) <= ring_size nside iz)%Z /\ forall p, In p l -> (0 <= p < 12 * nside * nside)%Z).
    { intro dphi. destruct (in_ring_ok nside iz phi0 dphi cap HN Hi ltac:(lia)) as (l & E & B & IN). exists l. rewrite E. cbn [bind]. replace (cap <? _)%Z with false by (symmetry; apply Z.ltb_ge; lia). split; [reflexivity|]. split; [lia|]. intros p Hp. specialize (IN p Hp). pose proof (ring_inside nside iz (p - ring_first nside iz) HN Hi ltac:(lia)). lia. }
    assert (NONE : exists l, Ok acc = Ok (acc ++ l) /\ (Z.of_nat (length l) <= ring_size nside iz)%Z /\ forall p, In p l -> (0 <= p < 12 * nside * nside)%Z) by (exists []; rewrite app_nil_r; pose proof (ring_size_pos nside iz HN Hi); split; [reflexivity | split; [change (Z.of_nat (length (@nil Z))) with 0%Z; lia | intros p []]]).
    unfold st. destruct (@feqb R_field z0 f1); [destruct (@fltb R_field f0 _); [exact NONE | apply ADD]|]. destruct (@fleb R_field _ f1); [apply ADD|]. destruct (@fltb R_field _ _); [exact NONE | apply ADD].
  - intros iz Hi. apply in_range in Hi. lia.
  - pose proof (sizes_range nside _ _ HN (proj1 LO) (proj2 LO)). cbn [length]. lia.
Qed.
Lemma fold_mem (step : list Z -> Z -> res (list Z)) (p : Z) : forall L acc l, foldM step acc L = Ok l -> In p l -> In p acc \/ exists iz acc' l', In iz L /\ step acc' iz = Ok l' /\ In p l' /\ ~ In p acc'.
Proof.
  intros L. induction L as [|i L IH]; intros acc l; cbn [foldM].
  - intros E H. injection E as <-. left. exact H.
  - intros E H. apply bind_ok in E as (a & E1 & E2). destruct (IH a l E2 H) as [HA|(iz & acc' & l' & HI & HS & HIn & HN)]; [|right; exists iz, acc', l'; split; [right; exact HI | split; [exact HS | split; assumption]]].
    destruct (in_dec Z.eq_dec p acc) as [C|C]; [left; exact C | right; exists i, acc, a; split; [left; reflexivity | split; [exact E1 | split; assumption]]].
Qed.

(** ** Apodisation returns for every mask if the list is long enough *)
Lemma mapM_total {A B} (f : A -> res B) (l : list A) : (forall a, In a l -> exists b, f a = Ok b) -> exists r, mapM f l = Ok r.
Proof.
  induction l as [|a l IH]; intro H; [exists []; reflexivity|]. destruct (H a (or_introl eq_refl)) as [b E]. destruct IH as [r ER]; [intros x Hx; apply H; right; exact Hx|]. exists (b :: r). cbn [mapM]. rewrite E. cbn [bind]. rewrite ER. reflexivity.
Qed.
Lemma rd_in {A} (l : list A) (i : Z) : (0 <= i < Z.of_nat (length l))%Z -> exists a, rd l i = Ok a.
Proof.
  intro H. destruct l as [|d l]; [cbn in H; lia|]. exists (nth (Z.to_nat i) (d :: l) d). apply rd_nth. exact H.
Qed.
Lemma ER (aposize : R) : @fmul R_field (dec 6 5) (radians libmR aposize) = disc_radius aposize.
Proof. unfold dec, radians. rewrite !fofZ_IZR. cbn [m_pi libmR]. unfold disc_radius. cbn -[IZR]. field. Qed.
Lemma CX_returns (centre_of : Z -> Z -> centre R_field) (nside : Z) (mask : list R) (aposize : R) (c2 : bool) (len : Z) : (1 <= nside)%Z -> Z.of_nat (length mask) = (12 * nside * nside)%Z -> 0 <= disc_radius aposize <= PI ->
  list_size libmR nside (disc_radius aposize) = Ok len -> (12 * nside * nside <= len / 2)%Z -> exists m, apodize_CX libmR centre_of nside mask aposize c2 = Ok m.
Proof.
  intros HN EL HR LS LB. unfold apodize_CX. cbv zeta. rewrite ER, LS. cbn [bind]. apply mapM_total. intros ip Hip. apply in_range in Hip. unfold apodized_pixel.
  destruct (@rd_in R_field mask ip ltac:(change (@length (car R_field) mask) with (@length R mask); lia)) as [m RM]. rewrite RM. cbn [bind]. destruct (@fltb R_field f0 m); [|eexists; reflexivity].
  destruct (query_ok nside (v_z (centre_of nside ip)) (v_phi (centre_of nside ip)) (disc_radius aposize) (len / 2) HN HR LB) as [disc [Q IN]].
  rewrite ER, Q. cbn [bind]. assert (XD : exists d, x2dist centre_of nside mask ip disc = Ok d).
  { unfold x2dist. clear Q. generalize (@fofZ R_field 1000). induction disc as [|j disc IH]; intro d0; cbn [foldM]; [eexists; reflexivity|]. destruct (@rd_in R_field mask j ltac:(specialize (IN j (or_introl eq_refl)); change (@length (car R_field) mask) with (@length R mask); lia)) as [m2 RJ]. rewrite RJ. cbn [bind]. apply IH. intros p Hp. apply IN. right. exact Hp. }
  destruct XD as [d XD]. rewrite XD. cbn [bind]. destruct (@fltb R_field d _); eexists; reflexivity.
Qed.
Lemma cos_60 (r : R) : PI / 3 <= r <= PI -> -1 <= cos r <= 1 / 2.
Proof. intro H. pose proof PI_RGT_0. split; [apply COS_bound|]. rewrite <- cos_PI3. apply cos_decr_1; lra. Qed.
Lemma apo_nside_pow (k : nat) : (k <= 12)%nat -> apo_nside 18 1 (12 * 2 ^ Z.of_nat k * 2 ^ Z.of_nat k) = Ok (2 ^ Z.of_nat k)%Z.
Proof. intro H. do 13 (destruct k as [|k]; [reflexivity|]). lia. Qed.
(** for a scale between 50 and 150 degrees every mask of resolution up to 4096 is apodised: the list of pixels never overflows *)
Theorem C89_returns (centre_of : Z -> Z -> centre R_field) (K : calc R_field) (mask : list R) (aposize : R) (c2 : bool) (k : nat) : (k <= 12)%nat -> Z.of_nat (length mask) = (12 * 2 ^ Z.of_nat k * 2 ^ Z.of_nat k)%Z -> 50 <= aposize <= 150 ->
  exists out, mask_apodization libmR centre_of K mask aposize (Some (ty c2)) = Ok out.
Proof.
  intros Hk EL Ha. pose proof PI_RGT_0 as PP. assert (HR : PI / 3 <= disc_radius aposize <= PI) by (unfold disc_radius; nra). pose proof (cos_60 _ HR) as CR.
  set (n := (2 ^ Z.of_nat k)%Z) in *. assert (Nn : (1 <= n <= 4096)%Z). { unfold n. split; [pose proof (Z.pow_pos_nonneg 2 (Z.of_nat k)); lia|]. change 4096%Z with (2 ^ 12)%Z. apply Z.pow_le_mono_r; lia. }
  assert (LS : exists len, list_size libmR n (disc_radius aposize) = Ok len /\ (24 * n * n <= len)%Z).
  { unfold list_size, to_int. rewrite !fofZ_IZR. cbn [m_cos m_trunc libmR]. change (@fmul R_field (@fmul R_field 4%R (IZR (12 * n * n))) (@fsub R_field f1 (cos (disc_radius aposize)))) with (4 * IZR (12 * n * n) * (1 - cos (disc_radius aposize))).
    set (N := IZR (12 * n * n)). assert (NB : 1 <= N <= 201326592) by (split; apply IZR_le; nia). assert (X : 2 * N <= 4 * N * (1 - cos (disc_radius aposize)) <= 8 * N) by nra.
    pose proof (trunc_pos_bounds (4 * N * (1 - cos (disc_radius aposize))) ltac:(lra)) as [T1 T2]. set (t := truncR _) in *. assert (24 * n * n <= t)%Z. { apply below1. replace (24 * n * n)%Z with (2 * (12 * n * n))%Z by ring. rewrite mult_IZR. fold N. lra. } assert (t < 2147483648)%Z by (apply lt_IZR; lra).
    replace ((-2147483648 <=? t) && (t <=? 2147483647))%Z with true by (symmetry; apply andb_true_intro; split; apply Z.leb_le; nia). cbn [bind]. replace (t <? 2)%Z with false by (symmetry; apply Z.ltb_ge; nia). exists t. split; [reflexivity | lia]. }
  destruct LS as (len & LS & LB). destruct (CX_returns centre_of n mask aposize c2 len ltac:(lia) EL ltac:(lra) LS) as [m CX]; [apply Z.div_le_lower_bound; lia|].
  exists m. unfold mask_apodization, apomask. change (@length (car R_field) mask) with (@length R mask). rewrite EL. unfold n. rewrite apo_nside_pow by exact Hk. fold n. cbn [bind]. unfold nmt_apodize_mask.
  replace (@fltb R_field aposize f0) with false by (symmetry; apply not_true_iff_false; intro C; apply Rltb_spec in C; change (@f0 R_field) with 0 in C; lra).
  replace (@feqb R_field aposize f0) with false by (symmetry; apply not_true_iff_false; intro C; apply feqb_eq in C; change (@f0 R_field) with 0 in C; lra).
  destruct c2; cbn [ty]; rewrite CX; reflexivity.
Qed.

(** ** Near a pole *)
Lemma PI_upper : PI <= 68 / 21.
Proof.
  pose proof (PI_2_3_7_ineq 0) as [_ H]. cbn [Nat.mul sum_f_R0] in H. unfold tg_alt, PI_2_3_7_tg, Ratan_seq in H. match type of H with _ <= ?r => replace r with (17 / 21) in H by (cbn; field) end. lra.
Qed.
(** a mask of 12 pixels whose only hole is pixel 8 *)
Definition hole8 : list R := [1; 1; 1; 1; 1; 1; 1; 1; 0; 1; 1; 1].
Lemma hole8_only (q : Z) : @masked R_field hole8 q -> q = 8%Z.
Proof.
  intros [m [E L]]. apply (R_le m f0) in L. change (@f0 R_field) with 0 in L. apply rd_ok in E as [H E]. rewrite <- (Z2Nat.id q H). destruct (Z.to_nat q) as [|[|[|[|[|[|[|[|[|[|[|[|n]]]]]]]]]]]]; cbn in E; try reflexivity; try (injection E as <-; exfalso; lra). destruct n; discriminate E.
Qed.
Definition wide : R := 6787 / 80.
Lemma wide_radius : disc_radius wide = 6787 / 12000 * PI. Proof. unfold disc_radius, wide. field. Qed.
Lemma wide_eff : eff 1 (disc_radius wide) = 5 * (PI / 6). Proof. rewrite wide_radius. unfold eff. field. Qed.
Lemma cos_5PI6 : cos (5 * (PI / 6)) = - (sqrt 3 / 2).
Proof. replace (5 * (PI / 6)) with (- (PI / 6) + PI) by field. rewrite neg_cos, cos_neg, cos_PI6. reflexivity. Qed.
Lemma sqrt3 : 1732 / 1000 < sqrt 3 < 1733 / 1000.
Proof. split; apply Rsqr_incrst_0; try (unfold Rsqr; rewrite ?sqrt_sqrt by lra; lra); try apply sqrt_pos; lra. Qed.
Lemma sqrt2 : 1414 / 1000 < sqrt 2 < 1415 / 1000.
Proof. split; apply Rsqr_incrst_0; try (unfold Rsqr; rewrite ?sqrt_sqrt by lra; lra); try apply sqrt_pos; lra. Qed.
Lemma z1 : zR 1 1 = 2 / 3. Proof. rewrite zR_eq by lia. cbn. field. Qed.
Lemma z3 : zR 1 3 = - (2 / 3). Proof. rewrite zR_eq by lia. cbn. field. Qed.
(** the azimuths of ring 3 around pixel 8: the half-width lies between 3 pi/4 and 5 pi/6 *)
Lemma width3 : cos_width 1 (2 / 3) (disc_radius wide) 3 = 4 / 5 - 9 / 10 * sqrt 3.
Proof.
  unfold cos_width. rewrite wide_eff, cos_5PI6, z3. replace ((1 - 2 / 3 * (2 / 3)) * (1 - - (2 / 3) * - (2 / 3))) with (5 / 9 * (5 / 9)) by field. rewrite sqrt_square by lra. field.
Qed.
Lemma acos3 : 3 * (PI / 4) < acos (4 / 5 - 9 / 10 * sqrt 3) <= 5 * (PI / 6).
Proof.
  pose proof PI_RGT_0 as PP. pose proof sqrt3. pose proof sqrt2. set (X := 4 / 5 - 9 / 10 * sqrt 3). pose proof (acos_bound X) as AB. assert (HX : -1 <= X <= 1) by (unfold X; lra).
  assert (C34 : cos (3 * (PI / 4)) = - (sqrt 2 / 2)). { replace (3 * (PI / 4)) with (- (PI / 4) + PI) by field. rewrite neg_cos, cos_neg, cos_PI4. replace (1 / sqrt 2) with (sqrt 2 / 2); [reflexivity|]. apply Rmult_eq_reg_r with (sqrt 2); [|lra]. replace (1 / sqrt 2 * sqrt 2) with 1 by (field; lra). replace (sqrt 2 / 2 * sqrt 2) with (sqrt 2 * sqrt 2 / 2) by field. rewrite sqrt_sqrt by lra. match goal with |- @eq _ ?a ?b => change (@eq R a b) end. field. }
  split.
  - apply Rnot_le_lt. intro C. assert (cos (3 * (PI / 4)) <= cos (acos X)) by (apply cos_decr_1; lra). rewrite cos_acos, C34 in H1 by exact HX. unfold X in H1. lra.
  - apply cos_mono; [lra | exact AB|]. rewrite cos_acos, cos_5PI6 by exact HX. unfold X. lra.
Qed.
Lemma ring3_loses (cap : Z) (l : list Z) : in_ring libmR 1 3 (PI / 4)%R (acos (4 / 5 - 9 / 10 * sqrt 3)) cap = Ok l -> l = [10%Z].
Proof.
  intro E. pose proof PI_RGT_0 as PP. pose proof PI2_3_2 as P3. unfold PI2 in P3. pose proof acos3 as A. set (d := acos (4 / 5 - 9 / 10 * sqrt 3)) in *.
  apply in_ring_arc in E as (a & b & -> & Ha & Hb & _); [|reflexivity | rewrite Rabs_left1 by lra; lra].
  change (ring_size 1 3) with 4%Z in *. change (ring_first 1 3) with 8%Z in *. replace (ring_shift 1 3) with (1 / 2) in * by (unfold ring_shift; cbn; field).
  assert (D : exists u, d = PI * u /\ 3 / 4 < u <= 5 / 6) by (exists (d / PI); split; [field; lra | split; [apply (Rmult_lt_reg_r PI); [lra|] | apply (Rmult_le_reg_r PI); [lra|]]; replace (d / PI * PI) with d by (field; lra); lra]). destruct D as (u & D & U).
  assert (A' : IZR a - (4 * (PI / 4 - d) / (2 * PI) - 1 / 2) = IZR a + 2 * u) by (rewrite D; field; lra). assert (B' : IZR b - (4 * (PI / 4 + d) / (2 * PI) - 1 / 2) = IZR b - 2 * u) by (rewrite D; field; lra).
  rewrite A' in Ha. rewrite B' in Hb. apply Rabs_le_inv in Ha. apply Rabs_le_inv in Hb.
  assert (a = (-2)%Z) as ->. { assert (-3 < a)%Z by (apply lt_IZR; lra). assert (a < -1)%Z by (apply lt_IZR; lra). lia. }
  assert (b = 2%Z) as ->. { assert (1 < b)%Z by (apply lt_IZR; lra). assert (b < 3)%Z by (apply lt_IZR; lra). lia. }
  reflexivity.
Qed.
Lemma query_loses (cap : Z) (l : list Z) : query_disc libmR 1 (2 / 3)%R (PI / 4)%R (disc_radius wide) cap = Ok l -> ~ In 8%Z l.
Proof.
  intros Q IN. unfold query_disc in Q. match type of Q with (if ?b then _ else _) = _ => destruct b; [discriminate Q|] end. cbv zeta in Q.
  assert (EF : @fadd R_field (disc_radius wide) (@fdiv R_field (@fmul R_field (dec 1071 1000) (m_pi libmR)) (@fmul R_field (fofZ 4) (fofZ 1))) = eff 1 (disc_radius wide)) by (unfold dec; rewrite !fofZ_IZR; reflexivity). rewrite EF in Q. clear EF.
  destruct (fold_mem _ 8%Z _ _ _ Q IN) as [[]|(iz & acc & l' & Hi & E & H8 & HN)]. clear Q IN. apply in_range in Hi.
  assert (R3 : (1 <= iz <= 3)%Z). { revert Hi. match goal with |- ((if (?a <? 2)%Z then _ else _) <= _ <= (if (_ <? ?b)%Z then _ else _))%Z -> _ => generalize a, b end. intros a b. destruct (Z.ltb_spec a 2), (Z.ltb_spec (4 * 1 - 2) b); lia. }
  cbv beta in E. assert (E1 : @feqb R_field (2 / 3)%R f1 = false) by (apply not_true_iff_false; intro C; apply feqb_eq in C; change (@f1 R_field) with 1 in C; lra). rewrite E1 in E.
  assert (EX : @fdiv R_field (@fsub R_field (m_cos libmR (eff 1 (disc_radius wide))) (@fmul R_field (ring_z 1 iz) (2 / 3)%R)) (m_sqrt libmR (@fmul R_field (@fsub R_field f1 (@fmul R_field (2 / 3)%R (2 / 3)%R)) (@fsub R_field f1 (@fmul R_field (ring_z 1 iz) (ring_z 1 iz))))) = cos_width 1 (2 / 3) (disc_radius wide) iz) by reflexivity.
  rewrite EX in E. clear EX.
  assert (ADD : forall dphi, (do l <- in_ring libmR 1 iz (PI / 4)%R dphi cap; if (cap <? Z.of_nat (length acc + length l))%Z then Exn RuntimeError else Ok (acc ++ l)) = Ok l' -> exists l1, in_ring libmR 1 iz (PI / 4)%R dphi cap = Ok l1 /\ In 8%Z l1).
  { intros dphi E'. apply bind_ok in E' as (l1 & E2 & E'). destruct (cap <? _)%Z; [discriminate E'|]. injection E' as <-. exists l1. split; [exact E2|]. apply in_app_or in H8 as [H8|H8]; [contradiction | exact H8]. }
  assert (SIZE : forall dphi l1, in_ring libmR 1 iz (PI / 4)%R dphi cap = Ok l1 -> In 8%Z l1 -> iz = 3%Z).
  { intros dphi l1 E2 H. assert (C : (ring_first 1 iz <= 8 < ring_first 1 iz + ring_size 1 iz)%Z).
    { destruct (in_ring_ok 1 iz (PI / 4) dphi (Z.max cap (ring_size 1 iz)) ltac:(lia) ltac:(lia) ltac:(lia)) as (l2 & E3 & _ & I2). apply I2. replace l2 with l1; [exact H|]. revert E2 E3. clear. unfold in_ring. destruct (ring_geom 1 iz) as [[i1 i2] ks]. cbv zeta. destruct (@fltb R_field _ _); [|destruct (_ <? _)%Z]; (destruct (cap <? _)%Z; [discriminate|]; destruct (Z.max _ _ <? _)%Z; [discriminate|]; intros A B; congruence). }
    assert (D : iz = 1%Z \/ iz = 2%Z \/ iz = 3%Z) by lia. destruct D as [-> | [-> | ->]]; [| |reflexivity]; cbn in C; lia. }
  assert (I3 : iz = 3%Z). { destruct (@fleb R_field _ f1); [apply ADD in E as [l1 [E2 H]]; exact (SIZE _ _ E2 H)|]. destruct (@fltb R_field _ _); [injection E as <-; contradiction | apply ADD in E as [l1 [E2 H]]; exact (SIZE _ _ E2 H)]. }
  subst iz. rewrite width3 in E. assert (HX : -1 <= 4 / 5 - 9 / 10 * sqrt 3 < 0) by (pose proof sqrt3; lra).
  assert (L1 : @fleb R_field (@fabs R_field (4 / 5 - 9 / 10 * sqrt 3)%R) f1 = true).
  { apply (R_le (@fabs R_field (4 / 5 - 9 / 10 * sqrt 3)%R) f1). unfold fabs. destruct (@fleb R_field f0 _) eqn:S; change (@f1 R_field) with 1; [lra | change (@fopp R_field (4 / 5 - 9 / 10 * sqrt 3)%R) with (- (4 / 5 - 9 / 10 * sqrt 3)); lra]. }
  rewrite L1 in E. apply ADD in E as [l1 [E2 H]]. apply ring3_loses in E2. subst l1. destruct H as [H|[]]. discriminate H.
Qed.
Lemma window_below_1 (c2 : bool) (x : R) : 0 <= x < 1 -> window libmR c2 x < 1.
Proof.
  intro H. pose proof PI_RGT_0 as PP. rewrite windowR. destruct c2.
  - assert (C : cos PI < cos (x * PI)) by (apply cos_decreasing_1; nra). rewrite cos_PI in C. lra.
  - pose proof (sin_lt_x (2 * PI * (1 - x)) ltac:(nra)) as S. replace (2 * PI * (1 - x)) with (- (x * 2 * PI) + 2 * PI) in S by ring. rewrite sin_plus, sin_2PI, cos_2PI, sin_neg in S.
    apply (Rmult_lt_reg_r (2 * PI)); [lra|]. field_simplify; lra.
Qed.
(** finding: pixel 0 is 83.6 degrees from the only masked pixel, less than the apodisation scale of 84.8 degrees, so that it should be multiplied by a number below 1, but it keeps its value *)
Theorem C89_pole_refuted (centre_of : Z -> Z -> centre R_field) (K : calc R_field) (c2 : bool) : healpix_centres centre_of 1 ->
  exists out, mask_apodization libmR centre_of K hole8 wide (Some (ty c2)) = Ok out /\ nth 0 out 0 = nth 0 hole8 0 /\
    nth 0 hole8 0 = 1 /\ nth 8 hole8 0 = 0 /\
    let d := @x2 R_field (centre_of 1%Z 0%Z) (centre_of 1%Z 8%Z) in 0 < d < 1 - cos (wide * PI / 180) /\ window libmR c2 (sqrt (d / (1 - cos (wide * PI / 180)))) < 1.
Proof.
  intro HC. pose proof PI_RGT_0 as PP. pose proof PI_upper as PU.
  assert (A0 : azimuth (ring_size 1 1) (ring_shift 1 1) 0 = PI / 4) by (unfold azimuth, ring_size, ring_shift; cbn; field).
  assert (A8 : azimuth (ring_size 1 3) (ring_shift 1 3) 0 = PI / 4) by (unfold azimuth, ring_size, ring_shift; cbn; field).
  assert (C0 : centre_of 1%Z 0%Z = ring_centre 1 1 0) by (apply (HC 1%Z 0%Z); [lia | cbn; lia]). assert (C8 : centre_of 1%Z 8%Z = ring_centre 1 3 0) by (apply (HC 3%Z 0%Z); [lia | cbn; lia]).
  assert (DD : @x2 R_field (centre_of 1%Z 0%Z) (centre_of 1%Z 8%Z) = 8 / 9).
  { rewrite C0, C8, x2_centres, A0, A8, z1, z3. unfold cos_dist. replace (PI / 4 - PI / 4) with 0 by ring. rewrite cos_0. replace (1 - - (2 / 3) * - (2 / 3)) with (1 - 2 / 3 * (2 / 3)) by field. rewrite sqrt_sqrt by lra. match goal with |- @eq _ ?a ?b => change (@eq R a b) end. field. }
  assert (TH : @L_Apod.thr R_field libmR wide = 1 - cos (wide * PI / 180)) by (unfold L_Apod.thr, radians; rewrite fofZ_IZR; reflexivity).
  assert (CW : 0 < cos (wide * PI / 180) < 1 / 9).
  { split; [apply cos_gt_0; unfold wide; lra|]. replace (wide * PI / 180) with (PI / 2 - (PI / 2 - wide * PI / 180)) by ring. rewrite cos_shift. pose proof (sin_lt_x (PI / 2 - wide * PI / 180) ltac:(unfold wide; lra)). unfold wide in *. lra. }
  assert (OK : exists out, mask_apodization libmR centre_of K hole8 wide (Some (ty c2)) = Ok out) by (apply (C89_returns centre_of K hole8 wide c2 0); [lia | reflexivity | unfold wide; lra]).
  destruct OK as [out E]. exists out. split; [exact E|]. split; [|split; [reflexivity | split; [reflexivity|]]].
  - destruct (api_sphere libmR centre_of K hole8 wide c2 out ltac:(apply (R_lt f0 wide); change (@f0 R_field) with 0; unfold wide; lra) E) as [n [len' [N1 [N2 [LS' [EL HP]]]]]].
    assert (n = 1%Z) by (change (Z.of_nat (length hole8)) with 12%Z in N2; nia). subst n.
    specialize (HP 0%nat ltac:(cbn; lia)). apply pixel_cases in HP; [|cbn; lia]. cbv zeta in HP.
    destruct HP as [[_ H]|[_ [disc [d [Q [_ [_ [HD HV]]]]]]]]; [exact H|]. change (Z.of_nat 0) with 0%Z in *. rewrite ER, C0 in Q. cbn [ring_centre v_z v_phi] in Q. rewrite A0, z1 in Q.
    pose proof (query_loses _ _ Q) as NQ.
    destruct HD as [HD|(q & HI & HM & _)].
    + destruct HV as [[_ H]|[[L _]|[L _]]]; [exact H | |]; exfalso; apply (R_lt _ _) in L; rewrite HD, fofZ_IZR in L; unfold radians in L; rewrite fofZ_IZR in L; change (1000 < 1 - cos (wide * PI / 180)) in L; lra.
    + exfalso. apply NQ. replace 8%Z with q; [exact HI|]. apply hole8_only. exact HM.
  - rewrite DD. split; [lra|]. apply window_below_1. split; [apply sqrt_pos|]. apply (Rlt_le_trans _ (sqrt 1)); [|rewrite sqrt_1; lra]. set (t := 1 - cos (wide * PI / 180)). assert (8 / 9 < t < 1) by (unfold t; lra). assert (0 < 8 / 9 / t) by (apply Rdiv_lt_0_compat; lra). apply sqrt_lt_1; [lra | lra|]. apply (Rmult_lt_reg_r t); [lra|]. replace (8 / 9 / t * t) with (8 / 9) by (field; lra). lra.
Qed.

(** ** A case *)
Definition centres (nside p : Z) : centre R_field :=
  match find (fun iz => (ring_first nside iz <=? p) && (p <? ring_first nside iz + ring_size nside iz))%Z (range 1 (4 * nside - 1)) with Some iz => ring_centre nside iz (p - ring_first nside iz) | None => ring_centre nside 1 0 end.
Example centres_exist (nside : Z) : (1 <= nside)%Z -> healpix_centres centres nside.
Proof.
  intros HN iz k Hi Hk. unfold centres. pose proof (ring_inside nside iz k HN Hi Hk) as IN. destruct (find _ _) as [iz'|] eqn:E.
  - apply find_some in E as [H1 H2]. apply in_range in H1. apply andb_prop in H2 as [H2 H3]. apply Z.leb_le in H2. apply Z.ltb_lt in H3.
    destruct (C47_unique_ring nside (ring_first nside iz + k) HN ltac:(lia)) as (i & _ & _ & U).
    assert (GL : forall j, first_pix nside j = ring_first nside j /\ last_pix nside j = (ring_first nside j + ring_size nside j - 1)%Z) by (intro j; unfold ring_size, ring_first; rewrite geom_limits; unfold first_pix, last_pix; split; [reflexivity | lia]).
    assert (iz' = iz). { rewrite (U iz), (U iz'); [reflexivity | lia | destruct (GL iz'); lia | lia | destruct (GL iz); lia]. } subst iz'. f_equal. lia.
  - exfalso. apply (find_none _ _ E iz) in Hi as F || idtac. assert (F := find_none _ _ E iz ltac:(apply in_range; lia)). cbv beta in F. apply andb_false_iff in F as [F|F]; [apply Z.leb_gt in F | apply Z.ltb_ge in F]; lia.
Qed.
(** 48 pixels, one of them masked, scale of 51 degrees: its neighbour on the equator is multiplied by the documented number *)
Definition hole21 : list R := repeat 1 21 ++ [0] ++ repeat 1 26.
Lemma hole21_only (j : nat) : (j < 48)%nat -> nth j hole21 0 <= 0 -> j = 21%nat.
Proof. intros H L. do 48 (destruct j as [|j]; [try reflexivity; exfalso; cbn in L; lra|]). lia. Qed.
Example C89_case (K : calc R_field) (c2 : bool) : exists out, mask_apodization libmR centres K hole21 51 (Some (ty c2)) = Ok out /\
  nth 20 out 0 = window libmR c2 (sqrt ((1 - cos (PI / 4)) / (1 - cos (51 * PI / 180)))) /\ nth 20 out 0 < 1.
Proof.
  pose proof PI_RGT_0 as PP. destruct (C89_returns centres K hole21 51 c2 1) as [out E]; [lia | reflexivity | lra|]. exists out. split; [exact E|].
  pose proof (centres_exist 2 ltac:(lia)) as HC.
  assert (Z4 : zR 2 4 = 0) by (rewrite zR_eq by lia; cbn; field).
  assert (C20 : centres 2 20 = ring_centre 2 4 0) by (apply (HC 4%Z 0%Z); [lia | cbn; lia]). assert (C21 : centres 2 21 = ring_centre 2 4 1) by (apply (HC 4%Z 1%Z); [lia | cbn; lia]).
  assert (D : @x2 R_field (centres 2 20) (centres 2 21) = 1 - cos (PI / 4)).
  { rewrite C20, C21, x2_centres, Z4. unfold cos_dist. replace (1 - 0 * 0) with 1 by ring. rewrite sqrt_1. match goal with |- context [cos (?a - ?b)] => replace (a - b) with (PI / 4) by (unfold azimuth, ring_shift; cbn; field) end. match goal with |- @eq _ ?a ?b => change (@eq R a b) end. ring. }
  assert (TH : cos (51 * PI / 180) < cos (PI / 4)) by (apply cos_decreasing_1; lra). assert (C0 : cos (PI / 4) < 1) by (rewrite <- cos_0; apply cos_decreasing_1; lra). assert (C5 : 0 < cos (51 * PI / 180)) by (apply cos_gt_0; lra).
  pose proof (C89_apodization centres K hole21 51 c2 out 20 21 2 ltac:(cbn; lia) HC ltac:(lra)) as T.
  destruct T as [T _]; try assumption; try reflexivity; try (cbn; lia).
  - unfold eff, disc_radius. cbn [Z.of_nat Pos.of_succ_nat Pos.succ]. lra.
  - change (Z.of_nat 20) with 20%Z. change (Z.of_nat 2) with 2%Z. rewrite C20. cbn [ring_centre v_z]. unfold clear_of_poles. rewrite Z4, Rabs_R0. apply cos_gt_0; unfold eff, disc_radius; lra.
  - cbn. lra.
  - cbn. lra.
  - intros j Hj L. apply hole21_only in L; [subst j; lra | exact Hj].
  - change (Z.of_nat 20) with 20%Z in T. change (Z.of_nat 21) with 21%Z in T. change (Z.of_nat 2) with 2%Z in T. rewrite D in T. specialize (T ltac:(lra) ltac:(lra)). rewrite <- windowR in T. change (nth 20 hole21 0) with 1 in T. rewrite Rmult_1_l in T. split; [exact T|]. apply Rle_lt_trans with (1 := Req_le _ _ T). apply window_below_1. split; [apply sqrt_pos|]. apply (Rlt_le_trans _ (sqrt 1)); [|rewrite sqrt_1; lra]. set (t := 1 - cos (51 * PI / 180)) in *. assert (0 < t) by (unfold t; lra). assert (0 < (1 - cos (PI / 4)) / t) by (apply Rdiv_lt_0_compat; lra). apply sqrt_lt_1; [lra | lra|]. apply (Rmult_lt_reg_r t); [lra|]. replace ((1 - cos (PI / 4)) / t * t) with (1 - cos (PI / 4)) by (field; lra). unfold t. lra.
Qed.
Print Assumptions C89_complete.
Print Assumptions C89_complete_clear.
Print Assumptions C89_apodization.
Print Assumptions C89_returns.
Print Assumptions C89_pole_refuted.
