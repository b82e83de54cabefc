(** C74: the pixels of a HEALPix ring found for an interval of azimuths. *)
From Coq Require Import Reals Lra Lia ZArith List Bool.
From Verif Require Import Base FieldR M_Utils L_Utils M_Field M_Apod L_Apod P_Apod2 P_Apod4.
Import ListNotations.
Open Scope R_scope.

Lemma Rabs_le_inv (x y : R) : Rabs x <= y -> - y <= x <= y.
Proof. unfold Rabs. destruct (Rcase_abs x); lra. Qed.
Lemma truncR_near (x : R) : x - 1 < IZR (truncR x) < x + 1.
Proof.
  unfold truncR. destruct (Rle_dec 0 x); [destruct (base_Int_part x) | destruct (base_Int_part (- x)); rewrite opp_IZR]; lra.
Qed.
Lemma nint_near (x : R) : x - 1 / 2 <= IZR (nint libmR x) <= x + 1 / 2.
Proof.
  unfold nint. destruct (@fltb R_field f0 x) eqn:A.
  - assert (P : 0 < x) by (apply (R_lt f0 x); exact A). cbn [m_trunc libmR]. rewrite fofZ_IZR. change (@fadd R_field x (@fdiv R_field f1 2)) with (x + 1 / 2). unfold truncR. destruct (Rle_dec 0 (x + 1 / 2)); [|lra]. destruct (base_Int_part (x + 1 / 2)) . lra.
  - destruct (@fltb R_field x f0) eqn:B.
    + assert (P : x < 0) by (apply (R_lt x f0); exact B). cbn [m_trunc libmR]. rewrite fofZ_IZR. change (@fsub R_field x (@fdiv R_field f1 2)) with (x - 1 / 2). unfold truncR. destruct (Rle_dec 0 (x - 1 / 2)); [lra|]. destruct (base_Int_part (- (x - 1 / 2))). rewrite opp_IZR. lra.
    + assert (P : ~ 0 < x) by (intros C; apply (R_lt f0 x) in C; unfold flt in C; congruence). assert (P' : ~ x < 0) by (intros C; apply (R_lt x f0) in C; unfold flt in C; congruence).
      apply Rnot_lt_le in P. apply Rnot_lt_le in P'. lra.
Qed.
Lemma modu_mod (a n : Z) : (0 < n)%Z -> modu a n = (a mod n)%Z.
Proof.
  intros H. unfold modu. pose proof (Z.rem_bound_abs a n ltac:(lia)) as B. pose proof (Z.quot_rem' a n) as E. destruct (Z.rem a n <? 0)%Z eqn:C.
  - apply Z.ltb_lt in C. rewrite (Z.mod_unique a n (Z.quot a n - 1) (Z.rem a n + n)); [reflexivity | lia | lia].
  - apply Z.ltb_ge in C. rewrite (Z.mod_unique a n (Z.quot a n) (Z.rem a n)); [reflexivity | lia | lia].
Qed.
(** the pixels between ip_low and ip_hi, going round the ring *)
Definition arc (i1 i2 low hi : Z) : list Z := if (hi <? low)%Z then range (low + i1) i2 ++ range i1 (hi + i1) else range (low + i1) (hi + i1).
Lemma arc_spec (i1 i2 nr a b K : Z) : (nr = i2 - i1 + 1)%Z -> (0 < nr)%Z -> (a <= b)%Z -> (b - a < nr)%Z ->
  forall p, In p (arc i1 i2 (a mod nr) (b mod nr)) <-> exists K, (a <= K <= b)%Z /\ p = (i1 + K mod nr)%Z.
Proof.
  intros Hn Hp Hab Hd p. pose proof (Z.mod_pos_bound a nr Hp) as Ba. pose proof (Z.mod_pos_bound b nr Hp) as Bb. pose proof (Z.div_mod a nr ltac:(lia)) as Ea. pose proof (Z.div_mod b nr ltac:(lia)) as Eb.
  set (ra := (a mod nr)%Z) in *. set (rb := (b mod nr)%Z) in *. set (qa := (a / nr)%Z) in *. set (qb := (b / nr)%Z) in *. clearbody ra rb qa qb.
  assert (Q : (qb = qa /\ ra <= rb \/ qb = qa + 1 /\ rb < ra)%Z) by nia.
  assert (SM : forall q r, (0 <= r < nr -> (nr * q + r) mod nr = r)%Z) by (intros q r Hr; rewrite Z.add_comm, Z.mul_comm, Z.mod_add by lia; apply Z.mod_small; lia).
  unfold arc. destruct (rb <? ra)%Z eqn:C; [apply Z.ltb_lt in C | apply Z.ltb_ge in C].
  - assert (Eq : qb = (qa + 1)%Z) by lia. rewrite in_app_iff, !in_range. split.
    + intros [H|H].
      * exists (nr * qa + (p - i1))%Z. split; [nia|]. rewrite SM by lia. lia.
      * exists (nr * qb + (p - i1))%Z. split; [nia|]. rewrite SM by lia. lia.
    + intros [k [Hk ->]]. assert (D : (nr * qa + ra <= k <= nr * qa + nr - 1)%Z \/ (nr * qb <= k <= nr * qb + rb)%Z) by nia. destruct D as [D|D].
      * left. replace k with (nr * qa + (k - nr * qa))%Z by lia. rewrite SM by lia. lia.
      * right. replace k with (nr * qb + (k - nr * qb))%Z by lia. rewrite SM by lia. lia.
  - assert (Eq : qb = qa) by lia. rewrite in_range. split.
    + intros H. exists (nr * qa + (p - i1))%Z. split; [nia|]. rewrite SM by lia. lia.
    + intros [k [Hk ->]]. replace k with (nr * qa + (k - nr * qa))%Z by lia. rewrite SM by nia. nia.
Qed.

(** azimuth of pixel k of a ring with n pixels *)
Definition azimuth (n : Z) (shift : R) (k : Z) : R := (IZR k + shift) * (2 * PI) / IZR n.
Definition ring_first (nside iz : Z) : Z := fst (fst (ring_geom nside iz)).
Definition ring_size (nside iz : Z) : Z := (snd (fst (ring_geom nside iz)) - ring_first nside iz + 1)%Z.
Definition ring_shift (nside iz : Z) : R := IZR (snd (ring_geom nside iz)) / 2.
Lemma in_ring_arc (nside iz : Z) (phi0 dphi : R) (cap : Z) (l : list Z) : (0 < ring_size nside iz)%Z -> Rabs (dphi - PI) >= 1 / 1000000 ->
  in_ring libmR nside iz phi0 dphi cap = Ok l ->
  exists a b, l = arc (ring_first nside iz) (ring_first nside iz + ring_size nside iz - 1) (a mod ring_size nside iz) (b mod ring_size nside iz) /\
    Rabs (IZR a - (IZR (ring_size nside iz) * (phi0 - dphi) / (2 * PI) - ring_shift nside iz)) <= 1 / 2 /\
    Rabs (IZR b - (IZR (ring_size nside iz) * (phi0 + dphi) / (2 * PI) - ring_shift nside iz)) <= 1 / 2 /\ (dphi = 0 -> a = b).
Proof.
  intros Hn Hd E. pose proof PI_RGT_0 as PP. unfold ring_size, ring_shift, ring_first, in_ring in *. destruct (ring_geom nside iz) as [[i1 i2] ks]. cbn [fst snd] in *. cbv zeta in E. set (nr := (i2 - i1 + 1)%Z) in *.
  match type of E with (if ?c then _ else _) = _ => assert (C : c = false) end.
  { apply not_true_iff_false. intros C. apply (R_lt _ _) in C. unfold fabs in C. unfold dec in C. rewrite !fofZ_IZR in C.
    destruct (fle_lt_dec f0 (@fsub R_field dphi PI)) as [S|S]; unfold libmR in C; cbn [m_pi] in C; cbn in C.
    all: revert C; match goal with |- context [if ?b then _ else _] => destruct b eqn:B end; intros C; unfold R_leb in B; destruct (Rle_dec _ _) in B; try discriminate; unfold Rabs in Hd; destruct (Rcase_abs (dphi - PI)); lra. }
  rewrite C in E. clear C.
  set (n2 := nint libmR _) in E. set (n1 := nint libmR _) in E.
  exists (n1 + nr * truncR ((phi0 - dphi) / (2 * PI)))%Z, (n2 + nr * truncR ((phi0 + dphi) / (2 * PI)))%Z.
  assert (MM : forall m t, ((m + nr * t) mod nr)%Z = modu m nr) by (intros m t; rewrite (modu_mod m nr Hn), (Z.mul_comm nr t), Z.mod_add by lia; reflexivity).
  rewrite !MM.
  assert (NI : forall x : R, Rabs (IZR (nint libmR (@fsub R_field (@fdiv R_field (@fmul R_field (fofZ nr) (wrap libmR x)) (@fmul R_field (fofZ 2) (m_pi libmR))) (@fmul R_field (@fdiv R_field f1 (fofZ 2)) (fofZ ks))) + nr * truncR (x / (2 * PI))) - (IZR nr * x / (2 * PI) - IZR ks / 2)) <= 1 / 2).
  { intros x. match goal with |- context [nint libmR ?u] => pose proof (nint_near u) as N; set (U := u) in * end.
    assert (EU : (U : R) = IZR nr * x / (2 * PI) - IZR nr * IZR (truncR (x / (2 * PI))) - IZR ks / 2).
    { unfold U, wrap. rewrite !fofZ_IZR. cbn [m_trunc m_pi libmR]. cbn. field. lra. }
    rewrite plus_IZR, mult_IZR. set (kk := IZR (nint libmR U)) in *. clearbody kk. rewrite EU in N. apply Rabs_le. lra. }
  split; [|split; [apply NI | split; [apply NI|]]].
  2:{ intros Z0. unfold n1, n2. assert (ZZ : @fsub R_field phi0 dphi = @fadd R_field phi0 dphi) by (change (phi0 - dphi = phi0 + dphi); rewrite Z0; ring). rewrite ZZ.
      replace (phi0 - dphi) with (phi0 + dphi) by (rewrite Z0; ring). reflexivity. }
  unfold arc. replace (i1 + nr - 1)%Z with i2 by (unfold nr; lia).
  destruct (modu n2 nr <? modu n1 nr)%Z; (destruct (cap <? _)%Z in E; [discriminate|]; injection E as <-; reflexivity).
Qed.

(** an interval that leaves more than one pixel spacing free: every pixel whose centre lies in it is found, and the
    centres of the pixels found are in it or at most half a pixel spacing away *)
Theorem C74_ring_query (nside iz : Z) (phi0 dphi : R) (cap : Z) (l : list Z) : (0 < ring_size nside iz)%Z -> 0 <= dphi -> dphi * IZR (ring_size nside iz) < PI * (IZR (ring_size nside iz) - 1) -> Rabs (dphi - PI) >= 1 / 1000000 ->
  in_ring libmR nside iz phi0 dphi cap = Ok l ->
  (forall k turns, (0 <= k < ring_size nside iz)%Z -> Rabs (azimuth (ring_size nside iz) (ring_shift nside iz) k + IZR turns * (2 * PI) - phi0) <= dphi -> In (ring_first nside iz + k)%Z l) /\
  (forall p, In p l -> exists k turns, (0 <= k < ring_size nside iz)%Z /\ p = (ring_first nside iz + k)%Z /\
     Rabs (azimuth (ring_size nside iz) (ring_shift nside iz) k + IZR turns * (2 * PI) - phi0) <= dphi + PI / IZR (ring_size nside iz)).
Proof.
  intros Hn Hd Hs Ht E. pose proof PI_RGT_0 as PP. destruct (in_ring_arc nside iz phi0 dphi cap l Hn Ht E) as (a & b & -> & Ha & Hb & Hz). clear E.
  set (n := ring_size nside iz) in *. set (s := ring_shift nside iz) in *. set (f := ring_first nside iz) in *. clearbody n s f.
  assert (Pn : 0 < IZR n) by (apply (IZR_lt 0); exact Hn).
  set (X := IZR n * (phi0 - dphi) / (2 * PI) - s) in *. set (Y := IZR n * (phi0 + dphi) / (2 * PI) - s) in *.
  assert (XY : Y - X = dphi * IZR n / PI) by (unfold X, Y; field; lra).
  assert (D0 : 0 <= dphi * IZR n / PI) by (apply Rmult_le_pos; [apply Rmult_le_pos; lra | apply Rlt_le, Rinv_0_lt_compat; lra]).
  assert (D1 : dphi * IZR n / PI < IZR n - 1).
  { apply (Rmult_lt_reg_r PI); [exact PP|]. replace (dphi * IZR n / PI * PI) with (dphi * IZR n) by (field; lra). lra. }
  apply Rabs_le_inv in Ha. apply Rabs_le_inv in Hb.
  assert (BA : (b - a < n)%Z) by (apply lt_IZR; rewrite minus_IZR; lra).
  assert (GE : forall k turns, (Rabs (azimuth n s k + IZR turns * (2 * PI) - phi0) <= dphi <-> X <= IZR (k + n * turns) <= Y) /\
     forall e, 0 <= e -> X - e <= IZR (k + n * turns) <= Y + e -> Rabs (azimuth n s k + IZR turns * (2 * PI) - phi0) <= dphi + e * (2 * PI) / IZR n).
  { intros k t. assert (EA : IZR (k + n * t) = (azimuth n s k + IZR t * (2 * PI)) * IZR n / (2 * PI) - s) by (unfold azimuth; rewrite plus_IZR, mult_IZR; field; lra).
    set (A := azimuth n s k + IZR t * (2 * PI)) in *. rewrite EA.
    assert (C : forall u v, u * IZR n / (2 * PI) <= v * IZR n / (2 * PI) <-> u <= v).
    { intros u v. assert (Q : 0 < IZR n / (2 * PI)) by (apply Rdiv_lt_0_compat; lra). replace (u * IZR n / (2 * PI)) with (u * (IZR n / (2 * PI))) by (field; lra). replace (v * IZR n / (2 * PI)) with (v * (IZR n / (2 * PI))) by (field; lra).
      split; intros H; [apply (Rmult_le_reg_r (IZR n / (2 * PI))); assumption | apply Rmult_le_compat_r; lra]. }
    assert (X1 : X = (phi0 - dphi) * IZR n / (2 * PI) - s) by (unfold X; field; lra). assert (Y1 : Y = (phi0 + dphi) * IZR n / (2 * PI) - s) by (unfold Y; field; lra).
    split.
    - rewrite X1, Y1. split.
      + intros H. apply Rabs_le_inv in H. split; [pose proof (proj2 (C (phi0 - dphi) A)) | pose proof (proj2 (C A (phi0 + dphi)))]; lra.
      + intros [H1 H2]. apply Rabs_le. pose proof (proj1 (C (phi0 - dphi) A)). pose proof (proj1 (C A (phi0 + dphi))). lra.
    - intros e He [H1 H2]. set (d := e * (2 * PI) / IZR n). assert (Ed : e = d * IZR n / (2 * PI)) by (unfold d; field; lra).
      pose proof (proj1 (C (phi0 - dphi - d) A)) as L1. pose proof (proj1 (C A (phi0 + dphi + d))) as L2.
      replace ((phi0 - dphi - d) * IZR n / (2 * PI)) with ((phi0 - dphi) * IZR n / (2 * PI) - d * IZR n / (2 * PI)) in L1 by (field; lra).
      replace ((phi0 + dphi + d) * IZR n / (2 * PI)) with ((phi0 + dphi) * IZR n / (2 * PI) + d * IZR n / (2 * PI)) in L2 by (field; lra).
      rewrite <- Ed in L1, L2. apply Rabs_le. lra. }
  split.
  - intros k t Hk H. apply (GE k t) in H.
    assert (K1 : (a <= k + n * t)%Z) by (apply Z.lt_succ_r, lt_IZR; rewrite succ_IZR; lra).
    assert (K2 : (k + n * t <= b)%Z) by (apply Z.lt_succ_r, lt_IZR; rewrite succ_IZR; lra).
    apply (arc_spec f (f + n - 1) n a b 0); try lia. exists (k + n * t)%Z. split; [lia|]. f_equal. rewrite Z.mul_comm, Z.mod_add by lia. symmetry. apply Z.mod_small. exact Hk.
  - intros p Hp.
    destruct (Z_lt_le_dec b a) as [L|L].
    { exfalso. assert (LL : IZR b <= IZR a - 1) by (rewrite <- minus_IZR; apply IZR_le; lia).
      assert (Z0 : dphi * IZR n / PI = 0) by lra. assert (dphi = 0).
      { apply (Rmult_eq_reg_r (IZR n / PI)); [|apply Rgt_not_eq; apply Rdiv_lt_0_compat; lra]. rewrite Rmult_0_l. rewrite <- Z0. field. lra. }
      apply Hz in H. lia. }
    apply (arc_spec f (f + n - 1) n a b 0) in Hp; try lia. destruct Hp as [K [HK ->]].
    exists (K mod n)%Z, (K / n)%Z. split; [apply Z.mod_pos_bound; exact Hn|]. split; [reflexivity|].
    pose proof (proj2 (GE (K mod n)%Z (K / n)%Z) (1 / 2)) as G. replace (K mod n + n * (K / n))%Z with K in G by (rewrite Z.add_comm; apply Z.div_mod; lia).
    replace (1 / 2 * (2 * PI) / IZR n) with (PI / IZR n) in G by (field; lra). apply G; [lra|].
    destruct HK as [HK1 HK2]. apply IZR_le in HK1. apply IZR_le in HK2. lra.
Qed.
(** the whole ring is returned when the half-width is pi (up to 1e-6) *)
Theorem C74_full_ring (nside iz : Z) (phi0 dphi : R) (cap : Z) (l : list Z) : Rabs (dphi - PI) < 1 / 1000000 -> in_ring libmR nside iz phi0 dphi cap = Ok l ->
  forall p, In p l <-> (ring_first nside iz <= p < ring_first nside iz + ring_size nside iz)%Z.
Proof.
  intros Hd E p. unfold ring_size, ring_first, in_ring in *. destruct (ring_geom nside iz) as [[i1 i2] ks]. cbn [fst snd] in *. cbv zeta in E.
  match type of E with (if ?c then _ else _) = _ => assert (C : c = true) end.
  { apply (R_lt _ _). unfold fabs, dec. rewrite !fofZ_IZR. unfold libmR. cbn [m_pi]. cbn.
    match goal with |- context [if ?b then _ else _] => destruct b eqn:B end; unfold R_leb in B; destruct (Rle_dec _ _) in B; try discriminate; unfold Rabs in Hd; destruct (Rcase_abs (dphi - PI)); lra. }
  rewrite C in E. destruct (cap <? _)%Z; [discriminate|]. injection E as <-. rewrite in_range. lia.
Qed.
(** finding: in between, an interval that covers almost the whole ring can lose all pixels but one.  First ring of four
    pixels, interval centred on the first pixel (azimuth pi/4) with half-width 0.9 pi: the first pixel itself is missing *)
Lemma truncR_is (x : R) (z : Z) : 0 <= x -> IZR z <= x < IZR z + 1 -> truncR x = z.
Proof. intros H B. unfold truncR. destruct (Rle_dec 0 x); [apply Int_part_unique; exact B | contradiction]. Qed.
Lemma truncR_is_neg (x : R) (z : Z) : x < 0 -> IZR z <= - x < IZR z + 1 -> truncR x = (- z)%Z.
Proof. intros H B. unfold truncR. destruct (Rle_dec 0 x); [lra|]. f_equal. apply Int_part_unique. exact B. Qed.
Theorem C74_ring_query_refuted : in_ring libmR 1 1 (PI / 4)%R (9 / 10 * PI)%R 100 = Ok [2%Z] /\ azimuth (ring_size 1 1) (ring_shift 1 1) 0 = PI / 4.
Proof.
  pose proof PI_RGT_0 as PP. pose proof PI2_3_2 as P3. unfold PI2 in P3.
  split; [|unfold azimuth, ring_size, ring_shift; cbn; field].
  unfold in_ring. change (ring_geom 1 1) with (0, 3, 1)%Z. cbv iota. cbv zeta.
  match goal with |- (if ?c then _ else _) = _ => assert (C : c = false) end.
  { apply not_true_iff_false. intros C. apply (R_lt _ _) in C. unfold fabs, dec in C. rewrite !fofZ_IZR in C. unfold libmR in C. cbn [m_pi] in C. cbn in C.
    revert C. match goal with |- context [if ?b then _ else _] => destruct b eqn:B end; intros C; unfold R_leb in B; destruct (Rle_dec _ _) in B; try discriminate; lra. }
  rewrite C. clear C.
  assert (W1 : wrap libmR (@fsub R_field (PI / 4)%R (9 / 10 * PI)%R) = PI / 4 - 9 / 10 * PI).
  { unfold wrap. rewrite !fofZ_IZR. cbn [m_trunc m_pi libmR]. change (@fdiv R_field (@fsub R_field (PI / 4)%R (9 / 10 * PI)%R) (@fmul R_field 2%R PI)) with ((PI / 4 - 9 / 10 * PI) / (2 * PI)).
    replace ((PI / 4 - 9 / 10 * PI) / (2 * PI)) with (- (13 / 40)) by (field; lra). rewrite (truncR_is_neg _ 0) by lra. cbn. ring. }
  assert (W2 : wrap libmR (@fadd R_field (PI / 4)%R (9 / 10 * PI)%R) = PI / 4 + 9 / 10 * PI).
  { unfold wrap. rewrite !fofZ_IZR. cbn [m_trunc m_pi libmR]. change (@fdiv R_field (@fadd R_field (PI / 4)%R (9 / 10 * PI)%R) (@fmul R_field 2%R PI)) with ((PI / 4 + 9 / 10 * PI) / (2 * PI)).
    replace ((PI / 4 + 9 / 10 * PI) / (2 * PI)) with (23 / 40) by (field; lra). rewrite (truncR_is _ 0) by lra. cbn. ring. }
  rewrite W1, W2. change (3 - 0 + 1)%Z with 4%Z. rewrite !fofZ_IZR. cbn [m_pi libmR].
  assert (U1 : @fsub R_field (@fdiv R_field (@fmul R_field 4%R (PI / 4 - 9 / 10 * PI)%R) (@fmul R_field 2%R PI)) (@fmul R_field (@fdiv R_field f1 2%R) 1%R) = - (9 / 5)) by (cbn; field; lra).
  assert (U2 : @fsub R_field (@fdiv R_field (@fmul R_field 4%R (PI / 4 + 9 / 10 * PI)%R) (@fmul R_field 2%R PI)) (@fmul R_field (@fdiv R_field f1 2%R) 1%R) = 9 / 5) by (cbn; field; lra).
  rewrite U1, U2.
  assert (N1 : nint libmR (- (9 / 5))%R = (-2)%Z).
  { unfold nint. destruct (@fltb R_field f0 (- (9 / 5))%R) eqn:A; [apply (R_lt f0) in A; cbn in A; lra|]. replace (@fltb R_field (- (9 / 5))%R f0) with true by (symmetry; apply (R_lt _ f0); cbn; lra).
    rewrite fofZ_IZR. cbn [m_trunc libmR]. change (truncR (- (9 / 5) - 1 / 2) = (-2)%Z). apply (truncR_is_neg _ 2); lra. }
  assert (N2 : nint libmR (9 / 5)%R = 2%Z).
  { unfold nint. replace (@fltb R_field f0 (9 / 5)%R) with true by (symmetry; apply (R_lt f0); cbn; lra).
    rewrite fofZ_IZR. cbn [m_trunc libmR]. change (truncR (9 / 5 + 1 / 2) = 2%Z). apply (truncR_is _ 2); lra. }
  rewrite N1, N2. reflexivity.
Qed.
(** the hypotheses of C74_ring_query are met by the same ring and a half-width of pi/2 *)
Example ring_query_case : (0 < ring_size 1 1)%Z /\ PI / 2 * IZR (ring_size 1 1) < PI * (IZR (ring_size 1 1) - 1) /\ Rabs (PI / 2 - PI) >= 1 / 1000000 /\ exists l, in_ring libmR 1 1 (PI / 4)%R (PI / 2)%R 100 = Ok l.
Proof.
  pose proof PI_RGT_0 as PP. pose proof PI2_3_2 as P3. unfold PI2 in P3. change (ring_size 1 1) with 4%Z. split; [lia|]. split; [lra|]. split; [unfold Rabs; destruct (Rcase_abs (PI / 2 - PI)); lra|].
  unfold in_ring. change (ring_geom 1 1) with (0, 3, 1)%Z. cbv iota. cbv zeta.
  assert (G : forall (a b : Z), exists l, (let l := arc 0 3 (modu a 4) (modu b 4) in if (100 <? Z.of_nat (length l))%Z then Exn RuntimeError else Ok l) = Ok l).
  { intros a b. pose proof (Z.mod_pos_bound a 4 ltac:(lia)). pose proof (Z.mod_pos_bound b 4 ltac:(lia)). rewrite !modu_mod by lia. cbv zeta.
    match goal with |- context [(?u <? ?v)%Z] => replace (u <? v)%Z with false end; [eexists; reflexivity|]. symmetry. apply Z.ltb_ge. unfold arc. destruct (_ <? _)%Z; rewrite ?app_length, !range_length; lia. }
  change (3 - 0 + 1)%Z with 4%Z.
  match goal with |- exists l, (if ?c then _ else (if (modu ?b 4 <? modu ?a 4)%Z then _ else _)) = _ => destruct c; [eexists; reflexivity|]; destruct (G a b) as [l E]; exists l; rewrite <- E; unfold arc; destruct (modu b 4 <? modu a 4)%Z; reflexivity end.
Qed.
Print Assumptions C74_ring_query.
Print Assumptions C74_ring_query_refuted.
