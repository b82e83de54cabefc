(** Lemmas: purification of band-limited maps with square pixels. *)
From Verif Require Import Base M_Utils M_Bins M_FlatBins M_LinAlg M_Workspace M_Flat M_WspFlat M_Syn M_FieldFlat P_FlatBins L_LinAlg L_Flat L_Flat2 L_Flat3 L_FITS L_MCM L_WspFlat L_WspFlat2 L_FlatMean L_Conv L_Pure.
From Coq Require Import Permutation.
Open Scope nat_scope.

Lemma freq_bounds n i : i < n -> exists k, (freq n i = Z.of_nat i - k * Z.of_nat n /\ - Z.of_nat n < 2 * freq n i <= Z.of_nat n)%Z.
Proof. intro H. unfold freq. destruct (Nat.leb_spec (2 * i) n); [exists 0%Z | exists 1%Z]; lia. Qed.
Lemma freq_add n a b B C : a < n -> b < n -> (Z.abs (freq n (diff n a b)) <= B)%Z -> (Z.abs (freq n b) <= C)%Z -> (2 * (B + C) < Z.of_nat n)%Z -> (freq n a = freq n (diff n a b) + freq n b)%Z.
Proof.
  intros Ha Hb HB HC HN. destruct (freq_bounds n a Ha) as [k1 [E1 L1]]. destruct (freq_bounds n b Hb) as [k2 [E2 L2]]. destruct (freq_bounds n (diff n a b)) as [k3 [E3 L3]]; [apply diff_lt; assumption|].
  assert (D : exists k, (Z.of_nat (diff n a b) = Z.of_nat a - Z.of_nat b + k * Z.of_nat n)%Z) by (unfold diff; destruct (Nat.leb_spec b a); [exists 0%Z | exists 1%Z]; lia). destruct D as [k D].
  assert (X : (freq n a - (freq n (diff n a b) + freq n b) = (k3 + k2 - k1 - k) * Z.of_nat n)%Z) by (rewrite E1, E2, E3, D; ring). set (z := (k3 + k2 - k1 - k)%Z) in X. clearbody z. 
  assert (Y : (- Z.of_nat n < z * Z.of_nat n < Z.of_nat n)%Z) by lia. assert (z = 0%Z) by nia. subst z. lia.
Qed.

Section LPure2.
Context {F : ofield}.
Local Open Scope F_scope.
Add Field FfLPu2 : (fth F).
Notation mat := (list (list F)).
Notation cplx := (cplx F).
Notation fsinfo := (fsinfo F).

Lemma sqrt_unique (x y : F) : 0 <= x -> 0 <= y -> x * x = y * y -> x = y.
Proof.
  intros Px Py E. assert (Z : (x - y) * (x + y) = 0) by (transitivity (x * x - y * y); [ring | rewrite E; ring]). apply fmul_eq_0 in Z. destruct Z as [Z|Z]; [apply fsub_0_eq; exact Z|].
  assert (X0 : x = 0) by (apply fle_antisym; [|exact Px]; replace x with (- y) by (transitivity (x + y - y); [rewrite Z; ring | ring]); apply fle_sub_0; replace (0 - - y) with y by ring; exact Py).
  rewrite X0 in *. transitivity (0 + y - 0); [rewrite Z; ring | ring].
Qed.

Section P.
Variables (pi : F) (fsqrt : F -> F) (ph : nat -> nat -> cplx) (s : fsinfo).
Notation coeff := (coeff pi ph s).
Notation kpx := (kpx pi s). Notation kpy := (kpy pi s). Notation kp := (kp pi fsqrt s). Notation kp2 := (kp2 pi s).
Notation dcos := (dcos pi fsqrt s). Notation dsin := (dsin pi fsqrt s).
Hypothesis (HSQ : real_sqrt fsqrt) (Hpi : pi <> 0) (Hx : 0 < fs_lx s) (Hy : 0 < fs_ly s) (HR : conj_roots ph s) (HH : hom_roots ph s) (HF : full_roots ph s) (Hnx : (0 < fs_nx s)%nat) (Hny : (0 < fs_ny s)%nat).
(** square pixels *)
Hypothesis HP : fs_lx s / fofnat (fs_nx s) = fs_ly s / fofnat (fs_ny s).
Lemma dir_square m : In m (grid s) -> kp m * dcos m = kpx m /\ kp m * dsin m = kpy m.
Proof.
  intro Hm. set (d := fs_lx s / fofnat (fs_nx s)) in *. pose proof (n_neq0 _ Hnx : (fofnat (fs_nx s) : F) <> 0) as N1. pose proof (n_neq0 _ Hny : (fofnat (fs_ny s) : F) <> 0) as N2.
  assert (Pd : 0 < d). { unfold d. replace (fs_lx s / fofnat (fs_nx s)) with (fs_lx s * / fofnat (fs_nx s)) by (field; exact N1). apply fmul_pos; [exact Hx|]. apply finv_pos. destruct (fs_nx s); [lia | apply fofnat_pos]. }
  assert (Nd : d <> 0) by (apply fpos_neq; exact Pd). assert (Nx : fs_lx s <> 0) by (apply fpos_neq; exact Hx). assert (Ny : fs_ly s <> 0) by (apply fpos_neq; exact Hy).
  assert (Ex : fs_lx s = d * fofnat (fs_nx s)) by (unfold d; field; exact N1). assert (Ey : fs_ly s = d * fofnat (fs_ny s)) by (rewrite HP; field; exact N2).
  assert (K1 : kxf pi s (fst m) = kpx m / d) by (unfold kxf, dkx, L_Pure.kpx; rewrite Ex; field; auto).
  assert (K2 : kyf pi s (snd m) = kpy m / d) by (unfold kyf, dky, L_Pure.kpy; rewrite Ey; field; auto).
  unfold L_Pure.dcos, L_Pure.dsin, dir. rewrite K1, K2. clearbody d. unfold cphi. cbv zeta.
  destruct (kpx m / d * (kpx m / d) + kpy m / d * (kpy m / d) <=? 0) eqn:E.
  - destruct (sq_sum_0 _ _ E) as [A B]. assert (Zx : kpx m = 0) by (transitivity (kpx m / d * d); [field; exact Nd | rewrite A; ring]). assert (Zy : kpy m = 0) by (transitivity (kpy m / d * d); [field; exact Nd | rewrite B; ring]).
    rewrite (kp_zero pi fsqrt s HSQ m Zx Zy), Zx, Zy. cbn [fst snd]. split; ring.
  - cbn [fst snd]. assert (Q : fsqrt (kpx m / d * (kpx m / d) + kpy m / d * (kpy m / d)) = kp m / d).
    { destruct (HSQ (kpx m / d * (kpx m / d) + kpy m / d * (kpy m / d))) as [S1 S2]; [apply fadd_nonneg; apply fsqr_nonneg|]. apply sqrt_unique; [exact S1| apply fdiv_nonneg; [apply (kp_nonneg pi fsqrt s HSQ) | exact Pd] |].
      rewrite S2. transitivity (kp2 m / (d * d)); [unfold L_Pure.kp2; field; exact Nd|]. rewrite <- (kp_sq pi fsqrt s HSQ m). field. exact Nd. }
    rewrite Q. assert (NK : kp m <> 0).
    { intro Z. pose proof (kp_sq pi fsqrt s HSQ m) as S. rewrite Z in S. assert (S' : kp2 m = 0) by (rewrite <- S; ring). assert (E' : (kpx m / d * (kpx m / d) + kpy m / d * (kpy m / d)) = 0) by (transitivity (kp2 m / (d * d)); [unfold L_Pure.kp2; field; exact Nd | rewrite S'; field; exact Nd]). rewrite E' in E. pose proof (fle_refl (0 : F)) as R. unfold fle in R. congruence. }
    split; field; auto.
Qed.
(** coefficients beyond (bx,by) vanish *)
Definition band_limited (bx by_ : Z) (t : list F) : Prop := forall m, In m (grid s) -> (bx < Z.abs (freq (fs_nx s) (fst m)) \/ by_ < Z.abs (freq (fs_ny s) (snd m)))%Z -> coeff t m = c0.
Lemma limited_edge bx by_ t m : (2 * bx < Z.of_nat (fs_nx s))%Z -> (2 * by_ < Z.of_nat (fs_ny s))%Z -> band_limited bx by_ t -> In m (grid s) -> edge s m -> coeff t m = c0.
Proof. intros L1 L2 B Hm E. apply B; [exact Hm|]. unfold freq. destruct E as [E|E]; [left|right]; rewrite E, Nat.leb_refl; lia. Qed.
Lemma diff_k bx by_ cx cy l q : (0 <= bx)%Z -> (0 <= cx)%Z -> (0 <= by_)%Z -> (0 <= cy)%Z -> (2 * (bx + cx) < Z.of_nat (fs_nx s))%Z -> (2 * (by_ + cy) < Z.of_nat (fs_ny s))%Z -> In l (grid s) -> In q (grid s) ->
  (Z.abs (freq (fs_nx s) (fst (diff_mode s l q))) <= bx)%Z -> (Z.abs (freq (fs_ny s) (snd (diff_mode s l q))) <= by_)%Z -> (Z.abs (freq (fs_nx s) (fst q)) <= cx)%Z -> (Z.abs (freq (fs_ny s) (snd q)) <= cy)%Z ->
  kpx l - kpx q = kpx (diff_mode s l q) /\ kpy l - kpy q = kpy (diff_mode s l q).
Proof.
  intros P1 P2 P3 P4 L1 L2 Hl Hq B1 B2 B3 B4. apply in_grid in Hl, Hq. unfold L_Pure.kpx, L_Pure.kpy. unfold diff_mode in *. cbn [fst snd] in *.
  rewrite (freq_add (fs_nx s) (fst l) (fst q) bx cx), (freq_add (fs_ny s) (snd l) (snd q) by_ cy) by tauto. rewrite !fofZ_add. split; ring.
Qed.
(** the weights of purification are those of the wavevector of the map *)
Lemma alpha_square l q : In l (grid s) -> In q (grid s) -> kp l <> 0 -> alpha pi fsqrt s l q = ((kpx l - kpx q) * (kpx l - kpx q) - (kpy l - kpy q) * (kpy l - kpy q)) / (kp l * kp l).
Proof.
  intros Hl Hq N. destruct (dir_square l Hl) as [A1 A2]. destruct (dir_square q Hq) as [B1 B2]. rewrite <- A1, <- A2, <- B1, <- B2. unfold alpha, rat. change (fofZ 2 : F) with ((1 : F) + 1). field. exact N.
Qed.
Lemma beta_square l q : In l (grid s) -> In q (grid s) -> kp l <> 0 -> beta pi fsqrt s l q = fofZ 2 * ((kpx l - kpx q) * (kpy l - kpy q)) / (kp l * kp l).
Proof.
  intros Hl Hq N. destruct (dir_square l Hl) as [A1 A2]. destruct (dir_square q Hq) as [B1 B2]. rewrite <- A1, <- A2, <- B1, <- B2. unfold beta, rat. change (fofZ 2 : F) with ((1 : F) + 1). field. exact N.
Qed.
(** maps without E or without B modes *)
Definition eq_b (Q U : nat * nat -> cplx) (p : nat * nat) : cplx := cadd (cscal (fofZ 2 * (kpx p * kpy p)) (Q p)) (cscal (kpx p * kpx p - kpy p * kpy p) (U p)).
Definition eq_e (Q U : nat * nat -> cplx) (p : nat * nat) : cplx := csub (cscal (kpx p * kpx p - kpy p * kpy p) (Q p)) (cscal (fofZ 2 * (kpx p * kpy p)) (U p)).
Lemma grid_half p : In p (grid s) -> (fst p < nhalf s)%nat \/ ((fst (flip s p) < nhalf s)%nat /\ flip s (flip s p) = p).
Proof.
  intro Hp. apply in_grid in Hp. destruct p as [x y]. cbn [fst snd] in *. destruct (Nat.leb_spec (2 * x) (fs_nx s)) as [L|L]; [left; apply half_bound; exact L | right]. unfold flip. cbn [fst snd]. rewrite !opp_row_inv by tauto. split; [|reflexivity]. rewrite <- (opp_right (fs_nx s) x) by lia. apply half_bound. lia.
Qed.
Lemma C_flip t m : In m (grid s) -> coeff t (flip s m) = conjc (coeff t m).
Proof. intro Hm. apply in_grid in Hm. destruct m as [x y]. cbn [fst snd] in Hm. unfold flip. cbn [fst snd]. apply (coeff_conj pi fsqrt ph s t x y HR); tauto. Qed.
Lemma extend (eqn : (nat * nat -> cplx) -> (nat * nat -> cplx) -> nat * nat -> cplx) (q u : list F) : eqn = eq_b \/ eqn = eq_e ->
  (forall m, In m (grid s) -> edge s m -> coeff q m = c0) -> (forall m, In m (grid s) -> edge s m -> coeff u m = c0) ->
  (forall m, In m (grid s) -> (fst m < nhalf s)%nat -> eqn (coeff q) (coeff u) m = c0) -> forall m, In m (grid s) -> eqn (coeff q) (coeff u) m = c0.
Proof.
  intros HE ZQ ZU H m Hm. destruct (grid_half m Hm) as [L|[L E]]; [apply H; assumption|]. destruct (edge_dec pi fsqrt s m) as [D|D].
  - destruct HE as [-> | ->]; unfold eq_b, eq_e; rewrite (ZQ m Hm D), (ZU m Hm D); unfold c0; apply cplx_eq; cbn; ring.
  - pose proof (in_flip s Hnx Hny m Hm) as Hf. specialize (H (flip s m) Hf L).
    assert (X : eqn (coeff q) (coeff u) (flip s m) = conjc (eqn (coeff q) (coeff u) m)).
    { destruct HE as [-> | ->]; unfold eq_b, eq_e; rewrite !C_flip, (flip_kpx pi s Hnx Hny m Hm D), (flip_kpy pi s Hnx Hny m Hm D) by exact Hm; apply cplx_eq; cbn [conjc cadd csub cscal fst snd]; ring. }
    rewrite X in H. apply (f_equal conjc) in H. rewrite conj_conj in H. rewrite H. unfold c0. apply cplx_eq; cbn; ring.
Qed.
(** main lemma *)
Lemma pure_zero (mask q u : list F) (bx by_ cx cy : Z) l : (0 <= bx)%Z -> (0 <= cx)%Z -> (0 <= by_)%Z -> (0 <= cy)%Z -> (2 * (bx + cx) < Z.of_nat (fs_nx s))%Z -> (2 * (by_ + cy) < Z.of_nat (fs_ny s))%Z ->
  band_limited cx cy mask -> band_limited bx by_ q -> band_limited bx by_ u -> In l (grid s) -> kp l <> 0 ->
  ((forall m, In m (grid s) -> eq_b (coeff q) (coeff u) m = c0) ->
    conv pi ph s mask (fun q' => let p := diff_mode s l q' in cadd (cscal (beta pi fsqrt s l q') (coeff q p)) (cscal (alpha pi fsqrt s l q') (coeff u p))) = c0) /\
  ((forall m, In m (grid s) -> eq_e (coeff q) (coeff u) m = c0) ->
    conv pi ph s mask (fun q' => let p := diff_mode s l q' in csub (cscal (alpha pi fsqrt s l q') (coeff q p)) (cscal (beta pi fsqrt s l q') (coeff u p))) = c0).
Proof.
  intros P1 P2 P3 P4 L1 L2 BM BQ BU Hl N.
  assert (ZT : tot pi s (fun _ => c0) = c0) by (unfold tot; rewrite clsum_zero by reflexivity; unfold c0; apply cplx_eq; cbn; ring).
  assert (BL : forall bx by_ t m, band_limited bx by_ t -> In m (grid s) -> coeff t m = c0 \/ (Z.abs (freq (fs_nx s) (fst m)) <= bx /\ Z.abs (freq (fs_ny s) (snd m)) <= by_)%Z).
  { clear. intros bx by_ t m B Hm. destruct (Z_lt_le_dec bx (Z.abs (freq (fs_nx s) (fst m)))); [left; apply B; tauto|]. destruct (Z_lt_le_dec by_ (Z.abs (freq (fs_ny s) (snd m)))); [left; apply B; tauto | right; tauto]. }
  assert (M0 : forall x : cplx, cmul c0 x = c0) by (intro x; unfold c0; apply cplx_eq; cbn; ring).
  assert (QU : forall q', In q' (grid s) -> coeff mask q' = c0 \/ (coeff q (diff_mode s l q') = c0 /\ coeff u (diff_mode s l q') = c0) \/ (kpx l - kpx q' = kpx (diff_mode s l q') /\ kpy l - kpy q' = kpy (diff_mode s l q'))).
  { intros q' Hq. pose proof (in_diff s l q' Hl Hq) as Hp. destruct (BL cx cy mask q' BM Hq) as [Z|[C1 C2]]; [left; exact Z | right].
    destruct (BL bx by_ q _ BQ Hp) as [Z1|[D1 D2]]; [destruct (BL bx by_ u _ BU Hp) as [Z2|[D1 D2]]; [left; tauto|]|]; right; apply (diff_k bx by_ cx cy); assumption. }
  split; intro HB; unfold conv; rewrite <- ZT; apply tot_ext; intros q' Hq; cbv zeta; pose proof (in_diff s l q' Hl Hq) as Hp; destruct (QU q' Hq) as [Z|[[Z1 Z2]|[K1 K2]]].
  - rewrite Z. apply M0.
  - rewrite Z1, Z2. unfold c0. apply cplx_eq; cbn; ring.
  - rewrite alpha_square, beta_square by assumption. rewrite K1, K2. specialize (HB _ Hp). unfold eq_b in HB. set (x := coeff q _) in *. set (y := coeff u _) in *. set (px := kpx (diff_mode s l q')) in *. set (py := kpy (diff_mode s l q')) in *.
    replace (cadd (cscal (fofZ 2 * (px * py) / (kp l * kp l)) x) (cscal ((px * px - py * py) / (kp l * kp l)) y)) with (cscal (1 / (kp l * kp l)) (cadd (cscal (fofZ 2 * (px * py)) x) (cscal (px * px - py * py) y))) by (apply cplx_eq; cbn [cscal cadd fst snd]; field; exact N).
    rewrite HB. unfold c0. apply cplx_eq; cbn [cmul cscal fst snd]; ring.
  - rewrite Z. apply M0.
  - rewrite Z1, Z2. unfold c0. apply cplx_eq; cbn; ring.
  - rewrite alpha_square, beta_square by assumption. rewrite K1, K2. specialize (HB _ Hp). unfold eq_e in HB. set (x := coeff q _) in *. set (y := coeff u _) in *. set (px := kpx (diff_mode s l q')) in *. set (py := kpy (diff_mode s l q')) in *.
    replace (csub (cscal ((px * px - py * py) / (kp l * kp l)) x) (cscal (fofZ 2 * (px * py) / (kp l * kp l)) y)) with (cscal (1 / (kp l * kp l)) (csub (cscal (px * px - py * py) x) (cscal (fofZ 2 * (px * py)) y))) by (apply cplx_eq; cbn [cscal csub fst snd]; field; exact N).
    rewrite HB. unfold c0. apply cplx_eq; cbn [cmul cscal fst snd]; ring.
Qed.
(** what the code computes for the unmasked maps *)
Lemma eb_square q u e b ix iy : fs_map2alm pi fsqrt ph s 2 [q; u] = Ok [e; b] -> (ix < nhalf s)%nat -> (iy < fs_ny s)%nat ->
  cscal (kp2 (ix, iy)) (nth (ix + nhalf s * iy) b c0) = eq_b (coeff q) (coeff u) (ix, iy) /\ cscal (kp2 (ix, iy)) (nth (ix + nhalf s * iy) e c0) = eq_e (coeff q) (coeff u) (ix, iy).
Proof.
  intros E Ix Iy. destruct (map2alm_spin pi fsqrt ph s 2 q u) as [e' [b' [E' [_ [_ H]]]]]; [lia|]. rewrite E in E'. injection E' as <- <-. specialize (H ix iy Ix Iy). unfold full_eb, eb_of, rot_at in H. cbn [fst snd] in H.
  assert (Hl : In (ix, iy) (grid s)) by (apply in_grid; cbn; split; [apply (half_lt s Hnx Hny); exact Ix | exact Iy]). destruct (dir_square _ Hl) as [D1 D2].
  change (cphi fsqrt (kxf pi s ix) (kyf pi s iy)) with (dir pi fsqrt s (ix, iy)) in H. unfold L_Pure.dcos, L_Pure.dsin in D1, D2. destruct (dir pi fsqrt s (ix, iy)) as [c sn]. cbn [fst snd] in D1, D2.
  change (Z.to_nat 2) with 2%nat in H. cbn [rotn fst snd] in H. change (sig 2 2 : cplx) with ((- (1) * - (1), - (1) * 0) : cplx) in H. injection H as A B. rewrite A, B.
  unfold eq_b, eq_e. rewrite <- (kp_sq pi fsqrt s HSQ (ix, iy)), <- D1, <- D2. change (fofZ 2 : F) with ((1 : F) + 1). split; apply cplx_eq; cbn [cmul cscal cadd csub fst snd]; ring.
Qed.
End P.
End LPure2.
