(** Lemmas: the covariance of the maps made from white random numbers. *)
From Coq Require Import Permutation.
From Verif Require Import Base M_Utils M_Bins M_FlatBins M_LinAlg M_Workspace M_OMP L_OMP M_Flat M_WspFlat M_Syn L_LinAlg L_Flat L_Flat2 L_Flat3 L_FITS L_MCM L_WspFlat L_WspFlat2 L_FlatMean L_Syn.
Open Scope nat_scope.

Lemma index_split n a b c d : (b < n)%nat -> (d < n)%nat -> (a * n + b = c * n + d)%nat -> a = c /\ b = d.
Proof. intros Hb Hd E. assert (a = c) by nia. subst. lia. Qed.

Section LSyn2.
Context {F : ofield}.
Local Open Scope F_scope.
Add Field FfSy : (fth F).
Notation mat := (list (list F)).
Notation cplx := (cplx F).
Notation fsinfo := (fsinfo F).

Lemma sum_rev n (f : nat -> F) : sum n (fun i => f (n - S i)%nat) = sum n f.
Proof. induction n as [|n IH]; [reflexivity|]. rewrite sum_S_l. cbn [sum]. rewrite <- IH. replace (S n - 1)%nat with n by lia. rewrite (sum_ext n (fun i => f (S n - S (S i))%nat) (fun i => f (n - S i)%nat)) by (intros; f_equal). ring. Qed.
(** a sum over the stored half of the plane *)
Lemma half_full (s : fsinfo) (h : nat -> nat -> F) : (0 < fs_nx s)%nat ->
  (forall ix iy, (ix < fs_nx s)%nat -> (iy < fs_ny s)%nat -> h (opp_row (fs_nx s) ix) (opp_row (fs_ny s) iy) = h ix iy) ->
  sum (fs_ny s) (fun iy => sum (nhalf s) (fun ix => col_weight s ix * h ix iy)) = lsum (map (fun m => h (fst m) (snd m)) (grid s)).
Proof.
  intros Hn HS. rewrite <- (sum_grid s h). set (H := fun ix => sum (fs_ny s) (fun iy => h ix iy)).
  rewrite (sum_swap (fs_ny s) (nhalf s)), (sum_swap (fs_ny s) (fs_nx s)). rewrite (sum_ext (nhalf s) _ (fun ix => col_weight s ix * H ix)) by (intros; unfold H; rewrite <- sum_mul_l; reflexivity). change (sum (nhalf s) (fun ix => col_weight s ix * H ix) = sum (fs_nx s) H).
  assert (HH : forall ix, (ix < fs_nx s)%nat -> H (opp_row (fs_nx s) ix) = H ix). { intros ix Hx. unfold H. rewrite <- (sum_opp_row (fs_ny s)). apply sum_ext. intros iy Hy. apply HS; assumption. }
  pose proof (half_ny (fs_nx s)) as HN. set (m := (fs_nx s / 2)%nat) in *. assert (Enh : nhalf s = S m) by (unfold nhalf; fold m; lia). rewrite Enh.
  assert (O : forall j, (0 < j < fs_nx s)%nat -> H (fs_nx s - j)%nat = H j). { intros j Hj. rewrite <- (HH j) by lia. f_equal. unfold opp_row. rewrite Nat.mod_small by lia. reflexivity. }
  assert (W0 : col_weight s 0 = 1) by reflexivity.
  destruct (Nat.eq_dec (2 * m) (fs_nx s)) as [E|E].
  - destruct m as [|m']; [lia|]. replace (sum (fs_nx s) H) with (sum (S (S m') + m') H) by (f_equal; lia). rewrite sum_plus. assert (SS : forall n (f : nat -> F), sum (S n) f = sum n f + f n) by reflexivity. rewrite (SS (S m') (fun ix => col_weight s ix * H ix)), (SS (S m') H). rewrite (sum_S_l m' (fun ix => col_weight s ix * H ix)), (sum_S_l m' H). rewrite W0.
    replace (col_weight s (S m')) with (1 : F) by (unfold col_weight; rewrite (proj2 (Nat.eqb_eq (2 * S m') (fs_nx s)) E), Bool.orb_true_r; reflexivity).
    rewrite <- (sum_rev m' (fun i => H (S (S m') + i)%nat)). rewrite (sum_ext m' (fun i => H (S (S m') + (m' - S i))%nat) (fun i => H (S i))) by (intros i Hi; rewrite <- (O (S i)) by lia; f_equal; lia).
    rewrite (sum_ext m' (fun i => col_weight s (S i) * H (S i)) (fun i => fofZ 2 * H (S i))). 2:{ intros i Hi. unfold col_weight. rewrite (proj2 (Nat.eqb_neq (S i) 0)), (proj2 (Nat.eqb_neq (2 * S i) (fs_nx s))) by lia. reflexivity. }
    rewrite sum_mul_l. replace (fofZ 2 : F) with ((1 : F) + 1) by (cbn; ring). ring.
  - replace (sum (fs_nx s) H) with (sum (S m + m) H) by (f_equal; lia). rewrite sum_plus. rewrite (sum_S_l m (fun ix => col_weight s ix * H ix)), (sum_S_l m H). rewrite W0.
    rewrite <- (sum_rev m (fun i => H (S m + i)%nat)). rewrite (sum_ext m (fun i => H (S m + (m - S i))%nat) (fun i => H (S i))) by (intros i Hi; rewrite <- (O (S i)) by lia; f_equal; lia).
    rewrite (sum_ext m (fun i => col_weight s (S i) * H (S i)) (fun i => fofZ 2 * H (S i))). 2:{ intros i Hi. unfold col_weight. rewrite (proj2 (Nat.eqb_neq (S i) 0)), (proj2 (Nat.eqb_neq (2 * S i) (fs_nx s))) by lia. reflexivity. }
    rewrite sum_mul_l. replace (fofZ 2 : F) with ((1 : F) + 1) by (cbn; ring). ring.
Qed.

(** independent random numbers of unit variance, for the draws that are used *)
Definition white (K : nat) (pr : nat -> F) (gauss : nat -> Z -> nat -> F * F) (lo hi : Z) (N : nat) : Prop :=
  forall a b n m, (lo <= a < hi)%Z -> (lo <= b < hi)%Z -> (n < N)%nat -> (m < N)%nat ->
    sum K (fun k => pr k * (fst (gauss k a n) * fst (gauss k b m))) = (if ((a =? b)%Z && (n =? m)%nat)%bool then 1 else 0) /\
    sum K (fun k => pr k * (snd (gauss k a n) * snd (gauss k b m))) = (if ((a =? b)%Z && (n =? m)%nat)%bool then 1 else 0) /\
    sum K (fun k => pr k * (fst (gauss k a n) * snd (gauss k b m))) = 0.
Definition unit_draw (lo : Z) (N k : nat) (a : Z) (n : nat) : F * F :=
  let q := (Z.to_nat (a - lo) * N + n)%nat in (kron k (q * 2), kron k (q * 2 + 1)).
Lemma sum_kron2 K a b : (a < K)%nat -> sum K (fun k => (1 : F) * (kron k a * kron k b)) = kron a b.
Proof. intro H. rewrite (sum_ext K _ (fun k => kron k a * kron k b)) by (intros; ring). exact (sum_kron K a (fun k => kron k b) H). Qed.
Lemma white_exists lo hi N : white (2 * (Z.to_nat (hi - lo) * N)) (fun _ => 1) (unit_draw lo N) lo hi N.
Proof.
  intros a b n m Ha Hb Hn Hm. unfold unit_draw. cbv zeta. cbn [fst snd]. set (qa := (Z.to_nat (a - lo) * N + n)%nat). set (qb := (Z.to_nat (b - lo) * N + m)%nat).
  assert (La : (qa < Z.to_nat (hi - lo) * N)%nat) by (assert (Z.to_nat (a - lo) < Z.to_nat (hi - lo))%nat by lia; unfold qa; nia).
  assert (E : ((a =? b)%Z && (n =? m)%nat)%bool = Nat.eqb qa qb).
  { destruct (Nat.eqb_spec qa qb) as [Q|Q].
    - destruct (index_split N (Z.to_nat (a - lo)) n (Z.to_nat (b - lo)) m Hn Hm Q) as [Q1 Q2]. rewrite (proj2 (Z.eqb_eq a b)), (proj2 (Nat.eqb_eq n m)) by lia. reflexivity.
    - destruct (Z.eqb_spec a b) as [->|]; [|reflexivity]. destruct (Nat.eqb_spec n m) as [->|]; [|reflexivity]. contradiction. }
  rewrite E. rewrite !sum_kron2 by lia. unfold kron. split; [|split].
  - destruct (Nat.eqb_spec qa qb) as [->|Q]; [rewrite Nat.eqb_refl; reflexivity | rewrite (proj2 (Nat.eqb_neq (qa * 2) (qb * 2))) by lia; reflexivity].
  - destruct (Nat.eqb_spec qa qb) as [->|Q]; [rewrite Nat.eqb_refl; reflexivity | rewrite (proj2 (Nat.eqb_neq (qa * 2 + 1) (qb * 2 + 1))) by lia; reflexivity].
  - rewrite (proj2 (Nat.eqb_neq (qa * 2) (qb * 2 + 1))) by lia. reflexivity.
Qed.
Section S.
Variables (pi : F) (fsqrt : F -> F) (ph : nat -> nat -> cplx) (sqrt2 : F) (root : mat -> mat).
Variables (s : fsinfo) (nmaps : nat) (cells beams : list (F -> F)) (seed : Z) (parts : list (list nat)) (arrival : list nat).
Hypothesis HP : Permutation (concat parts) (seq 0 (fs_ny s)).
Hypothesis HA : Permutation arrival (seq 0 (length parts)).
Hypothesis Hseed : (0 <= seed)%Z.
Hypothesis HS : (seed + Z.of_nat (length parts) <= 2 ^ 31)%Z.
Notation sd := (seed_of seed parts arrival).
Notation pl := (place_of parts).

Lemma part_range o : (o < fs_ny s)%nat -> (part_of o parts < length parts)%nat /\ (nth (part_of o parts) arrival 0 < length parts)%nat /\ nth (pl o) (nth (part_of o parts) parts []) 0%nat = o.
Proof.
  intro Ho. assert (Io : In o (concat parts)) by (apply (Permutation_in _ (Permutation_sym HP)); apply in_seq; lia). destruct (part_of_in o parts Io) as [A B]. split; [exact A|]. split.
  - assert (I : In (nth (part_of o parts) arrival 0%nat) (seq 0 (length parts))). { apply (Permutation_in _ HA). apply nth_In. rewrite (Permutation_length HA), seq_length. exact A. } apply in_seq in I. lia.
  - apply index_of_in. exact B.
Qed.
Lemma seed_range o : (o < fs_ny s)%nat -> sd o = (seed + Z.of_nat (nth (part_of o parts) arrival 0%nat))%Z /\ (seed <= sd o < seed + Z.of_nat (length parts))%Z.
Proof. intro Ho. destruct (part_range o Ho) as [A [B C]]. unfold seed_of. change (2 ^ 31)%Z with 2147483648%Z in HS. rewrite Z.mod_small by (change (2 ^ 32)%Z with 4294967296%Z; lia). split; [reflexivity | lia]. Qed.
Lemma draw_lt o ix l : (o < fs_ny s)%nat -> (ix < nhalf s)%nat -> (l < nmaps)%nat -> ((pl o * nhalf s + ix) * nmaps + l < fs_ny s * nhalf s * nmaps)%nat.
Proof.
  intros Ho Hx Hl. assert (Io : In o (concat parts)) by (apply (Permutation_in _ (Permutation_sym HP)); apply in_seq; lia). destruct (part_of_in o parts Io) as [A B]. destruct (index_of_in o _ B) as [C _]. fold (pl o) in C.
  assert (L : forall (ps : list (list nat)) t, (length (nth t ps []) <= length (concat ps))%nat). { clear. induction ps as [|x r IH]; intros [|t]; cbn [nth concat length]; rewrite ?app_length; try lia. specialize (IH t). lia. }
  specialize (L parts (part_of o parts)). rewrite (Permutation_length HP), seq_length in L. fold (place_of parts o) in C. assert (B1 : (pl o * nhalf s + ix < fs_ny s * nhalf s)%nat) by nia. clear - B1 Hl. nia.
Qed.
Lemma draw_inj o o' ix ix' l l' : (o < fs_ny s)%nat -> (o' < fs_ny s)%nat -> (ix < nhalf s)%nat -> (ix' < nhalf s)%nat -> (l < nmaps)%nat -> (l' < nmaps)%nat ->
  sd o = sd o' -> ((pl o * nhalf s + ix) * nmaps + l = (pl o' * nhalf s + ix') * nmaps + l')%nat -> o = o' /\ ix = ix' /\ l = l'.
Proof.
  intros Ho Ho' Hx Hx' Hl Hl' E1 E2. destruct (index_split _ _ _ _ _ Hl Hl' E2) as [E3 ->]. destruct (index_split _ _ _ _ _ Hx Hx' E3) as [E4 ->]. split; [|auto].
  destruct (part_range o Ho) as [A [B C]], (part_range o' Ho') as [A' [B' C']]. rewrite (proj1 (seed_range o Ho)), (proj1 (seed_range o' Ho')) in E1.
  assert (Et : part_of o parts = part_of o' parts). { apply (proj1 (NoDup_nth arrival 0%nat)); [apply (Permutation_NoDup (Permutation_sym HA)); apply seq_NoDup | rewrite (Permutation_length HA), seq_length; exact A | rewrite (Permutation_length HA), seq_length; exact A' | lia]. }
  rewrite <- C, <- C', Et, E4. reflexivity.
Qed.
Variables (K : nat) (pr : nat -> F) (gauss : nat -> Z -> nat -> F * F).
Hypothesis HW : white K pr gauss seed (seed + Z.of_nat (length parts)) (fs_ny s * nhalf s * nmaps).
Definition good_root : Prop := forall ix iy, (ix < nhalf s)%nat -> (iy < fs_ny s)%nat ->
  let c := clmat_of pi s nmaps cells (kmodf pi fsqrt s ix iy) in square nmaps (root c) /\
  forall i j, (i < nmaps)%nat -> (j < nmaps)%nat -> sum nmaps (fun l => entry2 (root c) i l * entry2 (root c) j l) = entry2 c i j.
Hypothesis HR : good_root.
(** half the spectrum of maps i and j per unit of k-space *)
Definition power (i j : nat) (k : F) : F := nth i beams zero_fun k * nth j beams zero_fun k * nth (icl nmaps (Nat.min i j) (Nat.max i j)) cells zero_fun k.
Definition base (k i ix o : nat) : cplx := alm_at pi fsqrt root s nmaps cells beams (fun j => gauss k (sd o) ((pl o * nhalf s + ix) * nmaps + j)%nat) ix o i.
Lemma base_cov i j ix ix' o o' (u v : cplx) : (i < nmaps)%nat -> (j < nmaps)%nat -> (ix < nhalf s)%nat -> (ix' < nhalf s)%nat -> (o < fs_ny s)%nat -> (o' < fs_ny s)%nat ->
  sum K (fun k => pr k * (cdot (base k i ix o) u * cdot (base k j ix' o') v)) = (if (Nat.eqb ix ix' && Nat.eqb o o')%bool then 1 / fofZ 2 * inv_dkvol pi s * power i j (kmodf pi fsqrt s ix o) * cdot u v else 0).
Proof.
  intros Hi Hj Hx Hx' Ho Ho'. destruct (HR ix o Hx Ho) as [Sq Rc], (HR ix' o' Hx' Ho') as [Sq' Rc'].
  set (r := root (clmat_of pi s nmaps cells (kmodf pi fsqrt s ix o))) in *. set (r' := root (clmat_of pi s nmaps cells (kmodf pi fsqrt s ix' o'))) in *.
  set (b := nth i beams zero_fun (kmodf pi fsqrt s ix o)). set (b' := nth j beams zero_fun (kmodf pi fsqrt s ix' o')).
  set (X := fun k l => gauss k (sd o) ((pl o * nhalf s + ix) * nmaps + l)%nat). set (Y := fun k l => gauss k (sd o') ((pl o' * nhalf s + ix') * nmaps + l)%nat).
  assert (D : forall (q : mat) n (f : nat -> F), square nmaps q -> (n < nmaps)%nat -> dot (nth n q []) (tab nmaps f) = sum nmaps (fun l => entry2 q n l * f l)).
  { intros q n f [Q1 Q2] Hn. rewrite (dot_sum _ _ nmaps) by (rewrite ?length_tab; try apply Q2; try apply nth_In; try reflexivity; rewrite Q1; exact Hn). apply sum_ext. intros l Hl. rewrite nth_tab by exact Hl. reflexivity. }
  assert (EB : forall k, cdot (base k i ix o) u = b * sum nmaps (fun l => entry2 r i l * (fst (X k l) * fst u + snd (X k l) * snd u))).
  { intro k. unfold base, alm_at, cdot. cbv zeta. cbn [fst snd]. fold r b. rewrite !D by assumption. symmetry. rewrite (sum_ext nmaps _ (fun l => fst u * (entry2 r i l * fst (X k l)) + snd u * (entry2 r i l * snd (X k l)))) by (intros; ring). rewrite sum_add, !sum_mul_l. unfold X. ring. }
  assert (EB' : forall k, cdot (base k j ix' o') v = b' * sum nmaps (fun l => entry2 r' j l * (fst (Y k l) * fst v + snd (Y k l) * snd v))).
  { intro k. unfold base, alm_at, cdot. cbv zeta. cbn [fst snd]. fold r' b'. rewrite !D by assumption. symmetry. rewrite (sum_ext nmaps _ (fun l => fst v * (entry2 r' j l * fst (Y k l)) + snd v * (entry2 r' j l * snd (Y k l)))) by (intros; ring). rewrite sum_add, !sum_mul_l. unfold Y. ring. }
  assert (XY : forall l l', (l < nmaps)%nat -> (l' < nmaps)%nat -> sum K (fun k => pr k * ((fst (X k l) * fst u + snd (X k l) * snd u) * (fst (Y k l') * fst v + snd (Y k l') * snd v))) = (if (Nat.eqb ix ix' && Nat.eqb o o')%bool then kron l l' * cdot u v else 0)).
  { intros l l' Hl Hl'. destruct (HW (sd o) (sd o') ((pl o * nhalf s + ix) * nmaps + l)%nat ((pl o' * nhalf s + ix') * nmaps + l')%nat (proj2 (seed_range o Ho)) (proj2 (seed_range o' Ho')) (draw_lt o ix l Ho Hx Hl) (draw_lt o' ix' l' Ho' Hx' Hl')) as [W1 [W2 W3]].
    destruct (HW (sd o') (sd o) ((pl o' * nhalf s + ix') * nmaps + l')%nat ((pl o * nhalf s + ix) * nmaps + l)%nat (proj2 (seed_range o' Ho')) (proj2 (seed_range o Ho)) (draw_lt o' ix' l' Ho' Hx' Hl') (draw_lt o ix l Ho Hx Hl)) as [_ [_ W4]].
    rewrite (sum_ext K _ (fun k => fst u * fst v * (pr k * (fst (X k l) * fst (Y k l'))) + snd u * snd v * (pr k * (snd (X k l) * snd (Y k l'))) + (fst u * snd v * (pr k * (fst (X k l) * snd (Y k l'))) + snd u * fst v * (pr k * (fst (Y k l') * snd (X k l)))))) by (intros; ring).
    rewrite !sum_add, !sum_mul_l. unfold X, Y. rewrite W1, W2, W3, W4.
    destruct (Nat.eqb_spec ix ix') as [Ex|Ex]; [destruct (Nat.eqb_spec o o') as [Eo|Eo]|]; cbn [andb].
    - subst ix' o'. rewrite Z.eqb_refl. cbn [andb]. unfold kron, cdot. destruct (Nat.eqb_spec l l') as [->|N]; [rewrite Nat.eqb_refl; ring|]. rewrite (proj2 (Nat.eqb_neq _ _)) by lia. ring.
    - destruct (Z.eqb_spec (sd o) (sd o')) as [E1|E1]; cbn [andb]; [|ring]. destruct (Nat.eqb_spec ((pl o * nhalf s + ix) * nmaps + l) ((pl o' * nhalf s + ix') * nmaps + l')) as [E2|E2]; [|ring]. destruct (draw_inj o o' ix ix' l l') as [A _]; try assumption. contradiction.
    - destruct (Z.eqb_spec (sd o) (sd o')) as [E1|E1]; cbn [andb]; [|ring]. destruct (Nat.eqb_spec ((pl o * nhalf s + ix) * nmaps + l) ((pl o' * nhalf s + ix') * nmaps + l')) as [E2|E2]; [|ring]. destruct (draw_inj o o' ix ix' l l') as [_ [A _]]; try assumption. contradiction. }
  rewrite (sum_ext K _ (fun k => b * b' * sum nmaps (fun l => sum nmaps (fun l' => entry2 r i l * entry2 r' j l' * (pr k * ((fst (X k l) * fst u + snd (X k l) * snd u) * (fst (Y k l') * fst v + snd (Y k l') * snd v))))))).
  2:{ intros k _. rewrite EB, EB'. set (g := fun l => entry2 r i l * (fst (X k l) * fst u + snd (X k l) * snd u)). set (g' := fun l => entry2 r' j l * (fst (Y k l) * fst v + snd (Y k l) * snd v)).
      rewrite (sum_ext nmaps (fun l => sum nmaps _) (fun l => g l * (pr k * sum nmaps g'))). 2:{ intros l _. rewrite <- !sum_mul_l. apply sum_ext. intros l' _. unfold g, g'. ring. } rewrite sum_mul_r. ring. }
  rewrite sum_mul_l. rewrite (sum_swap K nmaps). rewrite (sum_ext nmaps _ (fun l => sum nmaps (fun l' => entry2 r i l * entry2 r' j l' * (if (Nat.eqb ix ix' && Nat.eqb o o')%bool then kron l l' * cdot u v else 0)))).
  2:{ intros l Hl. rewrite (sum_swap K nmaps). apply sum_ext. intros l' Hl'. rewrite sum_mul_l. rewrite XY by assumption. reflexivity. }
  destruct (Nat.eqb_spec ix ix') as [Ex|Ex]; [destruct (Nat.eqb_spec o o') as [Eo|Eo]|]; cbn [andb]; try (rewrite sum_zero; [ring|]; intros l Hl; apply sum_zero; intros l' Hl'; ring).
  rewrite (sum_ext nmaps _ (fun l => entry2 r i l * entry2 r j l * cdot u v)).
  2:{ intros l Hl. rewrite (sum_ext nmaps _ (fun l' => kron l l' * (entry2 r i l * entry2 r' j l' * cdot u v))) by (intros; ring). rewrite sum_kron' by exact Hl. unfold r', r. rewrite Ex, Eo. reflexivity. }
  rewrite sum_mul_r. rewrite Rc by assumption. unfold entry2, clmat_of. rewrite nth_tab by exact Hi. rewrite nth_tab by exact Hj. unfold power, b, b'. rewrite Ex, Eo. ring.
Qed.
(** coefficients as stored *)
Definition turn (ix iy : nat) (u : cplx) : cplx := if negb (Nat.eqb ix 0) then u else if Nat.eqb iy 0 then (sqrt2 * fst u, 0) else if (2 * iy <? fs_ny s)%nat then u else conjc u.
Lemma stored_turn ix iy (v u : cplx) : cdot (stored sqrt2 s ix iy v) u = cdot v (turn ix iy u).
Proof. unfold stored, turn. destruct (negb (Nat.eqb ix 0)); [reflexivity|]. destruct (Nat.eqb iy 0); [unfold cdot; cbn [fst snd]; ring|]. destruct (2 * iy <? fs_ny s)%nat; [reflexivity|]. unfold cdot, conjc. cbn [fst snd]. ring. Qed.
Definition coef (k i ix iy : nat) : cplx := final pi fsqrt sqrt2 (gauss k) root s nmaps cells beams seed parts arrival i ix iy.
(** modes that are their own opposite, apart from the origin and the modes of column 0 *)
Definition unpaired (ix iy : nat) : Prop := (2 * ix = fs_nx s)%nat \/ (ix = 0%nat /\ (2 * iy = fs_ny s)%nat).
Hypothesis H2 : sqrt2 * sqrt2 = fofZ 2.
Lemma kmod_owner ix iy : (iy < fs_ny s)%nat -> kmodf pi fsqrt s ix (owner s ix iy) = kmodf pi fsqrt s ix iy.
Proof.
  intro Hy. unfold owner. destruct (Nat.eqb ix 0 && (fs_ny s / 2 <? iy)%nat)%bool eqn:E; [|reflexivity]. apply Bool.andb_true_iff in E. destruct E as [_ E]. apply Nat.ltb_lt in E. rewrite <- (kmod_opp pi fsqrt s ix iy Hy). f_equal. unfold opp_row. rewrite Nat.mod_small by lia. reflexivity.
Qed.
Lemma coef_cov i j ix ix' iy iy' (u v : cplx) : (i < nmaps)%nat -> (j < nmaps)%nat -> (ix < nhalf s)%nat -> (ix' < nhalf s)%nat -> (iy < fs_ny s)%nat -> (iy' < fs_ny s)%nat ->
  (unpaired ix iy -> power i j (kmodf pi fsqrt s ix iy) = 0) ->
  sum K (fun k => pr k * (cdot (coef k i ix iy) u * cdot (coef k j ix' iy') v)) =
  1 / fofZ 2 * inv_dkvol pi s * power i j (kmodf pi fsqrt s ix iy) * (kron ix' ix * (kron iy' iy * cdot u v + (if Nat.eqb ix 0 then kron iy' (opp_row (fs_ny s) iy) * cdot u (conjc v) else 0))).
Proof.
  intros Hi Hj Hx Hx' Hy Hy' HU. unfold coef, final. rewrite (sum_ext K _ (fun k => pr k * (cdot (base k i ix (owner s ix iy)) (turn ix iy u) * cdot (base k j ix' (owner s ix' iy')) (turn ix' iy' v)))) by (intros; rewrite !stored_turn; reflexivity).
  rewrite base_cov by (try apply owner_lt; assumption). rewrite kmod_owner by exact Hy. unfold kron at 1. rewrite (Nat.eqb_sym ix' ix). destruct (Nat.eqb_spec ix ix') as [Ex|Ex]; cbn [andb]; [|ring]. subst ix'. pose proof (half_ny (fs_ny s)) as HN.
  set (P := power i j (kmodf pi fsqrt s ix iy)) in *. unfold turn, owner. destruct (Nat.eqb_spec ix 0) as [E0|E0]; cbn [negb andb].
  2:{ unfold kron. rewrite (Nat.eqb_sym iy' iy). destruct (Nat.eqb iy iy'); ring. }
  assert (Z0 : (2 * iy = fs_ny s)%nat -> P = 0) by (intro; apply HU; right; auto).
  destruct (Nat.eq_dec (2 * iy) (fs_ny s)) as [Eny|Nny]; [rewrite (Z0 Eny); destruct (Nat.eqb _ _); ring|].
  assert (Eopp : opp_row (fs_ny s) iy = if Nat.eqb iy 0 then 0%nat else (fs_ny s - iy)%nat). { unfold opp_row. destruct (Nat.eqb_spec iy 0) as [->|N]; [rewrite Nat.sub_0_r; apply Nat.mod_same; lia | apply Nat.mod_small; lia]. }
  rewrite Eopp. unfold kron.
  destruct (Nat.eqb_spec iy 0) as [Y0|Y0].
  - subst iy. rewrite (proj2 (Nat.ltb_ge (fs_ny s / 2) 0)) by lia. destruct (Nat.eqb_spec iy' 0) as [Y1|Y1].
    + subst iy'. rewrite (proj2 (Nat.ltb_ge (fs_ny s / 2) 0)) by lia. cbn [Nat.eqb]. unfold cdot, conjc. cbn [fst snd]. replace (sqrt2 * fst u * (sqrt2 * fst v)) with (fofZ 2 * (fst u * fst v)) by (rewrite <- H2; ring). replace (fofZ 2 : F) with ((1 : F) + 1) by (cbn; ring). ring.
    + destruct (Nat.ltb_spec (fs_ny s / 2) iy') as [L|L]; [rewrite (proj2 (Nat.eqb_neq 0 (fs_ny s - iy'))) by lia | rewrite (proj2 (Nat.eqb_neq 0 iy')) by lia]; ring.
  - destruct (Nat.ltb_spec (fs_ny s / 2) iy) as [L|L].
    + rewrite (proj2 (Nat.ltb_ge (2 * iy) (fs_ny s))) by lia. destruct (Nat.eqb_spec iy' 0) as [Y1|Y1].
      * subst iy'. rewrite (proj2 (Nat.ltb_ge (fs_ny s / 2) 0)) by lia. rewrite (proj2 (Nat.eqb_neq (fs_ny s - iy) 0)), (proj2 (Nat.eqb_neq 0 iy)), (proj2 (Nat.eqb_neq 0 (fs_ny s - iy))) by lia. ring.
      * destruct (Nat.ltb_spec (fs_ny s / 2) iy') as [L'|L'].
        -- rewrite (proj2 (Nat.ltb_ge (2 * iy') (fs_ny s))) by lia. rewrite (proj2 (Nat.eqb_neq iy' (fs_ny s - iy))) by lia. destruct (Nat.eqb_spec iy' iy) as [->|N]; [rewrite Nat.eqb_refl, cdot_conj; ring|]. rewrite (proj2 (Nat.eqb_neq (fs_ny s - iy) (fs_ny s - iy'))) by lia. ring.
        -- rewrite (proj2 (Nat.eqb_neq iy' iy)) by lia. rewrite (Nat.eqb_sym iy' (fs_ny s - iy)). destruct (Nat.eqb_spec (fs_ny s - iy) iy') as [E|N]; [|ring]. rewrite (proj2 (Nat.ltb_lt (2 * iy') (fs_ny s))) by lia. unfold cdot, conjc. cbn [fst snd]. ring.
    + rewrite (proj2 (Nat.ltb_lt (2 * iy) (fs_ny s))) by lia. destruct (Nat.eqb_spec iy' 0) as [Y1|Y1].
      * subst iy'. rewrite (proj2 (Nat.ltb_ge (fs_ny s / 2) 0)) by lia. rewrite (proj2 (Nat.eqb_neq iy 0)), (proj2 (Nat.eqb_neq 0 iy)), (proj2 (Nat.eqb_neq 0 (fs_ny s - iy))) by lia. ring.
      * destruct (Nat.ltb_spec (fs_ny s / 2) iy') as [L'|L'].
        -- rewrite (proj2 (Nat.ltb_ge (2 * iy') (fs_ny s))) by lia. rewrite (proj2 (Nat.eqb_neq iy' iy)) by lia. destruct (Nat.eqb_spec iy (fs_ny s - iy')) as [E|N]; [rewrite (proj2 (Nat.eqb_eq iy' (fs_ny s - iy))) by lia; ring | rewrite (proj2 (Nat.eqb_neq iy' (fs_ny s - iy))) by lia; ring].
        -- rewrite (proj2 (Nat.eqb_neq iy' (fs_ny s - iy))) by lia. rewrite (Nat.eqb_sym iy' iy). destruct (Nat.eqb_spec iy iy') as [E|N]; [|ring]. rewrite (proj2 (Nat.ltb_lt (2 * iy') (fs_ny s))) by lia. ring.
Qed.
(** ** Maps *)
Hypothesis Hx0 : (0 < fs_nx s)%nat.
Hypothesis Hlx : fs_lx s <> 0.
Hypothesis Hly : fs_ly s <> 0.
Hypothesis Hpi : pi <> 0.
Hypothesis HC : conj_roots ph s.
Definition alms (k i : nat) : list cplx := tab (fs_ny s * nhalf s) (fun q => coef k i (q mod nhalf s) (q / nhalf s)).
Lemma pix_map k i p : In p (grid s) -> pix s (alm2map0 pi ph s (alms k i)) p =
  sum (fs_ny s) (fun iy => sum (nhalf s) (fun ix => col_weight s ix * cdot (coef k i ix iy) (wave ph s (ix, iy) p))) * (fofZ 2 * pi / (fs_lx s * fs_ly s)).
Proof.
  intro Hp. apply in_grid in Hp. destruct Hp as [P1 P2]. unfold pix, alm2map0. rewrite nth_tab by nia. replace ((fst p + fs_nx s * snd p) mod fs_nx s)%nat with (fst p) by (rewrite Nat.mul_comm, Nat.mod_add, Nat.mod_small by lia; reflexivity).
  replace ((fst p + fs_nx s * snd p) / fs_nx s)%nat with (snd p) by (rewrite Nat.mul_comm, Nat.div_add, Nat.div_small by lia; reflexivity).
  f_equal. apply sum_ext. intros iy Hy. apply sum_ext. intros ix Hx. destruct (half_index s ix iy Hx Hy) as [A [B C]]. unfold alms. rewrite nth_tab by exact A. rewrite B, C. reflexivity.
Qed.
Lemma map_cov i j p p' : (i < nmaps)%nat -> (j < nmaps)%nat -> In p (grid s) -> In p' (grid s) ->
  (forall ix iy, (ix < nhalf s)%nat -> (iy < fs_ny s)%nat -> unpaired ix iy -> power i j (kmodf pi fsqrt s ix iy) = 0) ->
  sum K (fun k => pr k * (pix s (alm2map0 pi ph s (alms k i)) p * pix s (alm2map0 pi ph s (alms k j)) p')) = iso_cov pi fsqrt ph s (power i j) p p'.
Proof.
  intros Hi Hj Hp Hp' HU. set (N := fofZ 2 * pi / (fs_lx s * fs_ly s)). set (c := 1 / fofZ 2 * inv_dkvol pi s).
  transitivity (N * N * sum (fs_ny s) (fun iy => sum (nhalf s) (fun ix => sum (fs_ny s) (fun iy' => sum (nhalf s) (fun ix' => col_weight s ix * col_weight s ix' *
    sum K (fun k => pr k * (cdot (coef k i ix iy) (wave ph s (ix, iy) p) * cdot (coef k j ix' iy') (wave ph s (ix', iy') p')))))))).
  - rewrite <- sum_mul_l. rewrite (sum_ext K _ (fun k => sum (fs_ny s) (fun iy => sum (nhalf s) (fun ix => sum (fs_ny s) (fun iy' => sum (nhalf s) (fun ix' => N * N * (col_weight s ix * col_weight s ix') * (pr k * (cdot (coef k i ix iy) (wave ph s (ix, iy) p) * cdot (coef k j ix' iy') (wave ph s (ix', iy') p'))))))))).
    + rewrite sum_swap. apply sum_ext. intros iy _. rewrite <- sum_mul_l, sum_swap. apply sum_ext. intros ix _. rewrite <- sum_mul_l, sum_swap. apply sum_ext. intros iy' _. rewrite <- sum_mul_l, sum_swap. apply sum_ext. intros ix' _. rewrite sum_mul_l. ring.
    + intros k _. rewrite !pix_map by assumption. fold N. rewrite (sum_ext (fs_ny s) (fun iy => sum (nhalf s) (fun ix => sum (fs_ny s) _)) (fun iy => sum (nhalf s) (fun ix => col_weight s ix * cdot (coef k i ix iy) (wave ph s (ix, iy) p)) * (N * N * pr k * sum (fs_ny s) (fun iy' => sum (nhalf s) (fun ix' => col_weight s ix' * cdot (coef k j ix' iy') (wave ph s (ix', iy') p')))))).
      * rewrite sum_mul_r. ring.
      * intros iy _. rewrite <- sum_mul_r. apply sum_ext. intros ix _. rewrite <- !sum_mul_l. apply sum_ext. intros iy' _. rewrite <- !sum_mul_l. apply sum_ext. intros ix' _. ring.
  - transitivity (N * N * sum (fs_ny s) (fun iy => sum (nhalf s) (fun ix => col_weight s ix * (c * power i j (kmodf pi fsqrt s ix iy) * (fofZ 2 * cdot (wave ph s (ix, iy) p) (wave ph s (ix, iy) p')))))).
    + f_equal. apply sum_ext. intros iy Hy. apply sum_ext. intros ix Hx. assert (Xn : (ix < fs_nx s)%nat) by (pose proof (half_ny (fs_nx s)); unfold nhalf in Hx; lia).
      rewrite (sum_ext (fs_ny s) _ (fun iy' => kron iy' iy * (col_weight s ix * col_weight s ix * (c * power i j (kmodf pi fsqrt s ix iy)) * cdot (wave ph s (ix, iy) p) (wave ph s (ix, iy') p')) +
         kron iy' (opp_row (fs_ny s) iy) * (if Nat.eqb ix 0 then col_weight s ix * col_weight s ix * (c * power i j (kmodf pi fsqrt s ix iy)) * cdot (wave ph s (ix, iy) p) (conjc (wave ph s (ix, iy') p')) else 0))).
      2:{ intros iy' Hy'. rewrite (sum_ext (nhalf s) _ (fun ix' => kron ix' ix * (col_weight s ix * col_weight s ix' * (c * power i j (kmodf pi fsqrt s ix iy)) * (kron iy' iy * cdot (wave ph s (ix, iy) p) (wave ph s (ix', iy') p') + (if Nat.eqb ix 0 then kron iy' (opp_row (fs_ny s) iy) * cdot (wave ph s (ix, iy) p) (conjc (wave ph s (ix', iy') p')) else 0))))).
          - rewrite sum_kron by exact Hx. destruct (Nat.eqb ix 0); ring.
          - intros ix' Hx'. rewrite coef_cov by (try assumption; intro; apply HU; assumption). fold c. ring. }
      rewrite sum_add, !sum_kron by (try apply opp_row_lt; lia). destruct (Nat.eqb_spec ix 0) as [E|E].
      * subst ix. pose proof (wave_flip pi fsqrt ph s (0%nat, iy) p' HC) as W. unfold flip in W. cbn [fst snd] in W. replace (opp_row (fs_nx s) 0) with 0%nat in W by (unfold opp_row; rewrite Nat.sub_0_r, Nat.mod_same by lia; reflexivity). rewrite W by (apply in_grid; split; assumption). rewrite conj_conj. change (col_weight s 0) with (1 : F). replace (fofZ 2 : F) with ((1 : F) + 1) by (cbn; ring). ring.
      * unfold col_weight. rewrite (proj2 (Nat.eqb_neq _ _) E). cbn [orb]. destruct (Nat.eqb_spec (2 * ix) (fs_nx s)) as [Q|Q]; [rewrite HU by (try assumption; left; exact Q); ring | ring].
    + rewrite (half_full s (fun ix iy => c * power i j (kmodf pi fsqrt s ix iy) * (fofZ 2 * cdot (wave ph s (ix, iy) p) (wave ph s (ix, iy) p')))).
      * unfold iso_cov. rewrite <- !lsum_mul_l. apply lsum_ext. intros [ix iy] _. cbn [fst snd]. unfold kmod_of. cbn [fst snd]. set (P := power i j _). set (w := cdot _ _). unfold N, c, inv_dkvol, dkx, dky. assert (T : (fofZ 2 : F) <> 0) by (apply fofZ_neq0; lia). clearbody P w. clear - T Hlx Hly Hpi. revert T. generalize (fofZ (F := F) 2). intros two Ht. field. repeat split; assumption.
      * exact Hx0.
      * intros ix iy Hx Hy. change (c * power i j (kmod_of pi fsqrt s (flip s (ix, iy))) * (fofZ 2 * cdot (wave ph s (flip s (ix, iy)) p) (wave ph s (flip s (ix, iy)) p')) = c * power i j (kmod_of pi fsqrt s (ix, iy)) * (fofZ 2 * cdot (wave ph s (ix, iy) p) (wave ph s (ix, iy) p'))).
        rewrite kmod_flip, !(wave_flip pi fsqrt ph), cdot_conj by (try assumption; apply in_grid; split; assumption). reflexivity.
Qed.
End S.
End LSyn2.
