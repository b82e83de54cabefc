(** Pseudo-spectra in terms of (l, m): entries of alm2cl and of compute_coupled_cell. *)
From Verif Require Import Base M_Utils L_Utils M_Field L_Field M_Cell.
Section LC.
Context {F : ofield}.
Local Open Scope F_scope.
Add Field FfLC : (fth F).
Notation mat := (list (list F)).

(** position of the coefficient (l, m) in NmtAlmInfo order, in complex numbers (utils.py:390-417, healpy.Alm.getidx) *)
Definition pos (lmax l m : nat) : nat := m * (2 * lmax + 1 - m) / 2 + l.
Definition re (lmax : nat) (a : list F) (l m : nat) : F := nth (2 * pos lmax l m) a 0.
Definition im (lmax : nat) (a : list F) (l m : nat) : F := nth (2 * pos lmax l m + 1) a 0.
(** mean over m of the product of two sets of coefficients of real fields *)
Definition spectrum (lmax : nat) (a b : list F) (l : nat) : F :=
  (re lmax a l 0 * re lmax b l 0 + fofZ 2 * sum l (fun m => re lmax a l (S m) * re lmax b l (S m) + im lmax a l (S m) * im lmax b l (S m))) / fofZ (2 * Z.of_nat l + 1).

Fixpoint off (len : nat -> nat) (m : nat) : nat := match m with O => O | S m' => (off len m' + len m')%nat end.
Lemma sum_blocks len M (f : nat -> F) : sum (off len M) f = sum M (fun m => sum (len m) (fun k => f (off len m + k)%nat)).
Proof. induction M as [|M IH]; [reflexivity|]. cbn [off sum]. rewrite sum_plus, IH. reflexivity. Qed.
Lemma length_blocks {A} (g : nat -> list A) len N : (forall m, (m < N)%nat -> length (g m) = len m) -> length (flat_map g (seq 0 N)) = off len N.
Proof.
  intro H. induction N as [|N IH]; [reflexivity|]. rewrite seq_S, flat_map_app, app_length, IH by (intros; apply H; lia). cbn [plus flat_map]. rewrite app_nil_r. cbn [off]. rewrite (H N) by lia. reflexivity.
Qed.
Lemma nth_blocks {A} (g : nat -> list A) len N m k d : (forall m, (m < N)%nat -> length (g m) = len m) -> (m < N)%nat -> (k < len m)%nat -> nth (off len m + k) (flat_map g (seq 0 N)) d = nth k (g m) d.
Proof.
  intros H Hm Hk. induction N as [|N IH]; [lia|]. rewrite seq_S, flat_map_app. cbn [plus flat_map]. rewrite app_nil_r.
  assert (L : length (flat_map g (seq 0 N)) = off len N) by (apply length_blocks; intros; apply H; lia).
  destruct (Nat.eq_dec m N) as [->|E].
  - rewrite app_nth2 by (rewrite L; lia). rewrite L. f_equal. lia.
  - rewrite app_nth1; [apply IH; [intros; apply H; lia | lia]|]. rewrite L.
    assert (Mono : forall a b, (a <= b)%nat -> (off len a <= off len b)%nat) by (intros a b; induction 1; cbn [off]; lia).
    pose proof (Mono (S m) N ltac:(lia)) as X. cbn [off] in X. lia.
Qed.
Lemma length_two {A} (x y : nat -> A) l : length (flat_map (fun k => [x k; y k]) l) = (2 * length l)%nat.
Proof. induction l as [|a l IH]; [reflexivity|]. cbn [flat_map app length]. rewrite IH. lia. Qed.
Lemma nth_two {A} (x y : nat -> A) s n k d : (k < n)%nat -> nth (2 * k) (flat_map (fun k => [x k; y k]) (seq s n)) d = x (s + k)%nat /\ nth (2 * k + 1) (flat_map (fun k => [x k; y k]) (seq s n)) d = y (s + k)%nat.
Proof.
  revert s k. induction n as [|n IH]; intros s k Hk; [lia|]. cbn [seq flat_map app]. destruct k as [|k].
  - rewrite Nat.add_0_r. split; reflexivity.
  - destruct (IH (S s) k ltac:(lia)) as [A1 A2]. replace (2 * S k)%nat with (S (S (2 * k))) by lia. replace (S (S (2 * k)) + 1)%nat with (S (S (2 * k + 1))) by lia. cbn [nth]. rewrite A1, A2. split; f_equal; lia.
Qed.
Definition wid (N m : nat) : nat := (2 * (N - m))%nat.
Lemma off_pos N m : (m <= N)%nat -> off (wid N) m = (2 * (m * (2 * N - 1 - m) / 2 + m))%nat.
Proof.
  intro H. assert (E : (off (wid N) m + m * m = m + 2 * m * N)%nat).
  { induction m as [|m IH]; [cbn [off]; lia|]. cbn [off]. unfold wid at 2. specialize (IH ltac:(lia)). nia. }
  destruct m as [|m]; [reflexivity|]. set (k := S m) in *. assert (Ev : exists q, (k * (2 * N - 1 - k) = 2 * q)%nat).
  { assert (Nat.even (k * (2 * N - 1 - k)) = true).
    { destruct (Nat.even k) eqn:Ek; [rewrite Nat.even_mul, Ek; reflexivity|]. rewrite Nat.even_mul, Ek. cbn [orb]. destruct (Nat.le_gt_cases (2 * N - 1) k) as [Hk|Hk]; [replace (2 * N - 1 - k)%nat with 0%nat by lia; reflexivity|].
      rewrite Nat.even_sub, Nat.even_sub by lia. rewrite Ek. replace (2 * N)%nat with (0 + 2 * N)%nat by lia. rewrite Nat.even_add_mul_2. reflexivity. }
    apply Nat.even_spec in H0. destruct H0 as (q & Hq). exists q. lia. }
  destruct Ev as (q & Hq). rewrite Hq, (Nat.mul_comm 2 q), Nat.div_mul by lia. nia.
Qed.
Lemma off_pos_l lmax m j : (m <= lmax)%nat -> (m + j <= lmax)%nat -> (off (wid (S lmax)) m + 2 * j = 2 * pos lmax (m + j) m)%nat.
Proof. intros H1 H2. rewrite off_pos by lia. unfold pos. replace (2 * S lmax - 1 - m)%nat with (2 * lmax + 1 - m)%nat by lia. lia. Qed.
Lemma sum_two n (f : nat -> F) : sum (2 * n) f = sum n (fun k => f (2 * k)%nat + f (2 * k + 1)%nat).
Proof. induction n as [|n IH]; [reflexivity|]. replace (2 * S n)%nat with (S (S (2 * n))) by lia. cbn [sum]. rewrite IH. replace (S (2 * n)) with (2 * n + 1)%nat by lia. ring. Qed.
Lemma length_ells lmax : length (ells (Z.of_nat lmax)) = off (wid (S lmax)) (S lmax).
Proof. unfold ells. replace (Z.to_nat (Z.of_nat lmax + 1)) with (S lmax) by lia. apply (length_blocks _ (wid (S lmax))). intros m Hm. rewrite (length_two Z.of_nat Z.of_nat), seq_length. reflexivity. Qed.
Lemma wts_two m s n : flat_map (fun _ : nat => if Nat.eqb m 0 then [1; 0] else [fofZ 2; fofZ 2 : F]) (seq s n) = flat_map (fun k : nat => [if Nat.eqb m 0 then 1 else fofZ 2; if Nat.eqb m 0 then 0 else fofZ 2]) (seq s n).
Proof. apply flat_map_ext. intro k. destruct (Nat.eqb m 0); reflexivity. Qed.
Lemma alm2cl_spectrum lmax (a b c : list F) : alm2cl (Z.of_nat lmax) a b = Ok c -> length c = S lmax /\ forall l, (l <= lmax)%nat -> nth l c 0 = spectrum lmax a b l.
Proof.
  unfold alm2cl. destruct (_ && _)%bool; [|discriminate 1]. intro H. injection H as <-. replace (Z.to_nat (Z.of_nat lmax + 1)) with (S lmax) by lia. split; [apply length_tab|].
  intros l Hl. rewrite nth_tab by lia. unfold spectrum. f_equal. rewrite length_ells, sum_blocks.
  set (X := fun m => if Nat.eqb m 0 then re lmax a l 0 * re lmax b l 0 else fofZ 2 * (re lmax a l m * re lmax b l m + im lmax a l m * im lmax b l m)).
  transitivity (sum (S lmax) (fun m => if Nat.leb m l then X m else 0)).
  - apply sum_ext. intros m Hm. change (wid (S lmax) m) with (2 * (S lmax - m))%nat at 1. rewrite sum_two.
    set (G := fun k => _ : F) at 1.
    assert (EG : forall j, (j < S lmax - m)%nat -> G j = if Nat.eqb (m + j) l then X m else 0).
    { intros j Hj. unfold G. clear G. rewrite Nat.add_assoc, off_pos_l by lia.
      assert (E1 : forall e, (e < 2)%nat -> nth (2 * pos lmax (m + j) m + e) (ells (Z.of_nat lmax)) 0%Z = Z.of_nat (m + j)).
      { intros e He. rewrite <- off_pos_l by lia. rewrite <- Nat.add_assoc. unfold ells. replace (Z.to_nat (Z.of_nat lmax + 1)) with (S lmax) by lia. rewrite (nth_blocks _ (wid (S lmax))) by (try (intros; rewrite (length_two Z.of_nat Z.of_nat), seq_length; reflexivity); unfold wid; lia).
        destruct (nth_two Z.of_nat Z.of_nat m (S lmax - m) j 0%Z Hj) as [A1 A2]. destruct e as [|[|e]]; [rewrite Nat.add_0_r; exact A1 | exact A2 | lia]. }
      assert (E2 : forall e, (e < 2)%nat -> nth (2 * pos lmax (m + j) m + e) (alm_wts (Z.of_nat lmax)) (0 : F) = if Nat.eqb e 0 then (if Nat.eqb m 0 then 1 else fofZ 2) else (if Nat.eqb m 0 then 0 else fofZ 2)).
      { intros e He. rewrite <- off_pos_l by lia. rewrite <- Nat.add_assoc. unfold alm_wts. replace (Z.to_nat (Z.of_nat lmax + 1)) with (S lmax) by lia.
        rewrite (nth_blocks _ (wid (S lmax))) by (try (intros; rewrite wts_two, (length_two (fun _ => _) (fun _ => _)), seq_length; reflexivity); unfold wid; lia).
        rewrite wts_two. destruct (nth_two (fun _ : nat => if Nat.eqb m 0 then (1 : F) else fofZ 2) (fun _ : nat => if Nat.eqb m 0 then (0 : F) else fofZ 2) m (S lmax - m) j 0 Hj) as [A1 A2]. destruct e as [|[|e]]; [rewrite Nat.add_0_r; exact A1 | exact A2 | lia]. }
      pose proof (E1 0%nat ltac:(lia)) as E10. pose proof (E2 0%nat ltac:(lia)) as E20. rewrite Nat.add_0_r in E10, E20. rewrite E10, (E1 1%nat), E20, (E2 1%nat) by lia. cbn [Nat.eqb].
      replace (Z.of_nat (m + j) =? Z.of_nat l)%Z with (Nat.eqb (m + j) l) by (destruct (Nat.eqb_spec (m + j) l), (Z.eqb_spec (Z.of_nat (m + j)) (Z.of_nat l)); auto; lia).
      destruct (Nat.eqb_spec (m + j) l) as [<-|_]; [|ring]. unfold X, re, im. destruct (Nat.eqb_spec m 0) as [->|_]; [|ring].  ring. }
    rewrite (sum_ext _ _ (fun j => if Nat.eqb (m + j) l then X m else 0)) by exact EG. destruct (Nat.leb_spec m l) as [Hml|Hml].
    + rewrite (sum_single _ (l - m)) by (try (intros j Hj Hn; destruct (Nat.eqb_spec (m + j) l); [lia | reflexivity]); lia). replace (m + (l - m))%nat with l by lia. rewrite Nat.eqb_refl. reflexivity.
    + apply sum_zero. intros j Hj. destruct (Nat.eqb_spec (m + j) l); [lia | reflexivity].
  - rewrite sum_S_l. change (Nat.leb 0 l) with true. unfold X at 1. change (Nat.eqb 0 0) with true. cbn iota. f_equal. rewrite <- sum_mul_l. replace lmax with (l + (lmax - l))%nat at 1 by lia. rewrite sum_plus.
    rewrite (sum_zero (lmax - l)) by (intros i Hi; destruct (Nat.leb_spec (S (l + i)) l); [lia | reflexivity]).
    rewrite (sum_ext l _ (fun m => fofZ 2 * (re lmax a l (S m) * re lmax b l (S m) + im lmax a l (S m) * im lmax b l (S m)))); [ring|]. intros i Hi. destruct (Nat.leb_spec (S i) l); [reflexivity | lia].
Qed.
End LC.
