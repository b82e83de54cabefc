(** Lemmas: finite ensembles of maps with Gaussian second and fourth moments. *)
From Verif Require Import Base M_Utils M_FlatBins M_Flat L_Flat L_Flat2 L_FITS L_MCM L_FlatMean L_CovFlat2.
Open Scope nat_scope.

Section Wick.
Context {F : ofield}.
Local Open Scope F_scope.
Add Field FfWi : (fth F).
(** one variable: values -2..2 with weights 1/12, 1/6, 1/2, 1/6, 1/12; moments 1, 0, 1, 0, 3 *)
Definition val (d : nat) : F := nth d [- (1 + 1); - (1); 0; 1; 1 + 1] 0.
Definition wt (d : nat) : F := nth d [1 / fofZ 12; 1 / fofZ 6; 1 / fofZ 2; 1 / fofZ 6; 1 / fofZ 12] 0.
Definition digit (p k : nat) : nat := ((k / 5 ^ p) mod 5)%nat.
Fixpoint weight (n k : nat) : F := match n with O => 1 | S n => weight n k * wt (digit n k) end.
Definition xval (k p : nat) : F := val (digit p k).
Fixpoint prodl (l : list F) : F := match l with [] => 1 | a :: t => a * prodl t end.
Definition moment (n : nat) (L : list nat) : F := sum (5 ^ n) (fun k => weight n k * prodl (map (xval k) L)).
Definition mu (L : nat) : F := sum 5 (fun d => wt d * prodl (repeat (val d) L)).

Lemma digit_low n p d k : (p < n)%nat -> digit p (5 ^ n * d + k) = digit p k.
Proof.
  intro H. unfold digit. replace n with (p + S (n - S p))%nat by lia. rewrite Nat.pow_add_r. cbn [Nat.pow]. replace (5 ^ p * (5 * 5 ^ (n - S p)) * d + k)%nat with (k + (5 * 5 ^ (n - S p) * d) * 5 ^ p)%nat by ring.
  rewrite Nat.div_add by (apply Nat.pow_nonzero; lia). replace (k / 5 ^ p + 5 * 5 ^ (n - S p) * d)%nat with (k / 5 ^ p + (5 ^ (n - S p) * d) * 5)%nat by ring. apply Nat.mod_add. lia.
Qed.
Lemma digit_top n d k : (d < 5)%nat -> (k < 5 ^ n)%nat -> digit n (5 ^ n * d + k) = d.
Proof.
  intros Hd Hk. unfold digit. rewrite (Nat.mul_comm _ d), Nat.add_comm, Nat.div_add by (apply Nat.pow_nonzero; lia). rewrite (Nat.div_small k) by exact Hk. apply Nat.mod_small. lia.
Qed.
Lemma weight_low m n d k : (m <= n)%nat -> weight m (5 ^ n * d + k) = weight m k.
Proof. induction m as [|m IH]; intro H; [reflexivity|]. cbn [weight]. rewrite IH, digit_low by lia. reflexivity. Qed.
Fixpoint count (n : nat) (L : list nat) : nat := match L with [] => 0%nat | p :: t => if Nat.eqb p n then S (count n t) else count n t end.
Lemma prodl_split n d k L : (d < 5)%nat -> (k < 5 ^ n)%nat -> (forall p, In p L -> (p <= n)%nat) ->
  prodl (map (xval (5 ^ n * d + k)) L) = prodl (repeat (val d) (count n L)) * prodl (map (xval k) (filter (fun p => negb (Nat.eqb p n)) L)).
Proof.
  intros Hd Hk. induction L as [|p L IH]; intro HL; [cbn; ring|]. cbn [map prodl count filter]. rewrite IH by (intros q Hq; apply HL; right; exact Hq). unfold xval at 1. pose proof (HL p (or_introl eq_refl)) as Hp. destruct (Nat.eqb_spec p n) as [->|E]; cbn [negb].
  - rewrite digit_top by assumption. cbn [repeat prodl]. ring.
  - rewrite digit_low by lia. cbn [map prodl]. unfold xval at 2. ring.
Qed.
Lemma moment_S n L : (forall p, In p L -> (p <= n)%nat) -> moment (S n) L = mu (count n L) * moment n (filter (fun p => negb (Nat.eqb p n)) L).
Proof.
  intro HL. unfold moment. replace (5 ^ S n)%nat with (5 * 5 ^ n)%nat by reflexivity. rewrite sum_flat. unfold mu. rewrite <- sum_mul_r. apply sum_ext. intros d Hd. rewrite <- sum_mul_l. apply sum_ext. intros k Hk.
  cbn [weight]. rewrite weight_low by lia. rewrite digit_top by assumption. rewrite prodl_split by assumption. ring.
Qed.
Lemma mu_vals : mu 0 = 1 /\ mu 1 = 0 /\ mu 2 = 1 /\ mu 3 = 0 /\ mu 4 = 1 + 1 + 1.
Proof.
  set (u := 1 / fofZ 12 : F). assert (H : forall a b : Z, (a * b = 12)%Z -> 1 / fofZ a = fofZ b * u :> F).
  { intros a b E. assert (A : (a <> 0)%Z) by lia. assert (B : (b <> 0)%Z) by lia. unfold u. rewrite <- E, fofZ_mul. pose proof (fofZ_neq0 (F := F) a A) as Na. pose proof (fofZ_neq0 (F := F) b B) as Nb. generalize dependent (fofZ a : F). generalize dependent (fofZ b : F). intros. field. auto. }
  assert (T : fofZ 12 * u = 1). { unfold u. pose proof (fofZ_neq0 (F := F) 12 ltac:(lia)) as N. generalize dependent (fofZ 12 : F). intros. field. assumption. }
  assert (E : wt 0 = u /\ wt 1 = fofZ 2 * u /\ wt 2 = fofZ 6 * u /\ wt 3 = fofZ 2 * u /\ wt 4 = u).
  { unfold wt. cbn [nth]. rewrite (H 6 2)%Z, (H 2 6)%Z by reflexivity. auto. }
  destruct E as [E0 [E1 [E2 [E3 E4]]]]. unfold mu. cbn [sum]. rewrite E0, E1, E2, E3, E4. unfold val. cbn [nth repeat prodl]. clearbody u. clear - T.
  split; [transitivity (fofZ 12 * u); [cbn; ring | exact T]|]. split; [cbn; ring|]. split; [transitivity (fofZ 12 * u); [cbn; ring | exact T]|]. split; [cbn; ring|]. transitivity ((1 + 1 + 1) * (fofZ 12 * u)); [cbn; ring | rewrite T; ring].
Qed.
Definition dl (p q : nat) : F := if Nat.eqb p q then 1 else 0.
Lemma dl_n n p : (p < n)%nat -> dl p n = 0 /\ dl n p = 0.
Proof. intro H. unfold dl. destruct (Nat.eqb_spec p n); [lia|]. destruct (Nat.eqb_spec n p); [lia|]. auto. Qed.
Lemma dl_same n : dl n n = 1. Proof. unfold dl. rewrite Nat.eqb_refl. reflexivity. Qed.
Lemma moments n : moment n [] = 1 /\ (forall p, (p < n)%nat -> moment n [p] = 0) /\ (forall p q, (p < n)%nat -> (q < n)%nat -> moment n [p; q] = dl p q) /\
  (forall p q r, (p < n)%nat -> (q < n)%nat -> (r < n)%nat -> moment n [p; q; r] = 0) /\
  (forall p q r t, (p < n)%nat -> (q < n)%nat -> (r < n)%nat -> (t < n)%nat -> moment n [p; q; r; t] = dl p q * dl r t + dl p r * dl q t + dl p t * dl q r).
Proof.
  destruct mu_vals as [U0 [U1 [U2 [U3 U4]]]]. induction n as [|n [I0 [I1 [I2 [I3 I4]]]]].
  - split; [cbn; unfold moment; cbn; ring|]. repeat split; intros; lia.
  - assert (D : forall p, (p < S n)%nat -> p = n \/ ((p < n)%nat /\ Nat.eqb p n = false)). { intros p H. destruct (Nat.eq_dec p n); [auto|right; split; [lia | apply Nat.eqb_neq; assumption]]. }
    split; [rewrite moment_S by (intros p []); cbn [count filter]; rewrite U0, I0; ring|].
    split; [|split; [|split]].
    + intros p Hp. rewrite moment_S by (cbn; intuition lia). destruct (D p Hp) as [->|[L E]]; cbn [count filter]; rewrite ?Nat.eqb_refl, ?E; cbn [negb]; rewrite ?U0, ?U1, ?I0, ?I1 by assumption; ring.
    + intros p q Hp Hq. rewrite moment_S by (cbn; intuition lia). destruct (D p Hp) as [->|[L E]]; destruct (D q Hq) as [->|[L' E']]; cbn [count filter]; rewrite ?Nat.eqb_refl, ?E, ?E'; cbn [negb]; rewrite ?U0, ?U1, ?U2, ?I0, ?I1, ?I2 by assumption;
        rewrite ?dl_same; try rewrite (proj1 (dl_n n p L)); try rewrite (proj2 (dl_n n q L')); ring.
    + intros p q r Hp Hq Hr. rewrite moment_S by (cbn; intuition lia). destruct (D p Hp) as [->|[L E]]; destruct (D q Hq) as [->|[L' E']]; destruct (D r Hr) as [->|[L'' E'']]; cbn [count filter]; rewrite ?Nat.eqb_refl, ?E, ?E', ?E''; cbn [negb]; rewrite ?U0, ?U1, ?U2, ?U3, ?I0, ?I1, ?I2, ?I3 by assumption; ring.
    + intros p q r t Hp Hq Hr Ht. rewrite moment_S by (cbn; intuition lia). destruct (D p Hp) as [->|[L E]]; destruct (D q Hq) as [->|[L' E']]; destruct (D r Hr) as [->|[L'' E'']]; destruct (D t Ht) as [->|[L3 E3]]; cbn [count filter]; rewrite ?Nat.eqb_refl, ?E, ?E', ?E'', ?E3; cbn [negb]; rewrite ?U0, ?U1, ?U2, ?U3, ?U4, ?I0, ?I1, ?I2, ?I3, ?I4 by assumption;
        rewrite ?dl_same; try rewrite (proj1 (dl_n n p L)); try rewrite (proj2 (dl_n n p L)); try rewrite (proj1 (dl_n n q L')); try rewrite (proj2 (dl_n n q L')); try rewrite (proj1 (dl_n n r L'')); try rewrite (proj2 (dl_n n r L'')); try rewrite (proj1 (dl_n n t L3)); try rewrite (proj2 (dl_n n t L3)); try ring.
Qed.
(** maps with r hidden variables per pixel: any matrix of covariances of Gram form *)
Notation fsinfo := (fsinfo F).
Section Maps.
Variables (s : fsinfo) (r : nat).
Definition nvar : nat := (fs_nx s * fs_ny s * r)%nat.
Definition vidx (p : nat * nat) (u : nat) : nat := ((fst p + fs_nx s * snd p) * r + u)%nat.
Definition emap (A : nat -> F) (k : nat) : list F := tab (fs_nx s * fs_ny s) (fun q => lsum (map (fun u => A u * xval k (q * r + u)) (seq 0 r))).
Lemma pix_emap A k p : In p (grid s) -> pix s (emap A k) p = lsum (map (fun u => A u * xval k (vidx p u)) (seq 0 r)).
Proof. intro H. unfold pix, emap. rewrite nth_tab by (apply in_grid in H; nia). reflexivity. Qed.
Lemma vidx_lt p u : In p (grid s) -> (u < r)%nat -> (vidx p u < nvar)%nat.
Proof. intros H Hu. apply in_grid in H. unfold vidx, nvar. assert (Q : (S (fst p + fs_nx s * snd p) <= fs_nx s * fs_ny s)%nat) by nia. pose proof (Nat.mul_le_mono_r _ _ r Q). lia. Qed.
Lemma prod_lsum {A B} (l : list A) (l' : list B) (f : A -> F) (g : B -> F) : lsum (map f l) * lsum (map g l') = lsum (map (fun u => lsum (map (fun v => f u * g v) l')) l).
Proof. rewrite <- lsum_mul_r. apply lsum_ext. intros u _. rewrite <- lsum_mul_l. reflexivity. Qed.
Notation K := (5 ^ nvar)%nat.
Definition edot (A C : nat -> F) (p p' : nat * nat) : F := lsum (map (fun u => lsum (map (fun v => A u * C v * dl (vidx p u) (vidx p' v)) (seq 0 r))) (seq 0 r)).
Lemma emean2 A C p p' : In p (grid s) -> In p' (grid s) -> mean2 s K (weight nvar) (emap A) (emap C) p p' = edot A C p p'.
Proof.
  intros Hp Hp'. unfold mean2. rewrite (sum_ext _ _ (fun k => lsum (map (fun u => lsum (map (fun v => A u * C v * (weight nvar k * prodl (map (xval k) [vidx p u; vidx p' v]))) (seq 0 r))) (seq 0 r)))).
  - rewrite <- lsum_swap. apply lsum_ext. intros u Hu. apply in_seq in Hu. rewrite <- lsum_swap. apply lsum_ext. intros v Hv. apply in_seq in Hv. rewrite sum_mul_l. f_equal. apply (proj1 (proj2 (proj2 (moments nvar)))); apply vidx_lt; (assumption || lia).
  - intros k _. rewrite !pix_emap by assumption. rewrite prod_lsum. rewrite <- lsum_mul_l. apply lsum_ext. intros u _. rewrite <- lsum_mul_l. apply lsum_ext. intros v _. cbn [map prodl]. ring.
Qed.
Lemma dl_vidx p p' u v : In p (grid s) -> In p' (grid s) -> (u < r)%nat -> (v < r)%nat -> dl (vidx p u) (vidx p' v) = (if same p p' then 1 else 0) * dl u v.
Proof.
  intros Hp Hp' Hu Hv. apply in_grid in Hp, Hp'. unfold dl, same, vidx. destruct p as [x y], p' as [x' y']. cbn [fst snd] in *.
  destruct (Nat.eqb_spec ((x + fs_nx s * y) * r + u) ((x' + fs_nx s * y') * r + v)) as [E|E].
  - assert (E1 : (x + fs_nx s * y)%nat = (x' + fs_nx s * y')%nat /\ u = v). { assert (Z := f_equal (fun z => (z / r)%nat) E). assert (Z2 := f_equal (fun z => (z mod r)%nat) E). cbn beta in Z, Z2. rewrite !(Nat.add_comm (_ * r)), !Nat.div_add, !Nat.div_small in Z by lia. rewrite !(Nat.add_comm (_ * r)), !Nat.mod_add, !Nat.mod_small in Z2 by lia. lia. }
    destruct E1 as [E1 ->]. assert (E2 : x = x' /\ y = y'). { assert (Z := f_equal (fun z => (z / fs_nx s)%nat) E1). assert (Z2 := f_equal (fun z => (z mod fs_nx s)%nat) E1). cbn beta in Z, Z2. rewrite !(Nat.mul_comm (fs_nx s)), !Nat.div_add, !Nat.div_small in Z by lia. rewrite !(Nat.mul_comm (fs_nx s)), !Nat.mod_add, !Nat.mod_small in Z2 by lia. lia. }
    destruct E2 as [-> ->]. rewrite !Nat.eqb_refl. cbn. ring.
  - destruct (Nat.eqb_spec x x') as [->|]; cbn [andb]; [|ring]. destruct (Nat.eqb_spec y y') as [->|]; [|ring]. destruct (Nat.eqb_spec u v) as [->|]; [|ring]. exfalso. apply E. reflexivity.
Qed.
Definition gram (A C : nat -> F) : F := lsum (map (fun u => A u * C u) (seq 0 r)).
Lemma ens_white A C : white2 s K (weight nvar) (emap A) (emap C) (gram A C).
Proof.
  intros p p' Hp Hp'. rewrite emean2 by assumption. unfold edot. rewrite (lsum_ext _ (fun u => (if same p p' then 1 else 0) * (A u * C u))).
  - rewrite lsum_mul_l. fold (gram A C). destruct (same p p'); ring.
  - intros u Hu. apply in_seq in Hu. rewrite (lsum_ext _ (fun v => (if same p p' then 1 else 0) * A u * (dl u v * C v))).
    + rewrite lsum_mul_l, lsum_seq. rewrite (sum_single _ u); [rewrite dl_same; ring | lia |]. intros v Hv Hn. unfold dl. rewrite (proj2 (Nat.eqb_neq u v)) by lia. ring.
    + intros v Hv. apply in_seq in Hv. rewrite dl_vidx by (assumption || lia). ring.
Qed.
Lemma ens_gauss A B C D : gaussian4 s K (weight nvar) (emap A) (emap B) (emap C) (emap D).
Proof.
  intros p p' q q' Hp Hp' Hq Hq'. rewrite !emean2 by assumption.
  rewrite (sum_ext _ _ (fun k => weight nvar k * (lsum (map (fun u => lsum (map (fun v => A u * B v * (xval k (vidx p u) * xval k (vidx p' v))) (seq 0 r))) (seq 0 r)) * lsum (map (fun w => lsum (map (fun z => C w * D z * (xval k (vidx q w) * xval k (vidx q' z))) (seq 0 r))) (seq 0 r))))).
  2:{ intros k _. rewrite !pix_emap by assumption. f_equal. f_equal; rewrite prod_lsum; apply lsum_ext; intros u _; apply lsum_ext; intros v _; ring. }
  rewrite (bilinear4 (seq 0 r) K (weight nvar) (fun u v => A u * B v) (fun w z => C w * D z) (fun k u => xval k (vidx p u)) (fun k u => xval k (vidx p' u)) (fun k u => xval k (vidx q u)) (fun k u => xval k (vidx q' u))).
  set (l := seq 0 r). set (a := fun u v => dl (vidx p u) (vidx p' v)). set (b := fun u v => dl (vidx q u) (vidx q' v)). set (c := fun u v => dl (vidx p u) (vidx q v)). set (d := fun u v => dl (vidx p' u) (vidx q' v)). set (e := fun u v => dl (vidx p u) (vidx q' v)). set (f := fun u v => dl (vidx p' u) (vidx q v)).
  transitivity (lsum (map (fun u => lsum (map (fun v => lsum (map (fun w => lsum (map (fun z => (A u * B v * a u v) * (C w * D z * b w z)) l)) l)) l)) l) + lsum (map (fun u => lsum (map (fun v => lsum (map (fun w => lsum (map (fun z => (A u * C w * c u w) * (B v * D z * d v z)) l)) l)) l)) l) + lsum (map (fun u => lsum (map (fun v => lsum (map (fun w => lsum (map (fun z => (A u * D z * e u z) * (B v * C w * f v w)) l)) l)) l)) l)).
  - rewrite <- !lsum_add. apply lsum_ext. intros u Hu. apply in_seq in Hu. rewrite <- !lsum_add. apply lsum_ext. intros v Hv. apply in_seq in Hv. rewrite <- !lsum_add. apply lsum_ext. intros w Hw. apply in_seq in Hw. rewrite <- !lsum_add. apply lsum_ext. intros z Hz. apply in_seq in Hz.
    rewrite (sum_ext _ _ (fun k => weight nvar k * prodl (map (xval k) [vidx p u; vidx p' v; vidx q w; vidx q' z]))) by (intros k _; cbn [map prodl]; ring). fold (moment nvar [vidx p u; vidx p' v; vidx q w; vidx q' z]).
    rewrite (proj2 (proj2 (proj2 (proj2 (moments nvar))))) by (apply vidx_lt; (assumption || lia)). unfold a, b, c, d, e, f. ring.
  - assert (Q : forall (f g : nat -> nat -> F), lsum (map (fun u => lsum (map (fun v => f u v) l)) l) * lsum (map (fun w => lsum (map (fun z => g w z) l)) l) = lsum (map (fun u => lsum (map (fun v => lsum (map (fun w => lsum (map (fun z => f u v * g w z) l)) l)) l)) l)).
    { intros f0 g0. rewrite <- lsum_mul_r. apply lsum_ext. intros u _. rewrite <- lsum_mul_r. apply lsum_ext. intros v _. rewrite <- lsum_mul_l. apply lsum_ext. intros w _. rewrite <- lsum_mul_l. reflexivity. }
    unfold edot. fold l. rewrite !Q. f_equal; [f_equal|].
    + apply lsum_ext. intros u _. apply lsum_swap2.
    + apply lsum_ext. intros u _. symmetry. rewrite lsum_swap2. apply lsum_ext. intros v _. rewrite lsum_swap2. reflexivity.
Qed.
End Maps.
End Wick.
