(** Catalogue fields: noise, scaling, self pairs (C41, C42). *)
From Verif Require Import Base M_Utils L_Utils M_Field L_Field M_Cell L_Cell P_Field5 P_Cell.
Section PCat.
Context {F : ofield}.
Local Open Scope F_scope.
Add Field FfPCat : (fth F).
Notation mat := (list (list F)).
Variables (pi : F) (fsqrt : F -> F).
Variable cat2alm : Z -> Z -> mat -> list F -> list F -> mat.
Notation catalog := (catalog_new pi cat2alm).
Notation clustering := (clustering_new pi cat2alm).

(** spherical harmonics of the position (th, ph): coefficient number i of component e of the response to component c of a source *)
Variable Y : Z -> Z -> nat -> nat -> nat -> F -> F -> F.
(** adjoint synthesis: every source adds its value times the harmonics at its position *)
Definition synthesis : Prop := forall s lmax nc n (vals : mat) th ph, shaped nc n vals -> length th = n -> length ph = n ->
  shaped nc (n_alm lmax) (cat2alm s lmax vals th ph) /\
  forall e i, (e < nc)%nat -> (i < n_alm lmax)%nat -> mg (cat2alm s lmax vals th ph) e i = sum nc (fun c => sum n (fun p => mg vals c p * Y s lmax e c i (nth p th 0) (nth p ph 0))).
(** all coefficients of a source *)
Definition Ys (s lmax : Z) (e c : nat) (th ph : F) : list F := tab (n_alm lmax) (fun i => Y s lmax e c i th ph).
(** power of a pair of sources at l *)
Definition pair (s : Z) (lmax l e c e' c' : nat) (th ph th' ph' : F) : F := spectrum lmax (Ys s (Z.of_nat lmax) e c th ph) (Ys s (Z.of_nat lmax) e' c' th' ph') l.
(** addition theorem at coincident points, for n components *)
Definition addition (s : Z) (n lmax l : nat) : Prop := forall e c e' c' th ph, (e < n)%nat -> (c < n)%nat -> (e' < n)%nat -> (c' < n)%nat ->
  pair s lmax l e c e' c' th ph th ph + pair s lmax l e c' e' c th ph th ph = fofZ 2 * (if (Nat.eqb e e' && Nat.eqb c c')%bool then 1 / (fofZ 4 * pi * fofnat n) else 0).

Lemma sum2_flat n m (g : nat -> nat -> F) : sum n (fun i => sum m (g i)) = sum (n * m) (fun k => g (k / m)%nat (k mod m)%nat).
Proof.
  rewrite (sum_flat n m). apply sum_ext. intros i _. apply sum_ext. intros j Hj. rewrite (Nat.mul_comm m i). f_equal.
  - rewrite Nat.div_add_l by lia. rewrite Nat.div_small by exact Hj. lia.
  - rewrite Nat.add_comm, Nat.mod_add by lia. symmetry. apply Nat.mod_small. exact Hj.
Qed.
Lemma spectrum_lin2_l lmax n m (co : nat -> nat -> F) (xs : nat -> nat -> list F) (a b : list F) l :
  (forall i, nth i a 0 = sum n (fun c => sum m (fun p => co c p * nth i (xs c p) 0))) -> spectrum lmax a b l = sum n (fun c => sum m (fun p => co c p * spectrum lmax (xs c p) b l)).
Proof.
  intro H. rewrite (spectrum_lin_l lmax (n * m) (fun k => co (k / m) (k mod m))%nat (fun k => xs (k / m) (k mod m))%nat).
  - symmetry. apply (sum2_flat n m (fun c p => co c p * spectrum lmax (xs c p) b l)).
  - intro i. rewrite H. apply (sum2_flat n m (fun c p => co c p * nth i (xs c p) 0)).
Qed.
Lemma spectrum_lin2_r lmax n m (co : nat -> nat -> F) (xs : nat -> nat -> list F) (a b : list F) l :
  (forall i, nth i b 0 = sum n (fun c => sum m (fun p => co c p * nth i (xs c p) 0))) -> spectrum lmax a b l = sum n (fun c => sum m (fun p => co c p * spectrum lmax a (xs c p) l)).
Proof. intro H. rewrite spectrum_sym, (spectrum_lin2_l lmax n m co xs b a l H). apply sum_ext. intros c _. apply sum_ext. intros p _. rewrite spectrum_sym. reflexivity. Qed.
(** the rows of a synthesis, coefficient by coefficient, also beyond the end *)
Lemma synth_rows s lmax nc n (vals : mat) th ph e i : synthesis -> shaped nc n vals -> length th = n -> length ph = n -> (e < nc)%nat ->
  nth i (nth e (cat2alm s lmax vals th ph) []) 0 = sum nc (fun c => sum n (fun p => mg vals c p * nth i (Ys s lmax e c (nth p th 0) (nth p ph 0)) 0)).
Proof.
  intros Sy Sv Lt Lp He. destruct (Sy s lmax nc n vals th ph Sv Lt Lp) as [[Lr Fr] E]. destruct (Nat.lt_ge_cases i (n_alm lmax)) as [Hi|Hi].
  - specialize (E e i He Hi). unfold mg at 1 in E. rewrite E. apply sum_ext. intros c _. apply sum_ext. intros p _. unfold Ys. rewrite nth_tab by exact Hi. reflexivity.
  - rewrite nth_overflow by (rewrite (shaped_nth nc (n_alm lmax)) by (try split; auto; lia); exact Hi). symmetry. apply sum_zero. intros c _. apply sum_zero. intros p _. rewrite nth_overflow by (unfold Ys; rewrite length_tab; exact Hi). ring.
Qed.
(** sums over pairs of sources: the pairs of a source with itself give the sum of squares *)
Lemma self_pairs s n N lmax l (x : nat -> nat -> F) (th ph : nat -> F) e e' : addition s n lmax l -> (e < n)%nat -> (e' < n)%nat ->
  sum n (fun c => sum N (fun p => x c p * sum n (fun c' => sum N (fun q => x c' q * pair s lmax l e c e' c' (th p) (ph p) (th q) (ph q))))) =
  sum N (fun p => sum N (fun q => if Nat.eqb p q then 0 else sum n (fun c => sum n (fun c' => x c p * x c' q * pair s lmax l e c e' c' (th p) (ph p) (th q) (ph q))))) +
  (if Nat.eqb e e' then sum n (fun c => sum N (fun p => x c p * x c p)) / (fofZ 4 * pi * fofnat n) else 0).
Proof.
  intros Ad He He'. set (P := fun c c' p q => pair s lmax l e c e' c' (th p) (ph p) (th q) (ph q)).
  transitivity (sum N (fun p => sum N (fun q => sum n (fun c => sum n (fun c' => x c p * x c' q * P c c' p q))))).
  { rewrite sum_swap. apply sum_ext. intros p _. rewrite (sum_ext n _ (fun c => sum N (fun q => sum n (fun c' => x c p * x c' q * P c c' p q)))).
    - rewrite sum_swap. reflexivity.
    - intros c _. rewrite sum_swap, <- sum_mul_l. apply sum_ext. intros q _. rewrite <- sum_mul_l. apply sum_ext. intros c' _. unfold P. ring. }
  rewrite (sum_ext N (fun p => sum N (fun q => sum n _)) (fun p => sum N (fun q => if Nat.eqb p q then 0 else sum n (fun c => sum n (fun c' => x c p * x c' q * P c c' p q))) + sum n (fun c => sum n (fun c' => x c p * x c' p * P c c' p p)))).
  2:{ intros p Hp. set (G := fun q => sum n (fun c => sum n (fun c' => x c p * x c' q * P c c' p q))). change (sum N G = sum N (fun q => if Nat.eqb p q then 0 else G q) + G p). rewrite <- (sum_kron' N p G Hp), <- sum_add. apply sum_ext. intros q _. unfold kron. destruct (Nat.eqb p q); ring. }
  rewrite sum_add. f_equal.
  transitivity (sum N (fun p => if Nat.eqb e e' then sum n (fun c => x c p * x c p) / (fofZ 4 * pi * fofnat n) else 0)).
  - apply sum_ext. intros p _. set (k := 1 / (fofZ 4 * pi * fofnat n)).
    assert (T : fofZ 2 * sum n (fun c => sum n (fun c' => x c p * x c' p * P c c' p p)) = fofZ 2 * (if Nat.eqb e e' then sum n (fun c => x c p * x c p) * k else 0)).
    { transitivity (sum n (fun c => sum n (fun c' => x c p * x c' p * P c c' p p)) + sum n (fun c => sum n (fun c' => x c p * x c' p * P c' c p p))).
      - rewrite (sum_swap n n (fun c c' => x c p * x c' p * P c' c p p)). rewrite (sum_ext n (fun i => sum n (fun j => x j p * x i p * P i j p p)) (fun c => sum n (fun c' => x c p * x c' p * P c c' p p))) by (intros; apply sum_ext; intros; ring). replace (fofZ 2 : F) with (1 + 1 : F) by (rewrite <- fofZ_1, <- fofZ_add; reflexivity). ring.
      - rewrite <- sum_add. destruct (Nat.eqb e e') eqn:Ee.
        + rewrite <- sum_mul_r, <- sum_mul_l. apply sum_ext. intros c Hc. rewrite <- sum_add.
          transitivity (sum n (fun c' => kron c c' * (fofZ 2 * (x c p * x c' p * k)))); [|exact (sum_kron' n c (fun c' => fofZ 2 * (x c p * x c' p * k)) Hc)].
          apply sum_ext. intros c' Hc'. transitivity (x c p * x c' p * (P c c' p p + P c' c p p)); [ring|]. unfold P. rewrite (Ad e c e' c') by assumption. rewrite Ee. cbn [andb]. unfold kron. fold k. destruct (Nat.eqb c c'); ring.
        + rewrite sum_zero; [ring|]. intros c Hc. rewrite <- sum_add. apply sum_zero. intros c' Hc'. transitivity (x c p * x c' p * (P c c' p p + P c' c p p)); [ring|]. unfold P. rewrite (Ad e c e' c') by assumption. rewrite Ee. cbn [andb]. ring. }
    assert (N2 : fofZ 2 <> (0 : F)) by (apply fpos_neq, fofZ_pos; lia).
    assert (T' : sum n (fun c => sum n (fun c' => x c p * x c' p * P c c' p p)) = if Nat.eqb e e' then sum n (fun c => x c p * x c p) * k else 0).
    { set (A := sum n _) in *. set (B := if Nat.eqb e e' then _ else _) in *. transitivity (fofZ 2 * A / fofZ 2); [field; exact N2|]. rewrite T. field. exact N2. }
    rewrite T'. destruct (Nat.eqb e e'); [|reflexivity]. unfold k. rewrite !(Fdiv_def (fth F)). ring.
  - destruct (Nat.eqb e e'); [|apply sum_zero; reflexivity]. rewrite (Fdiv_def (fth F)), (sum_swap n N), <- sum_mul_r. apply sum_ext. intros p _. rewrite (Fdiv_def (fth F)). reflexivity.
Qed.
(** number of components of a field of given spin; the values that enter the transform *)
Definition ncomp (s : Z) : nat := if (s =? 0)%Z then 1 else 2.
Definition value (weighted : bool) (w : list F) (v : mat) (c p : nat) : F := if weighted then mg v c p else mg v c p * nth p w 0.
Lemma positions_len pos w ll th ph : positions_of pi pos w ll = Ok (th, ph) -> length th = length w /\ length ph = length w.
Proof.
  unfold positions_of. destruct pos as [|p0 [|p1 [|? ?]]]; try discriminate 1. destruct (_ && _)%bool eqn:E; [|discriminate 1]. apply andb_true_iff in E as [E0 E1]. apply Nat.eqb_eq in E0, E1.
  destruct ll; destruct (negb _); try discriminate 1; destruct (negb _); try discriminate 1; intro H; injection H as <- <-; rewrite ?map_length; auto.
Qed.
Lemma sumsq_sum (v : list F) : sumsq v = sum (length v) (fun p => nth p v 0 * nth p v 0).
Proof. unfold sumsq. apply (lsum_map_nth (fun x => x * x)). Qed.
Lemma catalog_inv hd pos w v lmax lmaxm spin beam wd ll f : catalog hd pos w (Some v) lmax lmaxm spin beam wd ll = Ok f ->
  exists th ph x, positions_of pi pos w ll = Ok (th, ph) /\ length th = length w /\ length ph = length w /\ shaped (ncomp (g_spin f)) (length w) x /\ shaped (ncomp (g_spin f)) (length w) v /\
    (forall c p, (c < ncomp (g_spin f))%nat -> (p < length w)%nat -> mg x c p = value wd w v c p) /\ g_alm f = Some (cat2alm (g_spin f) lmax x th ph) /\ g_lmax f = lmax /\ g_lmaxm f = opt lmaxm lmax /\
    g_alm_mask f = Some (nth 0 (cat2alm 0 (opt lmaxm lmax) [w] th ph) []) /\ g_nmaps f = Some (Z.of_nat (ncomp (g_spin f))) /\
    g_Nw f = sum (length w) (fun p => nth p w 0 * nth p w 0) / (fofZ 4 * pi) /\
    g_Nf f = sum (ncomp (g_spin f)) (fun c => sum (length w) (fun p => value wd w v c p * value wd w v c p)) / (fofZ 4 * pi * fofnat (ncomp (g_spin f))).
Proof.
  unfold catalog_new. destruct (negb hd); [discriminate 1|]. intro H. apply bind_ok in H as ([th ph] & Ep & H). cbv zeta in H. apply bind_ok in H as (bm & Eb & H). set (s := match spin with Some s => s | None => _ end) in H. fold (ncomp s) in H.
  destruct (_ && _)%bool eqn:Es; [|discriminate H]. apply andb_true_iff in Es as [E1 E2]. apply Nat.eqb_eq in E1. rewrite forallb_forall in E2.
  assert (Sv : shaped (ncomp s) (length w) v). { split; [exact E1|]. apply Forall_forall. intros r Hr. apply Nat.eqb_eq, E2, Hr. }
  set (x := if wd then v else map (fun r => vmul r w) v) in H. injection H as <-. cbn [g_spin g_alm g_lmax g_lmaxm g_alm_mask g_nmaps g_Nw g_Nf].
  destruct (positions_len _ _ _ _ _ Ep) as [Lt Lp]. exists th, ph, x.
  assert (Sx : shaped (ncomp s) (length w) x). { unfold x. destruct wd; [exact Sv|]. eapply shaped_map; [|exact Sv]. intros r Hr. unfold vmul. rewrite length_zipw, Hr. apply Nat.min_id. }
  assert (Ex : forall c p, (c < ncomp s)%nat -> (p < length w)%nat -> mg x c p = value wd w v c p).
  { intros c p Hc Hp. unfold x, value. destruct wd; [reflexivity|]. unfold mg. rewrite (nth_indep _ [] (vmul [] w)) by (rewrite map_length; lia). rewrite (map_nth (fun r => vmul r w)). unfold vmul. apply nth_zipw; [rewrite (shaped_nth (ncomp s) (length w) v c []) by auto; exact Hp | exact Hp]. }
  repeat (split; [assumption || reflexivity|]). split; [rewrite sumsq_sum; reflexivity|]. f_equal. rewrite (lsum_map_nth sumsq x []). destruct Sx as [Lx Fx]. rewrite Lx. apply sum_ext. intros c Hc. rewrite sumsq_sum.
  rewrite (shaped_nth (ncomp s) (length w) x c []) by (try split; auto). apply sum_ext. intros p Hp. specialize (Ex c p Hc Hp). unfold mg in Ex. rewrite Ex. reflexivity.
Qed.

(** *** C41: noise of a catalogue *)
Theorem C41_noise hd pos w v lmax lmaxm spin beam wd ll f : catalog hd pos w (Some v) lmax lmaxm spin beam wd ll = Ok f ->
  g_Nw f = sum (length w) (fun p => nth p w 0 * nth p w 0) / (fofZ 4 * pi) /\
  g_Nf f = sum (ncomp (g_spin f)) (fun c => sum (length w) (fun p => value wd w v c p * value wd w v c p)) / (fofZ 4 * pi * fofnat (ncomp (g_spin f))).
Proof. intro H. apply catalog_inv in H as (th & ph & x & H). decompose [and] H. split; assumption. Qed.

(** *** C42: self pairs *)
Theorem C42_pairs hd pos w v lmax lmaxm spin beam wd ll f C th ph l i j : synthesis -> catalog hd pos w (Some v) (Z.of_nat lmax) lmaxm spin beam wd ll = Ok f -> positions_of pi pos w ll = Ok (th, ph) ->
  compute_coupled_cell true f f = Ok C -> (l <= lmax)%nat -> addition (g_spin f) (ncomp (g_spin f)) lmax l -> (i < ncomp (g_spin f))%nat -> (j < ncomp (g_spin f))%nat ->
  mg C (i * ncomp (g_spin f) + j) l =
  sum (length w) (fun p => sum (length w) (fun q => if Nat.eqb p q then 0 else
    sum (ncomp (g_spin f)) (fun c => sum (ncomp (g_spin f)) (fun c' => value wd w v c p * value wd w v c' q * pair (g_spin f) lmax l i c j c' (nth p th 0) (nth p ph 0) (nth q th 0) (nth q ph 0))))).
Proof.
  intros Sy Hf Ep HC Hl Ad Hi Hj. apply catalog_inv in Hf as (th' & ph' & x & Ep' & Lt & Lp & Sx & Sv & Ex & Ea & El & _ & _ & _ & _ & EN). rewrite Ep in Ep'. injection Ep' as <- <-.
  destruct (Sy (g_spin f) (Z.of_nat lmax) _ _ x th ph Sx Lt Lp) as [[La Fa] _]. pose proof (C43_order _ _ _ _ _ _ _ HC Ea Ea El) as [_ Ho]. rewrite La in Ho. specialize (Ho i j l Hi Hj Hl) as [_ Ho]. unfold mg at 1. rewrite Ho. cbn [andb].
  rewrite (spectrum_lin2_l lmax (ncomp (g_spin f)) (length w) (value wd w v) (fun c p => Ys (g_spin f) (Z.of_nat lmax) i c (nth p th 0) (nth p ph 0))).
  2:{ intro k. rewrite (synth_rows _ _ _ _ _ _ _ _ _ Sy Sx Lt Lp Hi). apply sum_ext. intros c Hc. apply sum_ext. intros p Hp. rewrite Ex by assumption. reflexivity. }
  rewrite (sum_ext (ncomp (g_spin f)) _ (fun c => sum (length w) (fun p => value wd w v c p * sum (ncomp (g_spin f)) (fun c' => sum (length w) (fun q => value wd w v c' q * pair (g_spin f) lmax l i c j c' (nth p th 0) (nth p ph 0) (nth q th 0) (nth q ph 0)))))).
  2:{ intros c Hc. apply sum_ext. intros p Hp. f_equal. apply spectrum_lin2_r. intro k. rewrite (synth_rows _ _ _ _ _ _ _ _ _ Sy Sx Lt Lp Hj). apply sum_ext. intros c' Hc'. apply sum_ext. intros q Hq. rewrite Ex by assumption. reflexivity. }
  rewrite (self_pairs (g_spin f) (ncomp (g_spin f)) (length w) lmax l (value wd w v) (fun p => nth p th 0) (fun p => nth p ph 0) i j Ad Hi Hj). rewrite EN. destruct (Nat.eqb i j); ring.
Qed.
(** below the spin of the field its harmonics vanish, and yet the noise is subtracted *)
Theorem C42_low_multipoles_refuted hd pos w v lmax lmaxm spin beam wd ll f C l i : synthesis -> catalog hd pos w (Some v) (Z.of_nat lmax) lmaxm spin beam wd ll = Ok f ->
  compute_coupled_cell true f f = Ok C -> (l <= lmax)%nat -> (forall e c e' c' th ph th' ph', pair (g_spin f) lmax l e c e' c' th ph th' ph' = 0) -> (i < ncomp (g_spin f))%nat ->
  mg C (i * ncomp (g_spin f) + i) l = - g_Nf f.
Proof.
  intros Sy Hf HC Hl Z0 Hi. apply catalog_inv in Hf as (th & ph & x & Ep & Lt & Lp & Sx & Sv & Ex & Ea & El & _).
  destruct (Sy (g_spin f) (Z.of_nat lmax) _ _ x th ph Sx Lt Lp) as [[La Fa] _]. pose proof (C43_order _ _ _ _ _ _ _ HC Ea Ea El) as [_ Ho]. rewrite La in Ho. specialize (Ho i i l Hi Hi Hl) as [_ Ho]. unfold mg at 1. rewrite Ho. cbn [andb]. rewrite Nat.eqb_refl.
  rewrite (spectrum_lin2_l lmax (ncomp (g_spin f)) (length w) (mg x) (fun c p => Ys (g_spin f) (Z.of_nat lmax) i c (nth p th 0) (nth p ph 0))) by (intro k; apply (synth_rows _ _ _ _ _ _ _ _ _ Sy Sx Lt Lp Hi)).
  rewrite sum_zero; [ring|]. intros c Hc. apply sum_zero. intros p Hp.
  rewrite (spectrum_lin2_r lmax (ncomp (g_spin f)) (length w) (mg x) (fun c p => Ys (g_spin f) (Z.of_nat lmax) i c (nth p th 0) (nth p ph 0))) by (intro k; apply (synth_rows _ _ _ _ _ _ _ _ _ Sy Sx Lt Lp Hi)).
  rewrite sum_zero; [ring|]. intros c' Hc'. apply sum_zero. intros q Hq. unfold pair in Z0. rewrite Z0. ring.
Qed.
(** the noise is subtracted for one object, and for nothing else: a second field made from the same data keeps the self pairs *)
Theorem C42_same_object (f g : gfield F) C C' A lmax : compute_coupled_cell true f f = Ok C -> compute_coupled_cell false f g = Ok C' -> g_alm f = Some A -> g_alm g = Some A -> g_lmax f = Z.of_nat lmax ->
  forall i j l, (i < length A)%nat -> (j < length A)%nat -> (l <= lmax)%nat -> mg C' (i * length A + j) l = mg C (i * length A + j) l + (if Nat.eqb i j then g_Nf f else 0).
Proof.
  intros H H' E E' El i j l Hi Hj Hl. destruct (C43_order _ _ _ _ _ _ _ H E E El) as [_ Ho]. destruct (C43_order _ _ _ _ _ _ _ H' E E' El) as [_ Ho'].
  specialize (Ho i j l Hi Hj Hl) as [_ Ho]. specialize (Ho' i j l Hi Hj Hl) as [_ Ho']. unfold mg. rewrite Ho, Ho'. cbn [andb]. destruct (Nat.eqb i j); ring.
Qed.
(** map-based fields have no noise to subtract *)
Theorem C42_maps (f : nfield F) C C' : compute_coupled_cell true (of_map f) (of_map f) = Ok C -> compute_coupled_cell false (of_map f) (of_map f) = Ok C' -> C' = C.
Proof. unfold compute_coupled_cell. cbn [of_map g_Nf]. rewrite (proj2 (feqb_eq (0 : F) 0) eq_refl). congruence. Qed.
End PCat.
