(** Lemmas: covariance of the pseudo spectra of masked white polarised maps. *)
From Verif Require Import Base M_Utils M_Bins M_FlatBins M_LinAlg M_Workspace M_Flat M_WspFlat M_Covar M_CovFlat P_FlatBins L_LinAlg L_Flat L_Flat2 L_Flat3 P_Flat L_FITS L_MCM L_WspFlat L_WspFlat2 P_WspFlat L_FlatMean P_FlatMean L_FlatMeanSpin P_FlatMeanSpin L_CovFlat L_CovFlat2 L_CovFlat3.
From Coq Require Import Permutation.
Open Scope nat_scope.

Section LCP.
Context {F : ofield}.
Local Open Scope F_scope.
Add Field FfLCP : (fth F).
Notation mat := (list (list F)).
Notation cplx := (cplx F).
Notation fsinfo := (fsinfo F).
Notation fbins := (fbins F).
Notation cuts := (cuts F).
Notation cfwsp := (cfwsp F).
Notation "'Sg' x 'in' l , e" := (lsum (map (fun x => e) l)) (at level 200, x name, l at level 99, e at level 200, only parsing).

(** ** Covariances of K realisations with weights pr *)
Section Cov.
Variables (K : nat) (pr : nat -> F).
Definition cov (f g : nat -> F) : F := sum K (fun k => pr k * (f k * g k)) - sum K (fun k => pr k * f k) * sum K (fun k => pr k * g k).
Lemma cov_ext f g f' g' : (forall k, (k < K)%nat -> f k = f' k) -> (forall k, (k < K)%nat -> g k = g' k) -> cov f g = cov f' g'.
Proof. intros H1 H2. unfold cov. rewrite (sum_ext K (fun k => pr k * (f k * g k)) (fun k => pr k * (f' k * g' k))) by (intros k Hk; rewrite H1, H2 by exact Hk; reflexivity). rewrite (sum_ext K (fun k => pr k * f k) (fun k => pr k * f' k)) by (intros k Hk; rewrite H1 by exact Hk; reflexivity). rewrite (sum_ext K (fun k => pr k * g k) (fun k => pr k * g' k)) by (intros k Hk; rewrite H2 by exact Hk; reflexivity). reflexivity. Qed.
Lemma cov_sym f g : cov f g = cov g f.
Proof. unfold cov. rewrite (sum_ext _ (fun k => pr k * (f k * g k)) (fun k => pr k * (g k * f k))) by (intros; ring). ring. Qed.
Lemma cov_lsum {A} (l : list A) (a : A -> F) (f : A -> nat -> F) g : cov (fun k => Sg x in l, a x * f x k) g = Sg x in l, a x * cov (f x) g.
Proof.
  unfold cov. rewrite (sum_ext _ _ (fun k => Sg x in l, a x * (pr k * (f x k * g k)))).
  2:{ intros k _. rewrite <- lsum_mul_r, <- lsum_mul_l. apply lsum_ext. intros; ring. }
  rewrite (sum_ext _ (fun k => pr k * lsum _) (fun k => Sg x in l, a x * (pr k * f x k))).
  2:{ intros k _. rewrite <- lsum_mul_l. apply lsum_ext. intros; ring. }
  rewrite <- !lsum_swap. rewrite (lsum_ext _ (fun x => a x * sum K (fun k => pr k * (f x k * g k)))) by (intros; rewrite sum_mul_l; reflexivity).
  rewrite (lsum_ext (fun x => sum K (fun k => a x * (pr k * f x k))) (fun x => a x * sum K (fun k => pr k * f x k))) by (intros; rewrite sum_mul_l; reflexivity).
  set (G := sum K (fun k => pr k * g k)). transitivity (lsum (map (fun x => a x * sum K (fun k => pr k * (f x k * g k))) l) + - G * lsum (map (fun x => a x * sum K (fun k => pr k * f x k)) l)); [ring|]. rewrite <- lsum_mul_l, <- lsum_add. apply lsum_ext. intros; ring.
Qed.
Lemma cov_sum n (a : nat -> F) (f : nat -> nat -> F) g : cov (fun k => sum n (fun x => a x * f x k)) g = sum n (fun x => a x * cov (f x) g).
Proof. rewrite <- lsum_seq. rewrite <- cov_lsum. apply cov_ext; [|reflexivity]. intros k _. rewrite lsum_seq. reflexivity. Qed.
Lemma cov_lsum2 {A B} (l : list A) (l' : list B) (f : A -> nat -> F) (g : B -> nat -> F) : cov (fun k => Sg x in l, f x k) (fun k => Sg y in l', g y k) = Sg x in l, Sg y in l', cov (f x) (g y).
Proof.
  rewrite (cov_ext _ _ (fun k => Sg x in l, 1 * f x k) (fun k => Sg y in l', g y k)) by (intros k _; first [apply lsum_ext; intros; ring | reflexivity]). rewrite cov_lsum. apply lsum_ext. intros x _.
  rewrite cov_sym. rewrite (cov_ext _ _ (fun k => Sg y in l', 1 * g y k) (f x)) by (intros k _; first [apply lsum_ext; intros; ring | reflexivity]). rewrite cov_lsum. transitivity (1 * (Sg y in l', cov (f x) (g y))); [|ring]. f_equal. apply lsum_ext. intros y _. rewrite cov_sym. ring.
Qed.
Lemma cov_scal a b f g : cov (fun k => a * f k) (fun k => b * g k) = a * b * cov f g.
Proof.
  unfold cov. rewrite (sum_ext _ _ (fun k => a * b * (pr k * (f k * g k)))) by (intros; ring). rewrite (sum_ext _ (fun k => pr k * (a * f k)) (fun k => a * (pr k * f k))) by (intros; ring). rewrite (sum_ext _ (fun k => pr k * (b * g k)) (fun k => b * (pr k * g k))) by (intros; ring). rewrite !sum_mul_l. ring.
Qed.
Lemma cov_sum4 n1 n2 n3 n4 (a b c d : nat -> F) (f g : nat -> nat -> nat -> F) :
  cov (fun k => sum n1 (fun x => sum n2 (fun y => a x * b y * f x y k))) (fun k => sum n3 (fun z => sum n4 (fun w => c z * d w * g z w k))) =
  sum n1 (fun x => sum n2 (fun y => sum n3 (fun z => sum n4 (fun w => a x * b y * (c z * d w) * cov (f x y) (g z w))))).
Proof.
  rewrite (cov_ext _ _ (fun k => sum n1 (fun x => a x * sum n2 (fun y => b y * f x y k))) (fun k => sum n3 (fun z => c z * sum n4 (fun w => d w * g z w k)))).
  2:{ intros k _. apply sum_ext. intros x _. rewrite <- sum_mul_l. apply sum_ext. intros; ring. }
  2:{ intros k _. apply sum_ext. intros x _. rewrite <- sum_mul_l. apply sum_ext. intros; ring. }
  rewrite cov_sum. apply sum_ext. intros x _. rewrite cov_sum, <- sum_mul_l. apply sum_ext. intros y _. rewrite cov_sym, cov_sum, <- !sum_mul_l. apply sum_ext. intros z _. rewrite cov_sum, <- !sum_mul_l. apply sum_ext. intros w _. rewrite cov_sym. ring.
Qed.
End Cov.

(** ** Even spins: the phases are real *)
Definition gs (spin : Z) : F := 1.
Definition good_spin (spin : Z) : Prop := spin = 0%Z \/ spin = 2%Z.
Lemma sig_gs s1 s2 : good_spin s1 -> good_spin s2 -> cmul (sig s1 s1) (conjc (sig s2 s2)) = (gs s1 * gs s2, 0 : F).
Proof. intros [-> | ->] [-> | ->]; apply cplx_eq; unfold gs, sig, cmul, conjc, cscal; cbn -[fadd fmul fsub fopp f0 f1]; ring. Qed.
Section M.
Variables (pi : F) (fsqrt : F -> F) (ph : nat -> nat -> cplx) (s : fsinfo).
Notation coeff := (coeff pi ph s).
Notation wave := (wave ph s).
Notation G := (grid s).
Notation N := (norm_m2a pi s).
Notation dm := (dm pi fsqrt s).
Notation bmodes := (bmodes pi fsqrt s).
Notation prodm := (prodm pi ph s).
Notation kern := (kern ph s).
Notation pix_var := (pix_var s).
Notation ampm sp m := (amp sp (rot pi fsqrt s sp m)).
(** product of two coefficients of masked maps *)
Definition ebprod (w1 w2 : list F) (s1 s2 : Z) (q1 q2 : mat) (x y : nat) (m : nat * nat) : F :=
  cdot (full_alm pi fsqrt ph s s1 (map (times_mask w1) q1) x m) (full_alm pi fsqrt ph s s2 (map (times_mask w2) q2) y m).
Lemma ebprod_sum w1 w2 s1 s2 q1 q2 x y m : good_spin s1 -> good_spin s2 -> length q1 = n_maps s1 -> length q2 = n_maps s2 ->
  ebprod w1 w2 s1 s2 q1 q2 x y m = gs s1 * gs s2 * sum (n_maps s1) (fun x' => sum (n_maps s2) (fun y' => ampm s1 m x x' * ampm s2 m y y' * prodm w1 w2 (nth x' q1 []) (nth y' q2 []) m)).
Proof.
  intros G1 G2 L1 L2. unfold ebprod. rewrite full_cdot. rewrite (sig_gs s1 s2 G1 G2). rewrite <- sum_mul_l. apply sum_ext. intros x' Hx. rewrite <- sum_mul_l. apply sum_ext. intros y' Hy.
  rewrite (nth_indep _ [] (times_mask w1 [])) by (rewrite map_length, L1; exact Hx). rewrite (nth_indep (map (times_mask w2) q2) [] (times_mask w2 [])) by (rewrite map_length, L2; exact Hy). rewrite !map_nth. unfold L_CovFlat2.prodm, cdot, cmul. cbn [fst snd]. ring.
Qed.
Section Ens.
Variables (K : nat) (pr : nat -> F) (wa wb wc wd : list F) (sa sb sc sd : Z) (ta tb tc td : nat -> mat) (vac vad vbc vbd : F).
Hypothesis Ga : good_spin sa.
Hypothesis Gb : good_spin sb.
Hypothesis Gc : good_spin sc.
Hypothesis Gd : good_spin sd.
Notation np := (fs_nx s * fs_ny s)%nat.
Hypothesis Hl : forall k, (k < K)%nat -> rect (n_maps sa) np (ta k) /\ rect (n_maps sb) np (tb k) /\ rect (n_maps sc) np (tc k) /\ rect (n_maps sd) np (td k).
Definition comp (t : nat -> mat) (x : nat) (k : nat) : list F := nth x (t k) [].
(** white: every component has the same power, components are not correlated *)
Definition white_pol (s1 s2 : Z) (t1 t2 : nat -> mat) (v : F) : Prop :=
  (s1 <> s2 -> v = 0) /\ forall x y, (x < n_maps s1)%nat -> (y < n_maps s2)%nat -> white2 s K pr (comp t1 x) (comp t2 y) (if Nat.eqb x y then v else 0).
Hypothesis HG : forall x y z w, (x < n_maps sa)%nat -> (y < n_maps sb)%nat -> (z < n_maps sc)%nat -> (w < n_maps sd)%nat -> gaussian4 s K pr (comp ta x) (comp tb y) (comp tc z) (comp td w).
Hypothesis Hac : white_pol sa sc ta tc vac.
Hypothesis Had : white_pol sa sd ta td vad.
Hypothesis Hbc : white_pol sb sc tb tc vbc.
Hypothesis Hbd : white_pol sb sd tb td vbd.
Notation k1 := (kern (map_product s wa wc) (map_product s wb wd)).
Notation k2 := (kern (map_product s wa wd) (map_product s wb wc)).
Lemma rect_nth n p (q : mat) x : rect n p q -> (x < n)%nat -> length (nth x q []) = p.
Proof. intros [L R] H. apply R. apply nth_In. rewrite L. exact H. Qed.
Lemma cov_comp x y z w m1 m2 : (x < n_maps sa)%nat -> (y < n_maps sb)%nat -> (z < n_maps sc)%nat -> (w < n_maps sd)%nat ->
  cov K pr (fun k => prodm wa wb (comp ta x k) (comp tb y k) m1) (fun k => prodm wc wd (comp tc z k) (comp td w k) m2) =
  N * N * (N * N) * ((if Nat.eqb x z then vac else 0) * (if Nat.eqb y w then vbd else 0) * k1 m1 m2 + (if Nat.eqb x w then vad else 0) * (if Nat.eqb y z then vbc else 0) * k2 m1 m2).
Proof.
  intros Hx Hy Hz Hw. unfold cov. rewrite (cov_prodm pi ph s K pr wa wb wc wd (comp ta x) (comp tb y) (comp tc z) (comp td w) (if Nat.eqb x z then vac else 0) (if Nat.eqb x w then vad else 0) (if Nat.eqb y z then vbc else 0) (if Nat.eqb y w then vbd else 0)).
  - set (E1 := sum K _). set (E2 := sum K _). ring.
  - intros k Hk. destruct (Hl k Hk) as [R1 [R2 [R3 R4]]]. unfold comp. repeat split; eapply rect_nth; eassumption.
  - apply HG; assumption.
  - apply Hac; assumption.
  - apply Had; assumption.
  - apply Hbc; assumption.
  - apply Hbd; assumption.
Qed.
(** covariance of products at two modes: the rotations by the difference of the angles *)
Lemma cov_ebprod x y z w m1 m2 :
  cov K pr (fun k => ebprod wa wb sa sb (ta k) (tb k) x y m1) (fun k => ebprod wc wd sc sd (tc k) (td k) z w m2) =
  N * N * (N * N) * (vac * vbd * (dm sa m1 m2 x z * dm sb m1 m2 y w) * k1 m1 m2 + vad * vbc * (dm sa m1 m2 x w * dm sb m1 m2 y z) * k2 m1 m2).
Proof.
  rewrite (cov_ext _ _ _ _ (fun k => gs sa * gs sb * sum (n_maps sa) (fun x' => sum (n_maps sb) (fun y' => ampm sa m1 x x' * ampm sb m1 y y' * prodm wa wb (comp ta x' k) (comp tb y' k) m1)))
      (fun k => gs sc * gs sd * sum (n_maps sc) (fun z' => sum (n_maps sd) (fun w' => ampm sc m2 z z' * ampm sd m2 w w' * prodm wc wd (comp tc z' k) (comp td w' k) m2)))).
  2:{ intros k Hk. destruct (Hl k Hk) as [[R1 _] [[R2 _] _]]. apply ebprod_sum; assumption. }
  2:{ intros k Hk. destruct (Hl k Hk) as [_ [_ [[R1 _] [R2 _]]]]. apply ebprod_sum; assumption. }
  rewrite cov_scal.
  rewrite (cov_sum4 K pr (n_maps sa) (n_maps sb) (n_maps sc) (n_maps sd) (ampm sa m1 x) (ampm sb m1 y) (ampm sc m2 z) (ampm sd m2 w) (fun x' y' k => prodm wa wb (comp ta x' k) (comp tb y' k) m1) (fun z' w' k => prodm wc wd (comp tc z' k) (comp td w' k) m2)).
  set (C := N * N * (N * N)). set (T := sum (n_maps sa) _).
  assert (ET : T = sum (n_maps sa) (fun x' => sum (n_maps sb) (fun y' => sum (n_maps sc) (fun z' => sum (n_maps sd) (fun w' => ampm sa m1 x x' * ampm sb m1 y y' * (ampm sc m2 z z' * ampm sd m2 w w') *
     (C * ((if Nat.eqb x' z' then vac else 0) * (if Nat.eqb y' w' then vbd else 0) * k1 m1 m2 + (if Nat.eqb x' w' then vad else 0) * (if Nat.eqb y' z' then vbc else 0) * k2 m1 m2))))))).
  { unfold T. apply sum_ext. intros x' Hx. apply sum_ext. intros y' Hy. apply sum_ext. intros z' Hz. apply sum_ext. intros w' Hw. rewrite cov_comp by assumption. reflexivity. }
  rewrite ET. clear T ET. clearbody C. generalize (k1 m1 m2) (k2 m1 m2). intros K1 K2. unfold L_FlatMeanSpin.dm, dmat. destruct Hac as [Zac _], Had as [Zad _], Hbc as [Zbc _], Hbd as [Zbd _]. clear - Ga Gb Gc Gd Zac Zad Zbc Zbd.
  set (A1 := fun sp => ampm sp m1). set (A2 := fun sp => ampm sp m2).
  destruct Ga as [-> | ->], Gb as [-> | ->], Gc as [-> | ->], Gd as [-> | ->];
    try (rewrite (Zac ltac:(discriminate)) in *); try (rewrite (Zad ltac:(discriminate)) in *); try (rewrite (Zbc ltac:(discriminate)) in *); try (rewrite (Zbd ltac:(discriminate)) in *);
    change (n_maps 0) with 1%nat; change (n_maps 2) with 2%nat; cbn [sum Nat.eqb]; unfold gs; cbn [Z.eqb]; ring.
Qed.
End Ens.
(** ** Sums over the modes of two bands, with a weight *)
Hypothesis HR : conj_roots ph s.
Hypothesis HH : hom_roots ph s.
Definition true_w (b : fbins) (u v : list F) (D : nat * nat -> nat * nat -> F) (i j : nat) : F := Sg m1 in (bmodes b i), Sg m2 in (bmodes b j), D m1 m2 * true_prod pi ph s u v (diff_mode s m1 m2).
Lemma band_odd_w b i (D : nat * nat -> F) p p' : (forall m, In m (bmodes b i) -> D (flip s m) = D m) -> (Sg m in (bmodes b i), D m * cr ph s m p p') = 0.
Proof.
  intro HD. unfold L_CovFlat.bmodes. rewrite <- lsum_filter. set (S := lsum _). assert (E : S = - S).
  { unfold S at 1. rewrite <- lsum_flip. replace (- S) with ((- (1)) * S) by ring. unfold S. rewrite <- lsum_mul_l. apply lsum_ext. intros m Hm. rewrite (kmod_flip pi fsqrt s m Hm). destruct (inb b i (kmod_of pi fsqrt s m)) eqn:EB; [|ring].
    rewrite HD by (apply filter_In; split; assumption). unfold cr. rewrite !(wave_flip pi fsqrt ph s m) by assumption. cbn [conjc fst snd]. ring. }
  assert (T : fofZ 2 * S = 0). { replace (fofZ 2 * S) with (S + S) by (cbn; ring). rewrite E at 1. ring. }
  assert (Q : (fofZ 2 : F) <> 0) by (apply fofZ_neq0; lia). replace S with (fofZ 2 * S / fofZ 2) by (field; exact Q). rewrite T. field. exact Q.
Qed.
Lemma kern_sum_w b u v D i j : (forall m1 m2, In m1 (bmodes b i) -> In m2 (bmodes b j) -> D (flip s m1) m2 = D m1 m2) ->
  N * N * (Sg m1 in (bmodes b i), Sg m2 in (bmodes b j), D m1 m2 * kern u v m1 m2) = true_w b u v D i j.
Proof.
  intro HD. symmetry. unfold true_w. transitivity (Sg m1 in (bmodes b i), Sg m2 in (bmodes b j), Sg p in G, Sg p' in G, N * N * (pix s u p * pix s v p') * D m1 m2 * (cd ph s m1 p p' * cd ph s m2 p p' + cr ph s m1 p p' * cr ph s m2 p p')).
  - apply lsum_ext. intros m1 H1. apply in_bmodes in H1. apply lsum_ext. intros m2 H2. apply in_bmodes in H2. unfold true_prod. rewrite !coeff_sum, cdot_clsum. rewrite <- lsum_mul_l. apply lsum_ext. intros p Hp. rewrite <- lsum_mul_l. apply lsum_ext. intros p' Hp'.
    rewrite cdot_cscal, !(wave_diff pi fsqrt ph s m1 m2) by assumption. unfold cd, cr, cdot. cbn [cmul conjc fst snd]. ring.
  - rewrite <- lsum_mul_l. transitivity ((Sg m1 in (bmodes b i), N * N * (Sg m2 in (bmodes b j), D m1 m2 * kern u v m1 m2)) + 0); [|ring].
    transitivity ((Sg m1 in (bmodes b i), N * N * (Sg m2 in (bmodes b j), D m1 m2 * kern u v m1 m2)) + (Sg m1 in (bmodes b i), Sg m2 in (bmodes b j), Sg p in G, Sg p' in G, N * N * (pix s u p * pix s v p') * cr ph s m2 p p' * (D m1 m2 * cr ph s m1 p p'))).
    + rewrite <- lsum_add. apply lsum_ext. intros m1 H1. rewrite <- lsum_mul_l, <- lsum_add. apply lsum_ext. intros m2 H2. unfold L_CovFlat2.kern. rewrite <- !lsum_mul_l, <- lsum_add. apply lsum_ext. intros p Hp. rewrite <- !lsum_mul_l, <- lsum_add. apply lsum_ext. intros p' Hp'. ring.
    + f_equal. rewrite lsum_swap2. apply lsum_zero. intros m2 H2. rewrite lsum_swap2. apply lsum_zero. intros p _. rewrite lsum_swap2. apply lsum_zero. intros p' _. rewrite lsum_mul_l, (band_odd_w b i (fun m1 => D m1 m2)) by (intros m1 H1; apply HD; assumption). ring.
Qed.
(** the code's sums are those of the products of the masks if the weight is even under the reflection *)
Variable b : fbins.
Hypothesis HE : forall i m, In m (bmodes b i) -> ~ edge s m.
Definition even_w (D : nat * nat -> nat * nat -> F) (i j : nat) : Prop := forall m1 m2, In m1 (bmodes b i) -> In m2 (bmodes b j) -> D (yflip s m1) (yflip s m2) = D m1 m2.
Definition odd_w (D : nat * nat -> nat * nat -> F) (i j : nat) : Prop := forall m1 m2, In m1 (bmodes b i) -> In m2 (bmodes b j) -> D (yflip s m1) (yflip s m2) = - D m1 m2.
Definition restr (D : nat * nat -> nat * nat -> F) (j : nat) (m1 m2 : nat * nat) : F := if inb b j (kmod_of pi fsqrt s m2) then D m1 m2 else 0.
Lemma nocut_sym : y_symmetric pi s no_cut.
Proof. intros iy Hy. pose proof (no_cut_uncut pi s (0, iy)%nat) as U1. pose proof (no_cut_uncut pi s (0, opp_row (fs_ny s) iy)%nat) as U2. unfold uncut in U1, U2. cbn [fst snd] in U1, U2. apply Bool.andb_true_iff in U1, U2. destruct U1 as [_ U1]. destruct U2 as [_ U2]. apply Bool.negb_true_iff in U1, U2. rewrite U1, U2. reflexivity. Qed.
Lemma bmodes_nocut i : modes pi fsqrt s b no_cut i = bmodes b i.
Proof. unfold modes, L_CovFlat.bmodes. apply filter_ext_in. intros m _. rewrite no_cut_uncut. reflexivity. Qed.
Lemma wsum_band D i j f : wsum pi fsqrt s b no_cut i (restr D j) f = Sg m1 in (bmodes b i), Sg m2 in (bmodes b j), f (diff_mode s m1 m2) * D m1 m2.
Proof.
  unfold wsum. rewrite bmodes_nocut. apply lsum_ext. intros m1 _. unfold L_CovFlat.bmodes at 1. rewrite <- lsum_filter. apply lsum_ext. intros m2 _. unfold restr. destruct (inb b j (kmod_of pi fsqrt s m2)); ring.
Qed.
Lemma code_true_w w1 w2 w3 w4 D i j : even_w D i j -> pair_sum pi fsqrt s b (mask_cl pi ph s w1 w2 w3 w4) D i j = true_w b (map_product s w1 w2) (map_product s w3 w4) D i j.
Proof.
  intro HD. transitivity (wsum pi fsqrt s b no_cut i (restr D j) (code_prod pi ph s (map_product s w1 w2) (map_product s w3 w4))); [rewrite wsum_band; reflexivity|].
  rewrite (wsum_code pi fsqrt ph s b no_cut i (restr D j) _ _ HR nocut_sym).
  - rewrite wsum_band. unfold true_w. apply lsum_ext. intros m1 _. apply lsum_ext. intros m2 _. ring.
  - intros m1 m2 H1 H2. rewrite bmodes_nocut in H1. unfold restr. rewrite (kmod_yflip pi fsqrt s m2 H2). destruct (inb b j (kmod_of pi fsqrt s m2)) eqn:E; [|reflexivity]. apply HD; [exact H1|]. apply filter_In. split; assumption.
Qed.
Lemma true_odd u v D i j : mirror_prod pi ph s u v -> odd_w D i j -> true_w b u v D i j = 0.
Proof.
  intros HM HD. assert (E0 : true_w b u v D i j = wsum pi fsqrt s b no_cut i (restr D j) (true_prod pi ph s u v)). { rewrite wsum_band. unfold true_w. apply lsum_ext. intros m1 _. apply lsum_ext. intros m2 _. ring. }
  rewrite E0. clear E0. pose proof (wsum_yflip_odd pi fsqrt ph s b no_cut i (restr D j) (true_prod pi ph s u v) nocut_sym) as W.
  assert (HT : forall m1 m2, In m1 (modes pi fsqrt s b no_cut i) -> In m2 (grid s) -> restr D j (yflip s m1) (yflip s m2) = - restr D j m1 m2).
  { intros m1 m2 H1 H2. rewrite bmodes_nocut in H1. unfold restr. rewrite (kmod_yflip pi fsqrt s m2 H2). destruct (inb b j (kmod_of pi fsqrt s m2)) eqn:E; [|ring]. apply HD; [exact H1|]. apply filter_In. split; assumption. }
  specialize (W HT). rewrite (wsum_ext pi fsqrt s b no_cut i _ (restr D j) (fun q => true_prod pi ph s u v (yflip s q)) (true_prod pi ph s u v)) in W.
  2:{ intros m1 m2 H1 H2. f_equal. apply HM. apply (in_modes pi fsqrt ph) in H1. apply in_diff; assumption. }
  set (S := wsum _ _ _ _ _ _ _ _) in *. assert (T : fofZ 2 * S = 0). { replace (fofZ 2 * S) with (S + S) by (cbn; ring). rewrite W at 1. ring. }
  assert (Q : (fofZ 2 : F) <> 0) by (apply fofZ_neq0; lia). replace S with (fofZ 2 * S / fofZ 2) by (field; exact Q). rewrite T. field. exact Q.
Qed.
Lemma dm_flip1 sp m1 m2 a c : good_spin sp -> In m1 G -> ~ edge s m1 -> dm sp (flip s m1) m2 a c = dm sp m1 m2 a c.
Proof.
  intros Gs Hm E. assert (H0 : (0 <= sp)%Z) by (destruct Gs; lia). destruct (amp_flip_any pi fsqrt ph s sp m1 H0 Hm E) as [o A]. unfold L_FlatMeanSpin.dm, dmat. apply sum_ext. intros x _. rewrite A by exact H0. assert (P : par sp = 1 :> F) by (destruct Gs as [-> | ->]; reflexivity). rewrite P. destruct o; ring.
Qed.
Definition rotw (s1 s2 : Z) (x z y w : nat) (m1 m2 : nat * nat) : F := dm s1 m1 m2 x z * dm s2 m1 m2 y w.
Lemma edge_row i m : In m (bmodes b i) -> (2 * snd m)%nat <> fs_ny s.
Proof. intros H W. apply (HE i m H). right. exact W. Qed.
Lemma rotw_yflip s1 s2 x z y w i j m1 m2 : In m1 (bmodes b i) -> In m2 (bmodes b j) -> (x < n_maps s1)%nat -> (z < n_maps s1)%nat -> (y < n_maps s2)%nat -> (w < n_maps s2)%nat ->
  rotw s1 s2 x z y w (yflip s m1) (yflip s m2) = (sgn (x + z) : F) * sgn (y + w) * rotw s1 s2 x z y w m1 m2.
Proof.
  intros H1 H2 Hx Hz Hy Hw. pose proof (edge_row i m1 H1) as E1. pose proof (edge_row j m2 H2) as E2. apply in_bmodes in H1, H2. unfold rotw. rewrite !dm_yflip by assumption. ring.
Qed.
(** ** Covariance of the pseudo spectra *)
Variable c : cuts.
Hypothesis Hpi : pi <> 0.
Hypothesis Hlx : 0 < fs_lx s.
Hypothesis Hly : 0 < fs_ly s.
Hypothesis Hcut : forall m, In m (grid s) -> uncut pi s c m = true.
Section Ens2.
Variables (K : nat) (pr : nat -> F) (wa wb wc wd : list F) (sa sb sc sd : Z) (ta tb tc td : nat -> mat) (pac pad pbc pbd : F).
Hypothesis Ga : good_spin sa.
Hypothesis Gb : good_spin sb.
Hypothesis Gc : good_spin sc.
Hypothesis Gd : good_spin sd.
Notation np := (fs_nx s * fs_ny s)%nat.
Hypothesis Hl : forall k, (k < K)%nat -> rect (n_maps sa) np (ta k) /\ rect (n_maps sb) np (tb k) /\ rect (n_maps sc) np (tc k) /\ rect (n_maps sd) np (td k).
Hypothesis HG : forall x y z w, (x < n_maps sa)%nat -> (y < n_maps sb)%nat -> (z < n_maps sc)%nat -> (w < n_maps sd)%nat -> gaussian4 s K pr (comp ta x) (comp tb y) (comp tc z) (comp td w).
Hypothesis Hac : white_pol K pr sa sc ta tc (pix_var pac).
Hypothesis Had : white_pol K pr sa sd ta td (pix_var pad).
Hypothesis Hbc : white_pol K pr sb sc tb tc (pix_var pbc).
Hypothesis Hbd : white_pol K pr sb sd tb td (pix_var pbd).
Notation pseudo_spin := (pseudo_spin pi fsqrt ph s).
Lemma cov_pseudo_pol x y z w i j : (y < n_maps sb)%nat -> (w < n_maps sd)%nat ->
  cov K pr (fun k => pseudo_spin wa wb sa sb b c (ta k) (tb k) (x * n_maps sb + y) i) (fun k => pseudo_spin wc wd sc sd b c (tc k) (td k) (z * n_maps sd + w) j) =
  norm_of pi s (ncell pi fsqrt s b i * ncell pi fsqrt s b j) *
  (true_w b (map_product s wa wc) (map_product s wb wd) (rotw sa sb x z y w) i j * (pac * pbd) + true_w b (map_product s wa wd) (map_product s wb wc) (rotw sa sb x w y z) i j * (pad * pbc)).
Proof.
  intros Hy Hw. assert (FL : forall x z y w m1 m2, In m1 (bmodes b i) -> In m2 (bmodes b j) -> rotw sa sb x z y w (flip s m1) m2 = rotw sa sb x z y w m1 m2).
  { intros x' z' y' w' m1 m2 H1 _. pose proof (HE i m1 H1) as E1. apply in_bmodes in H1. unfold rotw. rewrite !dm_flip1 by assumption. reflexivity. }
  rewrite <- !kern_sum_w by (intros m1 m2 H1 H2; apply FL; assumption). clear FL.
  set (X := fun k m => ebprod wa wb sa sb (ta k) (tb k) x y m). set (Y := fun k m => ebprod wc wd sc sd (tc k) (td k) z w m).
  assert (EM : forall i, modes pi fsqrt s b c i = bmodes b i) by (intro i'; unfold modes, L_CovFlat.bmodes; apply filter_ext_in; intros m Hm; rewrite Hcut by exact Hm; reflexivity).
  assert (EX : forall k, pseudo_spin wa wb sa sb b c (ta k) (tb k) (x * n_maps sb + y) i = average pi s (bmodes b i) (X k)) by (intro k; unfold P_FlatMeanSpin.pseudo_spin; destruct (div_mod_flat (n_maps sb) y x Hy) as [-> ->]; rewrite EM; reflexivity).
  assert (EY : forall k, pseudo_spin wc wd sc sd b c (tc k) (td k) (z * n_maps sd + w) j = average pi s (bmodes b j) (Y k)) by (intro k; unfold P_FlatMeanSpin.pseudo_spin; destruct (div_mod_flat (n_maps sd) w z Hw) as [-> ->]; rewrite EM; reflexivity).
  rewrite (cov_ext K pr _ _ (fun k => average pi s (bmodes b i) (X k)) (fun k => average pi s (bmodes b j) (Y k))) by (intros k _; [apply EX || apply EY]). clear EX EY EM.
  unfold ncell, average. destruct (Nat.eqb_spec (length (bmodes b i)) 0) as [E1|E1].
  { rewrite E1. unfold cov. rewrite !sum_zero by (intros; ring). unfold norm_of. cbn. ring. }
  destruct (Nat.eqb_spec (length (bmodes b j)) 0) as [E2|E2].
  { rewrite E2. cbn [Z.of_nat]. rewrite Z.mul_0_r. unfold cov. rewrite (sum_zero K (fun k => pr k * 0)) by (intros; ring). rewrite sum_zero by (intros; ring). unfold norm_of. cbn. ring. }
  unfold norm_of. replace (0 <? Z.of_nat (length (bmodes b i)) * Z.of_nat (length (bmodes b j)))%Z with true by (symmetry; apply Z.ltb_lt; nia). rewrite fofZ_mul, !fofZ_of_nat.
  assert (NX : fofnat (fs_nx s) <> 0 :> F /\ fofnat (fs_ny s) <> 0 :> F).
  { destruct (bmodes b i) as [|m l] eqn:El; [cbn in E1; congruence|]. assert (Im : In m (bmodes b i)) by (rewrite El; left; reflexivity). apply in_bmodes in Im. apply in_grid in Im. destruct (fs_nx s); [lia|]. destruct (fs_ny s); [lia|]. split; apply fofnat_neq0. }
  destruct NX as [N1 N2]. pose proof (fpos_neq0 _ Hlx) as N3. pose proof (fpos_neq0 _ Hly) as N4.
  assert (N5 : fofnat (length (bmodes b i)) <> 0 :> F) by (destruct (length (bmodes b i)); [congruence | apply fofnat_neq0]). assert (N6 : fofnat (length (bmodes b j)) <> 0 :> F) by (destruct (length (bmodes b j)); [congruence | apply fofnat_neq0]).
  set (zi := fofnat (length (bmodes b i))) in *. set (zj := fofnat (length (bmodes b j))) in *. set (q := fofZ 4 * pi * pi / (fs_lx s * fs_ly s)).
  rewrite (cov_ext K pr _ _ (fun k => q / zi * lsum (map (fun m => X k m) (bmodes b i))) (fun k => q / zj * lsum (map (fun m => Y k m) (bmodes b j)))) by (intros k _; change (fun m => X k m) with (X k); change (fun m => Y k m) with (Y k); field; assumption).
  rewrite cov_scal. rewrite (cov_lsum2 K pr (bmodes b i) (bmodes b j) (fun m k => X k m) (fun m k => Y k m)).
  set (A1 := lsum (map (fun m1 => lsum (map (fun m2 => rotw sa sb x z y w m1 m2 * kern (map_product s wa wc) (map_product s wb wd) m1 m2) (bmodes b j))) (bmodes b i))). set (A2 := lsum (map (fun m1 => lsum (map (fun m2 => rotw sa sb x w y z m1 m2 * kern (map_product s wa wd) (map_product s wb wc) m1 m2) (bmodes b j))) (bmodes b i))).
  assert (EC : (Sg m1 in (bmodes b i), Sg m2 in (bmodes b j), cov K pr (fun k => X k m1) (fun k => Y k m2)) = N * N * (N * N) * (pix_var pac * pix_var pbd) * A1 + N * N * (N * N) * (pix_var pad * pix_var pbc) * A2).
  { unfold A1, A2. rewrite <- !lsum_mul_l, <- lsum_add. apply lsum_ext. intros m1 _. rewrite <- !lsum_mul_l, <- lsum_add. apply lsum_ext. intros m2 _. unfold X, Y.
    rewrite (cov_ebprod K pr wa wb wc wd sa sb sc sd ta tb tc td (pix_var pac) (pix_var pad) (pix_var pbc) (pix_var pbd) Ga Gb Gc Gd Hl HG Hac Had Hbc Hbd x y z w m1 m2). unfold rotw. ring. }
  rewrite EC. clear EC. clearbody A1 A2 zi zj. clear X Y.
  unfold q, norm_m2a, L_CovFlat3.pix_var. assert (N7 : (1 + 1 : F) <> 0) by (apply (fofZ_neq0 2); lia). change (fofZ 2) with (1 + 1 : F). replace (fofZ 4 : F) with ((1 + 1) * (1 + 1) : F) by (cbn; ring).
  clear - N1 N2 N3 N4 N5 N6 N7 Hpi. generalize dependent (fofnat (fs_nx s) : F). intros nx N1. generalize dependent (fofnat (fs_ny s) : F). intros ny N2. field. auto 10.
Qed.
End Ens2.
(** ** The angles of the code *)
Hypothesis HS : sqrt_sign pi fsqrt s.
Lemma angle2_rot m : In m G -> angle2 pi fsqrt s m = rot pi fsqrt s 2 m.
Proof.
  intro Hm. rewrite <- (angle_rot pi fsqrt s 2 m HS Hm). unfold angle2, angle. cbv zeta. destruct (0 <? _); change (Z.to_nat 2) with 2%nat; cbn [rotn]; f_equal; cbn [fofZ]; cbn; ring.
Qed.
Lemma cdiff_dm m1 m2 a : In m1 G -> In m2 G -> (a < 2)%nat -> cdiff pi fsqrt s m1 m2 = dm 2 m1 m2 a a.
Proof.
  intros H1 H2 Ha. unfold cdiff. rewrite !angle2_rot by assumption. pose proof (dm_spin pi fsqrt ph s 2 m1 m2 a a ltac:(lia) Ha Ha) as D. destruct (rot pi fsqrt s 2 m1), (rot pi fsqrt s 2 m2). rewrite D. destruct a as [|[|a]]; try lia; reflexivity.
Qed.
Lemma sdiff_dm m1 m2 : In m1 G -> In m2 G -> dm 2 m1 m2 1 0 = sdiff pi fsqrt s m1 m2 /\ dm 2 m1 m2 0 1 = - sdiff pi fsqrt s m1 m2.
Proof.
  intros H1 H2. unfold sdiff. rewrite !angle2_rot by assumption. pose proof (dm_spin pi fsqrt ph s 2 m1 m2 1 0 ltac:(lia) ltac:(lia) ltac:(lia)) as D. pose proof (dm_spin pi fsqrt ph s 2 m1 m2 0 1 ltac:(lia) ltac:(lia) ltac:(lia)) as D'. destruct (rot pi fsqrt s 2 m1), (rot pi fsqrt s 2 m2). rewrite D, D'. split; reflexivity.
Qed.
End M.
(** ** The code for constant spectra *)
(** spectra of two sets of white maps: constant, equal for all components, no correlation between components *)
Definition const_pol (s1 s2 : Z) (v : F) (n : nat) : mat := tab (n_maps s1 * n_maps s2) (fun r => repeat (if Nat.eqb (r / n_maps s2) (r mod n_maps s2) then v else 0) n).
Lemma const_pol_binned (b : fbins) ells s1 s2 (v : F) : contiguous b -> good_ells ells -> nmt_bin_cls_flat b ells (const_pol s1 s2 v (length ells)) = Ok (const_pol s1 s2 v (n_bands b)).
Proof.
  intros Hc He. unfold const_pol, tab. generalize (seq 0 (n_maps s1 * n_maps s2)). intro l. induction l as [|a l IH]; [reflexivity|]. cbn [map]. set (u := if Nat.eqb (a / n_maps s2) (a mod n_maps s2) then v else 0). unfold nmt_bin_cls_flat in *. cbn [mapM]. pose proof (const_binned b ells u Hc He) as C. unfold nmt_bin_cls_flat in C. cbn [mapM] in C.
  match type of C with bind ?e _ = _ => destruct e as [y|?|]; cbn [bind] in C; try discriminate C end. injection C as ->. cbn [bind]. rewrite IH. reflexivity.
Qed.
Definition dv (a b : nat) (v : F) : F := if Nat.eqb a b then v else 0.
Lemma rd_const_pol s1 s2 (v : F) n a b : (a < n_maps s1)%nat -> (b < n_maps s2)%nat -> rd (const_pol s1 s2 v n) (Z.of_nat (b + n_maps s2 * a)) = Ok (repeat (dv a b v) n).
Proof.
  intros Ha Hb. rewrite (rd_nat _ _ []) by (unfold const_pol; rewrite length_tab; nia). f_equal. unfold const_pol. rewrite nth_tab by nia. replace (b + n_maps s2 * a)%nat with (a * n_maps s2 + b)%nat by lia. destruct (div_mod_flat (n_maps s2) b a Hb) as [-> ->]. reflexivity.
Qed.
Lemma term_pol sa sb sc sd x1 x2 n (pac pad pbc pbd : F) r k ia ib ic id iap ibp icp idp : (r < n)%nat -> (k < n)%nat -> (iap < n_maps sa)%nat -> (ibp < n_maps sb)%nat -> (icp < n_maps sc)%nat -> (idp < n_maps sd)%nat ->
  cov_term (Spins sa sb sc sd) (Cls (const_pol sa sc pac n) (const_pol sa sd pad n) (const_pol sb sc pbc n) (const_pol sb sd pbd n)) x1 x2 ia ib ic id iap ibp icp idp (Z.of_nat r) (Z.of_nat k) =
  Ok (nth (coupling_pair_index (n_maps sa) (n_maps sc) (n_maps sb) (n_maps sd) ia iap ic icp ib ibp id idp) x1 0 * (dv iap icp pac * dv ibp idp pbd) +
      nth (coupling_pair_index (n_maps sa) (n_maps sd) (n_maps sb) (n_maps sc) ia iap id idp ib ibp ic icp) x2 0 * (dv iap idp pad * dv ibp icp pbc)).
Proof.
  intros Hr Hk H1 H2 H3 H4. unfold cov_term. cbn [sp_a sp_b sp_c sp_d cl_ac cl_ad cl_bc cl_bd]. change (@nm) with (@n_maps). rewrite !rd_const_pol by assumption. cbn [bind]. rewrite !entry_rep by assumption. cbn [bind]. assert (N2 : (fofZ 2 : F) <> 0) by (apply fofZ_neq0; lia). f_equal.
  set (X := nth _ x1 0). set (Y := nth _ x2 0). generalize (dv iap icp pac) (dv ibp idp pbd) (dv iap idp pad) (dv ibp icp pbc). intros. cbn in *. field. exact N2.
Qed.
Lemma sumM_ok n (f : nat -> res F) (g : nat -> F) : (forall i, (i < n)%nat -> f i = Ok (g i)) -> sumM n f = Ok (sum n g).
Proof.
  intro H. unfold sumM. assert (G : forall m, (m <= n)%nat -> foldM (fun acc i => do v <- f i; Ok (acc + v)) 0 (seq 0 m) = Ok (sum m g)).
  { induction m as [|m IH]; intro Hm; [reflexivity|]. rewrite seq_S. cbn [Nat.add]. assert (FA : forall l acc a, foldM (fun acc i => do v <- f i; Ok (acc + v)) acc (l ++ [a]) = (do x <- foldM (fun acc i => do v <- f i; Ok (acc + v)) acc l; do v <- f a; Ok (x + v))).
    { induction l as [|b l IHl]; intros acc a; cbn [app foldM bind]; [destruct (f a); reflexivity|]. destruct (f b); cbn [bind]; try reflexivity. apply IHl. }
    rewrite FA, IH by lia. cbn [bind]. rewrite H by lia. cbn [bind sum]. reflexivity. }
  apply G. lia.
Qed.
(** what the code attributes to a pair of rotations *)
Definition xi_code (s1 s2 : Z) (x z y w : nat) (t00 t02 tpp tmm : F) : F :=
  if (s1 =? 0)%Z then if (s2 =? 0)%Z then t00 else if Nat.eqb y w then t02 else 0
  else if (s2 =? 0)%Z then if Nat.eqb x z then t02 else 0
  else if Nat.eqb x z then if Nat.eqb y w then tpp else 0 else if Nat.eqb y w then 0 else if Nat.eqb x y then - (fofZ 4 * tmm) else fofZ 4 * tmm.
Definition xic (cw : cfwsp) (sel : mat * mat -> mat) (s1 s2 : Z) (x z y w i j : nat) : F :=
  xi_code s1 s2 x z y w (entry2 (sel (cf_00 cw)) i j) (entry2 (sel (cf_02 cw)) i j) (entry2 (sel (cf_pp cw)) i j) (entry2 (sel (cf_mm cw)) i j).
Lemma elem_pol (cw : cfwsp) sa sb sc sd n (pac pad pbc pbd : F) x y z w i j : good_spin sa -> good_spin sb -> good_spin sc -> good_spin sd ->
  (sa <> sc -> pac = 0) -> (sa <> sd -> pad = 0) -> (sb <> sc -> pbc = 0) -> (sb <> sd -> pbd = 0) -> (i < n)%nat -> (j < n)%nat ->
  (x < n_maps sa)%nat -> (y < n_maps sb)%nat -> (z < n_maps sc)%nat -> (w < n_maps sd)%nat ->
  fcov_elem cw (Spins sa sb sc sd) (Cls (const_pol sa sc pac n) (const_pol sa sd pad n) (const_pol sb sc pbc n) (const_pol sb sd pbd n)) x y z w i j =
  Ok (xic cw fst sa sb x z y w i j * (pac * pbd) + xic cw snd sa sb x w y z i j * (pad * pbc)).
Proof.
  intros Ga Gb Gc Gd Zac Zad Zbc Zbd Hi Hj Hx Hy Hz Hw. unfold fcov_elem. cbn [sp_a sp_b sp_c sp_d]. change (@nm) with (@n_maps).
  erewrite sumM_ok. 2:{ intros iap H1. apply sumM_ok. intros ibp H2. apply sumM_ok. intros icp H3. apply sumM_ok. intros idp H4. apply term_pol; assumption. }
  f_equal. unfold xic, fxis. generalize (entry2 (fst (cf_00 cw)) i j) (entry2 (fst (cf_02 cw)) i j) (entry2 (fst (cf_pp cw)) i j) (entry2 (fst (cf_mm cw)) i j) (entry2 (snd (cf_00 cw)) i j) (entry2 (snd (cf_02 cw)) i j) (entry2 (snd (cf_pp cw)) i j) (entry2 (snd (cf_mm cw)) i j). intros a0 a2 ap am b0 b2 bp bm. clear Hi Hj cw i j n. assert (E4 : (fofZ 4 : F) = 1 + 1 + 1 + 1) by (cbn; ring).
  destruct Ga as [-> | ->], Gb as [-> | ->], Gc as [-> | ->], Gd as [-> | ->];
    try (rewrite (Zac ltac:(discriminate)) in *); try (rewrite (Zad ltac:(discriminate)) in *); try (rewrite (Zbc ltac:(discriminate)) in *); try (rewrite (Zbd ltac:(discriminate)) in *); clear Zac Zad Zbc Zbd;
    change (n_maps 0) with 1%nat in *; change (n_maps 2) with 2%nat in *; unfold xi_code; rewrite E4; cbn [Z.eqb];
    destruct x as [|[|x]]; try lia; destruct y as [|[|y]]; try lia; destruct z as [|[|z]]; try lia; destruct w as [|[|w]]; try lia;
    unfold coupling_pair_index, coupling_index, covar_indices, IC0, ICP, ICMP, ICMM, ICZ, dv; cbn [sum Nat.eqb Nat.add Nat.mul nth andb orb]; ring.
Qed.
Lemma binned_pol (cw : cfwsp) sa sb sc sd n (pac pad pbc pbd : F) x y z w i j : good_spin sa -> good_spin sb -> good_spin sc -> good_spin sd ->
  (sa <> sc -> pac = 0) -> (sa <> sd -> pad = 0) -> (sb <> sc -> pbc = 0) -> (sb <> sd -> pbd = 0) -> (i < n)%nat -> (j < n)%nat ->
  (x < n_maps sa)%nat -> (y < n_maps sb)%nat -> (z < n_maps sc)%nat -> (w < n_maps sd)%nat ->
  fcov_binned cw (Spins sa sb sc sd) (Cls (const_pol sa sc pac n) (const_pol sa sd pad n) (const_pol sb sc pbc n) (const_pol sb sd pbd n)) (n_maps sa * n_maps sb) (n_maps sc * n_maps sd) (i * (n_maps sa * n_maps sb) + (x * n_maps sb + y)) (j * (n_maps sc * n_maps sd) + (z * n_maps sd + w)) =
  Ok (xic cw fst sa sb x z y w i j * (pac * pbd) + xic cw snd sa sb x w y z i j * (pad * pbc)).
Proof.
  intros Ga Gb Gc Gd Zac Zad Zbc Zbd Hi Hj Hx Hy Hz Hw. unfold fcov_binned. cbv zeta. cbn [sp_b sp_d]. change (@nm) with (@n_maps).
  destruct (div_mod_flat (n_maps sa * n_maps sb) (x * n_maps sb + y) i ltac:(nia)) as [-> ->]. destruct (div_mod_flat (n_maps sc * n_maps sd) (z * n_maps sd + w) j ltac:(nia)) as [-> ->].
  destruct (div_mod_flat (n_maps sb) y x Hy) as [-> ->]. destruct (div_mod_flat (n_maps sd) w z Hw) as [-> ->]. apply elem_pol; assumption.
Qed.
End LCP.
