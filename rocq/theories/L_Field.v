(** Lemmas on deprojection and on the constructor of M_Field.v. *)
From Verif Require Import Base M_Utils L_Utils M_Field.
Section LF.
Context {F : ofield}.
Local Open Scope F_scope.
Add Field FfLFi : (fth F).
Notation mat := (list (list F)).

(** ** Sums *)
Lemma sum_zero_nonneg n (f : nat -> F) : (forall i, (i < n)%nat -> 0 <= f i) -> sum n f = 0 -> forall i, (i < n)%nat -> f i = 0.
Proof.
  induction n as [|n IH]; intros P E i Hi; [lia|]. cbn [sum] in E.
  assert (A : 0 <= sum n f) by (apply sum_nonneg; intros; apply P; lia). assert (B : 0 <= f n) by (apply P; lia).
  assert (B0 : f n = 0). { apply fle_antisym; [|exact B]. rewrite <- E. apply (proj2 (fle_sub_0 _ _)). replace (sum n f + f n - f n) with (sum n f) by ring. exact A. }
  rewrite B0 in E. replace (sum n f + 0) with (sum n f) in E by ring. destruct (Nat.eq_dec i n) as [->|D]; [exact B0|]. apply IH; [intros; apply P; lia | exact E | lia].
Qed.
Lemma sum2_zero_nonneg n m (f : nat -> nat -> F) : (forall i j, (i < n)%nat -> (j < m)%nat -> 0 <= f i j) -> sum n (fun i => sum m (f i)) = 0 -> forall i j, (i < n)%nat -> (j < m)%nat -> f i j = 0.
Proof.
  intros P E i j Hi Hj. assert (E1 : sum m (f i) = 0) by (apply (sum_zero_nonneg n (fun i => sum m (f i))); auto; intros; apply sum_nonneg; auto).
  apply (sum_zero_nonneg m (f i)); auto.
Qed.

(** ** Scalar product of maps *)
Definition ip (nc np : nat) (W : nat -> F) (a b : nat -> nat -> F) : F := sum nc (fun c => sum np (fun p => a c p * b c p * W p)).
Lemma ip_ext nc np W a b a' b' : (forall c p, (c < nc)%nat -> (p < np)%nat -> a c p = a' c p) -> (forall c p, (c < nc)%nat -> (p < np)%nat -> b c p = b' c p) -> ip nc np W a b = ip nc np W a' b'.
Proof. intros Ha Hb. apply sum_ext. intros c Hc. apply sum_ext. intros p Hp. rewrite Ha, Hb by assumption. reflexivity. Qed.
Lemma ip_sym nc np W a b : ip nc np W a b = ip nc np W b a.
Proof. apply sum_ext. intros c _. apply sum_ext. intros p _. ring. Qed.
Lemma ip_sub_r nc np W a b c : ip nc np W a (fun i j => b i j - c i j) = ip nc np W a b - ip nc np W a c.
Proof. unfold ip. rewrite <- sum_sub. apply sum_ext. intros k _. rewrite <- sum_sub. apply sum_ext. intros p _. ring. Qed.
Lemma ip_lin_r nc np W a n (x : nat -> F) (t : nat -> nat -> nat -> F) : ip nc np W a (fun i j => sum n (fun k => x k * t k i j)) = sum n (fun k => x k * ip nc np W a (t k)).
Proof.
  unfold ip. rewrite (sum_ext n (fun k => x k * sum nc _) (fun k => sum nc (fun c => x k * sum np (fun p => a c p * t k c p * W p)))) by (intros; rewrite sum_mul_l; reflexivity).
  rewrite (sum_swap n nc). apply sum_ext. intros c _.
  rewrite (sum_ext n _ (fun k => sum np (fun p => x k * (a c p * t k c p * W p)))) by (intros; rewrite sum_mul_l; reflexivity). rewrite (sum_swap n np). apply sum_ext. intros p _.
  rewrite <- sum_mul_l, <- sum_mul_r. apply sum_ext. intros k _. ring.
Qed.
Lemma ip_lin_l nc np W b n (x : nat -> F) (t : nat -> nat -> nat -> F) : ip nc np W (fun i j => sum n (fun k => x k * t k i j)) b = sum n (fun k => x k * ip nc np W (t k) b).
Proof. rewrite ip_sym, ip_lin_r. apply sum_ext. intros k _. rewrite ip_sym. reflexivity. Qed.
Lemma ip_null nc np W u m : (forall p, (p < np)%nat -> 0 <= W p) -> ip nc np W u u = 0 -> ip nc np W u m = 0.
Proof.
  intros P E. apply sum_zero. intros c Hc. apply sum_zero. intros p Hp.
  assert (Z : u c p * u c p * W p = 0). { apply (sum2_zero_nonneg nc np (fun c p => u c p * u c p * W p)); auto. intros i j _ Hj. apply fmul_nonneg; [apply fsqr_nonneg | apply P, Hj]. }
  apply fmul_eq_0 in Z as [Z|Z]; [apply fmul_eq_0 in Z as [Z|Z]|]; rewrite Z; ring.
Qed.
Lemma ip_null_pos nc np W u : (forall p, (p < np)%nat -> 0 < W p) -> ip nc np W u u = 0 -> forall c p, (c < nc)%nat -> (p < np)%nat -> u c p = 0.
Proof.
  intros P E c p Hc Hp. assert (Z : u c p * u c p * W p = 0). { apply (sum2_zero_nonneg nc np (fun c p => u c p * u c p * W p)); auto. intros i j _ Hj. apply fmul_nonneg; [apply fsqr_nonneg | apply flt_le, P, Hj]. }
  apply fmul_eq_0 in Z as [Z|Z]; [apply fmul_eq_0 in Z as [Z|Z]; exact Z|]. exfalso. apply (fpos_neq (W p)); auto.
Qed.
Definition npix (s : minfo F) : nat := match s with Hpx n _ => Z.to_nat (12 * n * n) | Car ny nx _ _ _ _ => (ny * nx)%nat end.
(** weight of a pixel *)
Definition pw (s : minfo F) (p : nat) : F := match s with Hpx _ w => w | Car ny nx _ _ _ wts => nth (p / nx) wts 0 end.
Lemma times_weight_eq s v r : times_weight s v = Ok r -> length v = npix s -> lsum r = sum (npix s) (fun p => nth p v 0 * pw s p).
Proof.
  destruct s as [n w | ny nx nf f1 f2 wts]; cbn [npix pw]; intros H L.
  - cbn in H. injection H as <-. rewrite (lsum_map_nth _ _ 0), L. reflexivity.
  - destruct (Nat.eq_dec nx 0) as [->|N0].
    + cbn [times_weight] in H. rewrite Nat.mul_0_r in *. destruct (Nat.eqb_spec ny 0); [discriminate H|]. cbv zeta in H. rewrite L in H. rewrite Nat.div_0_l in H by assumption. rewrite Nat.mul_0_r in H. cbn [Nat.eqb negb] in H.
      destruct (Nat.eqb (length wts) ny); [|discriminate H]. cbn [negb] in H. injection H as <-. destruct v; [|discriminate L]. cbn [sum].
      assert (G : forall kk (ws : list F), lsum (concat (zipw (fun r w => map (fun x => x * w) r) (chunks kk 0 []) ws)) = 0).
      { induction kk as [|kk IH]; intros [|x ws]; try reflexivity. cbn [chunks]. rewrite zipw_cons. cbn [concat skipn firstn map app]. apply IH. }
      apply G.
    + rewrite sum_flat.
      cbn [times_weight] in H. destruct (Nat.eqb_spec ny 0) as [Z|Z]; [discriminate H|]. cbv zeta in H. rewrite L in H. rewrite (Nat.mul_comm ny nx), Nat.div_mul, (Nat.mul_comm nx ny), Nat.eqb_refl in H by exact Z. cbn [negb] in H.
      destruct (Nat.eqb_spec (length wts) ny) as [W|W]; [|discriminate H]. cbn [negb] in H. injection H as <-.
      assert (LC : forall l : mat, lsum (concat l) = lsum (map lsum l)) by (induction l as [|a l IH]; [reflexivity|]; cbn [concat map]; rewrite lsum_app, IH; reflexivity).
      rewrite LC. pose proof (chunks_shaped ny nx v L) as Sh. rewrite (lsum_map_nth _ _ []). rewrite length_zipw, W, (proj1 Sh), Nat.min_id. apply sum_ext. intros i Hi.
      rewrite (nth_zipw _ _ _ i [] 0 []) by (rewrite ?W, ?(proj1 Sh); exact Hi). rewrite (lsum_map_nth _ _ 0). rewrite (shaped_nth ny nx _ i [] Sh Hi). apply sum_ext. intros j Hj. rewrite nth_chunks by assumption.
      rewrite (Nat.mul_comm nx i), Nat.div_add_l, Nat.div_small, Nat.add_0_r by assumption. reflexivity.
Qed.
Definition wf_info (s : minfo F) : Prop := match s with Hpx _ _ => True | Car ny nx _ _ _ wts => ny <> 0%nat /\ length wts = ny end.
Lemma times_weight_ok s v : wf_info s -> length v = npix s -> exists r, times_weight s v = Ok r.
Proof.
  destruct s as [n w | ny nx nf f1 f2 wts]; cbn [npix wf_info times_weight]; [eauto|]. intros [Z W] L.
  destruct (Nat.eqb_spec ny 0) as [Z'|_]; [contradiction|]. cbv zeta. rewrite L. rewrite (Nat.mul_comm ny nx), Nat.div_mul, (Nat.mul_comm nx ny), Nat.eqb_refl by exact Z. cbn [negb]. rewrite W, Nat.eqb_refl. cbn [negb]. eexists. reflexivity.
Qed.
Lemma times_weight_wf s v r : times_weight s v = Ok r -> wf_info s.
Proof.
  destruct s as [n w | ny nx nf f1 f2 wts]; cbn [wf_info times_weight]; [auto|]. destruct (Nat.eqb_spec ny 0); [discriminate|]. cbv zeta. destruct (Nat.eqb _ _); [|discriminate]. cbn [negb]. destruct (Nat.eqb_spec (length wts) ny); [auto | discriminate].
Qed.
Lemma dot_map_eq s nc m1 m2 : shaped nc (npix s) m1 -> shaped nc (npix s) m2 -> wf_info s -> dot_map s m1 m2 = Ok (ip nc (npix s) (pw s) (mg m1) (mg m2)).
Proof.
  intros S1 S2 WF. unfold dot_map, ip.
  assert (G : forall nc (m1 m2 : mat), shaped nc (npix s) m1 -> shaped nc (npix s) m2 -> exists r, mapM (times_weight s) (zipw (zipw fmul) m1 m2) = Ok r /\ lsum (map lsum r) = sum nc (fun c => sum (npix s) (fun p => mg m1 c p * mg m2 c p * pw s p))).
  { clear S1 S2 m1 m2 nc. induction nc as [|nc IH]; intros m1 m2 [L1 F1] [L2 F2].
    - destruct m1; [|discriminate L1]. exists []. split; reflexivity.
    - destruct m1 as [|a m1]; [discriminate L1|]. destruct m2 as [|b m2]; [discriminate L2|]. inversion F1; subst. inversion F2; subst. injection L1 as L1. injection L2 as L2.
      destruct (IH m1 m2) as (r & Er & Sr); [split; assumption | split; assumption |].
      destruct (times_weight_ok s (zipw fmul a b) WF) as [x Ex]; [rewrite length_zipw; lia|].
      exists (x :: r). rewrite zipw_cons. cbn [mapM]. rewrite Ex. cbn [bind]. rewrite Er. cbn [bind]. split; [reflexivity|]. cbn [map]. rewrite sum_S_l. cbn [lsum fold_right]. fold (lsum (map lsum r)). rewrite Sr.
      rewrite (times_weight_eq s _ x Ex) by (rewrite length_zipw; lia). f_equal. apply sum_ext. intros p Hp. rewrite (nth_zipw _ a b p 0 0 0) by lia. reflexivity. }
  destruct (G nc m1 m2 S1 S2) as (r & Er & Sr). rewrite Er. cbn [bind]. rewrite Sr. reflexivity.
Qed.
Lemma dot_map_wf s nc np m1 m2 d : shaped (S nc) np m1 -> shaped (S nc) np m2 -> dot_map s m1 m2 = Ok d -> wf_info s.
Proof.
  intros [L1 _] [L2 _] H. destruct m1 as [|a m1]; [discriminate L1|]. destruct m2 as [|b m2]; [discriminate L2|]. unfold dot_map in H. rewrite zipw_cons in H. cbn [mapM] in H.
  apply bind_ok in H as (r & H & _). apply bind_ok in H as (x & H & _). eapply times_weight_wf. exact H.
Qed.

(** ** Linear algebra of the pseudo-inverse *)
(** [w], [v] is an orthonormal eigen-decomposition of [M] *)
Definition eigen (n : nat) (M : mat) (w : list F) (v : mat) : Prop :=
  length w = n /\
  (forall i j, (i < n)%nat -> (j < n)%nat -> sum n (fun k => mg v i k * mg v j k) = kron i j) /\
  (forall i j, (i < n)%nat -> (j < n)%nat -> sum n (fun k => mg v k i * mg v k j) = kron i j) /\
  (forall i j, (i < n)%nat -> (j < n)%nat -> mg M i j = sum n (fun k => mg v i k * nth k w 0 * mg v j k)).
Lemma mg_tab n m (f : nat -> nat -> F) i j : (i < n)%nat -> (j < m)%nat -> mg (tab n (fun i => tab m (f i))) i j = f i j.
Proof. intros Hi Hj. unfold mg. rewrite nth_tab by exact Hi. apply nth_tab. exact Hj. Qed.
Lemma pinv_entry n (v : mat) (wi : list F) i j : length wi = n -> (i < n)%nat -> (j < n)%nat ->
  mg (mmul n v (mmul n (diag wi) (tr n v))) i j = sum n (fun k => mg v i k * nth k wi 0 * mg v j k).
Proof.
  intros L Hi Hj. unfold mmul at 1. rewrite mg_tab by assumption. apply sum_ext. intros k Hk. unfold mmul. rewrite mg_tab by assumption.
  unfold diag. rewrite L. rewrite (sum_ext n _ (fun l => kron l k * (nth k wi 0 * mg v j k))).
  2:{ intros l Hl. rewrite mg_tab by assumption. unfold tr. rewrite mg_tab by assumption. unfold kron. rewrite Nat.eqb_sym. destruct (Nat.eqb_spec l k) as [->|]; ring. }
  rewrite sum_kron by exact Hk. ring.
Qed.
(** what the pseudo-inverse does to the eigenvalues: inverted, or zero where the eigenvalue is zero *)
Definition inverted (n : nat) (w wi : list F) : Prop := length wi = n /\ forall k, (k < n)%nat -> nth k w 0 = 0 \/ nth k w 0 * nth k wi 0 = 1.
Section Proj.
Variables (n nc np : nat) (W : nat -> F) (t : nat -> nat -> nat -> F) (M : mat) (w wi : list F) (v : mat) (P : mat).
Hypothesis EM : forall a b, (a < n)%nat -> (b < n)%nat -> mg M a b = ip nc np W (t b) (t a).
Hypothesis EV : eigen n M w v.
Hypothesis INV : inverted n w wi.
Hypothesis EP : forall a b, (a < n)%nat -> (b < n)%nat -> mg P a b = sum n (fun k => mg v a k * nth k wi 0 * mg v b k).
Notation u k := (fun c p => sum n (fun a => mg v a k * t a c p)).
Lemma vv_cols k l : (k < n)%nat -> (l < n)%nat -> sum n (fun a => mg v a k * mg v a l) = kron k l.
Proof. intros. apply (proj1 (proj2 (proj2 EV))); assumption. Qed.
Lemma u_norm k : (k < n)%nat -> ip nc np W (u k) (u k) = nth k w 0.
Proof.
  intro Hk. rewrite ip_lin_l. rewrite (sum_ext n _ (fun a => mg v a k * sum n (fun b => mg v b k * mg M b a))).
  2:{ intros a Ha. f_equal. rewrite ip_lin_r. apply sum_ext. intros b Hb. rewrite EM by assumption. reflexivity. }
  rewrite (sum_ext n _ (fun a => mg v a k * (nth k w 0 * mg v a k))).
  2:{ intros a Ha. f_equal. rewrite (sum_ext n _ (fun b => sum n (fun l => (mg v b k * mg v b l) * (nth l w 0 * mg v a l)))).
      2:{ intros b Hb. rewrite (proj2 (proj2 (proj2 EV))) by assumption. rewrite <- sum_mul_l. apply sum_ext. intros l _. ring. }
      rewrite sum_swap. rewrite (sum_ext n _ (fun l => kron l k * (nth l w 0 * mg v a l))).
      2:{ intros l Hl. rewrite sum_mul_r. rewrite vv_cols by assumption. unfold kron. rewrite Nat.eqb_sym. reflexivity. }
      exact (sum_kron n k (fun l => nth l w 0 * mg v a l) Hk). }
  rewrite (sum_ext n _ (fun a => nth k w 0 * (mg v a k * mg v a k))) by (intros; ring). rewrite sum_mul_l, vv_cols by assumption. unfold kron. rewrite Nat.eqb_refl. ring.
Qed.
Lemma M_v_kron (x : nat -> F) a : (a < n)%nat -> sum n (fun b => mg M a b * sum n (fun k => mg v b k * x k)) = sum n (fun k => mg v a k * nth k w 0 * x k).
Proof.
  intro Ha. rewrite (sum_ext n _ (fun b => sum n (fun l => sum n (fun k => (mg v b l * mg v b k) * (mg v a l * nth l w 0 * x k))))).
  2:{ intros b Hb. rewrite (proj2 (proj2 (proj2 EV))) by assumption. rewrite <- sum_mul_r. apply sum_ext. intros l _. rewrite <- sum_mul_l. apply sum_ext. intros k _. ring. }
  rewrite sum_swap. apply sum_ext. intros l Hl. rewrite sum_swap. rewrite (sum_ext n _ (fun k => kron l k * (mg v a l * nth l w 0 * x k))).
  2:{ intros k Hk. rewrite sum_mul_r. rewrite vv_cols by assumption. reflexivity. }
  exact (sum_kron' n l (fun k => mg v a l * nth l w 0 * x k) Hl).
Qed.
Lemma P_apply (x : nat -> F) b : (b < n)%nat -> sum n (fun c => mg P b c * x c) = sum n (fun k => mg v b k * (nth k wi 0 * sum n (fun c => mg v c k * x c))).
Proof.
  intro Hb. rewrite (sum_ext n _ (fun c => sum n (fun k => mg v b k * nth k wi 0 * mg v c k * x c))).
  2:{ intros c Hc. rewrite EP by assumption. rewrite <- sum_mul_r. reflexivity. }
  rewrite sum_swap. apply sum_ext. intros k _. rewrite (sum_ext n _ (fun c => (mg v b k * nth k wi 0) * (mg v c k * x c))) by (intros; ring). rewrite sum_mul_l. ring.
Qed.
(** the residual is orthogonal to the templates *)
Lemma residual_zero (m : nat -> nat -> F) a : (forall p, (p < np)%nat -> 0 <= W p) -> (a < n)%nat ->
  ip nc np W (t a) m - sum n (fun b => mg M a b * sum n (fun c => mg P b c * ip nc np W (t c) m)) = 0.
Proof.
  intros WP Ha. set (x := fun c => ip nc np W (t c) m). rewrite (sum_ext n _ (fun b => mg M a b * sum n (fun k => mg v b k * (nth k wi 0 * sum n (fun c => mg v c k * x c))))).
  2:{ intros b Hb. rewrite P_apply by assumption. reflexivity. }
  rewrite M_v_kron by exact Ha.
  rewrite (sum_ext n _ (fun k => mg v a k * sum n (fun c => mg v c k * x c))).
  2:{ intros k Hk. destruct INV as [_ I]. destruct (I k Hk) as [Z|Z].
      - assert (Q : sum n (fun c => mg v c k * x c) = 0).
        { unfold x. rewrite <- ip_lin_l. apply ip_null; [exact WP|]. rewrite u_norm by exact Hk. exact Z. }
        rewrite Q. ring.
      - replace (mg v a k * nth k w 0 * (nth k wi 0 * sum n (fun c => mg v c k * x c))) with (mg v a k * (nth k w 0 * nth k wi 0) * sum n (fun c => mg v c k * x c)) by ring. rewrite Z. ring. }
  rewrite (sum_ext n (fun k => mg v a k * sum n (fun c => mg v c k * x c)) (fun k => sum n (fun c => (mg v a k * mg v c k) * x c))).
  2:{ intros k _. rewrite <- sum_mul_l. apply sum_ext. intros. ring. }
  rewrite sum_swap. rewrite (sum_ext n _ (fun c => kron a c * x c)).
  2:{ intros c Hc. rewrite sum_mul_r. rewrite (proj1 (proj2 EV)) by assumption. reflexivity. }
  rewrite sum_kron' by exact Ha. unfold x. ring.
Qed.
(** the combination of templates that the pseudo-inverse does not reproduce is null *)
Lemma left_over_zero (b : nat -> F) c p : (forall p, (p < np)%nat -> 0 < W p) -> (c < nc)%nat -> (p < np)%nat ->
  sum n (fun k => (b k - sum n (fun i => mg P k i * sum n (fun j => mg M i j * b j))) * t k c p) = 0.
Proof.
  intros WP Hc Hp.
  set (z := fun k => sum n (fun j => mg v j k * b j)). set (d := fun k => b k - sum n (fun i => mg P k i * sum n (fun j => mg M i j * b j))).
  assert (B : forall k, (k < n)%nat -> b k = sum n (fun l => mg v k l * z l)).
  { intros k Hk. unfold z. rewrite (sum_ext n _ (fun l => sum n (fun j => (mg v k l * mg v j l) * b j))) by (intros l _; rewrite <- sum_mul_l; apply sum_ext; intros; ring).
    rewrite sum_swap. rewrite (sum_ext n _ (fun j => kron k j * b j)); [rewrite sum_kron' by exact Hk; reflexivity|]. intros j Hj. rewrite sum_mul_r. rewrite (proj1 (proj2 EV)) by assumption. reflexivity. }
  assert (MB : forall i, (i < n)%nat -> sum n (fun j => mg M i j * b j) = sum n (fun l => mg v i l * nth l w 0 * z l)).
  { intros i Hi. rewrite (sum_ext n _ (fun j => mg M i j * sum n (fun l => mg v j l * z l))) by (intros j Hj; rewrite (B j Hj); reflexivity). apply M_v_kron. exact Hi. }
  assert (D : forall k, (k < n)%nat -> d k = sum n (fun l => mg v k l * ((1 - nth l wi 0 * nth l w 0) * z l))).
  { intros k Hk. unfold d. rewrite P_apply by exact Hk.
    rewrite (sum_ext n (fun k0 => mg v k k0 * _) (fun l => mg v k l * (nth l wi 0 * (nth l w 0 * z l)))).
    2:{ intros l Hl. f_equal. f_equal. rewrite (sum_ext n _ (fun c0 => sum n (fun l' => (mg v c0 l * mg v c0 l') * (nth l' w 0 * z l')))).
        2:{ intros i Hi. rewrite MB by exact Hi. rewrite <- sum_mul_l. apply sum_ext. intros. ring. }
        rewrite sum_swap. rewrite (sum_ext n _ (fun l' => kron l l' * (nth l' w 0 * z l'))); [exact (sum_kron' n l (fun l' => nth l' w 0 * z l') Hl)|].
        intros l' Hl'. rewrite sum_mul_r. rewrite vv_cols by assumption. reflexivity. }
    rewrite (B k Hk). rewrite <- sum_sub. apply sum_ext. intros l _. ring. }
  assert (MD : forall a, (a < n)%nat -> sum n (fun k => mg M a k * d k) = 0).
  { intros a Ha. rewrite (sum_ext n _ (fun k => mg M a k * sum n (fun l => mg v k l * ((1 - nth l wi 0 * nth l w 0) * z l)))) by (intros k Hk; rewrite (D k Hk); reflexivity).
    rewrite M_v_kron by exact Ha. apply sum_zero. intros l Hl. destruct INV as [_ I]. destruct (I l Hl) as [Z|Z]; [rewrite Z; ring|].
    replace (mg v a l * nth l w 0 * ((1 - nth l wi 0 * nth l w 0) * z l)) with (mg v a l * nth l w 0 * ((1 - nth l w 0 * nth l wi 0) * z l)) by ring. rewrite Z. ring. }
  apply (ip_null_pos nc np W (fun c p => sum n (fun k => d k * t k c p))); [exact WP | | exact Hc | exact Hp].
  rewrite ip_lin_l. apply sum_zero. intros a Ha. rewrite ip_lin_r. rewrite (sum_ext n _ (fun k => mg M a k * d k)).
  2:{ intros k Hk. rewrite EM by assumption. rewrite (ip_sym nc np W (t a)). ring. }
  rewrite MD by exact Ha. ring.
Qed.
End Proj.
(** the same two facts for an exact inverse *)
Definition inverse (n : nat) (M P : mat) : Prop :=
  (forall i j, (i < n)%nat -> (j < n)%nat -> sum n (fun k => mg M i k * mg P k j) = kron i j) /\
  (forall i j, (i < n)%nat -> (j < n)%nat -> sum n (fun k => mg P i k * mg M k j) = kron i j).
Lemma mat_assoc n (A B : mat) (x : nat -> F) i : (i < n)%nat -> (forall i j, (i < n)%nat -> (j < n)%nat -> sum n (fun k => mg A i k * mg B k j) = kron i j) -> sum n (fun b => mg A i b * sum n (fun c => mg B b c * x c)) = x i.
Proof.
  intros Hi H. rewrite (sum_ext n _ (fun b => sum n (fun c => (mg A i b * mg B b c) * x c))) by (intros b _; rewrite <- sum_mul_l; apply sum_ext; intros; ring).
  rewrite sum_swap. rewrite (sum_ext n _ (fun c => kron i c * x c)); [apply sum_kron'; exact Hi|]. intros c Hc. rewrite sum_mul_r, H by assumption. reflexivity.
Qed.
End LF.
