(** Correctness of the elimination in M_LinAlg.v. *)
From Verif Require Import Base M_LinAlg.
From Coq Require Import Permutation.
Open Scope nat_scope.

Section LinAlgFacts.
Context {F : ofield}.
Local Open Scope F_scope.
Add Field FfLA : (fth F).
Notation mat := (list (list F)).
Notation eqn := (list F * F)%type.

Definition sat (rows : list eqn) (x : list F) : Prop := forall r, In r rows -> dot (fst r) x = snd r.
Definition zeros (n : nat) : list F := repeat 0 n.

Lemma dot_zeros (a : list F) n : dot a (zeros n) = 0.
Proof. revert n. induction a as [|x a IH]; intros [|n]; simpl; try reflexivity. fold (zeros n). rewrite IH. ring. Qed.
Lemma dot_axpy (c : F) a b x : length a = length b -> dot (axpy c a b) x = dot a x - c * dot b x.
Proof.
  revert b x. induction a as [|u a IH]; intros [|v b] [|y x] H; simpl in *; try discriminate; try ring.
  rewrite IH by congruence. ring.
Qed.
Lemma length_axpy (c : F) a b : length a = length b -> length (axpy c a b) = length a.
Proof. revert b. induction a as [|u a IH]; intros [|v b] H; simpl in *; try discriminate; congruence || auto. Qed.
Lemma dot_sum (a b : list F) n : length a = n -> length b = n -> dot a b = sum n (fun i => nth i a 0 * nth i b 0).
Proof.
  revert b n. induction a as [|u a IH]; intros [|v b] n Ha Hb; simpl in *; subst n; try discriminate; [reflexivity|].
  change (u * v + dot a b = sum (S (length a)) (fun i => nth i (u :: a) 0 * nth i (v :: b) 0)). rewrite sum_S_l. simpl.
  f_equal. apply IH; congruence.
Qed.

Lemma fabs_eq0 (x : F) : fabs x = 0 -> x = 0.
Proof. unfold fabs. destruct (0 <=? x); [auto|]. intro H. replace x with (- - x) by ring. rewrite H. ring. Qed.
Lemma fabs_nonneg (x : F) : 0 <= fabs x.
Proof.
  unfold fabs. destruct (0 <=? x) eqn:E; [exact E|]. destruct (fle_total 0 x) as [H|H]; [unfold fle in H; congruence|].
  apply fopp_nonneg. exact H.
Qed.

Lemma pick_some (rows : list eqn) p t : pick rows = Some (p, t) -> Permutation rows (p :: t) /\ lead p <> 0.
Proof.
  revert p t. induction rows as [|r rows IH]; intros p t H; simpl in H; [discriminate|].
  destruct (pick rows) as [[p' t']|] eqn:E.
  - destruct (IH p' t' eq_refl) as [P1 N1]. destruct (fabs (lead p') <=? fabs (lead r)) eqn:L; injection H as <- <-.
    + split; [reflexivity|]. intro Z. apply N1, fabs_eq0, fle_antisym; [|apply fabs_nonneg].
      eapply fle_trans; [exact L|]. rewrite Z. unfold fabs. rewrite (fle_refl 0). apply fle_refl.
    + split; [|exact N1]. rewrite P1. apply perm_swap.
  - destruct (lead r =? 0) eqn:L; [discriminate|]. injection H as <- <-. split; [reflexivity|]. apply feqb_neq. exact L.
Qed.
Lemma pick_none (rows : list eqn) : pick rows = None -> forall r, In r rows -> lead r = 0.
Proof.
  induction rows as [|r rows IH]; simpl; [intros _ r' []|]. intros H r' [<-|Hr]; destruct (pick rows) as [[p' t']|] eqn:E.
  - destruct (fabs (lead p') <=? fabs (lead r)); discriminate.
  - destruct (lead r =? 0) eqn:L; [apply feqb_eq; exact L | discriminate].
  - destruct (fabs (lead p') <=? fabs (lead r)); discriminate.
  - apply IH; auto.
Qed.

Lemma sat_elim (p : eqn) t y0 ys m : length (fst p) = S m -> (forall r, In r t -> length (fst r) = S m) -> lead p <> 0 ->
  (sat (p :: t) (y0 :: ys) <-> y0 = (snd p - dot (tl (fst p)) ys) / lead p /\ sat (map (elim p) t) ys).
Proof.
  intros Hp Ht Hn. destruct p as [[|pa pt] pb]; [discriminate|]. unfold lead in *. cbn [fst snd hd tl] in *.
  assert (E0 : pa * y0 + dot pt ys = pb <-> y0 = (pb - dot pt ys) / pa).
  { split; [intros <-; field; exact Hn | intros ->; field; exact Hn]. }
  split.
  - intro H. assert (H0 : pa * y0 + dot pt ys = pb) by (apply (H (pa :: pt, pb)); left; reflexivity).
    split; [apply E0; exact H0|]. intros r Hr. apply in_map_iff in Hr. destruct Hr as [r' [<- Hr]].
    specialize (Ht r' Hr). destruct r' as [[|ra rt] rb]; [discriminate|]. unfold elim, lead. cbn [fst snd hd tl] in *.
    assert (H1 : ra * y0 + dot rt ys = rb) by (apply (H (ra :: rt, rb)); right; exact Hr).
    rewrite dot_axpy by (simpl in *; congruence). rewrite <- H1, <- H0. field. exact Hn.
  - intros [H0 H] r [<-|Hr]; [apply E0; exact H0|]. specialize (Ht r Hr).
    assert (H1 := H (elim (pa :: pt, pb) r) (in_map _ _ _ Hr)). destruct r as [[|ra rt] rb]; [discriminate|].
    unfold elim, lead in H1. cbn [fst snd hd tl] in *. rewrite dot_axpy in H1 by (simpl in *; congruence). cbn [dot].
    apply E0 in H0. assert (Eb : rb = dot rt ys - ra / pa * dot pt ys + ra / pa * pb) by (rewrite H1; ring).
    rewrite Eb, <- H0. field. exact Hn.
Qed.

Lemma elim_length (p : eqn) t m : length (fst p) = S m -> (forall r, In r t -> length (fst r) = S m) ->
  forall r, In r (map (elim p) t) -> length (fst r) = m.
Proof.
  intros Hp Ht r Hr. apply in_map_iff in Hr. destruct Hr as [r' [<- Hr]]. specialize (Ht r' Hr). unfold elim. cbn [fst].
  destruct p as [[|pa pt] pb]; [discriminate|]. destruct r' as [[|ra rt] rb]; [discriminate|]. cbn [fst tl] in *.
  rewrite length_axpy; simpl in *; congruence.
Qed.
Lemma sat_perm rows rows' x : Permutation rows rows' -> sat rows x -> sat rows' x.
Proof. intros P H r Hr. apply H. eapply Permutation_in; [apply Permutation_sym; exact P | exact Hr]. Qed.

Lemma gauss_some n : forall rows x, length rows = n -> (forall r, In r rows -> length (fst r) = n) ->
  gauss n rows = Some x -> length x = n /\ forall y, length y = n -> (sat rows y <-> y = x).
Proof.
  induction n as [|m IH]; intros rows x HL HR H; cbn [gauss] in H.
  - injection H as <-. split; [reflexivity|]. intros y Hy. destruct y; [|discriminate]. destruct rows; [|discriminate].
    split; [reflexivity|]. intros _ r [].
  - destruct (pick rows) as [[p t]|] eqn:E; [|discriminate]. apply pick_some in E. destruct E as [P N].
    assert (Hp : length (fst p) = S m) by (apply HR; eapply Permutation_in; [apply Permutation_sym; exact P | left; reflexivity]).
    assert (Ht : forall r, In r t -> length (fst r) = S m).
    { intros r Hr. apply HR. eapply Permutation_in; [apply Permutation_sym; exact P | right; exact Hr]. }
    destruct (gauss m (map (elim p) t)) as [xs|] eqn:G; [|discriminate]. injection H as <-.
    destruct (IH (map (elim p) t) xs) as [L1 L2]; [| |exact G|].
    { rewrite map_length. apply Permutation_length in P. simpl in P. lia. }
    { apply elim_length; assumption. }
    split; [simpl; congruence|]. intros y Hy. destruct y as [|y0 ys]; [discriminate|]. injection Hy as Hy.
    rewrite (conj (sat_perm rows (p :: t) (y0 :: ys) P) (sat_perm (p :: t) rows (y0 :: ys) (Permutation_sym P)) : sat rows (y0 :: ys) <-> sat (p :: t) (y0 :: ys)).
    rewrite (sat_elim p t y0 ys m Hp Ht N), (L2 ys Hy). split.
    + intros [E0 ->]. rewrite E0. reflexivity.
    + intro E0. injection E0 as E0 ->. split; [exact E0 | reflexivity].
Qed.

Lemma gauss_none n : forall rows, length rows = n -> (forall r, In r rows -> length (fst r) = n) ->
  gauss n rows = None -> exists y, length y = n /\ y <> zeros n /\ forall r, In r rows -> dot (fst r) y = 0.
Proof.
  induction n as [|m IH]; intros rows HL HR H; cbn [gauss] in H; [discriminate|].
  destruct (pick rows) as [[p t]|] eqn:E.
  - apply pick_some in E. destruct E as [P N].
    assert (Hp : length (fst p) = S m) by (apply HR; eapply Permutation_in; [apply Permutation_sym; exact P | left; reflexivity]).
    assert (Ht : forall r, In r t -> length (fst r) = S m).
    { intros r Hr. apply HR. eapply Permutation_in; [apply Permutation_sym; exact P | right; exact Hr]. }
    destruct (gauss m (map (elim p) t)) as [xs|] eqn:G; [discriminate|].
    destruct (IH (map (elim p) t)) as [ys [Y1 [Y2 Y3]]]; [| |exact G|].
    { rewrite map_length. apply Permutation_length in P. simpl in P. lia. }
    { apply elim_length; assumption. }
    exists ((0 - dot (tl (fst p)) ys) / lead p :: ys). split; [simpl; congruence|]. split.
    { simpl. intro Z. injection Z as _ Z. apply Y2. exact Z. }
    (* the homogeneous system *)
    set (h := fun r : eqn => (fst r, 0 : F)).
    assert (S1 : sat (h p :: map h t) ((0 - dot (tl (fst p)) ys) / lead p :: ys)).
    { apply (sat_elim (h p) (map h t) _ ys m); [exact Hp| |exact N|].
      - intros r Hr. apply in_map_iff in Hr. destruct Hr as [r' [<- Hr]]. apply (Ht r' Hr).
      - split; [reflexivity|]. intros r Hr. apply in_map_iff in Hr. destruct Hr as [r' [<- Hr]].
        apply in_map_iff in Hr. destruct Hr as [r'' [<- Hr]].
        specialize (Y3 (elim p r'') (in_map _ _ _ Hr)). unfold elim, h, lead in *. cbn [fst snd] in *. rewrite Y3. ring. }
    intros r Hr. apply (Permutation_in _ P) in Hr. destruct Hr as [<-|Hr].
    + apply (S1 (h p)). left. reflexivity.
    + apply (S1 (h r)). right. apply in_map. exact Hr.
  - exists (1 :: zeros m). split; [simpl; unfold zeros; rewrite repeat_length; reflexivity|]. split.
    + simpl. intro Z. injection Z as Z. exact (f1_neq_0 Z).
    + intros r Hr. pose proof (pick_none rows E r Hr) as L. specialize (HR r Hr).
      destruct r as [[|ra rt] rb]; [discriminate|]. unfold lead in L. cbn [fst hd] in *. subst ra. simpl. rewrite dot_zeros. ring.
Qed.

(** ** Square matrices *)
Definition square (n : nat) (A : mat) : Prop := length A = n /\ forall r, In r A -> length r = n.
Definition matvec (A : mat) (x : list F) : list F := map (fun r => dot r x) A.
Definition nonsingular (n : nat) (A : mat) : Prop := forall y, length y = n -> matvec A y = zeros n -> y = zeros n.

Lemma square_tab n (f : nat -> nat -> F) : square n (tab n (fun i => tab n (fun j => f i j))).
Proof.
  split; [apply length_tab|]. intros r Hr. unfold tab in Hr. apply in_map_iff in Hr. destruct Hr as [i [<- _]]. apply length_tab.
Qed.
Lemma sat_matvec (A : mat) b y : length A = length b -> (sat (combine A b) y <-> matvec A y = b).
Proof.
  revert b. induction A as [|r A IH]; intros [|c b] H; simpl in *; try discriminate.
  - split; [reflexivity | intros _ r []].
  - injection H as H. specialize (IH b H). split.
    + intro S. unfold matvec. cbn [map]. f_equal; [apply (S (r, c)); left; reflexivity|]. apply IH.
      intros p Hp. apply S. right. exact Hp.
    + intro E. unfold matvec in E. cbn [map] in E. injection E as E1 E2. intros p [<-|Hp]; [exact E1|]. apply IH; assumption.
Qed.
Lemma combine_rows n A (b : list F) : square n A -> forall r, In r (combine A b) -> length (fst r) = n.
Proof. intros [_ H] [r c] Hr. apply in_combine_l in Hr. apply H. exact Hr. Qed.

(** a solution is found exactly when the matrix is non-singular, and then it is the only solution *)
Lemma lu_solve_spec n A b : square n A -> length b = n ->
  match lu_solve A b with
  | Ok x => length x = n /\ matvec A x = b /\ (forall y, length y = n -> matvec A y = b -> y = x) /\ nonsingular n A
  | Exn _ => False
  | UB => ~ nonsingular n A
  end.
Proof.
  intros Hs Hb. unfold lu_solve. destruct (Hs) as [HL HR]. rewrite HL.
  assert (Lc : length (combine A b) = n) by (rewrite combine_length; lia).
  destruct (gauss n (combine A b)) as [x|] eqn:G.
  - destruct (gauss_some n _ x Lc (combine_rows n A b Hs) G) as [L1 L2].
    assert (E : matvec A x = b) by (apply sat_matvec; [congruence|]; apply L2; [exact L1 | reflexivity]).
    split; [exact L1|]. split; [exact E|].
    assert (U : forall y, length y = n -> matvec A y = b -> y = x).
    { intros y Hy Ey. apply L2; [exact Hy|]. apply sat_matvec; [congruence | exact Ey]. }
    split; [exact U|]. intros y Hy Ey.
    (* x + y is another solution *)
    set (z := map (fun p => fst p + snd p) (combine x y)).
    assert (Lz : length z = n) by (unfold z; rewrite map_length, combine_length; lia).
    assert (D : forall a u v : list F, length u = length v -> dot a (map (fun p => fst p + snd p) (combine u v)) = dot a u + dot a v).
    { induction a as [|a0 a IHa]; intros [|u0 u] [|v0 v] Hl; simpl in *; try discriminate; try ring.
      rewrite IHa by congruence. ring. }
    assert (Ez : matvec A z = b).
    { apply (list_eq_nth _ _ 0); [unfold matvec; rewrite map_length; congruence|].
      intros i Hi. unfold matvec in *. rewrite map_length in Hi.
      rewrite (nth_indep _ 0 (dot [] z)) by (rewrite map_length; exact Hi). rewrite (map_nth (fun r => dot r z)).
      unfold z. rewrite D by congruence.
      assert (E1 : dot (nth i A []) x = nth i b 0).
      { rewrite <- E. rewrite (nth_indep (map _ A) 0 (dot [] x)) by (rewrite map_length; exact Hi). rewrite (map_nth (fun r => dot r x)). reflexivity. }
      assert (E2 : dot (nth i A []) y = 0).
      { transitivity (nth i (map (fun r => dot r y) A) 0).
        - rewrite (nth_indep (map _ A) 0 (dot [] y)) by (rewrite map_length; exact Hi). rewrite (map_nth (fun r => dot r y)). reflexivity.
        - rewrite Ey. unfold zeros. apply nth_repeat. }
      rewrite E1, E2. ring. }
    apply U in Ez; [|exact Lz]. clear -Ez Hy L1. subst z. revert y n Hy L1 Ez.
    induction x as [|x0 x IH]; intros [|y0 y] n Hy L1 Ez; simpl in *; subst n; try discriminate; [reflexivity|].
    injection Ez as E1 E2. injection L1 as L1. unfold zeros in *. cbn [repeat].
    assert (E0 : y0 = 0) by (assert (y0 = (x0 + y0) - x0) as -> by ring; rewrite E1; ring).
    rewrite E0. f_equal. apply IH; [reflexivity | congruence | exact E2].
  - destruct (gauss_none n _ Lc (combine_rows n A b Hs) G) as [y [Y1 [Y2 Y3]]]. intro N. apply Y2, N; [exact Y1|].
    apply (list_eq_nth _ _ 0); [unfold matvec, zeros; rewrite map_length, repeat_length; exact HL|].
    intros i Hi. unfold matvec in *. rewrite map_length in Hi. unfold zeros. rewrite nth_repeat.
    rewrite (nth_indep _ 0 (dot [] y)) by (rewrite map_length; exact Hi). rewrite (map_nth (fun r => dot r y)).
    apply (Y3 (nth i A [], nth i b 0)). rewrite <- (combine_nth A b i [] 0) by congruence. apply nth_In. rewrite Lc. lia.
Qed.

Lemma lu_solve_ok n A b : square n A -> length b = n -> nonsingular n A ->
  exists x, lu_solve A b = Ok x /\ length x = n /\ matvec A x = b.
Proof.
  intros Hs Hb N. pose proof (lu_solve_spec n A b Hs Hb) as S. destruct (lu_solve A b) as [x|e|]; [|destruct S|contradiction].
  exists x. intuition.
Qed.
Lemma lu_solve_unique n A b x : square n A -> length b = n -> nonsingular n A -> length x = n -> matvec A x = b ->
  lu_solve A b = Ok x.
Proof.
  intros Hs Hb N Hx E. pose proof (lu_solve_spec n A b Hs Hb) as S. destruct (lu_solve A b) as [x'|e|]; [|destruct S|contradiction].
  f_equal. symmetry. apply S; assumption.
Qed.

Lemma length_matvec A x : length (matvec A x) = length A.
Proof. apply map_length. Qed.
Lemma nth_matvec n A x i : square n A -> length x = n -> (i < n)%nat ->
  nth i (matvec A x) 0 = sum n (fun j => entry2 A i j * nth j x 0).
Proof.
  intros [HL HR] Hx Hi. unfold matvec. rewrite (nth_indep _ 0 (dot [] x)) by (rewrite map_length; lia).
  rewrite (map_nth (fun r => dot r x)). apply dot_sum; [|exact Hx]. apply HR, nth_In. lia.
Qed.
Lemma matvec_eq n A x b : square n A -> length x = n -> length b = n ->
  (forall i, (i < n)%nat -> sum n (fun j => entry2 A i j * nth j x 0) = nth i b 0) -> matvec A x = b.
Proof.
  intros Hs Hx Hb H. apply (list_eq_nth _ _ 0); [rewrite length_matvec; destruct Hs; congruence|].
  intros i Hi. rewrite length_matvec in Hi. destruct (Hs) as [HL _]. rewrite (nth_matvec n) by (try assumption; lia). apply H. lia.
Qed.
(** same matrix, pointwise criterion *)
Lemma lu_solve_iff n A b x : square n A -> length b = n -> lu_solve A b = Ok x <->
  nonsingular n A /\ length x = n /\ matvec A x = b.
Proof.
  intros Hs Hb. split.
  - intro E. pose proof (lu_solve_spec n A b Hs Hb) as S. rewrite E in S. tauto.
  - intros [N [Hx E]]. apply (lu_solve_unique n); assumption.
Qed.

Lemma length_unit_vec n j : length (unit_vec n j : list F) = n.
Proof. apply length_tab. Qed.

(** the inverse: A^-1 v is the solution for v *)
Lemma lu_invert_spec n A : square n A ->
  match lu_invert A with
  | Ok B => square n B /\ nonsingular n A /\
      (forall v, length v = n -> lu_solve A v = Ok (matvec B v))
  | Exn _ => False
  | UB => (0 < n)%nat /\ ~ nonsingular n A
  end.
Proof.
  intros Hs. unfold lu_invert. destruct (Hs) as [HL HR]. rewrite HL.
  assert (Dec : (exists cols, mapM (fun j => lu_solve A (unit_vec n j)) (seq 0 n) = Ok cols /\
      forall j, (j < n)%nat -> lu_solve A (unit_vec n j) = Ok (nth j cols [])) \/
      (mapM (fun j => lu_solve A (unit_vec n j)) (seq 0 n) = UB /\ (0 < n)%nat /\ ~ nonsingular n A)).
  { destruct (Nat.eq_dec n 0) as [->|Hn]; [left; exists []; split; [reflexivity | intros; lia]|].
    pose proof (lu_solve_spec n A (unit_vec n 0) Hs (length_unit_vec n 0)) as S0.
    destruct (lu_solve A (unit_vec n 0)) as [x0|e|] eqn:E0; [|destruct S0|].
    - left. assert (N : nonsingular n A) by tauto.
      exists (map (fun j => match lu_solve A (unit_vec n j) with Ok x => x | _ => [] end) (seq 0 n)). split.
      + apply mapM_ok. intros j _. destruct (lu_solve_ok n A (unit_vec n j) Hs (length_unit_vec n j) N) as [x [-> _]]. reflexivity.
      + intros j Hj. fold (tab n (fun j => match lu_solve A (unit_vec n j) with Ok x => x | _ => [] end)).
        rewrite nth_tab by exact Hj. destruct (lu_solve_ok n A (unit_vec n j) Hs (length_unit_vec n j) N) as [x [-> _]]. reflexivity.
    - right. split; [|split; [lia | exact S0]]. destruct n as [|m]; [lia|]. cbn [seq mapM]. rewrite E0. reflexivity. }
  destruct Dec as [[cols [-> Hc]]|[-> [Hn Hns]]]; cbn [bind]; [|split; assumption].
  split; [apply square_tab|].
  assert (N : nonsingular n A).
  { destruct (Nat.eq_dec n 0) as [->|Hn].
    - intros y Hy _. destruct y; [reflexivity | discriminate].
    - pose proof (lu_solve_spec n A (unit_vec n 0) Hs (length_unit_vec n 0)) as S0. rewrite (Hc 0%nat) in S0 by lia. tauto. }
  split; [exact N|]. intros v Hv. set (B := tab n (fun i => tab n (fun j => nth i (nth j cols []) 0))).
  assert (HB : square n B) by apply square_tab.
  apply (lu_solve_unique n); try assumption; [rewrite length_matvec; apply length_tab|].
  apply (matvec_eq n); [exact Hs | rewrite length_matvec; apply length_tab | exact Hv|].
  intros i Hi.
  transitivity (sum n (fun j => sum n (fun k => entry2 A i j * entry2 B j k * nth k v 0))).
  { apply sum_ext. intros j Hj. rewrite (nth_matvec n) by assumption. rewrite <- sum_mul_l. apply sum_ext. intros. ring. }
  rewrite sum_swap.
  transitivity (sum n (fun k => kron i k * nth k v 0)); [|apply (sum_kron' n i (fun k => nth k v 0)); exact Hi].
  apply sum_ext. intros k Hk. rewrite sum_mul_r. f_equal.
  pose proof (lu_solve_spec n A (unit_vec n k) Hs (length_unit_vec n k)) as Sk. rewrite (Hc k Hk) in Sk.
  destruct Sk as [Lk [Ek _]]. apply (f_equal (fun l => nth i l 0)) in Ek. rewrite (nth_matvec n) in Ek by assumption.
  unfold unit_vec in Ek. rewrite nth_tab in Ek by exact Hi. rewrite <- Ek. apply sum_ext. intros j Hj.
  f_equal. unfold B, entry2. rewrite nth_tab by exact Hj. rewrite nth_tab by exact Hk. reflexivity.
Qed.

Lemma nonsingular_of_inverse n A (B : mat) : square n A -> square n B ->
  (forall i j, (i < n)%nat -> (j < n)%nat -> sum n (fun k => entry2 B i k * entry2 A k j) = kron i j) -> nonsingular n A.
Proof.
  intros Hs HB H y Hy E. apply (list_eq_nth _ _ 0); [unfold zeros; rewrite repeat_length; exact Hy|].
  intros i Hi. rewrite Hy in Hi. unfold zeros. rewrite nth_repeat.
  rewrite <- (sum_kron' n i (fun j => nth j y 0) Hi).
  rewrite (sum_ext n _ (fun j => sum n (fun k => entry2 B i k * entry2 A k j * nth j y 0))).
  2:{ intros j Hj. rewrite sum_mul_r, H by assumption. reflexivity. }
  rewrite sum_swap. apply sum_zero. intros k Hk.
  rewrite (sum_ext n _ (fun j => entry2 B i k * (entry2 A k j * nth j y 0))) by (intros; ring). rewrite sum_mul_l.
  rewrite <- (nth_matvec n A y k Hs Hy Hk), E. unfold zeros. rewrite nth_repeat. ring.
Qed.
End LinAlgFacts.
