(** Results, arrays and finite sums shared by all models. *)
From Coq Require Export String.
From Verif Require Export Field.
Open Scope nat_scope.
Open Scope list_scope.

(** ** Results of API calls
    [Exn k]: a Python exception (class name in [k]) or a C error turned into
    one by SWIG.  [UB]: the C code reads or writes memory it does not own or
    has not initialised, or dereferences NULL. *)
Inductive exn := ValueError | RuntimeError | IndexError | TypeError | AttributeError
               | NotImplementedError | ZeroDivisionError | KeyError.
Inductive res (A : Type) := Ok (a : A) | Exn (e : exn) | UB.
Arguments Ok {A}. Arguments Exn {A}. Arguments UB {A}.

Definition bind {A B} (x : res A) (k : A -> res B) : res B :=
  match x with Ok a => k a | Exn e => Exn e | UB => UB end.
Notation "'do' x <- e ; k" := (bind e (fun x => k))
  (at level 200, x pattern, e at level 100, k at level 200, right associativity).
Definition guard (b : bool) (e : exn) : res unit := if b then Ok tt else Exn e.

Fixpoint mapM {A B} (f : A -> res B) (l : list A) : res (list B) :=
  match l with
  | [] => Ok []
  | a :: t => do b <- f a; do u <- mapM f t; Ok (b :: u)
  end.
Fixpoint foldM {A S} (f : S -> A -> res S) (s : S) (l : list A) : res S :=
  match l with [] => Ok s | a :: t => do s' <- f s a; foldM f s' t end.

(** ** C arrays: reads and writes outside the allocation are [UB] *)
Definition rd {A} (l : list A) (i : Z) : res A :=
  if (0 <=? i)%Z then match nth_error l (Z.to_nat i) with Some a => Ok a | None => UB end
  else UB.
Fixpoint upd {A} (l : list A) (n : nat) (v : A) : list A :=
  match l, n with
  | [], _ => []
  | _ :: t, O => v :: t
  | a :: t, S m => a :: upd t m v
  end.
Definition wr {A} (l : list A) (i : Z) (v : A) : res (list A) :=
  if ((0 <=? i) && (i <? Z.of_nat (length l)))%Z then Ok (upd l (Z.to_nat i) v) else UB.

(** ** Tabulation *)
Definition tab {A} (n : nat) (f : nat -> A) : list A := map f (seq 0 n).

(** ** Sums *)
Section Sums.
Context {F : ofield}.
Local Open Scope F_scope.
(** [sum n f] = f 0 + ... + f (n-1) *)
Fixpoint sum (n : nat) (f : nat -> F) : F :=
  match n with O => 0 | S m => sum m f + f m end.
Definition lsum (l : list F) : F := fold_right fadd 0 l.
Definition kron (i j : nat) : F := if Nat.eqb i j then 1 else 0.
End Sums.

(** ** Facts *)
Lemma bind_ok {A B} (x : res A) (k : A -> res B) b :
  bind x k = Ok b -> exists a, x = Ok a /\ k a = Ok b.
Proof. destruct x; simpl; intro H; try discriminate. eauto. Qed.

Lemma ex_ok {A} (x : res A) (P : A -> Prop) :
  match x with Ok a => P a | _ => False end -> exists a, x = Ok a /\ P a.
Proof. destruct x; intro H; try contradiction. eauto. Qed.

Lemma guard_ok b e : guard b e = Ok tt <-> b = true.
Proof. unfold guard. destruct b; split; congruence. Qed.

Lemma length_tab {A} n (f : nat -> A) : length (tab n f) = n.
Proof. unfold tab. rewrite map_length, seq_length. reflexivity. Qed.
Lemma nth_tab {A} n (f : nat -> A) i d : (i < n)%nat -> nth i (tab n f) d = f i.
Proof.
  intro H. unfold tab. rewrite nth_indep with (d' := f 0%nat) by (rewrite map_length, seq_length; exact H).
  rewrite map_nth, seq_nth by exact H. reflexivity.
Qed.
Lemma nth_error_tab {A} n (f : nat -> A) i : (i < n)%nat -> nth_error (tab n f) i = Some (f i).
Proof.
  intro H. rewrite nth_error_nth' with (d := f 0%nat) by (rewrite length_tab; exact H).
  rewrite nth_tab by exact H. reflexivity.
Qed.
Lemma tab_ext {A} n (f g : nat -> A) : (forall i, (i < n)%nat -> f i = g i) -> tab n f = tab n g.
Proof. intro H. unfold tab. apply map_ext_in. intros i Hi. apply H. apply in_seq in Hi. lia. Qed.
Lemma tab_S {A} n (f : nat -> A) : tab (S n) f = tab n f ++ [f n].
Proof. unfold tab. rewrite seq_S, map_app. reflexivity. Qed.
Lemma tab_cons {A} n (f : nat -> A) : tab (S n) f = f 0 :: tab n (fun i => f (S i)).
Proof. unfold tab. cbn. f_equal. rewrite <- seq_shift, map_map. reflexivity. Qed.
Lemma map_tab {A B} n (f : nat -> A) (g : A -> B) : map g (tab n f) = tab n (fun i => g (f i)).
Proof. unfold tab. apply map_map. Qed.
Lemma list_tab {A} (l : list A) d : l = tab (length l) (fun i => nth i l d).
Proof.
  induction l as [|a l IH]; [reflexivity|].
  cbn [length]. rewrite tab_cons. cbn. f_equal. exact IH.
Qed.
Lemma list_eq_nth {A} (l1 l2 : list A) d :
  length l1 = length l2 -> (forall i, (i < length l1)%nat -> nth i l1 d = nth i l2 d) -> l1 = l2.
Proof. intros HL H. eapply nth_ext; [exact HL | exact H]. Qed.

Lemma length_upd {A} (l : list A) n v : length (upd l n v) = length l.
Proof. revert n. induction l; intros [|n]; simpl; auto. Qed.
Lemma nth_error_upd_eq {A} (l : list A) n v : (n < length l)%nat -> nth_error (upd l n v) n = Some v.
Proof. revert n. induction l as [|a l IH]; intros [|n] H; simpl in *; try lia; [reflexivity | apply IH; lia]. Qed.
Lemma nth_error_upd_neq {A} (l : list A) n m v : n <> m -> nth_error (upd l n v) m = nth_error l m.
Proof. revert n m. induction l as [|a l IH]; intros [|n] [|m] H; simpl; try congruence; auto. Qed.
Lemma nth_upd {A} (l : list A) n m v d :
  (n < length l)%nat -> nth m (upd l n v) d = if Nat.eqb m n then v else nth m l d.
Proof.
  revert n m. induction l as [|a l IH]; intros [|n] [|m] H; simpl in *; try lia; auto.
  apply IH. lia.
Qed.
Lemma rd_ok {A} (l : list A) i a : rd l i = Ok a <-> (0 <= i)%Z /\ nth_error l (Z.to_nat i) = Some a.
Proof.
  unfold rd. destruct (Z.leb_spec 0 i); [|split; [discriminate | lia]].
  destruct (nth_error l (Z.to_nat i)); split; intro H'; try discriminate; try (destruct H'; congruence).
  injection H' as <-. split; [exact H | reflexivity].
Qed.
Lemma rd_nth {A} (l : list A) i d : (0 <= i < Z.of_nat (length l))%Z -> rd l i = Ok (nth (Z.to_nat i) l d).
Proof.
  intro H. apply rd_ok. split; [lia|]. apply nth_error_nth'. lia.
Qed.
Lemma rd_nat {A} (l : list A) n d : (n < length l)%nat -> rd l (Z.of_nat n) = Ok (nth n l d).
Proof. intro H. rewrite (rd_nth _ _ d) by lia. rewrite Nat2Z.id. reflexivity. Qed.
Lemma rd_ub {A} (l : list A) i : ~ (0 <= i < Z.of_nat (length l))%Z -> rd l i = UB.
Proof.
  intro H. unfold rd. destruct (Z.leb_spec 0 i); [|reflexivity].
  destruct (nth_error l (Z.to_nat i)) eqn:E; [|reflexivity].
  exfalso. apply H. split; [lia|]. assert (nth_error l (Z.to_nat i) <> None) as N by congruence.
  apply nth_error_Some in N. lia.
Qed.
Lemma mapM_ok {A B} (f : A -> res B) (g : A -> B) l :
  (forall a, In a l -> f a = Ok (g a)) -> mapM f l = Ok (map g l).
Proof.
  induction l as [|a l IH]; intro H; [reflexivity|]. simpl.
  rewrite H by (left; reflexivity). simpl. rewrite IH by (intros; apply H; right; assumption). reflexivity.
Qed.
Lemma mapM_length {A B} (f : A -> res B) l r : mapM f l = Ok r -> length r = length l.
Proof.
  revert r. induction l as [|a l IH]; simpl; intros r H; [injection H as <-; reflexivity|].
  apply bind_ok in H. destruct H as [b [_ H]]. apply bind_ok in H. destruct H as [u [H1 H2]].
  injection H2 as <-. simpl. f_equal. apply IH. exact H1.
Qed.

Section SumFacts.
Context {F : ofield}.
Local Open Scope F_scope.
Add Field Ffs : (fth F).

Lemma sum_ext n (f g : nat -> F) : (forall i, (i < n)%nat -> f i = g i) -> sum n f = sum n g.
Proof. intro H. induction n as [|n IH]; [reflexivity|]. simpl. rewrite IH, H by (auto with arith). reflexivity. Qed.
Lemma sum_zero n (f : nat -> F) : (forall i, (i < n)%nat -> f i = 0) -> sum n f = 0.
Proof. intro H. induction n as [|n IH]; [reflexivity|]. simpl. rewrite IH, H by auto with arith. ring. Qed.
Lemma sum_add n (f g : nat -> F) : sum n (fun i => f i + g i) = sum n f + sum n g.
Proof. induction n as [|n IH]; simpl; [ring | rewrite IH; ring]. Qed.
Lemma sum_sub n (f g : nat -> F) : sum n (fun i => f i - g i) = sum n f - sum n g.
Proof. induction n as [|n IH]; simpl; [ring | rewrite IH; ring]. Qed.
Lemma sum_opp n (f : nat -> F) : sum n (fun i => - f i) = - sum n f.
Proof. induction n as [|n IH]; simpl; [ring | rewrite IH; ring]. Qed.
Lemma sum_mul_l n c (f : nat -> F) : sum n (fun i => c * f i) = c * sum n f.
Proof. induction n as [|n IH]; simpl; [ring | rewrite IH; ring]. Qed.
Lemma sum_mul_r n c (f : nat -> F) : sum n (fun i => f i * c) = sum n f * c.
Proof. induction n as [|n IH]; simpl; [ring | rewrite IH; ring]. Qed.
Lemma sum_swap n m (f : nat -> nat -> F) :
  sum n (fun i => sum m (fun j => f i j)) = sum m (fun j => sum n (fun i => f i j)).
Proof.
  induction n as [|n IH]; simpl; [symmetry; apply sum_zero; reflexivity|].
  rewrite IH, <- sum_add. reflexivity.
Qed.
Lemma sum_kron n k (f : nat -> F) : (k < n)%nat -> sum n (fun i => kron i k * f i) = f k.
Proof.
  intro H. induction n as [|n IH]; [lia|]. simpl. unfold kron at 2.
  destruct (Nat.eqb_spec n k) as [->|N].
  - rewrite sum_zero; [ring|]. intros i Hi. unfold kron. destruct (Nat.eqb_spec i k); [lia | ring].
  - rewrite IH by lia. ring.
Qed.
Lemma sum_kron' n k (f : nat -> F) : (k < n)%nat -> sum n (fun i => kron k i * f i) = f k.
Proof.
  intro H. rewrite <- (sum_kron n k f) by exact H. apply sum_ext. intros i _. unfold kron.
  rewrite Nat.eqb_sym. reflexivity.
Qed.
Lemma sum_single n k (f : nat -> F) :
  (k < n)%nat -> (forall i, (i < n)%nat -> i <> k -> f i = 0) -> sum n f = f k.
Proof.
  intros H Hz. rewrite <- (sum_kron n k f H). apply sum_ext. intros i Hi. unfold kron.
  destruct (Nat.eqb_spec i k); [ring | rewrite Hz by assumption; ring].
Qed.
Lemma sum_plus n m (f : nat -> F) : sum (n + m) f = sum n f + sum m (fun i => f (n + i)%nat).
Proof. induction m as [|m IH]; [rewrite Nat.add_0_r; simpl; ring|]. rewrite Nat.add_succ_r. simpl. rewrite IH. ring. Qed.
Lemma sum_S_l n (f : nat -> F) : sum (S n) f = f 0%nat + sum n (fun i => f (S i)).
Proof. replace (S n) with (1 + n)%nat by lia. rewrite sum_plus. simpl. ring. Qed.
(** sums over a flattened index [m*i+j] *)
Lemma sum_flat n m (f : nat -> F) :
  sum (n * m) f = sum n (fun i => sum m (fun j => f (m * i + j)%nat)).
Proof.
  induction n as [|n IH]; [reflexivity|]. replace (S n * m)%nat with (n * m + m)%nat by lia.
  rewrite sum_plus, IH. simpl. f_equal. apply sum_ext. intros j _. f_equal. lia.
Qed.
Lemma sum_nonneg n (f : nat -> F) : (forall i, (i < n)%nat -> 0 <= f i) -> 0 <= sum n f.
Proof.
  intro H. induction n as [|n IH]; [apply fle_refl|]. simpl.
  apply fadd_nonneg; [apply IH; auto with arith | apply H; auto with arith].
Qed.
Lemma sum_le n (f g : nat -> F) : (forall i, (i < n)%nat -> f i <= g i) -> sum n f <= sum n g.
Proof.
  intro H. induction n as [|n IH]; [apply fle_refl|]. simpl.
  apply fle_add; [apply IH; auto with arith | apply H; auto with arith].
Qed.

Lemma lsum_app (l1 l2 : list F) : lsum (l1 ++ l2) = lsum l1 + lsum l2.
Proof. unfold lsum. induction l1 as [|a l IH]; simpl; [ring | rewrite IH; ring]. Qed.
Lemma lsum_tab n (f : nat -> F) : lsum (tab n f) = sum n f.
Proof. induction n as [|n IH]; [reflexivity|]. rewrite tab_S, lsum_app, IH. simpl. ring. Qed.
Lemma lsum_ext {A} (f g : A -> F) l : (forall a, In a l -> f a = g a) -> lsum (map f l) = lsum (map g l).
Proof. intro H. f_equal. apply map_ext_in. exact H. Qed.
Lemma lsum_zero {A} (f : A -> F) l : (forall a, In a l -> f a = 0) -> lsum (map f l) = 0.
Proof.
  induction l as [|a l IH]; intro H; [reflexivity|]. simpl. rewrite H by (left; reflexivity).
  fold (lsum (map f l)). rewrite IH by (intros; apply H; right; assumption). ring.
Qed.
Lemma lsum_cons {A} (f : A -> F) a l : lsum (map f (a :: l)) = f a + lsum (map f l).
Proof. reflexivity. Qed.
Lemma lsum_add {A} (f g : A -> F) l : lsum (map (fun a => f a + g a) l) = lsum (map f l) + lsum (map g l).
Proof. induction l as [|a l IH]; [simpl; ring|]. rewrite !lsum_cons, IH. ring. Qed.
Lemma lsum_mul_l {A} c (f : A -> F) l : lsum (map (fun a => c * f a) l) = c * lsum (map f l).
Proof. induction l as [|a l IH]; [simpl; ring|]. rewrite !lsum_cons, IH. ring. Qed.
Lemma lsum_mul_r {A} c (f : A -> F) l : lsum (map (fun a => f a * c) l) = lsum (map f l) * c.
Proof. induction l as [|a l IH]; [simpl; ring|]. rewrite !lsum_cons, IH. ring. Qed.
Lemma lsum_swap {A} n (f : A -> nat -> F) l :
  lsum (map (fun a => sum n (f a)) l) = sum n (fun i => lsum (map (fun a => f a i) l)).
Proof.
  induction l as [|a l IH]; [simpl; symmetry; apply sum_zero; reflexivity|].
  rewrite lsum_cons, IH, <- sum_add. apply sum_ext. intros i _. rewrite lsum_cons. reflexivity.
Qed.
Lemma lsum_swap2 {A B} (f : A -> B -> F) l m :
  lsum (map (fun a => lsum (map (f a) m)) l) = lsum (map (fun b => lsum (map (fun a => f a b) l)) m).
Proof.
  induction l as [|a l IH]; [simpl; symmetry; apply lsum_zero; reflexivity|].
  rewrite lsum_cons, IH, <- lsum_add. apply lsum_ext. intros b _. rewrite lsum_cons. reflexivity.
Qed.
Lemma lsum_le {A} (f g : A -> F) l : (forall a, In a l -> f a <= g a) -> lsum (map f l) <= lsum (map g l).
Proof.
  induction l as [|a l IH]; intro H; [apply fle_refl|]. rewrite !lsum_cons.
  apply fle_add; [apply H; left; reflexivity | apply IH; intros; apply H; right; assumption].
Qed.
Lemma lsum_nonneg {A} (f : A -> F) l : (forall a, In a l -> 0 <= f a) -> 0 <= lsum (map f l).
Proof.
  intro H. replace (0 : F) with (lsum (map (fun _ : A => 0 : F) l)) by (apply lsum_zero; reflexivity).
  apply lsum_le. exact H.
Qed.
Lemma lsum_nth (l : list F) : lsum l = sum (length l) (fun i => nth i l 0).
Proof. rewrite (list_tab l 0) at 1. apply lsum_tab. Qed.
Lemma lsum_map_nth {A} (f : A -> F) l d : lsum (map f l) = sum (length l) (fun i => f (nth i l d)).
Proof. rewrite (list_tab l d) at 1. rewrite map_tab. apply lsum_tab. Qed.
End SumFacts.

(** ** Loops that may fail *)
(** [tabM n f]: an array filled for i=0..n-1 *)
Definition tabM {A} (n : nat) (f : nat -> res A) : res (list A) := mapM f (seq 0 n).
(** accumulation loops starting from zero *)
Definition sumM {F : ofield} (n : nat) (f : nat -> res F) : res F :=
  foldM (fun acc i => do v <- f i; Ok (fadd acc v)) f0 (seq 0 n).
Definition lsumM {F : ofield} {A} (f : A -> res F) (l : list A) : res F :=
  foldM (fun acc a => do v <- f a; Ok (fadd acc v)) f0 l.
(** C int arithmetic: signed overflow is undefined behaviour *)
Definition int_max : Z := 2147483647.
Definition i32 (z : Z) : res Z := if (Z.leb (- int_max - 1) z && Z.leb z int_max)%bool then Ok z else UB.

Lemma tabM_ok {A} n (f : nat -> res A) g : (forall i, (i < n)%nat -> f i = Ok (g i)) -> tabM n f = Ok (tab n g).
Proof. intro H. apply mapM_ok. intros i Hi. apply in_seq in Hi. apply H. lia. Qed.
Lemma foldM_app {A S} (f : S -> A -> res S) s l1 l2 : foldM f s (l1 ++ l2) = (do s' <- foldM f s l1; foldM f s' l2).
Proof.
  revert s. induction l1 as [|a l1 IH]; intro s; simpl; [reflexivity|]. destruct (f s a); simpl; [apply IH | reflexivity | reflexivity].
Qed.
Lemma sumM_ok {F : ofield} n (f : nat -> res F) g : (forall i, (i < n)%nat -> f i = Ok (g i)) -> sumM n f = Ok (sum n g).
Proof.
  unfold sumM. induction n as [|n IH]; intro H; [reflexivity|].
  rewrite seq_S, foldM_app, IH by (intros; apply H; lia). simpl. rewrite H by lia. reflexivity.
Qed.
Lemma lsumM_ok {F : ofield} {A} (f : A -> res F) g l : (forall a, In a l -> f a = Ok (g a)) -> lsumM f l = Ok (lsum (map g l)).
Proof.
  unfold lsumM. intro H.
  assert (G : forall acc, foldM (fun acc a => do v <- f a; Ok (fadd acc v)) acc l = Ok (fadd acc (lsum (map g l)))).
  { induction l as [|a l IH]; intro acc.
    - simpl. f_equal. unfold lsum. simpl. pose proof (fth F) as T. rewrite (F_R T).(Radd_comm). rewrite (F_R T).(Radd_0_l). reflexivity.
    - simpl. rewrite H by (left; reflexivity). simpl. rewrite IH by (intros; apply H; right; assumption).
      f_equal. unfold lsum. simpl. pose proof (fth F) as T. rewrite (F_R T).(Radd_assoc). reflexivity. }
  rewrite G. f_equal. pose proof (fth F) as T. apply (F_R T).(Radd_0_l).
Qed.
Lemma mapM_inv {A B} (f : A -> res B) l r : mapM f l = Ok r -> forall i a, nth_error l i = Some a -> exists b, f a = Ok b /\ nth_error r i = Some b.
Proof.
  revert r. induction l as [|x l IH]; intros r H i a Hi; [destruct i; discriminate|]. simpl in H.
  apply bind_ok in H. destruct H as [b [Hb H]]. apply bind_ok in H. destruct H as [t [Ht H]]. injection H as <-.
  destruct i as [|i]; simpl in *; [injection Hi as <-; eauto|]. eapply IH; eauto.
Qed.
Lemma tabM_inv {A} n (f : nat -> res A) l : tabM n f = Ok l -> length l = n /\ forall i d, (i < n)%nat -> f i = Ok (nth i l d).
Proof.
  intro H. split; [apply mapM_length in H; rewrite seq_length in H; exact H|]. intros i d Hi.
  destruct (mapM_inv _ _ _ H i i) as [b [Hb Hr]].
  { rewrite (nth_error_nth' _ 0%nat) by (rewrite seq_length; exact Hi). rewrite seq_nth by exact Hi. reflexivity. }
  rewrite Hb. f_equal. symmetry. apply nth_error_nth. exact Hr.
Qed.

(** for examples: the value of a successful computation *)
Definition is_ok {A} (x : res A) : bool := match x with Ok _ => true | _ => false end.
Definition from_ok {A} (d : A) (x : res A) : A := match x with Ok a => a | _ => d end.
Lemma from_ok_eq {A} (d : A) (x : res A) : is_ok x = true -> x = Ok (from_ok d x).
Proof. destruct x; [reflexivity | discriminate | discriminate]. Qed.
