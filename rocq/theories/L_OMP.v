(** Interleavings of the OpenMP regions: isolation of threads and reduction of one parallel loop to its sequential form. *)
From Coq Require Import Permutation.
From Verif Require Import Base M_Bins M_LinAlg M_Workspace M_MCM M_OMP L_Bins L_Bins2 L_Bins3 P_Bins L_LinAlg L_Workspace P_Workspace L_MCM L_MCM2 L_MCM3 L_MCM4.
Open Scope Z_scope.

(** ** Interleavings *)
Lemma nth_upd {A} (l : list A) n a m d : nth m (upd_nth n a l) d = if Nat.eqb m n && Nat.ltb n (length l) then a else nth m l d.
Proof.
  revert n m. induction l as [|x l IH]; intros n m; cbn [upd_nth].
  - change (Nat.ltb n (length (@nil A))) with false. rewrite andb_false_r. destruct m, n; reflexivity.
  - destruct n as [|n]; destruct m as [|m]; cbn [upd_nth nth Nat.eqb andb length]; try reflexivity; try (rewrite IH; reflexivity).
Qed.
Lemma sched_proj {A} (ts : list (list A)) ss : sched ts ss -> forall t, map snd (filter (fun o => Nat.eqb (fst o) t) ss) = nth t ts [].
Proof.
  induction 1 as [ts H | ts t x rest ss E _ IH]; intro u.
  - cbn. destruct (Nat.lt_ge_cases u (length ts)) as [L|L]; [symmetry; apply H, nth_In; exact L | rewrite nth_overflow by exact L; reflexivity].
  - cbn [filter fst]. specialize (IH u). rewrite nth_upd in IH. assert (L : (t < length ts)%nat) by (apply nth_error_Some; congruence).
    apply Nat.ltb_lt in L. rewrite L, andb_true_r in IH. rewrite (Nat.eqb_sym t u). destruct (Nat.eqb_spec u t) as [Eu|N]; [subst u|].
    + cbn [map snd]. rewrite IH. symmetry. apply nth_error_nth. exact E.
    + exact IH.
Qed.
Lemma sched_tag {A} (ts : list (list A)) ss : sched ts ss -> forall t x, In (t, x) ss -> In x (nth t ts []).
Proof.
  intros H t x Hx. rewrite <- (sched_proj ts ss H t). change x with (snd (t, x)). apply in_map. apply filter_In. split; [exact Hx | apply Nat.eqb_refl].
Qed.
Lemma length_upd {A} (l : list A) n a : length (upd_nth n a l) = length l.
Proof. revert n. induction l as [|x l IH]; intros [|n]; cbn; auto. Qed.
Lemma sched_exists {A} (ts : list (list A)) : exists ss, sched ts ss.
Proof.
  remember (length (concat ts)) as n eqn:E. revert ts E. induction n as [|n IH]; intros ts E.
  - exists []. constructor. intros t Ht. apply in_split in Ht. destruct Ht as [a [b ->]]. rewrite concat_app, app_length in E. cbn in E. rewrite app_length in E.
    destruct t; [reflexivity | cbn in E; lia].
  - assert (X : exists t x rest, nth_error ts t = Some (x :: rest) /\ length (concat (upd_nth t rest ts)) = n).
    { clear IH. revert n E. induction ts as [|l ts IHt]; intros n E; [discriminate|]. destruct l as [|x rest].
      - cbn in E. destruct (IHt n E) as [t [x [rest [E1 E2]]]]. exists (S t), x, rest. split; [exact E1 | exact E2].
      - exists 0%nat, x, rest. split; [reflexivity|]. cbn in E |- *. lia. }
    destruct X as [t [x [rest [E1 E2]]]]. destruct (IH _ (eq_sym E2)) as [ss Hs]. exists ((t, x) :: ss). econstructor; eassumption.
Qed.

Section Par.
Context {F : ofield}.
Notation store := (store F).
Notation step := (step F).
Notation conf := (conf F).
Notation mop := (mop F).

Lemma mexec_app (a b : list (nat * mop)) m : mexec (a ++ b) m = mexec b (mexec a m).
Proof. unfold mexec. apply fold_left_app. Qed.
Lemma mexec_cons o (b : list (nat * mop)) m : mexec (o :: b) m = mexec b (mexec1 m o).
Proof. reflexivity. Qed.

(** ** Isolation: what a thread sees depends only on its own instructions *)
Section Isolation.
Variable own : cell -> option nat.   (* the thread a cell belongs to; [None]: written by nobody *)
Definition op_ok (t : nat) (op : mop) : Prop :=
  match op with MLoad x => own x = Some t \/ own x = None | MStore x _ => own x = Some t end.
Definition agree (t : nat) (m m' : mstate (F:=F)) : Prop :=
  (forall x, own x = Some t \/ own x = None -> fst m x = fst m' x) /\ snd m t = snd m' t.
Lemma isolation t ss : (forall u op, In (u, op) ss -> op_ok u op) -> forall m m', agree t m m' ->
  agree t (mexec ss m) (mexec (filter (fun o => Nat.eqb (fst o) t) ss) m').
Proof.
  induction ss as [|[u op] ss IH]; intros H m m' A; [exact A|]. rewrite mexec_cons. cbn [filter fst].
  pose proof (H u op (or_introl eq_refl)) as O. specialize (IH (fun v o Hv => H v o (or_intror Hv))).
  destruct m as [st rg], m' as [st' rg']. destruct A as [A1 A2]. cbn [fst snd] in A1, A2. destruct (Nat.eqb_spec u t) as [->|N].
  - rewrite mexec_cons. apply IH. destruct op as [x|x f]; cbn [mexec1 op_ok] in *; split; cbn [fst snd].
    + exact A1.
    + rewrite Nat.eqb_refl, A2, (A1 x O). reflexivity.
    + intros y Hy. destruct (cell_eqb y x); [rewrite A2; reflexivity | apply A1; exact Hy].
    + rewrite Nat.eqb_refl. reflexivity.
  - apply IH. assert (N' : Nat.eqb t u = false) by (apply Nat.eqb_neq; congruence).
    destruct op as [x|x f]; cbn [mexec1 op_ok] in *; split; cbn [fst snd].
    + exact A1.
    + rewrite N'. exact A2.
    + intros y Hy. destruct (cell_eqb y x) eqn:E; [|apply A1; exact Hy]. apply cell_eqb_eq in E. subst y. destruct Hy; congruence.
    + rewrite N'. exact A2.
Qed.
Lemma untouched ss x : (forall u op, In (u, op) ss -> op_ok u op) -> own x = None -> forall m, fst (mexec ss m) x = fst m x.
Proof.
  intros H Hx. induction ss as [|[u op] ss IH]; intro m; [reflexivity|]. rewrite mexec_cons, (IH (fun v o Hv => H v o (or_intror Hv))).
  pose proof (H u op (or_introl eq_refl)) as O. destruct m as [st rg]. destruct op as [y|y f]; cbn [mexec1 fst op_ok] in *; [reflexivity|].
  destruct (cell_eqb x y) eqn:E; [|reflexivity]. apply cell_eqb_eq in E. subst y. congruence.
Qed.
End Isolation.

(** a thread alone: the registers reproduce the elementary assignments *)
Lemma loads t xs (st : store) rg : exists rg', mexec (map (fun x => (t, MLoad x)) xs) (st, rg) = (st, rg') /\ rg' t = rg t ++ map st xs.
Proof.
  revert rg. induction xs as [|x xs IH]; intro rg; [exists rg; rewrite app_nil_r; split; reflexivity|].
  cbn [map]. rewrite mexec_cons. cbn [mexec1]. edestruct IH as [rg' [E R]]. exists rg'. split; [exact E|]. rewrite R. rewrite Nat.eqb_refl, <- app_assoc. reflexivity.
Qed.
Lemma alone t (ss : list step) : forall st rg, rg t = [] -> exists rg', mexec (map (pair t) (flat_map micro ss)) (st, rg) = (exec ss st, rg') /\ rg' t = [].
Proof.
  induction ss as [|s ss IH]; intros st rg R; [exists rg; split; [reflexivity | exact R]|].
  cbn [flat_map]. rewrite map_app, mexec_app. change (micro s) with (map MLoad (s_src s) ++ [MStore (s_dst s) (s_fun s)]). rewrite (map_app (pair t)), mexec_app, map_map.
  destruct (loads t (s_src s) st rg) as [rg1 [E1 R1]]. rewrite E1. cbn [map]. rewrite mexec_cons. cbn [mexec1]. rewrite R1, R. cbn [app].
  change (mexec [] ?m) with m.
  destruct (IH (exec1 st s) (fun u => if Nat.eqb u t then [] else rg1 u)) as [rg2 [E2 R2]]; [rewrite Nat.eqb_refl; reflexivity|].
  exists rg2. split; [exact E2 | exact R2].
Qed.
Lemma in_micro (s : step) op : In op (micro s) -> (exists x, op = MLoad x /\ In x (s_src s)) \/ op = MStore (s_dst s) (s_fun s).
Proof.
  unfold micro. rewrite in_app_iff, in_map_iff. intros [[x [E H]]|[E|[]]]; [left; exists x; split; [symmetry; exact E | exact H] | right; symmetry; exact E].
Qed.

(** ** One parallel loop *)
Definition disjoint_loop (owner : cell -> option Z) (S : Z -> list step) (L : list Z) : Prop :=
  forall k s, In k L -> In s (S k) -> owner (s_dst s) = Some k /\ forall x, In x (s_src s) -> owner x = Some k \/ owner x = None.
Fixpoint find_part (k : Z) (parts : list (list Z)) : option nat :=
  match parts with [] => None | p :: ps => if existsb (Z.eqb k) p then Some 0%nat else option_map S (find_part k ps) end.
Lemma find_part_at parts k t : NoDup (concat parts) -> In k (nth t parts []) -> find_part k parts = Some t.
Proof.
  revert t. induction parts as [|p ps IH]; intros t ND H; [destruct t; destruct H|]. cbn [concat] in ND. cbn [find_part].
  destruct t as [|t]; cbn [nth] in H.
  - replace (existsb (Z.eqb k) p) with true; [reflexivity|]. symmetry. apply existsb_exists. exists k. split; [exact H | apply Z.eqb_refl].
  - assert (N : existsb (Z.eqb k) p = false).
    { destruct (existsb (Z.eqb k) p) eqn:E; [|reflexivity]. exfalso. apply existsb_exists in E. destruct E as [z [Hz Ez]]. apply Z.eqb_eq in Ez. subst z.
      assert (Hc : In k (concat ps)). { apply in_concat. exists (nth t ps []). split; [|exact H]. apply nth_In. destruct (Nat.lt_ge_cases t (length ps)); [assumption|]. rewrite nth_overflow in H by assumption. destruct H. }
      clear -ND Hz Hc. induction p as [|y p IHp]; [destruct Hz|]. cbn in ND. inversion ND as [|? ? N1 N2]; subst. destruct Hz as [->|Hz]; [apply N1, in_app_iff; right; exact Hc | exact (IHp N2 Hz)]. }
    rewrite N. assert (ND' : NoDup (concat ps)) by (clear -ND; induction p as [|y p IHp]; [exact ND | inversion ND; auto]). rewrite (IH t ND' H). reflexivity.
Qed.
Lemma find_part_in parts k t : find_part k parts = Some t -> In k (nth t parts []).
Proof.
  revert t. induction parts as [|p ps IH]; intros t H; [discriminate|]. cbn [find_part] in H. destruct (existsb (Z.eqb k) p) eqn:E.
  - injection H as <-. apply existsb_exists in E. destruct E as [z [Hz Ez]]. apply Z.eqb_eq in Ez. subst z. exact Hz.
  - destruct (find_part k ps) as [u|] eqn:E'; [|discriminate]. injection H as <-. cbn. apply IH. reflexivity.
Qed.

Section Loop.
Context {B : Type}.
Variables (c : conf) (it : B -> Z -> res (B * list step)) (fresh : B) (okb : B -> Prop) (S : Z -> list step) (L : list Z) (owner : cell -> option Z).
Hypothesis fresh_ok : okb fresh.
Hypothesis it_ok : forall b k, okb b -> In k L -> exists b', it b k = Ok (b', S k) /\ okb b'.
Hypothesis ND : NoDup L.
Hypothesis DJ : disjoint_loop owner S L.
Hypothesis SO : forall k s, In k L -> In s (S k) -> step_ok c s = true.

Lemma exec_part (p : list Z) (st : store) x k : NoDup p -> (forall j, In j p -> In j L) -> In k p -> owner x = Some k ->
  exec (flat_map S p) st x = exec (S k) st x.
Proof.
  intros NDp Hp Hk Hx. apply (exec_flat_map_one S p k (fun y => owner y = Some k \/ owner y = None) st x); try assumption; [| |left; exact Hx].
  - intros s Hs y [<-|Hy]; [left; apply (DJ k s (Hp k Hk) Hs) | apply (DJ k s (Hp k Hk) Hs); exact Hy].
  - intros j Hj Nj s Hs. destruct (DJ j s (Hp j Hj) Hs) as [E _]. intros [E'|E']; congruence.
Qed.
Lemma region_seq (st : store) r : region c it fresh L st r -> exists st', r = Ok st' /\ forall x, st' x = exec (flat_map S L) st x.
Proof.
  intros [parts [P R]].
  assert (IN : forall t k, In k (nth t parts []) -> In k L).
  { intros t k Hk. apply (Permutation_in _ P). apply in_concat. exists (nth t parts []). split; [|exact Hk]. apply nth_In.
    destruct (Nat.lt_ge_cases t (length parts)) as [|Ge]; [assumption|]. rewrite nth_overflow in Hk by assumption. destruct Hk. }
  assert (NDc : NoDup (concat parts)) by (apply (Permutation_NoDup (Permutation_sym P)); exact ND).
  assert (M : mapM (fun p => do (_, ss) <- thread it fresh p; Ok ss) parts = Ok (map (flat_map S) parts)).
  { apply mapM_ok. intros p Hp. apply (In_nth _ _ []) in Hp. destruct Hp as [t [_ <-]].
    destruct (thread_ok okb it S (nth t parts [])) with (b := fresh) as [b' [E _]]; [|exact fresh_ok|].
    - intros b k Hb Hk. apply it_ok; [exact Hb | apply (IN t); exact Hk].
    - unfold thread. rewrite E. reflexivity. }
  rewrite M in R. destruct R as [ss [Hs ->]].
  assert (G : forallb (forallb (step_ok c)) (map (flat_map S) parts) = true).
  { apply forallb_forall. intros ts Ht. apply in_map_iff in Ht. destruct Ht as [p [<- Hp]]. apply forallb_forall. intros s Hs'. apply in_flat_map in Hs'. destruct Hs' as [k [Hk Hs']].
    apply (In_nth _ _ []) in Hp. destruct Hp as [t [_ <-]]. apply (SO k); [apply (IN t); exact Hk | exact Hs']. }
  rewrite G. eexists. split; [reflexivity|]. intro x.
  set (own := fun y => match owner y with Some k => if existsb (Z.eqb k) L then find_part k parts else None | None => None end).
  assert (OWN : forall t k y, In k (nth t parts []) -> owner y = Some k -> own y = Some t).
  { intros t k y Hk Hy. unfold own. rewrite Hy. replace (existsb (Z.eqb k) L) with true; [apply find_part_at; assumption|].
    symmetry. apply existsb_exists. exists k. split; [apply (IN t); exact Hk | apply Z.eqb_refl]. }
  assert (NTH : forall t, nth t (map (flat_map micro) (map (flat_map S) parts)) [] = flat_map micro (flat_map S (nth t parts []))).
  { intro t. rewrite map_map. change (@nil mop) with ((fun x => flat_map micro (flat_map S x)) []). apply map_nth. }
  assert (OP : forall u op, In (u, op) ss -> op_ok own u op).
  { intros u op Ho. apply (sched_tag _ _ Hs) in Ho. rewrite NTH in Ho. apply in_flat_map in Ho. destruct Ho as [s [Hs' Ho]].
    apply in_flat_map in Hs'. destruct Hs' as [k [Hk Hs']]. destruct (DJ k s (IN u k Hk) Hs') as [D1 D2].
    apply in_micro in Ho. destruct Ho as [[y [-> Hy]]| ->]; cbn [op_ok].
    - destruct (D2 y Hy) as [E|E]; [left; apply (OWN u k); assumption | right; unfold own; rewrite E; reflexivity].
    - apply (OWN u k); assumption. }
  destruct (own x) as [t|] eqn:Ox.
  - pose proof Ox as Ox'. unfold own in Ox'. destruct (owner x) as [k|] eqn:Ek; [|discriminate]. destruct (existsb (Z.eqb k) L) eqn:EL; [|discriminate].
    apply find_part_in in Ox'.
    destruct (isolation own t ss OP (st, fun _ => []) (st, fun _ => []) (conj (fun _ _ => eq_refl) eq_refl)) as [A _].
    rewrite (A x (or_introl Ox)).
    assert (FT : filter (fun o => Nat.eqb (fst o) t) ss = map (pair t) (flat_map micro (flat_map S (nth t parts [])))).
    { rewrite <- NTH, <- (sched_proj _ _ Hs t), map_map. rewrite <- map_id at 1. apply map_ext_in. intros [u op] Ho. apply filter_In in Ho. destruct Ho as [_ Ho]. apply Nat.eqb_eq in Ho. cbn in *. subst. reflexivity. }
    rewrite FT. destruct (alone t (flat_map S (nth t parts [])) st (fun _ => []) eq_refl) as [rg' [E _]]. rewrite E. cbn [fst].
    rewrite (exec_part (nth t parts []) st x k); [| |apply (IN t)|exact Ox'|exact Ek].
    2:{ clear -NDc Ox'. revert t Ox'. induction parts as [|p ps IH]; intros t H; [destruct t; destruct H|]. cbn [concat] in NDc. destruct t as [|t].
        - cbn. clear -NDc. induction p as [|y p IHp]; [constructor|]. inversion NDc as [|? ? N1 N2]; subst. constructor; [intro Q; apply N1, in_app_iff; left; exact Q | apply IHp; exact N2].
        - apply IH; [clear -NDc; induction p as [|y p IHp]; [exact NDc | inversion NDc; auto] | exact H]. }
    symmetry. apply exec_part; [exact ND | auto | apply (IN t); exact Ox' | exact Ek].
  - rewrite (untouched own ss x OP Ox). cbn [fst]. symmetry. apply exec_other. intros s Hs' E. apply in_flat_map in Hs'. destruct Hs' as [k [Hk Hs']].
    destruct (DJ k s Hk Hs') as [D _]. rewrite E in D. unfold own in Ox. rewrite D in Ox. replace (existsb (Z.eqb k) L) with true in Ox.
    + apply (Permutation_in _ (Permutation_sym P)) in Hk. apply in_concat in Hk. destruct Hk as [p [Hp Hk]]. apply (In_nth _ _ []) in Hp. destruct Hp as [t [_ Ep]].
      rewrite <- Ep in Hk. rewrite (find_part_at parts k t NDc Hk) in Ox. discriminate.
    + symmetry. apply existsb_exists. exists k. split; [exact Hk | apply Z.eqb_refl].
Qed.
(** every distribution of the iterations is possible and has an execution *)
Lemma region_exists (st : store) parts : Permutation (concat parts) L -> exists r, region c it fresh L st r.
Proof.
  intro P. destruct (mapM (fun p => do (_, ss) <- thread it fresh p; Ok ss) parts) as [ts| |] eqn:E.
  - destruct (sched_exists (map (flat_map micro) ts)) as [ss Hs]. eexists. exists parts. split; [exact P|]. rewrite E. exists ss. split; [exact Hs | reflexivity].
  - exists UB. exists parts. split; [exact P|]. rewrite E. reflexivity.
  - exists UB. exists parts. split; [exact P|]. rewrite E. reflexivity.
Qed.
End Loop.
End Par.
