(** Lemmas about the parallel loops of mask apodisation (M_ApodPar.v). *)
From Coq Require Import Permutation.
From Verif Require Import Base M_Utils L_Utils M_Field M_OMP L_OMP M_Apod L_Apod M_ApodPar.
Open Scope Z_scope.

Lemma concat_split {A} (ts : list (list A)) (t : nat) (l : list A) : nth_error ts t = Some l ->
  exists X Y, concat ts = X ++ l ++ Y /\ forall l', concat (upd_nth t l' ts) = X ++ l' ++ Y.
Proof.
  revert t. induction ts as [|a ts IH]; intros [|t] H; try discriminate; simpl in H.
  - injection H as ->. exists [], (concat ts). split; [reflexivity | intros; reflexivity].
  - destruct (IH t H) as [X [Y [E1 E2]]]. exists (a ++ X), Y. simpl. split; [rewrite E1, app_assoc; reflexivity|]. intros l'. rewrite E2, app_assoc. reflexivity.
Qed.
Lemma nth_error_upd_nth {A} (ts : list A) (t u : nat) (a x : A) : nth_error ts t = Some x -> nth_error (upd_nth t a ts) u = if Nat.eqb u t then Some a else nth_error ts u.
Proof.
  revert t u. induction ts as [|b ts IH]; intros [|t] [|u] H; try discriminate; simpl in *; try reflexivity. apply IH. exact H.
Qed.
Lemma mapM_map {A B} (f : A -> res B) (l : list A) (r : list B) : mapM f l = Ok r -> Forall2 (fun a b => f a = Ok b) l r.
Proof.
  revert r. induction l as [|a l IH]; intros r; cbn [mapM]; [intros E; injection E as <-; constructor|].
  destruct (f a) as [b| |] eqn:Ea; try discriminate. cbn [bind]. destruct (mapM f l) as [bs| |]; try discriminate. cbn [bind]. intros E. injection E as <-.
  constructor; [exact Ea | apply IH; reflexivity].
Qed.
Lemma flat_map_concat {A B} (f : A -> list B) (l : list (list A)) : flat_map f (concat l) = concat (map (flat_map f) l).
Proof. induction l as [|a l IH]; [reflexivity|]. simpl. rewrite flat_map_app, IH. reflexivity. Qed.
Lemma flat_map_flat_map {A B C} (f : B -> list C) (g : A -> list B) (l : list A) : flat_map f (flat_map g l) = flat_map (fun a => flat_map f (g a)) l.
Proof. induction l as [|a l IH]; [reflexivity|]. simpl. rewrite flat_map_app, IH. reflexivity. Qed.
Lemma Permutation_flat_map' {A B} (f : A -> list B) (l l' : list A) : Permutation l l' -> Permutation (flat_map f l) (flat_map f l').
Proof. intros H. apply Permutation_flat_map. exact H. Qed.

Section P.
Context {F : ofield}.
Local Open Scope F_scope.
Add Field FfLAp3 : (fth F).

Definition prog (l : list (Z * F)) : list (aop F) := flat_map (fun p => scale (fst p) (snd p)) l.
Definition stores (l : list (aop F)) : list Z := flat_map (fun o => match o with AStore i _ => [i] | ALoad _ => [] end) l.
(** value of location i after the assignments of [l] in order *)
Definition seqval (l : list (Z * F)) (i : Z) (x : F) : F := fold_left (fun x p => if (fst p =? i)%Z then x * snd p else x) l x.

Lemma stores_prog (l : list (Z * F)) : stores (prog l) = map fst l.
Proof. induction l as [|p l IH]; [reflexivity|]. cbn. rewrite <- IH. reflexivity. Qed.
Lemma stores_app (a b : list (aop F)) : stores (a ++ b) = stores a ++ stores b.
Proof. apply flat_map_app. Qed.

(** *** one store per location *)
Definition wf (m0 : Z -> F) (r : F) (l : list (aop F)) : Prop :=
  (exists ps, l = prog ps) \/ (exists i f ps, l = AStore i (fun x => x * f) :: prog ps /\ r = m0 i).
Lemma once_run (ts : list (list (aop F))) (ss : list (nat * aop F)) : sched ts ss -> forall (m m0 : Z -> F) (rg : nat -> F),
  (forall t l, nth_error ts t = Some l -> wf m0 (rg t) l) -> NoDup (stores (concat ts)) -> (forall i, In i (stores (concat ts)) -> m i = m0 i) ->
  forall i, (~ In i (stores (concat ts)) -> fst (aexec ss (m, rg)) i = m i) /\
    (forall f, In (AStore i (fun x => x * f)) (concat ts) -> exists g, In (AStore i g) (concat ts) /\ fst (aexec ss (m, rg)) i = g (m0 i)).
Proof.
  induction 1 as [ts Hd|ts t x rest ss Hn Hs IH]; intros m m0 rg W ND HM i.
  - assert (E : concat ts = []).
    { clear -Hd. induction ts as [|a ts IH]; [reflexivity|]. simpl. rewrite (Hd a (or_introl eq_refl)). apply IH. intros t I. apply Hd. right. exact I. }
    rewrite E. split; [reflexivity | intros f []].
  - destruct (concat_split ts t _ Hn) as [X [Y [E1 E2]]]. specialize (E2 rest).
    pose proof (W t _ Hn) as Wt. destruct Wt as [[ps Ep]|[j [f [ps [Ep Er]]]]].
    + destruct ps as [|[j f] ps]; [discriminate|]. cbn in Ep. injection Ep as -> ->.
      change (AStore j (fun x => x * f) :: _) with (AStore j (fun x => x * f) :: prog ps) in *.
      assert (ES : stores (concat (upd_nth t (AStore j (fun x => x * f) :: prog ps) ts)) = stores (concat ts)) by (rewrite E1, E2, !stores_app; reflexivity).
      assert (Ij : In j (stores (concat ts))) by (rewrite E1, !stores_app; apply in_app_iff; right; left; reflexivity).
      specialize (IH m m0 (fun u => if Nat.eqb u t then m j else rg u)).
      cbn [aexec fold_left aexec1]. change (fold_left aexec1 ss (m, _)) with (aexec ss (m, fun u => if Nat.eqb u t then m j else rg u)).
      rewrite ES in IH. destruct (fun H1 => IH H1 ND HM i) as [I1 I2].
      { intros u l Hl. rewrite (nth_error_upd_nth ts t u _ _ Hn) in Hl. destruct (Nat.eqb u t) eqn:C.
        - injection Hl as <-. right. exists j, f, ps. split; [reflexivity | apply HM; exact Ij].
        - apply (W u l Hl). }
      split; [exact I1|]. intros g Hg. destruct (I2 g) as [h [Ih Eh]].
      { rewrite E2. rewrite E1 in Hg. apply in_app_iff in Hg. apply in_app_iff. destruct Hg as [Hg|[Hg|Hg]]; [left; exact Hg | discriminate | right; exact Hg]. }
      exists h. split; [|exact Eh]. rewrite E2 in Ih. rewrite E1. apply in_app_iff in Ih. apply in_app_iff. destruct Ih as [Ih|Ih]; [left; exact Ih | right; right; exact Ih].
    + injection Ep as -> ->.
      assert (NI : ~ In j (stores (X ++ prog ps ++ Y))).
      { rewrite E1 in ND. rewrite !stores_app in ND. cbn in ND. apply NoDup_remove_2 in ND. rewrite !stores_app. exact ND. }
      assert (ND' : NoDup (stores (X ++ prog ps ++ Y))).
      { rewrite E1 in ND. rewrite !stores_app in ND. cbn in ND. apply NoDup_remove_1 in ND. rewrite !stores_app. exact ND. }
      specialize (IH (fun k => if (k =? j)%Z then rg t * f else m k) m0 rg). rewrite E2 in IH.
      destruct (fun H1 H3 => IH H1 ND' H3 i) as [I1 I2].
      { intros u l Hl. rewrite (nth_error_upd_nth ts t u _ _ Hn) in Hl. destruct (Nat.eqb u t) eqn:C.
        - injection Hl as <-. left. exists ps. reflexivity.
        - apply (W u l Hl). }
      { intros k Hk. destruct (k =? j)%Z eqn:C; [apply Z.eqb_eq in C; subst k; contradiction|]. apply HM. rewrite E1. rewrite !stores_app in *. cbn.
        apply in_app_iff in Hk. apply in_app_iff. destruct Hk as [Hk|Hk]; [left; exact Hk | right; right; exact Hk]. }
      cbn [aexec fold_left aexec1]. change (fold_left aexec1 ss (fun k => _, rg)) with (aexec ss (fun k => if (k =? j)%Z then rg t * f else m k, rg)).
      split.
      * intros Hi. rewrite I1.
        2:{ intros C. apply Hi. rewrite E1. rewrite !stores_app in *. cbn. apply in_app_iff in C. apply in_app_iff. destruct C as [C|C]; [left; exact C | right; right; exact C]. }
        destruct (i =? j)%Z eqn:C; [|reflexivity]. apply Z.eqb_eq in C. subst i. exfalso. apply Hi. rewrite E1, !stores_app. apply in_app_iff. right. left. reflexivity.
      * intros g Hg. destruct (Z.eq_dec i j) as [->|Nij].
        -- exists (fun x => x * f). split; [rewrite E1; apply in_app_iff; right; left; reflexivity|]. rewrite I1 by exact NI. rewrite Z.eqb_refl, Er. reflexivity.
        -- destruct (I2 g) as [h [Ih Eh]].
           { rewrite E1 in Hg. apply in_app_iff in Hg. apply in_app_iff. destruct Hg as [Hg|[Hg|Hg]]; [left; exact Hg | exfalso; apply Nij; apply (f_equal (fun o => match o with AStore k _ => k | ALoad k => k end)) in Hg; symmetry; exact Hg | right; exact Hg]. }
           exists h. split; [|exact Eh]. rewrite E1. apply in_app_iff in Ih. apply in_app_iff. destruct Ih as [Ih|Ih]; [left; exact Ih | right; right; exact Ih].
Qed.

(** *** any number of multiplications by zero *)
Lemma zero_run (ss : list (nat * aop F)) : (forall t i f, In (t, AStore i f) ss -> forall x, f x = 0) -> forall (m : Z -> F) (rg : nat -> F) (i : Z),
  fst (aexec ss (m, rg)) i = if existsb (fun o => match snd o with AStore j _ => (j =? i)%Z | _ => false end) ss then 0 else m i.
Proof.
  induction ss as [|[t o] ss IH]; intros H m rg i; [reflexivity|].
  assert (H' : forall t0 i0 f, In (t0, AStore i0 f) ss -> forall x, f x = 0) by (intros; eapply H; right; eassumption).
  cbn [aexec fold_left aexec1]. destruct o as [j|j f].
  - change (fold_left aexec1 ss ?s) with (aexec ss s). rewrite (IH H'). reflexivity.
  - change (fold_left aexec1 ss ?s) with (aexec ss s). rewrite (IH H'). cbn [existsb snd]. rewrite (Z.eqb_sym j i).
    destruct (i =? j)%Z eqn:C; cbn [orb]; [|reflexivity]. destruct (existsb _ ss); [reflexivity|]. apply (H t j f (or_introl eq_refl)).
Qed.

Lemma seqval_notin (l : list (Z * F)) (i : Z) (x : F) : ~ In i (map fst l) -> seqval l i x = x.
Proof.
  revert x. induction l as [|[j f] l IH]; intros x H; [reflexivity|]. unfold seqval in *. cbn [fold_left fst snd]. simpl in H.
  destruct (j =? i)%Z eqn:C; [apply Z.eqb_eq in C; tauto|]. apply IH. tauto.
Qed.
Lemma seqval_once (l : list (Z * F)) (i : Z) (f x : F) : NoDup (map fst l) -> In (i, f) l -> seqval l i x = x * f.
Proof.
  revert x. induction l as [|[j g] l IH]; intros x ND H; [destruct H|]. inversion ND as [|? ? N1 N2]; subst. destruct H as [H|H].
  - injection H as -> ->. unfold seqval. cbn [fold_left fst snd]. rewrite Z.eqb_refl. apply (seqval_notin l i). exact N1.
  - unfold seqval in *. cbn [fold_left fst snd]. destruct (j =? i)%Z eqn:C; [|apply IH; assumption].
    apply Z.eqb_eq in C. subst j. exfalso. apply N1. change i with (fst (i, f)). apply in_map. exact H.
Qed.
Lemma seqval_zero (l : list (Z * F)) (i : Z) (x : F) : Forall (fun p => snd p = 0) l -> In i (map fst l) -> seqval l i x = 0.
Proof.
  assert (G : forall l x, Forall (fun p => snd p = 0) l -> x = 0 -> seqval l i x = 0).
  { clear. induction l as [|[j g] l IH]; intros x HF E; [exact E|]. inversion HF; subst. unfold seqval in *. cbn [fold_left fst snd] in *. destruct (j =? i)%Z; apply IH; auto. ring. }
  revert x. induction l as [|[j g] l IH]; intros x HF H; [destruct H|]. inversion HF as [|? ? H1 H2]; subst. cbn [snd] in H1. unfold seqval. cbn [fold_left fst snd].
  destruct (j =? i)%Z eqn:C; [apply G; [exact H2 | rewrite H1; ring]|]. apply IH; [exact H2|]. destruct H as [H|H]; [cbn in H; apply Z.eqb_neq in C; contradiction | exact H].
Qed.

Lemma ops_threads (ops : Z -> res (list (aop F))) (sc : Z -> list (Z * F)) (parts : list (list Z)) (ts : list (list (aop F))) :
  (forall it, In it (concat parts) -> ops it = Ok (prog (sc it))) ->
  mapM (fun p => do l <- mapM ops p; Ok (concat l)) parts = Ok ts -> ts = map (fun p => prog (flat_map sc p)) parts.
Proof.
  revert ts. induction parts as [|p parts IH]; intros ts H; cbn [mapM]; [intros E; injection E as <-; reflexivity|].
  assert (E1 : mapM ops p = Ok (map (fun it => prog (sc it)) p)).
  { apply mapM_ok. intros it I. apply H. simpl. apply in_app_iff. left. exact I. }
  rewrite E1. cbn [bind]. destruct (mapM _ parts) as [ts'| |] eqn:E2; try discriminate. cbn [bind]. intros E. injection E as <-.
  cbn [map]. f_equal; [|apply IH; [intros it I; apply H; simpl; apply in_app_iff; right; exact I | reflexivity]].
  unfold prog. rewrite flat_map_flat_map, flat_map_concat_map. reflexivity.
Qed.
Lemma threads_ok (ops : Z -> res (list (aop F))) (sc : Z -> list (Z * F)) (parts : list (list Z)) :
  (forall it, In it (concat parts) -> ops it = Ok (prog (sc it))) -> mapM (fun p => do l <- mapM ops p; Ok (concat l)) parts = Ok (map (fun p => prog (flat_map sc p)) parts).
Proof.
  induction parts as [|p parts IH]; intros H; cbn [mapM]; [reflexivity|].
  assert (E1 : mapM ops p = Ok (map (fun it => prog (sc it)) p)).
  { apply mapM_ok. intros it I. apply H. simpl. apply in_app_iff. left. exact I. }
  rewrite E1. cbn [bind]. rewrite IH by (intros it I; apply H; simpl; apply in_app_iff; right; exact I). cbn [bind map]. f_equal. f_equal.
  unfold prog. rewrite flat_map_flat_map, flat_map_concat_map. reflexivity.
Qed.

(** a parallel loop whose iterations multiply elements of the output: each element at most once, or only by zero *)
Lemma par_for_det (ops : Z -> res (list (aop F))) (sc : Z -> list (Z * F)) (L : list Z) (out : list F) :
  (forall it, In it L -> ops it = Ok (prog (sc it))) ->
  (NoDup (map fst (flat_map sc L)) \/ Forall (fun p => snd p = 0) (flat_map sc L)) ->
  forall r, par_for ops L out r <-> r = Ok (tab (length out) (fun i => seqval (flat_map sc L) (Z.of_nat i) (nth i out 0))).
Proof.
  intros HO HC r.
  assert (KEY : forall parts ss, Permutation (concat parts) L -> sched (map (fun p => prog (flat_map sc p)) parts) ss ->
     forall i, (0 <= i)%Z -> fst (aexec ss (fun i => nth (Z.to_nat i) out 0, fun _ => 0)) i = seqval (flat_map sc L) i (nth (Z.to_nat i) out 0)).
  { intros parts ss HP HS i Hi.
    set (ts := map (fun p => prog (flat_map sc p)) parts) in *.
    assert (CT : concat ts = prog (flat_map sc (concat parts))).
    { unfold ts, prog. rewrite flat_map_flat_map, flat_map_concat. f_equal. apply map_ext. intros p. rewrite flat_map_flat_map. reflexivity. }
    assert (PM : Permutation (flat_map sc (concat parts)) (flat_map sc L)) by (apply Permutation_flat_map'; exact HP).
    destruct HC as [ND|HZ].
    - assert (ND' : NoDup (map fst (flat_map sc (concat parts)))).
      { eapply Permutation_NoDup; [apply Permutation_sym, Permutation_map; exact PM | exact ND]. }
      destruct (once_run ts ss HS (fun i => nth (Z.to_nat i) out 0) (fun i => nth (Z.to_nat i) out 0) (fun _ => 0)) with (i := i) as [I1 I2].
      + intros t l Hl. left. unfold ts in Hl. rewrite nth_error_map in Hl. destruct (nth_error parts t) as [p|]; [|discriminate]. injection Hl as <-. eexists. reflexivity.
      + rewrite CT, stores_prog. exact ND'.
      + reflexivity.
      + rewrite CT, stores_prog in I1. destruct (in_dec Z.eq_dec i (map fst (flat_map sc (concat parts)))) as [I|N].
        * apply in_map_iff in I. destruct I as [[j f] [Ej I]]. cbn in Ej. subst j.
          assert (Ia : In (AStore i (fun x => x * f)) (concat ts)).
          { rewrite CT. unfold prog. apply in_flat_map. exists (i, f). split; [exact I | right; left; reflexivity]. }
          destruct (I2 f Ia) as [g [Ig Eg]]. rewrite Eg. rewrite CT in Ig. unfold prog in Ig. apply in_flat_map in Ig. destruct Ig as [[j h] [Ih Hh]].
          destruct Hh as [Hh|[Hh|[]]]; [discriminate|]. cbn [fst snd] in Hh.
          assert (Ej : j = i) by (apply (f_equal (fun o => match o with AStore k _ => k | ALoad k => k end)) in Hh; exact Hh). subst j.
          assert (Eg' : g (nth (Z.to_nat i) out 0) = nth (Z.to_nat i) out 0 * h).
          { apply (f_equal (fun o => match o with AStore _ k => k | ALoad _ => fun x => x end)) in Hh. rewrite <- Hh. reflexivity. }
          rewrite Eg'. symmetry. apply seqval_once; [exact ND|]. eapply Permutation_in; [exact PM | exact Ih].
        * rewrite (I1 N). symmetry. apply seqval_notin. intros C. apply N. eapply Permutation_in; [apply Permutation_sym, Permutation_map; exact PM | exact C].
    - assert (HZ' : forall j f, In (j, f) (flat_map sc (concat parts)) -> f = 0).
      { intros j f I. rewrite Forall_forall in HZ. apply (HZ (j, f)). eapply Permutation_in; [exact PM | exact I]. }
      assert (SI : forall t o, In (t, o) ss -> In o (prog (flat_map sc (concat parts)))).
      { intros t o I. apply (sched_tag ts ss HS) in I. rewrite <- CT. destruct (nth_in_or_default t ts []) as [J|J]; [apply in_concat; exists (nth t ts []); split; assumption | rewrite J in I; destruct I]. }
      rewrite (zero_run ss).
      2:{ intros t j f I x. apply SI in I. unfold prog in I. apply in_flat_map in I. destruct I as [[k h] [I1 I2]]. destruct I2 as [I2|[I2|[]]]; [discriminate|].
          cbn [fst snd] in I2. apply (f_equal (fun o => match o with AStore _ k => k x | ALoad _ => x end)) in I2. cbn in I2. rewrite <- I2, (HZ' k h I1). ring. }
      destruct (in_dec Z.eq_dec i (map fst (flat_map sc (concat parts)))) as [I|N].
      + replace (existsb _ ss) with true.
        * symmetry. apply seqval_zero; [exact HZ|]. eapply Permutation_in; [apply Permutation_map; exact PM | exact I].
        * symmetry. apply existsb_exists. apply in_map_iff in I. destruct I as [[j f] [Ej I]]. cbn in Ej. subst j.
          assert (Ia : In (AStore i (fun x => x * f)) (concat ts)).
          { rewrite CT. unfold prog. apply in_flat_map. exists (i, f). split; [exact I | right; left; reflexivity]. }
          apply in_concat in Ia. destruct Ia as [l [Il Ia]]. apply (In_nth _ _ []) in Il. destruct Il as [t [Ht El]]. rewrite <- El in Ia.
          rewrite <- (sched_proj ts ss HS t) in Ia. apply in_map_iff in Ia. destruct Ia as [[u o] [Eo Io]]. apply filter_In in Io. cbn in Eo. subst o.
          exists (u, AStore i (fun x => x * f)). split; [apply Io | cbn; apply Z.eqb_refl].
      + replace (existsb _ ss) with false.
        * symmetry. apply seqval_notin. intros C. apply N. eapply Permutation_in; [apply Permutation_sym, Permutation_map; exact PM | exact C].
        * symmetry. apply not_true_iff_false. intros C. apply existsb_exists in C. destruct C as [[u o] [Io Co]]. apply SI in Io. cbn in Co. destruct o as [j|j f]; [discriminate|].
          apply Z.eqb_eq in Co. subst j. apply N. rewrite <- stores_prog. unfold stores. apply in_flat_map. exists (AStore i f). split; [exact Io | left; reflexivity]. }
  assert (TT : forall ss parts, Permutation (concat parts) L -> sched (map (fun p => prog (flat_map sc p)) parts) ss ->
      tab (length out) (fun i => fst (aexec ss (fun i => nth (Z.to_nat i) out 0, fun _ => 0)) (Z.of_nat i)) = tab (length out) (fun i => seqval (flat_map sc L) (Z.of_nat i) (nth i out 0))).
  { intros ss parts HP HS. apply tab_ext. intros i Hi. rewrite (KEY parts ss HP HS) by lia. rewrite Nat2Z.id. reflexivity. }
  split.
  - intros [parts [HP HR]]. rewrite (threads_ok ops sc parts) in HR.
    2:{ intros it I. apply HO. eapply Permutation_in; [exact HP | exact I]. }
    destruct HR as [ss [HS ->]]. cbv zeta. f_equal. apply (TT ss parts HP HS).
  - intros ->. exists [L]. simpl concat. rewrite app_nil_r. split; [apply Permutation_refl|].
    rewrite (threads_ok ops sc [L]) by (simpl; rewrite app_nil_r; exact HO).
    destruct (sched_exists (map (fun p => prog (flat_map sc p)) [L])) as [ss HS]. exists ss. split; [exact HS|]. cbv zeta. f_equal. symmetry. apply (TT ss [L]); [simpl; rewrite app_nil_r; apply Permutation_refl | exact HS].
Qed.
End P.
