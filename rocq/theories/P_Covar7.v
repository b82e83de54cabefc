(** C75: recomputing a covariance workspace.  What is left in the object after a successful, a rejected and a failed call. *)
From Coq Require Import QArith Qcanon.
From Verif Require Import Base M_Bins M_LinAlg M_Workspace M_MCM M_Utils M_Field M_Cell M_Covar P_Covar P_Covar4 P_Covar5 P_Covar6 P_Field7.
Open Scope nat_scope.

Section PCovar7.
Context {F : ofield}.
Variables (fsqrt fexp flog : F -> F) (pi : F) (junk : Z -> F) (w3j : Z -> Z -> Z -> Z -> Z -> F) (K : calc F).
Variables (a1 a2 : nfield F) (b1 b2 : option (nfield F)) (lt lex dl : Z) (s0 : bool).
Notation recompute self := (compute_coupling_coefficients fsqrt fexp flog pi junk w3j K self a1 a2 b1 b2 lt lex dl s0).
(** the fields of the second pair, which default to those of the first *)
Definition second (b : option (nfield F)) (a : nfield F) : nfield F := match b with Some f => f | None => a end.
(** the arguments are accepted: isotropic masks, compatible fields, valid Toeplitz parameters *)
Definition accepted : Prop :=
  (forall f, In f [a1; a2; second b1 a1; second b2 a2] -> f_mask_a f = None) /\
  (forall f, In f [a2; second b1 a1; second b2 a2] -> is_compatible a1 f true = true) /\
  toeplitz_sanity lt lex dl (f_lmax a1) (f_pe a1 || f_pb a1 || f_pe (second b1 a1) || f_pb (second b1 a1)) = Ok tt.

Lemma accepted_cases : accepted \/ (forall self, fst (recompute self) = self /\ snd (recompute self) <> Ok tt).
Proof.
  unfold compute_coupling_coefficients. fold (second b1 a1) (second b2 a2). change (opt b1 a1) with (second b1 a1). change (opt b2 a2) with (second b2 a2).
  destruct (anisotropic a1 || anisotropic a2 || anisotropic (second b1 a1) || anisotropic (second b2 a2))%bool eqn:E1; [right; intro self; split; [reflexivity | discriminate]|].
  destruct (negb (is_compatible a1 a2 true && is_compatible a1 (second b1 a1) true && is_compatible a1 (second b2 a2) true)) eqn:E2; [right; intro self; split; [reflexivity | discriminate]|].
  destruct (toeplitz_sanity lt lex dl (f_lmax a1) (f_pe a1 || f_pb a1 || f_pe (second b1 a1) || f_pb (second b1 a1))) as [[]|e|] eqn:E3; [|right; intro self; split; [reflexivity | discriminate]|right; intro self; split; [reflexivity | discriminate]].
  left. rewrite !orb_false_iff in E1. rewrite negb_false_iff, !andb_true_iff in E2. destruct E1 as [[[A1 A2] A3] A4]. destruct E2 as [[B1 B2] B3].
  assert (N : forall f : nfield F, anisotropic f = false -> f_mask_a f = None) by (intros f; unfold anisotropic; destruct (f_mask_a f); [discriminate | reflexivity]).
  split; [|split; [|exact E3]].
  - intros f [<-|[<-|[<-|[<-|[]]]]]; apply N; assumption.
  - intros f [<-|[<-|[<-|[]]]]; assumption.
Qed.
Lemma accepted_run self : accepted -> exists r, recompute self = match r with Ok w => (Some w, Ok tt) | Exn e => (None, Exn e) | UB => (None, UB) end /\
  (forall self', recompute self' = recompute self).
Proof.
  intros [A1 [A2 A3]]. unfold compute_coupling_coefficients. change (opt b1 a1) with (second b1 a1). change (opt b2 a2) with (second b2 a2).
  assert (N : forall f : nfield F, f_mask_a f = None -> anisotropic f = false) by (intros f E; unfold anisotropic; rewrite E; reflexivity).
  rewrite (N a1), (N a2), (N (second b1 a1)), (N (second b2 a2)) by (apply A1; cbn; auto). cbn [orb].
  rewrite (A2 a2), (A2 (second b1 a1)), (A2 (second b2 a2)) by (cbn; auto). cbn [andb negb]. rewrite A3.
  eexists. split; [reflexivity|]. intros self'. reflexivity.
Qed.
(** what the call does, and what it leaves behind when it succeeds, does not depend on what the workspace held *)
Theorem C75_history self self' : snd (recompute self) = snd (recompute self') /\ (snd (recompute self) = Ok tt -> fst (recompute self) = fst (recompute self') /\ fst (recompute self) <> None).
Proof.
  destruct accepted_cases as [A|R].
  - destruct (accepted_run self A) as [r [E H]]. rewrite (H self'). split; [reflexivity|]. intro S. split; [reflexivity|]. rewrite E in *. destruct r; cbn in *; try discriminate.
  - split; [|intro S; exfalso; exact (proj2 (R self) S)].
    unfold compute_coupling_coefficients. change (opt b1 a1) with (second b1 a1). change (opt b2 a2) with (second b2 a2).
    destruct (anisotropic a1 || anisotropic a2 || anisotropic (second b1 a1) || anisotropic (second b2 a2))%bool; [reflexivity|].
    destruct (negb (is_compatible a1 a2 true && is_compatible a1 (second b1 a1) true && is_compatible a1 (second b2 a2) true)); [reflexivity|]. destruct (toeplitz_sanity _ _ _ _ _); [|reflexivity|reflexivity]. match goal with |- snd (match ?x with _ => _ end) = _ => destruct x end; reflexivity.
Qed.
(** rejected arguments leave the coefficients already held untouched *)
Theorem C75_rejected self : ~ accepted -> fst (recompute self) = self /\ exists e, In e [NotImplementedError; ValueError] /\ snd (recompute self) = Exn e.
Proof.
  intros N. destruct accepted_cases as [A|R]; [contradiction|]. split; [apply R|].
  assert (D : forall s, snd (recompute s) = snd (recompute self)) by (intro s; apply C75_history).
  unfold compute_coupling_coefficients. change (opt b1 a1) with (second b1 a1). change (opt b2 a2) with (second b2 a2).
  destruct (anisotropic a1 || anisotropic a2 || anisotropic (second b1 a1) || anisotropic (second b2 a2))%bool eqn:E1; [exists NotImplementedError; split; [cbn; auto | reflexivity]|].
  destruct (negb (is_compatible a1 a2 true && is_compatible a1 (second b1 a1) true && is_compatible a1 (second b2 a2) true)) eqn:E2; [exists ValueError; split; [cbn; auto | reflexivity]|].
  destruct (toeplitz_sanity lt lex dl (f_lmax a1) (f_pe a1 || f_pb a1 || f_pe (second b1 a1) || f_pb (second b1 a1))) as [[]|e|] eqn:E3.
  - exfalso. apply N. rewrite !orb_false_iff in E1. rewrite negb_false_iff, !andb_true_iff in E2. destruct E1 as [[[A1 A2] A3] A4]. destruct E2 as [[B1 B2] B3].
    assert (M : forall f : nfield F, anisotropic f = false -> f_mask_a f = None) by (intros f; unfold anisotropic; destruct (f_mask_a f); [discriminate | reflexivity]).
    split; [|split; [|exact E3]]; [intros f [<-|[<-|[<-|[<-|[]]]]]; apply M; assumption | intros f [<-|[<-|[<-|[]]]]; assumption].
  - exists e. split; [|reflexivity]. revert E3. unfold toeplitz_sanity. destruct (0 <? lt)%Z; [|discriminate]. repeat (match goal with |- context [if ?c then _ else _] => destruct c end; try discriminate); injection 1 as <-; cbn; auto.
  - exfalso. revert E3. unfold toeplitz_sanity. destruct (0 <? lt)%Z; [|discriminate]. repeat (match goal with |- context [if ?c then _ else _] => destruct c end; try discriminate).
Qed.
(** a call that fails after its arguments were accepted leaves no coefficients behind: covariances then raise until the coefficients are computed again *)
Theorem C75_failed self e : accepted -> snd (recompute self) = Exn e -> fst (recompute self) = None.
Proof.
  intros A S. destruct (accepted_run self A) as [r [E _]]. rewrite E in *. destruct r; cbn in *; try discriminate; reflexivity.
Qed.
End PCovar7.

(** a field on a rectangular grid, recomputed after the harmonic transforms were switched to a library that refuses such grids *)
Section Ex.
Notation Q := Qc_field.
Definition car_fa : nfield Q := NField (Car 2 2 2 false false [qz 1; qz 1]) [qz 1] [qz 1; qz 1; qz 1; qz 1] None 1 1 [qz 1; qz 1] 0 1 false false false 0 0 0 None None None None None None None None.
Definition refusing : calc Q := Calc true (fun _ _ _ m => m) (fun _ _ _ m => m).
Example ex_failed : accepted car_fa car_fa None None (-1) (-1) (-1) /\
  forall self, compute_coupling_coefficients (fun _ : Q => qz 1) (fun _ : Q => qz 1) (fun _ : Q => qz 0) pq zj w1 refusing self car_fa car_fa None None (-1) (-1) (-1) false = (None, Exn ValueError).
Proof.
  split; [split; [|split]|].
  - intros f H. cbn [In second] in H. destruct H as [<-|[<-|[<-|[<-|[]]]]]; reflexivity.
  - intros f H. cbn [In second] in H. destruct H as [<-|[<-|[<-|[]]]]; vm_compute; reflexivity.
  - vm_compute. reflexivity.
  - intro self. vm_compute. reflexivity.
Qed.
Example ex_rejected : ~ accepted fa fa None None 5 1 1 /\ accepted fa fa None None (-1) (-1) (-1).
Proof.
  split; [intros [_ [_ H]]; vm_compute in H; discriminate H|].
  split; [|split].
  - intros f H. cbn [In second] in H. destruct H as [<-|[<-|[<-|[<-|[]]]]]; vm_compute; reflexivity.
  - intros f H. cbn [In second] in H. destruct H as [<-|[<-|[<-|[]]]]; vm_compute; reflexivity.
  - vm_compute. reflexivity.
Qed.
End Ex.
Print Assumptions C75_history. Print Assumptions C75_rejected. Print Assumptions C75_failed.
