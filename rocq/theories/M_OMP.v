(** Parallel execution of the mode-coupling computation: the five OpenMP regions of
    src/nmt_master.c (224-306, 359-395, 505-648, 764-928, 1089-1131).
    A region hands the iterations of its loop, in any order, to any number of threads.  A thread
    performs its iterations one after the other with private buffers; every elementary assignment is
    a sequence of loads into thread-private registers followed by one store, and the loads and stores of
    different threads interleave arbitrarily.  The region ends with a barrier.  Memory is sequentially
    consistent, which is what OpenMP guarantees to programs without data races (theorems C27_race_free). *)
From Coq Require Import Permutation.
From Verif Require Import Base M_Bins M_LinAlg M_Workspace M_MCM.
Open Scope Z_scope.

Section OMP.
Context {F : ofield}.
Local Open Scope F_scope.
Notation store := (store F).
Notation step := (step F).
Notation conf := (conf F).

Inductive mop := MLoad (x : cell) | MStore (x : cell) (f : list F -> F).
Definition micro (s : step) : list mop := map MLoad (s_src s) ++ [MStore (s_dst s) (s_fun s)].
(** shared memory and the registers of every thread *)
Definition mstate := (store * (nat -> list F))%type.
Definition mexec1 (m : mstate) (o : nat * mop) : mstate :=
  let '(st, rg) := m in
  let '(t, op) := o in
  match op with
  | MLoad x => (st, fun u => if Nat.eqb u t then rg t ++ [st x] else rg u)
  | MStore x f => (fun y => if cell_eqb y x then f (rg t) else st y, fun u => if Nat.eqb u t then [] else rg u)
  end.
Definition mexec (ss : list (nat * mop)) (m : mstate) : mstate := fold_left mexec1 ss m.
(** [sched ts ss]: [ss] is an interleaving of the instruction sequences [ts], each instruction tagged with its thread *)
Fixpoint upd_nth {A} (n : nat) (a : A) (l : list A) : list A :=
  match l, n with [], _ => [] | _ :: t, O => a :: t | x :: t, S m => x :: upd_nth m a t end.
Inductive sched {A} : list (list A) -> list (nat * A) -> Prop :=
| sched_done ts : (forall t, In t ts -> t = []) -> sched ts []
| sched_step ts t x rest ss : nth_error ts t = Some (x :: rest) -> sched (upd_nth t rest ts) ss -> sched ts ((t, x) :: ss).
(** a parallel loop over [L] started in memory [st] can end with [r] *)
Definition region {B} (c : conf) (it : B -> Z -> res (B * list step)) (fresh : B) (L : list Z) (st : store) (r : res store) : Prop :=
  exists parts, Permutation (concat parts) L /\
    match mapM (fun p => do (_, ss) <- thread it fresh p; Ok ss) parts with
    | Ok ts => exists ss, sched (map (flat_map micro) ts) ss /\
                 r = if forallb (forallb (step_ok c)) ts then Ok (fst (mexec ss (st, fun _ => []))) else UB
    | _ => r = UB
    end.
(** sequencing of possible outcomes *)
Definition thenR {A B} (R : res A -> Prop) (K : A -> res B -> Prop) (r : res B) : Prop :=
  (exists a, R (Ok a) /\ K a r) \/ (exists e, R (Exn e) /\ r = Exn e) \/ (R UB /\ r = UB).
Definition retR {A} (x : res A) (r : res A) : Prop := r = x.
(** loops without private buffers *)
Definition nobuf (f : Z -> list step) (b : unit) (l2 : Z) : res (unit * list step) := Ok (tt, f l2).

Variables (fsqrt fexp flog : F -> F) (pi : F) (junk : Z -> F).
Variable w3j : Z -> Z -> Z -> Z -> Z -> F.
(** nmt_compute_master_coefficients, nmt_master.c:653-995 *)
Definition par_master (c : conf) : res store -> Prop :=
  thenR (if (0 <? c_lt c)%Z then
           thenR (region c (tplz_iter fsqrt fexp flog junk w3j c) (new_bufs c) (zrange (lstart c) (c_lmax c)) zero_store) (fun st1 =>
           thenR (retR (run c (tplz_norm fsqrt c) st1)) (fun st2 =>
           region c (nobuf (tplz_fill_iter fsqrt c)) tt (zrange 0 (c_lmax c)) st2))
         else retR (Ok zero_store)) (fun st3 =>
  thenR (region c (iter fsqrt fexp flog junk w3j c) (new_bufs c) (zrange (lstart c) (c_lmax c)) st3) (fun st4 =>
  if (0 <? c_lt c)%Z then retR (run c (corner fsqrt c) st4) else retR (Ok st4))).
(** comp_coupling_matrix (namaster.i:470-493) and nmt_compute_coupling_matrix (nmt_master.c:1043-1139) *)
Definition par_comp_coupling_matrix (spin1 spin2 lmax lmm : Z) (pe1 pb1 pe2 pb2 : bool) (norm : Z) (w2 : F)
    (b1 b2 pcl : list F) (bin : bins F) (teb : bool) (lt lex dl : Z) : res (wsp F) -> Prop :=
  thenR (retR (guard (Z.of_nat (length b1) =? lmax + 1)%Z RuntimeError)) (fun _ =>
  thenR (retR (guard (Z.of_nat (length b2) =? lmax + 1)%Z RuntimeError)) (fun _ =>
  thenR (retR (guard (Z.of_nat (length pcl) =? lmm + 1)%Z RuntimeError)) (fun _ =>
  thenR (retR (guard (negb teb || ((spin1 =? 0)%Z && negb (spin2 =? 0)%Z)) RuntimeError)) (fun _ =>
  if (lmax <? b_lmax bin)%Z then retR (Exn RuntimeError) else
  let c := Conf (b_lmax bin) lmm [scaled pi pcl] spin1 spin2 pe1 pb1 pe2 pb2 teb lt lex dl in
  thenR (par_master c) (fun st =>
  thenR (region c (nobuf (apply_iter c)) tt (zrange 0 (c_lmax c)) st) (fun st' =>
  retR (workspace_build (c_ncls c) bin teb lmax lmm norm w2 (scaled pi pcl) b1 b2 (mcm_of c st')))))))).
(** nmt_compute_coupling_matrix_anisotropic, nmt_master.c:421-651 *)
Definition par_anisotropic (spin1 spin2 : Z) (an1 an2 : bool) (lmax lmm : Z)
    (p00 p0e pe0 p0b pb0 pee peb pbe pbb : list F) (b1 b2 : list F) (bin : bins F) (norm : Z) (w2 : F) : res (wsp F) -> Prop :=
  if (lmax <? b_lmax bin)%Z then retR (Exn RuntimeError) else
  let c := AConf (b_lmax bin) lmm spin1 spin2 an1 an2 p00 p0e pe0 p0b pb0 pee peb pbe pbb in
  thenR (region (to_conf c) (a_iter pi w3j c) (new_abufs c) (zrange (a_start c) (a_lmax c)) zero_store) (fun st =>
  retR (workspace_build (c_ncls (to_conf c)) bin false lmax lmm norm w2 (scaled pi p00) b1 b2 (mcm_of (to_conf c) st))).
End OMP.
Arguments mop : clear implicits.
