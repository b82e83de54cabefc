(** Dense linear algebra used by the C code: GSL's gsl_linalg_LU_decomp / LU_solve / LU_invert and
    BLAS dgemm, modelled by Gaussian elimination with partial pivoting in exact arithmetic.
    GSL keeps the factors and solves later; here the original matrix is kept and the elimination is
    redone for each right-hand side, which is the same function in exact arithmetic.  For a
    singular matrix GSL calls its error handler, which aborts the process: [UB]. *)
From Verif Require Import Base.
Open Scope nat_scope.

Section LinAlg.
Context {F : ofield}.
Local Open Scope F_scope.
Notation mat := (list (list F)).

Fixpoint dot (a b : list F) : F :=
  match a, b with x :: a', y :: b' => x * y + dot a' b' | _, _ => 0 end.
Definition fabs (x : F) : F := if 0 <=? x then x else - x.

(** one equation: coefficients and right-hand side *)
Notation eqn := (list F * F)%type.
Definition lead (r : eqn) : F := hd 0 (fst r).

(** choose the row with the largest leading coefficient, if any is non-zero *)
Fixpoint pick (rows : list eqn) : option (eqn * list eqn) :=
  match rows with
  | [] => None
  | r :: t =>
      match pick t with
      | None => if lead r =? 0 then None else Some (r, t)
      | Some (p, t') => if fabs (lead p) <=? fabs (lead r) then Some (r, t) else Some (p, r :: t')
      end
  end.
Fixpoint axpy (c : F) (a b : list F) : list F :=
  match a, b with x :: a', y :: b' => (x - c * y) :: axpy c a' b' | _, _ => [] end.
Definition elim (p r : eqn) : eqn :=
  let c := lead r / lead p in (axpy c (tl (fst r)) (tl (fst p)), snd r - c * snd p).
Fixpoint gauss (n : nat) (rows : list eqn) : option (list F) :=
  match n with
  | O => Some []
  | S m =>
      match pick rows with
      | None => None
      | Some (p, t) =>
          match gauss m (map (elim p) t) with
          | None => None
          | Some xs => Some ((snd p - dot (tl (fst p)) xs) / lead p :: xs)
          end
      end
  end.

(** gsl_linalg_LU_decomp followed by gsl_linalg_LU_solve *)
Definition lu_solve (A : mat) (b : list F) : res (list F) :=
  match gauss (length A) (combine A b) with Some x => Ok x | None => UB end.
Definition unit_vec (n j : nat) : list F := tab n (fun i => kron i j).
(** gsl_linalg_LU_invert: solve for each unit vector; the solutions are the columns *)
Definition lu_invert (A : mat) : res mat :=
  let n := length A in
  do cols <- mapM (fun j => lu_solve A (unit_vec n j)) (seq 0 n);
  Ok (tab n (fun i => tab n (fun j => nth i (nth j cols []) 0))).
Definition entry2 (A : mat) (i j : nat) : F := nth j (nth i A []) 0.
(** gsl_blas_dgemm(NoTrans,NoTrans,1,A,B,0,C): n x k times k x m *)
Definition mat_mul (n k m : nat) (A B : mat) : mat :=
  tab n (fun i => tab m (fun j => sum k (fun p => entry2 A i p * entry2 B p j))).
End LinAlg.
