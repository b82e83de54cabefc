(** Model of the curved-sky workspace: src/nmt_master.c (everything except the computation of the
    coupling coefficients, which is in M_MCM.v), the SWIG wrappers of pymaster/namaster.i and the
    methods of pymaster/workspaces.py:NmtWorkspace. *)
From Verif Require Import Base M_Bins M_LinAlg.
Open Scope nat_scope.

Section Workspace.
Context {F : ofield}.
Local Open Scope F_scope.
Notation mat := (list (list F)).

(** nmt_workspace (namaster.h:695-709).
    [w_mcm = None]: coupling_matrix_unbinned is NULL (file read without it).
    [w_w2 = None]: the field w2 has not been initialised (nmt_io.c:27-59 does not read it).
    [w_mb] is the binned matrix before LU factorisation (see M_LinAlg.v).  The binning scheme is a
    deep copy of the caller's (nmt_master.c:4-26), so it is simply a value here. *)
Record wsp := Wsp {
  w_lmax : Z; w_lmax_fields : Z; w_lmax_mask : Z; w_teb : bool; w_ncls : nat;
  w_beam : list F; w_pcl : list F; w_mcm : option mat; w_bin : bins F;
  w_norm : Z; w_w2 : option F; w_mb : mat }.
Definition set_mb (w : wsp) (m : mat) : wsp :=
  Wsp (w_lmax w) (w_lmax_fields w) (w_lmax_mask w) (w_teb w) (w_ncls w) (w_beam w) (w_pcl w)
      (w_mcm w) (w_bin w) (w_norm w) (w_w2 w) m.
Definition set_beam (w : wsp) (b : list F) : wsp :=
  Wsp (w_lmax w) (w_lmax_fields w) (w_lmax_mask w) (w_teb w) (w_ncls w) b (w_pcl w)
      (w_mcm w) (w_bin w) (w_norm w) (w_w2 w) (w_mb w).
Definition set_bin (w : wsp) (b : bins F) : wsp :=
  Wsp (w_lmax w) (w_lmax_fields w) (w_lmax_mask w) (w_teb w) (w_ncls w) (w_beam w) (w_pcl w)
      (w_mcm w) b (w_norm w) (w_w2 w) (w_mb w).
Definition set_mcm (w : wsp) (m : mat) : wsp :=
  Wsp (w_lmax w) (w_lmax_fields w) (w_lmax_mask w) (w_teb w) (w_ncls w) (w_beam w) (w_pcl w)
      (Some m) (w_bin w) (w_norm w) (w_w2 w) (w_mb w).

(** coupling_matrix_unbinned[i][j] *)
Definition mcm_rd (w : wsp) (i j : Z) : res F :=
  match w_mcm w with
  | None => UB
  | Some M => do r <- rd M i; rd r j
  end.
Definition nlm (w : wsp) : nat := Z.to_nat (w_lmax w + 1).
Definition nbands (w : wsp) : nat := length (b_bands (w_bin w)).
Definition ncl (w : wsp) : Z := Z.of_nat (w_ncls w).

(** nmt_master.c:82-95: one element of the binned matrix (the sum over pairs of multipoles is
    written as a double sum) *)
Definition bin_elem (w : wsp) (ib2 a ib3 b : nat) : res F :=
  if (w_norm w =? 0)%Z then
    do x2 <- rd (b_bands (w_bin w)) (Z.of_nat ib2);
    do x3 <- rd (b_bands (w_bin w)) (Z.of_nat ib3);
    lsumM (fun e2 => lsumM (fun e3 =>
      do m <- mcm_rd w (ncl w * e_ell e2 + Z.of_nat a) (ncl w * e_ell e3 + Z.of_nat b);
      do bm <- rd (w_beam w) (e_ell e3);
      Ok (m * bm * e_w e2 * e_f e2 / e_f e3)) x3) x2
  else if Nat.eqb (w_ncls w * ib2 + a) (w_ncls w * ib3 + b) then
    match w_w2 w with Some x => Ok x | None => UB end
  else Ok 0.
(** nmt_master.c:74-104: every element (ncls*ib2+a, ncls*ib3+b) is set exactly once *)
Definition bin_coupling_matrix (w : wsp) : res wsp :=
  let n := w_ncls w in
  do m <- tabM (n * nbands w) (fun r => tabM (n * nbands w) (fun c =>
            bin_elem w (r / n) (r mod n) (c / n) (c mod n)));
  Ok (set_mb w m).

(** nmt_master.c:1075-1076 and 129-131: products of the two beams up to lmax_fields *)
Definition beam_product (lmaxf : Z) (b1 b2 : list F) : res (list F) :=
  tabM (Z.to_nat (lmaxf + 1)) (fun l => do x <- rd b1 (Z.of_nat l); do y <- rd b2 (Z.of_nat l); Ok (x * y)).

(** comp_coupling_matrix (namaster.i:485-486, the beams have lmax+1 elements), the check of the bins
    (nmt_master.c:1065-1068), nmt_workspace_new (28-56), the beam and mask-spectrum loops (1075-1079),
    an unbinned matrix [mcm] (computed in M_MCM.v) and the final bin_coupling_matrix (1136) *)
Definition workspace_build (n_cl : nat) (bin : bins F) (is_teb : bool) (lmaxf lmaxm norm : Z) (w2 : F)
    (pcl b1 b2 : list F) (mcm : mat) : res wsp :=
  do _ <- guard (Z.of_nat (length b1) =? lmaxf + 1)%Z RuntimeError;
  do _ <- guard (Z.of_nat (length b2) =? lmaxf + 1)%Z RuntimeError;
  if (lmaxf <? b_lmax bin)%Z then Exn RuntimeError
  else
    do beam <- beam_product lmaxf b1 b2;
    bin_coupling_matrix (Wsp (b_lmax bin) lmaxf lmaxm is_teb n_cl beam pcl (Some mcm) bin norm (Some w2) []).

(** The functions that modify a workspace return the new contents of the C structure next to their
    outcome: an exception does not undo the assignments made before it. *)
Definition run_bin (w : wsp) : wsp * res unit :=
  match bin_coupling_matrix w with
  | Ok w' => (w', Ok tt)
  | Exn e => (w, Exn e)
  | UB => (w, UB)
  end.

(** ** nmt_update_coupling_matrix, nmt_master.c:106-118 (new_matrix is flat; ii*n_rows is an int) *)
Definition slice (l : list F) (i n : Z) : res (list F) :=
  tabM (Z.to_nat n) (fun k => rd l (i + Z.of_nat k)).
Definition c_update_coupling_matrix (w : wsp) (n_rows : Z) (flat : list F) : wsp * res unit :=
  if negb (n_rows =? ncl w * (w_lmax w + 1))%Z then (w, Exn RuntimeError)
  else
    match w_mcm w with
    | None => (w, UB)
    | Some _ =>
        match tabM (Z.to_nat n_rows) (fun ii => do o <- i32 (Z.of_nat ii * n_rows); slice flat o n_rows) with
        | Ok m => run_bin (set_mcm w m)
        | _ => (w, UB)
        end
    end.
(** nmt_master.c:120-135 *)
Definition c_update_beams (w : wsp) (b1 b2 : list F) : wsp * res unit :=
  if ((Z.of_nat (length b1) <=? w_lmax_fields w) || (Z.of_nat (length b2) <=? w_lmax_fields w))%Z
  then (w, Exn RuntimeError)
  else match beam_product (w_lmax_fields w) b1 b2 with
       | Ok beam => run_bin (set_beam w beam)
       | _ => (w, UB)
       end.
(** nmt_master.c:137-155 *)
Definition c_update_bins (w : wsp) (b : bins F) : wsp * res unit :=
  if negb (b_lmax b =? b_lmax (w_bin w))%Z then (w, Exn RuntimeError)
  else run_bin (set_bin w b).

(** nmt_master.c:1141-1159 *)
Definition c_couple (w : wsp) (cl : mat) : res mat :=
  tabM (w_ncls w) (fun i => tabM (nlm w) (fun l1 =>
    sumM (nlm w) (fun l2 => sumM (w_ncls w) (fun j =>
      do m <- mcm_rd w (ncl w * Z.of_nat l1 + Z.of_nat i) (ncl w * Z.of_nat l2 + Z.of_nat j);
      do b <- rd (w_beam w) (Z.of_nat l2);
      do r <- rd cl (Z.of_nat j);
      do c <- rd r (Z.of_nat l2);
      Ok (m * b * c))))).

(** nmt_master.c:1226-1254 *)
Definition rd2 (M : mat) (i j : Z) : res F := do r <- rd M i; rd r j.
Definition binned_data (w : wsp) (cl noise bias : mat) (icl ib : nat) : res F :=
  do x <- rd (b_bands (w_bin w)) (Z.of_nat ib);
  lsumM (fun e =>
    do c <- rd2 cl (Z.of_nat icl) (e_ell e);
    do n <- rd2 noise (Z.of_nat icl) (e_ell e);
    do d <- rd2 bias (Z.of_nat icl) (e_ell e);
    Ok ((c - n - d) * e_f e * e_w e)) x.
Definition c_decouple (w : wsp) (cl noise bias : mat) : res mat :=
  let n := w_ncls w in
  do v <- tabM (n * nbands w) (fun r => binned_data w cl noise bias (r mod n) (r / n));
  do x <- lu_solve (w_mb w) v;
  tabM n (fun icl => tabM (nbands w) (fun ib => rd x (ncl w * Z.of_nat ib + Z.of_nat icl))).

(** nmt_master.c:1161-1224: flat output array *)
Definition coupled_binned (w : wsp) (r c : nat) : res F :=
  let n := w_ncls w in
  do x <- rd (b_bands (w_bin w)) (Z.of_nat (r / n));
  lsumM (fun e =>
    do m <- mcm_rd w (ncl w * e_ell e + Z.of_nat (r mod n)) (Z.of_nat c);
    do b <- rd (w_beam w) (Z.of_nat (c / n));
    Ok (m * b * (e_f e * e_w e))) x.
Definition c_windows (w : wsp) : res (list F) :=
  let n := w_ncls w in
  let nr := (n * nbands w)%nat in
  let nc := (n * nlm w)%nat in
  do mc <- tabM nr (fun r => tabM nc (fun c => coupled_binned w r c));
  do inv <- lu_invert (w_mb w);
  let win := mat_mul nr nr nc inv mc in
  Ok (tab (nr * nc) (fun k => entry2 win (k / nc) (k mod nc))).

(** ** pymaster/workspaces.py:NmtWorkspace *)
Record pyw := PyW { p_wsp : option wsp; p_unb : bool }.
(** workspaces.py:142-148 *)
Definition check_unbinned (p : pyw) : res unit := guard (p_unb p) ValueError.
(** attribute access on self.wsp: AttributeError when it is None *)
Definition need_wsp (p : pyw) (e : exn) : res wsp :=
  match p_wsp p with Some w => Ok w | None => Exn e end.

(** len(x) and len(x[0]) of an array argument, and its rows.
    Arrays with more than two dimensions are rejected by the SWIG typemaps (TypeError). *)
Definition spec_shape (n : Z) (lmin : Z) (a : arr F) : res (nat * mat) :=
  match a with
  | A1 v => if (Z.of_nat (length v) =? n)%Z then Exn TypeError else Exn ValueError
  | A2 k rows => if (Z.of_nat (length rows) =? n)%Z then
                   match rows with
                   | [] => Exn IndexError
                   | _ => if (Z.of_nat k <? lmin)%Z then Exn ValueError else Ok (k, rows)
                   end
                 else Exn ValueError
  | AN => Exn TypeError
  end.

(** workspaces.py:344-362 and namaster.i:137-148 ((long)(ii*nrows) multiplies two ints) *)
Definition get_coupling_matrix (p : pyw) : res mat :=
  do w <- need_wsp p RuntimeError;
  do _ <- check_unbinned p;
  let nrows := ((w_lmax w + 1) * ncl w)%Z in
  tabM (Z.to_nat nrows) (fun ii =>
    do _ <- i32 (Z.of_nat ii * nrows);
    tabM (Z.to_nat nrows) (fun jj => mcm_rd w (Z.of_nat ii) (Z.of_nat jj))).

(** flatten *)
Definition flatten (a : arr F) : list F := match a with A1 v => v | A2 _ rows => concat rows | AN => [] end.
Definition arr_len (a : arr F) : Z :=
  match a with A1 v => Z.of_nat (length v) | A2 _ rows => Z.of_nat (length rows) | AN => (-1)%Z end.
(** Methods that modify the Python object: new object and outcome *)
Definition on_wsp (p : pyw) (e : exn) (f : wsp -> wsp * res unit) : pyw * res unit :=
  match p_wsp p with
  | None => (p, Exn e)
  | Some w => let '(w', r) := f w in (PyW (Some w') (p_unb p), r)
  end.
(** workspaces.py:364-382 and namaster.i:124-129 (nell3==n_rows*n_rows in int).
    Arrays with more than two dimensions are not modelled. *)
Definition update_coupling_matrix (p : pyw) (a : arr F) : pyw * res unit :=
  on_wsp p RuntimeError (fun w =>
    match check_unbinned p with
    | Ok _ =>
        if negb (arr_len a =? (w_lmax w + 1) * ncl w)%Z then (w, Exn ValueError)
        else match i32 (arr_len a * arr_len a) with
             | Ok sq => if negb (Z.of_nat (length (flatten a)) =? sq)%Z then (w, Exn RuntimeError)
                        else c_update_coupling_matrix w (arr_len a) (flatten a)
             | _ => (w, UB)
             end
    | Exn e => (w, Exn e)
    | UB => (w, UB)
    end).

(** workspaces.py:166-186; [None] is an argument that is not a list, tuple or array *)
Definition update_beams (p : pyw) (b1 b2 : option (list F)) : pyw * res unit :=
  match b1, b2 with
  | Some v1, Some v2 =>
      on_wsp p AttributeError (fun w =>
        if ((Z.of_nat (length v1) <=? w_lmax_fields w) || (Z.of_nat (length v2) <=? w_lmax_fields w))%Z
        then (w, Exn ValueError)
        else c_update_beams w v1 v2)
  | _, _ => (p, Exn ValueError)
  end.
(** workspaces.py:188-201 *)
Definition update_bins (p : pyw) (b : bins F) : pyw * res unit :=
  on_wsp p ValueError (fun w => c_update_bins w b).

(** workspaces.py:384-410 and namaster.i:787-805 *)
Definition couple_cell (p : pyw) (a : arr F) : res (arr F) :=
  do w <- need_wsp p AttributeError;
  do (k, rows) <- spec_shape (ncl w) (w_lmax w + 1) a;
  do _ <- check_unbinned p;
  do o <- c_couple w (map (firstn (nlm w)) rows);
  Ok (A2 (nlm w) o).

Definition zeros_like (a : mat) : mat := map (fun r => map (fun _ => 0) r) a.
(** workspaces.py:412-464 and namaster.i:719-751 (all three arrays must have the same length) *)
Definition decouple_cell (p : pyw) (a : arr F) (bias noise : option (arr F)) : res (arr F) :=
  do w <- need_wsp p AttributeError;
  do (k, rows) <- spec_shape (ncl w) (w_lmax w + 1) a;
  do (kb, rb) <- match bias with None => Ok (k, zeros_like rows) | Some x => spec_shape (ncl w) (w_lmax w + 1) x end;
  do (kn, rn) <- match noise with None => Ok (k, zeros_like rows) | Some x => spec_shape (ncl w) (w_lmax w + 1) x end;
  if (Nat.eqb k kn && Nat.eqb kn kb)%bool then
    do o <- c_decouple w rows rn rb; Ok (A2 (nbands w) o)
  else Exn RuntimeError.

(** workspaces.py:466-494: reshape to [n_bands,ncls,lmax+1,ncls] and transpose to [1,0,3,2] *)
Definition get_bandpower_windows (p : pyw) : res (list (list (list (list F)))) :=
  do _ <- check_unbinned p;
  do w <- need_wsp p AttributeError;
  do d <- c_windows w;
  let n := w_ncls w in
  Ok (tab n (fun i => tab (nbands w) (fun b => tab n (fun j => tab (nlm w) (fun l =>
        nth (((b * n + i) * nlm w + l) * n + j) d 0))))).
End Workspace.
Arguments wsp : clear implicits. Arguments pyw : clear implicits.
