(** Parallel execution of mask apodisation: the OpenMP loops nmt_mask.c:43-84, 102-126 and
    nmt_mask_flat.c:19-80, 89-139.  Iterations are handed in any order to any number of threads; a
    multiplication of an element of the output is a load into a private register followed by a store,
    and the loads and stores of different threads interleave arbitrarily (the update of
    nmt_mask.c:120-121 is atomic, which allows fewer executions than considered here). *)
From Coq Require Import Permutation.
From Verif Require Import Base M_Utils M_Field M_OMP M_Apod.
Open Scope Z_scope.

Section Par.
Context {F : ofield}.
Local Open Scope F_scope.
Inductive aop := ALoad (i : Z) | AStore (i : Z) (f : F -> F).
Definition amem := ((Z -> F) * (nat -> F))%type.
Definition aexec1 (s : amem) (o : nat * aop) : amem :=
  let '(m, rg) := s in
  let '(t, op) := o in
  match op with
  | ALoad i => (m, fun u => if Nat.eqb u t then m i else rg u)
  | AStore i f => (fun j => if (j =? i)%Z then f (rg t) else m j, rg)
  end.
Definition aexec (ss : list (nat * aop)) (s : amem) : amem := fold_left aexec1 ss s.
(** out[i] *= f *)
Definition scale (i : Z) (f : F) : list aop := [ALoad i; AStore i (fun x => x * f)].
(** possible outcomes of "#pragma omp for" over [L] with body [ops] and output array [out] *)
Definition par_for (ops : Z -> res (list aop)) (L : list Z) (out : list F) (r : res (list F)) : Prop :=
  exists parts, Permutation (concat parts) L /\
    match mapM (fun p => do l <- mapM ops p; Ok (concat l)) parts with
    | Ok ts => exists ss, sched ts ss /\
        let m := fst (aexec ss (fun i => nth (Z.to_nat i) out 0, fun _ => 0)) in r = Ok (tab (length out) (fun i => m (Z.of_nat i)))
    | Exn e => r = Exn e
    | UB => r = UB
    end.

Variable M : libm F.
Variable centre_of : Z -> Z -> centre F.
(** nmt_mask.c:47-77 *)
Definition cx_ops (nside : Z) (mask : list F) (aporad : F) (c2 : bool) (len ip : Z) : res (list aop) :=
  do m <- rd mask ip;
  if 0 <? m then
    let c := centre_of nside ip in
    do disc <- query_disc M nside (v_z c) (v_phi c) (dec 6 5 * aporad) (len / 2);
    do d <- x2dist centre_of nside mask ip disc;
    let thr := 1 - m_cos M aporad in
    Ok (if d <? thr then scale ip (if d <=? 0 then 0 else window M c2 (m_sqrt M (d * (1 / thr)))) else [])
  else Ok [].
Definition par_CX (nside : Z) (mask : list F) (aposize : F) (c2 : bool) (r : res (list F)) : Prop :=
  match list_size M nside (dec 6 5 * radians M aposize) with
  | Ok len => par_for (cx_ops nside mask (radians M aposize) c2 len) (range 0 (12 * nside * nside - 1)) mask r
  | Exn e => r = Exn e
  | UB => r = UB
  end.
(** nmt_mask.c:108-123; an element outside the array is undefined behaviour *)
Definition smooth_ops (nside : Z) (mask : list F) (aporad : F) (len ip : Z) : res (list aop) :=
  let zero_ops j := do _ <- rd mask j; Ok (scale j 0) in
  do m <- rd mask ip;
  if m <=? 0 then do disc <- smooth_disc M centre_of nside aporad len ip; do l <- mapM zero_ops disc; Ok (concat l) else Ok [].
Definition par_smooth (nside : Z) (mask : list F) (aposize : F) (r : res (list F)) : Prop :=
  match list_size M nside (dec 5 2 * radians M aposize) with
  | Ok len => par_for (smooth_ops nside mask (radians M aposize) len) (range 0 (12 * nside * nside - 1)) mask r
  | Exn e => r = Exn e
  | UB => r = UB
  end.
(** nmt_mask_flat.c:42-75: one iteration is a row *)
Definition flat_cx_ops (nx ny npx npy : Z) (dx dy aporad : F) (mask : list F) (c2 : bool) (iy : Z) : res (list aop) :=
  do l <- mapM (fun ix =>
    do m <- rd mask (ix + nx * iy);
    if 0 <? m then
      do r <- flat_rmin M nx ny npx npy dx dy mask ix iy;
      Ok (if r <? aporad then scale (ix + nx * iy) (if r <? 0 then 0 else window M c2 (r * (1 / aporad))) else [])
    else Ok []) (range 0 (nx - 1));
  Ok (concat l).
Definition par_flat_CX (nx ny : Z) (lx ly : F) (mask : list F) (aposize : F) (c2 : bool) (r : res (list F)) : Prop :=
  let aporad := radians M aposize in
  match to_int M (dec 6 5 * aporad / flat_step nx lx) with
  | Ok np => par_for (flat_cx_ops nx ny np np (flat_step nx lx) (flat_step nx lx) aporad mask c2) (range 0 (ny - 1)) mask r
  | Exn e => r = Exn e
  | UB => r = UB
  end.
(** nmt_mask_flat.c:108-134 *)
Definition flat_smooth_ops (nx ny npx npy : Z) (dx dy xthr : F) (mask : list F) (iy : Z) : res (list aop) :=
  do l <- mapM (fun ix =>
    do m <- rd mask (ix + nx * iy);
    if m <=? 0 then
      do l <- mapM (fun p => let '(iyy, ixx) := p in
                if rarr M dx dy npx npy iyy ixx <=? xthr then
                  let j := (ix + ixx - npx + nx * (iy + iyy - npy))%Z in do _ <- rd mask j; Ok (scale j 0)
                else Ok []) (patch nx ny npx npy ix iy);
      Ok (concat l)
    else Ok []) (range 0 (nx - 1));
  Ok (concat l).
Definition par_flat_smooth_mask (nx ny npx npy : Z) (dx dy xthr : F) (mask : list F) (r : res (list F)) : Prop :=
  par_for (flat_smooth_ops nx ny npx npy dx dy xthr mask) (range 0 (ny - 1)) mask r.
(** nmt_mask.c:131-145 and nmt_mask_flat.c:149-172 *)
Definition par_apodize (nside : Z) (mask : list F) (aposize : F) (t : option apo) (r : res (list F)) : Prop :=
  if aposize <? 0 then r = Exn RuntimeError
  else if aposize =? 0 then r = Ok mask
  else match t with
       | Some C1 => par_CX nside mask aposize false r
       | Some C2 => par_CX nside mask aposize true r
       | Some Smooth => par_smooth nside mask aposize r
       | None => r = Exn RuntimeError
       end.
Variable gauss : Z -> Z -> F -> F -> F -> list F -> list F.
Definition par_flat_smooth (nx ny : Z) (lx ly : F) (mask : list F) (aposize : F) (r : res (list F)) : Prop :=
  let aporad := radians M aposize in
  let xthr := dec 5 2 * aporad in
  match to_int M (dec 6 5 * xthr / flat_step nx lx) with
  | Ok np => exists r1, par_flat_smooth_mask nx ny np np (flat_step nx lx) (flat_step nx lx) xthr mask r1 /\
               r = do m <- r1; Ok (zipw fmul mask (gauss nx ny lx ly (aporad * fofZ 180 * fofZ 60 * dec 2355 1000 / m_pi M) m))
  | Exn e => r = Exn e
  | UB => r = UB
  end.
Definition par_apodize_flat (nx ny : Z) (lx ly : F) (mask : list F) (aposize : F) (t : option apo) (r : res (list F)) : Prop :=
  if aposize <? 0 then r = Exn RuntimeError
  else if aposize =? 0 then r = Ok mask
  else match t with
       | Some C1 => par_flat_CX nx ny lx ly mask aposize false r
       | Some C2 => par_flat_CX nx ny lx ly mask aposize true r
       | Some Smooth => par_flat_smooth nx ny lx ly mask aposize r
       | None => r = Exn RuntimeError
       end.
End Par.
Arguments aop : clear implicits.
