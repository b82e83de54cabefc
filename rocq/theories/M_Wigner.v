(** Model of the recursion that produces Wigner-3j symbols: src/utils.c:143-343 (drc3jj), statement by statement,
    after Schulten and Gordon.  Arithmetic is exact; [fsqrt] is sqrt.  The array thrcof is a map from indices to
    [option F], [None] being uninitialised; an access outside 0..size-1, the use of a variable that has no value and
    report_error (a longjmp out of a parallel region at every call site) are undefined.  The counters and all products
    of the integers l1, l2, l3, m1, m2, m3, doubles in the code, are integers. *)
From Verif Require Import Base M_LinAlg.
Open Scope Z_scope.

Section Wigner.
Context {F : ofield}.
Local Open Scope F_scope.
(** [big] is 1.79E308/20, utils.c:149-152 *)
Variables (fsqrt : F -> F) (big : F).
Definition huge : F := fsqrt big.
Definition srhuge : F := fsqrt huge.
Definition tiny : F := 1 / huge.
Definition srtiny : F := 1 / srhuge.

Definition thr := Z -> option F.
Definition t_rd (size : Z) (t : thr) (i : Z) : res F := if ((0 <=? i) && (i <? size))%Z then match t i with Some v => Ok v | None => UB end else UB.
Definition t_wr (size : Z) (t : thr) (i : Z) (v : F) : res thr := if ((0 <=? i) && (i <? size))%Z then Ok (fun j => if (j =? i)%Z then Some v else t j) else UB.
Definition need {A} (x : option A) : res A := match x with Some a => Ok a | None => UB end.
(** for(ii=lo; ii<lo+n; ii++) thrcof[ii] = f(thrcof[ii]); the code runs one of these loops downwards *)
Fixpoint t_map (size : Z) (f : F -> F) (lo : Z) (n : nat) (t : thr) : res thr :=
  match n with
  | O => Ok t
  | S k => do v <- t_rd size t lo; do t' <- t_wr size t lo (f v); t_map size f (lo + 1) k t'
  end.
Definition flush (th : F) (v : F) : F := if (fabs v <? th)%F then 0 else v.

Section Row.
Variables (il2 il3 im2 im3 size : Z).
Definition m1 : Z := (- im2 - im3)%Z.
Definition l1max : Z := (il2 + il3)%Z.
Definition l1min : Z := Z.max (Z.abs (il2 - il3)) (Z.abs m1).
Definition nfin : Z := (l1max - l1min + 1)%Z.
Definition sign2 : Z := if (Z.abs (il2 + im2 - il3 + im3) mod 2 =? 0)%Z then 1%Z else (-1)%Z.

(** ** Forward series, utils.c:190-238 *)
Record fw := Fw { f_lstep : Z; f_l1 : Z; f_conv : bool; f_newfac : F; f_c1 : F; f_c1old : option F; f_denom : option F;
                  f_x : option F; f_sum1 : F; f_sumfor : option F; f_thr : thr }.
(** utils.c:197-201 *)
Definition a1 (l1 : Z) : Z := ((l1 + il2 + il3 + 1) * (l1 - il2 + il3) * (l1 + il2 - il3) * (- l1 + il2 + il3 + 1))%Z.
Definition a2 (l1 : Z) : Z := ((l1 + m1) * (l1 - m1))%Z.
(** utils.c:204, 268 *)
Definition dv (l1 : Z) : Z := (- il2 * (il2 + 1) * m1 + il3 * (il3 + 1) * m1 + l1 * (l1 - 1) * (im3 - im2))%Z.
Definition fstep (s : fw) : res fw :=
  let lstep := (f_lstep s + 1)%Z in
  let l1 := (f_l1 s + 1)%Z in
  let oldfac := f_newfac s in
  let newfac := fsqrt (fofZ (a1 l1 * a2 l1)) in
  let '(c1, c1old, denom) :=
    if (1 <? l1)%Z then
      let denom := fofZ (l1 - 1) * newfac in
      (- fofZ (l1 + l1 - 1) * fofZ (dv l1) / denom, (if (1 <? lstep)%Z then Some (fabs (f_c1 s)) else f_c1old s), Some denom)
    else (- fofZ (l1 + l1 - 1) * fofZ l1 * fofZ (im3 - im2) / newfac, f_c1old s, f_denom s) in
  if (lstep <=? 1)%Z then
    let x := srtiny * c1 in
    do t <- t_wr size (f_thr s) 1 x;
    Ok (Fw lstep l1 (f_conv s) newfac c1 c1old denom (Some x) (f_sum1 s + tiny * fofZ (l1 + l1 + 1) * c1 * c1) (f_sumfor s) t)
  else
    do d <- need denom;
    let c2 := - fofZ l1 * oldfac / d in
    do p1 <- t_rd size (f_thr s) (lstep - 1);
    do p2 <- t_rd size (f_thr s) (lstep - 2);
    let x := c1 * p1 + c2 * p2 in
    do t <- t_wr size (f_thr s) lstep x;
    let sumfor := f_sum1 s in
    let sum1 := f_sum1 s + fofZ (l1 + l1 + 1) * x * x in
    if (lstep <? nfin - 1)%Z then
      do (t, sum1, sumfor, x) <-
        (if (srhuge <=? fabs x)%F then
           do t <- t_map size (fun v => flush srtiny v / srhuge) 0 (Z.to_nat (lstep + 1)) t;
           Ok (t, sum1 / huge, sumfor / huge, x / srhuge)
         else Ok (t, sum1, sumfor, x));
      do co <- need c1old;
      Ok (Fw lstep l1 (f_conv s && negb (co <=? fabs c1)%F) newfac c1 c1old denom (Some x) sum1 (Some sumfor) t)
    else Ok (Fw lstep l1 (f_conv s) newfac c1 c1old denom (Some x) sum1 (Some sumfor) t).
(** while((lstep<nfin-1)&&(converging)) *)
Fixpoint fwd (n : nat) (s : fw) : res fw :=
  match n with
  | O => Ok s
  | S k => if ((f_lstep s <? nfin - 1)%Z && f_conv s)%bool then do s' <- fstep s; fwd k s' else Ok s
  end.
(** utils.c:183-189 *)
Definition fw0 (t : thr) : res fw :=
  do t <- t_wr size t 0 srtiny;
  Ok (Fw 0 l1min true 0 0 None None None (fofZ (l1min + l1min + 1) * tiny) None t).

(** ** Backward series, utils.c:241-296 *)
Record bw := Bw { b_lstep : Z; b_l1 : Z; b_newfac : F; b_y : option F; b_sum2 : F; b_sumbac : option F; b_thr : thr }.
Definition a1s (l1 : Z) : Z := ((l1 + il2 + il3) * (l1 - il2 + il3 - 1) * (l1 + il2 - il3 - 1) * (- l1 + il2 + il3 + 2))%Z.
Definition a2s (l1 : Z) : Z := ((l1 + m1 - 1) * (l1 - m1 - 1))%Z.
Definition bstep (nstep2 : Z) (s : bw) : res bw :=
  let lstep := (b_lstep s + 1)%Z in
  let l1 := (b_l1 s - 1)%Z in
  let oldfac := b_newfac s in
  let newfac := fsqrt (fofZ (a1s l1 * a2s l1)) in
  let denom := fofZ l1 * newfac in
  let c1 := - fofZ (l1 + l1 - 1) * fofZ (dv l1) / denom in
  if (lstep <=? 1)%Z then
    let y := srtiny * c1 in
    do t <- t_wr size (b_thr s) (nfin - 2) y;
    Ok (Bw lstep l1 newfac (Some y) (b_sum2 s + tiny * fofZ (l1 + l1 - 3) * c1 * c1) (Some (b_sum2 s)) t)
  else
    let c2 := - fofZ (l1 - 1) * oldfac / denom in
    do p1 <- t_rd size (b_thr s) (nfin - lstep);
    do p2 <- t_rd size (b_thr s) (nfin + 1 - lstep);
    let y := c1 * p1 + c2 * p2 in
    if negb (lstep =? nstep2 - 1)%Z then
      do t <- t_wr size (b_thr s) (nfin - lstep - 1) y;
      let sumbac := b_sum2 s in
      let sum2 := b_sum2 s + fofZ (l1 + l1 - 3) * y * y in
      do (t, sum2, sumbac) <-
        (if (srhuge <=? fabs y)%F then
           do t <- t_map size (fun v => flush srtiny v / srhuge) (nfin - lstep - 1) (Z.to_nat (lstep + 1)) t;
           Ok (t, sum2 / huge, sumbac / huge)
         else Ok (t, sum2, sumbac));
      Ok (Bw lstep l1 newfac (Some y) sum2 (Some sumbac) t)
    else Ok (Bw lstep l1 newfac (Some y) (b_sum2 s) (b_sumbac s) (b_thr s)).
Fixpoint bwd (nstep2 : Z) (n : nat) (s : bw) : res bw :=
  match n with
  | O => Ok s
  | S k => if (b_lstep s <? nstep2 - 1)%Z then do s' <- bstep nstep2 s; bwd nstep2 k s' else Ok s
  end.

(** ** Matching, utils.c:240-317: (sumuni, thrcof) *)
Definition matched (s : fw) : res (F * thr) :=
  do x1 <- need (f_x s);
  do x2 <- t_rd size (f_thr s) (f_lstep s - 1);
  do x3 <- t_rd size (f_thr s) (f_lstep s - 2);
  do sumfor <- need (f_sumfor s);
  let nstep2 := (nfin - f_lstep s - 1 + 3)%Z in
  do t <- t_wr size (f_thr s) (nfin - 1) srtiny;
  do b <- bwd nstep2 (Z.to_nat nstep2) (Bw 0 (l1max + 2) (f_newfac s) None (tiny * fofZ (l1max + l1max + 1)) None t);
  do y3 <- need (b_y b);
  do y2 <- t_rd size (b_thr b) (nfin - b_lstep b);
  do y1 <- t_rd size (b_thr b) (nfin + 1 - b_lstep b);
  do sumbac <- need (b_sumbac b);
  let ratio := (x1 * y1 + x2 * y2 + x3 * y3) / (x1 * x1 + x2 * x2 + x3 * x3) in
  let nlim := (nfin - nstep2 + 1)%Z in
  if (fabs ratio <? 1)%F then
    let nlim := (nlim + 1)%Z in
    let ratio := 1 / ratio in
    do t <- t_map size (fun v => v * ratio) (nlim - 1) (Z.to_nat (nfin - (nlim - 1))) (b_thr b);
    Ok (ratio * ratio * sumbac + sumfor, t)
  else
    do t <- t_map size (fun v => v * ratio) 0 (Z.to_nat nlim) (b_thr b);
    Ok (ratio * ratio * sumfor + sumbac, t).

(** ** Normalisation and sign, utils.c:318-338 *)
Definition normalised (sumuni : F) (t : thr) : res thr :=
  let cnorm := 1 / fsqrt sumuni in
  do last <- t_rd size t (nfin - 1);
  let sign1 := if (last <? 0)%F then (-1)%Z else 1%Z in
  let cnorm := if (sign1 * sign2 <=? 0)%Z then - cnorm else cnorm in
  if (1 <=? fabs cnorm)%F then t_map size (fun v => v * cnorm) 0 (Z.to_nat nfin) t
  else t_map size (fun v => flush (tiny / fabs cnorm) v * cnorm) 0 (Z.to_nat nfin) t.

(** ** drc3jj: the lowest l1 and the array *)
Definition drc3jj_values (t : thr) : res (Z * thr) :=
  if ((il2 - Z.abs im2 <? 0) || (il3 - Z.abs im3 <? 0))%Z then
    do t <- (fix zero (n : nat) (i : Z) (t : thr) := match n with O => Ok t | S k => do t <- t_wr size t i 0; zero k (i + 1)%Z t end) (Z.to_nat (l1max - l1min + 1)) 0%Z t;
    Ok (l1min, t)
  else if (l1max - l1min <? 0)%Z then UB
  else if (l1max =? l1min)%Z then
    do t <- t_wr size t 0 (fofZ sign2 / fsqrt (fofZ (l1min + il2 + il3 + 1)));
    Ok (l1min, t)
  else if (size <? nfin)%Z then UB
  else
    do s <- fw0 t;
    do s <- fwd (Z.to_nat nfin) s;
    do (sumuni, t) <- (if (2 <? nfin)%Z then matched s else Ok (f_sum1 s, f_thr s));
    do t <- normalised sumuni t;
    Ok (l1min, t).
End Row.
End Wigner.
