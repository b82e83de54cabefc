(** Model of the computation of mode-coupling matrices: src/nmt_master.c:157-1139 (isotropic,
    purified, Toeplitz-approximated and anisotropic), the array discipline of the Wigner-3j routines
    of src/utils.c:82-343 and the two SWIG wrappers of pymaster/namaster.i:434-493.

    Shared memory is a store of cells; the code is a list of elementary steps on that store, produced
    iteration by iteration, so that the same definitions describe the sequential and the OpenMP
    executions (P_OMP.v).  Private 3j buffers are lists of [option F]: [None] is uninitialised. *)
From Verif Require Import Base M_Bins M_LinAlg M_Workspace.
Open Scope Z_scope.

(** lo, lo+1, ..., hi *)
Definition zrange (lo hi : Z) : list Z := map (fun k => lo + Z.of_nat k) (seq 0 (Z.to_nat (hi - lo + 1))).

(** ** Shared memory
    [CX a ic ip l2 l3]: xi_00[ic][l2][l3], xi_0s[ic][ip][l2][l3], xi_pp.., xi_mm..;
    [CT a ic il l2]: tplz_00[ic][il][l2], ...;  [CW i j]: coupling_matrix_unbinned[i][j]. *)
Inductive fam := K00 | K0s | Kpp | Kmm.
Inductive cell := CX (a : fam) (ic ip : nat) (l2 l3 : Z) | CT (a : fam) (ic il : nat) (l2 : Z) | CW (i j : Z).
Definition fam_eqb (a b : fam) : bool :=
  match a, b with K00, K00 | K0s, K0s | Kpp, Kpp | Kmm, Kmm => true | _, _ => false end.
Definition cell_eqb (c d : cell) : bool :=
  match c, d with
  | CX a ic ip l2 l3, CX a' ic' ip' l2' l3' =>
      fam_eqb a a' && Nat.eqb ic ic' && Nat.eqb ip ip' && (l2 =? l2') && (l3 =? l3')
  | CT a ic il l2, CT a' ic' il' l2' => fam_eqb a a' && Nat.eqb ic ic' && Nat.eqb il il' && (l2 =? l2')
  | CW i j, CW i' j' => (i =? i') && (j =? j')
  | _, _ => false
  end.

Section MCM.
Context {F : ofield}.
Local Open Scope F_scope.
Notation mat := (list (list F)).
(** libm and the Wigner-3j values are oracles; [pi] is M_PI; [junk i] is whatever lies in memory at
    position [i] outside the table of log-factorials. *)
Variables (fsqrt fexp flog : F -> F) (pi : F) (junk : Z -> F).
(** [w3j l2 l3 m2 m3 l1]: the value drc3jj computes for (l1 l2 l3; -m2-m3 m2 m3) *)
Variable w3j : Z -> Z -> Z -> Z -> Z -> F.

Definition store := cell -> F.
(** one elementary assignment: destination, cells read, and how the value is obtained from them *)
Record step := Step { s_dst : cell; s_src : list cell; s_fun : list F -> F }.
Definition exec1 (st : store) (s : step) : store :=
  fun c => if cell_eqb c (s_dst s) then s_fun s (map st (s_src s)) else st c.
Definition exec (ss : list step) (st : store) : store := fold_left exec1 ss st.
Definition set_step (c : cell) (v : F) : step := Step c [] (fun _ => v).
Definition add_step (c : cell) (v : F) : step := Step c [c] (fun x => nth 0 x 0 + v).
Definition copy_step (c d : cell) : step := Step c [d] (fun x => nth 0 x 0).
(** fabs *)
Definition fabs (x : F) : F := if (x <? 0)%F then - x else x.

(** ** nmt_master_calculator: the arguments of nmt_compute_master_coefficients (nmt_master.c:653-660) *)
Record conf := Conf {
  c_lmax : Z; c_lmm : Z; c_pcl : list (list F);
  c_spin1 : Z; c_spin2 : Z;
  c_pe1 : bool; c_pb1 : bool; c_pe2 : bool; c_pb2 : bool;
  c_teb : bool; c_lt : Z; c_lex : Z; c_dl : Z }.
(** nmt_master.c:664, 688-699 *)
Definition c_pany (c : conf) : bool := c_pe1 c || c_pb1 c || c_pe2 c || c_pb2 c.
Definition c_s1 (c : conf) : Z := if (c_spin1 c =? 0)%Z then (if (c_spin2 c =? 0)%Z then 0%Z else c_spin2 c) else c_spin1 c.
Definition c_s2 (c : conf) : Z := if (c_spin1 c =? 0)%Z then 0%Z else c_spin2 c.
(** nmt_master.c:701-710 *)
Definition c_has (c : conf) (a : fam) : bool :=
  if c_teb c then true else
  match a with
  | K00 => (c_s1 c =? 0)%Z && (c_s2 c =? 0)%Z
  | K0s => ((c_s1 c =? 0)%Z && negb (c_s2 c =? 0)%Z) || (negb (c_s1 c =? 0)%Z && (c_s2 c =? 0)%Z)
  | Kpp | Kmm => negb (c_s1 c =? 0)%Z && negb (c_s2 c =? 0)%Z
  end.
(** nmt_master.c:679-686 *)
Definition c_np (c : conf) (a : fam) : nat :=
  match a with
  | K00 => 1%nat
  | K0s => if c_pany c then 2%nat else 1%nat
  | _ => if c_pany c then 3%nat else 1%nat
  end.
Definition npcl (c : conf) : nat := length (c_pcl c).
(** number of spectra and rows of the unbinned matrix, nmt_master.c:1054-1062 *)
Definition c_ncls (c : conf) : nat :=
  if c_teb c then 7%nat else
  ((if (c_spin1 c =? 0)%Z then 1 else 2) * (if (c_spin2 c =? 0)%Z then 1 else 2))%nat.
(** allocations of nmt_master.c:712-744, 189-214 and of nmt_workspace_new *)
Definition in_l (c : conf) (l : Z) : bool := ((0 <=? l) && (l <=? c_lmax c))%Z.
Definition in_w (c : conf) (i : Z) : bool := ((0 <=? i) && (i <? Z.of_nat (c_ncls c) * (c_lmax c + 1)))%Z.
Definition cell_ok (c : conf) (x : cell) : bool :=
  match x with
  | CX a ic ip l2 l3 => c_has c a && Nat.ltb ic (npcl c) && Nat.ltb ip (c_np c a) && in_l c l2 && in_l c l3
  | CT a ic il l2 => c_has c a && Nat.ltb ic (npcl c) && Nat.ltb il 2 && in_l c l2
  | CW i j => in_w c i && in_w c j
  end.
Definition step_ok (c : conf) (s : step) : bool := forallb (cell_ok c) (s_dst s :: s_src s).
(** run: an access outside the allocated cells anywhere is undefined behaviour *)
Definition run (c : conf) (ss : list step) (st : store) : res store :=
  if forallb (step_ok c) ss then Ok (exec ss st) else UB.

(** ** Log-factorials, nmt_master.c:746-752 *)
Fixpoint lfac (n : nat) : F :=
  match n with O => 0 | S m => match m with O => 0 | _ => lfac m + flog (fofnat n) end end.
Definition lfac_size (c : conf) : Z := (3 * (Z.max (c_lmax c) (c_lmm c) + 1))%Z.
Definition lfac_in (c : conf) (i : Z) : bool := ((0 <=? i) && (i <? lfac_size c))%Z.
Definition lfac_rd (c : conf) (i : Z) : F := if lfac_in c i then lfac (Z.to_nat i) else junk i.

(** ** Wigner-3j routines *)
Definition sgn (z : Z) : F := if Z.odd z then - (1) else 1.
Definition buf := list (option F).
Definition bsize (c : conf) : Z := (2 * (c_lmm c + 1))%Z.
(** thrcof[0..n-1] written *)
Definition fillbuf (b : buf) (n : Z) (f : Z -> F) : res buf :=
  if (n <=? Z.of_nat (length b))%Z
  then Ok (map Some (map f (zrange 0 (n - 1))) ++ skipn (Z.to_nat n) b)
  else UB.
(** one value of drc3jj_000, utils.c:92-130 *)
Definition w000 (c : conf) (l2 l3 l1 : Z) : F :=
  if (l2 + l3 =? Z.abs (l2 - l3))%Z then sgn l1 / fsqrt (fofZ (l1 + l2 + l3 + 1))
  else
    let J := (l1 + l2 + l3)%Z in
    if Z.odd J then 0 else
    let g := (J / 2)%Z in
    sgn g * fexp (1 / (1 + 1) * (lfac_rd c (J - 2 * l1) + lfac_rd c (J - 2 * l2) + lfac_rd c (J - 2 * l3) - lfac_rd c (J + 1))
                  + (lfac_rd c g - lfac_rd c (g - l1) - lfac_rd c (g - l2) - lfac_rd c (g - l3))).
(** the table indices used for that value *)
Definition w000_reads (l2 l3 l1 : Z) : list Z :=
  if (l2 + l3 =? Z.abs (l2 - l3))%Z then [] else
  let J := (l1 + l2 + l3)%Z in
  if Z.odd J then [] else
  let g := (J / 2)%Z in [J - 2 * l1; J - 2 * l2; J - 2 * l3; J + 1; g; g - l1; g - l2; g - l3]%Z.
(** drc3jj_000, utils.c:82-132: (l1min, thrcof).  report_error is a longjmp out of an OpenMP parallel
    region here, i.e. undefined behaviour. *)
Definition drc3jj_000 (c : conf) (l2 l3 : Z) (b : buf) : res (Z * buf) :=
  let l1max := (l2 + l3)%Z in
  let l1min := Z.abs (l2 - l3) in
  if (l1max - l1min <? 0)%Z then UB
  else
    let nfin := (l1max - l1min + 1)%Z in
    if negb (l1max =? l1min)%Z && (bsize c <? nfin)%Z then UB
    else do b' <- fillbuf b nfin (fun i => w000 c l2 l3 (l1min + i)); Ok (l1min, b').
(** drc3jj, utils.c:143-343, without the recursion that produces the values (M_Wigner.v) *)
Definition drc3jj (c : conf) (l2 l3 m2 m3 : Z) (b : buf) : res (Z * buf) :=
  let m1 := (- m2 - m3)%Z in
  let l1max := (l2 + l3)%Z in
  let l1min := Z.max (Z.abs (l2 - l3)) (Z.abs m1) in
  if ((l2 - Z.abs m2 <? 0) || (l3 - Z.abs m3 <? 0))%Z then
    do b' <- fillbuf b (l1max - l1min + 1) (fun _ => 0); Ok (l1min, b')
  else if (l1max - l1min <? 0)%Z then UB
  else
    let nfin := (l1max - l1min + 1)%Z in
    if negb (l1max =? l1min)%Z && (bsize c <? nfin)%Z then UB
    else do b' <- fillbuf b nfin (fun i => w3j l2 l3 m2 m3 (l1min + i)); Ok (l1min, b').
(** wigner[j], reading an uninitialised element is undefined *)
Definition buf_rd (b : buf) (j : Z) : res F :=
  do x <- rd b j; match x with Some v => Ok v | None => UB end.
(** j < 0 ? 0 : wigner[j] *)
Definition buf_rd0 (b : buf) (j : Z) : res F := if (j <? 0)%Z then Ok 0 else buf_rd b j.

(** private buffers of a thread (nmt_master.c:767-782); NULL pointers are empty *)
Record bufs := Bufs { b_00 : buf; b_ss1 : buf; b_ss2 : buf; b_12 : buf; b_02 : buf }.
Definition has_ss2 (c : conf) : bool :=
  negb (c_s1 c =? 0)%Z && negb (c_s2 c =? 0)%Z && negb (c_teb c) && negb (c_s1 c =? c_s2 c)%Z.
Definition new_bufs (c : conf) : bufs :=
  let fresh (x : bool) := if x then repeat None (Z.to_nat (bsize c)) else [] in
  Bufs (fresh (c_has c K00 || c_has c K0s)) (fresh (c_has c K0s || c_has c Kpp)) (fresh (has_ss2 c))
       (fresh (c_pany c)) (fresh (c_pany c)).

(** nmt_master.c:814-829: fill the buffers for (ll2,ll3) *)
Record mins := Mins { m_00 : Z; m_ss1 : Z; m_ss2 : Z; m_12 : Z; m_02 : Z }.
Definition load (c : conf) (pure : bool) (b : bufs) (l2 l3 : Z) : res (mins * bufs) :=
  do (m00, x00) <- (if c_has c K00 || c_has c K0s then drc3jj_000 c l2 l3 (b_00 b) else Ok (0%Z, b_00 b));
  do (ms1, xs1) <- (if c_has c K0s || c_has c Kpp then drc3jj c l2 l3 (c_s1 c) (- c_s1 c) (b_ss1 b) else Ok (0%Z, b_ss1 b));
  do (ms2, xs2) <- (if has_ss2 c then drc3jj c l2 l3 (c_s2 c) (- c_s2 c) (b_ss2 b) else Ok (ms1, b_ss2 b));
  do (m12, x12) <- (if pure then drc3jj c l2 l3 1 (-2) (b_12 b) else Ok (0%Z, b_12 b));
  do (m02, x02) <- (if pure then drc3jj c l2 l3 0 (-2) (b_02 b) else Ok (0%Z, b_02 b));
  Ok (Mins m00 ms1 ms2 m12 m02, Bufs x00 xs1 xs2 x12 x02).

(** nmt_master.c:846-866: factors of the purification terms *)
Definition fac12 (l2 l1 : Z) : F :=
  if (1 <? l2)%Z then (1 + 1) * fsqrt (fofZ ((l1 + 1) * l1) / fofZ ((l2 + 2) * (l2 - 1))) else 0.
Definition fac02 (l2 l1 : Z) : F :=
  if (1 <? l2)%Z then
    if (1 <? l1)%Z then fsqrt (fofZ ((l1 + 2) * (l1 + 1) * l1 * (l1 - 1)) / fofZ ((l2 + 2) * (l2 + 1) * l2 * (l2 - 1)))
    else 0
  else 0.
(** nmt_master.c:831-870: the 3j values used for l1 *)
Record wvals := WV { v_00 : F; v_ss1 : F; v_ss2 : F; v_pure : F }.
Definition wread (c : conf) (pure : bool) (m : mins) (b : bufs) (l2 l1 : Z) : res wvals :=
  do w00 <- (if c_has c K00 || c_has c K0s then buf_rd0 (b_00 b) (l1 - m_00 m) else Ok 0);
  do wss1 <- (if c_has c Kpp || c_has c K0s then buf_rd0 (b_ss1 b) (l1 - m_ss1 m) else Ok 0);
  do wss2 <- (if c_has c Kpp || c_has c K0s
              then buf_rd0 (if has_ss2 c then b_ss2 b else b_ss1 b) (l1 - m_ss2 m) else Ok 0);
  if pure then
    let j12 := (l1 - m_12 m)%Z in
    let j02 := (l1 - m_02 m)%Z in
    let f12 := if (j12 <? 0)%Z then 0 else fac12 l2 l1 in
    let f02 := if (j02 <? 0)%Z then 0 else fac02 l2 l1 in
    do w12 <- buf_rd (b_12 b) (if (j12 <? 0)%Z then 0 else j12)%Z;
    do w02 <- buf_rd (b_02 b) (if (j02 <? 0)%Z then 0 else j02)%Z;
    Ok (WV w00 wss1 wss2 (wss1 + f12 * w12 + f02 * w02))
  else Ok (WV w00 wss1 wss2 0).

(** nmt_master.c:872-911: contributions of l1 to each family, as (family, ip, value) *)
Definition contrib (c : conf) (pure : bool) (pcl : F) (w : wvals) (suml : Z) : list (fam * nat * F) :=
  (if c_has c K00 then [(K00, 0%nat, pcl * v_00 w * v_00 w)] else [])
  ++ (if c_has c K0s then
        (K0s, 0%nat, v_ss1 w * (pcl * v_00 w)) ::
        (if pure then [(K0s, 1%nat, v_pure w * (pcl * v_00 w))] else [])
      else [])
  ++ (if c_has c Kpp then
        let a := if Z.odd suml then Kmm else Kpp in
        (a, 0%nat, v_ss1 w * (v_ss2 w * pcl)) ::
        (if pure then [(a, 1%nat, v_pure w * (v_ss2 w * pcl)); (a, 2%nat, v_pure w * v_pure w * pcl)] else [])
      else []).
(** the accumulation loop over l1 (and over the mask spectra) for one (ll2,ll3); [dst] names the
    cell that receives (family, spectrum, ip) *)
Definition accumulate (c : conf) (pure : bool) (dst : fam -> nat -> nat -> cell) (m : mins) (b : bufs) (l2 l3 : Z) : res (list step) :=
  do xs <- mapM (fun l1 =>
    if (l1 <=? c_lmm c)%Z then
      do w <- wread c pure m b l2 l1;
      do ys <- mapM (fun icc =>
        do pl <- rd (c_pcl c) (Z.of_nat icc);
        do p <- rd pl l1;
        Ok (map (fun '(a, ip, v) => add_step (dst a icc ip) v) (contrib c pure p w (l1 + l2 + l3)))) (seq 0 (npcl c));
      Ok (concat ys)
    else Ok []) (zrange (Z.abs (l2 - l3)) (l2 + l3));
  Ok (concat xs).

Definition fams : list fam := [K00; K0s; Kpp; Kmm].
(** for each spectrum and each existing family: one step on its ip=0 matrix *)
Definition each (c : conf) (f : fam -> nat -> list step) : list step :=
  flat_map (fun icc => flat_map (fun a => if c_has c a then f a icc else []) fams) (seq 0 (npcl c)).

(** lend_toeplitz, nmt_master.c:167-182 *)
Definition lend (c : conf) (l2 : Z) : Z :=
  let e := if (0 <? c_lt c)%Z then
             if (l2 <=? c_lex c)%Z then c_lmax c
             else if (l2 <=? c_lt c)%Z then (l2 + c_dl c)%Z else l2
           else c_lmax c in
  Z.min e (c_lmax c).
(** nmt_master.c:757-761 *)
Definition lstart (c : conf) : Z := if c_has c K00 then 0%Z else Z.max (c_s1 c) (c_s2 c).

(** nmt_master.c:791-927: one pair (ll2,ll3) *)
Definition block (c : conf) (b : bufs) (l2 l3 : Z) : res (bufs * list step) :=
  let zeroed := if (0 <? c_lt c)%Z then each c (fun a icc => [set_step (CX a icc 0 l2 l3) 0]) else [] in
  do (m, b') <- load c (c_pany c) b l2 l3;
  do acc <- accumulate c (c_pany c) (fun a icc ip => CX a icc ip l2 l3) m b' l2 l3;
  let mirrored := if negb (c_pany c) && negb (l2 =? l3)%Z
                  then each c (fun a icc => [copy_step (CX a icc 0 l3 l2) (CX a icc 0 l2 l3)]) else [] in
  Ok (b', zeroed ++ acc ++ mirrored).
(** the columns visited by iteration ll2, nmt_master.c:786-790 *)
Definition columns (c : conf) (l2 : Z) : list Z :=
  zrange (if c_pany c then lstart c else l2) (lend c l2).
Definition iter (c : conf) (b : bufs) (l2 : Z) : res (bufs * list step) :=
  foldM (fun '(b0, ss) l3 => do (b', s) <- block c b0 l2 l3; Ok (b', ss ++ s)) (b, []) (columns c l2).
(** a thread executes some iterations one after the other with its own buffers *)
Definition thread {B} (it : B -> Z -> res (B * list step)) (b : B) (l2s : list Z) : res (B * list step) :=
  foldM (fun '(b0, ss) l2 => do (b', s) <- it b0 l2; Ok (b', ss ++ s)) (b, []) l2s.

(** ** Toeplitz approximation *)
(** populate_toeplitz, nmt_master.c:228-306 (nmt_master.c:219 computes has_ss2 without the do_teb
    test, which is implied there) : one iteration of the first loop.  [il] = 0: diagonal, 1: column [lt]. *)
Definition tplz_iter (c : conf) (b : bufs) (l2 : Z) : res (bufs * list step) :=
  do (m0, b0) <- load c false b l2 l2;
  do a0 <- accumulate c false (fun a icc _ => CT a icc 0 l2) m0 b0 l2 l2;
  do (m1, b1) <- load c false b0 l2 (c_lt c);
  do a1 <- accumulate c false (fun a icc _ => CT a icc 1 l2) m1 b1 l2 (c_lt c);
  Ok (b1, a0 ++ a1).
(** nmt_master.c:308-358: absolute values of the diagonal, then correlation coefficients *)
Definition tplz_norm (c : conf) : list step :=
  flat_map (fun icc =>
    flat_map (fun l2 => flat_map (fun a => if c_has c a then
        [Step (CT a icc 0 l2) [CT a icc 0 l2] (fun x => fabs (nth 0 x 0))] else []) fams) (zrange 0 (c_lmax c))
    ++ flat_map (fun l2 => flat_map (fun a => if c_has c a then
        [Step (CT a icc 1 l2) [CT a icc 0 l2; CT a icc 0 (c_lt c); CT a icc 1 l2]
           (fun x => let d1 := nth 0 x 0 in let d2 := nth 1 x 0 in
                     if (0 <? d1)%F && (0 <? d2)%F then nth 2 x 0 / fsqrt (d1 * d2) else 0)] else []) fams)
       (zrange 0 (c_lmax c))) (seq 0 (npcl c)).
(** toeplitz_wrap, nmt_master.c:157-165 *)
Definition toeplitz_wrap (il n : Z) : Z :=
  if (il <? 0)%Z then (il + n)%Z else if (n <=? il)%Z then (il - n)%Z else il.
(** nmt_master.c:367-394: one iteration of the loop that populates the matrices.  (The code runs this
    loop once per mask spectrum; here one iteration handles all spectra.) *)
Definition tplz_fill_iter (c : conf) (l2 : Z) : list step :=
  flat_map (fun l3 => each c (fun a icc =>
      Step (CX a icc 0 l2 l3) [CT a icc 1 (toeplitz_wrap (l2 + c_lt c - l3) (c_lmax c + 1)); CT a icc 0 l2; CT a icc 0 l3]
           (fun x => nth 0 x 0 * fsqrt (nth 1 x 0 * nth 2 x 0)) ::
      (if (l3 =? l2)%Z then [] else [copy_step (CX a icc 0 l3 l2) (CX a icc 0 l2 l3)])))
    (zrange 0 l2).
(** nmt_master.c:942-992: fill out the lower triangle *)
Definition corner (c : conf) : list step :=
  flat_map (fun l2 => flat_map (fun l3 =>
      let lx := (c_lex c + l2 - l3)%Z in
      each c (fun a icc =>
        [Step (CX a icc 0 l2 l3)
              [CX a icc 0 lx lx; CX a icc 0 (c_lex c) (c_lex c); CX a icc 0 lx (c_lex c); CX a icc 0 l2 l2; CX a icc 0 l3 l3]
              (fun x => if (nth 0 x 0 =? 0)%F || (nth 1 x 0 =? 0)%F then 0
                        else nth 2 x 0 * fsqrt (fabs (nth 3 x 0 * nth 4 x 0 / (nth 0 x 0 * nth 1 x 0))));
         copy_step (CX a icc 0 l3 l2) (CX a icc 0 l2 l3)]))
      (zrange (c_lex c) (l2 + c_lt c - c_lmax c)))
    (zrange (c_lmax c + c_lex c - c_lt c) (c_lmax c)).

(** ** nmt_compute_master_coefficients, nmt_master.c:653-995, run by one thread *)
Definition master_steps (c : conf) : res (list step) :=
  do tp <- (if (0 <? c_lt c)%Z then
              do (_, t1) <- thread (tplz_iter c) (new_bufs c) (zrange (lstart c) (c_lmax c));
              Ok (t1 ++ tplz_norm c ++ flat_map (tplz_fill_iter c) (zrange 0 (c_lmax c)))
            else Ok []);
  do (_, main) <- thread (iter c) (new_bufs c) (zrange (lstart c) (c_lmax c));
  Ok (tp ++ main ++ (if (0 <? c_lt c)%Z then corner c else [])).
Definition zero_store : store := fun _ => 0.
Definition master (c : conf) : res store := do ss <- master_steps c; run c ss zero_store.

(** ** Application of the coefficients, nmt_master.c:1089-1131 *)
Definition b2n (b : bool) : nat := if b then 1%nat else 0%nat.
(** the assignments of one (ll2,ll3): (row, column, sign, family, ip) *)
Definition table (c : conf) : list (nat * nat * F * fam * nat) :=
  let pe1 := b2n (c_pe1 c) in let pb1 := b2n (c_pb1 c) in
  let pe2 := b2n (c_pe2 c) in let pb2 := b2n (c_pb2 c) in
  match c_ncls c with
  | 1%nat => [(0, 0, 1%F, K00, 0)]%nat
  | 2%nat => [(0, 0, 1%F, K0s, pe1 + pe2); (1, 1, 1%F, K0s, pb1 + pb2)]%nat
  | 4%nat =>
      [(0, 3, 1%F, Kmm, pe1 + pe2); (1, 2, (- (1))%F, Kmm, pe1 + pb2); (2, 1, (- (1))%F, Kmm, pb1 + pe2); (3, 0, 1%F, Kmm, pb1 + pb2);
       (0, 0, 1%F, Kpp, pe1 + pe2); (1, 1, 1%F, Kpp, pe1 + pb2); (2, 2, 1%F, Kpp, pb1 + pe2); (3, 3, 1%F, Kpp, pb1 + pb2)]%nat
  | 7%nat =>
      [(0, 0, 1%F, K00, 0); (1, 1, 1%F, K0s, pe2); (2, 2, 1%F, K0s, pb2);
       (3, 6, 1%F, Kmm, pe2 + pe2); (4, 5, (- (1))%F, Kmm, pe2 + pb2); (5, 4, (- (1))%F, Kmm, pb2 + pe2); (6, 3, 1%F, Kmm, pb2 + pb2);
       (3, 3, 1%F, Kpp, pe2 + pe2); (4, 4, 1%F, Kpp, pe2 + pb2); (5, 5, 1%F, Kpp, pb2 + pe2); (6, 6, 1%F, Kpp, pb2 + pb2)]%nat
  | _ => []
  end.
Definition sign_overall (c : conf) : F := if Z.odd (c_spin1 c + c_spin2 c) then - (1) else 1.
Definition apply_iter (c : conf) (l2 : Z) : list step :=
  flat_map (fun l3 =>
    let fac := fofZ (2 * l3 + 1) * sign_overall c in
    map (fun '(r, k, sg, a, ip) =>
      Step (CW (Z.of_nat (c_ncls c) * l2 + Z.of_nat r) (Z.of_nat (c_ncls c) * l3 + Z.of_nat k)) [CX a 0 ip l2 l3]
           (fun x => sg * fac * nth 0 x 0)) (table c)) (zrange 0 (c_lmax c)).
Definition apply_steps (c : conf) : list step := flat_map (apply_iter c) (zrange 0 (c_lmax c)).

(** coupling_matrix_unbinned (calloc'ed, nmt_workspace_new) *)
Definition mcm_of (c : conf) (st : store) : mat :=
  let n := (c_ncls c * Z.to_nat (c_lmax c + 1))%nat in
  tab n (fun i => tab n (fun j => st (CW (Z.of_nat i) (Z.of_nat j)))).
(** w->pcl_masks, nmt_master.c:1078-1079 *)
Definition scaled (pcl : list F) : list F :=
  tab (length pcl) (fun l => nth l pcl 0 * fofnat (2 * l + 1) / ((1 + 1 + 1 + 1) * pi)).

(** comp_coupling_matrix (namaster.i:470-493) and nmt_compute_coupling_matrix (nmt_master.c:1043-1139) *)
Definition comp_coupling_matrix (spin1 spin2 lmax lmm : Z) (pe1 pb1 pe2 pb2 : bool) (norm : Z) (w2 : F)
    (b1 b2 pcl : list F) (bin : bins F) (teb : bool) (lt lex dl : Z) : res (wsp F) :=
  do _ <- guard (Z.of_nat (length b1) =? lmax + 1)%Z RuntimeError;
  do _ <- guard (Z.of_nat (length b2) =? lmax + 1)%Z RuntimeError;
  do _ <- guard (Z.of_nat (length pcl) =? lmm + 1)%Z RuntimeError;
  do _ <- guard (negb teb || ((spin1 =? 0)%Z && negb (spin2 =? 0)%Z)) RuntimeError;
  if (lmax <? b_lmax bin)%Z then Exn RuntimeError else
  let c := Conf (b_lmax bin) lmm [scaled pcl] spin1 spin2 pe1 pb1 pe2 pb2 teb lt lex dl in
  do st <- master c;
  do st' <- run c (apply_steps c) st;
  workspace_build (c_ncls c) bin teb lmax lmm norm w2 (scaled pcl) b1 b2 (mcm_of c st').

(** _toeplitz_sanity, pymaster/utils.py:684-698; [pure]: any purification flag of the two fields *)
Definition toeplitz_sanity (lt lex dl lmax : Z) (pure : bool) : res unit :=
  if (0 <? lt)%Z then
    if pure then Exn ValueError
    else if ((lex <=? 0) || (dl <? 0))%Z then Exn ValueError
    else if (lt <? lex)%Z then Exn ValueError
    else if ((lmax <=? lt) || (lmax <=? lex) || (lmax <=? dl))%Z then Exn ValueError
    else Ok tt
  else Ok tt.

(** ** Anisotropic masks, nmt_master.c:421-651 *)
(** pcl_masks_00, _0e, _e0, _0b, _b0, _ee, _eb, _be, _bb, in the order of the C parameters *)
Record aconf := AConf {
  a_lmax : Z; a_lmm : Z; a_spin1 : Z; a_spin2 : Z; a_an1 : bool; a_an2 : bool;
  a_00 : list F; a_0e : list F; a_e0 : list F; a_0b : list F; a_b0 : list F;
  a_ee : list F; a_eb : list F; a_be : list F; a_bb : list F }.
(** same allocation rules as an un-purified isotropic calculation *)
Definition to_conf (c : aconf) : conf :=
  Conf (a_lmax c) (a_lmm c) [] (a_spin1 c) (a_spin2 c) false false false false false 0 0 0.
(** nmt_master.c:456-492: the copies made, with sign and (2l+1)/4pi *)
Definition a_pcl (c : aconf) (used : bool) (sg : Z) (x : list F) (l1 : Z) : res F :=
  if used then do v <- rd x l1; Ok (v * (sgn sg * (fofZ (2 * l1 + 1) / ((1 + 1 + 1 + 1) * pi)))) else Ok 0.
Record abufs := ABufs { d_ss1 : buf; d_ss2 : buf; d_ss1a : buf; d_ss2a : buf }.
Definition reuse (c : aconf) : bool := (a_spin1 c =? a_spin2 c)%Z.
Definition own_2a (c : aconf) : bool := a_an2 c && (negb (reuse c) || negb (a_an1 c)).
Definition new_abufs (c : aconf) : abufs :=
  let fresh (x : bool) := if x then repeat None (Z.to_nat (bsize (to_conf c))) else [] in
  ABufs (fresh true) (fresh (negb (reuse c))) (fresh (a_an1 c)) (fresh (own_2a c)).
(** nmt_master.c:593-644: contributions (row, column, value) of one l1 *)
Definition a_entries (c : aconf) (odd : bool) (m00 m0e m0b me0 mb0 mee meb mbe mbb : F) : list (nat * nat * F) :=
  let p (x : F) := if odd then 0 else x in
  let m (x : F) := if odd then x else 0 in
  if (a_spin1 c =? 0)%Z then
    if (a_spin2 c =? 0)%Z then []
    else [(0, 0, (m00 - m0e)%F); (0, 1, (- m0b)%F); (1, 0, (- m0b)%F); (1, 1, (m00 + m0e)%F)]%nat
  else if (a_spin2 c =? 0)%Z then
    [(0, 0, (m00 - me0)%F); (0, 1, (- mb0)%F); (1, 0, (- mb0)%F); (1, 1, (m00 + me0)%F)]%nat
  else
    [(0, 0, (p (m00 - m0e - me0 + mee) + m mbb)%F);
     (0, 1, (p (- m0b + meb) + m (- mb0 - mbe))%F);
     (0, 2, (p (- mb0 + mbe) + m (- m0b - meb))%F);
     (0, 3, (p mbb + m (m00 + m0e + me0 + mee))%F);
     (1, 0, (p (- m0b + meb) + m (mb0 - mbe))%F);
     (1, 1, (p (m00 + m0e - me0 - mee) + m (- mbb))%F);
     (1, 2, (p mbb + m (- m00 + m0e - me0 + mee))%F);
     (1, 3, (p (- mb0 - mbe) + m (m0b + meb))%F);
     (2, 0, (p (- mb0 + mbe) + m (m0b - meb))%F);
     (2, 1, (p mbb + m (- m00 - m0e + me0 + mee))%F);
     (2, 2, (p (m00 - m0e + me0 - mee) + m (- mbb))%F);
     (2, 3, (p (- m0b - meb) + m (mb0 + mbe))%F);
     (3, 0, (p mbb + m (m00 - m0e - me0 + mee))%F);
     (3, 1, (p (- mb0 - mbe) + m (- m0b + meb))%F);
     (3, 2, (p (- m0b - meb) + m (- mb0 + mbe))%F);
     (3, 3, (p (m00 + m0e + me0 + mee) + m mbb)%F)]%nat.
Definition a_block (c : aconf) (b : abufs) (l2 l3 : Z) : res (abufs * list step) :=
  let cc := to_conf c in
  let n := Z.of_nat (c_ncls cc) in
  let s1 := a_spin1 c in let s2 := a_spin2 c in
  let e1 := a_an1 c in let e2 := a_an2 c in
  do (ms1, x1) <- drc3jj cc l2 l3 s1 (- s1) (d_ss1 b);
  do (ms2, x2) <- (if reuse c then Ok (ms1, d_ss2 b) else drc3jj cc l2 l3 s2 (- s2) (d_ss2 b));
  do (ms1a, x1a) <- (if e1 then drc3jj cc l2 l3 s1 s1 (d_ss1a b) else Ok (0%Z, d_ss1a b));
  do (ms2a, x2a) <- (if own_2a c then drc3jj cc l2 l3 s2 s2 (d_ss2a b) else Ok (ms1a, d_ss2a b));
  do xs <- mapM (fun l1 =>
    if (l1 <=? a_lmm c)%Z then
      do wss1 <- buf_rd0 x1 (l1 - ms1);
      do wss2 <- buf_rd0 (if reuse c then x1 else x2) (l1 - ms2);
      do wss1a <- (if e1 then buf_rd0 x1a (l1 - ms1a) else Ok 0);
      do wss2a <- (if e2 then buf_rd0 (if own_2a c then x2a else x1a) (l1 - ms2a) else Ok 0);
      do p00 <- a_pcl c true 0 (a_00 c) l1;
      do p0e <- a_pcl c e2 s2 (a_0e c) l1;
      do p0b <- a_pcl c e2 s2 (a_0b c) l1;
      do pe0 <- a_pcl c e1 s1 (a_e0 c) l1;
      do pb0 <- a_pcl c e1 s1 (a_b0 c) l1;
      do pee <- a_pcl c (e1 && e2) (s1 + s2) (a_ee c) l1;
      do peb <- a_pcl c (e1 && e2) (s1 + s2) (a_eb c) l1;
      do pbe <- a_pcl c (e1 && e2) (s1 + s2) (a_be c) l1;
      do pbb <- a_pcl c (e1 && e2) (s1 + s2) (a_bb c) l1;
      Ok (map (fun '(r, k, v) => add_step (CW (n * l2 + Z.of_nat r) (n * l3 + Z.of_nat k)) (fofZ (2 * l3 + 1) * v))
            (a_entries c (Z.odd (l1 + l2 + l3)) (wss1 * wss2 * p00) (wss1 * wss2a * p0e) (wss1 * wss2a * p0b)
               (wss1a * wss2 * pe0) (wss1a * wss2 * pb0) (wss1a * wss2a * pee) (wss1a * wss2a * peb)
               (wss1a * wss2a * pbe) (wss1a * wss2a * pbb)))
    else Ok []) (zrange (Z.abs (l2 - l3)) (l2 + l3));
  Ok (ABufs x1 x2 x1a x2a, concat xs).
Definition a_start (c : aconf) : Z := Z.max (a_spin1 c) (a_spin2 c).
Definition a_iter (c : aconf) (b : abufs) (l2 : Z) : res (abufs * list step) :=
  foldM (fun '(b0, ss) l3 => do (b', s) <- a_block c b0 l2 l3; Ok (b', ss ++ s)) (b, []) (zrange (a_start c) (a_lmax c)).
Definition a_mcm (c : aconf) : res mat :=
  do (_, ss) <- thread (a_iter c) (new_abufs c) (zrange (a_start c) (a_lmax c));
  do st <- run (to_conf c) ss zero_store;
  Ok (mcm_of (to_conf c) st).

(** nmt_compute_coupling_matrix_anisotropic, nmt_master.c:421-651.  The C function loops up to the
    lmax of the fields but allocates for the lmax of the bins; NmtWorkspace only calls it with both
    equal, which is the case modelled. *)
Definition nmt_compute_coupling_matrix_anisotropic (spin1 spin2 : Z) (an1 an2 : bool) (lmax lmm : Z)
    (p00 p0e pe0 p0b pb0 pee peb pbe pbb : list F) (b1 b2 : list F) (bin : bins F) (norm : Z) (w2 : F) : res (wsp F) :=
  if (lmax <? b_lmax bin)%Z then Exn RuntimeError else
  let c := AConf (b_lmax bin) lmm spin1 spin2 an1 an2 p00 p0e pe0 p0b pb0 pee peb pbe pbb in
  do M <- a_mcm c;
  workspace_build (c_ncls (to_conf c)) bin false lmax lmm norm w2 (scaled p00) b1 b2 M.
(** comp_coupling_matrix_anisotropic, namaster.i:434-467.  The wrapper hands fl00, fl0e, fl0b, fle0,
    flb0, ... to a function whose parameters are ordered 00, 0e, e0, 0b, b0, ... (462-464 against
    nmt_master.c:424-432). *)
Definition comp_coupling_matrix_anisotropic (spin1 spin2 : Z) (an1 an2 : bool) (lmax lmm : Z)
    (fl00 fl0e fl0b fle0 flb0 flee fleb flbe flbb : list F) (b1 b2 : list F) (bin : bins F)
    (norm : Z) (w2 : F) : res (wsp F) :=
  do _ <- guard (Z.of_nat (length b1) =? lmax + 1)%Z RuntimeError;
  do _ <- guard (Z.of_nat (length b2) =? lmax + 1)%Z RuntimeError;
  do _ <- guard (forallb (fun x => Z.of_nat (length x) =? lmm + 1)%Z [fl00; fl0e; fl0b; fle0; flb0; flee; fleb; flbe; flbb]) RuntimeError;
  nmt_compute_coupling_matrix_anisotropic spin1 spin2 an1 an2 lmax lmm fl00 fl0e fl0b fle0 flb0 flee fleb flbe flbb b1 b2 bin norm w2.
End MCM.
Arguments step : clear implicits. Arguments store : clear implicits. Arguments conf : clear implicits.
Arguments aconf : clear implicits. Arguments bufs : clear implicits. Arguments buf : clear implicits.
