(** Model of curved-sky binning: pymaster/bins.py (NmtBin) and src/nmt_bins.c.
    Integers are unbounded (the int32 casts of bins.py:57-58 are not modelled). *)
From Verif Require Import Base.
Open Scope nat_scope.

Section Bins.
Context {F : ofield}.
Local Open Scope F_scope.

(** One multipole of a band: the three parallel C arrays ell_list[b], w_list[b],
    f_ell[b] (namaster.h, nmt_binning_scheme) are modelled as one array of triples. *)
Record entry := Entry { e_ell : Z; e_w : F; e_f : F }.
(** nmt_binning_scheme (namaster.h): ell_max and the bands; n_bands and nell_list
    are the lengths. *)
Record bins := Bins { b_lmax : Z; b_bands : list (list entry) }.

(** Input row: bpws[ii], ells[ii], weights[ii], f_ell[ii]. *)
Record row := Row { r_bpw : Z; r_ell : Z; r_w : F; r_f : F }.

(** nmt_bins.c:61-67: pass 1, largest band index among rows with ell<=lmax
    (starting from 0), plus one. *)
Definition nband_max (lmax : Z) (rows : list row) : Z :=
  (fold_left (fun n r => if (r_ell r <=? lmax)%Z then (if (n <? r_bpw r)%Z then r_bpw r else n) else n)
             rows 0 + 1)%Z.

(** nmt_bins.c:77-82: pass 2, nell_list[bpws[ii]]++ on a zeroed array. *)
Definition count_step (lmax : Z) (cnt : list nat) (r : row) : res (list nat) :=
  if (r_ell r <=? lmax)%Z then
    if (0 <=? r_bpw r)%Z then
      do c <- rd cnt (r_bpw r); wr cnt (r_bpw r) (S c)
    else Ok cnt
  else Ok cnt.
Definition count_pass (lmax : Z) (nb : nat) (rows : list row) : res (list nat) :=
  foldM (count_step lmax) (repeat 0%nat nb) rows.

(** nmt_bins.c:84-88,90-91: allocate nell_list[ii] elements per band, none filled.
    A band is a capacity and the elements written so far. *)
Definition alloc_pass (cnt : list nat) : list (nat * list entry) := map (fun c => (c, [])) cnt.

(** nmt_bins.c:103-110: f_ell<=0 is replaced by 1. *)
Definition fix_f (f : F) : F := if f <=? 0 then 1 else f.

(** nmt_bins.c:93-114: pass 3, append to the band; writing beyond the allocated
    capacity is UB. *)
Definition fill_step (lmax : Z) (bs : list (nat * list entry)) (r : row) : res (list (nat * list entry)) :=
  if (r_ell r <=? lmax)%Z then
    if (0 <=? r_bpw r)%Z then
      do b <- rd bs (r_bpw r);
      (if (length (snd b) <? fst b)%nat
       then wr bs (r_bpw r) (fst b, snd b ++ [Entry (r_ell r) (r_w r) (fix_f (r_f r))])
       else UB)
    else Ok bs
  else Ok bs.
Definition fill_pass (lmax : Z) (bs : list (nat * list entry)) (rows : list row) :=
  foldM (fill_step lmax) bs rows.

(** nmt_bins.c:116-125: normalise each band, error if the weights add up to <=0. *)
Definition normalise (b : list entry) : res (list entry) :=
  let norm := lsum (map e_w b) in
  if norm <=? 0 then Exn RuntimeError
  else Ok (map (fun e => Entry (e_ell e) (e_w e / norm) (e_f e)) b).

(** nmt_bins.c:55-128 *)
Definition nmt_bins_create (rows : list row) (lmax : Z) : res bins :=
  let nb := Z.to_nat (nband_max lmax rows) in
  do cnt <- count_pass lmax nb rows;
  do bs <- fill_pass lmax (alloc_pass cnt) rows;
  do ns <- mapM (fun b => normalise (snd b)) bs;
  Ok (Bins lmax ns).

(** namaster.i:111-122: bins_create_py checks that the four arrays have the same length *)
Fixpoint zip_rows (bpws ells : list Z) (ws fs : list F) : res (list row) :=
  match bpws, ells, ws, fs with
  | [], [], [], [] => Ok []
  | b :: bt, l :: lt, w :: wt, f :: ft => do t <- zip_rows bt lt wt ft; Ok (Row b l w f :: t)
  | _, _, _, _ => Exn RuntimeError
  end.

(** np.amax: ValueError on empty input *)
Definition amax (l : list Z) : res Z :=
  match l with [] => Exn ValueError | a :: t => Ok (fold_left Z.max t a) end.

Definition ones (n : nat) : list F := repeat 1 n.

(** bins.py:46-59, NmtBin.__init__ *)
Definition NmtBin (bpws ells : list Z) (lmax : option Z) (weights f_ell : option (list F)) : res bins :=
  do lm <- match lmax with None => amax ells | Some l => Ok l end;
  let ws := match weights with None => ones (length ells) | Some w => w end in
  let fs := match f_ell with None => ones (length ells) | Some f => f end in
  do rows <- zip_rows bpws ells ws fs;
  nmt_bins_create rows lm.

(** bins.py:5-14, _get_bpw_arrays_linear: np.arange(lmax+1) is empty for lmax<0 and then
    bpws[-1] raises IndexError; numpy's // is floor division (and 0 for a zero divisor). *)
Definition arange (lmax : Z) : list Z := map Z.of_nat (seq 0 (Z.to_nat (lmax + 1))).
Definition bpw_raw (nlb l : Z) : Z := if (l <? 2)%Z then (-1)%Z else ((l - 2) / nlb)%Z.
Definition count_eq (x : Z) (l : list Z) : Z := Z.of_nat (length (filter (fun y => Z.eqb y x) l)).
Definition bpw_arrays_linear (lmax nlb : Z) : res (list Z * list Z) :=
  let ells := arange lmax in
  let bpws := map (bpw_raw nlb) ells in
  match bpws with
  | [] => Exn IndexError
  | _ => let lst := last bpws (-1)%Z in
         if (count_eq lst bpws =? nlb)%Z then Ok (ells, bpws)
         else Ok (ells, map (fun b => if (b =? lst)%Z then (-1)%Z else b) bpws)
  end.

(** bins.py:93-97 / 130-134: f_ell = ells*(ells+1)/(2 pi) when is_Dell and no f_ell given.
    [pi] is the number used for np.pi. *)
Definition dell (pi : F) (l : Z) : F := fofZ (l * (l + 1)) / (fofZ 2 * pi).
Definition opt_f_ell (pi : F) (is_Dell : bool) (f_ell : option (list F)) (ells : list Z) : option (list F) :=
  match f_ell with
  | Some f => Some f
  | None => if is_Dell then Some (map (dell pi) ells) else None
  end.

(** bins.py:99-134, NmtBin.from_lmax_linear *)
Definition from_lmax_linear (pi : F) (lmax nlb : Z) (is_Dell : bool) (f_ell : option (list F)) : res bins :=
  do (ells, bpws) <- bpw_arrays_linear lmax nlb;
  NmtBin bpws ells (Some lmax) (Some (ones (length ells))) (opt_f_ell pi is_Dell f_ell ells).

(** bins.py:61-97, NmtBin.from_nside_linear *)
Definition from_nside_linear (pi : F) (nside nlb : Z) (is_Dell : bool) (f_ell : option (list F)) : res bins :=
  do (ells, bpws) <- bpw_arrays_linear (3 * nside - 1) nlb;
  NmtBin bpws ells (Some (3 * nside - 1)%Z) (Some (ones (length ells))) (opt_f_ell pi is_Dell f_ell ells).

(** bins.py:161-166: the loop of from_edges; zip stops at the shorter list;
    1./nlb is evaluated before the list multiplication, so nlb=0 raises. *)
Definition zrange (li le : Z) : list Z := map (fun i => (li + Z.of_nat i)%Z) (seq 0 (Z.to_nat (le - li))).
Fixpoint edge_arrays (ib : Z) (ini fin : list Z) : res (list Z * list Z * list F) :=
  match ini, fin with
  | li :: it, le :: et =>
      let nlb := (le - li)%Z in
      if (nlb =? 0)%Z then Exn ZeroDivisionError
      else
        do (e, b, w) <- edge_arrays (ib + 1) it et;
        Ok (zrange li le ++ e, repeat ib (Z.to_nat nlb) ++ b,
            repeat (1 / fofZ nlb) (Z.to_nat nlb) ++ w)
  | _, _ => Ok ([], [], [])
  end.
(** bins.py:136-173, NmtBin.from_edges *)
Definition from_edges (pi : F) (ell_ini ell_end : list Z) (is_Dell : bool) (f_ell : option (list F)) : res bins :=
  do (ells, bpws, ws) <- edge_arrays 0 ell_ini ell_end;
  do lm <- amax ells;
  NmtBin bpws ells (Some lm) (Some ws) (opt_f_ell pi is_Dell f_ell ells).

(** nmt_bins.c:21-53, nmt_bins_constant; int division truncates towards zero. *)
Definition nmt_bins_constant (pi : F) (nlb lmax : Z) (is_l2 : bool) : bins :=
  Bins lmax
   (map (fun ii => map (fun jj =>
        let ell := (2 + Z.of_nat ii * nlb + Z.of_nat jj)%Z in
        Entry ell (1 / fofZ nlb) (if is_l2 then fofZ ell * (fofZ ell + 1) / (fofZ 2 * pi) else 1))
       (seq 0 (Z.to_nat nlb)))
     (seq 0 (Z.to_nat (Z.quot (lmax - 1) nlb)))).

(** ** Accessors *)
(** bins.py:181-188 *)
Definition get_n_bands (b : bins) : Z := Z.of_nat (length (b_bands b)).
(** bins.py:190-197 *)
Definition get_nell_list (b : bins) : list Z := map (fun x => Z.of_nat (length x)) (b_bands b).
(** namaster.i:66-98: get_nell, get_ell_list, get_weight_list assert ibin<n_bands only:
    a negative index reads outside the array. *)
Definition get_band (b : bins) (ib : Z) : res (list entry) :=
  if (ib <? get_n_bands b)%Z then rd (b_bands b) ib else Exn RuntimeError.
(** bins.py:223-234 *)
Definition get_ell_list (b : bins) (ib : Z) : res (list Z) :=
  do x <- get_band b ib; Ok (map e_ell x).
(** bins.py:236-248 *)
Definition get_weight_list (b : bins) (ib : Z) : res (list F) :=
  do x <- get_band b ib; Ok (map e_w x).
(** bins.py:199-221: first and last element; IndexError on an empty list *)
Definition get_ell_min (b : bins) (ib : Z) : res Z :=
  do l <- get_ell_list b ib; match l with [] => Exn IndexError | a :: _ => Ok a end.
Definition get_ell_max (b : bins) (ib : Z) : res Z :=
  do l <- get_ell_list b ib; match l with [] => Exn IndexError | a :: t => Ok (last t a) end.
(** nmt_bins.c:166-176 *)
Definition ell_eff (x : list entry) : F := lsum (map (fun e => fofZ (e_ell e) * e_w e) x).
Definition get_effective_ells (b : bins) : list F := map ell_eff (b_bands b).

(** ** Binning and unbinning *)
(** nmt_bins.c:138-143: one bandpower of one spectrum; cls_in[icl][l] may be out of range *)
Definition bin_band (cl : list F) (x : list entry) : res F :=
  foldM (fun acc e => do c <- rd cl (e_ell e); Ok (acc + e_w e * e_f e * c)) 0 x.
(** nmt_bins.c:130-147 *)
Definition nmt_bin_cls (b : bins) (cls : list (list F)) : res (list (list F)) :=
  mapM (fun cl => mapM (bin_band cl) (b_bands b)) cls.
(** nmt_bins.c:156-161: later writes overwrite earlier ones *)
Definition unbin_band (out : list F) (bx : F * list entry) : res (list F) :=
  foldM (fun o e => wr o (e_ell e) (fst bx / e_f e)) out (snd bx).
(** nmt_bins.c:149-164 with the zeroed output of namaster.i:196-214 *)
Definition nmt_unbin_cls (b : bins) (cls : list (list F)) : res (list (list F)) :=
  mapM (fun cl => foldM unbin_band (repeat 0 (Z.to_nat (b_lmax b + 1))) (combine cl (b_bands b))) cls.

(** Python arrays given to bin_cell/unbin_cell: 1-d, 2-d (all rows same length), or more dims *)
Inductive arr := A1 (v : list F) | A2 (n : nat) (v : list (list F)) | AN.
(** bins.py:262-282.  [len(cls_in[0])] of a 2-d array with no rows raises IndexError.
    An input with ndim>2 is wrapped by np.array([...]) and then rejected by ndim>2. *)
Definition shape_guard (n : Z) (a : arr) : res (bool * list (list F)) :=
  match a with
  | A1 v => if (Z.of_nat (length v) =? n)%Z then Ok (true, [v]) else Exn ValueError
  | A2 k v => match v with
              | [] => Exn IndexError
              | _ => if (Z.of_nat k =? n)%Z then Ok (false, v) else Exn ValueError
              end
  | AN => Exn ValueError
  end.
Definition reshape (oned : bool) (k : nat) (v : list (list F)) : arr :=
  if oned then A1 (nth 0 v []) else A2 k v.
Definition bin_cell (b : bins) (a : arr) : res arr :=
  do (oned, cls) <- shape_guard (b_lmax b + 1) a;
  do o <- nmt_bin_cls b cls;
  Ok (reshape oned (length (b_bands b)) o).
(** bins.py:284-306 *)
Definition unbin_cell (b : bins) (a : arr) : res arr :=
  do (oned, cls) <- shape_guard (get_n_bands b) a;
  do o <- nmt_unbin_cls b cls;
  Ok (reshape oned (Z.to_nat (b_lmax b + 1)) o).
(** arrays are rectangular *)
Definition arr_wf (a : arr) : Prop :=
  match a with A2 k v => Forall (fun r => length r = k) v | _ => True end.

End Bins.
Arguments entry : clear implicits. Arguments bins : clear implicits.
Arguments row : clear implicits. Arguments arr : clear implicits.
Arguments Entry {F}. Arguments Bins {F}. Arguments Row {F}.
Arguments A1 {F}. Arguments A2 {F}. Arguments AN {F}.

