(** Model of the generation of synthetic maps: fs_synalm and fs_alm2map (src/flatsky_utils.c:234-278, 470-602), nmt_synfast_flat
    (src/nmt_field_flat.c:522-580), synfast_new_flat (pymaster/namaster.i:383-432), synfast_flat and synfast_spherical
    (pymaster/utils.py:576-770).
    Exact arithmetic.  Oracles: [gauss s n] is the n-th pair of numbers drawn with rng_gauss from a generator initialised with seed s;
    [root c] is the matrix evec*sqrt(max(eval,0)) obtained from gsl_eigen_symmv(c); [sqrt2] is M_SQRT2. *)
From Coq Require Import Permutation.
From Verif Require Import Base M_Utils M_Bins M_FlatBins M_LinAlg M_Workspace M_OMP M_Flat M_WspFlat.
Open Scope nat_scope.

Section Syn.
Context {F : ofield}.
Local Open Scope F_scope.
Notation mat := (list (list F)).
Notation cplx := (cplx F).
Notation fsinfo := (fsinfo F).
Variables (pi : F) (fsqrt : F -> F) (ph : nat -> nat -> cplx).
Variables (sqrt2 : F) (gauss : Z -> nat -> F * F) (root : mat -> mat).

(** ** fs_synalm *)
(** lines 526-535: position of the spectrum of maps i <= j, counted by icl *)
Definition icl (nmaps i j : nat) : nat := (list_sum (map (fun a => nmaps - a) (seq 0 i)) + (j - i))%nat.
Definition inv_dkvol (s : fsinfo) : F := 1 / (dkx pi s * dky pi s).
Definition clmat (s : fsinfo) (nmaps : nat) (cells : list (F -> F)) (k : F) : res mat :=
  tabM nmaps (fun i => tabM nmaps (fun j => do c <- rd cells (Z.of_nat (icl nmaps (Nat.min i j) (Nat.max i j))); Ok (1 / fofZ 2 * inv_dkvol s * c k))).
(** lines 537-563: the coefficients of one mode; [draws i] are the random numbers drawn for map i.
    kmod is a square root, so that the case kmod<0 (lines 519-522) does not occur. *)
Definition mode_alm (s : fsinfo) (nmaps : nat) (cells beams : list (F -> F)) (draws : nat -> F * F) (ix iy : nat) : res (list cplx) :=
  let k := kmodf pi fsqrt s ix iy in
  do c <- clmat s nmaps cells k;
  let r := root c in
  tabM nmaps (fun i => do bm <- rd beams (Z.of_nat i);
    Ok (bm k * dot (nth i r []) (tab nmaps (fun j => fst (draws j))), bm k * dot (nth i r []) (tab nmaps (fun j => snd (draws j))))).
(** lines 564-580: the stores made for one mode: ((map, position), value) *)
Definition store1 := ((nat * nat) * cplx)%type.
Definition mode_stores (s : fsinfo) (a : list cplx) (ix iy : nat) : list store1 :=
  let index := (ix + nhalf s * iy)%nat in
  concat (map (fun i => let v := nth i a c0 in
    if Nat.eqb ix 0 then
      if (fs_ny s / 2 <? iy)%nat then []
      else if Nat.eqb iy 0 then [((i, index), (sqrt2 * fst v, 0))]
      else [((i, index), v); ((i, (ix + nhalf s * (fs_ny s - iy))%nat), conjc v)]
    else [((i, index), v)]) (seq 0 (length a))).
(** the rows of a thread, in order: nmaps numbers are drawn for every mode, also for those that are skipped *)
Definition row_stores (s : fsinfo) (nmaps : nat) (cells beams : list (F -> F)) (g : nat -> F * F) (p iy : nat) : res (list store1) :=
  do l <- tabM (nhalf s) (fun ix => do a <- mode_alm s nmaps cells beams (fun i => g ((p * nhalf s + ix) * nmaps + i)%nat) ix iy; Ok (mode_stores s a ix iy));
  Ok (concat l).
Definition thread_stores (s : fsinfo) (nmaps : nat) (cells beams : list (F -> F)) (seed : Z) (th : nat * list nat) : res (list store1) :=
  let sd := (seed + Z.of_nat (fst th))%Z in
  if (2 ^ 31 <=? sd)%Z then UB else
  do l <- tabM (length (snd th)) (fun p => row_stores s nmaps cells beams (gauss (sd mod 2 ^ 32)%Z) p (nth p (snd th) 0%nat));
  Ok (concat l).
(** the arrays after a sequence of stores; they are allocated but not initialised (lines 477-479) *)
Definition loc_eqb (a b : nat * nat) : bool := Nat.eqb (fst a) (fst b) && Nat.eqb (snd a) (snd b).
Definition lookup (ws : list store1) (l : nat * nat) : option cplx := fold_left (fun acc w => if loc_eqb (fst w) l then Some (snd w) else acc) ws None.
Definition in_range (nmaps nmodes : nat) (w : store1) : bool := (fst (fst w) <? nmaps)%nat && (snd (fst w) <? nmodes)%nat.
Definition arrays (s : fsinfo) (nmaps : nat) (ws : list store1) : res (list (list cplx)) :=
  let nmodes := (fs_ny s * nhalf s)%nat in
  if forallb (in_range nmaps nmodes) ws then
    tabM nmaps (fun i => tabM nmodes (fun q => match lookup ws (i, q) with Some v => Ok v | None => UB end))
  else UB.
(** [parts]: the rows of every thread ("omp for" of line 508); [arrival]: the numbers ithr of the threads.  The number ithr of a thread is the order in which it enters the
    critical section of lines 490-494: [arrival] is any permutation.  The stores of the threads interleave. *)
Definition synalm_with (s : fsinfo) (nmaps : nat) (cells beams : list (F -> F)) (seed : Z) (parts : list (list nat)) (arrival : list nat) (r : res (list (list cplx))) : Prop :=
  match mapM (thread_stores s nmaps cells beams seed) (combine arrival parts) with
  | Ok ts => exists ss, sched ts ss /\ r = arrays s nmaps (map snd ss)
  | Exn e => r = Exn e
  | UB => r = UB
  end.
(** ** fs_alm2map for one map.  fftw_plan_dft_c2r_2d: complex transform along y, then a real transform along x, which ignores the
    imaginary parts of columns 0 and nx/2 *)
Definition col_weight (s : fsinfo) (ix : nat) : F := if (Nat.eqb ix 0 || Nat.eqb (2 * ix) (fs_nx s))%bool then 1 else fofZ 2.
Definition alm2map0 (s : fsinfo) (a : list cplx) : list F :=
  tab (fs_nx s * fs_ny s) (fun q =>
    sum (fs_ny s) (fun iy => sum (nhalf s) (fun ix =>
      col_weight s ix * cdot (nth (ix + nhalf s * iy) a c0)
        (cmul (ph (fs_nx s) ((ix * (q mod fs_nx s)) mod fs_nx s)) (ph (fs_ny s) ((iy * (q / fs_nx s)) mod fs_ny s)))))
    * (fofZ 2 * pi / (fs_lx s * fs_ly s))).
(** one or two maps; [rows]: order in which the rows are rotated *)
Definition field_maps (s : fsinfo) (spin : Z) (alms : list (list cplx)) : res mat :=
  if (spin =? 0)%Z then do a <- rd alms 0; Ok [alm2map0 s a]
  else do e <- rd alms 0; do b <- rd alms 1; do (q, u) <- eb2qu pi fsqrt s spin (rows_of s) (e, b); Ok [alm2map0 s q; alm2map0 s u].
(** ** nmt_synfast_flat *)
Definition nmap_of (spin : Z) : nat := if (spin =? 0)%Z then 1%nat else 2%nat.
Fixpoint maps_of (s : fsinfo) (spins : list Z) (alms : list (list cplx)) : res mat :=
  match spins with
  | [] => Ok []
  | sp :: t => do m <- field_maps s sp (firstn (nmap_of sp) alms); do r <- maps_of s t (skipn (nmap_of sp) alms); Ok (m ++ r)
  end.
Definition ramp (n : nat) : list F := tab n fofnat.
Definition table (ells cl : list F) : F -> F := fun k => from_ok 0 (spectrum_at ells cl k).
(** ** synfast_flat.  A negative seed is replaced by a random one, [fresh].  The arrays are checked as numpy and SWIG do: rows of
    different lengths are rejected. *)
Definition py_synfast_flat (nx ny : nat) (lx ly : F) (cls : mat) (spins : list Z) (beam : option mat) (seed fresh : Z) (parts : list (list nat)) (arrival : list nat) (r : res mat) : Prop :=
  let sd := if (seed <? 0)%Z then fresh else seed in
  let nmaps := list_sum (map nmap_of spins) in
  let nfields := length spins in
  let ncls := ((nmaps * (nmaps + 1)) / 2)%nat in
  if existsb (fun sp => (sp <? 0)%Z) spins then r = Exn ValueError
  else if negb (Nat.eqb ncls (length cls)) then r = Exn ValueError
  else match cls with
  | [] => r = Exn IndexError
  | c0 :: _ =>
    let n := length c0 in
    match (match beam with
           | None => Ok (repeat (repeat 1 n) nfields)
           | Some b => if negb (Nat.eqb (length b) nfields) then Exn ValueError else
                       match b with [] => Exn IndexError | b0 :: _ => if Nat.eqb (length b0) n then Ok b else Exn ValueError end
           end) with
    | Exn e => r = Exn e
    | UB => r = UB
    | Ok b =>
      if negb (forallb (fun l => Nat.eqb (length l) n) cls && forallb (fun l => Nat.eqb (length l) n) b) then r = Exn ValueError
      else if negb ((0 <? lx) && (0 <? ly)) then r = Exn RuntimeError
      else if (n <? 2)%nat then r = UB
      else
        let s := FS nx ny lx ly in
        let beams := concat (map (fun p => repeat (table (ramp n) (snd p)) (nmap_of (fst p))) (combine spins b)) in
        exists a, synalm_with s nmaps (map (table (ramp n)) cls) beams sd parts arrival a /\ r = (do alms <- a; maps_of s spins alms)
    end
  end.
End Syn.

(** ** synfast_spherical: the coefficients come from hp.synalm, which draws from the global generator of numpy, of state [g].
    The seed is not passed on; np.random.randint is called for negative seeds (utils.py:609-610, 641).  [rest]: beams and transforms. *)
Section Spherical.
Context {G A M : Type}.
Variables (randint : G -> Z * G) (synalm : G -> A * G) (rest : A -> res M).
Definition synfast_spherical (seed : Z) (g : G) : res M * G :=
  let '(seed', g1) := if (seed <? 0)%Z then randint g else (seed, g) in
  let '(a, g2) := synalm g1 in (rest a, g2).
End Spherical.
