(** Model of flat-sky fields with templates and purification: src/nmt_field_flat.c (walm_x_lpower, nmt_purify_flat,
    nmt_field_flat_alloc), src/utils.c (moore_penrose_pinv), pymaster/namaster.i (field_alloc_*_flat) and
    pymaster/field.py (NmtFieldFlat).
    Exact arithmetic.  Oracle: [eigh M] are the eigenvalues and the matrix of eigenvectors found by gsl_eigen_symmv.
    Simplifications: maps, mask and templates are flattened arrays, an array of another shape is represented by a list of
    another length; the beam is the function evaluated by nmt_k_function_eval; sums of products over the pixels, which the
    threads add up in any order (fs_map_dot), are written as sums; the int product nx*ny does not overflow. *)
From Verif Require Import Base M_Utils M_Bins M_FlatBins M_LinAlg M_Workspace M_Flat M_WspFlat M_Syn.
Open Scope nat_scope.

Section FieldFlat.
Context {F : ofield}.
Local Open Scope F_scope.
Notation mat := (list (list F)).
Notation fsinfo := (fsinfo F).
Notation cplx := (cplx F).
Notation ffield := (ffield F).
Variables (pi : F) (fsqrt : F -> F).
Variable ph : nat -> nat -> cplx.
Variable eigh : mat -> list F * mat.

(** ** Purification, nmt_field_flat.c:112-272 *)
(** lines 119-135 and 193-210: wavenumbers in units of inverse pixels, dkx=2*M_PI/nx, dky=2*M_PI/ny *)
Definition kx_pix (s : fsinfo) (ix : nat) : F := fofnat ix * (fofZ 2 * pi / fofnat (fs_nx s)).
Definition ky_pix (s : fsinfo) (iy : nat) : F := fofZ (freq (fs_ny s) iy) * (fofZ 2 * pi / fofnat (fs_ny s)).
Definition k2_pix (s : fsinfo) (i : nat) : F :=
  let ix := (i mod nhalf s)%nat in let iy := (i / nhalf s)%nat in kx_pix s ix * kx_pix s ix + ky_pix s iy * ky_pix s iy.
Definition k_pix (s : fsinfo) (i : nat) : F := fsqrt (k2_pix s i).
Fixpoint power (x : F) (n : nat) : F := match n with O => 1 | S m => power x m * x end.
(** lines 112-143 *)
Definition walm_x_lpower (s : fsinfo) (walm : list cplx) (n : nat) : list (list cplx) :=
  [tab (fs_ny s * nhalf s) (fun i => cscal (- power (k_pix s i) n) (nth i walm c0)); tab (fs_ny s * nhalf s) (fun _ => c0)].
(** lines 181-184 and 220-223 *)
Definition spin_product (s : fsinfo) (w m : mat) : mat :=
  let w0 := nth 0 w [] in let w1 := nth 1 w [] in
  let q := nth 0 m [] in let u := nth 1 m [] in
  [tab (npix_fs s) (fun i => nth i w0 0 * nth i q 0 + nth i w1 0 * nth i u 0); tab (npix_fs s) (fun i => nth i w0 0 * nth i u 0 - nth i w1 0 * nth i q 0)].
(** lines 187-214 and 227-254: [c i] multiplies coefficient i of the term to be added, [on i] says if it is added *)
Definition add_term (s : fsinfo) (flags : bool * bool) (on : nat -> bool) (c : nat -> F) (a p : list (list cplx)) : list (list cplx) :=
  let one (flag : bool) (j : nat) :=
    if flag then tab (fs_ny s * nhalf s) (fun i => let x := nth i (nth j a []) c0 in if on i then cadd x (cscal (c i) (nth i (nth j p []) c0)) else x)
    else nth j a [] in
  [one (fst flags) 0%nat; one (snd flags) 1%nat].
(** fs_map_product(maps,mask): flatsky_utils.c:39-51 *)
Definition product (s : fsinfo) (mask m : list F) : list F := tab (npix_fs s) (fun i => nth i m 0 * nth i mask 0).
(** lines 145-272: coefficients and maps *)
Definition purify_flat (s : fsinfo) (flags : bool * bool) (mask : list F) (walm0 : list cplx) (maps : mat) : res (list (list cplx) * mat) :=
  do a <- fs_map2alm pi fsqrt ph s 2 (map (product s mask) maps);
  do w1 <- field_maps pi fsqrt ph s 1 (walm_x_lpower s walm0 1);
  do p1 <- fs_map2alm pi fsqrt ph s 1 (spin_product s w1 maps);
  let a := add_term s flags (fun i => 0 <? k_pix s i) (fun i => fofZ 2 / k_pix s i) a p1 in
  do w2 <- field_maps pi fsqrt ph s 2 (walm_x_lpower s walm0 2);
  let p2 := map (fun m => map2alm0 pi ph s (map (fun x => - (1) * x) m)) (spin_product s w2 maps) in
  let a := add_term s flags (fun i => 0 <? k2_pix s i) (fun i => 1 / k2_pix s i) a p2 in
  do out <- field_maps pi fsqrt ph s 2 a;
  Ok (a, out).

(** ** Deprojection, nmt_field_flat.c:378-428 *)
(** utils.c:345-380.  1./0 is infinite in C and everything after it is NaN: represented by ZeroDivisionError *)
Definition maxl (w : list F) : F := match w with [] => 0 | a :: t => fold_left (fun x y => if x <? y then y else x) t a end.
Definition pinv (M : mat) (tol : F) : res mat :=
  let '(w, v) := eigh M in
  let n := length M in
  do wi <- tabM n (fun i => let x := nth i w 0 in if x <? tol * maxl w then Ok 0 else if x =? 0 then Exn ZeroDivisionError else Ok (1 / x));
  Ok (tab n (fun i => tab n (fun j => sum n (fun k => entry2 v i k * (nth k wi 0 * entry2 v j k))))).
(** flatsky_utils.c:53-75 *)
Definition map_dot (s : fsinfo) (a b : list F) : F := sum (npix_fs s) (fun i => nth i a 0 * nth i b 0) * (fs_lx s * fs_ly s / fofnat (npix_fs s)).
Definition maps_dot (s : fsinfo) (nmaps : nat) (a b : mat) : F := sum nmaps (fun c => map_dot s (nth c a []) (nth c b [])).
Definition temp_matrix (s : fsinfo) (nmaps : nat) (t : list mat) : mat :=
  tab (length t) (fun i => tab (length t) (fun j => maps_dot s nmaps (nth (Nat.min i j) t []) (nth (Nat.max i j) t []))).
Definition amplitudes (s : fsinfo) (nmaps : nat) (iM : mat) (t : list mat) (maps : mat) : list F :=
  tab (length t) (fun i => sum (length t) (fun j => entry2 iM i j * maps_dot s nmaps (nth j t []) maps)).
Definition subtract (s : fsinfo) (nmaps : nat) (al : list F) (t : list mat) (maps : mat) : mat :=
  fold_left (fun m i => tab nmaps (fun c => tab (npix_fs s) (fun p => nth p (nth c m []) 0 - nth i al 0 * nth p (nth c (nth i t []) []) 0))) (seq 0 (length t)) maps.

(** ** nmt_field_flat_alloc, lines 274-520 *)
Record flat_field := FlatField {
  f_base : ffield; f_maps : option mat; f_temp : option (list mat); f_atemp : option (list (list (list cplx))); f_iM : option mat; f_lite : bool }.
(** lines 343-350: divided by the mask where that is positive *)
Definition unmask (s : fsinfo) (mask m : list F) : list F := tab (npix_fs s) (fun i => if 0 <? nth i mask 0 then nth i m 0 / nth i mask 0 else 0).
Definition field_flat_alloc (s : fsinfo) (mask : list F) (spin : Z) (maps : mat) (temps : list mat) (beam : F -> F) (pe pb : bool) (tol : F) (masked lite : bool) : res flat_field :=
  let nmaps := if (spin =? 0)%Z then 1%nat else 2%nat in
  if ((pe || pb) && negb (spin =? 2)%Z)%bool then Exn RuntimeError else
  let um m := if masked then map (unmask s mask) m else m in
  let maps_u := um maps in
  let temps_u := map um temps in
  let mk m := if masked then m else map (product s mask) m in
  let maps := mk maps in
  let temps := map mk temps in
  let nt := length temps in
  do dep <- (if (0 <? nt)%nat then do iM <- pinv (temp_matrix s nmaps temps) tol; Ok (Some iM) else Ok None);
  let al := match dep with Some iM => amplitudes s nmaps iM temps maps | None => [] end in
  let maps := subtract s nmaps al temps maps in
  let maps_u := subtract s nmaps al temps_u maps_u in
  let keep {A} (x : A) : option A := if lite then None else Some x in
  let keept {A} (x : A) : option A := if (0 <? nt)%nat then keep x else None in
  if (pe || pb)%bool then
    let amask := map2alm0 pi ph s mask in
    do (alms, pmaps) <- purify_flat s (pe, pb) mask amask maps_u;
    do at_ <- (if lite then Ok [] else mapM (fun t => do (x, _) <- purify_flat s (pe, pb) mask amask t; Ok x) temps_u);
    Ok (FlatField (FF s spin pe pb mask beam alms false) (keep pmaps) (keept (map (map (product s mask)) temps_u)) (keept at_) dep lite)
  else
    do alms <- fs_map2alm pi fsqrt ph s spin maps;
    do at_ <- (if lite then Ok [] else mapM (fs_map2alm pi fsqrt ph s spin) temps);
    Ok (FlatField (FF s spin false false mask beam alms false) (keep maps) (keept temps) (keept at_) dep lite).

(** ** NmtFieldFlat, field.py:615-737, and namaster.i:237-334 *)
Inductive ftemp := NoTemp | Temps (t : list mat) | OtherTemp.
Record flat_args := FlatArgs {
  g_nx : nat; g_ny : nat; g_lx : F; g_ly : F; g_mask : list F; g_maps : option mat; g_spin : option Z; g_temp : ftemp; g_beam : F -> F;
  g_pe : bool; g_pb : bool; g_tol : F; g_masked : bool; g_lite : bool }.
Definition spin_from (n : nat) (spin : option Z) : res Z :=
  if negb (Nat.eqb n 1 || Nat.eqb n 2) then Exn ValueError else
  match spin with
  | None => Ok (if Nat.eqb n 1 then 0%Z else 2%Z)
  | Some x => if ((negb (x =? 0)%Z && Nat.eqb n 1) || ((x =? 0)%Z && negb (Nat.eqb n 1)))%bool then Exn ValueError else Ok x
  end.
(** lines 684-703.  np.array([]) of no templates has one dimension and is refused by SWIG: TypeError. *)
Definition temps_from (t : ftemp) (nmaps npix : nat) : res (list mat) :=
  match t with
  | NoTemp => Ok []
  | OtherTemp => Exn ValueError
  | Temps [] => Exn TypeError
  | Temps ts => if forallb (fun t => (Nat.eqb (length t) nmaps && forallb (fun m => Nat.eqb (length m) npix) t)%bool) ts then Ok ts else Exn ValueError
  end.
(** maps=None: templates given as well end in an UnboundLocalError (nmaps), represented by RuntimeError *)
Definition flat_new (a : flat_args) : res flat_field :=
  let npix := (g_nx a * g_ny a)%nat in
  if ((g_lx a <? 0) || (g_ly a <? 0))%bool then Exn ValueError else
  do sp <- match g_maps a with None => match g_spin a with None => Exn ValueError | Some x => Ok x end | Some ms => spin_from (length ms) (g_spin a) end;
  if ((g_pe a || g_pb a) && negb (sp =? 2)%Z)%bool then Exn ValueError else
  if negb (match g_maps a with None => true | Some ms => forallb (fun m => Nat.eqb (length m) npix) ms end) then Exn ValueError else
  do ts <- match g_maps a with
           | None => match g_temp a with NoTemp | Temps [] => Ok [] | OtherTemp => Exn ValueError | Temps _ => Exn RuntimeError end
           | Some ms => temps_from (g_temp a) (length ms) npix
           end;
  if negb ((0 <? g_lx a) && (0 <? g_ly a)) then Exn RuntimeError else
  let s := FS (g_nx a) (g_ny a) (g_lx a) (g_ly a) in
  match g_maps a with
  | None => Ok (FlatField (FF s sp (g_pe a) (g_pb a) (g_mask a) (g_beam a) [] true) None None None None true)
  | Some ms => field_flat_alloc s (g_mask a) sp ms ts (g_beam a) (g_pe a) (g_pb a) (g_tol a) (g_masked a) (g_lite a)
  end.
(** field.py:758-792 *)
Definition get_maps_flat (f : flat_field) : res mat := if f_lite f then Exn ValueError else match f_maps f with Some m => Ok m | None => UB end.
Definition get_templates_flat (f : flat_field) : res (list mat) := if f_lite f then Exn ValueError else match f_temp f with Some t => Ok t | None => Ok [] end.
End FieldFlat.

Arguments flat_field F : clear implicits.
Arguments flat_args F : clear implicits.
Arguments ftemp F : clear implicits.
