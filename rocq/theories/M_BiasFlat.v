(** Model of the deprojection bias of flat-sky spectra and of the one-call estimator: src/nmt_master_flat.c
    (purify_generic_flat, nmt_compute_deprojection_bias_flat, nmt_compute_power_spectra_flat), src/flatsky_utils.c
    (fs_alter_alm), pymaster/namaster.i (comp_deproj_bias_flat, comp_pspec_flat) and pymaster/workspaces.py
    (deprojection_bias_flat, compute_full_master_flat).
    Exact arithmetic.  GSL's default error handler ends the process for fewer than two samples or abscissae that do not
    increase: [UB].  Simplifications: spectra are rectangular arrays; a bias is written as a sum over pairs of templates
    where the code subtracts one after the other. *)
From Verif Require Import Base M_Utils M_Bins M_FlatBins M_LinAlg M_Workspace M_Flat M_WspFlat M_Syn M_FieldFlat.
Open Scope nat_scope.

Section BiasFlat.
Context {F : ofield}.
Local Open Scope F_scope.
Notation mat := (list (list F)).
Notation fsinfo := (fsinfo F).
Notation cplx := (cplx F).
Notation ffield := (ffield F).
Notation fwsp := (fwsp F).
Notation fbins := (fbins F).
Notation cuts := (cuts F).
Notation flat_field := (flat_field F).
Variables (pi : F) (fsqrt : F -> F) (trunc : F -> Z).
Variable ph : nat -> nat -> cplx.

(** nmt_master_flat.c:4-15 *)
Definition purify_generic (f : ffield) (maps : mat) : res (list (list cplx)) :=
  let s := ff_fs f in
  if (ff_pe f || ff_pb f)%bool then do (a, _) <- purify_flat pi fsqrt ph s (ff_pe f, ff_pb f) (ff_mask f) (map2alm0 pi ph s (ff_mask f)) maps; Ok a
  else fs_map2alm pi fsqrt ph s (ff_spin f) (map (product s (ff_mask f)) maps).
(** flatsky_utils.c:327-348: |k| of stored mode i *)
Definition kmod_half (s : fsinfo) (i : nat) : F := kmodf pi fsqrt s (i mod nhalf s) (i / nhalf s).
(** fs_zero_alm followed by fs_alter_alm(...,add_to_out=1) for every input component; [cl i j] multiplies component j in output i *)
Definition filtered (s : fsinfo) (n_out n_in : nat) (cl : nat -> nat -> F -> F) (a : list (list cplx)) : list (list cplx) :=
  tab n_out (fun i => tab (fs_ny s * nhalf s) (fun m => csum n_in (fun j => cscal (cl i j (kmod_half s m)) (nth m (nth j a []) c0)))).
(** SHT^-1[C*SHT[w*t]], lines 585-601: [f] is the field of the template, [g] the other one *)
Definition spread (f g : ffield) (cl : nat -> nat -> F -> F) (t : mat) : res mat :=
  let s := ff_fs f in
  do a <- fs_map2alm pi fsqrt ph s (ff_spin f) (map (product s (ff_mask f)) t);
  field_maps pi fsqrt ph (ff_fs g) (ff_spin g) (filtered s (ff_nmaps g) (ff_nmaps f) cl a).
(** nmt_k_function_alloc, nmt_field_flat.c:4-17 *)
Definition k_alloc_ok (ells : list F) : bool := ((2 <=? length ells)%nat && increasing ells)%bool.
Definition temps_of (f : flat_field) : list mat := match f_temp f with Some t => t | None => [] end.
Definition atemps_of (f : flat_field) : list (list (list cplx)) := match f_atemp f with Some t => t | None => [] end.
Definition iM_of (f : flat_field) : mat := match f_iM f with Some m => m | None => [] end.
(** nmt_master_flat.c:541-715 *)
Definition bias_flat (f1 f2 : flat_field) (b : fbins) (c : cuts) (ells : list F) (guess : mat) : res mat :=
  let g1 := f_base f1 in let g2 := f_base f2 in
  let n1 := ff_nmaps g1 in let n2 := ff_nmaps g2 in
  let t1 := temps_of f1 in let t2 := temps_of f2 in
  let k1 := length t1 in let k2 := length t2 in
  let s := ff_fs g1 in
  if (f_lite f1 || f_lite f2)%bool then Exn RuntimeError
  else if negb (k_alloc_ok ells) then UB
  else if negb (same_fs (ff_fs g1) (ff_fs g2)) then Exn RuntimeError
  else
    let C i j := table ells (nth (i * n2 + j) guess []) in
    do x2 <- mapM (fun t => do m <- spread g2 g1 C t; purify_generic g1 m) t2;
    do y2 <- tabM k2 (fun i => tabM k2 (fun j => fs_alm2cl pi fsqrt s b c (nth j x2 []) (nth i (atemps_of f2) [])));
    do x1 <- mapM (fun t => do m <- spread g1 g2 (fun j i => C i j) t; purify_generic g2 m) t1;
    do y1 <- tabM k1 (fun i => tabM k1 (fun j => fs_alm2cl pi fsqrt s b c (nth i (atemps_of f1) []) (nth j x1 [])));
    do z <- (if ((0 <? k1) && (0 <? k2))%nat then mapM (fun t => do m <- spread g2 g1 C t; Ok (map (product s (ff_mask g1)) m)) t2 else Ok []);
    do y <- (if ((0 <? k1) && (0 <? k2))%nat then tabM k1 (fun i => tabM k2 (fun p => fs_alm2cl pi fsqrt s b c (nth i (atemps_of f1) []) (nth p (atemps_of f2) []))) else Ok []);
    let get (v : list (list mat)) i j ic ib := nth ib (nth ic (nth j (nth i v []) []) []) 0 in
    let M i j := entry2 (iM_of f1) i j in let N i j := entry2 (iM_of f2) i j in
    Ok (tab (n1 * n2) (fun ic => tab (length (fb_l0 b)) (fun ib =>
      - sum k2 (fun i => sum k2 (fun j => get y2 i j ic ib * N i j))
      - sum k1 (fun i => sum k1 (fun j => get y1 i j ic ib * M i j))
      + (if ((0 <? k1) && (0 <? k2))%nat then
           sum k1 (fun i => sum k2 (fun p => sum k1 (fun j => sum k2 (fun q => get y i p ic ib * maps_dot s n1 (nth q z []) (nth j t1 []) * M i j * N p q))))
         else 0)))).
(** workspaces.py:857-902, namaster.i:541-564 *)
Definition py_bias_flat (f1 f2 : flat_field) (b : fbins) (ells : list F) (guess : mat) (c : cuts) : res mat :=
  if negb (Nat.eqb (length guess) (ff_nmaps (f_base f1) * ff_nmaps (f_base f2))) then Exn ValueError
  else if negb (Nat.eqb (length (hd [] guess)) (length ells)) then Exn ValueError
  else bias_flat f1 f2 b c ells guess.

(** nmt_master_flat.c:910-951.  The arrays have the number of spectra of the workspace; coupled spectra, noise and output that of the fields. *)
Definition power_spectra_flat (f1 f2 : flat_field) (b : fbins) (c : cuts) (w0 : option fwsp) (noise : mat) (ells : list F) (guess : mat) (rows : list nat) : res mat :=
  let g1 := f_base f1 in let g2 := f_base f2 in
  do w <- match w0 with
          | None => coupling_matrix pi fsqrt trunc ph g1 g2 b c false rows
          | Some w =>
              if (negb (same_fs (ff_fs g1) (fw_fs w)) || negb (same_fs (ff_fs g2) (fw_fs w)))%bool then Exn RuntimeError
              else if negb (Nat.eqb (length (fb_l0 b)) (fw_nb w)) then Exn RuntimeError else Ok w
          end;
  if (ff_mask_only g1 || ff_mask_only g2)%bool then Exn RuntimeError
  else if (fw_ncls w <? ff_nmaps g1 * ff_nmaps g2)%nat then UB
  else
    do data <- fs_alm2cl pi fsqrt (ff_fs g1) b c (ff_alms g1) (ff_alms g2);
    do bias <- bias_flat f1 f2 b c ells guess;
    if Nat.eqb (fw_ncls w) (ff_nmaps g1 * ff_nmaps g2) then fdecouple w data noise bias else UB.
(** workspaces.py:1074-1171, namaster.i:840-873.  [w]: None if no workspace is given or if it is empty.  [guess]: cl_guess and ells_guess. *)
Definition py_full_master_flat (f1 f2 : flat_field) (b : fbins) (noise : option mat) (guess : option (mat * option (list F))) (w : option fwsp) (c : cuts) (rows : list nat) : res mat :=
  let g1 := f_base f1 in let g2 := f_base f2 in
  let n := (ff_nmaps g1 * ff_nmaps g2)%nat in
  let zeros := repeat (repeat 0 (length (fb_l0 b))) n in
  if negb (Nat.eqb (fs_nx (ff_fs g1)) (fs_nx (ff_fs g2)) && Nat.eqb (fs_ny (ff_fs g1)) (fs_ny (ff_fs g2))) then Exn ValueError
  else
    do cln <- match noise with None => Ok zeros | Some x => if (Nat.eqb (length x) n && Nat.eqb (length (hd [] x)) (length (fb_l0 b)))%bool then Ok x else Exn ValueError end;
    do (lf, clg) <- match guess with
                    | None => Ok (flat_effective_ells b, zeros)
                    | Some (_, None) => Exn ValueError
                    | Some (x, Some ells) => if (Nat.eqb (length x) n && Nat.eqb (length (hd [] x)) (length ells))%bool then Ok (ells, x) else Exn ValueError
                    end;
    power_spectra_flat f1 f2 b c w cln lf clg rows.
End BiasFlat.
