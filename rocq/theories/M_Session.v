(** Model of the life of an NmtWorkspace object: pymaster/workspaces.py:57-358 (constructor, read_from,
    compute_coupling_matrix, write_to) together with the methods of M_Workspace.v. *)
From Verif Require Import Base M_Bins M_LinAlg M_Workspace M_MCM M_FITS.
Open Scope Z_scope.

Section Session.
Context {F : ofield}.
Local Open Scope F_scope.
Notation wsp := (wsp F).
Notation pyw := (pyw F).
Notation bins := (bins F).
Variables (fsqrt fexp flog : F -> F) (pi : F) (cjunk : Z -> F).
Variable w3j : Z -> Z -> Z -> Z -> Z -> F.

(** What compute_coupling_matrix looks at in a field object.  [f_id] is the identity of the Python
    object (the code tests "fl2 is fl1"); the masks are only used through their spectra and products. *)
Record field := Field {
  f_id : Z; f_lmax : Z; f_lmaxm : Z; f_spin : Z; f_pe : bool; f_pb : bool; f_beam : list F;
  f_an : bool; f_cat : bool; f_Nw : F }.
(** hp.alm2cl of two mask harmonic coefficient arrays up to a given lmax; components 0: scalar, 1: E, 2: B of the anisotropic part *)
Variable mask_cl : Z -> Z -> field -> field -> list F.
(** minfo.si.dot_map(mask1, mask2)/(4 pi); fails when the masks have different sizes *)
Variable mask_dot : field -> field -> res F.

(** field.py:349-368 with strict=False *)
Definition is_compatible (f1 f2 : field) : bool := (f_lmaxm f1 =? f_lmaxm f2)%Z && (f_lmax f1 =? f_lmax f2)%Z.
Definition same_object (f1 f2 : field) : bool := (f_id f1 =? f_id f2)%Z.
(** workspaces.py:284-290; [None] is any other string *)
Definition norm_type (norm : option bool) : res Z := match norm with Some fkp => Ok (zbool fkp) | None => Exn ValueError end.
(** workspaces.py:292-304 *)
Definition get_wawb (nt : Z) (f1 f2 : field) : res F :=
  if (nt =? 1)%Z then
    if f_cat f1 || f_cat f2 then (if same_object f1 f2 then Ok (f_Nw f1) else Exn ValueError)
    else mask_dot f1 f2
  else Ok 0.
(** workspaces.py:252-330, from the release of the old matrix on *)
Definition compute_lib (f1 f2 : field) (b : bins) (teb : bool) (lt lex dl : Z) (norm : option bool) : res wsp :=
  let any := f_an f1 || f_an f2 in
  if any && (0 <=? lt)%Z then Exn NotImplementedError else
  do _ <- toeplitz_sanity lt lex dl (b_lmax b) (f_pe f1 || f_pb f1 || f_pe f2 || f_pb f2);
  let nw := if same_object f1 f2 then f_Nw f1 else 0 in
  let pcl := mask_cl 0 0 f1 f2 in
  let pcl0 := map (fun _ => 0) pcl in
  let sp (u : bool) a c := if u then mask_cl a c f1 f2 else pcl0 in
  do nt <- norm_type norm;
  do wawb <- get_wawb nt f1 f2;
  if any then
    comp_coupling_matrix_anisotropic pi w3j (f_spin f1) (f_spin f2) (f_an f1) (f_an f2) (f_lmax f1) (f_lmaxm f1)
      pcl (sp (f_an f2) 0 1)%Z (sp (f_an f2) 0 2)%Z (sp (f_an f1) 1 0)%Z (sp (f_an f1) 2 0)%Z
      (sp (f_an f1 && f_an f2) 1 1)%Z (sp (f_an f1 && f_an f2) 1 2)%Z (sp (f_an f1 && f_an f2) 2 1)%Z (sp (f_an f1 && f_an f2) 2 2)%Z
      (f_beam f1) (f_beam f2) b nt wawb
  else
    comp_coupling_matrix fsqrt fexp flog pi cjunk w3j (f_spin f1) (f_spin f2) (f_lmax f1) (f_lmaxm f1)
      (f_pe f1) (f_pb f1) (f_pe f2) (f_pb f2) nt wawb (f_beam f1) (f_beam f2) (map (fun x => x - nw) pcl) b teb lt lex dl.
(** workspaces.py:203-330 *)
Definition compute_coupling_matrix (p : pyw) (f1 f2 : field) (b : bins) (teb : bool) (lt lex dl : Z) (norm : option bool) : pyw * res unit :=
  if negb (is_compatible f1 f2) then (p, Exn ValueError)
  else if negb (f_lmax f1 =? b_lmax b)%Z then (p, Exn ValueError)
  else match compute_lib f1 f2 b teb lt lex dl norm with
       | Ok w => (PyW (Some w) true, Ok tt)
       | Exn e => (PyW None (p_unb p), Exn e)
       | UB => (PyW None (p_unb p), UB)
       end.

(** ** Files *)
Definition files := string -> option (fits F).
(** workspaces.py:150-164: the old matrix is released first *)
Definition read_from (J : junk F) (fs : files) (p : pyw) (name : string) (unb : bool) : pyw * res unit :=
  let r := match fs name with None => Exn RuntimeError | Some f => workspace_read_fits J f unb end in
  match r with
  | Ok w => (PyW (Some w) unb, Ok tt)
  | Exn e => (PyW None (p_unb p), Exn e)
  | UB => (PyW None (p_unb p), UB)
  end.
(** workspaces.py:332-342: "!" makes CFITSIO replace an existing file *)
Definition write_to (fs : files) (p : pyw) (name : string) : files * res unit :=
  match (do w <- need_wsp p RuntimeError; do _ <- check_unbinned p; workspace_write_fits w) with
  | Ok f => (fun n => if String.eqb n name then Some f else fs n, Ok tt)
  | Exn e => (fs, Exn e)
  | UB => (fs, UB)
  end.

(** ** Calls on one object *)
Inductive call :=
| Compute (f1 f2 : field) (b : bins) (teb : bool) (lt lex dl : Z) (norm : option bool)
| Read (name : string) (unb : bool)
| Write (name : string)
| UpdateBeams (b1 b2 : option (list F))
| UpdateBins (b : bins)
| UpdateMatrix (a : arr F)
| GetMatrix
| Couple (a : arr F)
| Decouple (a : arr F) (bias noise : option (arr F))
| Windows.
(** what a call returns *)
Inductive ret := RNone | RMat (m : list (list F)) | RArr (a : arr F) | RWin (w : list (list (list (list F)))).
Definition rmap {A B} (f : A -> B) (r : res A) : res B := do a <- r; Ok (f a).
Definition call_step (J : junk F) (s : pyw * files) (c : call) : (pyw * files) * res ret :=
  let '(p, fs) := s in
  match c with
  | Compute f1 f2 b teb lt lex dl norm => let '(p', r) := compute_coupling_matrix p f1 f2 b teb lt lex dl norm in ((p', fs), rmap (fun _ => RNone) r)
  | Read n u => let '(p', r) := read_from J fs p n u in ((p', fs), rmap (fun _ => RNone) r)
  | Write n => let '(fs', r) := write_to fs p n in ((p, fs'), rmap (fun _ => RNone) r)
  | UpdateBeams b1 b2 => let '(p', r) := update_beams p b1 b2 in ((p', fs), rmap (fun _ => RNone) r)
  | UpdateBins b => let '(p', r) := update_bins p b in ((p', fs), rmap (fun _ => RNone) r)
  | UpdateMatrix a => let '(p', r) := update_coupling_matrix p a in ((p', fs), rmap (fun _ => RNone) r)
  | GetMatrix => (s, rmap RMat (get_coupling_matrix p))
  | Couple a => (s, rmap RArr (couple_cell p a))
  | Decouple a x y => (s, rmap RArr (decouple_cell p a x y))
  | Windows => (s, rmap RWin (get_bandpower_windows p))
  end.
(** workspaces.py:57-59: a new object *)
Definition fresh : pyw := PyW None false.
Fixpoint calls (J : junk F) (s : pyw * files) (cs : list call) : (pyw * files) * list (res ret) :=
  match cs with
  | [] => (s, [])
  | c :: cs => let '(s1, r) := call_step J s c in let '(s2, rs) := calls J s1 cs in (s2, r :: rs)
  end.
End Session.
Arguments field : clear implicits. Arguments files : clear implicits. Arguments call : clear implicits. Arguments ret : clear implicits.
