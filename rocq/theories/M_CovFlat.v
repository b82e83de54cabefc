(** Model of the flat-sky Gaussian covariance: src/nmt_covar_flat.c, namaster.i:598-604 and 666-696,
    pymaster/covariance.py:259-350 and 457-506.  FITS files: M_FITS2.v.
    Exact arithmetic on floating-point numbers.  Accumulation loops are written as sums over the rows in the order in
    which they are processed.  [imul] is the multiplication of two C ints: it has to be exact as long as the product
    fits into 32 bits, anything may happen otherwise (signed overflow is undefined). *)
From Verif Require Import Base M_Utils M_Bins M_FlatBins M_LinAlg M_Workspace M_Flat M_WspFlat M_Covar.
Open Scope nat_scope.

Section CovFlat.
Context {F : ofield}.
Local Open Scope F_scope.
Notation mat := (list (list F)).
Notation fsinfo := (fsinfo F).
Notation fbins := (fbins F).
Notation cplx := (cplx F).
Notation ffield := (ffield F).
Notation fwsp := (fwsp F).
Variables (pi : F) (fsqrt : F -> F) (ph : nat -> nat -> cplx).
Variable imul : Z -> Z -> res Z.

(** nmt_covar_workspace_flat (namaster.h): the eight tables as pairs (1122, 1221) *)
Record cfwsp := CF { cf_bin : fbins; cf_00 : mat * mat; cf_02 : mat * mat; cf_pp : mat * mat; cf_mm : mat * mat }.
Definition cf_nb (w : cfwsp) : nat := length (fb_l0 (cf_bin w)).

(** flatsky_utils.c:39-51 and nmt_covar_flat.c:4-13 *)
Definition map_product (s : fsinfo) (m1 m2 : list F) : list F := tab (npix_fs s) (fun i => nth i m1 0 * nth i m2 0).
Definition product_and_transform (s : fsinfo) (m1 m2 : list F) : list cplx := map2alm0 pi ph s (map_product s m1 m2).
(** lines 127-141: cosine and sine of twice the angle of the wavevector *)
Definition angle2 (s : fsinfo) (m : nat * nat) : F * F :=
  let k := kmodf pi fsqrt s (fst m) (snd m) in
  let (c, sn) := if 0 <? k then (kxf pi s (fst m) / k, kyf pi s (snd m) / k) else (1, 0) in (c * c - sn * sn, fofZ 2 * sn * c).
(** lines 203-204 *)
Definition cdiff (s : fsinfo) (m1 m2 : nat * nat) : F := let (c1, s1) := angle2 s m1 in let (c2, s2) := angle2 s m2 in c1 * c2 + s1 * s2.
Definition sdiff (s : fsinfo) (m1 m2 : nat * nat) : F := let (c1, s1) := angle2 s m1 in let (c2, s2) := angle2 s m2 in s1 * c2 - c1 * s2.
(** lines 183-244: what is added up in element (i,j) of a table; cl is cl_mask_1122 or cl_mask_1221 (lines 112-115, read as in [maskprod]) *)
Definition xi_raw (s : fsinfo) (rows : list nat) (lab : nat * nat -> Z) (cl : nat * nat -> F) (w : nat * nat -> nat * nat -> F) (i j : nat) : F :=
  lsum (map (fun m1 => if (lab m1 =? Z.of_nat i)%Z then gather s lab j (fun m2 => cl (diff_mode s m1 m2) * w m1 m2) else 0) (plane_of s rows)).
(** lines 255-266 *)
Definition cov_norm (s : fsinfo) (n1 n2 : Z) : res F :=
  do p <- imul n1 n2; Ok (if (0 <? p)%Z then fofZ 4 * pi * pi / (fs_lx s * fs_lx s * fs_ly s * fs_ly s) / fofZ p else 0).
Definition same_size (a b : fsinfo) : bool := Nat.eqb (fs_nx a) (fs_nx b) && Nat.eqb (fs_ny a) (fs_ny b).
(** lines 27-287; [rows]: order in which the rows are processed by the threads *)
Definition cov_init (a1 a2 : ffield) (ba : fbins) (b1 b2 : ffield) (bb : fbins) (rows : list nat) : res cfwsp :=
  let s := ff_fs a1 in
  if negb (same_size s (ff_fs a2) && same_size s (ff_fs b1) && same_size s (ff_fs b2)) then Exn RuntimeError
  else if negb (Nat.eqb (length (fb_l0 ba)) (length (fb_l0 bb))) then Exn RuntimeError
  else
    let nb := length (fb_l0 ba) in
    let t f g := product_and_transform s (ff_mask f) (ff_mask g) in
    let cl1122 := maskprod s (t a1 b1) (t a2 b2) in
    let cl1221 := maskprod s (t a1 b2) (t a2 b1) in
    do g <- grid_bands pi fsqrt s ba;
    let cells := tab nb (count_cells s (nocut g) rows) in
    do norms <- tabM nb (fun i => tabM nb (fun j => cov_norm s (nth i cells 0%Z) (nth j cells 0%Z)));
    let table cl w := tab nb (fun i => tab nb (fun j => xi_raw s rows (nocut g) cl w i j * entry2 norms i j)) in
    let both w := (table cl1122 w, table cl1221 w) in
    Ok (CF ba (both (fun _ _ => 1)) (both (cdiff s)) (both (fun m1 m2 => cdiff s m1 m2 * cdiff s m1 m2)) (both (fun m1 m2 => sdiff s m1 m2 * sdiff s m1 m2))).
(** covariance.py:293-338: new contents of the workspace and outcome *)
Definition py_cov_compute (self : option cfwsp) (a1 a2 : ffield) (ba : fbins) (b1 b2 : option ffield) (bb : option fbins) (rows : list nat) : option cfwsp * res unit :=
  let b1 := match b1 with Some f => f | None => a1 end in
  let b2 := match b2 with Some f => f | None => a2 end in
  let bb := match bb with Some b => b | None => ba end in
  if negb (same_size (ff_fs a1) (ff_fs a2) && same_size (ff_fs a1) (ff_fs b1) && same_size (ff_fs a1) (ff_fs b2)) then (self, Exn ValueError)
  else match cov_init a1 a2 ba b1 b2 bb rows with Ok w => (Some w, Ok tt) | Exn e => (None, Exn e) | UB => (None, UB) end.

(** *** Covariance, nmt_covar_flat.c:315-454 *)
(** lines 367-372 *)
Definition fxis (cw : cfwsp) (sel : mat * mat -> mat) (i j : nat) : list F :=
  let x m := entry2 (sel m) i j in [x (cf_00 cw); x (cf_02 cw); x (cf_pp cw); x (cf_mm cw); - x (cf_mm cw); 0].
(** lines 373-414: element of the covariance of the coupled bandpowers; c holds the binned spectra *)
Definition fcov_elem (cw : cfwsp) (s : spins4) (c : cls4 F) (ia ib ic id ba bb : nat) : res F :=
  sumM (nm (sp_a s)) (fun iap => sumM (nm (sp_b s)) (fun ibp => sumM (nm (sp_c s)) (fun icp => sumM (nm (sp_d s)) (fun idp =>
    cov_term s c (fxis cw fst ba bb) (fxis cw snd ba bb) ia ib ic id iap ibp icp idp (Z.of_nat ba) (Z.of_nat bb))))).
Definition fcov_binned (cw : cfwsp) (s : spins4) (c : cls4 F) (na nb : nat) (r k : nat) : res F :=
  let mb := nm (sp_b s) in let md := nm (sp_d s) in
  fcov_elem cw s c ((r mod na) / mb) ((r mod na) mod mb) ((k mod nb) / md) ((k mod nb) mod md) (r / na) (k / nb).
Definition fcovar (cw : cfwsp) (s : spins4) (wa wb : fwsp) (ells : list F) (c : cls4 F) : res mat :=
  if negb (Nat.eqb (fw_nb wa) (cf_nb cw) && Nat.eqb (fw_nb wb) (cf_nb cw)) then Exn RuntimeError
  else if negb (Nat.eqb (fw_ncls wa) (nm (sp_a s) * nm (sp_b s)) && Nat.eqb (fw_ncls wb) (nm (sp_c s) * nm (sp_d s))) then Exn RuntimeError
  else
    do ac <- nmt_bin_cls_flat (cf_bin cw) ells (cl_ac c);
    do ad <- nmt_bin_cls_flat (cf_bin cw) ells (cl_ad c);
    do bc <- nmt_bin_cls_flat (cf_bin cw) ells (cl_bc c);
    do bd <- nmt_bin_cls_flat (cf_bin cw) ells (cl_bd c);
    let na := (fw_ncls wa * cf_nb cw)%nat in let nb := (fw_ncls wb * cf_nb cw)%nat in
    do B <- tabM na (fun r => tabM nb (fun k => fcov_binned cw s (Cls ac ad bc bd) (fw_ncls wa) (fw_ncls wb) r k));
    do ib <- lu_invert (fw_bnd wb);
    do ia <- lu_invert (fw_bnd wa);
    Ok (mat_mul na na nb ia (mat_mul_t na nb nb B ib)).
(** covariance.py:457-506.  [None]: workspace not computed *)
Definition gaussian_covariance_flat (cw : option cfwsp) (s : spins4) (ells : list F) (a1b1 a1b2 a2b1 a2b2 : mat) (wa : option fwsp) (wb : option (option fwsp)) : res mat :=
  let na := nm (sp_a s) in let nb := nm (sp_b s) in let nc := nm (sp_c s) in let nd := nm (sp_d s) in
  do xa <- need wa;
  if negb (Nat.eqb (fw_ncls xa) (na * nb)) then Exn ValueError else
  do xb <- need (match wb with Some w => w | None => wa end);
  if negb (Nat.eqb (fw_ncls xb) (nc * nd)) then Exn ValueError else
  if negb (Nat.eqb (length a1b1) (na * nc) && Nat.eqb (length a1b2) (na * nd) && Nat.eqb (length a2b1) (nb * nc) && Nat.eqb (length a2b2) (nb * nd)) then Exn ValueError else
  if negb (forallb (fun c => Nat.eqb (length (hd [] c)) (length ells)) [a1b1; a1b2; a2b1; a2b2]) then Exn ValueError else
  do w <- match cw with Some w => Ok w | None => Exn AttributeError end;
  do _ <- alloc_out (Z.of_nat (fw_ncls xa * cf_nb w) * Z.of_nat (fw_ncls xb * cf_nb w));
  fcovar w s xa xb ells (Cls a1b1 a1b2 a2b1 a2b2).
End CovFlat.
Arguments cfwsp : clear implicits.
(** two readings of the multiplication of C ints: undefined on overflow, and two's complement wrap-around *)
Definition imul_strict (a b : Z) : res Z := i32 (a * b).
Definition imul_wrap (a b : Z) : res Z := Ok (wrap32 (a * b)).
