(** Model of the curved-sky Gaussian covariance: src/nmt_covar.c, the coupling index table of
    src/utils.c:381-446, the SWIG wrappers of pymaster/namaster.i:566-664
    and pymaster/covariance.py (NmtCovarianceWorkspace, gaussian_covariance).  FITS files: M_FITS2.v. *)
From Verif Require Import Base M_Bins M_LinAlg M_Workspace M_MCM M_Utils M_Field M_Cell.
Open Scope nat_scope.

Section Covar.
Context {F : ofield}.
Local Open Scope F_scope.
Notation mat := (list (list F)).
Variables (fsqrt fexp flog : F -> F) (pi : F) (junk : Z -> F).
Variable w3j : Z -> Z -> Z -> Z -> Z -> F.

(** nmt_covar_workspace (namaster.h): maximum multipole, spin0_only, and the eight tables, as pairs
    (1122, 1221).  [cw_lmm] is None when the field lmax_mask has not been initialised. *)
Record cwsp := CWsp { cw_lmax : Z; cw_lmm : option Z; cw_s0 : bool; cw_00 : mat * mat; cw_02 : mat * mat; cw_pp : mat * mat; cw_mm : mat * mat }.

(** nmt_covar.c:4-71 *)
Definition table_of (lmax : Z) (st : store F) (a : fam) (ic : nat) : mat :=
  let n := Z.to_nat (lmax + 1) in tab n (fun l2 => tab n (fun l3 => st (CX a ic 0 (Z.of_nat l2) (Z.of_nat l3)))).
(** cl_masks[ii]*(ii+0.5)/(2*M_PI) *)
Definition scaled_half (pcl : list F) : list F := tab (length pcl) (fun l => nth l pcl 0 * (fofnat l + 1 / fofZ 2) / (fofZ 2 * pi)).
Definition covar_conf (cl1 cl2 : list F) (lmax lmm lt lex dl : Z) (s0 : bool) : conf F :=
  Conf lmax lmm [scaled_half cl1; scaled_half cl2] 0 (if s0 then 0 else 2)%Z false false false false (negb s0) lt lex dl.
Definition covar_workspace_init (cl1 cl2 : list F) (lmax lmm lt lex dl : Z) (s0 : bool) : res cwsp :=
  do st <- master fsqrt fexp flog junk w3j (covar_conf cl1 cl2 lmax lmm lt lex dl s0);
  let t a := (table_of lmax st a 0, table_of lmax st a 1) in
  Ok (CWsp lmax (Some lmm) s0 (t K00) (t (if s0 then K00 else K0s)) (t (if s0 then K00 else Kpp)) (t (if s0 then K00 else Kmm))).
(** namaster.i:576-586 *)
Definition covar_workspace_init_py (cl1 cl2 : list F) (lmax lmm lt lex dl : Z) (s0 : bool) : res cwsp :=
  do _ <- guard (Z.of_nat (length cl1) =? lmm + 1)%Z RuntimeError;
  do _ <- guard (Z.of_nat (length cl2) =? lmm + 1)%Z RuntimeError;
  covar_workspace_init cl1 cl2 lmax lmm lt lex dl s0.

(** covariance.py:226-236: spectrum of the products of masks f1 f2 and f3 f4.  Multiplying arrays of different lengths raises *)
Definition mask_prod_cl (K : calc F) (f1 f2 f3 f4 : nfield F) : res (list F) :=
  do _ <- guard (Nat.eqb (length (f_mask f1)) (length (f_mask f2))) ValueError;
  do a <- sht K 0 (f_info f1) (f_lmaxm f1) (f_niterm f1) [vmul (f_mask f1) (f_mask f2)];
  do _ <- guard (Nat.eqb (length (f_mask f3)) (length (f_mask f4))) ValueError;
  do b <- sht K 0 (f_info f3) (f_lmaxm f3) (f_niterm f3) [vmul (f_mask f3) (f_mask f4)];
  alm2cl (f_lmaxm f1) (nth 0 a []) (nth 0 b []).
Definition anisotropic (f : nfield F) : bool := match f_mask_a f with Some _ => true | None => false end.
(** NmtCovarianceWorkspace.compute_coupling_coefficients, covariance.py:162-246: new contents of self.wsp and outcome.
    The purity test only sees fla1 and flb1. *)
Definition compute_coupling_coefficients (K : calc F) (self : option cwsp) (a1 a2 : nfield F) (b1 b2 : option (nfield F)) (lt lex dl : Z) (s0 : bool) : option cwsp * res unit :=
  let b1 := opt b1 a1 in
  let b2 := opt b2 a2 in
  if anisotropic a1 || anisotropic a2 || anisotropic b1 || anisotropic b2 then (self, Exn NotImplementedError)
  else if negb (is_compatible a1 a2 true && is_compatible a1 b1 true && is_compatible a1 b2 true) then (self, Exn ValueError)
  else
    match toeplitz_sanity lt lex dl (f_lmax a1) (f_pe a1 || f_pb a1 || f_pe b1 || f_pb b1) with
    | Ok _ =>
        match (do c1 <- mask_prod_cl K a1 b1 a2 b2; do c2 <- mask_prod_cl K a1 b2 a2 b1;
               covar_workspace_init_py c1 c2 (f_lmax a1) (f_lmaxm a1) lt lex dl s0) with
        | Ok w => (Some w, Ok tt)
        | Exn e => (None, Exn e)
        | UB => (None, UB)
        end
    | Exn e => (self, Exn e)
    | UB => (self, UB)
    end.
(** from_fields, covariance.py:85-127 *)
Definition from_fields (K : calc F) (a1 a2 : nfield F) (b1 b2 : option (nfield F)) (lt lex dl : Z) (s0 : bool) : res (option cwsp) :=
  match compute_coupling_coefficients K None a1 a2 b1 b2 lt lex dl s0 with (w, Ok _) => Ok w | (_, Exn e) => Exn e | (_, UB) => UB end.

(** *** Coupling index table, utils.c:381-446 *)
Definition IC0 := 0%nat. Definition ICP := 1%nat. Definition ICMP := 2%nat. Definition ICMM := 3%nat. Definition ICZ := 5%nat.
Definition covar_indices : list nat :=
  [ICP; ICMM; ICMP; ICZ;
   ICMP; ICP; ICZ; ICMP;
   ICMM; ICZ; ICP; ICMM;
   ICZ; ICMM; ICMP; ICP]%nat.
Definition coupling_index (nma nmb ia1 ib1 ia2 ib2 : nat) : nat :=
  if Nat.eqb nma 1 then
    if Nat.eqb nmb 1 then IC0 else if Nat.eqb ib1 ib2 then IC0 else ICZ
  else
    if Nat.eqb nmb 1 then if Nat.eqb ia1 ia2 then IC0 else ICZ
    else nth ((ib2 + 2 * ia2) + 4 * (ib1 + 2 * ia1)) covar_indices 0%nat.
(** IND_COV_00 .. IND_COV_ZERO are 0 .. 5 *)
Definition coupling_pair_index (na nc nb nd ia1 ia2 ic1 ic2 ib1 ib2 id1 id2 : nat) : nat :=
  let i1 := coupling_index na nc ia1 ic1 ia2 ic2 in
  let i2 := coupling_index nb nd ib1 id1 ib2 id2 in
  if Nat.eqb i1 IC0 && Nat.eqb i2 IC0 then 0%nat
  else if (Nat.eqb i1 IC0 && Nat.eqb i2 ICP) || (Nat.eqb i1 ICP && Nat.eqb i2 IC0) then 1%nat
  else if Nat.eqb i1 ICP && Nat.eqb i2 ICP then 2%nat
  else if (Nat.eqb i1 ICMP && Nat.eqb i2 ICMP) || (Nat.eqb i1 ICMM && Nat.eqb i2 ICMM) then 4%nat
  else if (Nat.eqb i1 ICMP && Nat.eqb i2 ICMM) || (Nat.eqb i1 ICMM && Nat.eqb i2 ICMP) then 3%nat
  else 5%nat.

(** *** One element of the covariance, nmt_covar.c:138-176 and 244-282: coefficients at (la,lb), then the sum over the four primed components *)
Definition xis (cw : cwsp) (sel : mat * mat -> mat) (la lb : Z) : res (list F) :=
  do x00 <- rd2 (sel (cw_00 cw)) la lb;
  do x02 <- rd2 (sel (cw_02 cw)) la lb;
  do xp <- rd2 (sel (cw_pp cw)) la lb;
  do xm <- rd2 (sel (cw_mm cw)) la lb;
  Ok [x00; x02; xp; xm; - xm; 0].
Record spins4 := Spins { sp_a : Z; sp_b : Z; sp_c : Z; sp_d : Z }.
Definition nm (spin : Z) : nat := if (spin =? 0)%Z then 1 else 2.
Record cls4 := Cls { cl_ac : mat; cl_ad : mat; cl_bc : mat; cl_bd : mat }.
Definition cov_term (s : spins4) (c : cls4) (x1 x2 : list F) (ia ib ic id iap ibp icp idp : nat) (la lb : Z) : res F :=
  let na := nm (sp_a s) in let nb := nm (sp_b s) in let nc := nm (sp_c s) in let nd := nm (sp_d s) in
  do ac <- rd (cl_ac c) (Z.of_nat (icp + nc * iap)); do ad <- rd (cl_ad c) (Z.of_nat (idp + nd * iap));
  do bc <- rd (cl_bc c) (Z.of_nat (icp + nc * ibp)); do bd <- rd (cl_bd c) (Z.of_nat (idp + nd * ibp));
  do aca <- rd ac la; do acb <- rd ac lb; do ada <- rd ad la; do adb <- rd ad lb;
  do bca <- rd bc la; do bcb <- rd bc lb; do bda <- rd bd la; do bdb <- rd bd lb;
  let fac_1122 := 1 / fofZ 2 * (aca * bdb + acb * bda) in
  let fac_1221 := 1 / fofZ 2 * (ada * bcb + adb * bca) in
  Ok (nth (coupling_pair_index na nc nb nd ia iap ic icp ib ibp id idp) x1 0 * fac_1122
    + nth (coupling_pair_index na nd nb nc ia iap id idp ib ibp ic icp) x2 0 * fac_1221).
Definition cov_elem (cw : cwsp) (s : spins4) (c : cls4) (ia ib ic id : nat) (la lb : Z) (prefac : F) : res F :=
  do x1 <- xis cw fst la lb;
  do x2 <- xis cw snd la lb;
  sumM (nm (sp_a s)) (fun iap => sumM (nm (sp_b s)) (fun ibp => sumM (nm (sp_c s)) (fun icp => sumM (nm (sp_d s)) (fun idp =>
    do t <- cov_term s c x1 x2 ia ib ic id iap ibp icp idp la lb; Ok (t * prefac))))).

(** nmt_covar.c:96-108 and 202-214 *)
Definition covar_guards (cw : cwsp) (s : spins4) (wa wb : wsp F) : res unit :=
  if ((cw_lmax cw <? b_lmax (w_bin wa)) || (cw_lmax cw <? b_lmax (w_bin wb)))%Z then Exn RuntimeError
  else if cw_s0 cw && negb (sp_a s + sp_b s + sp_c s + sp_d s =? 0)%Z then Exn RuntimeError
  else if (negb (Nat.eqb (w_ncls wa) (nm (sp_a s) * nm (sp_b s))) || negb (Nat.eqb (w_ncls wb) (nm (sp_c s) * nm (sp_d s))))%bool then Exn RuntimeError
  else Ok tt.

(** nmt_compute_gaussian_covariance_coupled, nmt_covar.c:89-188.  The output array is not initialised ([None]); it is filled for the
    multipoles that belong to a band.  A multipole that is in several bands is written several times: here the last one stays (with several threads it is any of them). *)
Definition find_ell (b : bins F) (l : Z) : option (entry F) := find (fun e => (e_ell e =? l)%Z) (rev (concat (b_bands b))).
Definition ells_fit (b : bins F) (lmax : Z) : bool := forallb (fun e => (0 <=? e_ell e) && (e_ell e <=? lmax))%Z (concat (b_bands b)).
Definition covar_coupled (cw : cwsp) (s : spins4) (c : cls4) (wa wb : wsp F) : res (list (list (option F))) :=
  do _ <- covar_guards cw s wa wb;
  if negb (ells_fit (w_bin wa) (cw_lmax cw) && ells_fit (w_bin wb) (cw_lmax cw)) then UB else
  let n := Z.to_nat (cw_lmax cw + 1) in
  let nb := nm (sp_b s) in let nd := nm (sp_d s) in
  tabM (w_ncls wa * n) (fun r => tabM (n * w_ncls wb) (fun k =>
    let la := Z.of_nat (r / w_ncls wa) in let lb := Z.of_nat (k / w_ncls wb) in
    let ca := (r mod w_ncls wa)%nat in let cb := (k mod w_ncls wb)%nat in
    match find_ell (w_bin wa) la, find_ell (w_bin wb) lb with
    | Some ea, Some eb => do x <- cov_elem cw s c (ca / nb) (ca mod nb) (cb / nd) (cb mod nd) la lb (e_f ea * e_f eb); Ok (Some x)
    | _, _ => Ok None
    end)).

(** nmt_compute_gaussian_covariance, nmt_covar.c:190-317 *)
Definition cov_binned (cw : cwsp) (s : spins4) (c : cls4) (wa wb : wsp F) (r k : nat) : res F :=
  let nb := nm (sp_b s) in let nd := nm (sp_d s) in
  do xa <- rd (b_bands (w_bin wa)) (Z.of_nat (r / w_ncls wa));
  do xb <- rd (b_bands (w_bin wb)) (Z.of_nat (k / w_ncls wb));
  lsumM (fun ea => lsumM (fun eb =>
    cov_elem cw s c ((r mod w_ncls wa) / nb) ((r mod w_ncls wa) mod nb) ((k mod w_ncls wb) / nd) ((k mod w_ncls wb) mod nd) (e_ell ea) (e_ell eb)
      (e_w ea * e_f ea * e_w eb * e_f eb)) xb) xa.
(** dgemm with a transposed second factor *)
Definition mat_mul_t (n k m : nat) (A B : mat) : mat := tab n (fun i => tab m (fun j => sum k (fun p => entry2 A i p * entry2 B j p))).
Definition covar_decoupled (cw : cwsp) (s : spins4) (c : cls4) (wa wb : wsp F) : res mat :=
  do _ <- covar_guards cw s wa wb;
  let na := (w_ncls wa * nbands wa)%nat in
  let nb := (w_ncls wb * nbands wb)%nat in
  do B <- tabM na (fun r => tabM nb (fun k => cov_binned cw s c wa wb r k));
  do ib <- lu_invert (w_mb wb);
  do ia <- lu_invert (w_mb wa);
  Ok (mat_mul na na nb ia (mat_mul_t na nb nb B ib)).

(** *** gaussian_covariance, covariance.py:353-454 *)
(** len(x); len(x[0]): TypeError for a number, IndexError for an empty array *)
Definition alen (a : arr F) : Z := match a with A1 v => Z.of_nat (length v) | A2 _ rows => Z.of_nat (length rows) | AN => 0 end.
Definition ilen (a : arr F) : res Z :=
  match a with
  | A1 [] => Exn IndexError | A1 _ => Exn TypeError
  | A2 _ [] => Exn IndexError | A2 k _ => Ok (Z.of_nat k)
  | AN => Exn TypeError
  end.
Definition rows_of_arr (a : arr F) : mat := match a with A2 _ rows => rows | _ => [] end.
(** namaster.i:613-664: output array of dimension len_a*len_b converted to int; the four spectra must have the same length *)
Definition wrap32 (z : Z) : Z := ((z + 2147483648) mod 4294967296 - 2147483648)%Z.
Definition alloc_out (n : Z) : res unit := if (wrap32 n <? 0)%Z then Exn ValueError else if (wrap32 n =? n)%Z then Ok tt else UB.
Inductive covmat := Coupled (m : list (list (option F))) | Decoupled (m : mat).
Definition gaussian_covariance (cw : option cwsp) (s : spins4) (a1b1 a1b2 a2b1 a2b2 : arr F) (wa : pyw F) (wb : option (pyw F)) (coupled : bool) : res covmat :=
  let wb := opt wb wa in
  let na := Z.of_nat (nm (sp_a s)) in let nb := Z.of_nat (nm (sp_b s)) in let nc := Z.of_nat (nm (sp_c s)) in let nd := Z.of_nat (nm (sp_d s)) in
  do xa <- need_wsp wa AttributeError;
  if negb (ncl xa =? na * nb)%Z then Exn ValueError else
  do xb <- need_wsp wb AttributeError;
  if negb (ncl xb =? nc * nd)%Z then Exn ValueError else
  if (negb (alen a1b1 =? na * nc) || negb (alen a1b2 =? na * nd) || negb (alen a2b1 =? nb * nc) || negb (alen a2b2 =? nb * nd))%Z then Exn ValueError else
  do k1 <- ilen a1b1;
  do w <- match cw with Some w => Ok w | None => Exn AttributeError end;
  let short k := (k <? cw_lmax w + 1)%Z in
  if short k1 then Exn ValueError else
  do k2 <- ilen a1b2; if short k2 then Exn ValueError else
  do k3 <- ilen a2b1; if short k3 then Exn ValueError else
  do k4 <- ilen a2b2; if short k4 then Exn ValueError else
  let c := Cls (rows_of_arr a1b1) (rows_of_arr a1b2) (rows_of_arr a2b1) (rows_of_arr a2b2) in
  let same := ((k1 =? k2) && (k1 =? k3) && (k1 =? k4))%Z in
  if coupled then
    do _ <- check_unbinned wa;
    do _ <- check_unbinned wb;
    do _ <- alloc_out (ncl xa * (cw_lmax w + 1) * (ncl xb * (cw_lmax w + 1)));
    if negb same then Exn RuntimeError else
    do m <- covar_coupled w s c xa xb; Ok (Coupled m)
  else
    do _ <- alloc_out (ncl xa * Z.of_nat (nbands xa) * (ncl xb * Z.of_nat (nbands xb)));
    if negb same then Exn RuntimeError else
    do m <- covar_decoupled w s c xa xb; Ok (Decoupled m).
End Covar.
Arguments cwsp : clear implicits. Arguments cls4 : clear implicits. Arguments covmat : clear implicits.
