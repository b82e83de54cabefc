(** Property C85: covariance workspaces (curved and flat sky) survive a round trip through a FITS file. *)
From Verif Require Import Base M_Utils M_Bins M_FlatBins M_LinAlg M_Workspace M_Flat M_WspFlat M_Field M_MCM M_Covar M_CovFlat M_FITS2 L_LinAlg L_WspFlat2 P_Covar6 L_CovFlat L_FITS3.
Open Scope nat_scope.

Section C85.
Context {F : ofield}.
Local Open Scope F_scope.
Notation mat := (list (list F)).
Notation cwsp := (cwsp F).
Notation cfwsp := (cfwsp F).

(** *** Congruence *)
Lemma foldM_cong {A B} (f g : B -> A -> res B) l b : (forall a b, In a l -> f b a = g b a) -> foldM f b l = foldM g b l.
Proof.
  revert b. induction l as [|a l IH]; intros b H; [reflexivity|]. cbn [foldM]. rewrite H by (left; reflexivity). destruct (g b a); cbn [bind]; try reflexivity. apply IH. intros; apply H; right; assumption.
Qed.
Lemma sumM_cong n (f g : nat -> res F) : (forall i, (i < n)%nat -> f i = g i) -> sumM n f = sumM n g.
Proof. intro H. unfold sumM. apply foldM_cong. intros a b I. apply in_seq in I. rewrite H by lia. reflexivity. Qed.
Lemma lsumM_cong {A} (f g : A -> res F) l : (forall a, f a = g a) -> lsumM f l = lsumM g l.
Proof. intro H. unfold lsumM. apply foldM_cong. intros a b _. rewrite H. reflexivity. Qed.
Definition rect4 (n : nat) (c : cwsp) : Prop := forall t, In t [cw_00 c; cw_02 c; cw_pp c; cw_mm c] -> rect n n (fst t) /\ rect n n (snd t).
Lemma rd2_rect n (A : mat) i j : rect n n A -> rd2 A i j = if ((0 <=? i) && (i <? Z.of_nat n) && (0 <=? j) && (j <? Z.of_nat n))%Z then Ok (entry2 A (Z.to_nat i) (Z.to_nat j)) else UB.
Proof.
  intros [L R]. unfold rd2, rd. destruct (Z.leb_spec 0 i); cbn [andb bind]; [|reflexivity].
  destruct (Z.ltb_spec i (Z.of_nat n)); cbn [andb].
  - rewrite (nth_error_nth' A []) by lia. cbn [bind]. destruct (Z.leb_spec 0 j); cbn [andb]; [|reflexivity].
    assert (Lr : length (nth (Z.to_nat i) A []) = n) by (apply R, nth_In; lia).
    destruct (Z.ltb_spec j (Z.of_nat n)); [rewrite (nth_error_nth' _ f0) by lia; reflexivity|].
    rewrite (proj2 (nth_error_None _ _)) by lia. reflexivity.
  - rewrite (proj2 (nth_error_None _ _)) by lia. reflexivity.
Qed.
Lemma cpi_scalar ia iap ic icp ib ibp id idp : coupling_pair_index 1 1 1 1 ia iap ic icp ib ibp id idp = 0%nat.
Proof. reflexivity. Qed.
Definition scalars := Spins 0 0 0 0.
Lemma term_scalar (c : cls4 F) x1 x2 y1 y2 ia ib ic id iap ibp icp idp la lb : nth 0 x1 0 = nth 0 y1 0 -> nth 0 x2 0 = nth 0 y2 0 ->
  cov_term scalars c x1 x2 ia ib ic id iap ibp icp idp la lb = cov_term scalars c y1 y2 ia ib ic id iap ibp icp idp la lb.
Proof.
  intros H1 H2. unfold cov_term. cbn [scalars sp_a sp_b sp_c sp_d]. change (nm 0) with 1%nat. rewrite !cpi_scalar, H1, H2. reflexivity.
Qed.
Lemma elem_scalar n (c c' : cwsp) k ia ib ic id la lb pf : rect4 n c -> rect4 n c' -> cw_00 c = cw_00 c' ->
  cov_elem c scalars k ia ib ic id la lb pf = cov_elem c' scalars k ia ib ic id la lb pf.
Proof.
  intros R R' E. unfold cov_elem, xis.
  assert (H : forall (sel : mat * mat -> mat), In sel [fst; snd] -> forall t, In t [cw_00 c; cw_02 c; cw_pp c; cw_mm c; cw_00 c'; cw_02 c'; cw_pp c'; cw_mm c'] -> rect n n (sel t)).
  { intros sel Hs t Ht. assert (G : rect n n (fst t) /\ rect n n (snd t)) by (cbn in Ht; destruct Ht as [H|[H|[H|[H|Ht]]]]; [apply R; cbn; auto..|apply R'; exact Ht]).
    destruct Hs as [<-|[<-|[]]]; apply G. }
  rewrite !(rd2_rect n) by (apply H; cbn; auto 10). destruct (_ && _)%bool; cbn [bind]; [|reflexivity]. rewrite E. cbn [scalars sp_a sp_b sp_c sp_d].
  apply sumM_cong. intros. apply sumM_cong. intros. apply sumM_cong. intros. apply sumM_cong. intros. rewrite (term_scalar k _ _ [entry2 (fst (cw_00 c')) (Z.to_nat la) (Z.to_nat lb)] [entry2 (snd (cw_00 c')) (Z.to_nat la) (Z.to_nat lb)]) by reflexivity. symmetry. rewrite (term_scalar k _ _ [entry2 (fst (cw_00 c')) (Z.to_nat la) (Z.to_nat lb)] [entry2 (snd (cw_00 c')) (Z.to_nat la) (Z.to_nat lb)]) by reflexivity. reflexivity.
Qed.
Lemma covariance_scalar n (c c' : cwsp) w x y z wa wb a : rect4 n c -> rect4 n c' -> cw_00 c = cw_00 c' -> cw_lmax c = cw_lmax c' ->
  gaussian_covariance (Some c) scalars w x y z wa wb a = gaussian_covariance (Some c') scalars w x y z wa wb a.
Proof.
  intros R R' E L. unfold gaussian_covariance. destruct (need_wsp wa _) as [xa| |]; cbn [bind]; try reflexivity. destruct (negb _); [reflexivity|]. destruct (need_wsp (opt wb wa) _) as [xb| |]; cbn [bind]; try reflexivity.
  rewrite L. destruct (negb _); [reflexivity|]. destruct (_ || _)%bool; [reflexivity|]. destruct (ilen w); cbn [bind]; try reflexivity. destruct (_ <? _)%Z; [reflexivity|].
  destruct (ilen x); cbn [bind]; try reflexivity. destruct (_ <? _)%Z; [reflexivity|]. destruct (ilen y); cbn [bind]; try reflexivity. destruct (_ <? _)%Z; [reflexivity|]. destruct (ilen z); cbn [bind]; try reflexivity. destruct (_ <? _)%Z; [reflexivity|].
  assert (G : forall u v, covar_guards c scalars u v = covar_guards c' scalars u v).
  { intros u v. unfold covar_guards. rewrite L. change (sp_a scalars + sp_b scalars + sp_c scalars + sp_d scalars =? 0)%Z with true. rewrite !andb_false_r. reflexivity. }
  destruct a.
  - do 3 (match goal with |- bind ?x _ = _ => destruct x; cbn [bind]; try reflexivity end). destruct (negb _); [reflexivity|]. f_equal. unfold covar_coupled. rewrite G, L. destruct (covar_guards _ _ _ _); cbn [bind]; try reflexivity. destruct (negb _); [reflexivity|].
    apply tabM_cong. intros. apply tabM_cong. intros. destruct (find_ell (w_bin xa) _); [|reflexivity]. destruct (find_ell (w_bin xb) _); [|reflexivity]. rewrite (elem_scalar n c c') by assumption. reflexivity.
  - match goal with |- bind ?x _ = _ => destruct x; cbn [bind]; try reflexivity end. destruct (negb _); [reflexivity|]. f_equal. unfold covar_decoupled. rewrite G. destruct (covar_guards _ _ _ _); cbn [bind]; try reflexivity.
    f_equal. apply tabM_cong. intros i Hi. apply tabM_cong. intros j Hj. unfold cov_binned. destruct (rd _ _); cbn [bind]; try reflexivity. destruct (rd _ _); cbn [bind]; try reflexivity.
    apply lsumM_cong. intro. apply lsumM_cong. intro. apply (elem_scalar n); assumption.
Qed.
(** the member lmax_mask is not used *)
Lemma covariance_lmm l m m' s0 (t1 t2 t3 t4 : mat * mat) sp w x y z wa wb a :
  gaussian_covariance (Some (CWsp l m s0 t1 t2 t3 t4)) sp w x y z wa wb a = gaussian_covariance (Some (CWsp l m' s0 t1 t2 t3 t4)) sp w x y z wa wb a.
Proof. reflexivity. Qed.

(** *** Writing and reading *)
Variable junk : nat -> F.
Record good_c (c : cwsp) : Prop := {
  gc_lmax : (0 <= cw_lmax c)%Z;
  gc_rect : rect4 (Z.to_nat (cw_lmax c + 1)) c;
  gc_s0 : cw_s0 c = true -> cw_02 c = cw_00 c /\ cw_pp c = cw_00 c /\ cw_mm c = cw_00 c }.
Definition unit_of (n : nat) (A : mat) (name : string) : unit2 F := image name [] n n (concat A).
Definition pair_of (n : nat) (A : mat * mat) (n1 n2 : string) : file2 F := [unit_of n (fst A) n1; unit_of n (snd A) n2].
Definition rest_of (n : nat) (x y z : mat * mat) : file2 F := pair_of n x "XI02_1122" "XI02_1221" ++ pair_of n y "XI22P_1122" "XI22P_1221" ++ pair_of n z "XI22M_1122" "XI22M_1221".
Definition cfile_of (ks : list (string * kval (F:=F))) (n : nat) (s0 : bool) (a x y z : mat * mat) : file2 F :=
  U2 false "CWSP_PRIMARY" ks 0 [] (0, 0)%nat [] [] :: pair_of n a "XI00_1122" "XI00_1221" ++ (if s0 then [] else rest_of n x y z).
Lemma pair_out_ok n (A : mat * mat) n1 n2 : rect n n (fst A) /\ rect n n (snd A) -> pair_out n A n1 n2 = Ok (pair_of n A n1 n2).
Proof. intros [H1 H2]. unfold pair_out, coeffs_out. rewrite (rows_out_ok n n _ H1), (rows_out_ok n n _ H2). reflexivity. Qed.
Lemma pair_in_ok (f : file2 F) n (A : mat * mat) n1 n2 : rect n n (fst A) /\ rect n n (snd A) -> mov f false n1 = Ok (unit_of n (fst A) n1) -> mov f false n2 = Ok (unit_of n (snd A) n2) ->
  pair_in junk f n n1 n2 = Ok A.
Proof.
  intros [H1 H2] M1 M2. unfold pair_in, coeffs_in. rewrite M1, M2. unfold unit_of, image. cbn [bind u_axes fst]. rewrite Nat.eqb_refl. cbn [negb]. rewrite !square_in_ok by assumption. destruct A. reflexivity.
Qed.
Definition std_keys (c : cwsp) : list (string * kval (F:=F)) := [("LMAX", KI (cw_lmax c)); ("SPIN0_ONLY", KI (zb (cw_s0 c)))]%string.
Lemma covar_write_ok c : good_c c ->
  covar_write c = Ok (cfile_of (std_keys c) (Z.to_nat (cw_lmax c + 1)) (cw_s0 c) (cw_00 c) (cw_02 c) (cw_pp c) (cw_mm c),
                      CWsp (cw_lmax c) (Some (cw_lmax c)) (cw_s0 c) (cw_00 c) (cw_02 c) (cw_pp c) (cw_mm c)).
Proof.
  intros [L R S]. unfold covar_write. rewrite !pair_out_ok by (apply R; cbn; auto 6). cbn [bind]. unfold cfile_of, std_keys. destruct (cw_s0 c); reflexivity.
Qed.
Lemma covar_read_ok ks (n : nat) lmax s0 (a x y z : mat * mat) force : (0 <= lmax)%Z -> n = Z.to_nat (lmax + 1) ->
  key_i (U2 false "CWSP_PRIMARY" ks 0 [] (0, 0)%nat [] [] : unit2 F) "LMAX" = Ok lmax ->
  match key_i (U2 false "CWSP_PRIMARY" ks 0 [] (0, 0)%nat [] [] : unit2 F) "SPIN0_ONLY" with Ok v => negb (v =? 0)%Z | _ => false end = s0 ->
  (forall t, In t [a; x; y; z] -> rect n n (fst t) /\ rect n n (snd t)) ->
  covar_read junk (cfile_of ks n s0 a x y z) force = Ok (if (force || s0)%bool then CWsp lmax None true a a a a else CWsp lmax None false a x y z).
Proof.
  intros L N K1 K2 R. unfold covar_read. cbn [cfile_of mov_any find u_name String.eqb Ascii.eqb Bool.eqb bind]. rewrite K1. cbn [bind]. rewrite K2.
  replace (lmax + 1 <? 0)%Z with false by (symmetry; apply Z.ltb_ge; lia). rewrite <- N.
  rewrite (pair_in_ok _ n a) by (reflexivity || (apply R; cbn; auto)). cbn [bind].
  destruct force; cbn [orb]; [reflexivity|]. destruct s0; [reflexivity|].
  rewrite (pair_in_ok _ n x) by (reflexivity || (apply R; cbn; auto)). cbn [bind]. rewrite (pair_in_ok _ n y) by (reflexivity || (apply R; cbn; auto)). cbn [bind]. rewrite (pair_in_ok _ n z) by (reflexivity || (apply R; cbn; auto 6)). reflexivity.
Qed.
Lemma covar_round c force : good_c c -> exists f c', covar_write c = Ok (f, c') /\ c' = CWsp (cw_lmax c) (Some (cw_lmax c)) (cw_s0 c) (cw_00 c) (cw_02 c) (cw_pp c) (cw_mm c) /\
  covar_read junk f force = Ok (if (force || cw_s0 c)%bool then CWsp (cw_lmax c) None true (cw_00 c) (cw_00 c) (cw_00 c) (cw_00 c) else CWsp (cw_lmax c) None false (cw_00 c) (cw_02 c) (cw_pp c) (cw_mm c)).
Proof.
  intro G. rewrite (covar_write_ok c G). destruct G as [L R S]. do 2 eexists. split; [reflexivity|]. split; [reflexivity|]. apply covar_read_ok; try assumption; try reflexivity.
  unfold std_keys, zb. cbn. destruct (cw_s0 c); reflexivity.
Qed.

(** *** Curved-sky covariance workspaces made from fields *)
Variables (fsqrt fexp flog : F -> F) (pi : F) (cjunk : Z -> F) (w3j : Z -> Z -> Z -> Z -> Z -> F) (K : calc F).
Notation from_fields := (from_fields fsqrt fexp flog pi cjunk w3j K).
Notation init := (covar_workspace_init_py fsqrt fexp flog pi cjunk w3j).
Lemma init_good c1 c2 lmax lmm lt lex dl s0 c : init c1 c2 lmax lmm lt lex dl s0 = Ok c -> (0 <= lmax)%Z -> good_c c /\ cw_lmax c = lmax /\ cw_s0 c = s0.
Proof.
  intros E L. unfold covar_workspace_init_py in E. destruct (guard _ _); cbn [bind] in E; try discriminate. destruct (guard _ _); cbn [bind] in E; try discriminate. unfold covar_workspace_init in E. destruct (master _ _ _ _ _ _) as [st| |]; cbn [bind] in E; try discriminate.
  apply (f_equal (fun r => match r with Ok x => x | _ => c end)) in E. cbn beta iota in E. rewrite <- E. split; [|split; reflexivity]. constructor; cbn [cw_lmax cw_00 cw_02 cw_pp cw_mm cw_s0].
  - exact L.
  - intros t Ht. cbn [cw_00 cw_02 cw_pp cw_mm] in Ht. assert (G : exists a, t = (table_of lmax st a 0, table_of lmax st a 1)) by (destruct Ht as [<-|[<-|[<-|[<-|[]]]]]; eexists; reflexivity).
    destruct G as [ar ->]. split; apply rect_tab.
  - intros ->. repeat split.
Qed.
Lemma fields_good a1 a2 b1 b2 lt lex dl s0 c : from_fields a1 a2 b1 b2 lt lex dl s0 = Ok (Some c) -> (0 <= f_lmax a1)%Z -> good_c c /\ cw_lmax c = f_lmax a1 /\ cw_s0 c = s0.
Proof.
  intros E L. unfold from_fields, compute_coupling_coefficients in E. cbv zeta in E. revert E. repeat match goal with |- context [if ?b then _ else _] => destruct b; [intro E; discriminate E|] end.
  destruct (toeplitz_sanity _ _ _ _ _); try (intro E; discriminate E). destruct (mask_prod_cl K a1 _ _ _) as [c1| |]; cbn [bind]; try (intro E; discriminate E). destruct (mask_prod_cl K a1 _ _ _) as [c2| |]; cbn [bind]; try (intro E; discriminate E).
  destruct (init c1 c2 _ _ _ _ _ _) as [w| |] eqn:I; intro E; try discriminate E. assert (W : w = c) by (injection E as E; exact E). subst w. exact (init_good _ _ _ _ _ _ _ _ _ I L).
Qed.
(** A workspace made from fields can be written; reading the file into any workspace object gives the same lmax, the same spin0_only and the same coupling coefficients. *)
Theorem C85_round_trip a1 a2 b1 b2 lt lex dl s0 c p : from_fields a1 a2 b1 b2 lt lex dl s0 = Ok (Some c) -> (0 <= f_lmax a1)%Z ->
  exists f c' d, pc_write (Some c) = Ok (f, c') /\ pc_read junk p (Some f) false = (Some d, Ok tt) /\
    cw_lmax d = f_lmax a1 /\ cw_s0 d = s0 /\ cw_00 d = cw_00 c /\ cw_02 d = cw_02 c /\ cw_pp d = cw_pp c /\ cw_mm d = cw_mm c.
Proof.
  intros E L. destruct (fields_good _ _ _ _ _ _ _ _ _ E L) as [G [E1 E2]]. destruct (covar_round c false G) as [f [c' [W [_ R]]]]. exists f, c'. cbn [pc_write]. rewrite W. unfold pc_read. rewrite R, <- E1, <- E2. cbn [orb].
  destruct (cw_s0 c) eqn:S.
  - destruct (gc_s0 c G S) as [-> [-> ->]]. eexists. repeat split.
  - eexists. repeat split.
Qed.
(** The covariances computed with the workspace that was read, and with the one that was written (the writer changes one of its members), are those of the original:
    same values and same errors for all spins, spectra and workspaces. *)
Theorem C85_covariance_same a1 a2 b1 b2 lt lex dl s0 c f c' p d sp w x y z wa wb coupled : from_fields a1 a2 b1 b2 lt lex dl s0 = Ok (Some c) -> (0 <= f_lmax a1)%Z ->
  pc_write (Some c) = Ok (f, c') -> pc_read junk p (Some f) false = (Some d, Ok tt) ->
  gaussian_covariance (Some d) sp w x y z wa wb coupled = gaussian_covariance (Some c) sp w x y z wa wb coupled /\
  gaussian_covariance (Some c') sp w x y z wa wb coupled = gaussian_covariance (Some c) sp w x y z wa wb coupled.
Proof.
  intros E L W R. destruct (fields_good _ _ _ _ _ _ _ _ _ E L) as [G _]. destruct (covar_round c false G) as [f0 [c0 [W0 [C0 R0]]]]. cbn [pc_write] in W. rewrite W0 in W.
  assert (X : f0 = f /\ c0 = c') by (inversion W; split; reflexivity). destruct X as [-> ->]. unfold pc_read in R. rewrite R0 in R. cbn [orb] in R. subst c'. destruct c as [l m s t1 t2 t3 t4]. cbn [cw_lmax cw_s0 cw_00 cw_02 cw_pp cw_mm] in *. split; [|apply covariance_lmm].
  destruct s.
  - destruct (gc_s0 _ G eq_refl) as [S1 [S2 S3]]. cbn [cw_00 cw_02 cw_pp cw_mm] in S1, S2, S3. subst. assert (D : d = CWsp l None true t1 t1 t1 t1) by (inversion R; reflexivity). rewrite D. apply covariance_lmm.
  - assert (D : d = CWsp l None false t1 t2 t3 t4) by (inversion R; reflexivity). rewrite D. apply covariance_lmm.
Qed.
(** Reading with force_spin0_only: the covariances of four scalar fields are those of the workspace that was written ... *)
Theorem C85_force_spin0 a1 a2 b1 b2 lt lex dl s0 c f c' p w x y z wa wb coupled : from_fields a1 a2 b1 b2 lt lex dl s0 = Ok (Some c) -> (0 <= f_lmax a1)%Z ->
  pc_write (Some c) = Ok (f, c') ->
  exists d, pc_read junk p (Some f) true = (Some d, Ok tt) /\ gaussian_covariance (Some d) (Spins 0 0 0 0) w x y z wa wb coupled = gaussian_covariance (Some c) (Spins 0 0 0 0) w x y z wa wb coupled.
Proof.
  intros E L W. destruct (fields_good _ _ _ _ _ _ _ _ _ E L) as [G _]. destruct (covar_round c true G) as [f0 [c0 [W0 [C0 R0]]]]. cbn [pc_write] in W. rewrite W0 in W.
  assert (X : f0 = f /\ c0 = c') by (inversion W; split; reflexivity). destruct X as [-> ->]. unfold pc_read. rewrite R0. cbn [orb]. eexists. split; [reflexivity|].
  apply (covariance_scalar (Z.to_nat (cw_lmax c + 1))); [ | apply (gc_rect c G) | reflexivity | reflexivity].
  intros t Ht. cbn [cw_00 cw_02 cw_pp cw_mm] in Ht. apply (gc_rect c G). destruct Ht as [<-|[<-|[<-|[<-|[]]]]]; cbn; auto.
Qed.
(** ... and no covariance is returned for non-negative spins that are not all zero. *)
Theorem C85_force_spin0_rejects (f : file2 F) p d sp w x y z wa wb coupled r : pc_read junk p (Some f) true = (Some d, Ok tt) ->
  (0 <= sp_a sp)%Z -> (0 <= sp_b sp)%Z -> (0 <= sp_c sp)%Z -> (0 <= sp_d sp)%Z -> gaussian_covariance (Some d) sp w x y z wa wb coupled = Ok r ->
  sp = Spins 0 0 0 0.
Proof.
  intros R P1 P2 P3 P4 E. unfold pc_read, covar_read in R. cbv zeta in R. revert R. destruct (mov_any f _) as [u| |]; cbn [bind]; try (intro R; discriminate R). destruct (key_i u "LMAX") as [lmax| |]; cbn [bind]; try (intro R; discriminate R).
  destruct (_ <? 0)%Z; [intro R; discriminate R|]. destruct (pair_in _ _ _ _ _) as [a| |]; cbn [bind]; try (intro R; discriminate R). intro R. assert (D : d = CWsp lmax None true a a a a) by (inversion R; reflexivity).
  destruct sp as [s1 s2 s3 s4]. cbn [sp_a sp_b sp_c sp_d] in *. destruct (Z.eq_dec (s1 + s2 + s3 + s4) 0) as [Z0|Z0]; [f_equal; lia|]. exfalso.
  assert (G : forall u v t, covar_guards d (Spins s1 s2 s3 s4) u v <> Ok t).
  { intros u0 v t. unfold covar_guards. rewrite D. cbn [cw_lmax cw_s0 sp_a sp_b sp_c sp_d]. destruct (_ || _)%bool; [discriminate|]. apply Z.eqb_neq in Z0. rewrite Z0. discriminate. }
  assert (G1 : forall c u v t, covar_coupled d (Spins s1 s2 s3 s4) c u v <> Ok t).
  { intros c0 u0 v t. unfold covar_coupled. destruct (covar_guards _ _ _ _) as [[]| |] eqn:X; cbn [bind]; try discriminate. exfalso. exact (G _ _ _ X). }
  assert (G2 : forall c u v t, covar_decoupled d (Spins s1 s2 s3 s4) c u v <> Ok t).
  { intros c0 u0 v t. unfold covar_decoupled. destruct (covar_guards _ _ _ _) as [[]| |] eqn:X; cbn [bind]; try discriminate. exfalso. exact (G _ _ _ X). }
  clear R D. unfold gaussian_covariance in E. cbv zeta in E. revert E.
  repeat (match goal with
    | |- bind ?x _ = Ok _ -> _ => let X := fresh "X" in destruct x eqn:X; cbn [bind]; try (intro E; discriminate E)
    | |- (if ?b then Exn _ else _) = Ok _ -> _ => destruct b; [intro E; discriminate E|]
    | |- (if coupled then _ else _) = Ok _ -> _ => destruct coupled
    end); intros _.
  all: match goal with H : covar_coupled _ _ _ _ _ = Ok _ |- _ => exact (G1 _ _ _ _ H) | H : covar_decoupled _ _ _ _ _ = Ok _ |- _ => exact (G2 _ _ _ _ H) end.
Qed.
(** Files written before the keyword SPIN0_ONLY existed hold all the tables and are read as such. *)
Definition without (k : string) (u : unit2 F) : unit2 F :=
  U2 (u_table u) (u_name u) (filter (fun kv => negb (String.eqb (fst kv) k)) (u_keys u)) (u_nrows u) (u_cols u) (u_axes u) (u_pix u) (u_ipix u).
Theorem C85_old_format a1 a2 b1 b2 lt lex dl c f c' p : from_fields a1 a2 b1 b2 lt lex dl false = Ok (Some c) -> (0 <= f_lmax a1)%Z -> pc_write (Some c) = Ok (f, c') ->
  pc_read junk p (Some (map (without "SPIN0_ONLY") f)) false = pc_read junk p (Some f) false /\ snd (pc_read junk p (Some f) false) = Ok tt.
Proof.
  intros E L W. destruct (fields_good _ _ _ _ _ _ _ _ _ E L) as [G [_ S]]. destruct (covar_round c false G) as [f0 [c0 [W0 [C0 R0]]]]. cbn [pc_write] in W. rewrite (covar_write_ok c G) in W0, W.
  assert (X : f0 = f) by (rewrite W0 in W; inversion W; reflexivity). assert (Y : f0 = cfile_of (std_keys c) (Z.to_nat (cw_lmax c + 1)) (cw_s0 c) (cw_00 c) (cw_02 c) (cw_pp c) (cw_mm c)) by (inversion W0; reflexivity).
  rewrite <- X. unfold pc_read. rewrite R0. rewrite S in *. split; [|reflexivity]. rewrite Y.
  change (map (without "SPIN0_ONLY") (cfile_of (std_keys c) (Z.to_nat (cw_lmax c + 1)) false (cw_00 c) (cw_02 c) (cw_pp c) (cw_mm c)))
    with (cfile_of [("LMAX"%string, KI (cw_lmax c))] (Z.to_nat (cw_lmax c + 1)) false (cw_00 c) (cw_02 c) (cw_pp c) (cw_mm c)).
  rewrite (covar_read_ok _ (Z.to_nat (cw_lmax c + 1)) (cw_lmax c) false); [reflexivity | apply G | reflexivity | reflexivity | reflexivity | apply G].
Qed.
(** Failures.  Nothing to write: ValueError.  No file, no primary unit, no LMAX, or a table that is missing: no workspace, and what the object held before is gone. *)
Definition needed (force : bool) : list string := ["CWSP_PRIMARY"; "XI00_1122"; "XI00_1221"]%string ++ if force then [] else ["XI02_1122"; "XI02_1221"; "XI22P_1122"; "XI22P_1221"; "XI22M_1122"; "XI22M_1221"]%string.
Lemma mov_missing (f : file2 F) k name : (forall u, In u f -> u_name u <> name) -> mov f k name = fail.
Proof.
  intro H. unfold mov. destruct (find _ f) as [u|] eqn:E; [|reflexivity]. apply find_some in E. destruct E as [I E]. apply andb_true_iff in E. destruct E as [_ E]. apply String.eqb_eq in E. elim (H u I E).
Qed.
Lemma mov_any_missing (f : file2 F) name : (forall u, In u f -> u_name u <> name) -> mov_any f name = fail.
Proof.
  intro H. unfold mov_any. destruct (find _ f) as [u|] eqn:E; [|reflexivity]. apply find_some in E. destruct E as [I E]. apply String.eqb_eq in E. elim (H u I E).
Qed.
Lemma pair_in_missing (f : file2 F) n n1 n2 A : pair_in junk f n n1 n2 = Ok A -> mov f false n1 <> fail /\ mov f false n2 <> fail.
Proof.
  unfold pair_in, coeffs_in. destruct (mov f false n1) as [u1| |]; cbn [bind]; try discriminate. destruct (negb _); [discriminate|]. destruct (square_in junk u1) as [m1| |]; cbn [bind]; try discriminate. destruct (mov f false n2) as [u2| |]; cbn [bind]; try discriminate. split; discriminate.
Qed.
Theorem C85_failures : pc_write (@None cwsp) = Exn ValueError /\ (forall p force, pc_read junk p None force = (None, Exn RuntimeError)) /\
  (forall p f force s0 name, (forall u z, In u f -> u_name u = "CWSP_PRIMARY"%string -> key_i u "SPIN0_ONLY" = Ok z -> negb (z =? 0)%Z = s0) -> In name (needed (force || s0)) -> (forall u, In u f -> u_name u <> name) ->
     exists r, pc_read junk p (Some f) force = (None, r) /\ r <> Ok tt) /\
  (forall p f force, (forall u, In u f -> key_i u "LMAX" = fail) -> pc_read junk p (Some f) force = (None, Exn RuntimeError)).
Proof.
  split; [reflexivity|]. split; [reflexivity|]. split.
  - intros p f force s0 name S I M. unfold pc_read. destruct (covar_read junk f force) as [d| |] eqn:R; [exfalso | eexists; split; [reflexivity | discriminate] | eexists; split; [reflexivity | discriminate]].
    unfold covar_read in R. cbv zeta in R. destruct (mov_any f _) as [u| |] eqn:U; cbn [bind] in R; try discriminate R.
    assert (N1 : name <> "CWSP_PRIMARY"%string) by (intros ->; rewrite (mov_any_missing f _ M) in U; discriminate U).
    assert (Iu : In u f /\ u_name u = "CWSP_PRIMARY"%string).
    { unfold mov_any in U. destruct (find _ f) as [u'|] eqn:E; [|discriminate U]. assert (u' = u) by (inversion U; reflexivity). subst u'. apply find_some in E. destruct E as [E1 E2]. split; [exact E1 | apply String.eqb_eq; exact E2]. }
    destruct Iu as [Iu Nu].
    destruct (key_i u "LMAX") as [lmax| |]; cbn [bind] in R; try discriminate R. destruct (_ <? 0)%Z; [discriminate R|].
    destruct (pair_in _ _ _ "XI00_1122" _) as [a| |] eqn:P0; cbn [bind] in R; try discriminate R. apply pair_in_missing in P0. destruct P0 as [P0 P0'].
    assert (N2 : name <> "XI00_1122"%string) by (intros ->; apply P0, mov_missing; exact M). assert (N3 : name <> "XI00_1221"%string) by (intros ->; apply P0', mov_missing; exact M).
    destruct (force || s0)%bool eqn:FS.
    + cbn in I. destruct I as [I|[I|[I|[]]]]; congruence.
    + apply orb_false_iff in FS. destruct FS as [-> ->]. assert (SZ : match key_i u "SPIN0_ONLY" with Ok z => negb (z =? 0)%Z | _ => false end = false) by (destruct (key_i u "SPIN0_ONLY") as [z| |] eqn:KZ; [exact (S u z Iu Nu KZ) | reflexivity | reflexivity]).
      rewrite SZ in R.
      destruct (pair_in _ _ _ "XI02_1122" _) as [x| |] eqn:P1; cbn [bind] in R; try discriminate R. apply pair_in_missing in P1. destruct P1 as [P1 P1'].
      destruct (pair_in _ _ _ "XI22P_1122" _) as [y| |] eqn:P2; cbn [bind] in R; try discriminate R. apply pair_in_missing in P2. destruct P2 as [P2 P2'].
      destruct (pair_in _ _ _ "XI22M_1122" _) as [z| |] eqn:P3; cbn [bind] in R; try discriminate R. apply pair_in_missing in P3. destruct P3 as [P3 P3'].
      cbn in I. destruct I as [I|[I|[I|[I|[I|[I|[I|[I|[I|[]]]]]]]]]]; try congruence; subst name; [apply P1|apply P1'|apply P2|apply P2'|apply P3|apply P3']; apply mov_missing; exact M.
  - intros p f force H. unfold pc_read, covar_read. unfold mov_any. destruct (find _ f) as [u|] eqn:E; [|reflexivity]. apply find_some in E. destruct E as [I _]. cbn [bind]. rewrite (H u I). reflexivity.
Qed.

(** *** Flat-sky covariance workspaces *)
Variables (fpi : F) (fsq : F -> F) (ph : nat -> nat -> cplx F) (imul : Z -> Z -> res Z).
Notation compute_flat := (py_cov_compute fpi fsq ph imul).
Record good_cf (c : cfwsp) : Prop := {
  gcf_lf : length (fb_lf (cf_bin c)) = length (fb_l0 (cf_bin c));
  gcf_rect : forall t, In t [cf_00 c; cf_02 c; cf_pp c; cf_mm c] -> rect (length (fb_l0 (cf_bin c))) (length (fb_l0 (cf_bin c))) (fst t) /\ rect (length (fb_l0 (cf_bin c))) (length (fb_l0 (cf_bin c))) (snd t) }.
Definition ffile_of (b : fbins F) (a x y z : mat * mat) : file2 F := let n := length (fb_l0 b) in
  U2 false "CWSP_PRIMARY" [] 0 [] (0, 0)%nat [] [] :: table "BINS_SUMMARY" [] n [FD (fb_l0 b); FD (fb_lf b)] :: pair_of n a "XI00_1122" "XI00_1221" ++ rest_of n x y z.
Lemma cflat_write_ok c : good_cf c -> cflat_write c = Ok (ffile_of (cf_bin c) (cf_00 c) (cf_02 c) (cf_pp c) (cf_mm c)).
Proof.
  intros [L R]. unfold cflat_write, fbins_out. rewrite (tabM_rd _ _ L). cbn [bind]. rewrite !pair_out_ok by (apply R; cbn; auto 6). reflexivity.
Qed.
Lemma cflat_read_ok c : good_cf c -> cflat_read junk (ffile_of (cf_bin c) (cf_00 c) (cf_02 c) (cf_pp c) (cf_mm c)) = Ok c.
Proof.
  intros [L R]. unfold cflat_read. change (mov (ffile_of (cf_bin c) (cf_00 c) (cf_02 c) (cf_pp c) (cf_mm c)) false "CWSP_PRIMARY") with (Ok (U2 false "CWSP_PRIMARY" [] 0 [] (0, 0)%nat [] [] : unit2 F)). cbn [bind].
  assert (B : fbins_in (ffile_of (cf_bin c) (cf_00 c) (cf_02 c) (cf_pp c) (cf_mm c)) = Ok (cf_bin c)).
  { unfold fbins_in. change (mov (ffile_of (cf_bin c) (cf_00 c) (cf_02 c) (cf_pp c) (cf_mm c)) true "BINS_SUMMARY") with (Ok (table "BINS_SUMMARY" [] (length (fb_l0 (cf_bin c))) [FD (fb_l0 (cf_bin c)); FD (fb_lf (cf_bin c))] : unit2 F)). cbn [bind].
    unfold col_d, table. cbn [u_cols nth_error u_nrows]. rewrite Nat.eqb_refl. cbn [bind]. rewrite L, Nat.eqb_refl. cbn [bind]. destruct (cf_bin c). reflexivity. }
  rewrite B. cbn [bind].
  rewrite (pair_in_ok _ _ (cf_00 c)) by (reflexivity || (apply R; cbn; auto)). cbn [bind]. rewrite (pair_in_ok _ _ (cf_02 c)) by (reflexivity || (apply R; cbn; auto)). cbn [bind].
  rewrite (pair_in_ok _ _ (cf_pp c)) by (reflexivity || (apply R; cbn; auto)). cbn [bind]. rewrite (pair_in_ok _ _ (cf_mm c)) by (reflexivity || (apply R; cbn; auto 6)). cbn [bind]. destruct c. reflexivity.
Qed.
Lemma flat_good a1 a2 ba b1 b2 bb rows c : cov_init fpi fsq ph imul a1 a2 ba b1 b2 bb rows = Ok c -> length (fb_l0 ba) = length (fb_lf ba) -> good_cf c.
Proof.
  intros E L. unfold cov_init in E. cbv zeta in E. destruct (negb _); [discriminate E|]. destruct (negb _); [discriminate E|]. destruct (grid_bands _ _ _ _) as [g| |]; cbn [bind] in E; try discriminate E.
  match type of E with context [tabM ?n ?f] => destruct (tabM n f) as [norms| |] end; cbn [bind] in E; try discriminate E.
  apply (f_equal (fun r => match r with Ok x => x | _ => c end)) in E. cbn beta iota in E. rewrite <- E. constructor; cbn [cf_bin cf_00 cf_02 cf_pp cf_mm]; [congruence|].
  intros t Ht. destruct Ht as [<-|[<-|[<-|[<-|[]]]]]; split; apply rect_tab.
Qed.
(** A flat-sky covariance workspace that is written and read back (into any object) is the same workspace, so that it gives the same covariances. *)
Theorem C85_flat_round_trip self a1 a2 ba b1 b2 bb rows c p : length (fb_l0 ba) = length (fb_lf ba) -> compute_flat self a1 a2 ba b1 b2 bb rows = (Some c, Ok tt) ->
  exists f, pcf_write (Some c) = Ok f /\ pcf_read junk p (Some f) = (Some c, Ok tt).
Proof.
  intros L E. unfold py_cov_compute in E. cbv zeta in E. destruct (negb _); [discriminate E|]. destruct (cov_init _ _ _ _ _ _ _ _ _ _ _) as [w| |] eqn:I; try discriminate E. assert (W : w = c) by (inversion E; reflexivity). subst w.
  pose proof (flat_good _ _ _ _ _ _ _ _ I L) as G. exists (ffile_of (cf_bin c) (cf_00 c) (cf_02 c) (cf_pp c) (cf_mm c)). cbn [pcf_write]. rewrite (cflat_write_ok c G). split; [reflexivity|]. unfold pcf_read. rewrite (cflat_read_ok c G). reflexivity.
Qed.
Theorem C85_flat_failures : pcf_write (@None cfwsp) = Exn ValueError /\ (forall p, pcf_read junk p None = (None, Exn RuntimeError)) /\
  (forall p f name, In name ("BINS_SUMMARY"%string :: needed false) -> (forall u, In u f -> u_name u <> name) -> exists r, pcf_read junk p (Some f) = (None, r) /\ r <> Ok tt).
Proof.
  split; [reflexivity|]. split; [reflexivity|]. intros p f name I M. unfold pcf_read. destruct (cflat_read junk f) as [d| |] eqn:R; [exfalso | eexists; split; [reflexivity | discriminate] | eexists; split; [reflexivity | discriminate]].
  unfold cflat_read in R. cbv zeta in R. destruct (mov f false "CWSP_PRIMARY") as [u| |] eqn:U; cbn [bind] in R; try discriminate R. unfold fbins_in in R. destruct (mov f true "BINS_SUMMARY") as [v| |] eqn:V; cbn [bind] in R; try discriminate R.
  destruct (col_d v 0) as [l0| |]; cbn [bind] in R; try discriminate R. destruct (col_d v 1) as [lf| |]; cbn [bind fb_l0] in R; try discriminate R.
  destruct (pair_in _ _ _ "XI00_1122" _) as [a| |] eqn:P0; cbn [bind] in R; try discriminate R. apply pair_in_missing in P0. destruct P0 as [P0 P0'].
  destruct (pair_in _ _ _ "XI02_1122" _) as [x| |] eqn:P1; cbn [bind] in R; try discriminate R. apply pair_in_missing in P1. destruct P1 as [P1 P1'].
  destruct (pair_in _ _ _ "XI22P_1122" _) as [y| |] eqn:P2; cbn [bind] in R; try discriminate R. apply pair_in_missing in P2. destruct P2 as [P2 P2'].
  destruct (pair_in _ _ _ "XI22M_1122" _) as [z| |] eqn:P3; cbn [bind] in R; try discriminate R. apply pair_in_missing in P3. destruct P3 as [P3 P3'].
  assert (Q1 : mov f false "CWSP_PRIMARY" <> fail) by (rewrite U; discriminate). assert (Q2 : mov f true "BINS_SUMMARY" <> fail) by (rewrite V; discriminate).
  cbn in I. destruct I as [I|[I|[I|[I|[I|[I|[I|[I|[I|[I|[]]]]]]]]]]]; subst name; [apply Q2|apply Q1|apply P0|apply P0'|apply P1|apply P1'|apply P2|apply P2'|apply P3|apply P3']; apply mov_missing; exact M.
Qed.
(** A curved-sky file is rejected by the flat-sky reader and the other way round. *)
Theorem C85_other_kind a1 a2 b1 b2 lt lex dl s0 c f c' p self fa1 fa2 ba fb1 fb2 bb rows w g q force : from_fields a1 a2 b1 b2 lt lex dl s0 = Ok (Some c) -> (0 <= f_lmax a1)%Z -> pc_write (Some c) = Ok (f, c') ->
  length (fb_l0 ba) = length (fb_lf ba) -> compute_flat self fa1 fa2 ba fb1 fb2 bb rows = (Some w, Ok tt) -> pcf_write (Some w) = Ok g ->
  pcf_read junk p (Some f) = (None, Exn RuntimeError) /\ pc_read junk q (Some g) force = (None, Exn RuntimeError).
Proof.
  intros E L W LB EF WF. destruct (fields_good _ _ _ _ _ _ _ _ _ E L) as [G _]. cbn [pc_write] in W. rewrite (covar_write_ok c G) in W.
  assert (Y : f = cfile_of (std_keys c) (Z.to_nat (cw_lmax c + 1)) (cw_s0 c) (cw_00 c) (cw_02 c) (cw_pp c) (cw_mm c)) by (inversion W; reflexivity). rewrite Y.
  unfold py_cov_compute in EF. cbv zeta in EF. destruct (negb _); [discriminate EF|]. destruct (cov_init _ _ _ _ _ _ _ _ _ _ _) as [w'| |] eqn:I; try discriminate EF. assert (X : w' = w) by (inversion EF; reflexivity). subst w'.
  cbn [pcf_write] in WF. rewrite (cflat_write_ok w (flat_good _ _ _ _ _ _ _ _ I LB)) in WF. assert (X : g = ffile_of (cf_bin w) (cf_00 w) (cf_02 w) (cf_pp w) (cf_mm w)) by (inversion WF; reflexivity). rewrite X.
  split; [destruct (cw_s0 c)|]; reflexivity.
Qed.
End C85.

Lemma written_units {F : ofield} (c : cwsp F) f c' : good_c c -> cw_s0 c = false -> pc_write (Some c) = Ok (f, c') -> length f = 9%nat.
Proof. intros G S W. cbn [pc_write] in W. rewrite (covar_write_ok c G) in W. inversion W. unfold cfile_of. rewrite S. reflexivity. Qed.

Lemma ex_gen {F : ofield} fsqrt fexp flog (pi : F) cj w3j K a1 a2 b1 b2 lt lex dl junk (c : cwsp F) : from_fields fsqrt fexp flog pi cj w3j K a1 a2 b1 b2 lt lex dl false = Ok (Some c) -> (0 <= f_lmax a1)%Z ->
  exists f c' d, pc_write (Some c) = Ok (f, c') /\ pc_read junk None (Some f) false = (Some d, Ok tt) /\ length f = 9%nat /\ cw_00 d = cw_00 c /\ cw_mm d = cw_mm c.
Proof.
  intros E L. destruct (fields_good _ _ _ _ _ _ _ _ _ _ _ _ _ _ _ _ E L) as [G [_ S]].
  destruct (C85_round_trip junk _ _ _ _ _ _ _ _ _ _ _ _ _ _ _ _ None E L) as [f [c' [d [W [R [_ [_ [T1 [_ [_ T2]]]]]]]]]].
  exists f, c', d. split; [exact W|]. split; [exact R|]. split; [exact (written_units _ f c' G S W)|]. split; assumption.
Qed.
(** ** Examples and counterexamples, over the rationals *)
From Verif Require Import P_Field7 P_Flat P_WspFlat P_FlatMean P_CovFlat.
Section Ex85.
Local Notation Q := Qc_field.
Local Notation id1 := (fun _ : Q => qz 1).
Local Notation id0 := (fun _ : Q => qz 0).
Definition nojunk (_ : nat) : Q := qz 0.
Local Notation ffq s0 := (from_fields id1 id1 id0 pq zj w1 (toy 0) fa fa None None (-1) (-1) (-1) s0).
Definition cfq (s0 : bool) : cwsp Q := match ffq s0 with Ok (Some c) => c | _ => dcw end.
Definition row0 (c : option (cwsp Q)) : list QArith_base.Q := match c with Some c => map out (nth 0 (fst (cw_00 c)) []) ++ map out (nth 2 (fst (cw_mm c)) []) | None => [] end.
(** a workspace made from one field, written and read back: the hypotheses of C85_round_trip, C85_covariance_same, C85_old_format and C85_force_spin0; the tables are not zero *)
Example ex_round_trip : ffq false = Ok (Some (cfq false)) /\ (0 <= f_lmax fa)%Z /\ exists f c' d, pc_write (Some (cfq false)) = Ok (f, c') /\ pc_read nojunk None (Some f) false = (Some d, Ok tt) /\
  length f = 9%nat /\ row0 (Some d) = row0 (Some (cfq false)) /\ existsb (fun x => negb (QArith_base.Qeq_bool x (QArith_base.Qmake 0 1))) (row0 (Some d)) = true.
Proof.
  assert (E : ffq false = Ok (Some (cfq false))).
  { unfold cfq. assert (X : match ffq false with Ok (Some _) => true | _ => false end = true) by (vm_compute; reflexivity). destruct (ffq false) as [[c|]| |]; try discriminate X. reflexivity. }
  assert (L : (0 <= f_lmax fa)%Z) by (vm_compute; discriminate). split; [exact E|]. split; [exact L|].
  destruct (ex_gen _ _ _ _ _ _ _ _ _ _ _ _ _ _ nojunk _ E L) as [f [c' [d [W [R [N [R1 R2]]]]]]]. assert (RR : row0 (Some d) = row0 (Some (cfq false))) by (unfold row0; rewrite R1, R2; reflexivity). exists f, c', d. split; [exact W|]. split; [exact R|]. split; [exact N|]. split; [exact RR|]. rewrite RR. clear. vm_compute. reflexivity.
Qed.
(** a 4x4 map with three different masks, two bands *)
Example ex_flat : exists c f, cw44 = Some c /\ cov_workspace_of (qz 1) sq8 ph4 imul_strict s44 mask44 mask44' maskb mask44 bring [1; 0; 2; 3]%nat = (Some c, Ok tt) /\ length (fb_l0 bring) = length (fb_lf bring) /\
  pcf_write (Some c) = Ok f /\ pcf_read nojunk None (Some f) = (Some c, Ok tt) /\ existsb (fun x => negb (QArith_base.Qeq_bool (out x) (QArith_base.Qmake 0 1))) (nth 1 (fst (cf_00 c)) []) = true.
Proof.
  assert (X : match cov_workspace_of (qz 1) sq8 ph4 imul_strict s44 mask44 mask44' maskb mask44 bring [1; 0; 2; 3]%nat with (Some c, Ok _) => existsb (fun x => negb (QArith_base.Qeq_bool (out x) (QArith_base.Qmake 0 1))) (nth 1 (fst (cf_00 c)) []) | _ => false end = true) by (vm_compute; reflexivity).
  unfold cw44. destruct (cov_workspace_of (qz 1) sq8 ph4 imul_strict s44 mask44 mask44' maskb mask44 bring [1; 0; 2; 3]%nat) as [[c|] [[]| |]] eqn:E; try discriminate X.
  unfold cov_workspace_of in E. destruct (C85_flat_round_trip nojunk _ _ _ _ _ _ _ _ _ _ _ _ c None (eq_refl : length (fb_l0 bring) = length (fb_lf bring)) E) as [f [W R]]. exists c, f. split; [reflexivity|]. split; [reflexivity|]. split; [reflexivity|]. split; [exact W|]. split; [exact R | exact X].
Qed.
(** Only the number of columns of a table is compared with lmax+1.  A file whose first table has one row instead of two is accepted, and the second row
    of the table is uninitialised memory; one with three rows is copied beyond the end of a buffer. *)
Definition sized (rows : nat) : file2 Q :=
  let img name r := image name [] 2 r (repeat (qz 1) (2 * r)) in
  [U2 false "CWSP_PRIMARY" [("LMAX", KI 1); ("SPIN0_ONLY", KI 1)]%string 0 [] (0, 0)%nat [] []; img "XI00_1122"%string rows; img "XI00_1221"%string 2%nat].
Theorem C85_rows_not_checked_refuted : (forall junk p, exists d, pc_read junk p (Some (sized 1)) false = (Some d, Ok tt) /\ entry2 (fst (cw_00 d)) 0 1 = qz 1 /\ entry2 (fst (cw_00 d)) 1 0 = junk 2%nat) /\
  (forall junk p, pc_read junk p (Some (sized 3)) false = (None, UB)).
Proof. split; intros junk p; [eexists; split; [reflexivity|]; split; reflexivity | reflexivity]. Qed.
(** The check of a scalar-only workspace adds up the four spins: spins 2, -2, 2, -2 pass, and the covariance is computed with the coefficients of scalar fields
    in the place of those of polarised ones. *)
Definition full3 : cwsp Q := cwq pa pb.
Definition lite3 : option (cwsp Q) := match pc_write (Some full3) with Ok (f, _) => fst (pc_read nojunk None (Some f) true) | _ => None end.
Definition cov3 (s : spins4) (c : option (cwsp Q)) : res (covmat Q) := match c with Some c => P_Covar.cov (call c s 3 (ccl 1) (ccl 2) (ccl 3) (ccl 4)) false | None => UB end.
Theorem C85_opposite_spins_refuted : (exists c, lite3 = Some c /\ cw_s0 c = true) /\ cov3 (Spins 2 2 2 2) lite3 = Exn RuntimeError /\ okd (cov3 (Spins 2 (-2) 2 (-2)) lite3) = true /\ shown (cov3 (Spins 2 (-2) 2 (-2)) lite3) <> shown (cov3 (Spins 2 (-2) 2 (-2)) (Some full3)).
Proof.
  split; [|split; [|split]].
  - assert (X : match lite3 with Some c => cw_s0 c | None => false end = true) by (vm_compute; reflexivity). destruct lite3 as [c|]; [|discriminate X]. exists c. split; [reflexivity | exact X].
  - vm_compute. reflexivity.
  - vm_compute. reflexivity.
  - vm_compute. discriminate.
Qed.
End Ex85.
Print Assumptions C85_round_trip. Print Assumptions C85_covariance_same. Print Assumptions C85_force_spin0. Print Assumptions C85_force_spin0_rejects. Print Assumptions C85_old_format.
Print Assumptions C85_failures. Print Assumptions C85_flat_round_trip. Print Assumptions C85_flat_failures. Print Assumptions C85_other_kind. Print Assumptions C85_rows_not_checked_refuted. Print Assumptions C85_opposite_spins_refuted.
