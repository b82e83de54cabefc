(** Covariance workspaces made from fields, and the checks of gaussian_covariance. *)
From Coq Require Import QArith Qcanon.
From Verif Require Import Base M_Bins M_LinAlg M_Workspace M_MCM M_Utils M_Field M_Cell M_Covar L_Bins L_Bins2 L_Bins3 P_Bins L_LinAlg L_Workspace P_Workspace L_MCM L_MCM2 L_MCM3 P_MCM L_Cell L_Covar L_Covar2 P_Covar P_Covar2 P_Covar3.
Open Scope nat_scope.

Section PCovar4.
Context {F : ofield}.
Local Open Scope F_scope.
Add Field FfPCo4 : (fth F).
Notation mat := (list (list F)).
Notation covargs := (covargs (F:=F)).

(** ** The checks, for any arguments *)
Section Checks.
Variables (cw : option (cwsp F)) (s : spins4) (x1 x2 x3 x4 : arr F) (wa wb : pyw F) (coupled : bool).
Notation call := (gaussian_covariance cw s x1 x2 x3 x4 wa (Some wb) coupled).
Definition counts : Prop :=
  (alen x1 = Z.of_nat (nm (sp_a s) * nm (sp_c s)) /\ alen x2 = Z.of_nat (nm (sp_a s) * nm (sp_d s)) /\
   alen x3 = Z.of_nat (nm (sp_b s) * nm (sp_c s)) /\ alen x4 = Z.of_nat (nm (sp_b s) * nm (sp_d s)))%Z.
Definition ncls_match (xa xb : wsp F) : Prop := w_ncls xa = (nm (sp_a s) * nm (sp_b s))%nat /\ w_ncls xb = (nm (sp_c s) * nm (sp_d s))%nat.
Theorem C56_not_computed : p_wsp wa = None -> call = Exn AttributeError.
Proof. intro E. unfold gaussian_covariance, need_wsp. rewrite E. reflexivity. Qed.
Lemma eqb_nat2 (n a b : nat) : (Z.of_nat n =? Z.of_nat a * Z.of_nat b)%Z = Nat.eqb n (a * b).
Proof. apply eq_true_iff_eq. rewrite Z.eqb_eq, Nat.eqb_eq. lia. Qed.
Theorem C56_wrong_workspace xa xb : p_wsp wa = Some xa -> p_wsp wb = Some xb -> ~ ncls_match xa xb -> call = Exn ValueError.
Proof.
  intros Ea Eb H. unfold gaussian_covariance, need_wsp. cbn [opt]. rewrite Ea. cbn [bind]. unfold ncl. rewrite eqb_nat2.
  destruct (Nat.eqb_spec (w_ncls xa) (nm (sp_a s) * nm (sp_b s))) as [E1|E1]; [|reflexivity]. cbn [negb]. rewrite Eb. cbn [bind]. rewrite eqb_nat2.
  destruct (Nat.eqb_spec (w_ncls xb) (nm (sp_c s) * nm (sp_d s))) as [E2|E2]; [|reflexivity]. exfalso. apply H. split; assumption.
Qed.
Theorem C56_wrong_number xa xb : p_wsp wa = Some xa -> p_wsp wb = Some xb -> ~ counts -> call = Exn ValueError.
Proof.
  intros Ea Eb H. unfold gaussian_covariance, need_wsp. cbn [opt]. rewrite Ea. cbn [bind].
  destruct (negb _); [reflexivity|]. rewrite Eb. cbn [bind]. destruct (negb _); [reflexivity|].
  destruct (_ || _)%bool eqn:E; [reflexivity|]. exfalso. apply H. rewrite !orb_false_iff, !negb_false_iff, !Z.eqb_eq in E. unfold counts. lia.
Qed.
End Checks.
(** two-dimensional spectra in the right number, workspaces with the right number of spectra *)
Record ready (s : spins4) (k1 k2 k3 k4 : nat) (m1 m2 m3 m4 : mat) (xa xb : wsp F) : Prop := {
  rd_cnt : counts s (A2 k1 m1) (A2 k2 m2) (A2 k3 m3) (A2 k4 m4);
  rd_ncl : ncls_match s xa xb }.
Section Checks2.
Variables (s : spins4) (k1 k2 k3 k4 : nat) (m1 m2 m3 m4 : mat) (xa xb : wsp F) (ua ub coupled : bool).
Notation call cw := (gaussian_covariance cw s (A2 k1 m1) (A2 k2 m2) (A2 k3 m3) (A2 k4 m4) (PyW (Some xa) ua) (Some (PyW (Some xb) ub)) coupled).
Hypothesis R : ready s k1 k2 k3 k4 m1 m2 m3 m4 xa xb.
Lemma ready_call cw : call (Some cw) =
  (if existsb (fun k => (Z.of_nat k <? cw_lmax cw + 1)%Z) [k1; k2; k3; k4] then Exn ValueError else
   let c := Cls m1 m2 m3 m4 in
   let same := (Nat.eqb k1 k2 && Nat.eqb k1 k3 && Nat.eqb k1 k4)%bool in
   if coupled then
     do _ <- guard ua ValueError; do _ <- guard ub ValueError; do _ <- alloc_out (ncl xa * (cw_lmax cw + 1) * (ncl xb * (cw_lmax cw + 1)));
     if negb same then Exn RuntimeError else do m <- covar_coupled cw s c xa xb; Ok (Coupled m)
   else
     do _ <- alloc_out (ncl xa * Z.of_nat (nbands xa) * (ncl xb * Z.of_nat (nbands xb)));
     if negb same then Exn RuntimeError else do m <- covar_decoupled cw s c xa xb; Ok (Decoupled m)).
Proof.
  destruct R as [[C1 [C2 [C3 C4]]] [N1 N2]]. cbn [alen] in *. unfold gaussian_covariance, need_wsp, check_unbinned. cbn [opt p_wsp p_unb bind alen].
  unfold ncl. rewrite !eqb_nat2, (Nat2Z.inj _ _ C1), (Nat2Z.inj _ _ C2), (Nat2Z.inj _ _ C3), (Nat2Z.inj _ _ C4). rewrite <- N1, <- N2, !Nat.eqb_refl. cbn [negb orb].
  pose proof (nm_pos (sp_a s)). pose proof (nm_pos (sp_b s)). pose proof (nm_pos (sp_c s)). pose proof (nm_pos (sp_d s)).
  assert (I : forall k (m : mat) n n', Z.of_nat (length m) = Z.of_nat (n * n') -> (1 <= n)%nat -> (1 <= n')%nat -> ilen (A2 k m) = Ok (Z.of_nat k)).
  { intros k m n n' E P1 P2. destruct m; [cbn in E; nia | reflexivity]. }
  rewrite (I k1 m1 _ _ C1), (I k2 m2 _ _ C2), (I k3 m3 _ _ C3), (I k4 m4 _ _ C4) by assumption. cbn [bind existsb rows_of_arr].
  assert (Z2 : forall a b, (Z.of_nat a =? Z.of_nat b)%Z = Nat.eqb a b) by (intros; apply eq_true_iff_eq; rewrite Z.eqb_eq, Nat.eqb_eq; lia). rewrite !Z2.
  destruct (Z.of_nat k1 <? cw_lmax cw + 1)%Z; [reflexivity|]. destruct (Z.of_nat k2 <? cw_lmax cw + 1)%Z; [reflexivity|].
  destruct (Z.of_nat k3 <? cw_lmax cw + 1)%Z; [reflexivity|]. destruct (Z.of_nat k4 <? cw_lmax cw + 1)%Z; [reflexivity|]. reflexivity.
Qed.
Theorem C56_no_covariance_workspace : call None = Exn AttributeError.
Proof.
  destruct R as [[C1 [C2 [C3 C4]]] [N1 N2]]. cbn [alen] in *. unfold gaussian_covariance, need_wsp. cbn [opt p_wsp bind alen].
  unfold ncl. rewrite !eqb_nat2, (Nat2Z.inj _ _ C1), (Nat2Z.inj _ _ C2), (Nat2Z.inj _ _ C3), (Nat2Z.inj _ _ C4). rewrite <- N1, <- N2, !Nat.eqb_refl. cbn [negb orb].
  pose proof (nm_pos (sp_a s)). pose proof (nm_pos (sp_c s)). destruct m1; [cbn in C1; nia | reflexivity].
Qed.
Theorem C56_too_short cw k : In k [k1; k2; k3; k4] -> (Z.of_nat k < cw_lmax cw + 1)%Z -> call (Some cw) = Exn ValueError.
Proof.
  intros Hk H. rewrite ready_call. replace (existsb _ _) with true; [reflexivity|]. symmetry. apply existsb_exists. exists k. split; [exact Hk | apply Z.ltb_lt; exact H].
Qed.
Theorem C56_lite_workspace cw : coupled = true -> ua && ub = false -> call (Some cw) = Exn ValueError.
Proof.
  intros E H. rewrite ready_call, E. destruct (existsb _ _); [reflexivity|]. cbv zeta. destruct ua; [|reflexivity]. destruct ub; [discriminate H | reflexivity].
Qed.
Definition out_size (cw : cwsp F) : Z := if coupled then (ncl xa * (cw_lmax cw + 1) * (ncl xb * (cw_lmax cw + 1)))%Z else (ncl xa * Z.of_nat (nbands xa) * (ncl xb * Z.of_nat (nbands xb)))%Z.
Theorem C56_unequal_lengths cw : (forall k, In k [k1; k2; k3; k4] -> (cw_lmax cw + 1 <= Z.of_nat k)%Z) -> (0 <= out_size cw <= int_max)%Z -> ua && ub = true ->
  ~ (k1 = k2 /\ k1 = k3 /\ k1 = k4) -> call (Some cw) = Exn RuntimeError.
Proof.
  intros Hk Hs U H. rewrite ready_call. apply andb_true_iff in U. destruct U as [-> ->].
  replace (existsb _ _) with false.
  2:{ symmetry. apply not_true_iff_false. intro E. apply existsb_exists in E. destruct E as [k [Ik L]]. apply Z.ltb_lt in L. specialize (Hk k Ik). lia. }
  cbv zeta. unfold out_size in Hs. replace (Nat.eqb k1 k2 && Nat.eqb k1 k3 && Nat.eqb k1 k4)%bool with false.
  2:{ symmetry. apply not_true_iff_false. rewrite !andb_true_iff, !Nat.eqb_eq. tauto. }
  destruct coupled; cbn [guard bind]; rewrite alloc_ok by exact Hs; reflexivity.
Qed.
Theorem C56_multipoles_beyond_lmax cw : k1 = k2 -> k1 = k3 -> k1 = k4 -> (cw_lmax cw + 1 <= Z.of_nat k1)%Z -> (0 <= out_size cw <= int_max)%Z -> ua && ub = true ->
  (cw_lmax cw < b_lmax (w_bin xa) \/ cw_lmax cw < b_lmax (w_bin xb))%Z -> call (Some cw) = Exn RuntimeError.
Proof.
  intros K2 K3 K4 Hk Hs U H. rewrite ready_call. rewrite <- K2, <- K3, <- K4. apply andb_true_iff in U. destruct U as [-> ->]. cbn [existsb].
  replace (Z.of_nat k1 <? cw_lmax cw + 1)%Z with false by (symmetry; apply Z.ltb_ge; lia). rewrite !Nat.eqb_refl. cbn [orb andb negb]. cbv zeta. unfold out_size in Hs.
  assert (G : covar_guards cw s xa xb = Exn RuntimeError).
  { unfold covar_guards. replace (_ || _)%bool with true; [reflexivity|]. symmetry. rewrite orb_true_iff, !Z.ltb_lt. exact H. }
  destruct coupled; cbn [guard bind]; rewrite alloc_ok by exact Hs; cbn [bind]; [unfold covar_coupled | unfold covar_decoupled]; rewrite G; reflexivity.
Qed.
Theorem C56_spin0_only cw : k1 = k2 -> k1 = k3 -> k1 = k4 -> (cw_lmax cw + 1 <= Z.of_nat k1)%Z -> (0 <= out_size cw <= int_max)%Z -> ua && ub = true ->
  cw_s0 cw = true -> (0 <= sp_a s)%Z -> (0 <= sp_b s)%Z -> (0 <= sp_c s)%Z -> (0 <= sp_d s)%Z -> ~ (sp_a s = 0 /\ sp_b s = 0 /\ sp_c s = 0 /\ sp_d s = 0)%Z ->
  call (Some cw) = Exn RuntimeError.
Proof.
  intros K2 K3 K4 Hk Hs U H0 P1 P2 P3 P4 H. rewrite ready_call. rewrite <- K2, <- K3, <- K4. apply andb_true_iff in U. destruct U as [-> ->]. cbn [existsb].
  replace (Z.of_nat k1 <? cw_lmax cw + 1)%Z with false by (symmetry; apply Z.ltb_ge; lia). rewrite !Nat.eqb_refl. cbn [orb andb negb]. cbv zeta. unfold out_size in Hs.
  assert (G : covar_guards cw s xa xb = Exn RuntimeError).
  { unfold covar_guards. destruct (_ || _)%bool; [reflexivity|]. rewrite H0. replace (sp_a s + sp_b s + sp_c s + sp_d s =? 0)%Z with false by (symmetry; apply Z.eqb_neq; lia). reflexivity. }
  destruct coupled; cbn [guard bind]; rewrite alloc_ok by exact Hs; cbn [bind]; [unfold covar_coupled | unfold covar_decoupled]; rewrite G; reflexivity.
Qed.
End Checks2.
(** spin0_only=True and spins that sum to zero: the check only looks at the sum *)
Theorem C56_too_large_rejected (g : covargs) : good g -> (int_max < coupled_size g < 4294967296)%Z -> cov g true = Exn ValueError.
Proof.
  intros H S. rewrite cov_unfold by exact H. unfold alloc_out, wrap32. unfold int_max in S.
  replace (coupled_size g + 2147483648)%Z with ((coupled_size g - 2147483648) + 1 * 4294967296)%Z by lia. rewrite Z.mod_add by lia. rewrite Z.mod_small by lia.
  replace (_ <? 0)%Z with true by (symmetry; apply Z.ltb_lt; lia). reflexivity.
Qed.
Theorem C56_too_large (g : covargs) : good g -> (int_max < coupled_size g)%Z -> forall M, cov g true <> Ok M.
Proof.
  intros H S M. rewrite cov_unfold by exact H. unfold alloc_out. unfold int_max in S.
  assert (W : (wrap32 (coupled_size g) < 2147483648)%Z) by (unfold wrap32; pose proof (Z.mod_pos_bound (coupled_size g + 2147483648) 4294967296); lia).
  destruct (_ <? 0)%Z; [discriminate|]. destruct (Z.eqb_spec (wrap32 (coupled_size g)) (coupled_size g)); [lia | discriminate].
Qed.

(** ** Workspaces made from fields *)
Variables (fsqrt fexp flog : F -> F) (pi : F).
Variable w3j : Z -> Z -> Z -> Z -> Z -> F.
Variable K : calc F.
Notation built := (built fsqrt fexp flog pi w3j).
Notation from_fields := (from_fields fsqrt fexp flog pi).
(** coefficients of the product of the masks of two fields *)
Definition prod_alm (f g : nfield F) (x : list F) : Prop :=
  length (f_mask f) = length (f_mask g) /\ sht K 0 (f_info f) (f_lmaxm f) (f_niterm f) [vmul (f_mask f) (f_mask g)] = Ok [x] /\ length x = length (ells (f_lmaxm f)).
Record four (a1 a2 b1 b2 : nfield F) (lt lex dl : Z) : Prop := {
  fo_pi : pi <> 0;
  fo_iso : f_mask_a a1 = None /\ f_mask_a a2 = None /\ f_mask_a b1 = None /\ f_mask_a b2 = None;
  fo_cmp : is_compatible a1 a2 true = true /\ is_compatible a1 b1 true = true /\ is_compatible a1 b2 true = true;
  fo_lmax : (0 <= f_lmax a1 <= f_lmaxm a1)%Z;
  fo_tp : toeplitz_sanity lt lex dl (f_lmax a1) (f_pe a1 || f_pb a1 || f_pe b1 || f_pb b1) = Ok tt }.
Lemma alm2cl_ok lmax (x y : list F) : (0 <= lmax)%Z -> length x = length (ells lmax) -> length y = length (ells lmax) ->
  exists c, alm2cl lmax x y = Ok c /\ Z.of_nat (length c) = (lmax + 1)%Z /\ (forall l, (l <= Z.to_nat lmax)%nat -> nth l c 0 = spectrum (Z.to_nat lmax) x y l) /\ alm2cl lmax y x = Ok c.
Proof.
  intros H L1 L2. assert (E : exists c, alm2cl lmax x y = Ok c) by (unfold alm2cl; rewrite L1, L2, Nat.eqb_refl; eexists; reflexivity). destruct E as [c E]. exists c. split; [exact E|].
  pose proof E as E'. replace lmax with (Z.of_nat (Z.to_nat lmax)) in E' by lia. apply alm2cl_spectrum in E'. destruct E' as [L S]. split; [lia|]. split; [exact S|].
  unfold alm2cl in *. rewrite L1, L2, Nat.eqb_refl in *. cbn [andb] in *. injection E as <-. f_equal. apply tab_ext. intros l _. f_equal. apply sum_ext. intros i _.
  destruct (_ =? _)%Z; ring.
Qed.
Lemma tplz_of_sanity lt lex dl lmax p : toeplitz_sanity lt lex dl lmax p = Ok tt -> tplz_ok lt lex dl lmax.
Proof.
  unfold toeplitz_sanity, tplz_ok. intros H Hl. replace (0 <? lt)%Z with true in H by (symmetry; apply Z.ltb_lt; exact Hl). destruct p; [discriminate H|].
  destruct (_ || _)%bool eqn:E1 in H; [discriminate H|]. destruct (lt <? lex)%Z eqn:E2; [discriminate H|]. destruct (_ || _)%bool eqn:E3 in H; [discriminate H|].
  rewrite !orb_false_iff, ?Z.leb_gt, ?Z.ltb_ge in *. lia.
Qed.
Lemma mask_prod_ok f1 f2 f3 f4 x y : prod_alm f1 f2 x -> prod_alm f3 f4 y -> f_lmaxm f3 = f_lmaxm f1 -> mask_prod_cl K f1 f2 f3 f4 = alm2cl (f_lmaxm f1) x y.
Proof.
  intros [L1 [E1 _]] [L2 [E2 _]] M. unfold mask_prod_cl. rewrite L1, L2, !Nat.eqb_refl. cbn [guard bind]. rewrite E1, E2. reflexivity.
Qed.
Theorem C52_from_fields junk a1 a2 b1 b2 lt lex dl s0 x11 x22 x12 x21 : four a1 a2 b1 b2 lt lex dl ->
  prod_alm a1 b1 x11 -> prod_alm a2 b2 x22 -> prod_alm a1 b2 x12 -> prod_alm a2 b1 x21 ->
  exists cw p1 p2, from_fields junk w3j K a1 a2 (Some b1) (Some b2) lt lex dl s0 = Ok (Some cw) /\
    cw_lmax cw = f_lmax a1 /\ cw_s0 cw = s0 /\ symt cw /\
    (forall t, In t [cw_00 cw; cw_02 cw; cw_pp cw; cw_mm cw] -> rect2 (nle cw) t) /\
    (forall l, (l <= Z.to_nat (f_lmaxm a1))%nat -> nth l p1 0 = spectrum (Z.to_nat (f_lmaxm a1)) x11 x22 l /\ nth l p2 0 = spectrum (Z.to_nat (f_lmaxm a1)) x12 x21 l) /\
    ((lt <= 0)%Z -> built cw p1 p2 (f_lmax a1) (f_lmaxm a1) s0).
Proof.
  intros [Hpi [I1 [I2 [I3 I4]]] [C1 [C2 C3]] HL T] A11 A22 A12 A21.
  assert (Lm : f_lmaxm a2 = f_lmaxm a1).
  { revert C1. unfold is_compatible. destruct (true && _)%bool; [discriminate|]. destruct (Z.eqb_spec (f_lmaxm a1) (f_lmaxm a2)); [congruence | discriminate]. }
  destruct A11 as [LA [EA XA]] eqn:?. destruct A22 as [LB [EB XB]] eqn:?. destruct A12 as [LC [EC XC]] eqn:?. destruct A21 as [LD [ED XD]] eqn:?.
  destruct (alm2cl_ok (f_lmaxm a1) x11 x22 ltac:(lia) XA ltac:(rewrite <- Lm; exact XB)) as [p1 [P1 [N1 [V1 _]]]].
  destruct (alm2cl_ok (f_lmaxm a1) x12 x21 ltac:(lia) XC ltac:(rewrite <- Lm; exact XD)) as [p2 [P2 [N2 [V2 _]]]].
  destruct (init_ok fsqrt fexp flog pi w3j junk p1 p2 (f_lmax a1) (f_lmaxm a1) lt lex dl s0 Hpi HL N1 N2 (tplz_of_sanity _ _ _ _ _ T)) as [cw [E [Q1 [Q2 [Q3 [Q4 _]]]]]].
  exists cw, p1, p2. split.
  - unfold M_Covar.from_fields, compute_coupling_coefficients, anisotropic. cbn [opt]. rewrite I1, I2, I3, I4. cbn [orb]. rewrite C1, C2, C3. cbn [andb negb]. rewrite T.
    rewrite (mask_prod_ok a1 b1 a2 b2 x11 x22 ltac:(assumption) ltac:(assumption) Lm), P1. cbn [bind].
    rewrite (mask_prod_ok a1 b2 a2 b1 x12 x21 ltac:(assumption) ltac:(assumption) Lm), P2. cbn [bind]. rewrite E. reflexivity.
  - split; [exact Q1|]. split; [exact Q3|]. split; [intros t Ht; apply Q4; exact Ht|]. split; [intros t Ht; apply Q4; exact Ht|]. split; [intros l Hl; split; [apply V1 | apply V2]; exact Hl|].
    intro Hlt. split; [exact Hpi|]. split; [exact HL|]. split; [exact N1|]. split; [exact N2|]. exists junk, lt, lex, dl. split; [exact Hlt | exact E].
Qed.
(** fields on the same pixels with the same parameters *)
Definition same_geometry (f g : nfield F) : Prop :=
  f_info g = f_info f /\ f_angles g = f_angles f /\ f_lmax g = f_lmax f /\ f_lmaxm g = f_lmaxm f /\ f_niterm g = f_niterm f.
Lemma vmul_comm (x y : list F) : vmul x y = vmul y x.
Proof. unfold vmul. revert y. induction x as [|a x IH]; intros [|b y]; try reflexivity. cbn. f_equal; [ring | apply IH]. Qed.
Lemma prod_alm_sym f g x : same_geometry f g -> prod_alm f g x -> prod_alm g f x.
Proof. intros [G1 [G2 [G3 [G4 G5]]]] [L [E N]]. unfold prod_alm. rewrite G1, G4, G5, vmul_comm. auto. Qed.
(** exchanging the pairs, and the fields of a pair, before computing the coefficients *)
Theorem C53_from_fields junk a1 a2 b1 b2 lt lex dl s0 x11 x22 x12 x21 : four a1 a2 b1 b2 lt lex dl ->
  same_geometry a1 a2 -> same_geometry a1 b1 -> same_geometry a1 b2 -> is_compatible a1 a1 true = true ->
  prod_alm a1 b1 x11 -> prod_alm a2 b2 x22 -> prod_alm a1 b2 x12 -> prod_alm a2 b1 x21 ->
  from_fields junk w3j K b1 b2 (Some a1) (Some a2) lt lex dl s0 = from_fields junk w3j K a1 a2 (Some b1) (Some b2) lt lex dl s0.
Proof.
  intros [Hpi [I1 [I2 [I3 I4]]] [C1 [C2 C3]] HL T] G2 G3 G4 R A11 A22 A12 A21.
  assert (SG : forall f g, same_geometry a1 f -> same_geometry a1 g -> same_geometry f g).
  { intros f g [X1 [X2 [X3 [X4 X5]]]] [Y1 [Y2 [Y3 [Y4 Y5]]]]. repeat split; congruence. }
  assert (CM : forall f g, same_geometry a1 f -> same_geometry a1 g -> is_compatible f g true = true).
  { intros f g [X1 [X2 [X3 [X4 X5]]]] [Y1 [Y2 [Y3 [Y4 Y5]]]]. unfold is_compatible in *. rewrite X1, X2, X3, X4, Y1, Y2, Y3, Y4. exact R. }
  assert (S1 : same_geometry a1 a1) by (repeat split).
  assert (LM : forall f, same_geometry a1 f -> f_lmaxm f = f_lmaxm a1) by (intros f [_ [_ [_ [L _]]]]; exact L).
  unfold M_Covar.from_fields, compute_coupling_coefficients, anisotropic. cbn [opt]. rewrite I1, I2, I3, I4. cbn [orb]. rewrite C1, C2, C3, !CM by assumption. cbn [andb negb].
  replace (f_lmax b1) with (f_lmax a1) by (symmetry; apply G3).
  replace (f_pe b1 || f_pb b1 || f_pe a1 || f_pb a1)%bool with (f_pe a1 || f_pb a1 || f_pe b1 || f_pb b1)%bool by (destruct (f_pe a1), (f_pb a1), (f_pe b1), (f_pb b1); reflexivity).
  rewrite T. rewrite (mask_prod_ok a1 b1 a2 b2 x11 x22), (mask_prod_ok a1 b2 a2 b1 x12 x21) by first [assumption | apply LM; assumption].
  rewrite (mask_prod_ok b1 a1 b2 a2 x11 x22), (mask_prod_ok b1 a2 b2 a1 x21 x12) by first [apply prod_alm_sym; [apply SG; assumption | assumption] | rewrite (LM b1 G3), (LM b2 G4); reflexivity].
  rewrite !(LM b1 G3).
  destruct A12 as [_ [_ N12]]. destruct A21 as [_ [_ N21]]. rewrite (LM a2 G2) in N21.
  destruct (alm2cl_ok (f_lmaxm a1) x12 x21 ltac:(lia) N12 N21) as [p2 [P2 [_ [_ P2']]]]. rewrite P2, P2'. reflexivity.
Qed.
Theorem C54_from_fields junk a1 a2 b1 b2 lt lex dl s0 x11 x22 x12 x21 : four a1 a2 b1 b2 lt lex dl -> (lt <= 0)%Z ->
  same_geometry a1 a2 -> same_geometry a1 b1 -> same_geometry a1 b2 -> is_compatible a1 a1 true = true ->
  prod_alm a1 b1 x11 -> prod_alm a2 b2 x22 -> prod_alm a1 b2 x12 -> prod_alm a2 b1 x21 ->
  exists cw cw1 cw2 p1 p2, from_fields junk w3j K a1 a2 (Some b1) (Some b2) lt lex dl s0 = Ok (Some cw) /\ from_fields junk w3j K a2 a1 (Some b1) (Some b2) lt lex dl s0 = Ok (Some cw1) /\
    from_fields junk w3j K a1 a2 (Some b2) (Some b1) lt lex dl s0 = Ok (Some cw2) /\
    built cw p1 p2 (cw_lmax cw) (f_lmaxm a1) s0 /\ built cw1 p2 p1 (cw_lmax cw1) (f_lmaxm a1) s0 /\ built cw2 p2 p1 (cw_lmax cw2) (f_lmaxm a1) s0.
Proof.
  intros H4 Hlt G2 G3 G4 R A11 A22 A12 A21.
  assert (LM : forall f, same_geometry a1 f -> f_lmaxm f = f_lmaxm a1) by (intros f [_ [_ [_ [L _]]]]; exact L).
  destruct H4 as [Hpi [I1 [I2 [I3 I4]]] [C1 [C2 C3]] HL T].
  assert (CM : forall f g, same_geometry a1 f -> same_geometry a1 g -> is_compatible f g true = true).
  { intros f g [X1 [X2 [X3 [X4 X5]]]] [Y1 [Y2 [Y3 [Y4 Y5]]]]. unfold is_compatible in *. rewrite X1, X2, X3, X4, Y1, Y2, Y3, Y4. exact R. }
  assert (S1 : same_geometry a1 a1) by (repeat split).
  assert (TT : forall p, toeplitz_sanity lt lex dl (f_lmax a1) p = Ok tt) by (intro p; unfold toeplitz_sanity; replace (0 <? lt)%Z with false by (symmetry; apply Z.ltb_ge; exact Hlt); reflexivity).
  assert (L2 : f_lmax a2 = f_lmax a1) by apply G2.
  pose proof A11 as [_ [_ N11]]. pose proof A22 as [_ [_ N22]]. pose proof A12 as [_ [_ N12]]. pose proof A21 as [_ [_ N21]]. rewrite (LM a2 G2) in N21, N22.
  destruct (alm2cl_ok (f_lmaxm a1) x11 x22 ltac:(lia) N11 N22) as [p1 [P1 [Z1 [_ P1']]]].
  destruct (alm2cl_ok (f_lmaxm a1) x12 x21 ltac:(lia) N12 N21) as [p2 [P2 [Z2 [_ P2']]]].
  destruct (init_ok fsqrt fexp flog pi w3j junk p1 p2 (f_lmax a1) (f_lmaxm a1) lt lex dl s0 Hpi HL Z1 Z2 (tplz_of_sanity _ _ _ _ _ T)) as [cw [E [Q1 _]]].
  destruct (init_ok fsqrt fexp flog pi w3j junk p2 p1 (f_lmax a1) (f_lmaxm a1) lt lex dl s0 Hpi HL Z2 Z1 (tplz_of_sanity _ _ _ _ _ T)) as [cw' [E' [Q1' _]]].
  assert (B : built cw p1 p2 (cw_lmax cw) (f_lmaxm a1) s0) by (rewrite Q1; repeat (split; [assumption|]); exists junk, lt, lex, dl; split; assumption).
  assert (B' : built cw' p2 p1 (cw_lmax cw') (f_lmaxm a1) s0) by (rewrite Q1'; repeat (split; [assumption|]); exists junk, lt, lex, dl; split; assumption).
  exists cw, cw', cw', p1, p2. unfold M_Covar.from_fields, compute_coupling_coefficients, anisotropic. cbn [opt]. rewrite I1, I2, I3, I4. cbn [orb]. rewrite !CM by assumption. cbn [andb negb]. rewrite L2, !TT.
  split; [|split; [|split; [|auto]]].
  - rewrite (mask_prod_ok a1 b1 a2 b2 x11 x22), (mask_prod_ok a1 b2 a2 b1 x12 x21) by first [assumption | apply LM; assumption]. rewrite P1, P2. cbn [bind]. rewrite E. reflexivity.
  - rewrite (mask_prod_ok a2 b1 a1 b2 x21 x12), (mask_prod_ok a2 b2 a1 b1 x22 x11) by first [assumption | symmetry; apply LM; assumption]. rewrite !(LM a2 G2), P1', P2'. cbn [bind]. rewrite E'. reflexivity.
  - rewrite (mask_prod_ok a1 b2 a2 b1 x12 x21), (mask_prod_ok a1 b1 a2 b2 x11 x22) by first [assumption | apply LM; assumption]. rewrite P1, P2. cbn [bind]. rewrite E'. reflexivity.
Qed.
End PCovar4.
