(** A concrete case for property C94: a map of three rings of four pixels, a mask with a hole and a dipole, an ensemble of four skies, over the real numbers. *)
From Coq Require Import Reals Lra.
From Verif Require Import Base FieldR M_Utils L_Utils M_Field L_Field L_Field2 M_Cell L_Cell P_Utils P_Field P_Field2 P_Field3 P_Field4 P_Field5 P_Field6 P_Cell M_Bins M_LinAlg M_Workspace M_MCM L_Bins L_Bins2 L_Bins3 P_Bins L_LinAlg L_Workspace P_Workspace L_MCM L_MCM2 L_MCM3 P_MCM P_MCM2 L_MCM4 P_MCM3 L_Legendre P_Legendre M_SynSph P_SynSph P_Mean.
Local Open Scope nat_scope.
Local Notation R' := R_field.
(** one band: the monopole *)
Section Band.
Context {F : ofield}.
Local Open Scope F_scope.
Add Field FfC94b : (fth F).
Definition one_band : bins F := Bins 1 [[Entry 0 (1 / (1 + 0)) 1]].
Lemma one_valid : valid_bins one_band.
Proof.
  assert (N1 : fleb (1 : F) 0 = false). { destruct (fleb (1 : F) 0) eqn:E; [|reflexivity]. exfalso. pose proof (f0_lt_1 (F:=F)) as P. apply flt_not_le in P. apply P. exact E. }
  assert (N2 : fleb (1 + 0 : F) 0 = false) by (replace (1 + 0 : F) with (1 : F) by ring; exact N1).
  split; [|apply nonneg_check; vm_compute; reflexivity]. exists [0; -1]%Z, [0; 1]%Z, None, None, None.
  cbv -[fleb f0 f1 fadd fdiv fmul finv]. rewrite ?N1. cbv -[fleb f0 f1 fadd fdiv fmul finv]. rewrite ?N2. reflexivity.
Qed.
End Band.
(** positions: the two poles (four pixels each) and four points of the equator *)
Definition ux (p : nat) : R := nth p [0; 0; 0; 0; 1; 0; -1; 0; 0; 0; 0; 0]%R 0%R.
Definition uy (p : nat) : R := nth p [0; 0; 0; 0; 0; 1; 0; -1; 0; 0; 0; 0]%R 0%R.
Definition uz (p : nat) : R := nth p [1; 1; 1; 1; 0; 0; 0; 0; -1; -1; -1; -1]%R 0%R.
Definition ang (p q : nat) : R' := (ux p * ux q + uy p * uy q + uz p * uz q)%R.
(** areas, for which l <= 2 is integrated exactly *)
Definition area (p : nat) : R' := (if Nat.eqb (p / 4) 1 then 2 * PI / 3 else PI / 6)%R.
Definition Ylm (p : nat) : list R' := [sqrt (1 / (4 * PI)); 0; sqrt (3 / (4 * PI)) * uz p; 0; - sqrt (3 / (8 * PI)) * ux p; sqrt (3 / (8 * PI)) * uy p]%R.
Definition quad (m : list R') : list R' := tab 6 (fun i => sum 12 (fun p => fmul (fmul (area p) (nth p m f0)) (nth i (Ylm p) f0))).
Definition KR : calc R' := Calc false (fun _ _ _ m => map quad m) (fun _ _ _ a => a).
Definition parR : params R' := Params "ducc"%string 0 0 (Fin (0%R : R')).
Definition hole : list (list R') := [[1; 1; 1; 1]; [2; 1; 0; 1]; [1; 1; 1; 1]]%R.
Definition argR : fargs R' := FArgs (F:=R') (I2 4 hole) None None None (Some 0%Z) TNone (BArr (F:=R') [1; 1 / 2]%R) false false None None None (Wcs false false 4 [] 1 []) (Some 1%Z) (Some 1%Z) false false.
(** skies: a constant, or a dipole along one of three axes *)
Definition sky (w p : nat) : R := (2 * match w with O => 1 | 1 => ux p | 2 => uy p | _ => uz p end)%R.
Definition mapR (w : nat) : imap R' := I2 4 (tab 3 (fun r => tab 4 (fun k => (sky w (4 * r + k) : R')))).
Definition mean4 (f : nat -> R') : R' := ((f 0%nat + f 1%nat + f 2%nat + f 3%nat) / 4)%R.
Definition clR : list R' := [4 * PI; 16 * PI / 3]%R.
Section Case.
Variables (eigh : list (list R') -> list R' * list (list R')) (np_inv : list (list R') -> res (list (list R'))).
Notation new := (field_new (fmul (fofZ 4) (PI : R')) sqrt eigh np_inv).
Definition ok {A} (x : res A) (dft : A) : A := match x with Ok a => a | _ => dft end.
Definition fldR : nfield R' := NField (F:=R') (Car 3 4 4 false false []) [] (concat hole) None 1 1 [1; 1 / 2]%R 0 1 false false false 0 0 0 None None None None None None None None.
Definition binR : bins R' := one_band.
Definition pclR : list R' := ok (alm2cl 1 (quad (concat hole)) (quad (concat hole))) [].
Definition inR : minp (F:=R') := MInp (F:=R') 0 0 false false false false 1 pclR binR [1; 1 / 2]%R [1; 1 / 2]%R 0 (1%R : R') false (-1) (-1) (-1).
Lemma newR : new KR parR argR = Ok fldR.
Proof. reflexivity. Qed.
Definition fieldR (w : nat) : nfield R' := ok (new KR parR (with_map argR (mapR w))) fldR.
Lemma fieldR_new w : new KR parR (with_map argR (mapR w)) = Ok (fieldR w).
Proof. reflexivity. Qed.
Definition cellR (w : nat) : list (list R') := ok (compute_coupled_cell true (of_map (fieldR w)) (of_map (fieldR w))) [].
Lemma cellR_ok w : compute_coupled_cell true (of_map (fieldR w)) (of_map (fieldR w)) = Ok (cellR w).
Proof. reflexivity. Qed.
Ltac toR := match goal with |- @eq _ ?a ?b => change (@eq R a b) end.
Lemma sq (x : R) : (0 <= x)%R -> (sqrt x * sqrt x)%R = x.
Proof. apply sqrt_sqrt. Qed.
Lemma harmR : harmonic (F:=R') PI KR (Car 3 4 4 false false []) 1 0 area ang.
Proof.
  exists Ylm. split.
  - intros m Hm. exists (quad m). split.
    + do 12 (destruct m as [|? m]; [discriminate Hm|]). destruct m; [|discriminate Hm]. reflexivity.
    + intro i. destruct (Nat.lt_ge_cases i 6) as [H|H].
      * unfold quad. rewrite nth_tab by exact H. reflexivity.
      * rewrite nth_overflow by (unfold quad; rewrite length_tab; exact H). symmetry. apply sum_zero. intros p _. rewrite (nth_overflow (Ylm p)) by exact H. toR. cbn. ring.
  - intros p q l _ _ Hl. pose proof PI_RGT_0 as Hp. assert (A1 : (0 <= 1 / (4 * PI))%R) by (apply Rlt_le, Rdiv_lt_0_compat; lra). assert (A2 : (0 <= 3 / (4 * PI))%R) by (apply Rlt_le, Rdiv_lt_0_compat; lra). assert (A3 : (0 <= 3 / (8 * PI))%R) by (apply Rlt_le, Rdiv_lt_0_compat; lra).
    apply sq in A1, A2, A3. destruct l as [|[|l]]; [| |lia].
    + toR. unfold spectrum, re, im, pos, Ylm, ang. cbn -[ux uy uz sqrt PI]. transitivity (sqrt (1 / (4 * PI)) * sqrt (1 / (4 * PI)))%R; [field|rewrite A1; field; lra].
    + toR. unfold spectrum, re, im, pos, Ylm, ang. cbn -[ux uy uz sqrt PI].
      transitivity ((sqrt (3 / (4 * PI)) * sqrt (3 / (4 * PI)) * (uz p * uz q) + 2 * (sqrt (3 / (8 * PI)) * sqrt (3 / (8 * PI)) * (ux p * ux q + uy p * uy q))) / 3)%R; [field|rewrite A2, A3; field; lra].
Qed.
Lemma binR_valid : valid_bins binR.
Proof. exact (one_valid (F:=R')). Qed.
Lemma ok_inR : fields_ok inR.
Proof. constructor; try (vm_compute; congruence); try reflexivity; try discriminate; try exact binR_valid. Qed.
Lemma scalarR : scalar inR.
Proof. constructor; try reflexivity; try exact ok_inR; vm_compute; congruence. Qed.
(** the mask has a dipole but no power at l = 2 *)
Lemma powerR : mpower (F:=R') PI area ang (Car 3 4 4 false false []) (concat hole) (concat hole) 2 = f0 /\ mpower (F:=R') PI area ang (Car 3 4 4 false false []) (concat hole) (concat hole) 1 <> f0.
Proof.
  pose proof PI_RGT_0 as Hp. unfold mpower, ppower, pairs, mweight, ang, area. split.
  - toR. cbn. field. lra.
  - intro H. match type of H with @eq _ ?a ?b => change (@eq R a b) in H end. cbn in H. match type of H with ?a = _ => assert (X : a = (4 * PI / 9)%R) by (field; lra); rewrite X in H end. lra.
Qed.
(** the hypotheses of C94_mean and C94_bandpowers *)
Example C94_case : exists ws, libm_laws (F:=R') sqrt exp ln /\ (PI : R') <> f0 /\
  survey (F:=R') sqrt exp ln PI w3R eigh np_inv mean4 (fun _ => f0) KR parR argR argR fldR fldR inR ws area ang clR mapR mapR fieldR fieldR cellR true /\
  nell inR = 2%nat /\ (forall l, (l < nell inR)%nat -> mask_limit inR clR (mpower (F:=R') PI area ang (f_info fldR) (f_mask fldR) (f_mask fldR)) l) /\
  exists o, couple_cell (obj ws) (A2 2 [clR]) = Ok (A2 2 [o]) /\ forall l, (l < 2)%nat -> mean4 (fun w => mg (cellR w) 0 l) = nth l o f0.
Proof.
  destruct (mcompute_built (F:=R') sqrt exp ln PI w3R (fun _ => f0) inR ok_inR eq_refl) as [st [_ Ew]]. exists (mk (built (F:=R') PI inR st)).
  assert (S : survey (F:=R') sqrt exp ln PI w3R eigh np_inv mean4 (fun _ => f0) KR parR argR argR fldR fldR inR (mk (built (F:=R') PI inR st)) area ang clR mapR mapR fieldR fieldR cellR true).
  { constructor.
    - split; [|split]; intros; unfold mean4; [rewrite !H; reflexivity | toR; cbn; field | toR; cbn; field].
    - assert (P : plain argR) by (repeat split; try discriminate; cbn; repeat constructor). split; exact P.
    - split; exact newR.
    - repeat (split; [reflexivity|]). exists (quad (concat hole)), (quad (concat hole)). repeat split; reflexivity.
    - exact scalarR.
    - exact Ew.
    - split; reflexivity.
    - exact harmR.
    - exact harmR.
    - intro w. split; [cbn; repeat constructor | apply fieldR_new].
    - intro w. split; [cbn; repeat constructor | apply fieldR_new].
    - exact cellR_ok.
    - intros p q Hp Hq _ _. change (p < 12)%nat in Hp. change (q < 12)%nat in Hq.
      assert (PX : forall w r, (r < 12)%nat -> nth r (pixels (F:=R') (f_info fldR) (mapR w)) f0 = sky w r) by (intros w r Hr; do 12 (destruct r as [|r]; [reflexivity|]); lia).
      unfold mean4. rewrite !PX by assumption. pose proof PI_RGT_0. toR. change (nell inR) with 2%nat. unfold corr, ang, sky. cbn -[ux uy uz PI]. field. lra. }
  split; [exact libm_lawsR|]. split; [exact pi_neq|]. split; [exact S|]. split; [reflexivity|].
  assert (ML : forall l, (l < 2)%nat -> mask_limit inR clR (mpower (F:=R') PI area ang (f_info fldR) (f_mask fldR) (f_mask fldR)) l).
  { intros l Hl l' L Hl' H1 H2. right. change (nell inR) with 2%nat in Hl'. change (nmask inR) with 2%nat in H1. assert (L = 2)%nat as -> by lia. exact (proj1 powerR). }
  split; [exact ML|].
  destruct (C94_mean (F:=R') sqrt exp ln PI w3R eigh np_inv mean4 _ _ _ _ _ _ _ _ _ _ _ 2 _ _ _ _ _ _ _ libm_lawsR pi_neq S eq_refl (le_n _)) as (o & Eo & _ & Fo).
  exists o. split; [exact Eo|]. intros l Hl. exact (Fo l Hl (ML l Hl)).
Qed.
Lemma cancelR (m y : R) : m <> 0%R -> ((m * (1 * 1) * (1 / (1 + 0)) * 1 / 1 + 0 + 0) * y + 0 = 0)%R -> y = 0%R.
Proof. intros H E. assert (X : (m * y = 0)%R) by (rewrite <- E; field). apply Rmult_integral in X as [X|X]; [contradiction|exact X]. Qed.
(** the workspace can be decoupled: one bandpower, the monopole *)
Example C94_case_bandpower : exists ws o W, mcompute (F:=R') sqrt exp ln PI w3R (fun _ => f0) inR = Ok ws /\
  (forall w, decouple_cell (obj ws) (A2 2 (cellR w)) None None = Ok (A2 1 (o w))) /\ get_bandpower_windows (obj ws) = Ok W /\
  mean4 (fun w => entry2 (o w) 0 0) = sum 2 (fun l => fmul (nth l (nth 0 (nth 0 (nth 0 W []) []) []) f0) (nth l clR f0)).
Proof.
  destruct C94_case as (ws & LL & Hpi & S & N & ML & _). pose proof (sv_ws _ _ _ _ _ _ _ _ _ _ _ _ _ _ _ _ _ _ _ _ _ _ _ _ _ _ S) as Ew.
  destruct (mcompute_built (F:=R') sqrt exp ln PI w3R (fun _ => f0) inR ok_inR eq_refl) as [st [_ Eb]]. pose proof Ew as Ew'. rewrite Eb in Ew'. injection Ew' as <-.
  pose proof (built_valid (F:=R') sqrt exp ln PI w3R inR st ok_inR) as V. set (j := built (F:=R') PI inR st) in *.
  assert (GM : get_coupling_matrix (obj (mk j)) = Ok (i_mcm j)) by (apply get_mk; [exact V | vm_compute; discriminate]).
  assert (G : gives (F:=R') sqrt exp ln PI w3R inR (i_mcm j)) by (exists (fun _ => f0), (mk j); split; [exact Ew|exact GM]).
  pose proof (el_T3 (F:=R') sqrt exp ln PI w3R inR (i_mcm j) 0 0 libm_lawsR scalarR G ltac:(unfold upto; vm_compute; congruence) ltac:(unfold upto; vm_compute; congruence)) as E0.
  assert (M0 : entry2 (i_mcm j) 0 0 <> f0).
  { intro Z. change (P_MCM.el inR (i_mcm j) 0 0 0 0) with (entry2 (i_mcm j) 0 0) in E0. rewrite E0 in Z. clear -Z. unfold msum in Z. change (Z.to_nat (n_lmm inR + 1)) with 2%nat in Z. cbn [sum] in Z. rewrite !(T3_0 (F:=R')) in Z by lia. change (Z.of_nat 0) with 0%Z in Z. change (Z.of_nat 1) with 1%Z in Z. cbn [Z.eqb] in Z.
    assert (PC : nth 0 pclR f0 = (4 * PI)%R).
    { destruct (alm2cl_spectrum (F:=R') 1 (quad (concat hole)) (quad (concat hole)) pclR eq_refl) as [_ SP]. rewrite SP by lia.
      rewrite (harmonic_spectrum (F:=R') PI KR _ 1 0 area ang (concat hole) (concat hole) (quad (concat hole)) (quad (concat hole)) 0 harmR eq_refl eq_refl eq_refl eq_refl) by lia. unfold pairs, area. pose proof PI_RGT_0. toR. cbn. field. lra. }
    unfold pmask in Z. change (nth 0 (n_pcl inR) f0) with (nth 0 pclR f0) in Z. rewrite PC in Z. match type of Z with @eq _ ?a ?b => change (@eq R a b) in Z end. cbn in Z. pose proof PI_RGT_0. match type of Z with ?a = _ => assert (X : a = 1%R) by (field; lra); rewrite X in Z end. lra. }
  assert (NS : nonsingular (w_ncls (mk j) * nbands (mk j)) (w_mb (mk j))).
  { change (w_ncls (mk j) * nbands (mk j))%nat with 1%nat. intros y Hy Hz. destruct y as [|y0 [|]]; try discriminate Hy. 
    change (w_mb (mk j)) with (mb_tab (P_Workspace.core j)) in Hz. unfold mb_tab in Hz. change (w_ncls (P_Workspace.core j) * nbands (P_Workspace.core j))%nat with 1%nat in Hz. unfold mbv in Hz. change (w_norm (P_Workspace.core j) =? 0)%Z with true in Hz. cbn iota in Hz.
    apply (f_equal (fun v => nth 0 v f0)) in Hz. clear -M0 Hz. unfold j, built in M0, Hz. set (MM := mcm_of _ _) in M0, Hz. clearbody MM. cbn in Hz, M0. unfold Mx, Bm in Hz. cbn in Hz. cbn [zeros repeat]. f_equal. change (seq 0 (Pos.to_nat 2)) with [0%nat; 1%nat] in Hz. cbn [map nth] in Hz. unfold beams in Hz. cbn in Hz. exact (cancelR _ _ M0 Hz). }
  assert (HD : forall w, exists o, decouple_cell (obj (mk j)) (A2 2 (cellR w)) None None = Ok (A2 1 o)).
  { intro w. rewrite (decouple_plain j 2); [|exact V| |apply le_n].
    - destruct (lu_solve_ok _ (w_mb (mk j)) (dvec (mk j) (fun a l => entry2 (cellR w) a l)) (mk_square j) (length_tab _ _) NS) as (x & Ex & _). rewrite Ex. eexists. reflexivity.
    - exact (cell_shape (F:=R') sqrt exp ln PI w3R eigh np_inv mean4 _ _ _ _ _ _ _ _ _ _ _ _ _ _ _ _ _ _ S w). }
  assert (HW : exists W, get_bandpower_windows (obj (mk j)) = Ok W).
  { unfold get_bandpower_windows. cbn [obj check_unbinned p_unb guard bind p_wsp need_wsp]. unfold c_windows. cbv zeta.
    rewrite (tabM_ok _ _ (fun r => tab (w_ncls (mk j) * nlm (mk j)) (fun c => mcv (mk j) r c))) by (intros r Hr; apply tabM_ok; intros c Hc; apply coupled_binned_ok; try assumption; apply mk_shaped; exact V).
    pose proof (lu_invert_spec _ (w_mb (mk j)) (mk_square j)) as L. destruct (lu_invert (w_mb (mk j))) as [B| |]; [|destruct L|destruct L; contradiction]. cbn [bind]. eexists. reflexivity. }
  destruct HW as [W HW]. exists (mk j), (fun w => match decouple_cell (obj (mk j)) (A2 2 (cellR w)) None None with Ok (A2 _ o) => o | _ => [] end), W.
  assert (HD' : forall w, decouple_cell (obj (mk j)) (A2 2 (cellR w)) None None = Ok (A2 1 (match decouple_cell (obj (mk j)) (A2 2 (cellR w)) None None with Ok (A2 _ o) => o | _ => [] end))) by (intro w; destruct (HD w) as [o Eo]; rewrite Eo; reflexivity).
  split; [exact Ew|]. split; [exact HD'|]. split; [exact HW|].
  exact (C94_bandpowers (F:=R') sqrt exp ln PI w3R eigh np_inv mean4 _ _ _ _ _ _ _ _ _ _ _ _ _ _ _ _ _ _ 0%nat _ W libm_lawsR pi_neq S eq_refl ML HD' HW 0%nat ltac:(vm_compute; lia)).
Qed.
End Case.
Print Assumptions C94_case.
Print Assumptions C94_case_bandpower.
