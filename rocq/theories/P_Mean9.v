(** A concrete case for C94_deprojected: a map of three rings of four pixels, a mask with a hole and a dipole, one template, an ensemble of four skies, over the real numbers. *)
From Coq Require Import Reals Lra.
From Verif Require Import Base FieldR M_Utils L_Utils M_Field L_Field L_Field2 M_Cell L_Cell P_Utils P_Field P_Field2 P_Field3 P_Field4 P_Field5 P_Field6 P_Cell M_Bins M_LinAlg M_Workspace M_MCM L_Bins L_Bins2 L_Bins3 P_Bins L_LinAlg L_Workspace P_Workspace L_MCM L_MCM2 L_MCM3 P_MCM P_MCM2 L_MCM4 P_MCM3 L_Legendre P_Legendre M_SynSph P_SynSph P_Mean P_Mean2 L_Lin L_Lin2 L_Bias L_Bias2 P_Bias P_Mean8.
Local Open Scope nat_scope.
Local Notation R' := R_field.

(** transforms that are linear in every map *)
Section Rows.
Context {F : ofield}.
Local Open Scope F_scope.
Add Field FfC94r : (fth F).
Notation mat := (list (list F)).
Definition rowmap (na : nat) (A : nat -> list F -> F) (m : mat) : mat := map (fun v => tab na (fun i => A i v)) m.
Lemma lin_rowmap nc np na (A : nat -> list F -> F) : (forall i N co vs v, (forall j, nth j v 0 = sum N (fun k => co k * nth j (vs k) 0)) -> A i v = sum N (fun k => co k * A i (vs k))) -> lin_map (rowmap na A) nc np na.
Proof.
  intro HA. split.
  - intros x S. eapply shaped_map; [|exact S]. intros r _. apply length_tab.
  - intros N co xs S. assert (R : forall x : mat, L_Utils.shaped nc np x -> forall a i, (a < nc)%nat -> (i < na)%nat -> mg (rowmap na A x) a i = A i (nth a x [])).
    { intros x Sx a i Ha Hi. unfold mg, rowmap. rewrite (nth_indep _ [] (tab na (fun i => A i []))) by (rewrite map_length, (proj1 Sx); exact Ha). rewrite (map_nth (fun v => tab na (fun i => A i v))). rewrite nth_tab by exact Hi. reflexivity. }
    apply (mat_eq_mg nc na); [eapply shaped_map; [|apply lc_shaped]; intros r _; apply length_tab | apply lc_shaped|].
    intros a i Ha Hi. rewrite R by (try apply lc_shaped; assumption). rewrite mg_lc by assumption. rewrite (HA i N co (fun k => nth a (xs k) [])); [apply sum_ext; intros k Hk; rewrite R by auto; reflexivity|].
    intro j. apply (mg_lc_all nc np N co xs a j S).
Qed.
(** inverse of diagonal matrices *)
Definition diag_inv (M : mat) : res mat := Ok (tab (length M) (fun i => tab (length M) (fun j => if Nat.eqb i j then 1 / mg M i i else 0))).
Lemma diag_inv_sym : inv_sym diag_inv.
Proof.
  intros M P n H L S i j Hi Hj. unfold diag_inv in H. injection H as <-. rewrite L. rewrite !mg_tab by assumption. rewrite (Nat.eqb_sym j i). destruct (Nat.eqb_spec i j) as [->|]; reflexivity.
Qed.
End Rows.

Ltac toR := match goal with |- @eq _ ?a ?b => change (@eq R a b) end.
Definition KD : calc R' := Calc false
  (fun _ s lmax m => rowmap (n_alm lmax) (fun i v => sum (full s) (fun p => fmul (fmul (area p) (nth p v f0)) (nth i (Ylm p) f0))) m)
  (fun _ s _ a => rowmap (full s) (fun q y => sum 2 (fun l => fmul (fofnat (2 * l + 1)) (spectrum 1 y (Ylm q) l))) a).
Lemma KD_linear : linear KD.
Proof.
  intros spin s lmax nc. split; apply lin_rowmap; intros i N co vs v H.
  - rewrite (sum_ext N _ (fun k => sum (full s) (fun p => fmul (co k) (fmul (fmul (area p) (nth p (vs k) f0)) (nth i (Ylm p) f0))))) by (intros k _; symmetry; apply sum_mul_l). rewrite (sum_swap N (full s)). apply sum_ext. intros p _. rewrite (H p).
    rewrite <- sum_mul_l, <- sum_mul_r. apply sum_ext. intros k _. toR. cbn. ring.
  - rewrite (sum_ext N _ (fun k => sum 2 (fun l => fmul (co k) (fmul (fofnat (2 * l + 1)) (spectrum 1 (vs k) (Ylm i) l))))) by (intros k _; symmetry; apply sum_mul_l). rewrite (sum_swap N 2). apply sum_ext. intros l _.
    rewrite (spectrum_lin_l 1 N co vs v (Ylm i) l H). rewrite <- sum_mul_l. apply sum_ext. intros k _. generalize (spectrum 1 (vs k) (Ylm i) l). generalize (fofnat (2 * l + 1) : R'). intros u w. toR. cbn. ring.
Qed.
Lemma addY p q l : (l <= 1)%nat -> spectrum 1 (Ylm p) (Ylm q) l = fdiv (leg (ang p q) l) (fmul (fadd (fadd (fadd f1 f1) f1) f1) (PI : R')).
Proof.
  intro Hl. pose proof PI_RGT_0 as Hp. assert (A1 : (0 <= 1 / (4 * PI))%R) by (apply Rlt_le, Rdiv_lt_0_compat; lra). assert (A2 : (0 <= 3 / (4 * PI))%R) by (apply Rlt_le, Rdiv_lt_0_compat; lra). assert (A3 : (0 <= 3 / (8 * PI))%R) by (apply Rlt_le, Rdiv_lt_0_compat; lra).
  apply sq in A1, A2, A3. destruct l as [|[|l]]; [| |lia].
  + toR. unfold spectrum, re, im, pos, Ylm, ang. cbn -[ux uy uz sqrt PI]. transitivity (sqrt (1 / (4 * PI)) * sqrt (1 / (4 * PI)))%R; [field|rewrite A1; field; lra].
  + toR. unfold spectrum, re, im, pos, Ylm, ang. cbn -[ux uy uz sqrt PI].
    transitivity ((sqrt (3 / (4 * PI)) * sqrt (3 / (4 * PI)) * (uz p * uz q) + 2 * (sqrt (3 / (8 * PI)) * sqrt (3 / (8 * PI)) * (ux p * ux q + uy p * uy q))) / 3)%R; [field|rewrite A2, A3; field; lra].
Qed.
Definition wtsD : list R' := [PI / 6; 2 * PI / 3; PI / 6]%R.
Definition infoD : minfo R' := Car 3 4 4 false false wtsD.
Lemma pwD p : (p < 12)%nat -> pw infoD p = area p.
Proof. intro H. do 12 (destruct p as [|p]; [reflexivity|]). lia. Qed.
Lemma transD : transforms (F:=R') PI KD infoD 1 0 ang.
Proof.
  exists Ylm. split; [|split].
  - intros m Hm. exists (quad m). split.
    + do 12 (destruct m as [|? m]; [discriminate Hm|]). destruct m; [|discriminate Hm]. reflexivity.
    + intro i. destruct (Nat.lt_ge_cases i 6) as [H|H].
      * unfold quad. rewrite nth_tab by exact H. apply sum_ext. intros p Hp. rewrite pwD by exact Hp. reflexivity.
      * rewrite nth_overflow by (unfold quad; rewrite length_tab; exact H). symmetry. apply sum_zero. intros p _. rewrite (nth_overflow (Ylm p)) by exact H. generalize (pw infoD p). intro u. toR. cbn. ring.
  - intros p q l _ _ Hl. apply addY. exact Hl.
  - intros y z q Ly Ez Hq. assert (E : z = [tab 12 (fun q => sum 2 (fun l => fmul (fofnat (2 * l + 1)) (spectrum 1 y (Ylm q) l)))]) by (injection Ez as <-; reflexivity). rewrite E. unfold mg. cbn [nth]. rewrite nth_tab by exact Hq. reflexivity.
Qed.
Definition tempD : list (list R') := [[1; 0; 0; 0]; [1; 0; 0; 0]; [0; 0; 0; 0]]%R.
Definition argD : fargs R' := FArgs (F:=R') (I2 4 hole) None None None (Some 0%Z) TNone (BArr (F:=R') [1; 1 / 2]%R) false false None None (Some NInf) (Wcs false false 4 wtsD 1 []) (Some 1%Z) (Some 1%Z) false false.
Definition quarter (k : nat) : R' := (1 / 4)%R.
Definition tD : temp_arg R' := TArr [[I2 4 tempD]].
Definition guessD : list (list R') := [[4 * PI; 4 * PI / 3]%R].

Lemma ok_eq {A} (x : res A) dft : (match x with Ok _ => true | _ => false end) = true -> x = Ok (ok x dft).
Proof. destruct x; [reflexivity | discriminate | discriminate]. Qed.
Section Case.
Variable eigh : list (list R') -> list R' * list (list R').
Notation new := (field_new (fmul (fofZ 4) (PI : R')) sqrt eigh diag_inv).
Definition fldD : nfield R' := NField (F:=R') infoD [] (concat hole) None 1 1 [1; 1 / 2]%R 0 1 false false false 0 0 0 None None None None None None None None.
Lemma newD : new KD parR argD = Ok fldD.
Proof. reflexivity. Qed.
Definition uD (w : nat) : nfield R' := ok (new KD parR (with_map argD (mapR w))) fldD.
Lemma uD_new w : new KD parR (with_map argD (mapR w)) = Ok (uD w).
Proof. reflexivity. Qed.
Definition vD (w : nat) : nfield R' := ok (new KD parR (set_data argD [mapR w] tD false)) fldD.
Lemma vD_new w : new KD parR (set_data argD [mapR w] tD false) = Ok (vD w).
Proof. apply ok_eq. reflexivity. Qed.
Definition cellD (f : nat -> nfield R') (w : nat) : list (list R') := ok (compute_coupled_cell true (of_map (f w)) (of_map (f w))) [].
Lemma cellD_u w : compute_coupled_cell true (of_map (uD w)) (of_map (uD w)) = Ok (cellD uD w).
Proof. apply ok_eq. reflexivity. Qed.
Lemma cellD_v w : compute_coupled_cell true (of_map (vD w)) (of_map (vD w)) = Ok (cellD vD w).
Proof. apply ok_eq. reflexivity. Qed.
Definition biasD : list (list R') := ok (deprojection_bias (F:=R') sqrt KD parR (vD 0) (vD 0) guessD None) [].
Lemma biasD_ok : deprojection_bias (F:=R') sqrt KD parR (vD 0) (vD 0) guessD None = Ok biasD.
Proof. apply ok_eq. reflexivity. Qed.

Lemma pixD w r : (r < 12)%nat -> nth r (pixels (F:=R') infoD (mapR w)) f0 = sky w r.
Proof. intro Hr. do 12 (destruct r as [|r]; [reflexivity|]). lia. Qed.
Lemma skyD p q : (p < 12)%nat -> (q < 12)%nat -> mean (F:=R') 4 quarter (fun w => fmul (nth p (pixels (F:=R') infoD (mapR w)) f0) (nth q (pixels (F:=R') infoD (mapR w)) f0)) = corr (F:=R') PI 2 (fun l => nth l (nth 0 guessD []) f0) (ang p q).
Proof.
  intros Hp Hq. unfold mean. cbn [sum]. rewrite !pixD by assumption. pose proof PI_RGT_0. toR. unfold corr, ang, sky, quarter. cbn -[ux uy uz PI]. field. lra.
Qed.
Lemma powerD : mpower (F:=R') PI (pw infoD) ang infoD (concat hole) (concat hole) 2 = f0.
Proof.
  rewrite <- (proj1 powerR). unfold mpower, ppower. apply (f_equal (fun z => fdiv z _)). unfold pairs, mweight. apply sum_ext. intros p Hp. apply sum_ext. intros q Hq. rewrite !pwD by assumption. reflexivity.
Qed.
(** the hypotheses of C94_deprojected *)
Example C94_case_deprojected : exists ws, survey (F:=R') sqrt exp ln PI w3R eigh diag_inv (mean 4 quarter) (fun _ => f0) KD parR argD argD fldD fldD inR ws (pw infoD) ang clR mapR mapR uD uD (cellD uD) true /\
  templates (F:=R') sqrt PI eigh diag_inv KD parR argD argD tD tD fldD fldD inR ang clR 4 quarter mapR mapR vD vD (cellD vD) true guessD /\
  exists o, couple_cell (obj ws) (A2 2 [clR]) = Ok (A2 2 [o]) /\ forall l, (l < 2)%nat -> mean 4 quarter (fun w => mg (cellD vD w) 0 l) = fadd (nth l o f0) (mg biasD 0 l).
Proof.
  destruct (mcompute_built (F:=R') sqrt exp ln PI w3R (fun _ => f0) inR ok_inR eq_refl) as [st [_ Ew]]. exists (mk (built (F:=R') PI inR st)).
  assert (S : survey (F:=R') sqrt exp ln PI w3R eigh diag_inv (mean 4 quarter) (fun _ => f0) KD parR argD argD fldD fldD inR (mk (built (F:=R') PI inR st)) (pw infoD) ang clR mapR mapR uD uD (cellD uD) true).
  { constructor.
    - split; [|split]; intros; unfold mean; cbn [sum]; [rewrite !H; reflexivity | toR; cbn; ring | toR; cbn; ring].
    - assert (P : plain argD) by (repeat split; try discriminate; cbn; repeat constructor). split; exact P.
    - split; exact newD.
    - repeat (split; [reflexivity|]). exists (quad (concat hole)), (quad (concat hole)). repeat split; reflexivity.
    - exact scalarR.
    - exact Ew.
    - split; reflexivity.
    - exact (transforms_harmonic _ _ _ _ _ _ transD).
    - exact (transforms_harmonic _ _ _ _ _ _ transD).
    - intro w. split; [cbn; repeat constructor | apply uD_new].
    - intro w. split; [cbn; repeat constructor | apply uD_new].
    - exact cellD_u.
    - intros p q Hp Hq _ _. etransitivity; [exact (skyD p q Hp Hq)|]. change (nell inR) with 2%nat. unfold corr. apply sum_ext. intros l Hl. destruct l as [|[|l]]; [| |lia]; apply (f_equal (fun z => fmul (fmul _ z) _)); toR; cbn -[PI]; field. }
  assert (T : templates (F:=R') sqrt PI eigh diag_inv KD parR argD argD tD tD fldD fldD inR ang clR 4 quarter mapR mapR vD vD (cellD vD) true guessD).
  { constructor.
    - exact KD_linear.
    - exact diag_inv_sym.
    - lia.
    - exact transD.
    - intro w. split; [repeat split; try discriminate; cbn; repeat constructor; intros ? E; injection E as <-; repeat constructor | apply vD_new].
    - intro w. split; [repeat split; try discriminate; cbn; repeat constructor; intros ? E; injection E as <-; repeat constructor | apply vD_new].
    - exact cellD_v.
    - exact skyD.
    - split; [reflexivity|]. intros l Hl. change (nell inR) with 2%nat in Hl. destruct l as [|[|l]]; [| |lia]; toR; cbn -[PI]; field. }
  split; [exact S|]. split; [exact T|].
  destruct (C94_deprojected (F:=R') sqrt exp ln PI w3R eigh diag_inv _ _ _ _ _ _ _ _ _ _ _ _ 2 _ _ _ _ _ _ _ _ _ _ _ _ _ _ None biasD libm_lawsR pi_neq S T eq_refl biasD_ok eq_refl (le_n _)) as (o & Eo & _ & Fo).
  exists o. split; [exact Eo|]. intros l Hl. apply (Fo l Hl). intros l' L Hl' H1 H2. right. change (nell inR) with 2%nat in Hl'. change (nmask inR) with 2%nat in H1. assert (L = 2)%nat as -> by lia. exact powerD.
Qed.
(** the bandpower of the cleaned maps, with the bias subtracted *)
Example C94_case_deprojected_bandpower : exists ws o W, mcompute (F:=R') sqrt exp ln PI w3R (fun _ => f0) inR = Ok ws /\
  (forall w, decouple_cell (obj ws) (A2 2 (cellD vD w)) (Some (A2 2 biasD)) None = Ok (A2 1 (o w))) /\ get_bandpower_windows (obj ws) = Ok W /\
  mean 4 quarter (fun w => entry2 (o w) 0 0) = sum 2 (fun l => fmul (nth l (nth 0 (nth 0 (nth 0 W []) []) []) f0) (nth l clR f0)).
Proof.
  destruct C94_case_deprojected as (ws & S & T & _). pose proof (sv_ws _ _ _ _ _ _ _ _ _ _ _ _ _ _ _ _ _ _ _ _ _ _ _ _ _ _ S) as Ew.
  destruct (mcompute_built (F:=R') sqrt exp ln PI w3R (fun _ => f0) inR ok_inR eq_refl) as [st [_ Eb]]. pose proof Ew as Ew'. rewrite Eb in Ew'. injection Ew' as <-.
  pose proof (built_valid (F:=R') sqrt exp ln PI w3R inR st ok_inR) as V. set (j := built (F:=R') PI inR st) in *.
  assert (GM : get_coupling_matrix (obj (mk j)) = Ok (i_mcm j)) by (apply get_mk; [exact V | vm_compute; discriminate]).
  assert (G : gives (F:=R') sqrt exp ln PI w3R inR (i_mcm j)) by (exists (fun _ => f0), (mk j); split; [exact Ew|exact GM]).
  pose proof (el_T3 (F:=R') sqrt exp ln PI w3R inR (i_mcm j) 0 0 libm_lawsR scalarR G ltac:(unfold upto; vm_compute; congruence) ltac:(unfold upto; vm_compute; congruence)) as E0.
  assert (M0 : entry2 (i_mcm j) 0 0 <> f0).
  { intro Z. change (P_MCM.el inR (i_mcm j) 0 0 0 0) with (entry2 (i_mcm j) 0 0) in E0. rewrite E0 in Z. clear -Z. unfold msum in Z. change (Z.to_nat (n_lmm inR + 1)) with 2%nat in Z. cbn [sum] in Z. rewrite !(T3_0 (F:=R')) in Z by lia. change (Z.of_nat 0) with 0%Z in Z. change (Z.of_nat 1) with 1%Z in Z. cbn [Z.eqb] in Z.
    assert (PC : nth 0 pclR f0 = (4 * PI)%R).
    { destruct (alm2cl_spectrum (F:=R') 1 (quad (concat hole)) (quad (concat hole)) pclR eq_refl) as [_ SP]. rewrite SP by lia.
      rewrite (harmonic_spectrum (F:=R') PI KR _ 1 0 area ang (concat hole) (concat hole) (quad (concat hole)) (quad (concat hole)) 0 harmR eq_refl eq_refl eq_refl eq_refl) by lia. unfold pairs, area. pose proof PI_RGT_0. toR. cbn. field. lra. }
    unfold pmask in Z. change (nth 0 (n_pcl inR) f0) with (nth 0 pclR f0) in Z. rewrite PC in Z. match type of Z with @eq _ ?a ?b => change (@eq R a b) in Z end. cbn in Z. pose proof PI_RGT_0. match type of Z with ?a = _ => assert (X : a = 1%R) by (field; lra); rewrite X in Z end. lra. }
  assert (NS : nonsingular (w_ncls (mk j) * nbands (mk j)) (w_mb (mk j))).
  { change (w_ncls (mk j) * nbands (mk j))%nat with 1%nat. intros y Hy Hz. destruct y as [|y0 [|]]; try discriminate Hy. 
    change (w_mb (mk j)) with (mb_tab (P_Workspace.core j)) in Hz. unfold mb_tab in Hz. change (w_ncls (P_Workspace.core j) * nbands (P_Workspace.core j))%nat with 1%nat in Hz. unfold mbv in Hz. change (w_norm (P_Workspace.core j) =? 0)%Z with true in Hz. cbn iota in Hz.
    apply (f_equal (fun v => nth 0 v f0)) in Hz. clear -M0 Hz. unfold j, built in M0, Hz. set (MM := mcm_of _ _) in M0, Hz. clearbody MM. cbn in Hz, M0. unfold Mx, Bm in Hz. cbn in Hz. cbn [zeros repeat]. f_equal. change (seq 0 (Pos.to_nat 2)) with [0%nat; 1%nat] in Hz. cbn [map nth] in Hz. unfold beams in Hz. cbn in Hz. exact (cancelR _ _ M0 Hz). }
  destruct (cleaned_shapes (F:=R') sqrt exp ln PI w3R eigh diag_inv _ _ _ _ _ _ _ _ _ _ _ _ _ _ _ _ _ _ _ _ _ _ _ _ _ _ _ None biasD S T biasD_ok) as [RC RB].
  assert (HD : forall w, exists o, decouple_cell (obj (mk j)) (A2 2 (cellD vD w)) (Some (A2 2 biasD)) None = Ok (A2 1 o)).
  { intro w. rewrite (decouple_cell_eq j 2 (cellD vD w) (Some (A2 2 biasD)) None biasD (zeros_like (cellD vD w))); [|exact V|exact (RC w)|apply le_n|split; [reflexivity|exact RB]|reflexivity].
    match goal with |- context [lu_solve _ ?b] => destruct (lu_solve_ok _ (w_mb (mk j)) b (mk_square j) (length_tab _ _) NS) as (x & Ex & _) end. rewrite Ex. eexists. reflexivity. }
  assert (HW : exists W, get_bandpower_windows (obj (mk j)) = Ok W).
  { unfold get_bandpower_windows. cbn [obj check_unbinned p_unb guard bind p_wsp need_wsp]. unfold c_windows. cbv zeta.
    rewrite (tabM_ok _ _ (fun r => tab (w_ncls (mk j) * nlm (mk j)) (fun c => mcv (mk j) r c))) by (intros r Hr; apply tabM_ok; intros c Hc; apply coupled_binned_ok; try assumption; apply mk_shaped; exact V).
    pose proof (lu_invert_spec _ (w_mb (mk j)) (mk_square j)) as L. destruct (lu_invert (w_mb (mk j))) as [B| |]; [|destruct L|destruct L; contradiction]. cbn [bind]. eexists. reflexivity. }
  destruct HW as [W HW]. exists (mk j), (fun w => match decouple_cell (obj (mk j)) (A2 2 (cellD vD w)) (Some (A2 2 biasD)) None with Ok (A2 _ o) => o | _ => [] end), W.
  assert (HD' : forall w, decouple_cell (obj (mk j)) (A2 2 (cellD vD w)) (Some (A2 2 biasD)) None = Ok (A2 1 (match decouple_cell (obj (mk j)) (A2 2 (cellD vD w)) (Some (A2 2 biasD)) None with Ok (A2 _ o) => o | _ => [] end))) by (intro w; destruct (HD w) as [o Eo]; rewrite Eo; reflexivity).
  split; [exact Ew|]. split; [exact HD'|]. split; [exact HW|].
  assert (ML : forall l, (l < nell inR)%nat -> mask_limit inR clR (mpower (F:=R') PI (pw (f_info fldD)) ang (f_info fldD) (f_mask fldD) (f_mask fldD)) l).
  { intros l Hl l' L Hl' H1 H2. right. change (nell inR) with 2%nat in Hl, Hl'. change (nmask inR) with 2%nat in H1. assert (L = 2)%nat as -> by lia. exact powerD. }
  assert (N1 : sum 4 quarter = f1) by (unfold quarter; toR; cbn; field).
  exact (C94_deprojected_bandpowers (F:=R') sqrt exp ln PI w3R eigh diag_inv _ _ _ _ _ _ _ _ _ _ _ _ _ _ _ _ _ _ _ _ _ _ _ _ _ _ None biasD _ W libm_lawsR pi_neq S T N1 eq_refl biasD_ok eq_refl ML HD' HW 0%nat ltac:(vm_compute; lia)).
Qed.
End Case.
Print Assumptions C94_case_deprojected_bandpower.
Print Assumptions C94_case_deprojected.
