(** Concrete cases for the cross-spectra of property C94: two catalogues, and a catalogue with a map, over the real numbers. *)
From Coq Require Import Reals Lra.
From Verif Require Import Base FieldR M_Utils L_Utils M_Field L_Field L_Field2 M_Cell L_Cell P_Utils P_Field P_Field2 P_Field3 P_Field4 P_Field5 P_Field6 P_Cell P_Catalog M_Bins M_LinAlg M_Workspace M_MCM L_Bins L_Bins2 L_Bins3 P_Bins L_LinAlg L_Workspace P_Workspace L_MCM L_MCM2 L_MCM3 P_MCM P_MCM2 L_MCM4 P_MCM3 L_Legendre P_Legendre M_SynSph P_SynSph P_Mean P_Mean2 P_Mean3 P_Mean4 P_Mean6.
Local Open Scope nat_scope.
Local Notation R' := R_field.
Local Ltac toR := match goal with |- @eq _ ?a ?b => change (@eq R a b) end.
(** a second catalogue with one source, whose error is independent of those of the first *)
Definition posQ : list (list R') := [[PI / 2]; [PI / 2]]%R.
Definition wQ : list R' := [5]%R.
Definition vQ (o : bool * bool) : list (list R') := [[1 + sgn (fst o) * sgn (snd o)]]%R.
Lemma posQ_ok : positions_of (PI : R') posQ wQ false = Ok ([PI / 2]%R, [PI / 2]%R).
Proof.
  pose proof PI_RGT_0 as Hp. assert (T : forall x y : R', (x <= y)%R -> fleb x y = true) by (intros x y; apply R_leb_le).
  unfold positions_of, posQ, wQ. cbn [length Nat.eqb andb forallb]. rewrite !T; cbn; try lra; try reflexivity.
Qed.
Definition catq (o : bool * bool) : gfield R' := ok (catalog_new (PI : R') catR true posQ wQ (Some (vQ o)) 1 None None BNone false false) nullf.
Lemma catq_ok o : catalog_new (PI : R') catR true posQ wQ (Some (vQ o)) 1 None None BNone false false = Ok (catq o) /\ g_spin (catq o) = 0%Z.
Proof. unfold catq, catalog_new. rewrite posQ_ok. split; reflexivity. Qed.
Definition crossc (o : bool * bool) : list (list R') := ok (compute_coupled_cell false (catf o) (catq o)) [].
Lemma crossc_ok o : compute_coupled_cell false (catf o) (catq o) = Ok (crossc o).
Proof. unfold crossc, catf, catq, catalog_new. rewrite posR_ok, posQ_ok. reflexivity. Qed.
Definition f1Q := catq (true, true).
Definition amQ : list R' := match g_alm_mask f1Q with Some a => a | None => [] end.
Definition xpcl : list R' := ok (alm2cl 1 amR amQ) [].
Definition xin : minp (F:=R') := MInp (F:=R') 0 0 false false false false 1 xpcl one_band [1; 1]%R [1; 1]%R 0 (1%R : R') false (-1) (-1) (-1).
Lemma f1Q_facts : g_alm_mask f1Q = Some amQ /\ alm2cl 1 amR amQ = Ok xpcl /\ length xpcl = 2%nat /\ g_lmaxm f1Q = 1%Z /\ g_beam f1Q = [1; 1]%R.
Proof. unfold xpcl, amR, amQ, f1R, f1Q, catf, catq, catalog_new. rewrite posR_ok, posQ_ok. repeat split; reflexivity. Qed.
Lemma xok : fields_ok xin.
Proof. destruct f1Q_facts as (_ & _ & L & _). constructor; try (vm_compute; congruence); try reflexivity; try discriminate; try exact one_valid. cbn [xin n_pcl n_lmm]. rewrite L. reflexivity. Qed.
Lemma averageR : average meanR.
Proof. split; [|split]; intros; unfold meanR; [rewrite !H; reflexivity | toR; cbn; field | toR; cbn; field]. Qed.
Example C94_case_cross : exists ws, mcompute (F:=R') sqrt exp ln PI w3R (fun _ => f0) xin = Ok ws /\
  exists o, couple_cell (obj ws) (A2 2 [[4 * PI; 0]%R : list R']) = Ok (A2 2 [o]) /\ forall l, (l < 2)%nat -> meanR (fun om => mg (crossc om) 0 l) = nth l o f0.
Proof.
  destruct (mcompute_built (F:=R') sqrt exp ln PI w3R (fun _ => f0) xin xok eq_refl) as [st [_ Ew]]. exists (mk (built (F:=R') PI xin st)). split; [exact Ew|]. destruct f1R_facts as (A1 & _ & _ & A4 & A5). destruct f1Q_facts as (B1 & B2 & B3 & B4 & B5).
  assert (SI : scalar xin) by (constructor; try reflexivity; try exact xok; vm_compute; congruence).
  destruct (C94_cross (F:=R') sqrt exp ln PI w3R meanR catR YR cosR (fun _ => f0) xin _ true posR posQ wR wQ vR vQ 1 1 None None None None BNone BNone false false false false catf catq f1R f1Q amR amQ crossc _ _ _ _ 2 [4 * PI; 0]%R
    libm_lawsR pi_neq averageR synthR addR addR posR_ok posQ_ok catf_ok catq_ok crossc_ok (ex_intro _ (vR (true, true)) (proj1 (catf_ok (true, true)))) (ex_intro _ (vQ (true, true)) (proj1 (catq_ok (true, true)))) (proj2 (catf_ok (true, true))) (proj2 (catq_ok (true, true)))
    A1 B1 A4 B4 SI Ew eq_refl eq_refl (eq_sym A5) (eq_sym B5) B2 eq_refl (le_n _)) as (o & Eo & _ & Fo).
  - intros p q Hp Hq. rewrite A5, B5. change (length wR) with 2%nat in Hp. change (length wQ) with 1%nat in Hq. pose proof PI_RGT_0.
    assert (Q : (p = 0 \/ p = 1) /\ q = 0) by lia. change (nell xin) with 2%nat. unfold meanR, corr. destruct Q as [[-> | ->] ->]; toR; cbn -[cosR PI]; field; lra.
  - exists o. split; [exact Eo|]. intros l Hl. apply (Fo l Hl). intros l' L Hl' H1 H2. left. change (nell xin) with 2%nat in *. change (nmask xin) with 2%nat in H1. assert (l' = 1%nat) as -> by lia. reflexivity.
Qed.
Print Assumptions C94_case_cross.

(** *** The first catalogue with the map of P_Mean2 *)
Definition tpR (p : nat) : R' := nth p [0; 0; 0; 0; PI / 2; PI / 2; PI / 2; PI / 2; PI; PI; PI; PI]%R 0%R.
Definition ppR (p : nat) : R' := nth p [0; PI / 2; PI; 3 * (PI / 2); 0; PI / 2; PI; 3 * (PI / 2); 0; PI / 2; PI; 3 * (PI / 2)]%R 0%R.
Lemma cons_eq {A} (a b : A) l m : a = b -> l = m -> a :: l = b :: m.
Proof. intros -> ->. reflexivity. Qed.
Lemma Ylm_at p : (p < 12)%nat -> Ylm p = Ys YR 0 1 0 0 (tpR p) (ppR p).
Proof.
  intro Hp. unfold Ylm, Ys, YR. change (n_alm 1) with 6%nat. unfold tab. cbn [seq map nth].
  do 12 (destruct p as [|p]; [unfold tpR, ppR, ux, uy, uz; cbn [nth]; rewrite ?cos_0, ?sin_0, ?cos_PI2, ?sin_PI2, ?cos_PI, ?sin_PI, ?cos_3PI2, ?sin_3PI2; repeat (apply cons_eq; [toR; ring|]); reflexivity|]). lia.
Qed.
Section Map.
Variables (eigh : list (list R') -> list R' * list (list R')) (np_inv : list (list R') -> res (list (list R'))).
Lemma harm_at : harmonic_at (F:=R') YR KR (Car 3 4 4 false false []) 1 0 area tpR ppR.
Proof.
  intros m Hm. exists (quad m). split.
  - do 12 (destruct m as [|? m]; [discriminate Hm|]). destruct m; [|discriminate Hm]. reflexivity.
  - intro i. change (Z.of_nat 1) with 1%Z. change (npix (Car (F:=R') 3 4 4 false false [])) with 12%nat. destruct (Nat.lt_ge_cases i 6) as [H|H].
    + unfold quad. rewrite nth_tab by exact H. apply sum_ext. intros p Hp. rewrite Ylm_at by exact Hp. reflexivity.
    + rewrite nth_overflow by (unfold quad; rewrite length_tab; exact H). symmetry. apply sum_zero. intros p Hp. rewrite <- Ylm_at by exact Hp. rewrite (nth_overflow (Ylm p)) by exact H. toR. cbn. ring.
Qed.
(** the map: the same constant, times two *)
Definition mapC (o : bool * bool) : imap R' := I2 4 (tab 3 (fun _ => tab 4 (fun _ => (2%R : R')))).
Definition fieldC (o : bool * bool) : nfield R' := ok (field_new (fmul (fofZ 4) (PI : R')) sqrt eigh np_inv KR parR (with_map argR (mapC o))) fldR.
Lemma fieldC_new o : field_new (fmul (fofZ 4) (PI : R')) sqrt eigh np_inv KR parR (with_map argR (mapC o)) = Ok (fieldC o).
Proof. reflexivity. Qed.
Definition cellC (o : bool * bool) : list (list R') := ok (compute_coupled_cell false (catf o) (of_map (fieldC o))) [].
Lemma cellC_ok o : compute_coupled_cell false (catf o) (of_map (fieldC o)) = Ok (cellC o).
Proof. unfold cellC, catf, catalog_new. rewrite posR_ok. reflexivity. Qed.
Definition mpcl : list R' := ok (alm2cl 1 amR (quad (concat hole))) [].
Definition minC : minp (F:=R') := MInp (F:=R') 0 0 false false false false 1 mpcl one_band [1; 1]%R [1; 1 / 2]%R 0 (1%R : R') false (-1) (-1) (-1).
Lemma mpcl_ok : alm2cl 1 amR (quad (concat hole)) = Ok mpcl /\ length mpcl = 2%nat.
Proof. unfold mpcl, amR, f1R, catf, catalog_new. rewrite posR_ok. split; reflexivity. Qed.
Lemma mok : fields_ok minC.
Proof. destruct mpcl_ok as (_ & L). constructor; try (vm_compute; congruence); try reflexivity; try discriminate; try exact one_valid. cbn [minC n_pcl n_lmm]. rewrite L. reflexivity. Qed.
Example C94_case_cross_map : exists ws, mcompute (F:=R') sqrt exp ln PI w3R (fun _ => f0) minC = Ok ws /\
  exists o, couple_cell (obj ws) (A2 2 [[8 * PI; 0]%R : list R']) = Ok (A2 2 [o]) /\ forall l, (l < 2)%nat -> meanR (fun om => mg (cellC om) 0 l) = nth l o f0.
Proof.
  destruct (mcompute_built (F:=R') sqrt exp ln PI w3R (fun _ => f0) minC mok eq_refl) as [st [_ Ew]]. exists (mk (built (F:=R') PI minC st)). split; [exact Ew|]. destruct f1R_facts as (A1 & _ & _ & A4 & A5).
  assert (SI : scalar minC) by (constructor; try reflexivity; try exact mok; vm_compute; congruence).
  assert (P : plain argR) by (repeat split; try discriminate; cbn; repeat constructor).
  assert (HM : forall o, L_Field2.rect (mapC o) /\ field_new (fmul (fofZ 4) (PI : R')) sqrt eigh np_inv KR parR (with_map argR (mapC o)) = Ok (fieldC o)) by (intro o; split; [cbn; repeat constructor | apply fieldC_new]).
  destruct (C94_cross_map (F:=R') sqrt exp ln PI w3R meanR catR YR cosR eigh np_inv (fun _ => f0) minC _ true posR wR vR 1 1 None None BNone false false catf f1R amR KR parR argR fldR mapC fieldC (quad (concat hole)) cellC _ _ area tpR ppR 2 [8 * PI; 0]%R
    libm_lawsR pi_neq averageR synthR addR addR posR_ok P (newR eigh np_inv) eq_refl eq_refl harm_at harm_at catf_ok HM cellC_ok (ex_intro _ (vR (true, true)) (proj1 (catf_ok (true, true)))) (proj2 (catf_ok (true, true)))
    A1 eq_refl A4 SI Ew eq_refl eq_refl (eq_sym A5) eq_refl (proj1 mpcl_ok) eq_refl (le_n _)) as (o & Eo & _ & Fo).
  - intros p q Hp Hq _. rewrite A5. change (length wR) with 2%nat in Hp. change (q < 12)%nat in Hq. pose proof PI_RGT_0.
    assert (PX : forall o, nth q (pixels (F:=R') (f_info fldR) (mapC o)) f0 = (2%R : R')) by (intro o; do 12 (destruct q as [|q]; [reflexivity|]); lia).
    change (nell minC) with 2%nat. unfold meanR, corr. rewrite !PX. assert (Q : p = 0 \/ p = 1) by lia. destruct Q as [-> | ->]; toR; cbn -[cosR PI tpR ppR]; field; lra.
  - exists o. split; [exact Eo|]. intros l Hl. apply (Fo l Hl). intros l' L Hl' H1 H2. left. change (nell minC) with 2%nat in *. change (nmask minC) with 2%nat in H1. assert (l' = 1%nat) as -> by lia. reflexivity.
Qed.
End Map.
Print Assumptions C94_case_cross_map.
