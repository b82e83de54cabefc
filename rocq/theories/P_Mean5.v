(** Property C94: the spectrum of the mask up to lmax_mask = lmax is not enough. A concrete survey of the equator, over the real numbers. *)
From Coq Require Import Reals Lra.
From Verif Require Import Base FieldR M_Utils L_Utils M_Field L_Field L_Field2 M_Cell L_Cell P_Utils P_Field P_Field2 P_Field3 P_Field4 P_Field5 P_Field6 P_Cell M_Bins M_LinAlg M_Workspace M_MCM L_Bins L_Bins2 L_Bins3 P_Bins L_LinAlg L_Workspace P_Workspace L_MCM L_MCM2 L_MCM3 P_MCM P_MCM2 L_MCM4 P_MCM3 L_Legendre P_Legendre M_SynSph P_SynSph P_Mean P_Mean2.
Local Open Scope nat_scope.
Local Notation R' := R_field.
(** the mask: the ring at the equator *)
Definition belt : list (list R') := [[0; 0; 0; 0]; [1; 1; 1; 1]; [0; 0; 0; 0]]%R.
Definition argQ : fargs R' := FArgs (F:=R') (I2 4 belt) None None None (Some 0%Z) TNone (BArr (F:=R') [1; 1 / 2]%R) false false None None None (Wcs false false 4 [] 1 []) (Some 1%Z) (Some 1%Z) false false.
Section Case.
Variables (eigh : list (list R') -> list R' * list (list R')) (np_inv : list (list R') -> res (list (list R'))).
Notation new := (field_new (fmul (fofZ 4) (PI : R')) sqrt eigh np_inv).
Definition fldQ : nfield R' := NField (F:=R') (Car 3 4 4 false false []) [] (concat belt) None 1 1 [1; 1 / 2]%R 0 1 false false false 0 0 0 None None None None None None None None.
Definition pclQ : list R' := ok (alm2cl 1 (quad (concat belt)) (quad (concat belt))) [].
Definition inQ : minp (F:=R') := MInp (F:=R') 0 0 false false false false 1 pclQ binR [1; 1 / 2]%R [1; 1 / 2]%R 0 (1%R : R') false (-1) (-1) (-1).
Lemma newQ : new KR parR argQ = Ok fldQ.
Proof. reflexivity. Qed.
Definition fieldQ (w : nat) : nfield R' := ok (new KR parR (with_map argQ (mapR w))) fldQ.
Lemma fieldQ_new w : new KR parR (with_map argQ (mapR w)) = Ok (fieldQ w).
Proof. reflexivity. Qed.
Definition cellQ (w : nat) : list (list R') := ok (compute_coupled_cell true (of_map (fieldQ w)) (of_map (fieldQ w))) [].
Lemma cellQ_ok w : compute_coupled_cell true (of_map (fieldQ w)) (of_map (fieldQ w)) = Ok (cellQ w).
Proof. reflexivity. Qed.
Ltac toR := match goal with |- @eq _ ?a ?b => change (@eq R a b) end.
Lemma ok_inQ : fields_ok inQ.
Proof. constructor; try (vm_compute; congruence); try reflexivity; try discriminate; try exact binR_valid. Qed.
Lemma scalarQ : scalar inQ.
Proof. constructor; try reflexivity; try exact ok_inQ; vm_compute; congruence. Qed.
Lemma powerQ : mpower (F:=R') PI area ang (Car 3 4 4 false false []) (concat belt) (concat belt) 2 = (4 * PI / 9)%R.
Proof. pose proof PI_RGT_0 as Hp. unfold mpower, ppower, pairs, mweight, ang, area. toR. cbn. field. lra. Qed.
(** all hypotheses of C94_mean but the condition on lmax_mask *)
Theorem C94_truncation_refuted : exists ws o, survey (F:=R') sqrt exp ln PI w3R eigh np_inv mean4 (fun _ => f0) KR parR argQ argQ fldQ fldQ inQ ws area ang clR mapR mapR fieldQ fieldQ cellQ true /\
  couple_cell (obj ws) (A2 2 [clR]) = Ok (A2 2 [o]) /\ mean4 (fun w => mg (cellQ w) 0 1) <> nth 1 o f0.
Proof.
  destruct (mcompute_built (F:=R') sqrt exp ln PI w3R (fun _ => f0) inQ ok_inQ eq_refl) as [st [_ Ew]]. 
  assert (S : survey (F:=R') sqrt exp ln PI w3R eigh np_inv mean4 (fun _ => f0) KR parR argQ argQ fldQ fldQ inQ (mk (built (F:=R') PI inQ st)) area ang clR mapR mapR fieldQ fieldQ cellQ true).
  { constructor.
    - split; [|split]; intros; unfold mean4; [rewrite !H; reflexivity | toR; cbn; field | toR; cbn; field].
    - assert (P : plain argQ) by (repeat split; try discriminate; cbn; repeat constructor). split; exact P.
    - split; exact newQ.
    - repeat (split; [reflexivity|]). exists (quad (concat belt)), (quad (concat belt)). repeat split; reflexivity.
    - exact scalarQ.
    - exact Ew.
    - split; reflexivity.
    - exact harmR.
    - exact harmR.
    - intro w. split; [cbn; repeat constructor | apply fieldQ_new].
    - intro w. split; [cbn; repeat constructor | apply fieldQ_new].
    - exact cellQ_ok.
    - intros p q Hp Hq _ _. change (p < 12)%nat in Hp. change (q < 12)%nat in Hq.
      assert (PX : forall w r, (r < 12)%nat -> nth r (pixels (F:=R') (f_info fldQ) (mapR w)) f0 = sky w r) by (intros w r Hr; do 12 (destruct r as [|r]; [reflexivity|]); lia).
      unfold mean4. rewrite !PX by assumption. pose proof PI_RGT_0. toR. change (nell inQ) with 2%nat. unfold corr, ang, sky. cbn -[ux uy uz PI]. field. lra. }
  destruct (C94_truncation (F:=R') sqrt exp ln PI w3R eigh np_inv mean4 _ _ _ _ _ _ _ _ _ _ _ 2 _ _ _ _ _ _ _ libm_lawsR pi_neq S eq_refl (le_n _)) as (o & Eo & Fo).
  exists (mk (built (F:=R') PI inQ st)), o. split; [exact S|]. split; [exact Eo|]. rewrite (Fo 1%nat (le_n _)).
  assert (T112 : T3 (F:=R') 1 1 2 = (2 / 15)%R) by (rewrite (T3_even (F:=R') 1 1 2 2) by lia; toR; cbn; change (Pos.to_nat 1) with 1%nat; change (Pos.to_nat 2) with 2%nat; cbn; field).
  intro H. match type of H with fadd ?a ?b = _ => assert (B : b = (8 * PI / 27)%R) end.
  { clear H. change (nell inQ) with 2%nat. change (nmask inQ) with 2%nat. cbv zeta. cbn [sum]. cbn [Nat.add]. change (f_info fldQ) with (Car (F:=R') 3 4 4 false false []). change (f_mask fldQ) with (concat belt). cbn [sum]. rewrite powerQ.
    change (Z.of_nat 0) with 0%Z. change (Z.of_nat 1) with 1%Z. change (Z.of_nat 2) with 2%Z. change (Z.of_nat 3) with 3%Z. change (Z.of_nat 4) with 4%Z.
    rewrite T112, !(T3_out (F:=R')) by lia. pose proof PI_RGT_0. generalize (mpower (F:=R') PI area ang (Car 3 4 4 false false []) (concat belt) (concat belt) 3), (mpower (F:=R') PI area ang (Car 3 4 4 false false []) (concat belt) (concat belt) 4). intros p3 p4. toR. cbn -[PI]. field. lra. }
  rewrite B in H. match type of H with @eq _ ?a ?b => change (@eq R a b) in H end. match type of H with @eq _ (fadd ?a ?b) _ => change (fadd a b) with (Rplus a b) in H end. pose proof PI_RGT_0. lra.
Qed.
End Case.
Print Assumptions C94_truncation_refuted.
