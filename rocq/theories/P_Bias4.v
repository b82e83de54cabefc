(** Concrete white-noise ensembles for C45, and cases in which the bias returned is not the bias. *)
From Coq Require Import QArith Qcanon.
From Verif Require Import Base M_Utils L_Utils M_Field L_Field L_Field2 P_Utils P_Field P_Field2 P_Field5 P_Field6 P_Field7 M_Cell L_Cell P_Cell L_Lin L_Lin2 L_Bias L_Bias2 P_Bias P_Bias2 P_Bias3.
Local Open Scope nat_scope.
(** a transform that mixes neighbouring pixels *)
Section Rows2.
Context {F : ofield}.
Local Open Scope F_scope.
Add Field FfPBi4 : (fth F).
Definition rows2 (na : nat) (m : list (list F)) : list (list F) := map (fun v => tab na (fun i => nth i v 0 + nth (S i) v 0)) m.
Definition toyn : calc F := Calc false (fun _ _ lmax m => rows2 (n_alm lmax) m) (fun _ s _ a => rows_of (full s) 1 a).
Lemma toyn_linear : linear toyn.
Proof.
  intros spin s lmax nc. split; [|apply lin_rows]. cbn [toyn c_m2a]. generalize (full s), (n_alm lmax). intros np na. split.
  - intros x S. eapply shaped_map; [|exact S]. intros r _. apply length_tab.
  - intros N co xs S. assert (R : forall x : list (list F), shaped nc np x -> forall a i, (a < nc)%nat -> (i < na)%nat -> mg (rows2 na x) a i = mg x a i + mg x a (Datatypes.S i)).
    { intros x Sx a i Ha Hi. unfold mg, rows2. rewrite (nth_indep _ [] (tab na (fun i => nth i [] 0 + nth (Datatypes.S i) [] 0))) by (rewrite map_length, (proj1 Sx); exact Ha). rewrite (map_nth (fun v => tab na (fun i => nth i v 0 + nth (Datatypes.S i) v 0))). rewrite nth_tab by exact Hi. reflexivity. }
    apply (mat_eq_mg nc na); [eapply shaped_map; [|apply lc_shaped]; intros r _; apply length_tab | apply lc_shaped|].
    intros a i Ha Hi. rewrite R by (try apply lc_shaped; assumption). rewrite !mg_lc_all by exact S. rewrite mg_lc by assumption. rewrite <- sum_add. apply sum_ext. intros k Hk. rewrite R by auto. ring.
Qed.
End Rows2.
(** the white-noise condition for a single template, by computation *)
Lemma white1 (f : nfield Q) n s sg np : length (otl (f_temp f)) = 1 -> npix (f_info f) = np ->
  outs (let t := tpl f in let v := f_mask f in let g := f_info f in let w := tab 2 (fun k => let x := s k in fmul (half k) (sum n (fun m => sum np (fun i => fmul (fmul (fmul (nth i v (qz 0)) (mg t m i)) (mg x m i)) (pw g i))))) in
        let s0 := s 0 in let s1 := s 1 in tab n (fun c => tab np (fun q => fadd (fadd (qz 0) (fmul (nth 0 w (qz 0)) (mg s0 c q))) (fmul (nth 1 w (qz 0)) (mg s1 c q)))))
  = outs (let t := tpl f in let v := f_mask f in let sg := sg in tab n (fun c => tab np (fun q => fmul (nth q sg (qz 0)) (fmul (nth q v (qz 0)) (mg t c q))))) -> white f n 2 half s sg.
Proof.
  intros T0 N E t c q' It Hc Hq. rewrite N in *. assert (T : otl (f_temp f) = [tpl f]) by (unfold tpl; destruct (otl (f_temp f)) as [|x [|? ?]]; try discriminate T0; reflexivity).
  rewrite T in It. destruct It as [<-|[]]. apply outs_inj in E. apply (f_equal (fun m => mg m c q')) in E. rewrite !mg_tab in E by assumption. exact E.
Qed.
(** variance map, scaled so that the one noise map z = sg v t (and its opposite) have that variance *)
Definition var0 : list Q := tab 48 (fun i => qz (Z.of_nat i mod 5 + 1)).
Definition znoise (f : nfield Q) n (sg : list Q) : mat := let t := tpl f in let v := f_mask f in tab n (fun c => tab 48 (fun i => fmul (nth i sg (qz 0)) (fmul (nth i v (qz 0)) (mg t c i)))).
Definition var (f : nfield Q) n : list Q := let d := innerp f n (tpl f) (znoise f n var0) in map (fun x => fdiv x d) var0.
Definition autos K a t n (S : mat) (sg : list Q) : Prop :=
  noise_ensemble (qz 12) exsqrt exeigh exinv K expar a t 2 0 (fun k => exmaps (flip S k)) n (fld K a t S) (fld K a TNone S) (flip S)
    (fun k => cellof (fld K a t S k) (fld K a t S k)) (fun k => cellof (fld K a TNone S k) (fld K a TNone S k)) half false false (I1 sg) sg.
Lemma reform1 s (v : list Q) : match s with Hpx n _ => (Nat.eqb (length v) (Z.to_nat (12 * n * n)) && (0 <=? n)%Z)%bool | _ => false end = true -> reform_map s (I1 v) = Ok v.
Proof. destruct s as [n w|]; [|discriminate]. intros H. apply andb_true_iff in H as [H Hn]. apply Z.leb_le in Hn. apply Nat.eqb_eq in H. cbn [reform_map]. replace (Z.of_nat (length v) =? 12 * n * n)%Z with true by (symmetry; apply Z.eqb_eq; rewrite H; nia). reflexivity. Qed.
Ltac noise n := unfold autos, noise_ensemble; split; [apply toyn_linear|]; split; [apply exinv_sym|]; split; [lia|]; split; [exact I|]; split; [apply two_cases; byc|];
  split; [intros k _; apply rect_ex; [exact I | templs]|]; split; [apply two_cases; news|]; split; [apply two_cases; news|];
  split; [apply two_cases; apply (reform_flip _ _ n); byc|]; split; [apply reform1; byc|]; split; [apply (white1 _ _ _ _ 48); byc|]; apply two_cases; split; oks.
Definition nbias K a t S sg n_iter := from_ok [] (uncorr_noise_deprojection_bias K expar (fld K a t S 0) (I1 sg) n_iter).
Definition auto K a t S := cleaned K a a t t S S.

(** a spin-2 field with one template and inhomogeneous noise *)
Definition F5 := ftempl toyn A0 T2 2.
Definition V5 : list Q := var F5 2.
Definition S5 : mat := znoise F5 2 V5.
Example ex_noise : autos toyn A0 T2 2 S5 V5 /\ uncorr_noise_deprojection_bias toyn expar (fld toyn A0 T2 S5 0) (I1 V5) (Some 1%Z) = Ok (nbias toyn A0 T2 S5 V5 (Some 1%Z)) /\
  f_mask_a (fld toyn A0 T2 S5 0) = None /\ f_pe (fld toyn A0 T2 S5 0) = false /\ f_pb (fld toyn A0 T2 S5 0) = false /\ unflipped (f_info (fld toyn A0 T2 S5 0)) = true /\ f_niter (fld toyn A0 T2 S5 0) = 1%Z /\
  forallb (fun r => forallb (fun x => negb (Qeq_bool x 0)) (tl r)) (outs (nbias toyn A0 T2 S5 V5 (Some 1%Z))) = true.
Proof.
  split; [noise 2|]. split; [unfold nbias; apply from_ok_eq; byc|]. repeat (split; [byc|]). byc.
Qed.

(** C45: the EB and BE entries themselves are not the bias of EB and BE (each has the two first-order terms of the other halves) *)
Theorem C45_cross_component_refuted : autos toyn A0 T2 2 S5 V5 /\
  f_mask_a (fld toyn A0 T2 S5 0) = None /\ f_pe (fld toyn A0 T2 S5 0) = false /\ f_pb (fld toyn A0 T2 S5 0) = false /\ unflipped (f_info (fld toyn A0 T2 S5 0)) = true /\ f_niter (fld toyn A0 T2 S5 0) = 1%Z /\
  exists B, uncorr_noise_deprojection_bias toyn expar (fld toyn A0 T2 S5 0) (I1 V5) (Some 1%Z) = Ok B /\
    auto toyn A0 T2 S5 1 2 <> fadd (auto toyn A0 TNone S5 1 2) (mg B 1 2).
Proof.
  split; [noise 2|]. repeat (split; [byc|]). exists (nbias toyn A0 T2 S5 V5 (Some 1%Z)). split; [unfold nbias; apply from_ok_eq; byc|].
  intro E. apply (f_equal out) in E. vm_compute in E. discriminate E.
Qed.

(** C45: for a purified field the first-order term is the transform of the masked noise response without purification, and the bias is wrong *)
Definition F6 := ftempl toyn A2 T2 2.
Definition V6 : list Q := var F6 2.
Definition S6 : mat := znoise F6 2 V6.
Theorem C45_purified_refuted : autos toyn A2 T2 2 S6 V6 /\ f_pe (fld toyn A2 T2 S6 0) = true /\
  f_mask_a (fld toyn A2 T2 S6 0) = None /\ unflipped (f_info (fld toyn A2 T2 S6 0)) = true /\ f_niter (fld toyn A2 T2 S6 0) = 1%Z /\
  exists B, uncorr_noise_deprojection_bias toyn expar (fld toyn A2 T2 S6 0) (I1 V6) (Some 1%Z) = Ok B /\
    auto toyn A2 T2 S6 0 2 <> fadd (auto toyn A2 TNone S6 0 2) (mg B 0 2).
Proof.
  split; [noise 2|]. repeat (split; [byc|]). exists (nbias toyn A2 T2 S6 V6 (Some 1%Z)). split; [unfold nbias; apply from_ok_eq; byc|].
  intro E. apply (f_equal out) in E. vm_compute in E. discriminate E.
Qed.

(** C45: maps whose colatitude axis is flipped on input; the variance map is flattened without flipping it *)
Definition W7 : wcs Q := Wcs true false 3 [qz 1; qz 1] 2 [].
Definition A7 : fargs Q := FArgs (I2 3 [[qz 1; qz 1; qz 1]; [qz 1; qz 1; qz 1]]) None None None None TNone BNone false false (Some 1%Z) (Some 1%Z) None W7 (Some 2%Z) (Some 2%Z) false false.
Definition T7 : temp_arg Q := TArr [[I2 3 [[qz 1; qz 2; qz 3]; [qz 0; qz 1; qz 1]]]].
Definition V7 : imap Q := I2 3 [[q 1 22; q 2 22; q 1 22]; [q 1 22; q 1 22; q 3 22]].
Definition im7 (k : nat) : list (imap Q) := let c := if Nat.eqb k 0 then 1%Z else (-1)%Z in [I2 3 [[q c 22; q (4 * c) 22; q (3 * c) 22]; [q 0 22; q c 22; q (3 * c) 22]]].
Definition f7 t k : nfield Q := from_ok dummy (new toyn expar (set_data A7 (im7 k) t false)).
Definition s7 k : mat := from_ok [] (mapM (reform_map (f_info (f7 T7 0))) (im7 k)).
Definition v7 : list Q := from_ok [] (reform_map (f_info (f7 T7 0)) V7).
Definition c7 t k := cellof (f7 t k) (f7 t k).
Definition noise7 : Prop := noise_ensemble (qz 12) exsqrt exeigh exinv toyn expar A7 T7 2 0 im7 1 (f7 T7) (f7 TNone) s7 (c7 T7) (c7 TNone) half false false V7 v7.
Lemma rect7 k t : t = T7 \/ t = TNone -> rect_args (set_data A7 (im7 k) t false).
Proof.
  intros Ht. split; [|split; [|split; [|split]]]; unfold set_data; cbn.
  - repeat constructor.
  - intros x E; discriminate E.
  - intros x E; discriminate E.
  - intros l E. injection E as <-. repeat constructor.
  - intros ts E. destruct Ht as [->| ->]; [|discriminate E]. injection E as <-. repeat constructor.
Qed.
Theorem C45_flipped_refuted : noise7 /\ f_mask_a (f7 T7 0) = None /\ f_pe (f7 T7 0) = false /\ f_pb (f7 T7 0) = false /\ f_niter (f7 T7 0) = 1%Z /\ unflipped (f_info (f7 T7 0)) = false /\
  exists B, uncorr_noise_deprojection_bias toyn expar (f7 T7 0) V7 (Some 1%Z) = Ok B /\ expected (c7 T7) 0 2 <> fadd (expected (c7 TNone) 0 2) (mg B 0 2).
Proof.
  split; [|do 5 (split; [byc|])].
  - unfold noise7, noise_ensemble. split; [apply toyn_linear|]. split; [apply exinv_sym|]. split; [lia|]. split; [repeat constructor|]. split; [apply two_cases; byc|].
    split; [intros k _; apply rect7; left; reflexivity|]. split; [apply two_cases; cbv beta; unfold f7; apply from_ok_eq; byc|]. split; [apply two_cases; cbv beta; unfold f7; apply from_ok_eq; byc|].
    split; [apply two_cases; cbv beta; unfold s7; apply from_ok_eq; byc|]. split; [unfold v7; apply from_ok_eq; byc|]. split; [apply (white1 _ _ _ _ 6); byc|]. apply two_cases; split; unfold c7; oks.
  - exists (from_ok [] (uncorr_noise_deprojection_bias toyn expar (f7 T7 0) V7 (Some 1%Z))). split; [apply from_ok_eq; byc|].
    intro E. apply (f_equal out) in E. vm_compute in E. discriminate E.
Qed.
Print Assumptions C45_bias.
Print Assumptions C45_cross_component_refuted.
Print Assumptions C45_purified_refuted.
Print Assumptions C45_flipped_refuted.
