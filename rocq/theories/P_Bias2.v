(** Concrete ensembles for C44, and cases in which the bias returned is not the bias. *)
From Coq Require Import QArith Qcanon.
From Verif Require Import Base M_Utils L_Utils M_Field L_Field L_Field2 P_Utils P_Field P_Field2 P_Field5 P_Field6 P_Field7 M_Cell L_Cell P_Cell L_Lin L_Lin2 L_Bias L_Bias2 P_Bias.
Local Open Scope nat_scope.
(** transforms that read the first pixels, scaled by [g spin] *)
Section Rows.
Context {F : ofield}.
Local Open Scope F_scope.
Add Field FfPBi2 : (fth F).
Definition rows_of (na : nat) (c : F) (m : list (list F)) : list (list F) := map (fun v => tab na (fun i => c * nth i v 0)) m.
Definition toys (g : Z -> F) : calc F := Calc false (fun spin _ lmax m => rows_of (n_alm lmax) (g spin) m) (fun _ s _ a => rows_of (full s) 1 a).
Lemma lin_rows nc np na (c : F) : lin_map (rows_of na c) nc np na.
Proof.
  split.
  - intros x S. eapply shaped_map; [|exact S]. intros r _. apply length_tab.
  - intros N co xs S. assert (R : forall x : list (list F), shaped nc np x -> forall a i, (a < nc)%nat -> (i < na)%nat -> mg (rows_of na c x) a i = c * mg x a i).
    { intros x Sx a i Ha Hi. unfold mg, rows_of. rewrite (nth_indep _ [] (tab na (fun i => c * nth i [] 0))) by (rewrite map_length, (proj1 Sx); exact Ha). rewrite (map_nth (fun v => tab na (fun i => c * nth i v 0))). rewrite nth_tab by exact Hi. reflexivity. }
    apply (mat_eq_mg nc na); [eapply shaped_map; [|apply lc_shaped]; intros r _; apply length_tab | apply lc_shaped|].
    intros a i Ha Hi. rewrite R by (try apply lc_shaped; assumption). rewrite mg_lc_all by exact S. rewrite mg_lc by assumption. rewrite <- sum_mul_l. apply sum_ext. intros k Hk. rewrite R by auto. ring.
Qed.
Lemma toys_linear (g : Z -> F) : linear (toys g).
Proof. intros spin s lmax nc. split; apply lin_rows. Qed.
End Rows.
Lemma exinv_sym : inv_sym exinv.
Proof. intros M P n H. discriminate H. Qed.
Definition exmaps (m : mat) : list (imap Q) := map I1 m.
Definition scalem (c : Q) (m : mat) : mat := map (map (fmul c)) m.
(** realisation 1 is minus realisation 0 *)
Definition flip (m : mat) (k : nat) : mat := if Nat.eqb k 0 then m else scalem (qz (-1)) m.
Definition fld K (a : fargs Q) t (m : mat) (k : nat) : nfield Q := from_ok dummy (new K expar (set_data a (exmaps (flip m k)) t false)).
Definition tpl (f : nfield Q) : mat := nth 0 (otl (f_temp f)) [].
(** the maps whose correlations are the guess [g]: s1 = (template of field 1)/norm, s2 = the filtered template *)
Definition args (mask : list Q) (im : list (imap Q)) (t : temp_arg Q) (pe pb : bool) (ni : Z) : fargs Q := FArgs (I1 mask) None None (Some im) None t BNone pe pb (Some ni) (Some 1%Z) None NoWcs (Some 2%Z) (Some 2%Z) false false.
Definition ftempl K a t n := fld K a t (tab n (fun _ => tab 48 (fun _ => qz 1))) 0.
Definition zof K (f g : nfield Q) ni n1 n2 (guess : mat) : mat := from_ok [] (filtered K f g ni n1 n2 (fun m n => nth (m * n2 + n) guess []) (tpl f)).
Definition innerp (f : nfield Q) n (t s : mat) : Q := sum n (fun m => sum 48 (fun i => fmul (fmul (fmul (nth i (f_mask f) (qz 0)) (mg t m i)) (mg s m i)) (pw (f_info f) i))).
Definition cellof (f g : nfield Q) : mat := from_ok [] (compute_coupled_cell false (of_map f) (of_map g)).
Definition half (_ : nat) : Q := q 1 2.
Lemma two_cases (P : nat -> Prop) : P 0 -> P 1 -> forall k, k < 2 -> P k.
Proof. intros H0 H1 [|[|k]] H; [exact H0 | exact H1 | lia]. Qed.
Lemma outs_inj (a b : mat) : outs a = outs b -> a = b.
Proof.
  unfold outs. revert b. induction a as [|r a IH]; intros [|r' b] H; try discriminate H; [reflexivity|]. cbn [map] in H. injection H as H1 H2. f_equal; [|apply IH; exact H2].
  clear -H1. revert r' H1. induction r as [|x r IH]; intros [|y r'] H; try discriminate H; [reflexivity|]. cbn [map] in H. f_equal; [apply out_inj; exact (f_equal (hd 0%Q) H) | apply IH; exact (f_equal (@tl _) H)].
Qed.
(** one template on the first field, checked by computation *)
Lemma cor1 K f g ni n1 n2 guess s1 s2 z : linear K -> length (f_mask f) = npix (f_info f) -> length (otl (f_temp f)) = 1 -> shape_is (tpl f) n1 (npix (f_info f)) = true -> filtered K f g ni n1 n2 (fun m n => nth (m * n2 + n) guess []) (tpl f) = Ok z -> npix (f_info f) = 48 ->
  outs (lc n2 (npix (f_info g)) 2 (fun k => fmul (half k) (innerp f n1 (tpl f) (s1 k))) s2) = outs z -> correlated K f g ni n1 n2 (fun m n => nth (m * n2 + n) guess []) 2 half s1 s2.
Proof.
  intros LK Lm T0 Sh Ez N E. assert (T : otl (f_temp f) = [tpl f]) by (unfold tpl; destruct (otl (f_temp f)) as [|x [|? ?]]; try discriminate T0; reflexivity). apply outs_inj in E. apply correlated_intro; [exact LK | exact Lm | |].
  - intros t It. rewrite T in It. destruct It as [<-|[]]. unfold shape_is in Sh. apply andb_true_iff in Sh as [A B]. split; [apply Nat.eqb_eq; exact A|]. rewrite forallb_forall in B. apply Forall_forall. intros r Hr. apply Nat.eqb_eq, B, Hr.
  - intros t z' It Ez' c q Hc Hq. rewrite T in It. destruct It as [<-|[]]. rewrite Ez in Ez'. injection Ez' as <-. rewrite <- E. rewrite mg_lc by assumption. apply sum_ext. intros k Hk. unfold innerp. rewrite N. reflexivity.
Qed.
Lemma cor2 K f g ni n1 n2 guess s1 s2 z : linear K -> length (f_mask f) = npix (f_info f) -> length (otl (f_temp f)) = 1 -> shape_is (tpl f) n2 (npix (f_info f)) = true -> filtered K f g ni n2 n1 (fun n m => nth (m * n2 + n) guess []) (tpl f) = Ok z -> npix (f_info f) = 48 ->
  outs (lc n1 (npix (f_info g)) 2 (fun k => fmul (half k) (innerp f n2 (tpl f) (s2 k))) s1) = outs z -> correlated K f g ni n2 n1 (fun n m => nth (m * n2 + n) guess []) 2 half s2 s1.
Proof.
  intros LK Lm T0 Sh Ez N E. assert (T : otl (f_temp f) = [tpl f]) by (unfold tpl; destruct (otl (f_temp f)) as [|x [|? ?]]; try discriminate T0; reflexivity). apply outs_inj in E. apply correlated_intro; [exact LK | exact Lm | |].
  - intros t It. rewrite T in It. destruct It as [<-|[]]. unfold shape_is in Sh. apply andb_true_iff in Sh as [A B]. split; [apply Nat.eqb_eq; exact A|]. rewrite forallb_forall in B. apply Forall_forall. intros r Hr. apply Nat.eqb_eq, B, Hr.
  - intros t z' It Ez' c q Hc Hq. rewrite T in It. destruct It as [<-|[]]. rewrite Ez in Ez'. injection Ez' as <-. rewrite <- E. rewrite mg_lc by assumption. apply sum_ext. intros k Hk. unfold innerp. rewrite N. reflexivity.
Qed.
Lemma rect_maps (m : mat) : Forall rect (exmaps m).
Proof. unfold exmaps. apply Forall_forall. intros x Hx. apply in_map_iff in Hx as (v & <- & _). exact I. Qed.
(** everything that is checked by computation *)
Definition exs (K : calc Q) a1 a2 t1 t2 ni n1 n2 (S1 S2 guess : mat) : Prop :=
  ensemble (qz 12) exsqrt exeigh exinv K expar a1 a2 t1 t2 2 0 (fun k => exmaps (flip S1 k)) (fun k => exmaps (flip S2 k)) n1 n2 (fld K a1 t1 S1) (fld K a2 t2 S2) (fld K a1 TNone S1) (fld K a2 TNone S2) (flip S1) (flip S2)
    (fun k => cellof (fld K a1 t1 S1 k) (fld K a2 t2 S2 k)) (fun k => cellof (fld K a1 TNone S1 k) (fld K a2 TNone S2 k)) half false false guess ni.
Ltac oks := cbv beta; unfold cellof; apply from_ok_eq; vm_compute; reflexivity.
Ltac news := cbv beta; unfold fld; apply from_ok_eq; vm_compute; reflexivity.
Ltac byc := vm_compute; reflexivity.
Lemma reform_flip s m nc k : match s with Hpx n _ => (shape_is (flip m k) nc (Z.to_nat (12 * n * n)) && (0 <=? n)%Z)%bool | _ => false end = true -> mapM (reform_map s) (exmaps (flip m k)) = Ok (flip m k).
Proof.
  intros H. destruct s as [n w|]; [|discriminate H]. apply andb_true_iff in H as [H Hn]. apply Z.leb_le in Hn. unfold shape_is in H. apply andb_true_iff in H as [_ B]. rewrite forallb_forall in B. generalize dependent (flip m k). intros l B. unfold exmaps. induction l as [|v l IH]; [reflexivity|]. cbn [map mapM reform_map]. assert (E : length v = Z.to_nat (12 * n * n)) by (apply Nat.eqb_eq, B; left; reflexivity).
  replace (Z.of_nat (length v) =? 12 * n * n)%Z with true by (symmetry; apply Z.eqb_eq; rewrite E; nia). cbn [bind]. rewrite IH by (intros x Hx; apply B; right; exact Hx). reflexivity.
Qed.

(** two scalar fields, one template each, spectra (1, 2, 3) *)
Definition one (_ : Z) : Q := qz 1.
Definition A1 := args exmask [] TNone false false 1.
Definition T1 : temp_arg Q := TArr [[ext1]].
Definition G1 : mat := [[qz 1; qz 2; qz 3]].
Definition Z1 : mat := zof (toys one) (ftempl (toys one) A1 T1 1) (ftempl (toys one) A1 T1 1) 1 1 1 G1.
Definition S1 : mat := scalem (fdiv (qz 1) (innerp (ftempl (toys one) A1 T1 1) 1 (tpl (ftempl (toys one) A1 T1 1)) Z1)) Z1.
Definition bias K a1 a2 t1 t2 S1 S2 guess n_iter := from_ok [] (deprojection_bias exsqrt K expar (fld K a1 t1 S1 0) (fld K a2 t2 S2 0) guess n_iter).

Definition zcor K f g ni n1 n2 cl : mat := from_ok [] (filtered K f g ni n1 n2 cl (tpl f)).
Lemma cor_none K (f g : nfield Q) ni nf ng cl N pr sf sg : length (otl (f_temp f)) = 0 -> correlated K f g ni nf ng cl N pr sf sg.
Proof. intros H t x y z It. apply length_zero_iff_nil in H. rewrite H in It. destruct It. Qed.
Definition isot (a : fargs Q) := match a_mask a, a_mask22 a, a_mask12 a with I1 _, None, None => True | I1 _, Some (I1 _), Some (I1 _) => True | _, _, _ => False end.
Lemma rect_ex (a : fargs Q) t m : isot a -> (forall ts, t = TArr ts -> Forall (Forall rect) ts) -> rect_args (set_data a (exmaps m) t false).
Proof.
  unfold isot. intros H Ht. destruct a as [mk m22 m12]. cbn in H. split; [|split; [|split; [|split]]]; unfold set_data; cbn.
  - destruct mk; [exact I | contradiction].
  - intros x ->. destruct mk; [|contradiction]. destruct x; [exact I | contradiction].
  - intros x ->. destruct mk; [|contradiction]. destruct m22 as [[]|]; try contradiction. destruct x; [exact I | contradiction].
  - intros l E. injection E as <-. apply rect_maps.
  - exact Ht.
Qed.
Ltac cor lem := eapply (lem _ _ _ _ _ _ _ _ _ (zcor _ _ _ _ _ _ _)); [apply toys_linear | byc | byc | byc | unfold zcor; apply from_ok_eq; byc | byc | byc].
Ltac templs := intros ts E; first [discriminate E | injection E as <-; repeat constructor].
Ltac ens n1 n2 c1 c2 := unfold exs, ensemble; split; [apply toys_linear|]; split; [apply exinv_sym|]; split; [lia|]; split; [apply two_cases; split; byc|];
  split; [intros k _; split; (apply rect_ex; [exact I | templs])|]; split; [apply two_cases; split; news|]; split; [apply two_cases; split; news|];
  split; [apply two_cases; split; [apply (reform_flip _ _ n1) | apply (reform_flip _ _ n2) | apply (reform_flip _ _ n1) | apply (reform_flip _ _ n2)]; byc|]; split; [c1|]; split; [c2|]; apply two_cases; split; oks.
Definition expected (C : nat -> mat) c l : Q := sum 2 (fun k => fmul (half k) (mg (C k) c l)).
Definition cleaned K a1 a2 t1 t2 S1 S2 : nat -> nat -> Q := expected (fun k => cellof (fld K a1 t1 S1 k) (fld K a2 t2 S2 k)).
Definition outm n m (g : nat -> nat -> Q) := tab n (fun c => tab m (fun l => out (g c l))).
(** the hypotheses of C44 hold, and the expectations and the bias are *)
Example ex_bias : exs (toys one) A1 A1 T1 T1 1 1 1 S1 Z1 G1 /\ deprojection_bias exsqrt (toys one) expar (fld (toys one) A1 T1 S1 0) (fld (toys one) A1 T1 Z1 0) G1 (Some 1%Z) = Ok (bias (toys one) A1 A1 T1 T1 S1 Z1 G1 (Some 1%Z)) /\
  f_mask_a (fld (toys one) A1 T1 S1 0) = None /\ f_mask_a (fld (toys one) A1 T1 Z1 0) = None /\ f_niter (fld (toys one) A1 T1 S1 0) = 1%Z /\ f_niter (fld (toys one) A1 T1 Z1 0) = 1%Z /\
  (outm 1 3 (cleaned (toys one) A1 A1 T1 T1 S1 Z1), outm 1 3 (cleaned (toys one) A1 A1 TNone TNone S1 Z1), outs (bias (toys one) A1 A1 T1 T1 S1 Z1 G1 (Some 1%Z))) =
  ([[0; 8468256 # 28358113; 338815448 # 141790565]], [[0; 172 # 313; 5472 # 1565]], [[0; -22732 # 90601; -501448 # 453005]])%Q.
Proof.
  split; [ens 1 1 ltac:(cor cor1) ltac:(cor cor2)|]. split; [unfold bias; apply from_ok_eq; byc|]. repeat (split; [byc|]). byc.
Qed.

(** a purified spin-2 field with a template and a scalar field without *)
Definition A2 := args exmask [] TNone true true 1.
Definition A0 := args exmask [] TNone false false 1.
Definition T2 : temp_arg Q := TArr [[ext1; exmap 3 2]].
Definition G2 : mat := [[qz 1; qz 2; qz 3]; [qz 4; qz 5; qz 6]].
Definition unit_of (f : nfield Q) n : mat := scalem (fdiv (qz 1) (innerp f n (tpl f) (tpl f))) (tpl f).
Definition F2 := ftempl (toys one) A2 T2 2.
Definition S2 : mat := unit_of F2 2.
Definition Z2 : mat := zof (toys one) F2 (ftempl (toys one) A0 TNone 1) 1 2 1 G2.
Example ex_bias_pure : exs (toys one) A2 A0 T2 TNone 1 2 1 S2 Z2 G2 /\ deprojection_bias exsqrt (toys one) expar (fld (toys one) A2 T2 S2 0) (fld (toys one) A0 TNone Z2 0) G2 (Some 1%Z) = Ok (bias (toys one) A2 A0 T2 TNone S2 Z2 G2 (Some 1%Z)) /\
  f_mask_a (fld (toys one) A2 T2 S2 0) = None /\ f_mask_a (fld (toys one) A0 TNone Z2 0) = None /\ f_niter (fld (toys one) A2 T2 S2 0) = 1%Z /\ f_niter (fld (toys one) A0 TNone Z2 0) = 1%Z /\
  map (fun r => nth 2 r 0%Q) (outs (bias (toys one) A2 A0 T2 TNone S2 Z2 G2 (Some 1%Z))) = [720 # 2657; 9408 # 13285]%Q.
Proof.
  split; [ens 2 1 ltac:(cor cor1) ltac:(apply cor_none; byc)|]. split; [unfold bias; apply from_ok_eq; byc|]. repeat (split; [byc|]). byc.
Qed.

(** C44: if the second field has an anisotropic mask the bias is computed with the isotropic part of the mask only, and is wrong *)
Definition AA := exani false TNone.
Definition S3 : mat := unit_of (ftempl (toys one) A1 T1 1) 1.
Definition Z3 : mat := zof (toys one) (ftempl (toys one) A1 T1 1) (ftempl (toys one) AA TNone 2) 1 1 2 G2.
Theorem C44_anisotropic_refuted : exs (toys one) A1 AA T1 TNone 1 1 2 S3 Z3 G2 /\
  f_niter (fld (toys one) A1 T1 S3 0) = 1%Z /\ f_niter (fld (toys one) AA TNone Z3 0) = 1%Z /\
  (exists B, deprojection_bias exsqrt (toys one) expar (fld (toys one) A1 T1 S3 0) (fld (toys one) AA TNone Z3 0) G2 (Some 1%Z) = Ok B /\
    cleaned (toys one) A1 AA T1 TNone S3 Z3 0 1 <> fadd (cleaned (toys one) A1 AA TNone TNone S3 Z3 0 1) (mg B 0 1)).
Proof.
  split; [ens 1 2 ltac:(cor cor1) ltac:(apply cor_none; byc)|]. split; [byc|]. split; [byc|]. exists (bias (toys one) A1 AA T1 TNone S3 Z3 G2 (Some 1%Z)).
  split; [unfold bias; apply from_ok_eq; byc|]. intro E. apply (f_equal out) in E. vm_compute in E. discriminate E.
Qed.
(** C44: n_iter defaults to the global parameter and not to that of the fields (compute_full_master cannot even pass it):
    with fields made with n_iter = 0 the bias is wrong; the correlations are the same for both values *)
Definition halves (s : Z) : Q := if (s =? 0)%Z then qz 1 else q 1 2.
Definition A4 := args exmask [] TNone false false 0.
Definition S4 : mat := unit_of (ftempl (toys halves) A4 T1 1) 1.
Definition Z4 : mat := zof (toys halves) (ftempl (toys halves) A4 T1 1) (ftempl (toys halves) A4 TNone 2) 0 1 2 G2.
Theorem C44_default_iterations_refuted : exs (toys halves) A4 A4 T1 TNone 0 1 2 S4 Z4 G2 /\ exs (toys halves) A4 A4 T1 TNone (n_iter_default expar) 1 2 S4 Z4 G2 /\
  f_mask_a (fld (toys halves) A4 T1 S4 0) = None /\ f_mask_a (fld (toys halves) A4 TNone Z4 0) = None /\ f_niter (fld (toys halves) A4 T1 S4 0) = 0%Z /\ f_niter (fld (toys halves) A4 TNone Z4 0) = 0%Z /\
  (exists B, deprojection_bias exsqrt (toys halves) expar (fld (toys halves) A4 T1 S4 0) (fld (toys halves) A4 TNone Z4 0) G2 None = Ok B /\
    cleaned (toys halves) A4 A4 T1 TNone S4 Z4 0 1 <> fadd (cleaned (toys halves) A4 A4 TNone TNone S4 Z4 0 1) (mg B 0 1)).
Proof.
  split; [ens 1 2 ltac:(cor cor1) ltac:(apply cor_none; byc)|]. split; [ens 1 2 ltac:(cor cor1) ltac:(apply cor_none; byc)|]. split; [byc|]. split; [byc|]. split; [byc|]. split; [byc|].
  exists (bias (toys halves) A4 A4 T1 TNone S4 Z4 G2 None). split; [unfold bias; apply from_ok_eq; byc|]. intro E. apply (f_equal out) in E. vm_compute in E. discriminate E.
Qed.
Print Assumptions C44_bias.
Print Assumptions C44_anisotropic_refuted.
Print Assumptions C44_default_iterations_refuted.
