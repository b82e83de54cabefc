(** A concrete case for the catalogues of property C94: two noisy measurements of a constant, over the real numbers. *)
From Coq Require Import Reals Lra.
From Verif Require Import Base FieldR M_Utils L_Utils M_Field L_Field M_Cell L_Cell P_Field5 P_Cell P_Catalog M_Bins M_LinAlg M_Workspace M_MCM L_Bins L_Bins2 L_Bins3 P_Bins L_LinAlg L_Workspace P_Workspace L_MCM L_MCM2 L_MCM3 P_MCM P_MCM2 L_MCM4 P_MCM3 L_Legendre P_Legendre M_SynSph P_SynSph P_Mean P_Mean2 P_Mean3.
Local Open Scope nat_scope.
Local Notation R' := R_field.
Local Ltac toR := match goal with |- @eq _ ?a ?b => change (@eq R a b) end.
(** spherical harmonics up to l = 1 *)
Definition YR (s lmax : Z) (e c i : nat) (th ph : R') : R' :=
  nth i [sqrt (1 / (4 * PI)); 0; sqrt (3 / (4 * PI)) * cos th; 0; - sqrt (3 / (8 * PI)) * (sin th * cos ph); sqrt (3 / (8 * PI)) * (sin th * sin ph)]%R 0%R.
Definition catR (s lmax : Z) (vals : list (list R')) (th ph : list R') : list (list R') :=
  tab (length vals) (fun e => tab (n_alm lmax) (fun i => sum (length vals) (fun c => sum (length th) (fun p => fmul (mg vals c p) (YR s lmax e c i (nth p th f0) (nth p ph f0)))))).
Definition cosR (th ph th' ph' : R') : R' := (cos th * cos th' + (sin th * cos ph) * (sin th' * cos ph') + (sin th * sin ph) * (sin th' * sin ph'))%R.
Lemma synthR : synthesis (F:=R') catR YR.
Proof.
  intros s lmax nc n vals th ph [Hv _] Lt Lp. unfold catR. rewrite Hv, Lt. split.
  - split; [apply length_tab|]. apply Forall_forall. intros r Hr. apply (In_nth _ _ []) in Hr as (k & Hk & <-). rewrite length_tab in Hk. rewrite nth_tab by exact Hk. apply length_tab.
  - intros e i He Hi. unfold mg at 1. rewrite nth_tab by exact He. rewrite nth_tab by exact Hi. reflexivity.
Qed.
Lemma addR : addition0 (F:=R') PI YR cosR 1.
Proof.
  split.
  - intros th ph. toR. unfold cosR. cbn. pose proof (sin2_cos2 th) as A. pose proof (sin2_cos2 ph) as B. unfold Rsqr in A, B.
    transitivity (cos th * cos th + sin th * sin th * (sin ph * sin ph + cos ph * cos ph))%R; [ring|]. rewrite B. lra.
  - intros l th ph th' ph' Hl. pose proof PI_RGT_0 as Hp. assert (A1 : (0 <= 1 / (4 * PI))%R) by (apply Rlt_le, Rdiv_lt_0_compat; lra). assert (A2 : (0 <= 3 / (4 * PI))%R) by (apply Rlt_le, Rdiv_lt_0_compat; lra). assert (A3 : (0 <= 3 / (8 * PI))%R) by (apply Rlt_le, Rdiv_lt_0_compat; lra).
    apply sq in A1, A2, A3. unfold P_Catalog.pair, Ys. change (n_alm (Z.of_nat 1)) with 6%nat. destruct l as [|[|l]]; [| |lia].
    + toR. unfold spectrum, re, im, pos, cosR. cbn -[sin cos sqrt PI]. transitivity (sqrt (1 / (4 * PI)) * sqrt (1 / (4 * PI)))%R; [field|rewrite A1; field; lra].
    + toR. unfold spectrum, re, im, pos, cosR. cbn -[sin cos sqrt PI].
      transitivity ((sqrt (3 / (4 * PI)) * sqrt (3 / (4 * PI)) * (cos th * cos th') + 2 * (sqrt (3 / (8 * PI)) * sqrt (3 / (8 * PI)) * ((sin th * cos ph) * (sin th' * cos ph') + (sin th * sin ph) * (sin th' * sin ph')))) / 3)%R; [field|rewrite A2, A3; field; lra].
Qed.
(** sources at the north pole and on the equator, weights 2 and 3; a constant field 1 measured with noise +-1 *)
Definition posR : list (list R') := [[0; PI / 2]; [0; 0]]%R.
Definition wR : list R' := [2; 3]%R.
Definition sgn (b : bool) : R := if b then 1%R else (-1)%R.
Definition vR (o : bool * bool) : list (list R') := [[1 + sgn (fst o); 1 + sgn (snd o)]]%R.
Definition meanR (f : bool * bool -> R') : R' := ((f (true, true) + f (true, false) + f (false, true) + f (false, false)) / 4)%R.
Lemma posR_ok : positions_of (PI : R') posR wR false = Ok ([0; PI / 2]%R, [0; 0]%R).
Proof.
  pose proof PI_RGT_0 as Hp. assert (T : forall x y : R', (x <= y)%R -> fleb x y = true) by (intros x y; apply R_leb_le).
  unfold positions_of, posR, wR. cbn [length Nat.eqb andb forallb]. rewrite !T; cbn; try lra; try reflexivity.
Qed.
Definition nullf : gfield R' := GField 0 0 0 None None None f0 f0 true [] None.
Definition catf (o : bool * bool) : gfield R' := ok (catalog_new (PI : R') catR true posR wR (Some (vR o)) 1 None None BNone false false) nullf.
Lemma catf_ok o : catalog_new (PI : R') catR true posR wR (Some (vR o)) 1 None None BNone false false = Ok (catf o) /\ g_spin (catf o) = 0%Z.
Proof. unfold catf, catalog_new. rewrite posR_ok. split; reflexivity. Qed.
Definition catcell (o : bool * bool) : list (list R') := ok (compute_coupled_cell true (catf o) (catf o)) [].
Lemma catcell_ok o : compute_coupled_cell true (catf o) (catf o) = Ok (catcell o).
Proof. unfold catcell, catf, catalog_new. rewrite posR_ok. reflexivity. Qed.
Definition f1R := catf (true, true).
Definition amR : list R' := match g_alm_mask f1R with Some a => a | None => [] end.
Definition cpclR : list R' := ok (alm2cl 1 amR amR) [].
Definition cinR : minp (F:=R') := MInp (F:=R') 0 0 false false false false 1 (map (fun y => fsub y (g_Nw f1R)) cpclR) one_band [1; 1]%R [1; 1]%R 0 (1%R : R') false (-1) (-1) (-1).
Lemma f1R_facts : g_alm_mask f1R = Some amR /\ alm2cl 1 amR amR = Ok cpclR /\ length cpclR = 2%nat /\ g_lmaxm f1R = 1%Z /\ g_beam f1R = [1; 1]%R.
Proof. unfold cpclR, amR, f1R, catf, catalog_new. rewrite posR_ok. repeat split; reflexivity. Qed.
Lemma cok : fields_ok cinR.
Proof.
  destruct f1R_facts as (_ & _ & L & _). constructor; try (vm_compute; congruence); try reflexivity; try discriminate; try exact one_valid. cbn [cinR n_pcl n_lmm]. rewrite map_length, L. reflexivity.
Qed.
Example C94_case_catalog : exists ws, mcompute (F:=R') sqrt exp ln PI w3R (fun _ => f0) cinR = Ok ws /\ nell cinR = 2%nat /\
  (exists o, couple_cell (obj ws) (A2 2 [[4 * PI; 0]%R : list R']) = Ok (A2 2 [o]) /\ forall l, (l < 2)%nat -> meanR (fun om => mg (catcell om) 0 l) = nth l o f0) /\
  (forall p, (p < 2)%nat -> meanR (fun om => fmul (mg (vR om) 0 p) (mg (vR om) 0 p)) = (2%R : R')).
Proof.
  destruct (mcompute_built (F:=R') sqrt exp ln PI w3R (fun _ => f0) cinR cok eq_refl) as [st [_ Ew]]. exists (mk (built (F:=R') PI cinR st)). split; [exact Ew|]. split; [reflexivity|]. destruct f1R_facts as (A1 & A2 & A3 & A4 & A5).
  assert (SI : scalar cinR) by (constructor; try reflexivity; try exact cok; vm_compute; congruence). split.
  - assert (AV : average meanR) by (split; [|split]; intros; unfold meanR; [rewrite !H; reflexivity | toR; cbn; field | toR; cbn; field]).
    destruct (C94_catalog (F:=R') sqrt exp ln PI w3R meanR catR YR cosR (fun _ => f0) cinR _ true posR wR vR 1 1 None None BNone false false catf f1R amR cpclR catcell _ _ 2 [4 * PI; 0]%R
      libm_lawsR pi_neq AV synthR addR addR posR_ok (fun o => conj (proj1 (catf_ok o)) (conj (proj2 (catf_ok o)) (catcell_ok o))) (ex_intro _ (vR (true, true)) (proj1 (catf_ok (true, true)))) A1 ltac:(rewrite A4; exact A2) A4 SI Ew eq_refl (eq_sym A4) (eq_sym A5) (eq_sym A5) eq_refl eq_refl (le_n _)) as (o & Eo & _ & Fo).
    + intros p q Hp Hq Hne. rewrite A5. change (length wR) with 2%nat in Hp, Hq. pose proof PI_RGT_0.
      assert (Q : (p = 0 /\ q = 1) \/ (p = 1 /\ q = 0)) by lia. change (nell cinR) with 2%nat. unfold meanR, corr.
      destruct Q as [[-> ->]|[-> ->]]; toR; cbn -[cosR PI]; field; lra.
    + exists o. split; [exact Eo|]. intros l Hl. apply (Fo l Hl). intros l' L Hl' H1 H2. left. change (nell cinR) with 2%nat in *. change (nmask cinR) with 2%nat in H1. assert (l' = 1%nat) as -> by lia. reflexivity.
  - intros p Hp. destruct p as [|[|p]]; [| |lia]; toR; unfold meanR; cbn; field.
Qed.
Print Assumptions C94_case_catalog.
