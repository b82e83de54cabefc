(** C44: the deprojection bias is the change of the expected pseudo-spectrum. *)
From Verif Require Import Base M_Utils L_Utils M_Field L_Field L_Field2 P_Utils P_Field P_Field2 P_Field5 P_Field6 M_Cell L_Cell P_Cell L_Lin L_Lin2 L_Bias L_Bias2.
Section PBias.
Context {F : ofield}.
Local Open Scope F_scope.
Add Field FfPBi : (fth F).
Notation mat := (list (list F)).
Variable fourpi : F.
Variable fsqrt : F -> F.
Variable eigh : mat -> list F * mat.
Variable np_inv : mat -> res mat.
Notation new := (field_new fourpi fsqrt eigh np_inv).
Notation deprojection_bias := (deprojection_bias fsqrt).

(** The sky maps [sf k], [sg k] (realisation k has weight [pr k]) are correlated with the angular power spectra [cl m n]
    (component m of the first with component n of the second): the expectation of <v t, sf> sg is obtained by transforming v t,
    multiplying by the spectra and transforming back, for the templates t of the first field. *)
Definition correlated (K : calc F) (f g : nfield F) (n_iter : Z) (nf ng : nat) (cl : nat -> nat -> list F) (N : nat) (pr : nat -> F) (sf sg : nat -> mat) : Prop :=
  forall t x y z, In t (otl (f_temp f)) -> sht K (f_spin f) (f_info f) (f_lmax f) n_iter (map (vmul (f_mask f)) t) = Ok x -> shaped ng (n_alm (f_lmax f)) y ->
    (forall n i, (n < ng)%nat -> (i < n_alm (f_lmax f))%nat -> mg y n i = sum nf (fun m => mg x m i * nth (Z.to_nat (nth i (ells (f_lmax f)) 0%Z)) (cl m n) 0)) ->
    isht K (f_spin g) (f_info g) (f_lmax g) y = Ok z ->
    forall c q, (c < ng)%nat -> (q < npix (f_info g))%nat ->
    sum N (fun k => pr k * sum nf (fun m => sum (npix (f_info f)) (fun i => nth i (f_mask f) 0 * mg t m i * mg (sf k) m i * pw (f_info f) i)) * mg (sg k) c q) = mg z c q.

Lemma mg_nth (m : mat) i q : nth q (nth i m []) 0 = mg m i q.
Proof. reflexivity. Qed.
Lemma mix_mg lmax n1 n2 cl (x : mat) : shaped n1 (n_alm lmax) x -> shaped n2 (n_alm lmax) (mix lmax n1 n2 cl x) /\
  forall n i, (n < n2)%nat -> (i < n_alm lmax)%nat -> mg (mix lmax n1 n2 cl x) n i = sum n1 (fun m => mg x m i * nth (Z.to_nat (nth i (ells lmax) 0%Z)) (cl m n) 0).
Proof.
  intro S. unfold mix. split; [apply (shaped_tab2 n2 (n_alm lmax))|]. intros n i Hn Hi. change (length (ells lmax)) with (n_alm lmax). rewrite mg_tab by assumption. apply sum_ext. intros m Hm. apply almxfl_nth; [apply (shaped_nth n1); assumption | exact Hi].
Qed.
Lemma correlated_intro K f g ni nf ng cl N pr sf sg : linear K -> length (f_mask f) = npix (f_info f) -> (forall t, In t (otl (f_temp f)) -> shaped nf (npix (f_info f)) t) ->
  (forall t z, In t (otl (f_temp f)) -> filtered K f g ni nf ng cl t = Ok z -> forall c q, (c < ng)%nat -> (q < npix (f_info g))%nat ->
    sum N (fun k => pr k * sum nf (fun m => sum (npix (f_info f)) (fun i => nth i (f_mask f) 0 * mg t m i * mg (sf k) m i * pw (f_info f) i)) * mg (sg k) c q) = mg z c q) -> correlated K f g ni nf ng cl N pr sf sg.
Proof.
  intros LK Lm St H t x y z It Ex Sy Vy Ez. apply (H t z It). unfold filtered. rewrite map_vmul_comm, Ex. cbn [bind]. rewrite <- Ez. f_equal. assert (Sx : shaped nf (n_alm (f_lmax f)) x) by (eapply sht_shape; [exact LK | | exact Ex]; apply shaped_vmul; auto). destruct (mix_mg (f_lmax f) nf ng cl x Sx) as [Sm Vm].
  apply (mat_eq_mg ng (n_alm (f_lmax f))); [exact Sm | exact Sy|]. intros n i Hn Hi. rewrite Vm, Vy by assumption. reflexivity.
Qed.
(** what the code filters a template into *)
Lemma filtered_is K f g n_iter nf ng cl N pr sf sg t z : linear K -> (f_lmax f = f_lmax g) -> length (f_mask f) = npix (f_info f) -> shaped nf (npix (f_info f)) t -> pad_geom (f_info g) -> correlated K f g n_iter nf ng cl N pr sf sg -> In t (otl (f_temp f)) ->
  filtered K f g n_iter nf ng cl t = Ok z -> (forall k, (k < N)%nat -> shaped ng (npix (f_info g)) (sg k)) ->
  z = lc ng (npix (f_info g)) N (fun k => pr k * sum nf (fun m => sum (npix (f_info f)) (fun i => nth i (f_mask f) 0 * mg t m i * mg (sf k) m i * pw (f_info f) i))) sg.
Proof.
  intros LK El Lm St G C It H Sg. unfold filtered in H. rewrite map_vmul_comm in H. apply bind_ok in H as (x & Ex & H). assert (Sx : shaped nf (n_alm (f_lmax f)) x) by (eapply sht_shape; [exact LK | | exact Ex]; apply shaped_vmul; assumption).
  destruct (mix_mg (f_lmax f) nf ng cl x Sx) as [Sy Vy]. assert (Sy' : shaped ng (n_alm (f_lmax g)) (mix (f_lmax f) nf ng cl x)) by (rewrite <- El; exact Sy). pose proof (isht_shape K _ _ _ ng _ z LK G Sy' H) as Sz.
  apply (mat_eq_mg ng (npix (f_info g))); [exact Sz | apply lc_shaped|]. intros c q Hc Hq. rewrite mg_lc by assumption. symmetry. exact (C t x _ z It Ex Sy Vy H c q Hc Hq).
Qed.
Lemma prod_pix nc s (mask : list F) (t u : mat) : length mask = npix s -> shaped nc (npix s) t -> shaped nc (npix s) u ->
  ip nc (npix s) (pw s) (mg (map (vmul mask) t)) (mg (map (vmul mask) u)) = sum nc (fun m => sum (npix s) (fun i => nth i mask 0 * mg (map (vmul mask) t) m i * mg u m i * pw s i)).
Proof. intros L St Su. unfold ip. apply sum_ext. intros m Hm. apply sum_ext. intros i Hi. rewrite !(mg_vmul nc (npix s)) by assumption. ring. Qed.
Lemma cross_value lmax (A B : mat) C i j l : cross (Z.of_nat lmax) A B = Ok C -> (i < length A)%nat -> (j < length B)%nat -> (l <= lmax)%nat -> cub C i j l = spectrum lmax (nth i A []) (nth j B []) l.
Proof. intros H Hi Hj Hl. apply cross_at in H as [_ H]. destruct (H i Hi) as [_ H']. specialize (H' j Hj). apply alm2cl_spectrum in H' as [_ H']. unfold cub. apply H'. exact Hl. Qed.
Lemma shape_geom K p a h spin nc (s : mat) y : (0 < nc)%nat -> length (h_mask h) = npix (h_s h) -> (pure a = true -> nc = 2%nat) -> shaped nc (npix (h_s h)) s -> ana fsqrt K p a h spin s = Ok y -> pad_geom (h_s h).
Proof.
  intros Hn Lm P S H. unfold ana in H. cbv zeta in H. assert (X : forall sp l n m r, shaped nc (npix (h_s h)) m -> sht K sp (h_s h) l n m = Ok r -> pad_geom (h_s h)). { intros sp l n m r Sm Hs. unfold sht in Hs. apply bind_ok in Hs as (pm & Em & _). eapply pad_geom_of; [exact Hn | exact Sm | exact Em]. }
  destruct (pure a); [|eapply X; [|exact H]; apply shaped_vmul; assumption]. apply bind_ok in H as (am & _ & H). apply bind_ok in H as ([x m] & H & _). unfold purify in H. apply bind_ok in H as (al & Hal & _). eapply X; [|exact Hal]. apply shaped_vmul; assumption.
Qed.

(** Two fields with masks and templates, made of N realisations of the sky maps [s1 k], [s2 k] whose correlations are given by the guess spectra:
    [f1 k], [f2 k] are cleaned of the templates, [u1 k], [u2 k] are not; [C k] and [D k] are their pseudo-spectra. *)
Definition ensemble K p a1 a2 t1 t2 N j (im1 im2 : nat -> list (imap F)) n1 n2 (f1 f2 u1 u2 : nat -> nfield F) (s1 s2 C D : nat -> mat) (pr : nat -> F) (same same' : bool) (guess : mat) (ni : Z) : Prop :=
  linear K /\ inv_sym np_inv /\ (j < N)%nat /\
  (forall k, (k < N)%nat -> length (im1 k) = n1 /\ length (im2 k) = n2) /\
  (forall k, (k < N)%nat -> rect_args (set_data a1 (im1 k) t1 false) /\ rect_args (set_data a2 (im2 k) t2 false)) /\
  (forall k, (k < N)%nat -> new K p (set_data a1 (im1 k) t1 false) = Ok (f1 k) /\ new K p (set_data a2 (im2 k) t2 false) = Ok (f2 k)) /\
  (forall k, (k < N)%nat -> new K p (set_data a1 (im1 k) TNone false) = Ok (u1 k) /\ new K p (set_data a2 (im2 k) TNone false) = Ok (u2 k)) /\
  (forall k, (k < N)%nat -> mapM (reform_map (f_info (f1 j))) (im1 k) = Ok (s1 k) /\ mapM (reform_map (f_info (f2 j))) (im2 k) = Ok (s2 k)) /\
  correlated K (f1 j) (f2 j) ni n1 n2 (fun m n => nth (m * n2 + n) guess []) N pr s1 s2 /\
  correlated K (f2 j) (f1 j) ni n2 n1 (fun n m => nth (m * n2 + n) guess []) N pr s2 s1 /\
  (forall k, (k < N)%nat -> compute_coupled_cell same (of_map (f1 k)) (of_map (f2 k)) = Ok (C k) /\ compute_coupled_cell same' (of_map (u1 k)) (of_map (u2 k)) = Ok (D k)).

(** C44: the expected pseudo-spectra of the cleaned fields are those of the uncleaned ones plus the bias *)
Theorem C44_bias K p a1 a2 t1 t2 N j im1 im2 n1 n2 (f1 f2 u1 u2 : nat -> nfield F) s1 s2 (C D : nat -> mat) (pr : nat -> F) same same' guess n_iter B :
  ensemble K p a1 a2 t1 t2 N j im1 im2 n1 n2 f1 f2 u1 u2 s1 s2 C D pr same same' guess (f_niter (f1 j)) ->
  f_mask_a (f1 j) = None -> f_mask_a (f2 j) = None ->
  opt n_iter (n_iter_default p) = f_niter (f1 j) -> f_niter (f2 j) = f_niter (f1 j) ->
  deprojection_bias K p (f1 j) (f2 j) guess n_iter = Ok B ->
  length B = (n1 * n2)%nat /\ forall c l, (c < n1 * n2)%nat -> (Z.of_nat l <= f_lmax (f1 j))%Z ->
    sum N (fun k => pr k * mg (C k) c l) = sum N (fun k => pr k * mg (D k) c l) + mg B c l.
Proof.
  intros (LK & IS & Hj & Ln & Rt & Hf & Hu & Hs & Cor1 & Cor2 & HC) Iso1 Iso2 Ni Ni2 HB.
  assert (Lite : f_lite (f1 j) = false /\ f_lite (f2 j) = false /\ is_compatible (f1 j) (f2 j) true = true).
  { unfold M_Cell.deprojection_bias in HB. cbv zeta in HB. destruct (is_compatible (f1 j) (f2 j) true) eqn:Ec; cbn [negb] in HB; [|discriminate HB]. destruct (negb (shape_is _ _ _)) in HB; [discriminate HB|]. destruct (f_lite (f1 j)), (f_lite (f2 j)); cbn [orb] in HB; try discriminate HB. auto. }
  destruct Lite as (Li1 & Li2 & Comp).
  destruct (family fourpi fsqrt eigh np_inv K p a1 t1 N im1 f1 u1 s1 j n1 LK IS Hj) as (h1 & sp1 & T01 & T1 & iM1 & A0 & A1 & A2 & A3 & (A4 & A5 & A6 & A7 & A8) & A9 & A10 & A11 & A12 & A13 & A14 & A15 & A16 & A17 & A18 & A19); [intros k Hk; apply (Ln k Hk) | intros k Hk; apply (Rt k Hk) | intros k Hk; apply (Hf k Hk) | intros k Hk; apply (Hu k Hk) | exact Li1 | exact Iso1 | intros k Hk; apply (Hs k Hk)|].
  destruct (family fourpi fsqrt eigh np_inv K p a2 t2 N im2 f2 u2 s2 j n2 LK IS Hj) as (h2 & sp2 & T02 & T2 & iM2 & B0 & B1 & B2 & B3 & (B4 & B5 & B6 & B7 & B8) & B9 & B10 & B11 & B12 & B13 & B14 & B15 & B16 & B17 & B18 & B19); [intros k Hk; apply (Ln k Hk) | intros k Hk; apply (Rt k Hk) | intros k Hk; apply (Hf k Hk) | intros k Hk; apply (Hu k Hk) | exact Li2 | exact Iso2 | intros k Hk; apply (Hs k Hk)|].
  assert (El : h_lmax h2 = h_lmax h1). { unfold is_compatible in Comp. destruct (_ && _)%bool in Comp; [discriminate Comp|]. destruct (negb (f_lmaxm _ =? _)%Z) in Comp; [discriminate Comp|]. destruct (f_lmax (f1 j) =? f_lmax (f2 j))%Z eqn:E; [|discriminate Comp]. apply Z.eqb_eq in E. congruence. }
  set (L := Z.to_nat (h_lmax h1)). assert (EL : h_lmax h1 = Z.of_nat L) by (unfold L; lia).
  assert (G1 : pad_geom (h_s h1)) by (destruct (A19 j Hj) as (x & y & _ & _ & _ & _ & S & _ & _ & E & _); eapply shape_geom; [exact A3 | exact A1 | exact A2 | exact S | exact E]).
  assert (G2 : pad_geom (h_s h2)) by (destruct (B19 j Hj) as (x & y & _ & _ & _ & _ & S & _ & _ & E & _); eapply shape_geom; [exact B3 | exact B1 | exact B2 | exact S | exact E]).
  set (nt1 := length T01) in *. set (nt2 := length T02) in *.
  set (x1 := fun k => otl (f_alm (f1 k))). set (y1 := fun k => otl (f_alm (u1 k))). set (x2 := fun k => otl (f_alm (f2 k))). set (y2 := fun k => otl (f_alm (u2 k))).
  set (P1 := fun k b => ip n1 (npix (h_s h1)) (pw (h_s h1)) (mg (map (vmul (h_mask h1)) (nth b T01 []))) (mg (map (vmul (h_mask h1)) (s1 k)))).
  set (P2 := fun k b => ip n2 (npix (h_s h2)) (pw (h_s h2)) (mg (map (vmul (h_mask h2)) (nth b T02 []))) (mg (map (vmul (h_mask h2)) (s2 k)))).
  assert (F1 : forall k, (k < N)%nat -> f_alm (f1 k) = Some (x1 k) /\ f_alm (u1 k) = Some (y1 k) /\ f_lmax (f1 k) = h_lmax h1 /\ f_lmax (u1 k) = h_lmax h1 /\ shaped n1 (npix (h_s h1)) (s1 k) /\ shaped n1 (n_alm (h_lmax h1)) (x1 k) /\ shaped n1 (n_alm (h_lmax h1)) (y1 k) /\ ana fsqrt K p a1 h1 sp1 (s1 k) = Ok (y1 k) /\ forall c q, mg (x1 k) c q = mg (y1 k) c q - sum nt1 (fun b => sum nt1 (fun d => mg iM1 b d * P1 k d) * mg (nth b T1 []) c q)).
  { intros k Hk. destruct (A19 k Hk) as (x & y & X1 & X2 & X3). unfold x1, y1. rewrite X1, X2. cbn [otl]. split; [reflexivity|]. split; [reflexivity|]. exact X3. }
  assert (F2 : forall k, (k < N)%nat -> f_alm (f2 k) = Some (x2 k) /\ f_alm (u2 k) = Some (y2 k) /\ f_lmax (f2 k) = h_lmax h2 /\ f_lmax (u2 k) = h_lmax h2 /\ shaped n2 (npix (h_s h2)) (s2 k) /\ shaped n2 (n_alm (h_lmax h2)) (x2 k) /\ shaped n2 (n_alm (h_lmax h2)) (y2 k) /\ ana fsqrt K p a2 h2 sp2 (s2 k) = Ok (y2 k) /\ forall c q, mg (x2 k) c q = mg (y2 k) c q - sum nt2 (fun b => sum nt2 (fun d => mg iM2 b d * P2 k d) * mg (nth b T2 []) c q)).
  { intros k Hk. destruct (B19 k Hk) as (x & y & X1 & X2 & X3). unfold x2, y2. rewrite X1, X2. cbn [otl]. split; [reflexivity|]. split; [reflexivity|]. exact X3. }
  clear A19 B19.
  assert (LT1 : length (otl (f_alm_temp (f1 j))) = nt1) by (rewrite A14; apply (mapM_length _ _ _ A16)). assert (LT2 : length (otl (f_alm_temp (f2 j))) = nt2) by (rewrite B14; apply (mapM_length _ _ _ B16)).
  unfold M_Cell.deprojection_bias in HB. cbv zeta in HB. rewrite Comp in HB. cbn [negb] in HB. rewrite A8, B8 in HB. destruct (negb (shape_is _ _ _)) in HB; [discriminate HB|]. rewrite Li1, Li2 in HB. cbn [orb] in HB. rewrite Ni in HB.
  apply bind_ok in HB as (pff & Epff & HB). apply bind_ok in HB as (gg & Egg & HB). apply bind_ok in HB as (pfg & Epfg & HB). rewrite A10, B10, A13, B13, A14, B14, A15, B15 in *. rewrite A6 in *.
  (* first term *)
  assert (Ff : forall b i k1 k2 l, (b < nt1)%nat -> (i < nt1)%nat -> (k1 < n1)%nat -> (k2 < n2)%nat -> (l <= L)%nat -> cub (at2 pff b i) k1 k2 l = spectrum L (nth k1 (nth i T1 []) []) (nth k2 (lc n2 (n_alm (h_lmax h2)) N (fun k => pr k * P1 k b) y2) []) l).
  { intros b i k1 k2 l Hb Hi Hk1 Hk2 Hl. destruct (Nat.ltb_spec 0 nt1) as [Hn|Hn]; [|lia]. assert (Hb' : (b < length (map (map (vmul (h_mask h1))) T01))%nat) by (rewrite map_length; exact Hb). pose proof (mapM_nth' _ _ _ [] [] b Epff Hb') as E. cbv beta in E. apply bind_ok in E as (z & Ez & E). apply bind_ok in E as (x & Ex & E).
    rewrite (nth_indep _ [] (map (vmul (h_mask h1)) [])) in Ez by exact Hb'. rewrite (map_nth (map (vmul (h_mask h1)))) in Ez.
    assert (Sb : shaped n1 (npix (h_s h1)) (nth b T01 [])) by (apply A12, nth_In, Hb).
    assert (Ez' : z = lc n2 (npix (h_s h2)) N (fun k => pr k * P1 k b) s2).
    { rewrite (filtered_is K (f1 j) (f2 j) (f_niter (f1 j)) n1 n2 (fun m n => nth (m * n2 + n) guess []) N pr s1 s2 (map (vmul (h_mask h1)) (nth b T01 [])) z LK).
      - rewrite A4, A5, B4. apply (mat_eq_mg n2 (npix (h_s h2))); try apply lc_shaped. intros c q Hc Hq. rewrite !mg_lc by assumption. apply sum_ext. intros k Hk. do 2 f_equal. unfold P1. symmetry. apply prod_pix; [exact A1 | exact Sb | apply (F1 k Hk)].
      - rewrite A6, B6. symmetry; exact El. - rewrite A4, A5. exact A1. - rewrite A4. apply shaped_vmul; assumption. - rewrite B4. exact G2. - exact Cor1.
      - rewrite A13. apply in_map, nth_In, Hb. - exact Ez. - intros k Hk. rewrite B4. apply (F2 k Hk). }
    rewrite <- Ni2, B9, Ez' in Ex. destruct (ana_lc fsqrt K p a2 h2 sp2 n2 N (fun k => pr k * P1 k b) s2 y2 LK (Nat.le_lt_trans _ _ _ (Nat.le_0_l j) Hj) B1 B2) as [Ey _]; [intros k Hk; apply (F2 k Hk) | intros k Hk; apply (F2 k Hk)|]. rewrite Ey in Ex. injection Ex as <-.
    rewrite EL in E. assert (Hi' : (i < length T1)%nat) by (rewrite (mapM_length _ _ _ A16); exact Hi). pose proof (mapM_nth' _ _ _ [] [] i E Hi') as E'. unfold at2. eapply cross_value; [exact E' | | | exact Hl].
    - rewrite (proj1 (A18 i Hi)). exact Hk1. - unfold lc. rewrite length_tab. exact Hk2. }
  (* second term and products *)
  assert (Gg : forall b i k1 k2 l, (b < nt2)%nat -> (i < nt2)%nat -> (k1 < n1)%nat -> (k2 < n2)%nat -> (l <= L)%nat -> cub (at2 (map snd gg) b i) k1 k2 l = spectrum L (nth k1 (lc n1 (n_alm (h_lmax h1)) N (fun k => pr k * P2 k b) y1) []) (nth k2 (nth i T2 []) []) l).
  { intros b i k1 k2 l Hb Hi Hk1 Hk2 Hl. destruct (Nat.ltb_spec 0 nt2) as [Hn|Hn]; [|lia]. assert (Hb' : (b < length (map (map (vmul (h_mask h2))) T02))%nat) by (rewrite map_length; exact Hb). pose proof (mapM_nth' _ _ _ [] ([], []) b Egg Hb') as E. cbv beta in E. apply bind_ok in E as (z & Ez & E). apply bind_ok in E as (pp & Epp & E). apply bind_ok in E as (x & Ex & E). apply bind_ok in E as (c & Ec & E). injection E as E.
    rewrite (nth_indep _ [] (map (vmul (h_mask h2)) [])) in Ez by exact Hb'. rewrite (map_nth (map (vmul (h_mask h2)))) in Ez.
    assert (Sb : shaped n2 (npix (h_s h2)) (nth b T02 [])) by (apply B12, nth_In, Hb).
    assert (Ez' : z = lc n1 (npix (h_s h1)) N (fun k => pr k * P2 k b) s1).
    { rewrite (filtered_is K (f2 j) (f1 j) (f_niter (f1 j)) n2 n1 (fun n m => nth (m * n2 + n) guess []) N pr s2 s1 (map (vmul (h_mask h2)) (nth b T02 [])) z LK).
      - rewrite B4, B5, A4. apply (mat_eq_mg n1 (npix (h_s h1))); try apply lc_shaped. intros d q Hc Hq. rewrite !mg_lc by assumption. apply sum_ext. intros k Hk. do 2 f_equal. unfold P2. symmetry. apply prod_pix; [exact B1 | exact Sb | apply (F2 k Hk)].
      - rewrite A6, B6. exact El. - rewrite B4, B5. exact B1. - rewrite B4. apply shaped_vmul; assumption. - rewrite A4. exact G1. - exact Cor2.
      - rewrite B13. apply in_map, nth_In, Hb. - exact Ez. - intros k Hk. rewrite A4. apply (F1 k Hk). }
    rewrite A9, Ez' in Ex. destruct (ana_lc fsqrt K p a1 h1 sp1 n1 N (fun k => pr k * P2 k b) s1 y1 LK (Nat.le_lt_trans _ _ _ (Nat.le_0_l j) Hj) A1 A2) as [Ey _]; [intros k Hk; apply (F1 k Hk) | intros k Hk; apply (F1 k Hk)|]. rewrite Ey in Ex. injection Ex as <-.
    rewrite EL in Ec. assert (Hi' : (i < length T2)%nat) by (rewrite (mapM_length _ _ _ B16); exact Hi). pose proof (mapM_nth' _ _ _ [] [] i Ec Hi') as E'. unfold at2. rewrite (nth_indep _ [] (snd ([] : list F, [] : list (list mat)))) by (rewrite map_length, (mapM_length _ _ _ Egg); exact Hb'). rewrite (map_nth snd), <- E. cbn [snd]. eapply cross_value; [rewrite EL; exact E' | | | exact Hl].
    - unfold lc. rewrite length_tab. exact Hk1. - rewrite (proj1 (B18 i Hi)). exact Hk2. }
  assert (Pd : forall b d, (b < nt1)%nat -> (d < nt2)%nat -> nth b (nth d (map fst gg) []) 0 = sum N (fun k => pr k * P2 k d * P1 k b)).
  { intros i b Hi Hb. destruct (Nat.ltb_spec 0 nt2) as [Hn|Hn]; [|lia]. destruct (Nat.ltb_spec 0 nt1) as [Hn1|Hn1]; [|lia]. assert (Hb' : (b < length (map (map (vmul (h_mask h2))) T02))%nat) by (rewrite map_length; exact Hb). pose proof (mapM_nth' _ _ _ [] ([], []) b Egg Hb') as E. cbv beta in E. apply bind_ok in E as (z & Ez & E). apply bind_ok in E as (pp & Epp & E). apply bind_ok in E as (x & Ex & E). apply bind_ok in E as (c & Ec & E). injection E as E.
    rewrite (nth_indep _ [] (map (vmul (h_mask h2)) [])) in Ez by exact Hb'. rewrite (map_nth (map (vmul (h_mask h2)))) in Ez.
    assert (Sb : shaped n2 (npix (h_s h2)) (nth b T02 [])) by (apply B12, nth_In, Hb).
    assert (Ez' : z = lc n1 (npix (h_s h1)) N (fun k => pr k * P2 k b) s1).
    { rewrite (filtered_is K (f2 j) (f1 j) (f_niter (f1 j)) n2 n1 (fun n m => nth (m * n2 + n) guess []) N pr s2 s1 (map (vmul (h_mask h2)) (nth b T02 [])) z LK).
      - rewrite B4, B5, A4. apply (mat_eq_mg n1 (npix (h_s h1))); try apply lc_shaped. intros d q Hc Hq. rewrite !mg_lc by assumption. apply sum_ext. intros k Hk. do 2 f_equal. unfold P2. symmetry. apply prod_pix; [exact B1 | exact Sb | apply (F2 k Hk)].
      - rewrite A6, B6. exact El. - rewrite B4, B5. exact B1. - rewrite B4. apply shaped_vmul; assumption. - rewrite A4. exact G1. - exact Cor2.
      - rewrite B13. apply in_map, nth_In, Hb. - exact Ez. - intros k Hk. rewrite A4. apply (F1 k Hk). }
    rewrite (nth_indep _ [] (fst ([] : list F, [] : list (list mat)))) by (rewrite map_length, (mapM_length _ _ _ Egg); exact Hb'). rewrite (map_nth fst), <- E. cbn [fst]. assert (Hi' : (i < length (map (map (vmul (h_mask h1))) T01))%nat) by (rewrite map_length; exact Hi). pose proof (mapM_nth' _ _ _ [] 0 i Epp Hi') as E'. cbv beta in E'.
    rewrite (nth_indep _ [] (map (vmul (h_mask h1)) [])) in E' by exact Hi'. rewrite (map_nth (map (vmul (h_mask h1)))) in E'. rewrite map_vmul_comm in E'. rewrite A4, A5 in E'.
    assert (Sz : shaped n1 (npix (h_s h1)) z) by (rewrite Ez'; apply lc_shaped). rewrite (dot_map_eq (h_s h1) n1) in E'; [|apply shaped_vmul; [exact A1 | apply A12, nth_In, Hi] | apply shaped_vmul; assumption | apply A11; exact Hn1]. injection E' as E'. rewrite <- E'.
    rewrite (ip_ext n1 (npix (h_s h1)) (pw (h_s h1)) _ _ (mg (map (vmul (h_mask h1)) (nth i T01 []))) (fun c q => sum N (fun k => (pr k * P2 k b) * mg (map (vmul (h_mask h1)) (s1 k)) c q)) (fun _ _ _ _ => eq_refl)).
    2:{ intros c' q Hc Hq. rewrite (mg_vmul n1 (npix (h_s h1))) by assumption. rewrite Ez', mg_lc by assumption. rewrite <- sum_mul_l. apply sum_ext. intros k Hk. rewrite (mg_vmul n1 (npix (h_s h1))) by (try assumption; apply (F1 k Hk)). ring. }
    rewrite (ip_lin_r n1 (npix (h_s h1)) (pw (h_s h1)) _ N (fun k => pr k * P2 k b) (fun k => mg (map (vmul (h_mask h1)) (s1 k)))). reflexivity. }
  assert (Fg : forall i s k1 k2 l, (i < nt1)%nat -> (s < nt2)%nat -> (k1 < n1)%nat -> (k2 < n2)%nat -> (l <= L)%nat -> cub (at2 pfg i s) k1 k2 l = spectrum L (nth k1 (nth i T1 []) []) (nth k2 (nth s T2 []) []) l).
  { intros i s k1 k2 l Hi Hs' Hk1 Hk2 Hl. destruct (Nat.ltb_spec 0 nt2) as [Hn|Hn]; [|lia]. destruct (Nat.ltb_spec 0 nt1) as [Hn1|Hn1]; [|lia]. cbn [andb] in Epfg. rewrite EL in Epfg. assert (Hi' : (i < length T1)%nat) by (rewrite (mapM_length _ _ _ A16); exact Hi). pose proof (mapM_nth' _ _ _ [] [] i Epfg Hi') as E. cbv beta in E. assert (Hs2 : (s < length T2)%nat) by (rewrite (mapM_length _ _ _ B16); exact Hs'). pose proof (mapM_nth' _ _ _ [] [] s E Hs2) as E'. unfold at2. eapply cross_value; [exact E' | | | exact Hl].
    - rewrite (proj1 (A18 i Hi)). exact Hk1. - rewrite (proj1 (B18 s Hs')). exact Hk2. }
  injection HB as <-.
  assert (Shp : forall g : nat -> nat -> nat -> F, shaped n1 n2 (tab n1 (fun k => tab n2 (fun l => tab (Z.to_nat (h_lmax h1 + 1)) (g k l))))).
  { intro g. split; [apply length_tab|]. apply Forall_forall. intros r Hr. apply (In_nth _ _ []) in Hr as (i & Hi & <-). rewrite length_tab in Hi. rewrite nth_tab by exact Hi. apply length_tab. }
  split; [unfold spectra; apply length_concat; apply Shp|]. intros c l Hc Hl. assert (Hl' : (l <= L)%nat) by lia.
  assert (Hn2 : n2 <> 0%nat) by lia. set (c1 := (c / n2)%nat). set (c2 := (c mod n2)%nat). assert (Ec : c = (c1 * n2 + c2)%nat) by (unfold c1, c2; rewrite Nat.mul_comm; apply Nat.div_mod; exact Hn2). assert (Hc2 : (c2 < n2)%nat) by (apply Nat.mod_upper_bound; exact Hn2). assert (Hc1 : (c1 < n1)%nat) by (apply Nat.div_lt_upper_bound; lia).
  rewrite Ec. unfold mg at 3. unfold spectra. rewrite (nth_concat n1 n2) by (try apply Shp; assumption). rewrite nth_tab by exact Hc1. rewrite nth_tab by exact Hc2. rewrite nth_tab by lia.
  rewrite (sum_ext N (fun k => pr k * mg (C k) (c1 * n2 + c2) l) (fun k => pr k * spectrum L (nth c1 (x1 k) []) (nth c2 (x2 k) []) l)).
  2:{ intros k Hk. destruct (HC k Hk) as [HCk _]. destruct (F1 k Hk) as (X1 & X2 & X3 & X4 & X5 & X6 & X7 & X8 & X9). destruct (F2 k Hk) as (Y1 & Y2 & Y3 & Y4 & Y5 & Y6 & Y7 & Y8 & Y9).
      destruct (C43_order same (of_map (f1 k)) (of_map (f2 k)) (C k) (x1 k) (x2 k) L HCk X1 Y1) as [_ V]; [cbn [of_map g_lmax]; rewrite X3; exact EL|]. rewrite (proj1 X6), (proj1 Y6) in V. destruct (V c1 c2 l Hc1 Hc2 Hl') as [_ V']. unfold mg. rewrite V'. change (g_Nf (of_map (f1 k))) with (0 : F). destruct (same && Nat.eqb c1 c2)%bool; ring. }
  rewrite (sum_ext N (fun k => pr k * mg (D k) (c1 * n2 + c2) l) (fun k => pr k * spectrum L (nth c1 (y1 k) []) (nth c2 (y2 k) []) l)).
  2:{ intros k Hk. destruct (HC k Hk) as [_ HDk]. destruct (F1 k Hk) as (X1 & X2 & X3 & X4 & X5 & X6 & X7 & X8 & X9). destruct (F2 k Hk) as (Y1 & Y2 & Y3 & Y4 & Y5 & Y6 & Y7 & Y8 & Y9).
      destruct (C43_order same' (of_map (u1 k)) (of_map (u2 k)) (D k) (y1 k) (y2 k) L HDk X2 Y2) as [_ V]; [cbn [of_map g_lmax]; rewrite X4; exact EL|]. rewrite (proj1 X7), (proj1 Y7) in V. destruct (V c1 c2 l Hc1 Hc2 Hl') as [_ V']. unfold mg. rewrite V'. change (g_Nf (of_map (u1 k))) with (0 : F). destruct (same' && Nat.eqb c1 c2)%bool; ring. }
  rewrite (bias_algebra L l N nt1 nt2 pr (fun k => nth c1 (x1 k) []) (fun k => nth c1 (y1 k) []) (fun k => nth c2 (x2 k) []) (fun k => nth c2 (y2 k) []) (fun i => nth c1 (nth i T1 []) []) (fun i => nth c2 (nth i T2 []) [])
    (fun b => nth c2 (lc n2 (n_alm (h_lmax h2)) N (fun k => pr k * P1 k b) y2) []) (fun b => nth c1 (lc n1 (n_alm (h_lmax h1)) N (fun k => pr k * P2 k b) y1) []) iM1 iM2 P1 P2 (fun j r => nth j (nth r (map fst gg) []) 0)).
  - f_equal. f_equal; [f_equal; [f_equal|]|].
    + apply sum_ext. intros i Hi. apply sum_ext. intros b Hb. rewrite Ff by assumption. reflexivity.
    + apply sum_ext. intros i Hi. apply sum_ext. intros b Hb. rewrite Gg by assumption. reflexivity.
    + destruct (Nat.ltb_spec 0 nt1) as [Hn1|Hn1]; cbn [andb].
      * destruct (Nat.ltb_spec 0 nt2) as [Hn2'|Hn2'].
        -- apply sum_ext. intros i Hi. apply sum_ext. intros b Hb. apply sum_ext. intros r Hr. apply sum_ext. intros s Hs'. rewrite Fg by assumption. reflexivity.
        -- apply sum_zero. intros i _. apply sum_zero. intros b _. apply sum_zero. intros r Hr. lia.
      * apply sum_zero. intros i Hi. lia.
  - intros k q Hk. apply (F1 k Hk).
  - intros k q Hk. apply (F2 k Hk).
  - intros b q Hb. rewrite mg_nth, mg_lc_all by (intros k Hk; apply (F2 k Hk)). reflexivity.
  - intros b q Hb. rewrite mg_nth, mg_lc_all by (intros k Hk; apply (F1 k Hk)). reflexivity.
  - exact Pd.
  - exact B17.
Qed.
End PBias.
