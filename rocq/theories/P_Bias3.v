(** C45: the deprojection bias of uncorrelated noise. *)
From Verif Require Import Base M_Utils L_Utils M_Field L_Field L_Field2 P_Utils P_Field P_Field2 P_Field5 P_Field6 M_Cell L_Cell P_Cell L_Lin L_Lin2 L_Bias L_Bias2 P_Bias.
Section PBias3.
Context {F : ofield}.
Local Open Scope F_scope.
Add Field FfPBi3 : (fth F).
Notation mat := (list (list F)).
Variable fourpi : F.
Variable fsqrt : F -> F.
Variable eigh : mat -> list F * mat.
Variable np_inv : mat -> res mat.
Notation new := (field_new fourpi fsqrt eigh np_inv).

(** The maps [s k] (weight [pr k]) are white noise with variance [sg] in one steradian: the expectation of <h, s> s is sg h, for h = v t with t a template. *)
Definition white (f : nfield F) (n N : nat) (pr : nat -> F) (s : nat -> mat) (sg : list F) : Prop :=
  forall t c q, In t (otl (f_temp f)) -> (c < n)%nat -> (q < npix (f_info f))%nat ->
    sum N (fun k => pr k * sum n (fun m => sum (npix (f_info f)) (fun i => nth i (f_mask f) 0 * mg t m i * mg (s k) m i * pw (f_info f) i)) * mg (s k) c q) = nth q sg 0 * (nth q (f_mask f) 0 * mg t c q).
(** pixels are stored in the order of the input *)
Definition unflipped (s : minfo F) : bool := match s with Hpx _ _ => true | Car _ _ _ fth fph _ => negb fth && negb fph end.
(** fields made of noise maps, cleaned ([f k]) and not ([u k]), and their auto-spectra *)
Definition noise_ensemble K p a t N j (im : nat -> list (imap F)) n (f u : nat -> nfield F) (s C D : nat -> mat) (pr : nat -> F) (same same' : bool) (mv : imap F) (sg : list F) : Prop :=
  linear K /\ inv_sym np_inv /\ (j < N)%nat /\ rect mv /\
  (forall k, (k < N)%nat -> length (im k) = n) /\
  (forall k, (k < N)%nat -> rect_args (set_data a (im k) t false)) /\
  (forall k, (k < N)%nat -> new K p (set_data a (im k) t false) = Ok (f k)) /\
  (forall k, (k < N)%nat -> new K p (set_data a (im k) TNone false) = Ok (u k)) /\
  (forall k, (k < N)%nat -> mapM (reform_map (f_info (f j))) (im k) = Ok (s k)) /\
  reform_map (f_info (f j)) mv = Ok sg /\ white (f j) n N pr s sg /\
  (forall k, (k < N)%nat -> compute_coupled_cell same (of_map (f k)) (of_map (f k)) = Ok (C k) /\ compute_coupled_cell same' (of_map (u k)) (of_map (u k)) = Ok (D k)).

Lemma reform_ivals s (mv : imap F) sg : unflipped s = true -> reform_map s mv = Ok sg -> ivals mv = sg.
Proof.
  intros U H. destruct s as [n w|ny nx nf f1 f2 wts]; destruct mv as [v|k rows]; cbn [reform_map] in H.
  - destruct (_ =? _)%Z in H; [injection H as <-; reflexivity | discriminate H].
  - try discriminate H. - try discriminate H.
  - cbn [unflipped] in U. destruct f1, f2; cbn in U; try discriminate U. destruct (_ && _)%bool in H; [|discriminate H]. cbv zeta in H. injection H as <-. reflexivity.
Qed.
(** C45: without purification, the bias symmetrised over the two components is right; so is that of the auto-spectra of components *)
Theorem C45_bias K p a t N j im n (f u : nat -> nfield F) s (C D : nat -> mat) (pr : nat -> F) same same' mv sg n_iter B :
  noise_ensemble K p a t N j im n f u s C D pr same same' mv sg -> f_mask_a (f j) = None -> f_pe (f j) = false -> f_pb (f j) = false -> unflipped (f_info (f j)) = true ->
  opt n_iter (n_iter_default p) = f_niter (f j) -> uncorr_noise_deprojection_bias K p (f j) mv n_iter = Ok B ->
  length B = (n * n)%nat /\ forall c1 c2 l, (c1 < n)%nat -> (c2 < n)%nat -> (Z.of_nat l <= f_lmax (f j))%Z ->
    (sum N (fun k => pr k * mg (C k) (c1 * n + c2) l) + sum N (fun k => pr k * mg (C k) (c2 * n + c1) l) =
     sum N (fun k => pr k * mg (D k) (c1 * n + c2) l) + sum N (fun k => pr k * mg (D k) (c2 * n + c1) l) + (mg B (c1 * n + c2) l + mg B (c2 * n + c1) l)) /\
    (c1 = c2 -> sum N (fun k => pr k * mg (C k) (c1 * n + c1) l) = sum N (fun k => pr k * mg (D k) (c1 * n + c1) l) + mg B (c1 * n + c1) l).
Proof.
  intros (LK & IS & Hj & Rmv & Ln & Rt & Hf & Hu & Hs & Hsg & Wh & HC) Iso Pe Pb Uf Ni HB.
  assert (Li : f_lite (f j) = false) by (unfold uncorr_noise_deprojection_bias in HB; destruct (f_lite (f j)); [discriminate HB | reflexivity]).
  destruct (family fourpi fsqrt eigh np_inv K p a t N im f u s j n LK IS Hj Ln Rt Hf Hu Li Iso Hs) as (h & sp & T0 & T & iM & A0 & A1 & A2 & A3 & (A4 & A5 & A6 & A7 & A8) & A9 & A10 & A11 & A12 & A13 & A14 & A15 & A16 & A17 & A18 & A19).
  set (L := Z.to_nat (h_lmax h)). assert (EL : h_lmax h = Z.of_nat L) by (unfold L; lia).
  set (nt := length T0) in *. set (x := fun k => otl (f_alm (f k))). set (y := fun k => otl (f_alm (u k))).
  set (P := fun k b => ip n (npix (h_s h)) (pw (h_s h)) (mg (map (vmul (h_mask h)) (nth b T0 []))) (mg (map (vmul (h_mask h)) (s k)))).
  assert (F1 : forall k, (k < N)%nat -> f_alm (f k) = Some (x k) /\ f_alm (u k) = Some (y k) /\ f_lmax (f k) = h_lmax h /\ f_lmax (u k) = h_lmax h /\ shaped n (npix (h_s h)) (s k) /\ shaped n (n_alm (h_lmax h)) (x k) /\ shaped n (n_alm (h_lmax h)) (y k) /\ ana fsqrt K p a h sp (s k) = Ok (y k) /\ forall c q, mg (x k) c q = mg (y k) c q - sum nt (fun b => sum nt (fun d => mg iM b d * P k d) * mg (nth b T []) c q)).
  { intros k Hk. destruct (A19 k Hk) as (x' & y' & X1 & X2 & X3). unfold x, y. rewrite X1, X2. cbn [otl]. split; [reflexivity|]. split; [reflexivity|]. exact X3. }
  clear A19. assert (LT : length T = nt) by (apply (mapM_length _ _ _ A16)).
  assert (Lsg : length sg = npix (h_s h)) by (rewrite <- A4; eapply length_reform; [exact Rmv | exact Hsg]).
  pose proof (reform_ivals _ _ _ Uf Hsg) as Iv.
  (* the noise response of a template *)
  set (z := fun b => tab n (fun c => tab (npix (h_s h)) (fun q => nth q sg 0 * (nth q (h_mask h) 0 * mg (map (vmul (h_mask h)) (nth b T0 [])) c q)))).
  assert (Sz : forall b, shaped n (npix (h_s h)) (z b)) by (intro b; apply shaped_tab2).
  assert (St : forall b, (b < nt)%nat -> shaped n (npix (h_s h)) (nth b T0 [])) by (intros b Hb; apply A12, nth_In, Hb).
  assert (Nt : forall b, (b < nt)%nat -> nth b (map (map (vmul (h_mask h))) T0) [] = map (vmul (h_mask h)) (nth b T0 [])) by (intros b Hb; rewrite (nth_indep _ [] (map (vmul (h_mask h)) [])) by (rewrite map_length; exact Hb); apply map_nth).
  assert (Ez : forall b, (b < nt)%nat -> z b = lc n (npix (h_s h)) N (fun k => pr k * P k b) s).
  { intros b Hb. apply (mat_eq_mg n (npix (h_s h))); [apply Sz | apply lc_shaped|]. intros c q Hc Hq. rewrite mg_lc by assumption. unfold z. rewrite mg_tab by assumption.
    assert (It : In (map (vmul (h_mask h)) (nth b T0 [])) (otl (f_temp (f j)))) by (rewrite A13; apply in_map, nth_In, Hb). rewrite <- A4 in Hq. pose proof (Wh _ c q It Hc Hq) as W. rewrite A4, A5 in W. rewrite <- W. apply sum_ext. intros k Hk. do 2 f_equal. unfold P. symmetry. apply prod_pix; [exact A1 | apply St; exact Hb | apply (F1 k Hk)]. }
  set (wt := zipw (fun m s => m * m * s) (h_mask h) sg).
  assert (Lw : length wt = npix (h_s h)) by (unfold wt; rewrite length_zipw, A1, Lsg; apply Nat.min_id).
  assert (Ewz : forall b, (b < nt)%nat -> map (fun r => vmul r wt) (map (vmul (h_mask h)) (nth b T0 [])) = map (vmul (h_mask h)) (z b)).
  { intros b Hb. rewrite map_vmul_comm. pose proof (shaped_vmul _ _ _ _ A1 (St b Hb)) as Sv. apply (mat_eq_mg n (npix (h_s h))); [apply shaped_vmul; assumption | apply shaped_vmul; [exact A1 | apply Sz]|]. intros c q Hc Hq. rewrite (mg_vmul n (npix (h_s h)) wt) by assumption. rewrite (mg_vmul n (npix (h_s h)) (h_mask h) (z b)) by (try assumption; apply Sz). unfold z. rewrite mg_tab by assumption.
    unfold wt. rewrite (nth_zipw (fun m s => m * m * s) (h_mask h) sg q 0 0 0) by (rewrite ?A1, ?Lsg; exact Hq). ring. }
  assert (NP : pure a = false). { destruct (new_static _ _ _ _ _ _ _ _ (Hf j Hj)) as (h' & Eh' & _). pose proof (Hf j Hj) as H. rewrite new_staged in H. unfold staged in H. apply bind_ok in H as (h2 & Eh2 & H). change (a_maps (set_data a (im j) t false)) with (Some (im j)) in H. apply bind_ok in H as ([[spin' maps'] temps'] & Eb & H). apply bind_ok in H as ([[[m' mu'] iM'] als'] & Ec & H).
    unfold alms_of in H. cbv zeta in H. unfold pure in *. change (a_pe (set_data a (im j) t false)) with (a_pe a) in H. change (a_pb (set_data a (im j) t false)) with (a_pb a) in H. destruct (a_pe a || a_pb a)%bool eqn:E; [|reflexivity]. apply bind_ok in H as (am & Eam & H). apply bind_ok in H as ([alm pm] & Ep & H). apply bind_ok in H as (alt & Ealt & H). injection H as H. rewrite <- H in Pe, Pb. cbn [field_of f_pe f_pb] in Pe, Pb. change (a_pe (set_data a (im j) t false)) with (a_pe a) in Pe. change (a_pb (set_data a (im j) t false)) with (a_pb a) in Pb. rewrite Pe, Pb in E. discriminate E. }
  assert (HN : (0 < N)%nat) by lia.
  assert (Anz : forall b, (b < nt)%nat -> ana fsqrt K p a h sp (z b) = Ok (lc n (n_alm (h_lmax h)) N (fun k => pr k * P k b) y)).
  { intros b Hb. rewrite (Ez b Hb). apply ana_lc; [exact LK | exact HN | exact A1 | exact A2 | intros k Hk; apply (F1 k Hk) | intros k Hk; apply (F1 k Hk)]. }
  set (X := fun b => lc n (n_alm (h_lmax h)) N (fun k => pr k * P k b) y).
  set (pd := fun b d => sum N (fun k => pr k * P k d * P k b)).
  (* entries of the result *)
  assert (Ent : length B = (n * n)%nat /\ forall c1 c2 l, (c1 < n)%nat -> (c2 < n)%nat -> (l <= L)%nat -> mg B (c1 * n + c2) l = 0 - fofZ 2 * sum nt (fun i => sum nt (fun b => mg iM i b * spectrum L (nth c2 (nth i T []) []) (nth c1 (X b) []) l)) +
      sum nt (fun i => sum nt (fun b => sum nt (fun r => sum nt (fun s => mg iM i b * mg iM r s * pd b r * spectrum L (nth c1 (nth i T []) []) (nth c2 (nth s T []) []) l))))).
  { assert (Shp : forall g : nat -> nat -> nat -> F, shaped n n (tab n (fun k => tab n (fun l => tab (Z.to_nat (h_lmax h + 1)) (g k l))))).
    { intro g. split; [apply length_tab|]. apply Forall_forall. intros r Hr. apply (In_nth _ _ []) in Hr as (i & Hi & <-). rewrite length_tab in Hi. rewrite nth_tab by exact Hi. apply length_tab. }
    unfold uncorr_noise_deprojection_bias in HB. cbv zeta in HB. rewrite Li, Iv, Ni, A8, A10, A13, A14, A15, A6, A5 in HB. destruct (negb (Nat.eqb _ _)) in HB; [discriminate HB|]. fold wt in HB.
    destruct (Nat.eqb_spec nt 0) as [Z0|Z0].
    - injection HB as <-. split; [unfold spectra; apply length_concat; apply Shp|]. intros c1 c2 l Hc1 Hc2 Hl. unfold mg at 1. unfold spectra. rewrite (nth_concat n n) by (try apply (Shp (fun _ _ _ => 0)); assumption). rewrite nth_tab by exact Hc1. rewrite nth_tab by exact Hc2. rewrite nth_tab by lia. rewrite Z0. cbn [sum]. ring.
    - apply bind_ok in HB as (p1 & E1 & HB). apply bind_ok in HB as (p2 & E2 & HB). apply bind_ok in HB as (prd & E3 & HB). injection HB as <-. split; [unfold spectra; apply length_concat; apply Shp|]. intros c1 c2 l Hc1 Hc2 Hl. unfold mg at 1. unfold spectra. rewrite (nth_concat n n) by (try apply Shp; assumption). rewrite nth_tab by exact Hc1. rewrite nth_tab by exact Hc2. rewrite nth_tab by lia.
      f_equal; [f_equal; f_equal|].
      + apply sum_ext. intros i Hi. apply sum_ext. intros b Hb. f_equal. assert (Hb' : (b < length (map (map (vmul (h_mask h))) T0))%nat) by (rewrite map_length; exact Hb). pose proof (mapM_nth' _ _ _ [] [] b E1 Hb') as E. cbv beta in E. apply bind_ok in E as (xx & Ex & E). rewrite (Nt b Hb), (Ewz b Hb) in Ex.
        assert (Exx : xx = X b). { pose proof (Anz b Hb) as An. unfold ana in An. cbv zeta in An. rewrite NP in An. rewrite A4, A7 in Ex. assert (f_niter (f j) = opt (a_niter a) (n_iter_default p)) as EN by (destruct (field_facts fourpi fsqrt eigh np_inv K p _ (im j) (f j) (Rt j Hj) eq_refl eq_refl Li Iso (Hf j Hj)) as (? & ? & ? & ? & _ & _ & _ & _ & _ & _ & _ & _ & _ & _ & _ & _ & _ & _ & G7 & _); exact G7). rewrite EN, An in Ex. injection Ex as <-. reflexivity. }
        subst xx. assert (Hi' : (i < length T)%nat) by lia. pose proof (mapM_nth' _ _ _ [] [] i E Hi') as E'. cbv beta in E'. assert (LX : length (X b) = n) by (unfold X, lc; apply length_tab). assert (Hc1' : (c1 < length (X b))%nat) by lia. pose proof (mapM_nth' _ _ _ [] [] c1 E' Hc1') as E''. cbv beta in E''. assert (Hc2' : (c2 < length (nth i T []))%nat) by (rewrite (proj1 (A18 i Hi)); exact Hc2). pose proof (mapM_nth' _ _ _ [] [] c2 E'' Hc2') as E4. rewrite EL in E4. apply alm2cl_spectrum in E4 as [_ E4]. unfold cub, at2. apply E4. exact Hl.
      + apply sum_ext. intros i Hi. apply sum_ext. intros b Hb. apply sum_ext. intros r Hr. apply sum_ext. intros s' Hs'. f_equal.
        * f_equal. assert (Hb' : (b < length (map (map (vmul (h_mask h))) T0))%nat) by (rewrite map_length; exact Hb). assert (Hr' : (r < length (map (map (vmul (h_mask h))) T0))%nat) by (rewrite map_length; exact Hr). pose proof (mapM_nth' _ _ _ [] [] b E3 Hb') as E. cbv beta in E. pose proof (mapM_nth' _ _ _ [] 0 r E Hr') as E'. cbv beta in E'. rewrite (Nt b Hb), (Nt r Hr), (Ewz r Hr), A4 in E'.
          rewrite (dot_map_eq (h_s h) n) in E'; [|apply shaped_vmul; [exact A1 | apply St; exact Hb] | apply shaped_vmul; [exact A1 | apply Sz] | apply A11; lia]. injection E' as E'. change (mg prd b r) with (nth r (nth b prd []) 0). rewrite <- E'. unfold pd.
          rewrite (ip_ext n (npix (h_s h)) (pw (h_s h)) _ _ (mg (map (vmul (h_mask h)) (nth b T0 []))) (fun c q => sum N (fun k => (pr k * P k r) * mg (map (vmul (h_mask h)) (s k)) c q)) (fun _ _ _ _ => eq_refl)).
          2:{ intros c' q Hc Hq. rewrite (mg_vmul n (npix (h_s h))) by (try assumption; apply Sz). rewrite (Ez r Hr), mg_lc by assumption. rewrite <- sum_mul_l. apply sum_ext. intros k Hk. rewrite (mg_vmul n (npix (h_s h))) by (try assumption; apply (F1 k Hk)). ring. }
          rewrite (ip_lin_r n (npix (h_s h)) (pw (h_s h)) _ N (fun k => pr k * P k r) (fun k => mg (map (vmul (h_mask h)) (s k)))). reflexivity.
        * rewrite EL in E2. assert (Hi' : (i < length T)%nat) by lia. pose proof (mapM_nth' _ _ _ [] [] i E2 Hi') as E. cbv beta in E. assert (Hs2 : (s' < length T)%nat) by lia. pose proof (mapM_nth' _ _ _ [] [] s' E Hs2) as E'. unfold at2. eapply cross_value; [exact E' | | | exact Hl]. rewrite (proj1 (A18 i Hi)). exact Hc1. rewrite (proj1 (A18 s' Hs')). exact Hc2. }
  destruct Ent as [LB Ent]. split; [exact LB|].
  (* expectations *)
  assert (Ex : forall c1 c2 l, (c1 < n)%nat -> (c2 < n)%nat -> (l <= L)%nat -> sum N (fun k => pr k * mg (C k) (c1 * n + c2) l) = sum N (fun k => pr k * mg (D k) (c1 * n + c2) l) +
     (0 - sum nt (fun i => sum nt (fun b => mg iM i b * spectrum L (nth c1 (nth i T []) []) (nth c2 (X b) []) l)) - sum nt (fun i => sum nt (fun b => mg iM i b * spectrum L (nth c1 (X b) []) (nth c2 (nth i T []) []) l))
      + sum nt (fun i => sum nt (fun b => sum nt (fun r => sum nt (fun s => mg iM i b * mg iM r s * pd b r * spectrum L (nth c1 (nth i T []) []) (nth c2 (nth s T []) []) l)))))).
  { intros c1 c2 l Hc1 Hc2 Hl.
    rewrite (sum_ext N (fun k => pr k * mg (C k) (c1 * n + c2) l) (fun k => pr k * spectrum L (nth c1 (x k) []) (nth c2 (x k) []) l)).
    2:{ intros k Hk. destruct (HC k Hk) as [HCk _]. destruct (F1 k Hk) as (X1 & X2 & X3 & X4 & X5 & X6 & X7 & X8 & X9).
        destruct (C43_order same (of_map (f k)) (of_map (f k)) (C k) (x k) (x k) L HCk X1 X1) as [_ V]; [cbn [of_map g_lmax]; rewrite X3; exact EL|]. rewrite (proj1 X6) in V. destruct (V c1 c2 l Hc1 Hc2 Hl) as [_ V']. unfold mg. rewrite V'. change (g_Nf (of_map (f k))) with (0 : F). destruct (same && Nat.eqb c1 c2)%bool; ring. }
    rewrite (sum_ext N (fun k => pr k * mg (D k) (c1 * n + c2) l) (fun k => pr k * spectrum L (nth c1 (y k) []) (nth c2 (y k) []) l)).
    2:{ intros k Hk. destruct (HC k Hk) as [_ HDk]. destruct (F1 k Hk) as (X1 & X2 & X3 & X4 & X5 & X6 & X7 & X8 & X9).
        destruct (C43_order same' (of_map (u k)) (of_map (u k)) (D k) (y k) (y k) L HDk X2 X2) as [_ V]; [cbn [of_map g_lmax]; rewrite X4; exact EL|]. rewrite (proj1 X7) in V. destruct (V c1 c2 l Hc1 Hc2 Hl) as [_ V']. unfold mg. rewrite V'. change (g_Nf (of_map (u k))) with (0 : F). destruct (same' && Nat.eqb c1 c2)%bool; ring. }
    apply (bias_algebra L l N nt nt pr (fun k => nth c1 (x k) []) (fun k => nth c1 (y k) []) (fun k => nth c2 (x k) []) (fun k => nth c2 (y k) []) (fun i => nth c1 (nth i T []) []) (fun i => nth c2 (nth i T []) [])
      (fun b => nth c2 (X b) []) (fun b => nth c1 (X b) []) iM iM P P pd).
    - intros k q Hk. apply (F1 k Hk). - intros k q Hk. apply (F1 k Hk).
    - intros b q Hb. unfold X. rewrite mg_nth, mg_lc_all by (intros k Hk; apply (F1 k Hk)). reflexivity.
    - intros b q Hb. unfold X. rewrite mg_nth, mg_lc_all by (intros k Hk; apply (F1 k Hk)). reflexivity.
    - intros b d _ _. reflexivity. - exact A17. }
  assert (Sw : forall c1 c2 l, sum nt (fun i => sum nt (fun b => mg iM i b * spectrum L (nth c1 (X b) []) (nth c2 (nth i T []) []) l)) = sum nt (fun i => sum nt (fun b => mg iM i b * spectrum L (nth c2 (nth i T []) []) (nth c1 (X b) []) l))) by (intros; apply sum_ext; intros; apply sum_ext; intros; rewrite spectrum_sym; reflexivity).
  intros c1 c2 l Hc1 Hc2 Hl. assert (Hl' : (l <= L)%nat) by lia. assert (E2 : fofZ 2 = 1 + 1 :> F) by reflexivity. split.
  - rewrite (Ex c1 c2 l Hc1 Hc2 Hl'), (Ex c2 c1 l Hc2 Hc1 Hl'), (Ent c1 c2 l Hc1 Hc2 Hl'), (Ent c2 c1 l Hc2 Hc1 Hl'). rewrite !Sw, E2. ring.
  - intros <-. rewrite (Ex c1 c1 l Hc1 Hc1 Hl'), (Ent c1 c1 l Hc1 Hc1 Hl'). rewrite Sw, E2. ring.
Qed.
End PBias3.
