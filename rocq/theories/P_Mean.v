(** Property C94: the mean of the coupled spectrum of two masked scalar fields on the sphere is what couple_cell predicts, for every pixelisation. *)
From Coq Require Import Reals.
From Verif Require Import Base FieldR M_Utils L_Utils M_Field L_Field L_Field2 M_Cell L_Cell P_Utils P_Field P_Field2 P_Field3 P_Field4 P_Field5 P_Field6 P_Field7 P_Cell M_Bins M_LinAlg M_Workspace M_MCM L_Bins L_Bins2 L_Bins3 P_Bins L_LinAlg L_Workspace P_Workspace L_MCM L_MCM2 L_MCM3 P_MCM P_MCM2 L_MCM4 P_MCM3 L_Legendre P_Legendre M_SynSph P_SynSph.
Local Open Scope nat_scope.

Section Mean.
Context {F : ofield}.
Local Open Scope F_scope.
Add Field FfC94 : (fth F).
Notation mat := (list (list F)).
Variables (fsqrt fexp flog : F -> F) (pi : F).
Variable w3j : Z -> Z -> Z -> Z -> Z -> F.
Notation mcompute := (mcompute fsqrt fexp flog pi w3j).
Notation corr := (corr pi).
Let d : F := (1 + 1 + 1 + 1) * pi.

(** *** The identity behind the coupling matrix: for any weights of pairs of points *)
Definition pairs (n : nat) (g : nat -> nat -> F) (h : nat -> nat -> F) : F := sum n (fun p => sum n (fun q => g p q * h p q)).
Lemma pairs_sum n g m (h : nat -> nat -> nat -> F) : pairs n g (fun p q => sum m (fun k => h k p q)) = sum m (fun k => pairs n g (h k)).
Proof.
  unfold pairs. rewrite (sum_swap m n). apply sum_ext. intros p _. rewrite (sum_swap m n). apply sum_ext. intros q _. symmetry. apply sum_mul_l.
Qed.
Lemma pairs_mul n g c (h : nat -> nat -> F) : pairs n g (fun p q => c * h p q) = c * pairs n g h.
Proof. unfold pairs. rewrite <- sum_mul_l. apply sum_ext. intros p _. rewrite <- sum_mul_l. apply sum_ext. intros q _. ring. Qed.
Lemma pairs_ext n g h h' : (forall p q, (p < n)%nat -> (q < n)%nat -> h p q = h' p q) -> pairs n g h = pairs n g h'.
Proof. intro H. unfold pairs. apply sum_ext. intros p Hp. apply sum_ext. intros q Hq. rewrite H by assumption. reflexivity. Qed.
(** power of the pairs at multipole L *)
Definition ppower (n : nat) (g x : nat -> nat -> F) (L : nat) : F := pairs n g (fun p q => leg (x p q) L) / d.
Lemma core n (g x : nat -> nat -> F) N NM (c : nat -> F) l : pi <> 0 -> (forall l' L, (l' < N)%nat -> (NM <= L)%nat -> (L <= l + l')%nat -> c l' = 0 \/ ppower n g x L = 0) ->
  pairs n g (fun p q => corr N c (x p q) * leg (x p q) l) / d =
  sum N (fun l' => fofnat (2 * l' + 1) * sum NM (fun L => fofnat (2 * L + 1) / d * ppower n g x L * T3 (Z.of_nat l) (Z.of_nat l') (Z.of_nat L)) * c l').
Proof.
  intros Hpi HB. assert (D : d <> 0) by (apply four_pi; exact Hpi).
  transitivity (sum N (fun l' => fofnat (2 * l' + 1) / d * c l' * (pairs n g (fun p q => leg (x p q) l' * leg (x p q) l) / d))).
  - rewrite (pairs_ext _ _ _ (fun p q => sum N (fun l' => (fofnat (2 * l' + 1) / d * c l') * (leg (x p q) l' * leg (x p q) l)))).
    2:{ intros p q _ _. unfold P_Legendre.corr. fold d. rewrite <- sum_mul_r. apply sum_ext. intros. ring. }
    rewrite pairs_sum, (Fdiv_def (fth F)), <- sum_mul_r. apply sum_ext. intros l' _. rewrite pairs_mul, (Fdiv_def (fth F) (pairs _ _ _)). ring.
  - apply sum_ext. intros l' Hl'.
    assert (Ex : pairs n g (fun p q => leg (x p q) l' * leg (x p q) l) / d = sum (NM + (l + l' + 1)) (fun L => fofnat (2 * L + 1) * T3 (Z.of_nat l) (Z.of_nat l') (Z.of_nat L) * ppower n g x L)).
    { rewrite (pairs_ext _ _ _ (fun p q => sum (NM + (l + l' + 1)) (fun L => (fofnat (2 * L + 1) * T3 (Z.of_nat l) (Z.of_nat l') (Z.of_nat L)) * leg (x p q) L))).
      2:{ intros p q _ _. rewrite (leg_product (x p q) (NM + (l + l' + 1)) l' l) by lia. unfold expand. apply sum_ext. intros L _. rewrite (T3_swap (Z.of_nat l')). reflexivity. }
      rewrite pairs_sum, (Fdiv_def (fth F)), <- sum_mul_r. apply sum_ext. intros L _. rewrite pairs_mul. unfold ppower. rewrite (Fdiv_def (fth F) (pairs _ _ _)). ring. }
    rewrite Ex, sum_plus. destruct (feq_dec (c l') 0) as [C0|C0].
    + rewrite C0. ring.
    + assert (Z0 : sum (l + l' + 1) (fun L => fofnat (2 * (NM + L) + 1) * T3 (Z.of_nat l) (Z.of_nat l') (Z.of_nat (NM + L)) * ppower n g x (NM + L)) = 0).
      { apply sum_zero. intros L HL. destruct (Nat.le_gt_cases (NM + L) (l + l')) as [A|A].
        - destruct (HB l' (NM + L)%nat Hl' ltac:(lia) A) as [B|B]; [contradiction|]. rewrite B. ring.
        - rewrite T3_out by lia. ring. }
      rewrite Z0. rewrite (sum_ext NM (fun L => fofnat (2 * L + 1) / d * ppower n g x L * T3 (Z.of_nat l) (Z.of_nat l') (Z.of_nat L)) (fun L => 1 / d * (fofnat (2 * L + 1) * T3 (Z.of_nat l) (Z.of_nat l') (Z.of_nat L) * ppower n g x L))) by (intros; field; exact D).
      rewrite sum_mul_l. set (S := sum NM _). field. exact D.
Qed.

(** *** Fields on maps *)
Variable eigh : mat -> list F * mat.
Variable np_inv : mat -> res mat.
Notation new := (field_new (fofZ 4 * pi) fsqrt eigh np_inv).
(** the same call with one map *)
Definition with_map (a : fargs F) (im : imap F) : fargs F :=
  FArgs (a_mask a) (a_mask22 a) (a_mask12 a) (Some [im]) (a_spin a) (a_temp a) (a_beam a) (a_pe a) (a_pb a) (a_niter a) (a_niterm a) (a_tol a) (a_wcs a) (M_Field.a_lmax a) (M_Field.a_lmaxm a) (a_moi a) (a_lite a).
(** options of a field without anisotropic weights, templates or purification, whose map is given without the mask *)
Definition plain (a : fargs F) : Prop := rect_args a /\ a_mask22 a = None /\ a_mask12 a = None /\ a_temp a = TNone /\ a_pe a = false /\ a_pb a = false /\ a_moi a = false.
(** pixels in the order of the transforms *)
Definition pixels (s : minfo F) (im : imap F) : list F := match reform_map s im with Ok v => v | _ => [] end.
(** map2alm is a quadrature with spherical harmonics: weight [wt p] of pixel p, coefficients [Y p] of a point source there, which obey the addition theorem;
    [x p q] is the cosine of the angle between two pixels *)
Definition harmonic (K : calc F) (s : minfo F) (L : nat) (n_iter : Z) (wt : nat -> F) (x : nat -> nat -> F) : Prop := exists Y : nat -> list F,
  (forall m, length m = npix s -> exists a, sht K 0 s (Z.of_nat L) n_iter [m] = Ok [a] /\ forall i, nth i a 0 = sum (npix s) (fun p => wt p * nth p m 0 * nth i (Y p) 0)) /\
  (forall p q l, (p < npix s)%nat -> (q < npix s)%nat -> (l <= L)%nat -> spectrum L (Y p) (Y q) l = leg (x p q) l / d).
Lemma harmonic_spectrum K s L n wt x u v au av l : harmonic K s L n wt x -> length u = npix s -> length v = npix s -> sht K 0 s (Z.of_nat L) n [u] = Ok [au] -> sht K 0 s (Z.of_nat L) n [v] = Ok [av] -> (l <= L)%nat ->
  spectrum L au av l = pairs (npix s) (fun p q => wt p * wt q * nth p u 0 * nth q v 0) (fun p q => leg (x p q) l) / d.
Proof.
  intros (Y & Q & Ad) Lu Lv Eu Ev Hl. destruct (Q u Lu) as (a & Ea & Ha). destruct (Q v Lv) as (b & Eb & Hb). rewrite Eu in Ea. rewrite Ev in Eb. injection Ea as <-. injection Eb as <-.
  rewrite (spectrum_lin_l L (npix s) (fun p => wt p * nth p u 0) Y au av l) by exact Ha. unfold pairs. rewrite (Fdiv_def (fth F)), <- sum_mul_r. apply sum_ext. intros p Hp.
  rewrite (spectrum_lin_r L (npix s) (fun q => wt q * nth q v 0) Y (Y p) av l) by exact Hb. rewrite <- sum_mul_l, <- sum_mul_r. apply sum_ext. intros q Hq. rewrite Ad by assumption. rewrite (Fdiv_def (fth F)). ring.
Qed.
Lemma rect_with_map a im : rect_args a -> L_Field2.rect im -> rect_args (with_map a im).
Proof. intros (H1 & H2 & H3 & _ & H5) Hr. repeat split; auto. intros l E. injection E as <-. repeat constructor. exact Hr. Qed.
Lemma plain_head K p a f : plain a -> new K p a = Ok f -> exists h, head_of (fofZ 4 * pi) a = Ok h /\ f_info f = h_s h /\ f_mask f = h_mask h /\ f_lmax f = h_lmax h /\ f_lmaxm f = h_lmaxm h /\ f_beam f = h_beam h /\
  f_niter f = opt (a_niter a) (n_iter_default p) /\ f_niterm f = opt (a_niterm a) (n_iter_mask_default p) /\ f_alm_mask f = None /\ length (h_mask h) = npix (h_s h) /\ h_mask_a h = None.
Proof.
  intros (R & W2 & W3 & ET & E1 & E2 & EM) Hf. rewrite new_staged in Hf. unfold staged in Hf. apply bind_ok in Hf as (h & Eh & Hf). exists h. split; [exact Eh|]. destruct (head_mask _ a h R Eh) as [Lm _].
  assert (HA : h_mask_a h = None).
  { unfold head_of in Eh. rewrite W2, W3 in Eh. cbn [weights is_some orb] in Eh. cbn [bind] in Eh. apply bind_ok in Eh as ([[s' lm'] ang] & E3 & Eh). apply bind_ok in Eh as (mk & E4 & Eh). cbn [bind] in Eh. cbv zeta in Eh. destruct (_ || _)%bool in Eh; [discriminate Eh|]. apply bind_ok in Eh as (bm & _ & Eh). injection Eh as <-. reflexivity. }
  destruct (a_maps a) as [im|].
  - apply bind_ok in Hf as ([[sp m'] tm] & Eb & Hf). apply bind_ok in Hf as ([[[c cu] iM] als] & Ec & Hf). destruct (body_inv _ _ _ _ _ _ Eb) as (_ & _ & _ & _ & Bt). rewrite ET in Bt. cbn [temps_of] in Bt. injection Bt as <-. unfold alms_of, L_Field2.pure in Hf. rewrite E1, E2 in Hf. cbn [orb option_map] in Hf. apply bind_ok in Hf as (alm & Ea & Hf). cbn [bind] in Hf. injection Hf as <-. cbn [field_of f_info f_mask f_lmax f_lmaxm f_beam f_niter f_niterm f_alm_mask]. repeat split; assumption.
  - destruct (a_spin a); [|discriminate Hf]. destruct (_ && _)%bool; [discriminate Hf|]. injection Hf as <-. cbn [field_of f_info f_mask f_lmax f_lmaxm f_beam f_niter f_niterm f_alm_mask]. repeat split; assumption.
Qed.
Lemma plain_flags K p a f : plain a -> new K p a = Ok f -> f_mask_a f = None /\ f_pe f = false /\ f_pb f = false.
Proof.
  intros PA Hf. destruct (plain_head K p a f PA Hf) as (h & Eh & _ & _ & _ & _ & _ & _ & _ & _ & _ & HA). destruct PA as (R & W2 & W3 & ET & E1 & E2 & EM). rewrite new_staged in Hf. unfold staged in Hf. apply bind_ok in Hf as (h' & Eh' & Hf). rewrite Eh in Eh'. injection Eh' as <-.
  destruct (a_maps a) as [im|].
  - apply bind_ok in Hf as ([[sp m'] tm] & Eb & Hf). apply bind_ok in Hf as ([[[c cu] iM] als] & Ec & Hf). destruct (body_inv _ _ _ _ _ _ Eb) as (_ & _ & _ & _ & Bt). rewrite ET in Bt. cbn [temps_of] in Bt. injection Bt as <-. unfold alms_of, L_Field2.pure in Hf. rewrite E1, E2 in Hf. cbn [orb option_map] in Hf. apply bind_ok in Hf as (alm & Ea & Hf). cbn [bind] in Hf. injection Hf as <-. cbn [field_of f_mask_a f_pe f_pb]. repeat split; assumption.
  - destruct (a_spin a); [|discriminate Hf]. destruct (_ && _)%bool; [discriminate Hf|]. injection Hf as <-. cbn [field_of f_mask_a f_pe f_pb]. repeat split; assumption.
Qed.
(** the coefficients of a plain field with one map *)
Lemma plain_alm K p a im f h : plain a -> L_Field2.rect im -> head_of (fofZ 4 * pi) a = Ok h -> new K p (with_map a im) = Ok f ->
  f_info f = h_s h /\ f_lmax f = h_lmax h /\ f_lmaxm f = h_lmaxm h /\ exists alm, f_alm f = Some alm /\ reform_map (h_s h) im = Ok (pixels (h_s h) im) /\ length (pixels (h_s h) im) = npix (h_s h) /\
  sht K 0 (h_s h) (h_lmax h) (opt (a_niter a) (n_iter_default p)) [vmul (h_mask h) (pixels (h_s h) im)] = Ok alm.
Proof.
  intros (R & W2 & W3 & ET & E1 & E2 & EM) Ri Eh Hf. rewrite new_staged in Hf. unfold staged in Hf. apply bind_ok in Hf as (h' & Eh' & Hf). change (head_of (fofZ 4 * pi) a = Ok h') in Eh'. rewrite Eh in Eh'. injection Eh' as <-.
  assert (HA : h_mask_a h = None).
  { unfold head_of in Eh. rewrite W2, W3 in Eh. cbn [weights is_some orb] in Eh. cbn [bind] in Eh. apply bind_ok in Eh as ([[s' lm'] ang] & E3 & Eh). apply bind_ok in Eh as (mk & E4 & Eh). cbn [bind] in Eh. cbv zeta in Eh. destruct (_ || _)%bool in Eh; [discriminate Eh|]. apply bind_ok in Eh as (bm & _ & Eh). injection Eh as <-. reflexivity. }
  cbn [with_map a_maps] in Hf. apply bind_ok in Hf as ([[sp m'] tm] & Eb & Hf). apply bind_ok in Hf as ([[[c cu] iM] als] & Ec & Hf). destruct (body_inv _ _ _ _ _ _ Eb) as (Bs & Bm & _ & _ & Bt). cbn [with_map a_temp] in Bt. rewrite ET in Bt. cbn [temps_of] in Bt. injection Bt as <-. cbn [clean] in Ec. injection Ec as <- <- <- <-.
  unfold alms_of, L_Field2.pure in Hf. cbn [with_map a_pe a_pb] in Hf. rewrite E1, E2 in Hf. cbn [orb option_map] in Hf. apply bind_ok in Hf as (alm & Ea & Hf). cbn [bind] in Hf. injection Hf as <-. cbn [field_of f_info f_lmax f_lmaxm f_alm]. repeat (split; [reflexivity|]). exists alm. split; [reflexivity|].
  cbn [mapM] in Bm. apply bind_ok in Bm as (v & Ev & Bm). cbn [bind] in Bm. injection Bm as <-. unfold pixels. rewrite Ev. split; [reflexivity|]. split; [eapply length_reform; eassumption|].
  assert (sp = 0%Z) as -> by (cbn [with_map a_spin length] in Bs; unfold spin_of in Bs; cbn in Bs; destruct (a_spin a) as [z|]; [destruct (Z.eqb_spec z 0); [subst z|]; cbn in Bs; [injection Bs as <-; reflexivity | discriminate Bs] | injection Bs as <-; reflexivity]).
  unfold masked in Ea. cbn [with_map a_moi a_niter] in Ea. rewrite EM, HA in Ea. exact Ea.
Qed.

(** *** Averages *)
Section Ensemble.
Context {Om : Type}.
Variable E : (Om -> F) -> F.
Lemma E_lsum {A} (l : list A) (f : A -> Om -> F) : average E -> E (fun w => lsum (map (fun e => f e w) l)) = lsum (map (fun e => E (f e)) l).
Proof.
  intros (X & Ad & S). induction l as [|e l IH].
  - rewrite (X _ (fun _ => 0 * 0)) by (intro; cbn; ring). rewrite S. cbn. ring.
  - rewrite (X _ (fun w => f e w + lsum (map (fun e => f e w) l))) by (intro w; exact (lsum_cons (fun e => f e w) e l)). rewrite (Ad (f e) (fun w => lsum (map (fun e => f e w) l))), IH, lsum_cons. reflexivity.
Qed.
(** decoupling commutes with averages *)
Lemma mean_decouple j (w0 : Om) k (cl : Om -> mat) (o : Om -> mat) : average E -> valid j -> (i_nell j <= k)%nat -> (forall w, spectra (i_ncls j) k (cl w)) ->
  let nb := Z.to_nat (get_n_bands (i_bin j)) in
  (forall w, decouple_cell (obj (mk j)) (A2 k (cl w)) None None = Ok (A2 nb (o w))) ->
  decouple_cell (obj (mk j)) (A2 k (tab (i_ncls j) (fun a => tab k (fun l => E (fun w => entry2 (cl w) a l))))) None None = Ok (A2 nb (tab (i_ncls j) (fun a => tab nb (fun b => E (fun w => entry2 (o w) a b))))).
Proof.
  intros AV V Hk Hc nb H. pose proof AV as (X & Ad & Sc). pose proof (mk_shaped j V) as S. rewrite (decouple_plain j k); [|exact V|apply rect_tab|exact Hk].
  set (x := fun w => match lu_solve (w_mb (mk j)) (dvec (mk j) (fun a l => entry2 (cl w) a l)) with Ok v => v | _ => [] end).
  assert (Hx : forall w, lu_solve (w_mb (mk j)) (dvec (mk j) (fun a l => entry2 (cl w) a l)) = Ok (x w) /\ nbands (mk j) = nb /\ unpack (mk j) (x w) = o w).
  { intro w. specialize (H w). rewrite (decouple_plain j k) in H by auto. unfold x. destruct (lu_solve _ _) as [v| |]; [|discriminate H|discriminate H]. cbn [bind] in H. injection H as H1 H2. repeat split; assumption. }
  assert (Hsq := mk_square j). set (N := (w_ncls (mk j) * nbands (mk j))%nat) in *.
  assert (Hy : forall w, nonsingular N (w_mb (mk j)) /\ length (x w) = N /\ matvec (w_mb (mk j)) (x w) = dvec (mk j) (fun a l => entry2 (cl w) a l)).
  { intro w. destruct (Hx w) as (Hw & _). apply (lu_solve_iff N) in Hw; [exact Hw | exact Hsq | apply length_tab]. }
  destruct (Hx w0) as (_ & Enb & _). destruct (Hy w0) as (Hns & _).
  match goal with |- context [lu_solve _ ?b] =>
    rewrite (proj2 (lu_solve_iff N (w_mb (mk j)) b (tab N (fun r => E (fun w => nth r (x w) 0))) Hsq (length_tab _ _))) end.
  - cbn [bind]. rewrite <- Enb. f_equal. f_equal. unfold unpack. apply tab_ext. intros a Ha. apply tab_ext. intros b Hb.
    rewrite nth_tab by (apply idx_lt; assumption). apply X. intro w. destruct (Hx w) as (_ & _ & <-). rewrite entry_unpack by assumption. reflexivity.
  - split; [exact Hns|]. split; [apply length_tab|]. apply (matvec_eq N); [exact Hsq|apply length_tab|apply length_tab|].
    intros r Hr. rewrite (sum_ext _ _ (fun c => E (fun w => entry2 (w_mb (mk j)) r c * nth c (x w) 0))).
    2:{ intros c Hc0. rewrite nth_tab by exact Hc0. symmetry. apply Sc. }
    rewrite <- (E_sum E N (fun c w => entry2 (w_mb (mk j)) r c * nth c (x w) 0) AV).
    rewrite (X _ (fun w => nth r (dvec (mk j) (fun a l => entry2 (cl w) a l)) 0)).
    2:{ intro w. destruct (Hy w) as (_ & Lx & Ex). rewrite <- Ex, (nth_matvec N) by assumption. reflexivity. }
    unfold dvec. rewrite nth_tab by exact Hr. rewrite (X _ (fun w => bdat (mk j) (fun a l => entry2 (cl w) a l) (r mod w_ncls (mk j)) (r / w_ncls (mk j)))) by (intro; rewrite nth_tab by exact Hr; reflexivity). unfold bdat.
    rewrite (E_lsum _ (fun e w => entry2 (cl w) (r mod w_ncls (mk j)) (L_Workspace.el e) * e_f e * e_w e) AV). apply lsum_ext. intros e He.
    destruct (divmod_lt _ _ r (sh_ncls (mk j) S) Hr) as [D1 D2]. pose proof (band_in (mk j) _ e D1 He S) as Be. cbn in Be.
    rewrite entry_tab; [|exact D2|unfold i_nell in Hk; unfold L_Workspace.el; lia]. rewrite (X _ (fun w => (e_f e * e_w e) * entry2 (cl w) (r mod w_ncls (mk j)) (L_Workspace.el e))) by (intro; ring). rewrite Sc. ring.
Qed.

(** what NmtWorkspace passes to the C library for two compatible fields on maps, workspaces.py:236-330: limits, beams, the cross spectrum of the masks
    (the options are those of [scalar]) *)
Definition wsp_inputs (K : calc F) (g1 g2 : nfield F) (i : minp (F:=F)) : Prop :=
  f_info g1 = f_info g2 /\ f_lmax g1 = f_lmax g2 /\ f_lmaxm g1 = f_lmaxm g2 /\ n_lmax i = f_lmax g1 /\ n_lmm i = f_lmaxm g1 /\ n_b1 i = f_beam g1 /\ n_b2 i = f_beam g2 /\
  exists am1 am2, snd (get_mask_alms K g1) = Ok am1 /\ snd (get_mask_alms K g2) = Ok am2 /\ alm2cl (f_lmaxm g1) am1 am2 = Ok (n_pcl i).
(** weights of pairs of pixels, and the power of the masks at L *)
Definition mweight (wt : nat -> F) (m1 m2 : list F) (p q : nat) : F := wt p * wt q * nth p m1 0 * nth q m2 0.
Definition mpower (wt : nat -> F) (x : nat -> nat -> F) (s : minfo F) (m1 m2 : list F) (L : nat) : F := ppower (npix s) (mweight wt m1 m2) x L.
(** The survey: fields f1 w, f2 w with the options a1, a2 (so that the masks are those of g1, g2) and the maps im1 w, im2 w of every realisation w of the sky;
    a workspace for them; transforms that are quadratures. The sky: a scalar random field whose mean products between observed pixels are those of the
    spectrum c with both beams, at the angle between the pixels *)
Record survey junk K p a1 a2 g1 g2 i ws wt x (c : list F) (im1 im2 : Om -> imap F) (f1 f2 : Om -> nfield F) (cell : Om -> mat) (same : bool) : Prop := {
  sv_average : average E;
  sv_plain : plain a1 /\ plain a2; sv_new : new K p a1 = Ok g1 /\ new K p a2 = Ok g2;
  sv_wsp : wsp_inputs K g1 g2 i; sv_scalar : scalar i; sv_ws : mcompute junk i = Ok ws;
  sv_iter : f_niter g1 = f_niter g2 /\ f_niterm g1 = f_niterm g2;
  sv_sht : harmonic K (f_info g1) (Z.to_nat (f_lmax g1)) (f_niter g1) wt x; sv_shtm : harmonic K (f_info g1) (Z.to_nat (f_lmaxm g1)) (f_niterm g1) wt x;
  sv_f1 : forall w, L_Field2.rect (im1 w) /\ new K p (with_map a1 (im1 w)) = Ok (f1 w); sv_f2 : forall w, L_Field2.rect (im2 w) /\ new K p (with_map a2 (im2 w)) = Ok (f2 w);
  sv_cell : forall w, compute_coupled_cell same (of_map (f1 w)) (of_map (f2 w)) = Ok (cell w);
  sv_sky : forall p q, (p < npix (f_info g1))%nat -> (q < npix (f_info g1))%nat -> nth p (f_mask g1) 0 <> 0 -> nth q (f_mask g2) 0 <> 0 ->
    E (fun w => nth p (pixels (f_info g1) (im1 w)) 0 * nth q (pixels (f_info g1) (im2 w)) 0) = corr (nell i) (fun l => nth l (f_beam g1) 0 * nth l (f_beam g2) 0 * nth l c 0) (x p q) }.
(** lmax_mask suffices for multipole l: beyond it the masks have no power wherever the signal at l' could be coupled to l *)
Definition mask_limit (i : minp (F:=F)) (c : list F) (pw : nat -> F) (l : nat) : Prop :=
  forall l' L, (l' < nell i)%nat -> (nmask i <= L)%nat -> (L <= l + l')%nat -> nth l' c 0 = 0 \/ pw L = 0.
Lemma mean_pairs junk K p a1 a2 g1 g2 i ws wt x c im1 im2 f1 f2 cell same :
  pi <> 0 -> survey junk K p a1 a2 g1 g2 i ws wt x c im1 im2 f1 f2 cell same ->
  (forall l, (l < nell i)%nat -> E (fun w => mg (cell w) 0 l) = pairs (npix (f_info g1)) (mweight wt (f_mask g1) (f_mask g2)) (fun p q => corr (nell i) (beamed i c) (x p q) * leg (x p q) l) / d) /\
  forall L, (L < nmask i)%nat -> mask_cl i L = mpower wt x (f_info g1) (f_mask g1) (f_mask g2) L.
Proof.
  intros Hpi [AV [P1 P2] [G1 G2] WI SI Ew [NI NM] H1 H2 Hf1 Hf2 HC Iso]. set (s := f_info g1) in *.
  destruct WI as (I1 & I2 & I3 & I4 & I5 & I6 & I7 & am1 & am2 & A1 & A2' & A3). pose proof AV as (X & Ad & Sc). assert (D : d <> 0) by (apply four_pi; exact Hpi).
  destruct (plain_head K p a1 g1 P1 G1) as (h1 & Eh1 & B1 & B2 & B3 & B4 & _ & B6 & B7 & B8 & B9 & _). destruct (plain_head K p a2 g2 P2 G2) as (h2 & Eh2 & C1 & C2 & C3 & C4 & _ & C6 & C7 & C8 & C9 & _).
  assert (PB : (0 <= n_lmax i <= n_lmm i)%Z) by (pose proof (sc_ok i SI) as H; destruct (valid_bins_facts _ (fo_bins i H)) as [_ [_ P0]]; pose proof (fo_lmm i H); unfold n_lmax in *; lia).
  assert (EL : Z.of_nat (Z.to_nat (f_lmax g1)) = f_lmax g1) by lia. assert (ELm : Z.of_nat (Z.to_nat (f_lmaxm g1)) = f_lmaxm g1) by lia.
  rewrite <- I6, <- I7 in Iso. change (fun l0 : nat => nth l0 (n_b1 i) 0 * nth l0 (n_b2 i) 0 * nth l0 c 0) with (beamed i c) in Iso.
  set (m1 := f_mask g1) in *. set (m2 := f_mask g2) in *. assert (L1 : length m1 = npix s) by (rewrite B2; unfold s; rewrite B1; exact B9). assert (L2 : length m2 = npix s) by (rewrite C2; unfold s; rewrite I1, C1; exact C9).
  (* the spectrum of the masks *)
  assert (MS : forall L, (L < nmask i)%nat -> mask_cl i L = mpower wt x s m1 m2 L).
  { intros L HL. unfold get_mask_alms in A1, A2'. rewrite B8 in A1. rewrite C8 in A2'. fold m1 s in A1. rewrite <- I1, <- I3, <- NM in A2'. fold m2 s in A2'.
    destruct (H2) as (Y & Q & _). destruct (Q m1 L1) as (u1 & Eu1 & _). destruct (Q m2 L2) as (u2 & Eu2 & _). rewrite ELm in Eu1, Eu2. rewrite Eu1 in A1. rewrite Eu2 in A2'. cbn [snd nth] in A1, A2'. injection A1 as <-. injection A2' as <-.
    rewrite <- ELm in A3. destruct (alm2cl_spectrum _ _ _ _ A3) as [_ SP]. unfold mask_cl. unfold nmask in HL. rewrite SP by lia.
    rewrite (harmonic_spectrum K s _ (f_niterm g1) wt x m1 m2 u1 u2 L H2 L1 L2) by (try (rewrite ELm; assumption); lia). reflexivity. }
  split; [|exact MS]. intros l Hl.
  assert (CE : forall w, mg (cell w) 0 l = sum (npix s) (fun p => sum (npix s) (fun q => (mweight wt m1 m2 p q * leg (x p q) l / d) * (nth p (pixels s (im1 w)) 0 * nth q (pixels s (im2 w)) 0)))).
  { intro w. destruct (Hf1 w) as [R1 F1]. destruct (Hf2 w) as [R2 F2]. destruct (plain_alm K p a1 (im1 w) (f1 w) h1 P1 R1 Eh1 F1) as (_ & J2 & _ & al1 & J4 & _ & J6 & J7). destruct (plain_alm K p a2 (im2 w) (f2 w) h2 P2 R2 Eh2 F2) as (_ & K2 & _ & al2 & K4 & _ & K6 & K7).
    rewrite <- B1, <- B2, <- B3, <- B6 in J7. rewrite <- B1 in J6. fold s m1 in J7, J6. rewrite <- C1, <- C2, <- C3, <- C6 in K7. rewrite <- C1 in K6. rewrite <- I1 in K6, K7. rewrite <- I2, <- NI in K7. fold s m2 in K7, K6.
    set (t1 := pixels s (im1 w)) in *. set (t2 := pixels s (im2 w)) in *. assert (V1 : length (vmul m1 t1) = npix s) by (rewrite length_vmul, L1, J6; apply Nat.min_id). assert (V2 : length (vmul m2 t2) = npix s) by (rewrite length_vmul, L2, K6; apply Nat.min_id).
    destruct (H1) as (Y & Q & _). destruct (Q _ V1) as (u1 & Eu1 & _). destruct (Q _ V2) as (u2 & Eu2 & _). rewrite EL in Eu1, Eu2. rewrite Eu1 in J7. rewrite Eu2 in K7. injection J7 as <-. injection K7 as <-.
    pose proof (C43_order same (of_map (f1 w)) (of_map (f2 w)) (cell w) [u1] [u2] (Z.to_nat (f_lmax g1)) (HC w) J4 K4) as O. cbn [of_map g_lmax] in O. rewrite J2, EL, <- B3 in O. destruct (O eq_refl) as [_ O']. specialize (O' 0%nat 0%nat l ltac:(cbn; lia) ltac:(cbn; lia) ltac:(unfold nell in Hl; lia)) as [_ O']. cbn [length Nat.mul Nat.add nth g_Nf of_map] in O'. unfold mg. rewrite O'.
    rewrite (harmonic_spectrum K s _ (f_niter g1) wt x _ _ u1 u2 l H1 V1 V2) by (try (rewrite EL; assumption); unfold nell in Hl; lia).
    unfold pairs. rewrite (Fdiv_def (fth F)). assert (Z0 : (if same && Nat.eqb 0 0 then 0 else 0) = (0 : F)) by (destruct (_ && _)%bool; reflexivity). rewrite Z0.
    match goal with |- ?A - 0 = _ => transitivity A; [ring|] end. rewrite <- sum_mul_r. apply sum_ext. intros u Hu. rewrite <- sum_mul_r. apply sum_ext. intros v Hv.
    unfold vmul. rewrite !(nth_zipw _ _ _ _ 0 0 0) by lia. unfold mweight. rewrite (Fdiv_def (fth F)). ring. }
  rewrite (X _ _ CE). rewrite (E_sum E (npix s) (fun p w => sum (npix s) (fun q => (mweight wt m1 m2 p q * leg (x p q) l / d) * (nth p (pixels s (im1 w)) 0 * nth q (pixels s (im2 w)) 0))) AV). unfold pairs. rewrite (Fdiv_def (fth F)), <- sum_mul_r. apply sum_ext. intros u Hu.
  rewrite (E_sum E (npix s) (fun q w => (mweight wt m1 m2 u q * leg (x u q) l / d) * (nth u (pixels s (im1 w)) 0 * nth q (pixels s (im2 w)) 0)) AV), <- sum_mul_r. apply sum_ext. intros v Hv. rewrite Sc.
  destruct (feq_dec (nth u m1 0) 0) as [Z1|Z1]; [unfold mweight; rewrite Z1; field; exact D|]. destruct (feq_dec (nth v m2 0) 0) as [Z2|Z2]; [unfold mweight; rewrite Z2; field; exact D|].
  rewrite (Iso u v Hu Hv Z1 Z2). field. exact D.
Qed.
(** the mean of compute_coupled_cell is what couple_cell makes of the spectrum of the sky *)
Theorem C94_mean junk K p a1 a2 g1 g2 i ws wt x k c im1 im2 f1 f2 cell same :
  libm_laws fsqrt fexp flog -> pi <> 0 -> survey junk K p a1 a2 g1 g2 i ws wt x c im1 im2 f1 f2 cell same -> length c = k -> (nell i <= k)%nat ->
  exists o, couple_cell (obj ws) (A2 k [c]) = Ok (A2 (nell i) [o]) /\ length o = nell i /\
  forall l, (l < nell i)%nat -> mask_limit i c (mpower wt x (f_info g1) (f_mask g1) (f_mask g2)) l -> E (fun w => mg (cell w) 0 l) = nth l o 0.
Proof.
  intros LL Hpi S Lc Hk. destruct (coupled fsqrt fexp flog pi w3j junk i ws k c LL (sv_scalar _ _ _ _ _ _ _ _ _ _ _ _ _ _ _ _ _ _ S) (sv_ws _ _ _ _ _ _ _ _ _ _ _ _ _ _ _ _ _ _ S) Lc Hk) as (o & Eo & Lo & Fo). exists o. split; [exact Eo|]. split; [exact Lo|]. intros l Hl Room. rewrite (Fo l Hl). clear Fo.
  destruct (mean_pairs _ _ _ _ _ _ _ _ _ _ _ _ _ _ _ _ _ _ Hpi S) as [MP MS]. rewrite (MP l Hl). rewrite (core _ _ _ (nell i) (nmask i) (beamed i c) l Hpi).
  - apply sum_ext. intros l' _. f_equal. f_equal. apply sum_ext. intros L HL. rewrite (pmask_eq pi i L Hpi). fold d. rewrite MS by exact HL. reflexivity.
  - intros l' L Hl' HL1 HL2. destruct (Room l' L Hl' HL1 HL2) as [Z0|Z0]; [left; unfold beamed; rewrite Z0; ring | right; exact Z0].
Qed.
(** without any condition on lmax_mask: the exact bias, made of the power of the masks beyond lmax_mask that couples l to the multipoles l' *)
Theorem C94_truncation junk K p a1 a2 g1 g2 i ws wt x k c im1 im2 f1 f2 cell same :
  libm_laws fsqrt fexp flog -> pi <> 0 -> survey junk K p a1 a2 g1 g2 i ws wt x c im1 im2 f1 f2 cell same -> length c = k -> (nell i <= k)%nat ->
  exists o, couple_cell (obj ws) (A2 k [c]) = Ok (A2 (nell i) [o]) /\
  forall l, (l < nell i)%nat -> E (fun w => mg (cell w) 0 l) = nth l o 0 +
    sum (nell i) (fun l' => fofnat (2 * l' + 1) * sum (l + nell i) (fun n => let L := (nmask i + n)%nat in
      fofnat (2 * L + 1) / d * mpower wt x (f_info g1) (f_mask g1) (f_mask g2) L * T3 (Z.of_nat l) (Z.of_nat l') (Z.of_nat L)) * (nth l' (f_beam g1) 0 * nth l' (f_beam g2) 0 * nth l' c 0)).
Proof.
  intros LL Hpi S Lc Hk. destruct (coupled fsqrt fexp flog pi w3j junk i ws k c LL (sv_scalar _ _ _ _ _ _ _ _ _ _ _ _ _ _ _ _ _ _ S) (sv_ws _ _ _ _ _ _ _ _ _ _ _ _ _ _ _ _ _ _ S) Lc Hk) as (o & Eo & Lo & Fo). exists o. split; [exact Eo|]. intros l Hl. rewrite (Fo l Hl). clear Fo.
  destruct (mean_pairs _ _ _ _ _ _ _ _ _ _ _ _ _ _ _ _ _ _ Hpi S) as [MP MS]. rewrite (MP l Hl). rewrite (core _ _ _ (nell i) (nmask i + (l + nell i)) (beamed i c) l Hpi) by (intros; lia).
  pose proof (sv_wsp _ _ _ _ _ _ _ _ _ _ _ _ _ _ _ _ _ _ S) as (_ & _ & _ & _ & _ & I6 & I7 & _). rewrite <- I6, <- I7. rewrite <- sum_add. apply sum_ext. intros l' _. change (nth l' (n_b1 i) 0 * nth l' (n_b2 i) 0 * nth l' c 0) with (beamed i c l'). rewrite sum_plus.
  rewrite (sum_ext (nmask i) _ (fun L => pmask pi i L * T3 (Z.of_nat l) (Z.of_nat l') (Z.of_nat L))) by (intros L HL; rewrite (pmask_eq pi i L Hpi); fold d; rewrite MS by exact HL; reflexivity). unfold mpower. ring.
Qed.
Lemma cell_shape junk K p a1 a2 g1 g2 i ws wt x c im1 im2 f1 f2 cell same : survey junk K p a1 a2 g1 g2 i ws wt x c im1 im2 f1 f2 cell same -> forall w, spectra 1 (nell i) (cell w).
Proof.
  intro S. intro w. destruct S as [AV [P1 P2] [G1 G2] WI SI Ew [NI NM] H1 H2 Hf1 Hf2 HC Iso]. destruct WI as (I1 & I2 & I3 & I4 & I5 & _).
    destruct (plain_head K p a1 g1 P1 G1) as (h1 & Eh1 & B1 & B2 & B3 & B4 & _ & B6 & B7 & B8 & B9 & _). destruct (plain_head K p a2 g2 P2 G2) as (h2 & Eh2 & C1 & C2 & C3 & C4 & _ & C6 & C7 & C8 & C9 & _).
    assert (PB : (0 <= n_lmax i)%Z) by (pose proof (sc_ok i SI) as H; destruct (valid_bins_facts _ (fo_bins i H)) as [_ [_ P0]]; unfold n_lmax in *; lia).
    destruct (Hf1 w) as [R1 F1]. destruct (Hf2 w) as [R2 F2]. destruct (plain_alm K p a1 (im1 w) (f1 w) h1 P1 R1 Eh1 F1) as (_ & J2 & _ & al1 & J4 & _ & J6 & J7). destruct (plain_alm K p a2 (im2 w) (f2 w) h2 P2 R2 Eh2 F2) as (_ & K2 & _ & al2 & K4 & _ & K6 & K7).
    assert (L1 : length (f_mask g1) = npix (f_info g1)) by (rewrite B1, B2; exact B9). assert (L2 : length (f_mask g2) = npix (f_info g1)) by (rewrite I1, C1, C2; exact C9).
    rewrite <- B1, <- B2, <- B3, <- B6 in J7. rewrite <- B1 in J6. rewrite <- C1, <- C2, <- C3, <- C6, <- I1, <- I2, <- NI in K7. rewrite <- C1, <- I1 in K6.
    destruct H1 as (Y & Q & _). assert (EL : Z.of_nat (Z.to_nat (f_lmax g1)) = f_lmax g1) by lia. rewrite EL in Q.
    destruct (Q (vmul (f_mask g1) (pixels (f_info g1) (im1 w))) ltac:(rewrite length_vmul, L1, J6; apply Nat.min_id)) as (u1 & Eu1 & _). destruct (Q (vmul (f_mask g2) (pixels (f_info g1) (im2 w))) ltac:(rewrite length_vmul, L2, K6; apply Nat.min_id)) as (u2 & Eu2 & _). rewrite Eu1 in J7. rewrite Eu2 in K7. injection J7 as <-. injection K7 as <-.
    pose proof (C43_order same (of_map (f1 w)) (of_map (f2 w)) (cell w) [u1] [u2] (Z.to_nat (f_lmax g1)) (HC w) J4 K4) as O. cbn [of_map g_lmax] in O. rewrite J2, EL, <- B3 in O. destruct (O eq_refl) as [O1 O2]. specialize (O2 0%nat 0%nat 0%nat ltac:(cbn; lia) ltac:(cbn; lia) ltac:(lia)) as [O2 _]. cbn [length Nat.mul Nat.add] in O1, O2.
    destruct (cell w) as [|r [|]]; try discriminate O1. cbn [nth] in O2. split; [reflexivity|]. intros r' [<-|[]]. rewrite O2. unfold nell. lia.
Qed.
(** the means of the bandpowers are the bandpower windows times the spectrum of the sky *)
Theorem C94_bandpowers junk K p a1 a2 g1 g2 i ws wt x c im1 im2 f1 f2 cell same (w0 : Om) (o : Om -> mat) W :
  libm_laws fsqrt fexp flog -> pi <> 0 -> survey junk K p a1 a2 g1 g2 i ws wt x c im1 im2 f1 f2 cell same -> length c = nell i ->
  (forall l, (l < nell i)%nat -> mask_limit i c (mpower wt x (f_info g1) (f_mask g1) (f_mask g2)) l) -> let nb := Z.to_nat (get_n_bands (n_bin i)) in
  (forall w, decouple_cell (obj ws) (A2 (nell i) (cell w)) None None = Ok (A2 nb (o w))) -> get_bandpower_windows (obj ws) = Ok W ->
  forall b, (b < nb)%nat -> E (fun w => entry2 (o w) 0 b) = sum (nell i) (fun l => nth l (nth 0 (nth b (nth 0 W []) []) []) 0 * nth l c 0).
Proof.
  intros LL Hpi S Lc Room nb HD HW b Hb. destruct (C94_mean _ _ _ _ _ _ _ _ _ _ _ (nell i) c _ _ _ _ _ _ LL Hpi S Lc (le_n _)) as (v & Ev & Lv & Mv).
  assert (RC := cell_shape _ _ _ _ _ _ _ _ _ _ _ _ _ _ _ _ _ _ S).
  pose proof (sv_scalar _ _ _ _ _ _ _ _ _ _ _ _ _ _ _ _ _ _ S) as SI. pose proof (sv_ws _ _ _ _ _ _ _ _ _ _ _ _ _ _ _ _ _ _ S) as Ew. pose proof (sv_average _ _ _ _ _ _ _ _ _ _ _ _ _ _ _ _ _ _ S) as AV.
  assert (T : toeplitz_sanity (n_lt i) (n_lex i) (n_dl i) (n_lmax i) (purified i) = Ok tt) by (unfold P_MCM.mcompute in Ew; fold (purified i) in Ew; destruct (toeplitz_sanity _ _ _ _ _) as [[]| |]; [reflexivity | discriminate Ew | discriminate Ew]).
  destruct (mcompute_built fsqrt fexp flog pi w3j junk i (sc_ok i SI) T) as [st [_ Eb]]. rewrite Ew in Eb. injection Eb as ->.
  pose proof (built_valid fsqrt fexp flog pi w3j i st (sc_ok i SI)) as V. set (j := built pi i st) in *. assert (E1 : i_ncls j = 1%nat) by (apply spec_1; exact SI). assert (E2 : i_nell j = nell i) by (unfold i_nell, nell, j, built, n_lmax; cbn; f_equal; lia). assert (E3 : Z.to_nat (get_n_bands (i_bin j)) = nb) by reflexivity.
  assert (RC' : forall w, spectra (i_ncls j) (nell i) (cell w)) by (intro; rewrite E1; apply RC).
  pose proof (mean_decouple j w0 (nell i) cell o AV V ltac:(rewrite E2; apply le_n) RC' HD) as MD. rewrite E3 in MD.
  assert (EV : tab (i_ncls j) (fun a => tab (nell i) (fun l => E (fun w => entry2 (cell w) a l))) = [v]).
  { rewrite E1. cbn [tab map seq]. f_equal. apply nth_ext with 0 0; [rewrite length_tab; symmetry; exact Lv|]. intros l Hl. rewrite length_tab in Hl. rewrite nth_tab by exact Hl. apply (Mv l Hl (Room l Hl)). }
  rewrite EV in MD. rewrite <- E2 in Ev, MD.
  destruct (C14_windows j (mk j) W [c] _ _ V (compute_ok j V) ltac:(rewrite E1, E2; split; [reflexivity|intros r [<-|[]]; exact Lc]) HW Ev MD) as (rows & Er & Hr).
  injection Er as Er. rewrite E1, E3 in Hr. specialize (Hr 0%nat b ltac:(lia) Hb). rewrite <- Er in Hr. rewrite entry_tab in Hr by (try exact Hb; rewrite (spec_1 i SI); lia). rewrite Hr. rewrite E2. cbn [sum]. rewrite ?E1. cbn [sum entry2 nth]. unfold entry2. cbn [nth]. ring_simplify. reflexivity.
Qed.
End Ensemble.
End Mean.
Print Assumptions C94_mean.
Print Assumptions C94_bandpowers.
Print Assumptions C94_truncation.
