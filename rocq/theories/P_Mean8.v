(** Property C94: the mean of the coupled spectrum of two scalar fields cleaned of contaminant templates is what couple_cell and deprojection_bias predict. *)
From Coq Require Import Reals.
From Verif Require Import Base FieldR M_Utils L_Utils M_Field L_Field L_Field2 M_Cell L_Cell P_Utils P_Field P_Field2 P_Field3 P_Field4 P_Field5 P_Field6 P_Field7 P_Cell M_Bins M_LinAlg M_Workspace M_MCM L_Bins L_Bins2 L_Bins3 P_Bins L_LinAlg L_Workspace P_Workspace L_MCM L_MCM2 L_MCM3 P_MCM P_MCM2 L_MCM4 P_MCM3 L_Legendre P_Legendre M_SynSph P_SynSph P_Mean L_Lin L_Lin2 L_Bias L_Bias2 P_Bias.
Local Open Scope nat_scope.

Section Cleaned.
Context {F : ofield}.
Local Open Scope F_scope.
Add Field FfC94c : (fth F).
Notation mat := (list (list F)).
Variables (fsqrt fexp flog : F -> F) (pi : F).
Variable w3j : Z -> Z -> Z -> Z -> Z -> F.
Variable eigh : mat -> list F * mat.
Variable np_inv : mat -> res mat.
Notation new := (field_new (fofZ 4 * pi) fsqrt eigh np_inv).
Notation corr := (corr pi).
Let d : F := (1 + 1 + 1 + 1) * pi.

(** the multipole of the stored coefficient (l, m) *)
Lemma ells_at L l m e : (m <= l)%nat -> (l <= L)%nat -> (e < 2)%nat -> nth (2 * pos L l m + e) (ells (Z.of_nat L)) 0%Z = Z.of_nat l /\ (2 * pos L l m + e < n_alm (Z.of_nat L))%nat.
Proof.
  intros Hm Hl He. assert (E1 : nth (2 * pos L l m + e) (ells (Z.of_nat L)) 0%Z = Z.of_nat l).
  { replace l with (m + (l - m))%nat by lia. set (j := (l - m)%nat). assert (Hj : (j < S L - m)%nat) by (unfold j; lia). rewrite <- off_pos_l by (unfold j; lia). rewrite <- Nat.add_assoc. unfold ells. replace (Z.to_nat (Z.of_nat L + 1)) with (S L) by lia.
    rewrite (nth_blocks _ (wid (S L))) by (try (intros; rewrite (length_two Z.of_nat Z.of_nat), seq_length; reflexivity); unfold wid; lia).
    destruct (nth_two Z.of_nat Z.of_nat m (S L - m) j 0%Z Hj) as [A1 A2]. destruct e as [|[|e]]; [rewrite Nat.add_0_r; exact A1 | exact A2 | lia]. }
  split; [exact E1|]. unfold n_alm. rewrite length_ells. replace l with (m + (l - m))%nat by lia. rewrite <- off_pos_l by lia.
  assert (Mono : forall a b, (a <= b)%nat -> (off (wid (S L)) a <= off (wid (S L)) b)%nat) by (intros a b; induction 1; cbn [off]; lia).
  pose proof (Mono (S m) (S L) ltac:(lia)) as X. change (off (wid (S L)) (S m)) with (off (wid (S L)) m + 2 * (S L - m))%nat in X. lia.
Qed.
(** filtering one of two sets of coefficients by a function of l multiplies their spectrum by it *)
Lemma spectrum_filter L (x y v : list F) (c : nat -> F) l : (l <= L)%nat -> (forall i, (i < n_alm (Z.of_nat L))%nat -> nth i y 0 = nth i x 0 * c (Z.to_nat (nth i (ells (Z.of_nat L)) 0%Z))) ->
  spectrum L y v l = c l * spectrum L x v l.
Proof.
  intros Hl H. assert (V : forall m e, (m <= l)%nat -> (e < 2)%nat -> nth (2 * pos L l m + e) y 0 = nth (2 * pos L l m + e) x 0 * c l) by (intros m e Hm He; destruct (ells_at L l m e Hm Hl He) as [E1 E2]; rewrite (H _ E2), E1, Nat2Z.id; reflexivity).
  unfold spectrum, re, im. rewrite <- (Nat.add_0_r (2 * pos L l 0)). rewrite (V 0%nat 0%nat) by lia.
  rewrite (sum_ext l _ (fun m => c l * (nth (2 * pos L l (S m)) x 0 * nth (2 * pos L l (S m)) v 0 + nth (2 * pos L l (S m) + 1) x 0 * nth (2 * pos L l (S m) + 1) v 0))).
  - rewrite sum_mul_l. rewrite !(Fdiv_def (fth F)). ring.
  - intros m Hm. rewrite (V (S m) 1%nat) by lia. pose proof (V (S m) 0%nat ltac:(lia) ltac:(lia)) as V0. rewrite Nat.add_0_r in V0. rewrite V0. ring.
Qed.

(** the transforms: map2alm is the sum over pixels weighted by their areas, with the harmonics [Y p] of a point source at pixel p, and alm2map evaluates the harmonics at the pixels *)
Definition transforms (K : calc F) (s : minfo F) (L : nat) (n_iter : Z) (x : nat -> nat -> F) : Prop := exists Y : nat -> list F,
  (forall m, length m = npix s -> exists a, sht K 0 s (Z.of_nat L) n_iter [m] = Ok [a] /\ forall i, nth i a 0 = sum (npix s) (fun p => pw s p * nth p m 0 * nth i (Y p) 0)) /\
  (forall p q l, (p < npix s)%nat -> (q < npix s)%nat -> (l <= L)%nat -> spectrum L (Y p) (Y q) l = leg (x p q) l / d) /\
  (forall y z q, length y = n_alm (Z.of_nat L) -> isht K 0 s (Z.of_nat L) [y] = Ok z -> (q < npix s)%nat -> mg z 0 q = sum (S L) (fun l => fofnat (2 * l + 1) * spectrum L y (Y q) l)).
Lemma transforms_harmonic K s L n x : transforms K s L n x -> harmonic pi K s L n (pw s) x.
Proof. intros (Y & A & B & _). exists Y. split; assumption. Qed.
Lemma corr_sym K s L n x p q c : transforms K s L n x -> (p < npix s)%nat -> (q < npix s)%nat -> pi <> 0 -> corr (S L) c (x p q) = corr (S L) c (x q p).
Proof.
  intros (Y & _ & B & _) Hp Hq Hpi. unfold corr. apply sum_ext. intros l Hl. f_equal. assert (D : d <> 0) by (apply four_pi; exact Hpi).
  assert (E : leg (x p q) l / d = leg (x q p) l / d) by (rewrite <- !B by (assumption || lia); apply spectrum_sym). apply (f_equal (fun z => z * d)) in E. rewrite !(Fdiv_def (fth F)) in E.
  transitivity (leg (x p q) l * finv d * d); [field; exact D|]. rewrite E. field. exact D.
Qed.
(** an isotropic sky is correlated, in the sense of the property of the deprojection bias, with its angular power spectrum *)
Theorem C94_correlated K (f g : nfield F) n_iter L x (c : list F) N (pr : nat -> F) (sf sg : nat -> mat) :
  pi <> 0 -> f_spin f = 0%Z -> f_spin g = 0%Z -> f_info f = f_info g -> f_lmax f = Z.of_nat L -> f_lmax g = Z.of_nat L -> length (f_mask f) = npix (f_info f) -> (forall t, In t (otl (f_temp f)) -> L_Utils.shaped 1 (npix (f_info f)) t) ->
  transforms K (f_info f) L n_iter x ->
  (forall p q, (p < npix (f_info f))%nat -> (q < npix (f_info f))%nat -> sum N (fun k => pr k * (mg (sf k) 0 p * mg (sg k) 0 q)) = corr (S L) (fun l => nth l c 0) (x p q)) ->
  correlated K f g n_iter 1 1 (fun _ _ => c) N pr sf sg.
Proof.
  intros Hpi S1 S2 EI L1 L2 Lm St (Y & A & B & Sy) Iso t u y z It Eu Hy Vy Ez c' q Hc Hq. assert (D : d <> 0) by (apply four_pi; exact Hpi).
  rewrite <- EI in *. set (s := f_info f) in *. rewrite S1, L1 in Eu. rewrite S2, L2 in Ez. rewrite L1 in Hy, Vy. assert (c' = 0)%nat as -> by lia. clear Hc.
  pose proof (St t It) as Ht. destruct Ht as [Lt Ft]. destruct t as [|tv [|? ?]]; try discriminate Lt. inversion Ft as [|? ? Ltv _]; subst. clear Lt Ft.
  cbn [map] in Eu. assert (Lv : length (vmul (f_mask f) tv) = npix s) by (unfold vmul; rewrite length_zipw, Lm, Ltv; apply Nat.min_id).
  destruct (A _ Lv) as (a & Ea & Va). rewrite Eu in Ea. injection Ea as ->.
  destruct Hy as [Ly Fy]. destruct y as [|yv [|? ?]]; try discriminate Ly. inversion Fy as [|? ? Lyv _]; subst. clear Ly Fy.
  rewrite (Sy yv z q Lyv Ez Hq).
  assert (V : forall i, (i < n_alm (Z.of_nat L))%nat -> nth i yv 0 = nth i a 0 * nth (Z.to_nat (nth i (ells (Z.of_nat L)) 0%Z)) c 0).
  { intros i Hi. pose proof (Vy 0%nat i (le_n 1) Hi) as H. unfold mg in H. cbn [nth sum] in H. rewrite H. ring. }
  transitivity (sum (npix s) (fun p => nth p (f_mask f) 0 * nth p tv 0 * pw s p * corr (S L) (fun l => nth l c 0) (x p q))).
  - transitivity (sum N (fun k => sum (npix s) (fun p => nth p (f_mask f) 0 * nth p tv 0 * pw s p * (pr k * (mg (sf k) 0 p * mg (sg k) 0 q))))).
    + apply sum_ext. intros k _. cbn [sum]. match goal with |- pr k * (0 + ?S) * ?m = _ => transitivity ((pr k * m) * S); [ring|] end. rewrite <- sum_mul_l. apply sum_ext. intros p _. change (mg [tv] 0 p) with (nth p tv 0). fold s. ring.
    + rewrite (sum_swap N (npix s)). apply sum_ext. intros p Hp. rewrite sum_mul_l. rewrite Iso by assumption. reflexivity.
  - unfold corr. rewrite (sum_ext (npix s) _ (fun p => sum (S L) (fun l => nth p (f_mask f) 0 * nth p tv 0 * pw s p * (fofnat (2 * l + 1) / ((1 + 1 + 1 + 1) * pi) * nth l c 0 * leg (x p q) l)))) by (intros p _; symmetry; apply sum_mul_l).
    rewrite (sum_swap (npix s) (S L)). apply sum_ext. intros l Hl. rewrite (spectrum_filter L a yv (Y q) (fun l => nth l c 0) l ltac:(lia) V).
    rewrite (spectrum_lin_l L (npix s) (fun p => pw s p * nth p (vmul (f_mask f) tv) 0) Y a (Y q) l) by exact Va. rewrite <- !sum_mul_l. apply sum_ext. intros p Hp. rewrite B by (assumption || lia). unfold vmul. rewrite (nth_zipw _ _ _ p 0 0 0) by (rewrite ?Lm, ?Ltv; exact Hp). fold d. rewrite !(Fdiv_def (fth F)). ring.
Qed.

(** a cleaned field has the geometry of the plain one *)
Lemma cleaned_static K p a t im f h : plain a -> head_of (fofZ 4 * pi) a = Ok h -> h_mask_a h = None -> new K p (set_data a [im] t false) = Ok f ->
  f_info f = h_s h /\ f_mask f = h_mask h /\ f_lmax f = h_lmax h /\ f_niter f = opt (a_niter a) (n_iter_default p) /\ f_mask_a f = None /\ f_spin f = 0%Z.
Proof.
  intros (R & W2 & W3 & ET & E1 & E2 & EM) Eh HA Hf. rewrite new_staged in Hf. unfold staged in Hf. rewrite head_set_data, Eh in Hf. cbn [bind] in Hf. cbn [set_data a_maps] in Hf.
  apply bind_ok in Hf as ([[sp m'] tm] & Eb & Hf). apply bind_ok in Hf as ([[[c cu] iM] als] & Ec & Hf). destruct (body_inv _ _ _ _ _ _ Eb) as (Bs & _). unfold alms_of, L_Field2.pure in Hf. cbn [set_data a_pe a_pb] in Hf. rewrite E1, E2 in Hf. cbn [orb] in Hf. apply bind_ok in Hf as (alm & Ea & Hf). apply bind_ok in Hf as (altm & Eb' & Hf). injection Hf as <-.
  assert (sp = 0%Z) as -> by (cbn [set_data a_spin length] in Bs; unfold spin_of in Bs; cbn in Bs; destruct (a_spin a) as [z|]; [destruct (Z.eqb_spec z 0); [subst z|]; cbn in Bs; [injection Bs as <-; reflexivity | discriminate Bs] | injection Bs as <-; reflexivity]).
  repeat split; assumption.
Qed.

(** *** C94: templates. The realisations [u1 k], [u2 k] of the sky (weights [pr k]) are fields of a survey as above; [v1 k], [v2 k] are the same maps cleaned of the templates [t1], [t2], each with its
    own coupled spectrum [C k]. The sky is isotropic, also outside the masks, and [guess] is its spectrum. *)
Definition mean (N : nat) (pr : nat -> F) (f : nat -> F) : F := sum N (fun k => pr k * f k).
Record templates K p a1 a2 t1 t2 g1 g2 (i : minp (F:=F)) x (c : list F) N pr (im1 im2 : nat -> imap F) (v1 v2 : nat -> nfield F) (C : nat -> mat) (same : bool) (guess : mat) : Prop := {
  tp_linear : linear K; tp_inv : inv_sym np_inv; tp_some : (0 < N)%nat;
  tp_sht : transforms K (f_info g1) (Z.to_nat (f_lmax g1)) (f_niter g1) x;
  tp_v1 : forall k, rect_args (set_data a1 [im1 k] t1 false) /\ new K p (set_data a1 [im1 k] t1 false) = Ok (v1 k);
  tp_v2 : forall k, rect_args (set_data a2 [im2 k] t2 false) /\ new K p (set_data a2 [im2 k] t2 false) = Ok (v2 k);
  tp_cell : forall k, compute_coupled_cell same (of_map (v1 k)) (of_map (v2 k)) = Ok (C k);
  tp_sky : forall r q, (r < npix (f_info g1))%nat -> (q < npix (f_info g1))%nat -> mean N pr (fun k => nth r (pixels (f_info g1) (im1 k)) 0 * nth q (pixels (f_info g1) (im2 k)) 0) = corr (nell i) (fun l => nth l (nth 0 guess []) 0) (x r q);
  tp_guess : length guess = 1%nat /\ forall l, (l < nell i)%nat -> nth l (nth 0 guess []) 0 = nth l (f_beam g1) 0 * nth l (f_beam g2) 0 * nth l c 0 }.
Theorem C94_deprojected junk K p a1 a2 t1 t2 g1 g2 i ws x k c N pr im1 im2 u1 u2 v1 v2 D C same same' guess n_iter B :
  libm_laws fsqrt fexp flog -> pi <> 0 -> survey fsqrt fexp flog pi w3j eigh np_inv (mean N pr) junk K p a1 a2 g1 g2 i ws (pw (f_info g1)) x c im1 im2 u1 u2 D same ->
  templates K p a1 a2 t1 t2 g1 g2 i x c N pr im1 im2 v1 v2 C same' guess ->
  opt n_iter (n_iter_default p) = f_niter g1 -> deprojection_bias fsqrt K p (v1 0%nat) (v2 0%nat) guess n_iter = Ok B -> length c = k -> (nell i <= k)%nat ->
  exists o, couple_cell (obj ws) (A2 k [c]) = Ok (A2 (nell i) [o]) /\ length o = nell i /\
  forall l, (l < nell i)%nat -> mask_limit i c (mpower pi (pw (f_info g1)) x (f_info g1) (f_mask g1) (f_mask g2)) l -> mean N pr (fun w => mg (C w) 0 l) = nth l o 0 + mg B 0 l.
Proof.
  intros LL Hpi S T Ni HB Lc Hk. destruct (C94_mean fsqrt fexp flog pi w3j eigh np_inv (mean N pr) _ _ _ _ _ _ _ _ _ _ _ k _ _ _ _ _ _ _ LL Hpi S Lc Hk) as (o & Eo & Lo & Fo). exists o. split; [exact Eo|]. split; [exact Lo|]. intros l Hl Room. rewrite <- (Fo l Hl Room). clear o Eo Lo Fo Room.
  destruct S as [AV [P1 P2] [G1 G2] WI SI Ew [NI NM] H1 H2 Hf1 Hf2 HD Iso]. destruct T as [LK IS HN TR Hv1 Hv2 HC Sky [Lg Vg]].
  destruct WI as (I1 & I2 & I3 & I4 & I5 & I6 & I7 & _).
  destruct (plain_head fsqrt pi eigh np_inv K p a1 g1 P1 G1) as (h1 & Eh1 & B1 & B2 & B3 & B4 & _ & B6 & B7 & B8 & B9 & B10). destruct (plain_head fsqrt pi eigh np_inv K p a2 g2 P2 G2) as (h2 & Eh2 & C1 & C2 & C3 & C4 & _ & C6 & C7 & C8 & C9 & C10).
  assert (PB : (0 <= n_lmax i <= n_lmm i)%Z) by (pose proof (sc_ok i SI) as H; destruct (valid_bins_facts _ (fo_bins i H)) as [_ [_ P0]]; pose proof (fo_lmm i H); unfold n_lmax in *; lia).
  set (L := Z.to_nat (f_lmax g1)) in *. assert (EL : Z.of_nat L = f_lmax g1) by (unfold L; lia). assert (EN : nell i = Datatypes.S L) by (unfold nell, L; lia).
  assert (V1 : forall k, f_info (v1 k) = h_s h1 /\ f_mask (v1 k) = h_mask h1 /\ f_lmax (v1 k) = h_lmax h1 /\ f_niter (v1 k) = opt (a_niter a1) (n_iter_default p) /\ f_mask_a (v1 k) = None /\ f_spin (v1 k) = 0%Z) by (intro k0; eapply cleaned_static; [exact P1 | exact Eh1 | exact B10 | apply Hv1]).
  assert (V2 : forall k, f_info (v2 k) = h_s h2 /\ f_mask (v2 k) = h_mask h2 /\ f_lmax (v2 k) = h_lmax h2 /\ f_niter (v2 k) = opt (a_niter a2) (n_iter_default p) /\ f_mask_a (v2 k) = None /\ f_spin (v2 k) = 0%Z) by (intro k0; eapply cleaned_static; [exact P2 | exact Eh2 | exact C10 | apply Hv2]).
  destruct (V1 0%nat) as (X1 & X2 & X3 & X4 & X5 & X6). destruct (V2 0%nat) as (Y1 & Y2 & Y3 & Y4 & Y5 & Y6).
  assert (Lite : f_lite (v1 0%nat) = false /\ f_lite (v2 0%nat) = false).
  { pose proof HB as HB'. unfold M_Cell.deprojection_bias in HB'. cbv zeta in HB'. destruct (is_compatible (v1 0%nat) (v2 0%nat) true) eqn:Ec; cbn [negb] in HB'; [|discriminate HB']. destruct (negb (shape_is _ _ _)) in HB'; [discriminate HB'|]. destruct (f_lite (v1 0%nat)), (f_lite (v2 0%nat)); cbn [orb] in HB'; try discriminate HB'. auto. }
  destruct Lite as [Li1 Li2].
  set (s1 := fun k => [pixels (f_info g1) (im1 k)]). set (s2 := fun k => [pixels (f_info g1) (im2 k)]).
  assert (U1 : forall k, new K p (set_data a1 [im1 k] TNone false) = Ok (u1 k)).
  { intro k0. destruct (Hf1 k0) as [_ E]. rewrite <- E. destruct P1 as (_ & _ & _ & ET & _ & _ & EM). unfold with_map. rewrite ET, EM. reflexivity. }
  assert (U2 : forall k, new K p (set_data a2 [im2 k] TNone false) = Ok (u2 k)).
  { intro k0. destruct (Hf2 k0) as [_ E]. rewrite <- E. destruct P2 as (_ & _ & _ & ET & _ & _ & EM). unfold with_map. rewrite ET, EM. reflexivity. }
  assert (M1 : forall k, mapM (reform_map (f_info (v1 0%nat))) [im1 k] = Ok (s1 k)).
  { intro k0. destruct (Hf1 k0) as [Rk E]. destruct (plain_alm fsqrt pi eigh np_inv K p a1 (im1 k0) (u1 k0) h1 P1 Rk Eh1 E) as (_ & _ & _ & alm & _ & Er & _). rewrite X1. cbn [mapM]. rewrite Er. cbn [bind]. unfold s1. rewrite B1. reflexivity. }
  assert (M2 : forall k, mapM (reform_map (f_info (v2 0%nat))) [im2 k] = Ok (s2 k)).
  { intro k0. destruct (Hf2 k0) as [Rk E]. destruct (plain_alm fsqrt pi eigh np_inv K p a2 (im2 k0) (u2 k0) h2 P2 Rk Eh2 E) as (_ & _ & _ & alm & _ & Er & _). rewrite Y1. cbn [mapM]. rewrite Er. cbn [bind]. unfold s2. rewrite I1, C1. reflexivity. }
  assert (T1 : forall t, In t (otl (f_temp (v1 0%nat))) -> L_Utils.shaped 1 (npix (f_info (v1 0%nat))) t).
  { destruct (family (fofZ 4 * pi) fsqrt eigh np_inv K p a1 t1 N (fun k => [im1 k]) v1 u1 s1 0%nat 1%nat LK IS HN) as (h & sp & t0 & T0 & iM & _ & Lh & _ & _ & (A4 & _) & _ & _ & _ & Sh & Et & _); [intros; reflexivity | intros; apply Hv1 | intros; apply Hv1 | intros; apply U1 | exact Li1 | exact X5 | intros; apply M1 |].
    intros t It. rewrite Et in It. apply in_map_iff in It as (t' & <- & It). rewrite A4. apply shaped_vmul; [exact Lh | apply Sh, It]. }
  assert (T2 : forall t, In t (otl (f_temp (v2 0%nat))) -> L_Utils.shaped 1 (npix (f_info (v2 0%nat))) t).
  { destruct (family (fofZ 4 * pi) fsqrt eigh np_inv K p a2 t2 N (fun k => [im2 k]) v2 u2 s2 0%nat 1%nat LK IS HN) as (h & sp & t0 & T0 & iM & _ & Lh & _ & _ & (A4 & _) & _ & _ & _ & Sh & Et & _); [intros; reflexivity | intros; apply Hv2 | intros; apply Hv2 | intros; apply U2 | exact Li2 | exact Y5 | intros; apply M2 |].
    intros t It. rewrite Et in It. apply in_map_iff in It as (t' & <- & It). rewrite A4. apply shaped_vmul; [exact Lh | apply Sh, It]. }
  assert (J1 : f_info (v1 0%nat) = f_info g1) by (rewrite X1, B1; reflexivity). assert (J2 : f_info (v2 0%nat) = f_info g1) by (rewrite Y1, I1, C1; reflexivity). assert (Q1 : f_niter (v1 0%nat) = f_niter g1) by (rewrite X4, B6; reflexivity). assert (Q2 : f_niter (v2 0%nat) = f_niter g1) by (rewrite Y4, NI, C6; reflexivity).
  assert (K1 : correlated K (v1 0%nat) (v2 0%nat) (f_niter (v1 0%nat)) 1 1 (fun m n => nth (m * 1 + n) guess []) N pr s1 s2).
  { assert (X : correlated K (v1 0%nat) (v2 0%nat) (f_niter (v1 0%nat)) 1 1 (fun _ _ => nth 0 guess []) N pr s1 s2).
    { apply (C94_correlated K _ _ _ L x _ _ _ _ _ Hpi X6 Y6); [rewrite J1, J2; reflexivity | rewrite X3, EL, B3; reflexivity | rewrite Y3, EL, I2, C3; reflexivity | rewrite X1, X2; exact B9 | exact T1 | rewrite J1, Q1; exact TR | rewrite J1]. intros r q Hr Hq. rewrite <- EN, <- (Sky r q Hr Hq). reflexivity. }
    intros t xx yy zz It Ex Sy Vy. apply (X t xx yy zz It Ex Sy). intros n j Hn Hj. rewrite (Vy n j Hn Hj). apply sum_ext. intros m Hm. replace (m * 1 + n)%nat with 0%nat by lia. reflexivity. }
  assert (K2 : correlated K (v2 0%nat) (v1 0%nat) (f_niter (v1 0%nat)) 1 1 (fun n m => nth (m * 1 + n) guess []) N pr s2 s1).
  { assert (X : correlated K (v2 0%nat) (v1 0%nat) (f_niter (v1 0%nat)) 1 1 (fun _ _ => nth 0 guess []) N pr s2 s1).
    { apply (C94_correlated K _ _ _ L x _ _ _ _ _ Hpi Y6 X6); [rewrite J1, J2; reflexivity | rewrite Y3, EL, I2, C3; reflexivity | rewrite X3, EL, B3; reflexivity | rewrite Y1, Y2; exact C9 | exact T2 | rewrite J2, Q1; exact TR | rewrite J2]. intros r q Hr Hq. rewrite (corr_sym K (f_info g1) L (f_niter g1) x r q _ TR Hr Hq Hpi). rewrite <- EN, <- (Sky q r Hq Hr). unfold mean. apply sum_ext. intros k0 _. unfold s1, s2, mg. cbn [nth]. ring. }
    intros t xx yy zz It Ex Sy Vy. apply (X t xx yy zz It Ex Sy). intros n j Hn Hj. rewrite (Vy n j Hn Hj). apply sum_ext. intros m Hm. replace (n * 1 + m)%nat with 0%nat by lia. reflexivity. }
  destruct (C44_bias (fofZ 4 * pi) fsqrt eigh np_inv K p a1 a2 t1 t2 N 0%nat (fun k => [im1 k]) (fun k => [im2 k]) 1 1 v1 v2 u1 u2 s1 s2 C D pr same' same guess n_iter B) as [_ FB]; [| exact X5 | exact Y5 | rewrite Ni, Q1; reflexivity | rewrite Q1, Q2; reflexivity | exact HB | apply (FB 0%nat l); [lia | rewrite X3, <- B3; lia]].
  split; [exact LK|]. split; [exact IS|]. split; [exact HN|]. split; [intros; split; reflexivity|]. split; [intros k0 _; split; [apply Hv1 | apply Hv2]|]. split; [intros k0 _; split; [apply Hv1 | apply Hv2]|]. split; [intros k0 _; split; [apply U1 | apply U2]|]. split; [intros k0 _; split; [apply M1 | apply M2]|].
  split; [exact K1|]. split; [exact K2|]. intros k0 _. split; [apply HC | apply HD].
Qed.

(** shapes of the spectra of cleaned fields and of the bias *)
Lemma cleaned_shapes junk K p a1 a2 t1 t2 g1 g2 i ws wt x c N pr im1 im2 u1 u2 v1 v2 D C same same' guess n_iter B :
  survey fsqrt fexp flog pi w3j eigh np_inv (mean N pr) junk K p a1 a2 g1 g2 i ws wt x c im1 im2 u1 u2 D same -> templates K p a1 a2 t1 t2 g1 g2 i x c N pr im1 im2 v1 v2 C same' guess ->
  deprojection_bias fsqrt K p (v1 0%nat) (v2 0%nat) guess n_iter = Ok B -> (forall w, P_Workspace.spectra 1 (nell i) (C w)) /\ P_Workspace.spectra 1 (nell i) B.
Proof.
  intros S T HB.
  destruct S as [AV [P1 P2] [G1 G2] WI SI Ew [NI NM] H1 H2 Hf1 Hf2 HD Iso]. destruct T as [LK IS HN TR Hv1 Hv2 HC Sky [Lg Vg]].
  destruct WI as (I1 & I2 & I3 & I4 & I5 & I6 & I7 & _).
  destruct (plain_head fsqrt pi eigh np_inv K p a1 g1 P1 G1) as (h1 & Eh1 & B1 & B2 & B3 & B4 & _ & B6 & B7 & B8 & B9 & B10). destruct (plain_head fsqrt pi eigh np_inv K p a2 g2 P2 G2) as (h2 & Eh2 & C1 & C2 & C3 & C4 & _ & C6 & C7 & C8 & C9 & C10).
  assert (PB : (0 <= n_lmax i <= n_lmm i)%Z) by (pose proof (sc_ok i SI) as H; destruct (valid_bins_facts _ (fo_bins i H)) as [_ [_ P0]]; pose proof (fo_lmm i H); unfold n_lmax in *; lia).
  set (L := Z.to_nat (f_lmax g1)) in *. assert (EL : Z.of_nat L = f_lmax g1) by (unfold L; lia). assert (EN : nell i = Datatypes.S L) by (unfold nell, L; lia).
  assert (V1 : forall k, f_info (v1 k) = h_s h1 /\ f_mask (v1 k) = h_mask h1 /\ f_lmax (v1 k) = h_lmax h1 /\ f_niter (v1 k) = opt (a_niter a1) (n_iter_default p) /\ f_mask_a (v1 k) = None /\ f_spin (v1 k) = 0%Z) by (intro k0; eapply cleaned_static; [exact P1 | exact Eh1 | exact B10 | apply Hv1]).
  assert (V2 : forall k, f_info (v2 k) = h_s h2 /\ f_mask (v2 k) = h_mask h2 /\ f_lmax (v2 k) = h_lmax h2 /\ f_niter (v2 k) = opt (a_niter a2) (n_iter_default p) /\ f_mask_a (v2 k) = None /\ f_spin (v2 k) = 0%Z) by (intro k0; eapply cleaned_static; [exact P2 | exact Eh2 | exact C10 | apply Hv2]).
  destruct (V1 0%nat) as (X1 & X2 & X3 & X4 & X5 & X6). destruct (V2 0%nat) as (Y1 & Y2 & Y3 & Y4 & Y5 & Y6).
  assert (Lite : f_lite (v1 0%nat) = false /\ f_lite (v2 0%nat) = false).
  { pose proof HB as HB'. unfold M_Cell.deprojection_bias in HB'. cbv zeta in HB'. destruct (is_compatible (v1 0%nat) (v2 0%nat) true) eqn:Ec; cbn [negb] in HB'; [|discriminate HB']. destruct (negb (shape_is _ _ _)) in HB'; [discriminate HB'|]. destruct (f_lite (v1 0%nat)), (f_lite (v2 0%nat)); cbn [orb] in HB'; try discriminate HB'. auto. }
  destruct Lite as [Li1 Li2].
  set (s1 := fun k => [pixels (f_info g1) (im1 k)]). set (s2 := fun k => [pixels (f_info g1) (im2 k)]).
  assert (U1 : forall k, new K p (set_data a1 [im1 k] TNone false) = Ok (u1 k)).
  { intro k0. destruct (Hf1 k0) as [_ E]. rewrite <- E. destruct P1 as (_ & _ & _ & ET & _ & _ & EM). unfold with_map. rewrite ET, EM. reflexivity. }
  assert (U2 : forall k, new K p (set_data a2 [im2 k] TNone false) = Ok (u2 k)).
  { intro k0. destruct (Hf2 k0) as [_ E]. rewrite <- E. destruct P2 as (_ & _ & _ & ET & _ & _ & EM). unfold with_map. rewrite ET, EM. reflexivity. }
  assert (M1 : forall k, mapM (reform_map (f_info (v1 0%nat))) [im1 k] = Ok (s1 k)).
  { intro k0. destruct (Hf1 k0) as [Rk E]. destruct (plain_alm fsqrt pi eigh np_inv K p a1 (im1 k0) (u1 k0) h1 P1 Rk Eh1 E) as (_ & _ & _ & alm & _ & Er & _). rewrite X1. cbn [mapM]. rewrite Er. cbn [bind]. unfold s1. rewrite B1. reflexivity. }
  assert (M2 : forall k, mapM (reform_map (f_info (v2 0%nat))) [im2 k] = Ok (s2 k)).
  { intro k0. destruct (Hf2 k0) as [Rk E]. destruct (plain_alm fsqrt pi eigh np_inv K p a2 (im2 k0) (u2 k0) h2 P2 Rk Eh2 E) as (_ & _ & _ & alm & _ & Er & _). rewrite Y1. cbn [mapM]. rewrite Er. cbn [bind]. unfold s2. rewrite I1, C1. reflexivity. }
  assert (W1 : forall w, exists al, f_alm (v1 w) = Some [al]).
  { intro w. destruct (family (fofZ 4 * pi) fsqrt eigh np_inv K p a1 t1 (Datatypes.S w) (fun k => [im1 k]) v1 u1 s1 0%nat 1%nat LK IS (Nat.lt_0_succ w)) as (h & sp & t0 & T0 & iM & _ & _ & _ & _ & _ & _ & _ & _ & _ & _ & _ & _ & _ & _ & _ & FK); [intros; reflexivity | intros; apply Hv1 | intros; apply Hv1 | intros; apply U1 | exact Li1 | exact X5 | intros; apply M1 |].
    destruct (FK w (Nat.lt_succ_diag_r w)) as (al & y & E1 & _ & _ & _ & _ & [La _] & _). destruct al as [|r [|]]; try discriminate La. exists r. exact E1. }
  assert (W2 : forall w, exists al, f_alm (v2 w) = Some [al]).
  { intro w. destruct (family (fofZ 4 * pi) fsqrt eigh np_inv K p a2 t2 (Datatypes.S w) (fun k => [im2 k]) v2 u2 s2 0%nat 1%nat LK IS (Nat.lt_0_succ w)) as (h & sp & t0 & T0 & iM & _ & _ & _ & _ & _ & _ & _ & _ & _ & _ & _ & _ & _ & _ & _ & FK); [intros; reflexivity | intros; apply Hv2 | intros; apply Hv2 | intros; apply U2 | exact Li2 | exact Y5 | intros; apply M2 |].
    destruct (FK w (Nat.lt_succ_diag_r w)) as (al & y & E1 & _ & _ & _ & _ & [La _] & _). destruct al as [|r [|]]; try discriminate La. exists r. exact E1. }
  split.
  - intro w. destruct (W1 w) as (r1 & E1). destruct (W2 w) as (r2 & E2). destruct (V1 w) as (_ & _ & VL & _).
    pose proof (C43_order same' (of_map (v1 w)) (of_map (v2 w)) (C w) [r1] [r2] L (HC w) E1 E2) as O. cbn [of_map g_lmax] in O. rewrite VL, <- B3, EL in O. destruct (O eq_refl) as [O1 O2]. specialize (O2 0%nat 0%nat 0%nat (le_n 1) (le_n 1) (Nat.le_0_l L)) as [O2 _]. cbn [length Nat.mul Nat.add] in O1, O2.
    destruct (C w) as [|r [|]]; try discriminate O1. cbn [nth] in O2. split; [reflexivity|]. intros r' [<-|[]]. rewrite O2. symmetry. exact EN.
  - destruct (family (fofZ 4 * pi) fsqrt eigh np_inv K p a1 t1 N (fun k => [im1 k]) v1 u1 s1 0%nat 1%nat LK IS HN) as (h & sp & t0 & T0 & iM & _ & _ & _ & _ & (_ & _ & _ & _ & N1) & _); [intros; reflexivity | intros; apply Hv1 | intros; apply Hv1 | intros; apply U1 | exact Li1 | exact X5 | intros; apply M1 |].
    destruct (family (fofZ 4 * pi) fsqrt eigh np_inv K p a2 t2 N (fun k => [im2 k]) v2 u2 s2 0%nat 1%nat LK IS HN) as (h' & sp' & t0' & T0' & iM' & _ & _ & _ & _ & (_ & _ & _ & _ & N2) & _); [intros; reflexivity | intros; apply Hv2 | intros; apply Hv2 | intros; apply U2 | exact Li2 | exact Y5 | intros; apply M2 |].
    unfold M_Cell.deprojection_bias in HB. cbv zeta in HB. destruct (is_compatible (v1 0%nat) (v2 0%nat) true); cbn [negb] in HB; [|discriminate HB]. destruct (negb (shape_is _ _ _)) in HB; [discriminate HB|]. rewrite Li1, Li2 in HB. cbn [orb] in HB.
    apply bind_ok in HB as (pff & _ & HB). apply bind_ok in HB as (gg & _ & HB). apply bind_ok in HB as (pfg & _ & HB). injection HB as <-. rewrite N1, N2. unfold M_Cell.spectra. cbn [tab map seq concat app]. split; [reflexivity|]. intros r [<-|[]]. rewrite length_tab, X3, <- B3. unfold nell. rewrite I4. reflexivity.
Qed.
(** with that bias as the argument cl_bias of decouple_cell, the means of the bandpowers are the bandpower windows times the spectrum of the sky *)
Theorem C94_deprojected_bandpowers junk K p a1 a2 t1 t2 g1 g2 i ws x c N pr im1 im2 u1 u2 v1 v2 D C same same' guess n_iter B (o : nat -> mat) W :
  libm_laws fsqrt fexp flog -> pi <> 0 -> survey fsqrt fexp flog pi w3j eigh np_inv (mean N pr) junk K p a1 a2 g1 g2 i ws (pw (f_info g1)) x c im1 im2 u1 u2 D same ->
  templates K p a1 a2 t1 t2 g1 g2 i x c N pr im1 im2 v1 v2 C same' guess -> sum N pr = 1 ->
  opt n_iter (n_iter_default p) = f_niter g1 -> deprojection_bias fsqrt K p (v1 0%nat) (v2 0%nat) guess n_iter = Ok B -> length c = nell i ->
  (forall l, (l < nell i)%nat -> mask_limit i c (mpower pi (pw (f_info g1)) x (f_info g1) (f_mask g1) (f_mask g2)) l) -> let nb := Z.to_nat (get_n_bands (n_bin i)) in
  (forall w, decouple_cell (obj ws) (A2 (nell i) (C w)) (Some (A2 (nell i) B)) None = Ok (A2 nb (o w))) -> get_bandpower_windows (obj ws) = Ok W ->
  forall b, (b < nb)%nat -> mean N pr (fun w => entry2 (o w) 0 b) = sum (nell i) (fun l => nth l (nth 0 (nth b (nth 0 W []) []) []) 0 * nth l c 0).
Proof.
  intros LL Hpi S T Norm Ni HB Lc Room nb HD HW b Hb. destruct (C94_deprojected junk K p a1 a2 t1 t2 g1 g2 i ws x (nell i) c N pr im1 im2 u1 u2 v1 v2 D C same same' guess n_iter B LL Hpi S T Ni HB Lc (le_n _)) as (v & Ev & Lv & Mv).
  destruct (cleaned_shapes _ _ _ _ _ _ _ _ _ _ _ _ _ _ _ _ _ _ _ _ _ _ _ _ _ _ _ _ _ S T HB) as [RC RB].
  pose proof (sv_scalar _ _ _ _ _ _ _ _ _ _ _ _ _ _ _ _ _ _ _ _ _ _ _ _ _ _ S) as SI. pose proof (sv_ws _ _ _ _ _ _ _ _ _ _ _ _ _ _ _ _ _ _ _ _ _ _ _ _ _ _ S) as Ew. pose proof (sv_average _ _ _ _ _ _ _ _ _ _ _ _ _ _ _ _ _ _ _ _ _ _ _ _ _ _ S) as AV. clear S T HB.
  assert (T : toeplitz_sanity (n_lt i) (n_lex i) (n_dl i) (n_lmax i) (purified i) = Ok tt) by (unfold P_MCM.mcompute in Ew; fold (purified i) in Ew; destruct (toeplitz_sanity _ _ _ _ _) as [[]| |]; [reflexivity | discriminate Ew | discriminate Ew]).
  destruct (mcompute_built fsqrt fexp flog pi w3j junk i (sc_ok i SI) T) as [st [_ Eb]]. rewrite Ew in Eb. injection Eb as ->.
  pose proof (built_valid fsqrt fexp flog pi w3j i st (sc_ok i SI)) as V. set (j := built pi i st) in *. assert (E1 : i_ncls j = 1%nat) by (apply spec_1; exact SI). assert (E2 : i_nell j = nell i) by (unfold i_nell, nell, j, built, n_lmax; cbn; f_equal; lia). assert (E3 : Z.to_nat (get_n_bands (i_bin j)) = nb) by reflexivity.
  set (cl := fun w => minus (i_ncls j) (nell i) (C w) (Some B) None).
  assert (RC' : forall w, P_Workspace.spectra (i_ncls j) (nell i) (cl w)) by (intro; apply rect_tab).
  assert (HD' : forall w, decouple_cell (obj (mk j)) (A2 (nell i) (cl w)) None None = Ok (A2 nb (o w))).
  { intro w. rewrite <- (HD w). symmetry. apply (C15_biases_subtracted j (mk j) (nell i) (C w) (Some B) None V (compute_ok j V)); [rewrite E2; apply le_n | rewrite E1; apply RC | unfold opt_spectra; rewrite E1; exact RB | exact I]. }
  pose proof (mean_decouple fsqrt fexp flog pi w3j (mean N pr) j 0%nat (nell i) cl o AV V ltac:(rewrite E2; apply le_n) RC' HD') as MD. rewrite E3 in MD.
  assert (EV : tab (i_ncls j) (fun a => tab (nell i) (fun l => mean N pr (fun w => entry2 (cl w) a l))) = [v]).
  { rewrite E1. cbn [tab map seq]. f_equal. apply nth_ext with 0 0; [rewrite length_tab; symmetry; exact Lv|]. intros l Hl. rewrite length_tab in Hl. rewrite nth_tab by exact Hl.
    assert (X : mean N pr (fun w => entry2 (cl w) 0 l) = mean N pr (fun w => mg (C w) 0 l) - mg B 0 l * sum N pr).
    { unfold mean. rewrite <- sum_mul_l, <- sum_sub. apply sum_ext. intros w _. unfold cl, minus. rewrite entry_tab by (rewrite ?E1; assumption || lia). unfold entry2, mg. ring. }
    rewrite X, Norm, (Mv l Hl (Room l Hl)). ring. }
  rewrite EV in MD. rewrite <- E2 in Ev, MD.
  destruct (C14_windows j (mk j) W [c] _ _ V (compute_ok j V) ltac:(rewrite E1, E2; split; [reflexivity|intros r [<-|[]]; exact Lc]) HW Ev MD) as (rows & Er & Hr).
  injection Er as Er. rewrite E1, E3 in Hr. specialize (Hr 0%nat b ltac:(lia) Hb). rewrite <- Er in Hr. rewrite entry_tab in Hr by (try exact Hb; rewrite (spec_1 i SI); lia). rewrite Hr. rewrite E2. cbn [sum]. rewrite ?E1. cbn [sum entry2 nth]. unfold entry2. cbn [nth]. ring_simplify. reflexivity.
Qed.
End Cleaned.
Print Assumptions C94_correlated.
Print Assumptions C94_deprojected.
Print Assumptions C94_deprojected_bandpowers.
