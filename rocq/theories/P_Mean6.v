(** Property C94, continued: cross-spectra of fields that are sampled at different points: two catalogues, or a catalogue and a map. *)
From Verif Require Import Base M_Utils L_Utils M_Field L_Field L_Field2 M_Cell L_Cell P_Field5 P_Cell P_Catalog M_Bins M_LinAlg M_Workspace M_MCM L_Bins L_Bins2 L_Bins3 P_Bins L_LinAlg L_Workspace P_Workspace L_MCM L_MCM2 L_MCM3 P_MCM P_MCM2 L_MCM4 P_MCM3 L_Legendre P_Legendre M_SynSph P_SynSph P_Mean P_Mean3.
Local Open Scope nat_scope.

Section Mean6.
Context {F : ofield}.
Local Open Scope F_scope.
Add Field FfC94x : (fth F).
Notation mat := (list (list F)).
Variables (fsqrt fexp flog : F -> F) (pi : F).
Variable w3j : Z -> Z -> Z -> Z -> Z -> F.
Notation mcompute := (mcompute fsqrt fexp flog pi w3j).
Notation corr := (corr pi).
Let d : F := (1 + 1 + 1 + 1) * pi.
Context {Om : Type}.
Variable E : (Om -> F) -> F.

(** sums over two sets of points *)
Definition rpairs (n1 n2 : nat) (m1 m2 : nat -> F) (h : nat -> nat -> F) : F := sum n1 (fun p => sum n2 (fun q => m1 p * m2 q * h p q)).
(** power of two sets of weights at L *)
Definition rpower (n1 n2 : nat) (m1 m2 : nat -> F) (x : nat -> nat -> F) (L : nat) : F := rpairs n1 n2 m1 m2 (fun p q => leg (x p q) L) / d.
Definition cut (n : nat) (m : nat -> F) (p : nat) : F := if (p <? n)%nat then m p else 0.
Lemma sum_cut n k (m f : nat -> F) : sum (n + k) (fun p => cut n m p * f p) = sum n (fun p => m p * f p).
Proof.
  rewrite sum_plus, (sum_zero k) by (intros p _; unfold cut; replace (n + p <? n)%nat with false by (symmetry; apply Nat.ltb_ge; lia); ring).
  match goal with |- ?a + 0 = _ => transitivity a; [ring|] end. apply sum_ext. intros p Hp. unfold cut. replace (p <? n)%nat with true by (symmetry; apply Nat.ltb_lt; exact Hp). reflexivity.
Qed.
Lemma rpairs_square n1 n2 m1 m2 h : rpairs n1 n2 m1 m2 h = pairs (n1 + n2) (fun p q => cut n1 m1 p * cut n2 m2 q) h.
Proof.
  unfold rpairs, pairs. rewrite (sum_ext (n1 + n2) _ (fun p => cut n1 m1 p * sum n2 (fun q => m2 q * h p q))).
  - rewrite sum_cut. apply sum_ext. intros p _. rewrite <- sum_mul_l. apply sum_ext. intros. ring.
  - intros p _. rewrite (Nat.add_comm n1 n2), <- (sum_cut n2 n1 m2 (h p)), <- sum_mul_l. apply sum_ext. intros. ring.
Qed.
Lemma core2 n1 n2 m1 m2 (x : nat -> nat -> F) N NM (c : nat -> F) l : pi <> 0 -> (forall l' L, (l' < N)%nat -> (NM <= L)%nat -> (L <= l + l')%nat -> c l' = 0 \/ rpower n1 n2 m1 m2 x L = 0) ->
  rpairs n1 n2 m1 m2 (fun p q => corr N c (x p q) * leg (x p q) l) / d =
  sum N (fun l' => fofnat (2 * l' + 1) * sum NM (fun L => fofnat (2 * L + 1) / d * rpower n1 n2 m1 m2 x L * T3 (Z.of_nat l) (Z.of_nat l') (Z.of_nat L)) * c l').
Proof.
  intros Hpi H. assert (P : forall L, rpower n1 n2 m1 m2 x L = ppower pi (n1 + n2) (fun p q => cut n1 m1 p * cut n2 m2 q) x L) by (intro L; unfold rpower, ppower; rewrite rpairs_square; reflexivity).
  rewrite rpairs_square. unfold d. rewrite (core fsqrt fexp flog pi _ _ x N NM c l Hpi) by (intros; rewrite <- P; apply H; assumption). apply sum_ext. intros l' _. f_equal. f_equal. apply sum_ext. intros L _. rewrite P. reflexivity.
Qed.

(** coefficients that are a sum over points *)
Definition points (n : nat) (g : nat -> F) (y : nat -> list F) (a : list F) : Prop := forall i, nth i a 0 = sum n (fun p => g p * nth i (y p) 0).
Lemma points_spectrum L n1 n2 g1 g2 y1 y2 a b (x : nat -> nat -> F) l : points n1 g1 y1 a -> points n2 g2 y2 b -> (forall p q, (p < n1)%nat -> (q < n2)%nat -> spectrum L (y1 p) (y2 q) l = leg (x p q) l / d) ->
  spectrum L a b l = rpower n1 n2 g1 g2 x l.
Proof.
  intros A B X. rewrite (spectrum_lin_l L n1 g1 y1 a b l A). unfold rpower, rpairs. rewrite (Fdiv_def (fth F)), <- sum_mul_r. apply sum_ext. intros p Hp.
  rewrite (spectrum_lin_r L n2 g2 y2 (y1 p) b l B). rewrite <- sum_mul_l, <- sum_mul_r. apply sum_ext. intros q Hq. rewrite X by assumption. rewrite (Fdiv_def (fth F)). ring.
Qed.
(** any two fields that are sums over points: weights m1, m2 for the masks, values u1, u2 (already weighted) *)
Lemma cross_mean junk i ws k c (f1 f2 : Om -> gfield F) (cell : Om -> mat) L LM n1 n2 m1 m2 (u1 u2 : Om -> nat -> F) y1 y2 z1 z2 x am1 am2 :
  libm_laws fsqrt fexp flog -> pi <> 0 -> average E -> scalar i -> mcompute junk i = Ok ws -> n_lmax i = Z.of_nat L -> n_lmm i = Z.of_nat LM -> length c = k -> (nell i <= k)%nat ->
  (forall o, compute_coupled_cell false (f1 o) (f2 o) = Ok (cell o) /\ g_lmax (f1 o) = Z.of_nat L /\ exists a1 a2, g_alm (f1 o) = Some [a1] /\ g_alm (f2 o) = Some [a2] /\ points n1 (u1 o) y1 a1 /\ points n2 (u2 o) y2 a2) ->
  points n1 m1 z1 am1 -> points n2 m2 z2 am2 -> alm2cl (n_lmm i) am1 am2 = Ok (n_pcl i) ->
  (forall p q l, (p < n1)%nat -> (q < n2)%nat -> (l <= L)%nat -> spectrum L (y1 p) (y2 q) l = leg (x p q) l / d) ->
  (forall p q l, (p < n1)%nat -> (q < n2)%nat -> (l <= LM)%nat -> spectrum LM (z1 p) (z2 q) l = leg (x p q) l / d) ->
  (forall p q, (p < n1)%nat -> (q < n2)%nat -> E (fun o => u1 o p * u2 o q) = m1 p * m2 q * corr (nell i) (beamed i c) (x p q)) ->
  exists o, couple_cell (obj ws) (A2 k [c]) = Ok (A2 (nell i) [o]) /\ length o = nell i /\
  forall l, (l < nell i)%nat -> mask_limit i c (rpower n1 n2 m1 m2 x) l -> E (fun om => mg (cell om) 0 l) = nth l o 0.
Proof.
  intros LL Hpi AV SI Ew N1 N2 Lc Hk Hf Z1 Z2 Epc Y1 Y2 Iso. pose proof AV as (X & _ & Sc). pose proof (four_pi pi Hpi) as D. fold d in D.
  destruct (coupled fsqrt fexp flog pi w3j junk i ws k c LL SI Ew Lc Hk) as (o & Eo & Lo & Fo). exists o. split; [exact Eo|]. split; [exact Lo|]. intros l Hl Room. rewrite (Fo l Hl). clear Fo.
  assert (MS : forall M, (M < nmask i)%nat -> mask_cl i M = rpower n1 n2 m1 m2 x M).
  { intros M HM. unfold nmask in HM. rewrite N2 in *. destruct (alm2cl_spectrum _ _ _ _ Epc) as [_ SP]. unfold mask_cl. rewrite SP by lia. apply (points_spectrum LM n1 n2 m1 m2 z1 z2); try assumption. intros p q Hp Hq. apply Y2; try assumption. lia. }
  assert (Hl' : (l <= L)%nat) by (unfold nell in Hl; lia).
  transitivity (rpairs n1 n2 m1 m2 (fun p q => corr (nell i) (beamed i c) (x p q) * leg (x p q) l) / d).
  2:{ rewrite (core2 n1 n2 m1 m2 x (nell i) (nmask i) (beamed i c) l Hpi).
      - apply sum_ext. intros l' _. f_equal. f_equal. apply sum_ext. intros M HM. rewrite (pmask_eq pi i M Hpi). fold d. rewrite MS by exact HM. reflexivity.
      - intros l' M Hl2 H1 H2. destruct (Room l' M Hl2 H1 H2) as [Z0|Z0]; [left; unfold beamed; rewrite Z0; ring | right; exact Z0]. }
  rewrite (X _ (fun om => sum n1 (fun p => sum n2 (fun q => (leg (x p q) l / d) * (u1 om p * u2 om q))))).
  2:{ intro om. destruct (Hf om) as (F1 & F2 & a1 & a2 & A1 & A2' & P1 & P2). destruct (C43_order false (f1 om) (f2 om) (cell om) [a1] [a2] L F1 A1 A2' F2) as [_ O]. specialize (O 0%nat 0%nat l ltac:(cbn; lia) ltac:(cbn; lia) Hl') as [_ O]. cbn [length Nat.mul Nat.add nth andb] in O. unfold mg. rewrite O.
      rewrite (points_spectrum L n1 n2 (u1 om) (u2 om) y1 y2 a1 a2 x l P1 P2) by (intros; apply Y1; assumption). unfold rpower, rpairs. rewrite (Fdiv_def (fth F)), <- sum_mul_r. match goal with |- ?a - 0 = _ => transitivity a; [ring|] end. apply sum_ext. intros p _. rewrite <- sum_mul_r. apply sum_ext. intros q _. rewrite (Fdiv_def (fth F)). ring. }
  rewrite (E_sum E n1 (fun p om => sum n2 (fun q => (leg (x p q) l / d) * (u1 om p * u2 om q))) AV). unfold rpairs. rewrite (Fdiv_def (fth F)), <- sum_mul_r. apply sum_ext. intros p Hp.
  rewrite (E_sum E n2 (fun q om => (leg (x p q) l / d) * (u1 om p * u2 om q)) AV), <- sum_mul_r. apply sum_ext. intros q Hq. rewrite Sc, (Iso p q Hp Hq). field. exact D.
Qed.

(** *** Catalogues *)
Variable cat2alm : Z -> Z -> mat -> list F -> list F -> mat.
Variable Y : Z -> Z -> nat -> nat -> nat -> F -> F -> F.
Variable cosang : F -> F -> F -> F -> F.
Notation addition0 := (addition0 pi Y cosang).
Lemma catalog_points hd pos w v L lmaxm spin beam wd ll f th ph : synthesis cat2alm Y -> positions_of pi pos w ll = Ok (th, ph) -> catalog_new pi cat2alm hd pos w (Some v) (Z.of_nat L) lmaxm spin beam wd ll = Ok f -> g_spin f = 0%Z ->
  g_lmax f = Z.of_nat L /\ (exists a, g_alm f = Some [a] /\ points (length w) (value wd w v 0) (fun p => Ys Y 0 (Z.of_nat L) 0 0 (nth p th 0) (nth p ph 0)) a) /\
  exists am, g_alm_mask f = Some am /\ points (length w) (fun p => nth p w 0) (fun p => Ys Y 0 (g_lmaxm f) 0 0 (nth p th 0) (nth p ph 0)) am.
Proof.
  intros Sy Ep Hf S0. pose proof (catalog_inv pi cat2alm hd pos w v _ lmaxm spin beam wd ll f Hf) as (th' & ph' & y & Ep' & Lt & Lp & Sx & _ & Ex & Ea & El & Elm & Em & _). rewrite Ep in Ep'. injection Ep' as <- <-.
  rewrite S0 in Sx, Ex, Ea. change (ncomp 0) with 1%nat in Sx, Ex. split; [exact El|]. split.
  - destruct (Sy 0%Z (Z.of_nat L) 1%nat (length w) y th ph Sx Lt Lp) as [[Lr _] _]. destruct (cat2alm 0%Z (Z.of_nat L) y th ph) as [|a [|]] eqn:EA; try discriminate Lr. exists a. split; [exact Ea|].
    intro i. change a with (nth 0 [a] []). rewrite <- EA, (synth_rows cat2alm Y _ _ _ _ _ _ _ 0 i Sy Sx Lt Lp) by lia. cbn [sum]. match goal with |- 0 + ?u = _ => transitivity u; [ring|] end. apply sum_ext. intros p Hp. rewrite Ex by lia. reflexivity.
  - exists (nth 0 (cat2alm 0 (opt lmaxm (Z.of_nat L)) [w] th ph) []). split; [exact Em|]. intro i. rewrite Elm.
    assert (Sw : L_Utils.shaped 1 (length w) [w]) by (split; [reflexivity|repeat constructor]). rewrite (synth_rows cat2alm Y _ _ 1 (length w) _ _ _ 0 i Sy Sw Lt Lp) by lia. cbn [sum]. match goal with |- 0 + ?u = _ => transitivity u; [ring|] end. apply sum_ext. intros p Hp. reflexivity.
Qed.
(** The cross-spectrum of two catalogues, with sources at different positions and any weights: no noise is subtracted anywhere *)
Theorem C94_cross junk i ws hd pos1 pos2 w1 w2 (v1 v2 : Om -> mat) L LM lmm1 lmm2 spin1 spin2 beam1 beam2 wd1 wd2 ll1 ll2 (f1 f2 : Om -> gfield F) g1 g2 am1 am2 (cell : Om -> mat) th1 ph1 th2 ph2 k c :
  libm_laws fsqrt fexp flog -> pi <> 0 -> average E -> synthesis cat2alm Y -> addition0 L -> addition0 LM ->
  positions_of pi pos1 w1 ll1 = Ok (th1, ph1) -> positions_of pi pos2 w2 ll2 = Ok (th2, ph2) ->
  (forall o, catalog_new pi cat2alm hd pos1 w1 (Some (v1 o)) (Z.of_nat L) lmm1 spin1 beam1 wd1 ll1 = Ok (f1 o) /\ g_spin (f1 o) = 0%Z) ->
  (forall o, catalog_new pi cat2alm hd pos2 w2 (Some (v2 o)) (Z.of_nat L) lmm2 spin2 beam2 wd2 ll2 = Ok (f2 o) /\ g_spin (f2 o) = 0%Z) ->
  (forall o, compute_coupled_cell false (f1 o) (f2 o) = Ok (cell o)) ->
  (exists v, catalog_new pi cat2alm hd pos1 w1 (Some v) (Z.of_nat L) lmm1 spin1 beam1 wd1 ll1 = Ok g1) -> (exists v, catalog_new pi cat2alm hd pos2 w2 (Some v) (Z.of_nat L) lmm2 spin2 beam2 wd2 ll2 = Ok g2) -> g_spin g1 = 0%Z -> g_spin g2 = 0%Z ->
  g_alm_mask g1 = Some am1 -> g_alm_mask g2 = Some am2 -> g_lmaxm g1 = Z.of_nat LM -> g_lmaxm g2 = Z.of_nat LM ->
  scalar i -> mcompute junk i = Ok ws -> n_lmax i = Z.of_nat L -> n_lmm i = Z.of_nat LM -> n_b1 i = g_beam g1 -> n_b2 i = g_beam g2 -> alm2cl (Z.of_nat LM) am1 am2 = Ok (n_pcl i) ->
  length c = k -> (nell i <= k)%nat -> let x p q := cosang (nth p th1 0) (nth p ph1 0) (nth q th2 0) (nth q ph2 0) in
  (forall p q, (p < length w1)%nat -> (q < length w2)%nat ->
    E (fun o => value wd1 w1 (v1 o) 0 p * value wd2 w2 (v2 o) 0 q) = nth p w1 0 * nth q w2 0 * corr (nell i) (fun l => nth l (g_beam g1) 0 * nth l (g_beam g2) 0 * nth l c 0) (x p q)) ->
  exists o, couple_cell (obj ws) (A2 k [c]) = Ok (A2 (nell i) [o]) /\ length o = nell i /\
  forall l, (l < nell i)%nat -> mask_limit i c (fun M => sum (length w1) (fun p => sum (length w2) (fun q => nth p w1 0 * nth q w2 0 * leg (x p q) M)) / d) l -> E (fun om => mg (cell om) 0 l) = nth l o 0.
Proof.
  intros LL Hpi AV Sy Ad Adm Ep1 Ep2 Hf1 Hf2 HC [v0 G1] [v0' G2] S1 S2 A1 A2' M1 M2 SI Ew N1 N2 B1 B2 N3 Lc Hk x Iso.
  destruct (catalog_points _ _ _ _ _ _ _ _ _ _ _ _ _ Sy Ep1 G1 S1) as (_ & _ & am1' & A1' & Q1). rewrite A1 in A1'. injection A1' as <-. rewrite M1 in Q1.
  destruct (catalog_points _ _ _ _ _ _ _ _ _ _ _ _ _ Sy Ep2 G2 S2) as (_ & _ & am2' & A2'' & Q2). rewrite A2' in A2''. injection A2'' as <-. rewrite M2 in Q2.
  apply (cross_mean junk i ws k c f1 f2 cell L LM (length w1) (length w2) (fun p => nth p w1 0) (fun q => nth q w2 0) (fun o => value wd1 w1 (v1 o) 0) (fun o => value wd2 w2 (v2 o) 0)
    (fun p => Ys Y 0 (Z.of_nat L) 0 0 (nth p th1 0) (nth p ph1 0)) (fun p => Ys Y 0 (Z.of_nat L) 0 0 (nth p th2 0) (nth p ph2 0))
    (fun p => Ys Y 0 (Z.of_nat LM) 0 0 (nth p th1 0) (nth p ph1 0)) (fun p => Ys Y 0 (Z.of_nat LM) 0 0 (nth p th2 0) (nth p ph2 0)) x am1 am2 LL Hpi AV SI Ew N1 N2 Lc Hk); try assumption.
  - intro o. split; [apply HC|]. destruct (Hf1 o) as [F1 F2]. destruct (Hf2 o) as [F3 F4]. destruct (catalog_points _ _ _ _ _ _ _ _ _ _ _ _ _ Sy Ep1 F1 F2) as (El & (a1 & Ea1 & P1) & _). destruct (catalog_points _ _ _ _ _ _ _ _ _ _ _ _ _ Sy Ep2 F3 F4) as (_ & (a2 & Ea2 & P2) & _). split; [exact El|]. exists a1, a2. repeat (split; [assumption|]). exact P2.
  - rewrite N2. exact N3.
  - intros p q l _ _ Hl. apply (proj2 Ad). exact Hl.
  - intros p q l _ _ Hl. apply (proj2 Adm). exact Hl.
  - intros p q Hp Hq. rewrite (Iso p q Hp Hq). unfold beamed. rewrite B1, B2. reflexivity.
Qed.
(** *** A catalogue and a map *)
Variable eigh : mat -> list F * mat.
Variable np_inv : mat -> res mat.
Notation new := (field_new (fofZ 4 * pi) fsqrt eigh np_inv).
(** map2alm is a quadrature with the harmonics of the catalogues: pixel p has weight wt p and is at (tp p, pp p) *)
Definition harmonic_at (K : calc F) (s : minfo F) (L : nat) (n_iter : Z) (wt tp pp : nat -> F) : Prop :=
  forall m, length m = npix s -> exists a, sht K 0 s (Z.of_nat L) n_iter [m] = Ok [a] /\ points (npix s) (fun p => wt p * nth p m 0) (fun p => Ys Y 0 (Z.of_nat L) 0 0 (tp p) (pp p)) a.
Theorem C94_cross_map junk i ws hd pos w (v : Om -> mat) L LM lmm spin beam wd ll (f1 : Om -> gfield F) g1 am1 K par a2 g2 (im : Om -> imap F) (f2 : Om -> nfield F) am2 (cell : Om -> mat) th ph wt tp pp k c :
  libm_laws fsqrt fexp flog -> pi <> 0 -> average E -> synthesis cat2alm Y -> addition0 L -> addition0 LM ->
  positions_of pi pos w ll = Ok (th, ph) -> plain a2 -> new K par a2 = Ok g2 -> f_lmax g2 = Z.of_nat L -> f_lmaxm g2 = Z.of_nat LM ->
  harmonic_at K (f_info g2) L (f_niter g2) wt tp pp -> harmonic_at K (f_info g2) LM (f_niterm g2) wt tp pp ->
  (forall o, catalog_new pi cat2alm hd pos w (Some (v o)) (Z.of_nat L) lmm spin beam wd ll = Ok (f1 o) /\ g_spin (f1 o) = 0%Z) ->
  (forall o, L_Field2.rect (im o) /\ new K par (with_map a2 (im o)) = Ok (f2 o)) ->
  (forall o, compute_coupled_cell false (f1 o) (of_map (f2 o)) = Ok (cell o)) ->
  (exists v, catalog_new pi cat2alm hd pos w (Some v) (Z.of_nat L) lmm spin beam wd ll = Ok g1) -> g_spin g1 = 0%Z ->
  g_alm_mask g1 = Some am1 -> snd (get_mask_alms K g2) = Ok am2 -> g_lmaxm g1 = Z.of_nat LM ->
  scalar i -> mcompute junk i = Ok ws -> n_lmax i = Z.of_nat L -> n_lmm i = Z.of_nat LM -> n_b1 i = g_beam g1 -> n_b2 i = f_beam g2 -> alm2cl (Z.of_nat LM) am1 am2 = Ok (n_pcl i) ->
  length c = k -> (nell i <= k)%nat -> let x p q := cosang (nth p th 0) (nth p ph 0) (tp q) (pp q) in
  (forall p q, (p < length w)%nat -> (q < npix (f_info g2))%nat -> nth q (f_mask g2) 0 <> 0 ->
    E (fun o => value wd w (v o) 0 p * nth q (pixels (f_info g2) (im o)) 0) = nth p w 0 * corr (nell i) (fun l => nth l (g_beam g1) 0 * nth l (f_beam g2) 0 * nth l c 0) (x p q)) ->
  exists o, couple_cell (obj ws) (A2 k [c]) = Ok (A2 (nell i) [o]) /\ length o = nell i /\
  forall l, (l < nell i)%nat -> mask_limit i c (fun M => sum (length w) (fun p => sum (npix (f_info g2)) (fun q => nth p w 0 * (wt q * nth q (f_mask g2) 0) * leg (x p q) M)) / d) l -> E (fun om => mg (cell om) 0 l) = nth l o 0.
Proof.
  intros LL Hpi AV Sy Ad Adm Ep P2 G2 Lx Lxm H1 H2 Hf1 Hf2 HC [v0 G1] S1 A1 A2' M1 SI Ew N1 N2 B1 B2 N3 Lc Hk x Iso.
  destruct (catalog_points _ _ _ _ _ _ _ _ _ _ _ _ _ Sy Ep G1 S1) as (_ & _ & am1' & A1' & Q1). rewrite A1 in A1'. injection A1' as <-. rewrite M1 in Q1.
  destruct (plain_head fsqrt pi eigh np_inv K par a2 g2 P2 G2) as (h2 & Eh2 & C1 & C2 & C3 & C4 & _ & C6 & C7 & C8 & C9 & _). set (s := f_info g2) in *. set (m2 := f_mask g2) in *. assert (L2 : length m2 = npix s) by (rewrite C2, C1; exact C9).
  assert (Q2 : points (npix s) (fun q => wt q * nth q m2 0) (fun p => Ys Y 0 (Z.of_nat LM) 0 0 (tp p) (pp p)) am2).
  { unfold get_mask_alms in A2'. rewrite C8 in A2'. fold s m2 in A2'. rewrite Lxm in A2'. destruct (H2 m2 L2) as (a & Ea & Pa). rewrite Ea in A2'. cbn [snd nth] in A2'. injection A2' as <-. exact Pa. }
  apply (cross_mean junk i ws k c f1 (fun o => of_map (f2 o)) cell L LM (length w) (npix s) (fun p => nth p w 0) (fun q => wt q * nth q m2 0) (fun o => value wd w (v o) 0) (fun o q => wt q * (nth q m2 0 * nth q (pixels s (im o)) 0))
    (fun p => Ys Y 0 (Z.of_nat L) 0 0 (nth p th 0) (nth p ph 0)) (fun p => Ys Y 0 (Z.of_nat L) 0 0 (tp p) (pp p))
    (fun p => Ys Y 0 (Z.of_nat LM) 0 0 (nth p th 0) (nth p ph 0)) (fun p => Ys Y 0 (Z.of_nat LM) 0 0 (tp p) (pp p)) x am1 am2 LL Hpi AV SI Ew N1 N2 Lc Hk); try assumption.
  - intro o. split; [apply HC|]. destruct (Hf1 o) as [F1 F2]. destruct (Hf2 o) as [R2 F3]. destruct (catalog_points _ _ _ _ _ _ _ _ _ _ _ _ _ Sy Ep F1 F2) as (El & (a1 & Ea1 & P1) & _). split; [exact El|].
    destruct (plain_alm fsqrt pi eigh np_inv K par a2 (im o) (f2 o) h2 P2 R2 Eh2 F3) as (_ & K2 & _ & al2 & K4 & _ & K6 & K7). rewrite <- C1, <- C2, <- C3, <- C6, Lx in K7. rewrite <- C1 in K6. fold s m2 in K7, K6.
    assert (V2 : length (vmul m2 (pixels s (im o))) = npix s) by (rewrite length_vmul, L2, K6; apply Nat.min_id). destruct (H1 _ V2) as (u2 & Eu2 & Pu2). rewrite Eu2 in K7. injection K7 as <-.
    exists a1, u2. repeat (split; [assumption|]). intro j. rewrite (Pu2 j). apply sum_ext. intros q Hq. f_equal. f_equal. unfold vmul. apply nth_zipw; lia.
  - rewrite N2. exact N3.
  - intros p q l _ _ Hl. apply (proj2 Ad). exact Hl.
  - intros p q l _ _ Hl. apply (proj2 Adm). exact Hl.
  - intros p q Hp Hq. destruct AV as (X & _ & Sc). rewrite (X _ (fun o => (wt q * nth q m2 0) * (value wd w (v o) 0 p * nth q (pixels s (im o)) 0))) by (intro; ring). rewrite Sc.
    destruct (feq_dec (nth q m2 0) 0) as [Z0|Z0]; [rewrite Z0; ring|]. rewrite (Iso p q Hp Hq Z0). unfold beamed. rewrite B1, B2. ring.
Qed.
End Mean6.
Print Assumptions C94_cross.
Print Assumptions C94_cross_map.
