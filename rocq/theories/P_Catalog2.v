(** Catalogue fields: scaling, equivalent inputs, clustering catalogues; compute_full_master (C41, C42). *)
From Verif Require Import Base M_Utils L_Utils M_Field L_Field M_Cell L_Cell P_Field5 P_Cell P_Catalog.
Section PCat2.
Context {F : ofield}.
Local Open Scope F_scope.
Add Field FfPCat2 : (fth F).
Notation mat := (list (list F)).
Variables (pi : F) (fsqrt : F -> F).
Variable cat2alm : Z -> Z -> mat -> list F -> list F -> mat.
Variable Y : Z -> Z -> nat -> nat -> nat -> F -> F -> F.
Notation catalog := (catalog_new pi cat2alm).
Notation clustering := (clustering_new pi cat2alm).
Notation synthesis := (synthesis cat2alm Y).
Notation Ys := (Ys Y).
Notation pair := (pair Y).
Notation addition := (addition pi Y).

Lemma positions_w pos (w w' : list F) ll : length w = length w' -> positions_of pi pos w ll = positions_of pi pos w' ll.
Proof. intro E. unfold positions_of. rewrite E. reflexivity. Qed.
Definition times (c : F) (w : list F) : list F := map (fmul c) w.
Lemma nth_times c w p : nth p (times c w) 0 = c * nth p w 0.
Proof. destruct (Nat.lt_ge_cases p (length w)) as [H|H]; [unfold times; rewrite (nth_indep _ 0 (c * 0)) by (rewrite map_length; exact H); apply (map_nth (fmul c))|]. rewrite !nth_overflow by (unfold times; rewrite ?map_length; exact H). ring. Qed.
Lemma len_times c w : length (times c w) = length w.
Proof. apply map_length. Qed.
Lemma lsum_times c w : lsum (times c w) = c * lsum w.
Proof. unfold times. change (map (fmul c) w) with (map (fun a => c * a) w). rewrite (lsum_mul_l c (fun x => x) w), map_id. reflexivity. Qed.
(** multiplying all weights by c *)
Theorem C41_scaling c hd pos w v lmax lmaxm spin beam ll f : synthesis -> catalog hd pos w (Some v) lmax lmaxm spin beam false ll = Ok f ->
  exists f', catalog hd pos (times c w) (Some v) lmax lmaxm spin beam false ll = Ok f' /\ g_Nw f' = c * c * g_Nw f /\ g_Nf f' = c * c * g_Nf f /\
    forall A A' M M', g_alm f = Some A -> g_alm f' = Some A' -> g_alm_mask f = Some M -> g_alm_mask f' = Some M' ->
      length A' = length A /\ (forall e i, mg A' e i = c * mg A e i) /\ forall i, nth i M' 0 = c * nth i M 0.
Proof.
  intros Sy H. assert (Ex : exists f', catalog hd pos (times c w) (Some v) lmax lmaxm spin beam false ll = Ok f' /\ g_spin f' = g_spin f).
  { unfold catalog_new in *. destruct (negb hd); [discriminate H|]. rewrite (positions_w pos (times c w) w) by apply len_times. apply bind_ok in H as ([th ph] & Ep & H). rewrite Ep. cbn [bind]. cbv zeta in *. apply bind_ok in H as (bm & Eb & H). rewrite Eb. cbn [bind]. rewrite len_times. destruct (_ && _)%bool; [|discriminate H]. injection H as <-. eexists. split; reflexivity. }
  destruct Ex as (f' & H' & Es). exists f'. split; [exact H'|].
  apply catalog_inv in H as (th & ph & x & Ep & Lt & Lp & Sx & Sv & Ex & Ea & El & _ & Em & _ & ENw & ENf). apply catalog_inv in H' as (th' & ph' & x' & Ep' & Lt' & Lp' & Sx' & _ & Ex' & Ea' & _ & _ & Em' & _ & ENw' & ENf').
  rewrite (positions_w pos (times c w) w) in Ep' by apply len_times. rewrite Ep in Ep'. injection Ep' as <- <-. rewrite len_times in *. rewrite Es in *. split; [|split].
  - rewrite ENw, ENw'. rewrite !(Fdiv_def (fth F)). rewrite (sum_ext _ (fun p => nth p (times c w) 0 * nth p (times c w) 0) (fun p => c * c * (nth p w 0 * nth p w 0))) by (intros; rewrite nth_times; ring). rewrite sum_mul_l. ring.
  - rewrite ENf, ENf'. rewrite !(Fdiv_def (fth F)). rewrite (sum_ext _ (fun k => sum _ (fun p => value false (times c w) v k p * _)) (fun k => c * c * sum (length w) (fun p => value false w v k p * value false w v k p))).
    + rewrite sum_mul_l. ring.
    + intros k Hk. rewrite <- sum_mul_l. apply sum_ext. intros p Hp. unfold value. rewrite nth_times. ring.
  - intros A A' M M' EA EA' EM EM'. rewrite Ea in EA. rewrite Ea' in EA'. rewrite Em in EM. rewrite Em' in EM'. injection EA as <-. injection EA' as <-. injection EM as <-. injection EM' as <-.
    destruct (Sy (g_spin f) lmax _ _ x th ph Sx Lt Lp) as [[La Fa] _]. destruct (Sy (g_spin f) lmax _ _ x' th ph Sx' Lt Lp) as [[La' Fa'] _]. split; [congruence|]. split.
    + intros e i. destruct (Nat.lt_ge_cases e (ncomp (g_spin f))) as [He|He].
      * unfold mg. rewrite (synth_rows _ _ _ _ _ _ _ _ _ _ _ Sy Sx Lt Lp He), (synth_rows _ _ _ _ _ _ _ _ _ _ _ Sy Sx' Lt Lp He). rewrite <- sum_mul_l. apply sum_ext. intros k Hk. rewrite <- sum_mul_l. apply sum_ext. intros p Hp. rewrite (Ex k p), (Ex' k p) by assumption. unfold value. rewrite nth_times. ring.
      * unfold mg. rewrite (nth_overflow _ [] ltac:(rewrite La'; exact He)), (nth_overflow _ [] ltac:(rewrite La; exact He)). destruct i; cbn [nth]; ring.
    + assert (S1 : forall u : list F, length u = length w -> shaped 1 (length w) [u]) by (intros u Hu; split; [reflexivity | repeat constructor; exact Hu]).
      intro i. rewrite (synth_rows _ _ _ _ _ _ _ _ _ _ _ Sy (S1 w eq_refl) Lt Lp Nat.lt_0_1), (synth_rows _ _ _ _ _ _ _ _ _ _ _ Sy (S1 (times c w) (len_times c w)) Lt Lp Nat.lt_0_1). rewrite <- sum_mul_l. apply sum_ext. intros k Hk. rewrite <- sum_mul_l. apply sum_ext. intros p Hp.
      assert (k = 0%nat) by lia. subst k. unfold mg. cbn [nth]. rewrite nth_times. ring.
Qed.
(** values multiplied by the weights beforehand; positions in degrees *)
Theorem C41_weighted hd pos w v lmax lmaxm spin beam ll f : catalog hd pos w (Some v) lmax lmaxm spin beam false ll = Ok f ->
  catalog hd pos w (Some (map (fun r => vmul r w) v)) lmax lmaxm spin beam true ll = Ok f.
Proof.
  unfold catalog_new. destruct (negb hd); [discriminate 1|]. intro H. apply bind_ok in H as ([th ph] & Ep & H). rewrite Ep. cbn [bind]. cbv zeta in *. apply bind_ok in H as (bm & Eb & H). rewrite Eb. cbn [bind].
  rewrite map_length. destruct (_ && _)%bool eqn:E in H; [|discriminate H]. apply andb_true_iff in E as [E1 E2]. rewrite E1. cbn [andb].
  assert (E3 : forallb (fun r => Nat.eqb (length r) (length w)) (map (fun r => vmul r w) v) = true).
  { rewrite forallb_forall in *. intros r Hr. apply in_map_iff in Hr as (r0 & <- & Hr0). specialize (E2 r0 Hr0). apply Nat.eqb_eq in E2. apply Nat.eqb_eq. unfold vmul. rewrite length_zipw, E2. apply Nat.min_id. }
  rewrite E3. exact H.
Qed.
Theorem C41_degrees hd lon lat w fld lmax lmaxm spin beam wd : 
  catalog hd [lon; lat] w fld lmax lmaxm spin beam wd true = catalog hd [map (fun x => pi / fofZ 2 - pi / fofZ 180 * x) lat; map (fun x => pi / fofZ 180 * x) lon] w fld lmax lmaxm spin beam wd false.
Proof. unfold catalog_new, positions_of. rewrite !map_length. rewrite (andb_comm (Nat.eqb (length lat) _)). reflexivity. Qed.

(** *** Clustering: a catalogue of the sources and of the randoms with weights -alpha *)
Definition joint (w wr : list F) : list F := w ++ times (- (lsum w / lsum wr)) wr.
Lemma clustering_inv hd pos w posr wr lmax ll f : synthesis -> clustering hd pos w posr wr lmax ll = Ok f ->
  exists th ph thr phr row, positions_of pi pos w ll = Ok (th, ph) /\ positions_of pi posr wr ll = Ok (thr, phr) /\ length th = length w /\ length ph = length w /\ length thr = length wr /\ length phr = length wr /\ lsum wr <> 0 /\
    g_alm f = Some [row] /\ g_lmax f = lmax /\ g_spin f = 0%Z /\ g_nmaps f = None /\
    (forall i, nth i row 0 = sum (length (joint w wr)) (fun p => nth p (joint w wr) 0 * nth i (Ys 0 lmax 0 0 (nth p (th ++ thr) 0) (nth p (ph ++ phr) 0)) 0)) /\
    g_Nw f = sum (length wr) (fun p => (lsum w / lsum wr * nth p wr 0) * (lsum w / lsum wr * nth p wr 0)) / (fofZ 4 * pi) /\
    g_Nf f = sum (length (joint w wr)) (fun p => nth p (joint w wr) 0 * nth p (joint w wr) 0) / (fofZ 4 * pi).
Proof.
  intro Sy. unfold clustering_new. destruct (negb hd); [discriminate 1|]. intro H. apply bind_ok in H as ([th ph] & Ep & H). apply bind_ok in H as ([thr phr] & Er & H). destruct (feqb (lsum wr) 0) eqn:E0; [discriminate H|]. cbv zeta in H. injection H as <-. cbn [g_alm g_lmax g_spin g_nmaps g_Nw g_Nf].
  destruct (positions_len _ _ _ _ _ _ Ep) as [Lt Lp]. destruct (positions_len _ _ _ _ _ _ Er) as [Ltr Lpr]. set (al := lsum w / lsum wr).
  assert (S1 : shaped 1 (length w) [w]) by (split; [reflexivity | repeat constructor]).
  assert (S2 : shaped 1 (length wr) [map (fun x => x * al) wr]) by (split; [reflexivity | repeat constructor; apply map_length]).
  destruct (Sy 0%Z lmax _ _ _ th ph S1 Lt Lp) as [Sa _]. destruct (Sy 0%Z lmax _ _ _ thr phr S2 Ltr Lpr) as [Sb _].
  destruct (cat2alm 0 lmax [w] th ph) as [|a [|? ?]] eqn:Ea; try (destruct Sa as [Sa _]; discriminate Sa). destruct (cat2alm 0 lmax [map (fun x => x * al) wr] thr phr) as [|b [|? ?]] eqn:Eb; try (destruct Sb as [Sb _]; discriminate Sb).
  assert (La : length a = n_alm lmax) by (destruct Sa as [_ Sa]; inversion Sa; assumption). assert (Lb : length b = n_alm lmax) by (destruct Sb as [_ Sb]; inversion Sb; assumption).
  exists th, ph, thr, phr, (zipw fsub a b). repeat (split; [assumption|]). split; [apply feqb_neq; exact E0|]. split; [reflexivity|]. split; [reflexivity|]. split; [reflexivity|]. split; [reflexivity|].
  assert (Lj : length (joint w wr) = (length w + length wr)%nat) by (unfold joint; rewrite app_length, len_times; reflexivity).
  assert (J1 : forall p, (p < length w)%nat -> nth p (joint w wr) 0 = nth p w 0) by (intros p Hp; unfold joint; apply app_nth1; exact Hp).
  assert (J2 : forall p, nth (length w + p) (joint w wr) 0 = - al * nth p wr 0) by (intros p; unfold joint; rewrite app_nth2 by lia; rewrite Nat.add_comm, Nat.add_sub, nth_times; reflexivity).
  split; [|split].
  - intro i. rewrite Lj, sum_plus.
    assert (A1 : nth i a 0 = sum (length w) (fun p => nth p (joint w wr) 0 * nth i (Ys 0 lmax 0 0 (nth p (th ++ thr) 0) (nth p (ph ++ phr) 0)) 0)).
    { pose proof (synth_rows cat2alm Y 0 lmax 1 (length w) [w] th ph 0 i Sy S1 Lt Lp Nat.lt_0_1) as R. rewrite Ea in R. cbn [nth sum] in R. rewrite R. match goal with |- 0 + ?x = _ => transitivity x; [ring|] end. apply sum_ext. intros p Hp. rewrite J1, !app_nth1 by (rewrite ?Lt, ?Lp; exact Hp). reflexivity. }
    assert (B1 : nth i b 0 = - sum (length wr) (fun p => nth (length w + p) (joint w wr) 0 * nth i (Ys 0 lmax 0 0 (nth (length w + p) (th ++ thr) 0) (nth (length w + p) (ph ++ phr) 0)) 0)).
    { pose proof (synth_rows cat2alm Y 0 lmax 1 (length wr) [map (fun x => x * al) wr] thr phr 0 i Sy S2 Ltr Lpr Nat.lt_0_1) as R. rewrite Eb in R. cbn [nth sum] in R. rewrite R. rewrite <- sum_opp. match goal with |- 0 + ?x = _ => transitivity x; [ring|] end. apply sum_ext. intros p Hp. rewrite J2, !app_nth2 by (rewrite ?Lt, ?Lp; lia). rewrite Lt, Lp.
      replace (length w + p - length w)%nat with p by lia. unfold mg. cbn [nth]. rewrite (nth_indep _ 0 (0 * al)) by (rewrite map_length; exact Hp). rewrite (map_nth (fun x => x * al)). ring. }
    rewrite <- A1. destruct (Nat.lt_ge_cases i (n_alm lmax)) as [Hi|Hi].
    + rewrite (nth_zipw fsub a b i 0 0 0) by lia. rewrite B1. ring.
    + rewrite nth_overflow by (rewrite length_zipw; lia). rewrite nth_overflow in A1 by lia. rewrite nth_overflow in B1 by lia. rewrite (nth_overflow a) by lia. match type of B1 with 0 = - ?S => assert (E : S = 0); [transitivity (- (- S)); [ring | rewrite <- B1; ring] | rewrite E; ring] end.
  - f_equal. rewrite sumsq_sum, <- sum_mul_l. apply sum_ext. intros p _. fold al. ring.
  - rewrite Lj, sum_plus, !sumsq_sum. rewrite (sum_ext (length w) (fun i => nth i (joint w wr) 0 * nth i (joint w wr) 0) (fun p => nth p w 0 * nth p w 0)) by (intros p Hp; rewrite J1 by exact Hp; reflexivity).
    rewrite (sum_ext (length wr) (fun i => nth (length w + i) (joint w wr) 0 * _) (fun p => al * al * (nth p wr 0 * nth p wr 0))) by (intros p Hp; rewrite !J2; ring). rewrite sum_mul_l. rewrite !(Fdiv_def (fth F)). change ((1 + 1 + (1 + 1)) * pi) with (fofZ 4 * pi). ring.
Qed.
Theorem C41_clustering_noise hd pos w posr wr lmax ll f : synthesis -> clustering hd pos w posr wr lmax ll = Ok f ->
  g_Nw f = sum (length wr) (fun p => (lsum w / lsum wr * nth p wr 0) * (lsum w / lsum wr * nth p wr 0)) / (fofZ 4 * pi) /\
  g_Nf f = sum (length w) (fun p => nth p w 0 * nth p w 0) / (fofZ 4 * pi) + g_Nw f.
Proof.
  intros Sy H. apply clustering_inv in H as (th & ph & thr & phr & row & H); [|exact Sy]. decompose [and] H. split; [assumption|]. match goal with E : g_Nf f = _ |- _ => rewrite E end. match goal with E : g_Nw f = _ |- _ => rewrite E end.
  unfold joint. rewrite app_length, len_times, sum_plus. rewrite !(Fdiv_def (fth F)).
  rewrite (sum_ext (length w) _ (fun p => nth p w 0 * nth p w 0)) by (intros p Hp; rewrite app_nth1 by exact Hp; reflexivity).
  rewrite (sum_ext (length wr) (fun i => nth (length w + i) _ 0 * _) (fun p => lsum w * finv (lsum wr) * nth p wr 0 * (lsum w * finv (lsum wr) * nth p wr 0))); [ring|].
  intros p Hp. rewrite app_nth2 by lia. rewrite Nat.add_comm, Nat.add_sub, nth_times, ?(Fdiv_def (fth F)). ring.
Qed.
(** the total weight vanishes, and with it the monopole *)
Theorem C41_monopole hd pos w posr wr lmax ll f A y : synthesis -> clustering hd pos w posr wr lmax ll = Ok f -> (0 <= lmax)%Z -> (forall th ph, Y 0 lmax 0 0 0 th ph = y) -> g_alm f = Some A -> mg A 0 0 = 0.
Proof.
  intros Sy H Hl Hy EA. apply clustering_inv in H as (th & ph & thr & phr & row & _ & _ & _ & _ & _ & _ & W0 & Ea & _ & _ & _ & Er & _); [|exact Sy]. rewrite Ea in EA. injection EA as <-. unfold mg. cbn [nth]. rewrite Er.
  assert (N0 : (0 < n_alm lmax)%nat) by (unfold n_alm; replace lmax with (Z.of_nat (Z.to_nat lmax)) by lia; rewrite length_ells; cbn [off]; unfold wid; lia).
  rewrite (sum_ext _ _ (fun p => nth p (joint w wr) 0 * y)) by (intros p _; unfold P_Catalog.Ys; rewrite nth_tab by exact N0; rewrite Hy; reflexivity). rewrite sum_mul_r, <- lsum_nth. unfold joint. rewrite lsum_app.
  rewrite lsum_times. transitivity ((lsum w + - (lsum w / lsum wr) * lsum wr) * y); [reflexivity|]. field. exact W0.
Qed.
(** the units of both sets of weights *)
Theorem C41_clustering_scaling c d hd pos w posr wr lmax ll f : synthesis -> d <> 0 -> clustering hd pos w posr wr lmax ll = Ok f ->
  exists f', clustering hd pos (times c w) posr (times d wr) lmax ll = Ok f' /\ g_Nw f' = c * c * g_Nw f /\ g_Nf f' = c * c * g_Nf f /\
    forall A A', g_alm f = Some A -> g_alm f' = Some A' -> forall i, mg A' 0 i = c * mg A 0 i.
Proof.
  intros Sy Hd H. assert (Sc : forall k (u : list F), lsum (times k u) = k * lsum u) by (exact lsum_times).
  assert (Ex : exists f', clustering hd pos (times c w) posr (times d wr) lmax ll = Ok f').
  { unfold clustering_new in *. destruct (negb hd); [discriminate H|]. rewrite (positions_w pos (times c w) w), (positions_w posr (times d wr) wr) by apply len_times. apply bind_ok in H as ([th ph] & Ep & H). apply bind_ok in H as ([thr phr] & Er & H). rewrite Ep. cbn [bind]. rewrite Er. cbn [bind].
    destruct (feqb (lsum wr) 0) eqn:E0; [discriminate H|]. rewrite Sc. destruct (feqb (d * lsum wr) 0) eqn:E1; [|eexists; reflexivity]. exfalso. apply feqb_eq in E1. apply feqb_neq in E0. apply E0. transitivity (d * lsum wr / d); [field; exact Hd|]. rewrite E1. field. exact Hd. }
  destruct Ex as (f' & H'). exists f'. split; [exact H'|].
  apply clustering_inv in H as (th & ph & thr & phr & row & Ep & Er & _ & _ & _ & _ & W0 & Ea & _ & _ & _ & Hr & ENw & ENf); [|exact Sy]. apply clustering_inv in H' as (th' & ph' & thr' & phr' & row' & Ep' & Er' & _ & _ & _ & _ & _ & Ea' & _ & _ & _ & Hr' & ENw' & ENf'); [|exact Sy].
  rewrite (positions_w pos (times c w) w) in Ep' by apply len_times. rewrite (positions_w posr (times d wr) wr) in Er' by apply len_times. rewrite Ep in Ep'. rewrite Er in Er'. injection Ep' as <- <-. injection Er' as <- <-.
  assert (Al : lsum (times c w) / lsum (times d wr) * d = c * (lsum w / lsum wr)) by (rewrite !Sc; field; split; assumption).
  assert (Lj : length (joint (times c w) (times d wr)) = length (joint w wr)) by (unfold joint; rewrite !app_length, !len_times; reflexivity).
  assert (J : forall p, nth p (joint (times c w) (times d wr)) 0 = c * nth p (joint w wr) 0).
  { intro p. unfold joint. destruct (Nat.lt_ge_cases p (length w)) as [Hp|Hp].
    - rewrite !app_nth1 by (rewrite ?len_times; exact Hp). apply nth_times.
    - rewrite !app_nth2 by (rewrite ?len_times; exact Hp). rewrite len_times, !nth_times. set (k := (p - length w)%nat). transitivity (- (lsum (times c w) / lsum (times d wr) * d) * nth k wr 0); [ring|]. rewrite Al. ring. }
  split; [|split].
  - rewrite ENw, ENw', len_times, !(Fdiv_def (fth F) (sum _ _)). rewrite (sum_ext _ (fun p => lsum (times c w) / lsum (times d wr) * nth p (times d wr) 0 * _) (fun p => c * c * (lsum w / lsum wr * nth p wr 0 * (lsum w / lsum wr * nth p wr 0)))).
    + rewrite sum_mul_l. ring.
    + intros p _. rewrite nth_times. transitivity ((lsum (times c w) / lsum (times d wr) * d) * nth p wr 0 * ((lsum (times c w) / lsum (times d wr) * d) * nth p wr 0)); [ring|]. rewrite Al. ring.
  - rewrite ENf, ENf', Lj, !(Fdiv_def (fth F) (sum _ _)). rewrite (sum_ext _ (fun p => nth p (joint (times c w) (times d wr)) 0 * _) (fun p => c * c * (nth p (joint w wr) 0 * nth p (joint w wr) 0))) by (intros; rewrite !J; ring). rewrite sum_mul_l. ring.
  - intros A A' EA EA' i. rewrite Ea in EA. rewrite Ea' in EA'. injection EA as <-. injection EA' as <-. unfold mg. cbn [nth]. rewrite Hr, Hr', Lj, <- sum_mul_l. apply sum_ext. intros p _. rewrite J. ring.
Qed.
Theorem C42_clustering hd pos w posr wr lmax ll f C th ph thr phr l : synthesis -> clustering hd pos w posr wr (Z.of_nat lmax) ll = Ok f -> positions_of pi pos w ll = Ok (th, ph) -> positions_of pi posr wr ll = Ok (thr, phr) ->
  compute_coupled_cell true f f = Ok C -> (l <= lmax)%nat -> addition 0 1 lmax l ->
  mg C 0 l = sum (length w + length wr) (fun p => sum (length w + length wr) (fun q => if Nat.eqb p q then 0 else
    nth p (joint w wr) 0 * nth q (joint w wr) 0 * pair 0 lmax l 0 0 0 0 (nth p (th ++ thr) 0) (nth p (ph ++ phr) 0) (nth q (th ++ thr) 0) (nth q (ph ++ phr) 0))).
Proof.
  intros Sy Hf Ep Er HC Hl Ad. apply clustering_inv in Hf as (th' & ph' & thr' & phr' & row & Ep' & Er' & _ & _ & _ & _ & W0 & Ea & El & _ & _ & Hr & _ & ENf); [|exact Sy]. rewrite Ep in Ep'. rewrite Er in Er'. injection Ep' as <- <-. injection Er' as <- <-.
  destruct (C43_order _ _ _ _ _ _ _ HC Ea Ea El) as [_ Ho]. specialize (Ho 0%nat 0%nat l Nat.lt_0_1 Nat.lt_0_1 Hl) as [_ Ho]. unfold mg. change (0 * length [row] + 0)%nat with 0%nat in Ho. rewrite Ho. cbn [andb nth Nat.eqb].
  assert (Lj : length (joint w wr) = (length w + length wr)%nat) by (unfold joint; rewrite app_length, len_times; reflexivity). rewrite Lj in *.
  pose proof (self_pairs pi Y 0 1 (length w + length wr) lmax l (fun _ p => nth p (joint w wr) 0) (fun p => nth p (th ++ thr) 0) (fun p => nth p (ph ++ phr) 0) 0 0 Ad Nat.lt_0_1 Nat.lt_0_1) as SP. cbn [sum Nat.eqb] in SP.
  rewrite (spectrum_lin_l lmax (length w + length wr) (fun p => nth p (joint w wr) 0) (fun p => Ys 0 (Z.of_nat lmax) 0 0 (nth p (th ++ thr) 0) (nth p (ph ++ phr) 0))) by exact Hr.
  rewrite (sum_ext (length w + length wr) _ (fun p => nth p (joint w wr) 0 * sum (length w + length wr) (fun q => nth q (joint w wr) 0 * pair 0 lmax l 0 0 0 0 (nth p (th ++ thr) 0) (nth p (ph ++ phr) 0) (nth q (th ++ thr) 0) (nth q (ph ++ phr) 0)))).
  2:{ intros p Hp. f_equal. apply spectrum_lin_r. exact Hr. }
  rewrite ENf. assert (E4 : fofZ 4 * pi * fofnat 1 = (fofZ 4 * pi : F)) by (cbn [fofnat]; ring). rewrite E4 in SP.
  match type of SP with ?L = ?R + ?S => match goal with |- ?L' - ?S' = ?R' => assert (EL : L = L') end end.
  { transitivity (0 + sum (length w + length wr) (fun p => nth p (joint w wr) 0 * (0 + sum (length w + length wr) (fun q => nth q (joint w wr) 0 * pair 0 lmax l 0 0 0 0 (nth p (th ++ thr) 0) (nth p (ph ++ phr) 0) (nth q (th ++ thr) 0) (nth q (ph ++ phr) 0))))); [reflexivity|].
    match goal with |- 0 + ?x = _ => transitivity x; [ring|] end. apply sum_ext. intros p _. ring. }
  rewrite <- EL, SP.
  match goal with |- ?x + (0 + ?a) / ?k - ?a / ?k = ?y => transitivity x; [rewrite !(Fdiv_def (fth F)); ring|] end.
  apply sum_ext. intros p _. apply sum_ext. intros q _. destruct (Nat.eqb p q); [reflexivity | ring].
Qed.

(** *** compute_full_master cannot be used with catalogues *)
Theorem C41_full_master_refuted {W B : Type} (ff : B -> res W) (dec : W -> mat -> res mat) K p same (f1 f2 : gfield F) b cn cg w : g_map f1 = None \/ g_map f2 = None ->
  forall r, compute_full_master fsqrt ff dec K p same f1 f2 b cn cg w <> Ok r.
Proof.
  intros Hm r H. unfold compute_full_master in H. assert (Bi : forall g, bias_of fsqrt K p f1 f2 g = Exn ValueError) by (intro g; unfold bias_of; destruct (g_map f1), (g_map f2); destruct Hm; congruence).
  destruct b, w; try discriminate H; (destruct (negb _); [discriminate H|]; destruct (g_nmaps f1); [|discriminate H]; destruct (g_nmaps f2); [|discriminate H]; apply bind_ok in H as (? & _ & H); apply bind_ok in H as (? & _ & H); apply bind_ok in H as (? & _ & H); rewrite Bi in H; discriminate H).
Qed.
Theorem C41_full_master_lite_refuted {W B : Type} (ff : B -> res W) (dec : W -> mat -> res mat) K p same (m1 m2 : nfield F) b cn cg w : f_lite m1 || f_lite m2 = true ->
  forall r, compute_full_master fsqrt ff dec K p same (of_map m1) (of_map m2) b cn cg w <> Ok r.
Proof.
  intros Hm r H. unfold compute_full_master in H. assert (Bi : forall g, bias_of fsqrt K p (of_map m1) (of_map m2) g = Exn ValueError).
  { intro g. unfold bias_of. cbn [of_map g_map]. unfold deprojection_bias. cbv zeta. clear H. destruct (negb (is_compatible _ _ _)); [reflexivity|]. destruct (negb (shape_is _ _ _)); [reflexivity|]. rewrite Hm. reflexivity. }
  destruct b, w; try discriminate H; (destruct (negb _); [discriminate H|]; cbn [of_map g_nmaps] in H; apply bind_ok in H as (? & _ & H); apply bind_ok in H as (? & _ & H); apply bind_ok in H as (? & _ & H); rewrite Bi in H; discriminate H).
Qed.
Theorem C41_no_map hd pos w v lmax lmaxm spin beam wd ll f : catalog hd pos w v lmax lmaxm spin beam wd ll = Ok f -> g_map f = None.
Proof.
  unfold catalog_new. destruct (negb hd); [discriminate 1|]. intro H. apply bind_ok in H as ([th ph] & Ep & H). cbv zeta in H. apply bind_ok in H as (bm & Eb & H). destruct v as [v|]; [destruct (_ && _)%bool; [|discriminate H]; injection H as <-; reflexivity|].
  destruct spin; [|discriminate H]. injection H as <-. reflexivity.
Qed.
Theorem C41_no_map_clustering hd pos w posr wr lmax ll f : clustering hd pos w posr wr lmax ll = Ok f -> g_map f = None.
Proof.
  unfold clustering_new. destruct (negb hd); [discriminate 1|]. intro H. apply bind_ok in H as ([th ph] & Ep & H). apply bind_ok in H as ([thr phr] & Er & H). destruct (feqb _ _); [discriminate H|]. injection H as <-. reflexivity.
Qed.
End PCat2.
