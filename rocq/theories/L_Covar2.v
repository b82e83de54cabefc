(** The tables of a covariance workspace: shape, symmetry and closed form. *)
From Verif Require Import Base M_Bins M_LinAlg M_Workspace M_MCM M_Utils M_Field M_Cell M_Covar L_Bins L_Bins2 L_Bins3 P_Bins L_LinAlg L_Workspace L_MCM L_MCM2 L_MCM3 P_MCM L_Covar.
Open Scope Z_scope.

Section LCovar2.
Context {F : ofield}.
Local Open Scope F_scope.
Add Field FfLCo2 : (fth F).
Notation mat := (list (list F)).
Variables (fsqrt fexp flog : F -> F) (pi : F).
Variable w3j : Z -> Z -> Z -> Z -> Z -> F.
Notation J0 := (J0 fsqrt fexp flog).
Notation J3 := (J3 w3j).

(** sum over the multipoles of the mask spectrum p *)
Definition kern (p : list F) (lmm : Z) (f : Z -> F) : F :=
  sum (Z.to_nat (lmm + 1)) (fun l1 => nth l1 p 0 * fofnat (2 * l1 + 1) / ((1 + 1 + 1 + 1) * pi) * f (Z.of_nat l1)).
Definition X00 (p : list F) (lmm : Z) (la lb : nat) : F := let x := Z.of_nat (Nat.min la lb) in let y := Z.of_nat (Nat.max la lb) in
  kern p lmm (fun l1 => J0 x y l1 * J0 x y l1).
Definition X02 (p : list F) (lmm : Z) (la lb : nat) : F := let x := Z.of_nat (Nat.min la lb) in let y := Z.of_nat (Nat.max la lb) in
  kern p lmm (fun l1 => J3 2 x y l1 * J0 x y l1).
Definition Xpp (p : list F) (lmm : Z) (la lb : nat) : F := let x := Z.of_nat (Nat.min la lb) in let y := Z.of_nat (Nat.max la lb) in
  kern p lmm (fun l1 => even x y l1 * (J3 2 x y l1 * J3 2 x y l1)).
Definition Xmm (p : list F) (lmm : Z) (la lb : nat) : F := let x := Z.of_nat (Nat.min la lb) in let y := Z.of_nat (Nat.max la lb) in
  kern p lmm (fun l1 => odd x y l1 * (J3 2 x y l1 * J3 2 x y l1)).

Definition tplz_ok (lt lex dl lmax : Z) : Prop := (0 < lt)%Z -> (0 < lex <= lt)%Z /\ (lt < lmax)%Z /\ (0 <= dl)%Z.
Lemma covar_cfg_ok p1 p2 lmax lmm lt lex dl s0 : (0 <= lmax <= lmm)%Z -> Z.of_nat (length p1) = (lmm + 1)%Z -> Z.of_nat (length p2) = (lmm + 1)%Z ->
  tplz_ok lt lex dl lmax -> cfg_ok (covar_conf pi p1 p2 lmax lmm lt lex dl s0).
Proof.
  intros H L1 L2 T. constructor; cbn [covar_conf c_lmax c_lmm c_pcl c_spin1 c_spin2 c_teb c_lt c_lex c_dl].
  - exact H.
  - intros icc Hi. cbn in Hi. destruct icc as [|[|icc]]; [| |lia]; unfold covar_conf, scaled_half; cbn [c_pcl c_lmm nth]; rewrite length_tab; assumption.
  - destruct s0; lia.
  - destruct s0; cbn; [discriminate|]. intros _. split; [reflexivity | discriminate].
  - discriminate.
  - intro Hl. split; [reflexivity|]. apply T. exact Hl.
Qed.
Lemma nz_fofZ2 : (fofZ 2 : F) <> 0.
Proof. apply fpos_neq. apply fofZ_pos. lia. Qed.
Lemma pcl_half p1 p2 lmax lmm lt lex dl s0 icc l1 : pi <> 0 -> (icc < 2)%nat -> Z.of_nat (length (nth icc [p1; p2] [])) = (lmm + 1)%Z -> (l1 < Z.to_nat (lmm + 1))%nat ->
  pcl_at (covar_conf pi p1 p2 lmax lmm lt lex dl s0) icc (Z.of_nat l1) = nth l1 (nth icc [p1; p2] []) 0 * fofnat (2 * l1 + 1) / ((1 + 1 + 1 + 1) * pi).
Proof.
  intros Hpi Hi L Hl. unfold pcl_at. cbn [covar_conf c_pcl]. rewrite Nat2Z.id.
  assert (G : forall p, Z.of_nat (length p) = (lmm + 1)%Z -> nth l1 (scaled_half pi p) 0 = nth l1 p 0 * fofnat (2 * l1 + 1) / ((1 + 1 + 1 + 1) * pi)).
  { intros p Lp. unfold scaled_half. rewrite nth_tab by lia. replace (fofnat (2 * l1 + 1) : F) with ((1 + 1) * fofnat l1 + 1 : F).
    2:{ rewrite fofnat_add, fofnat_mul. cbn [fofnat]. ring. }
    replace (fofZ 2 : F) with (1 + 1 : F) by (cbn; ring). pose proof nz_fofZ2 as N. replace (fofZ 2 : F) with (1 + 1 : F) in N by (cbn; ring).
    replace (1 + 1 + 1 + 1 : F) with ((1 + 1) * (1 + 1) : F) by ring. generalize (fofnat l1 : F). intro y. generalize (nth l1 p 0). intro x.
    clear -Hpi N. revert N. generalize (1 + 1 : F). intros t N. field. split; assumption. }
  destruct icc as [|[|icc]]; [| |lia]; cbn [nth] in *; apply G; exact L.
Qed.
Lemma init_ok junk p1 p2 lmax lmm lt lex dl s0 : pi <> 0 -> (0 <= lmax <= lmm)%Z -> Z.of_nat (length p1) = (lmm + 1)%Z -> Z.of_nat (length p2) = (lmm + 1)%Z ->
  tplz_ok lt lex dl lmax ->
  exists cw, covar_workspace_init_py fsqrt fexp flog pi junk w3j p1 p2 lmax lmm lt lex dl s0 = Ok cw /\
    cw_lmax cw = lmax /\ cw_lmm cw = Some lmm /\ cw_s0 cw = s0 /\
    (forall t, In t [cw_00 cw; cw_02 cw; cw_pp cw; cw_mm cw] -> rect2 (nle cw) t /\
       forall sel, In sel [fst; snd] -> forall la lb, (la < nle cw)%nat -> (lb < nle cw)%nat -> entry2 (sel t) la lb = entry2 (sel t) lb la) /\
    ((lt <= 0)%Z -> forall sel p, In (sel, p) [(fst, p1); (snd, p2)] -> forall la lb, (la < nle cw)%nat -> (lb < nle cw)%nat ->
       entry2 (sel (cw_00 cw)) la lb = X00 p lmm la lb /\
       (s0 = false -> entry2 (sel (cw_02 cw)) la lb = X02 p lmm la lb /\ entry2 (sel (cw_pp cw)) la lb = Xpp p lmm la lb /\ entry2 (sel (cw_mm cw)) la lb = Xmm p lmm la lb)).
Proof.
  intros Hpi H L1 L2 T. set (c := covar_conf pi p1 p2 lmax lmm lt lex dl s0).
  assert (C : cfg_ok c) by (apply covar_cfg_ok; assumption).
  destruct (master_ok fsqrt fexp flog junk w3j c C) as [st [E [_ [S V]]]].
  unfold covar_workspace_init_py. rewrite L1, L2, Z.eqb_refl. cbn [guard bind]. unfold covar_workspace_init. fold c. rewrite E. cbn [bind].
  eexists. split; [reflexivity|]. unfold nle. cbn [cw_lmax cw_lmm cw_s0 cw_00 cw_02 cw_pp cw_mm].
  split; [reflexivity|]. split; [reflexivity|]. split; [reflexivity|].
  assert (S' : sym st) by (apply S; reflexivity). set (n := Z.to_nat (lmax + 1)).
  assert (TE : forall a ic la lb, (la < n)%nat -> (lb < n)%nat -> entry2 (table_of lmax st a ic) la lb = st (CX a ic 0 (Z.of_nat la) (Z.of_nat lb))).
  { intros a ic la lb Ha Hb. unfold table_of. fold n. apply (entry_tab n n (fun la lb => st (CX a ic 0 (Z.of_nat la) (Z.of_nat lb)))); assumption. }
  split.
  - intros t Ht.
    assert (G : exists a, t = (table_of lmax st a 0, table_of lmax st a 1)) by (destruct Ht as [<-|[<-|[<-|[<-|[]]]]]; eexists; reflexivity).
    destruct G as [a ->]. split.
    + split; cbn [fst snd]; unfold table_of; fold n; apply (rect_tab n n).
    + intros sel Hs la lb Ha Hb. destruct Hs as [<-|[<-|[]]]; cbn [fst snd]; rewrite !TE by assumption; apply S'.
  - intros Hlt sel p Hsp la lb Ha Hb.
    assert (I : exists ic, (ic < 2)%nat /\ p = nth ic [p1; p2] [] /\ (forall a, sel (table_of lmax st a 0, table_of lmax st a 1) = table_of lmax st a ic) /\ Z.of_nat (length p) = (lmm + 1)%Z).
    { destruct Hsp as [Q|[Q|[]]]; injection Q as <- <-; [exists 0%nat | exists 1%nat]; repeat split; auto. }
    destruct I as [ic [Hic [Ep [Hsel Lp]]]]. rewrite !Hsel.
    set (x := Z.of_nat (Nat.min la lb)). set (y := Z.of_nat (Nat.max la lb)).
    assert (Kx : key c (Z.of_nat la) (Z.of_nat lb) = (x, y)) by (unfold key, c_pany, x, y; cbn; f_equal; lia).
    assert (Hx : (0 <= x <= lmax)%Z) by (unfold x; lia). assert (Hy : (x <= y <= lmax)%Z) by (unfold x, y; lia).
    assert (L0 : lstart c = 0%Z) by (unfold lstart, c_has, c_s1, c_s2, c; destruct s0; reflexivity).
    assert (Cm : computed c (Z.of_nat la) (Z.of_nat lb) = true).
    { unfold computed. rewrite Kx. unfold lend. cbn [c covar_conf c_lmax c_lt] in *. rewrite !andb_true_iff, !Z.leb_le.
      replace (0 <? lt)%Z with false by (symmetry; apply Z.ltb_ge; exact Hlt). fold c. rewrite L0. lia. }
    assert (Val : forall a, c_has c a = true -> entry2 (table_of lmax st a ic) la lb =
       kern p lmm (fun l1 => if tri x y l1 then coef fsqrt fexp flog junk w3j c false a 0 x y l1 else 0)).
    { intros a Hh. rewrite TE by assumption. rewrite V; [|exact Hh | cbn; lia | destruct a; cbn; lia | left; exact Hlt].
      unfold xi_of. rewrite Cm, Kx. cbn [fst snd]. change (c_pany c) with false. rewrite XI_sum by (cbn; lia). cbn [c covar_conf c_lmm]. fold c.
      unfold kern. apply sum_ext. intros j Hj. unfold c at 1. rewrite pcl_half by first [assumption | rewrite <- Ep; assumption]. rewrite <- Ep. destruct (tri x y (Z.of_nat j)); ring. }
    assert (Kext : forall f g, (forall l1, (0 <= l1 <= lmm)%Z -> f l1 = g l1) -> kern p lmm f = kern p lmm g).
    { intros f g Q. unfold kern. apply sum_ext. intros j Hj. rewrite Q by lia. reflexivity. }
    assert (Wa : forall l1, (0 <= l1 <= lmm)%Z -> tri x y l1 = true -> c_has c K00 = true -> W00 fsqrt fexp flog junk c x y l1 = J0 x y l1).
    { intros l1 Hl1 Et Hh. unfold W00. rewrite Hh. cbn [orb]. apply (w000_J0 fsqrt fexp flog pi w3j); [change (0 <= x <= lmax)%Z; lia | change (0 <= y <= lmax)%Z; lia | exact Et | change (l1 <= lmm)%Z; lia]. }
    split.
    + rewrite Val by (unfold c, c_has; destruct s0; reflexivity). unfold X00. cbv zeta. fold x y. apply Kext. intros l1 Hl1.
      destruct (tri x y l1) eqn:Et; [|unfold P_MCM.J0; rewrite Et; ring].
      assert (Hh : c_has c K00 = true) by (unfold c, c_has; destruct s0; reflexivity).
      unfold coef. rewrite Hh. cbn [negb]. unfold wv. cbn [v_00]. rewrite Wa by assumption. reflexivity.
    + intros ->. assert (Ha' : forall a, c_has c a = true) by (intro a; unfold c, c_has; reflexivity).
      assert (HS : c_s1 c = 2%Z) by reflexivity. assert (HS2 : has_ss2 c = false) by reflexivity.
      assert (Wb : forall l1, tri x y l1 = true -> Ws1 w3j c x y l1 = J3 2 x y l1).
      { intros l1 Et. unfold Ws1, Wss. rewrite !Ha', HS. cbn [orb]. apply (g3j_J3 fsqrt fexp flog pi w3j); [lia | assumption]. }
      assert (Wb2 : forall l1, tri x y l1 = true -> Ws2 w3j c x y l1 = J3 2 x y l1).
      { intros l1 Et. unfold Ws2, Wss. rewrite !Ha', HS2, HS. cbn [orb]. apply (g3j_J3 fsqrt fexp flog pi w3j); [lia | assumption]. }
      rewrite !Val by apply Ha'. unfold X02, Xpp, Xmm. cbv zeta. fold x y.
      assert (B0 : forall l1, tri x y l1 = false -> J3 2 x y l1 = 0) by (intros l1 Et; unfold P_MCM.J3; rewrite Et; reflexivity).
      split; [|split]; apply Kext; intros l1 Hl1; destruct (tri x y l1) eqn:Et; try (rewrite !B0 by exact Et; ring);
        unfold coef; rewrite Ha'; cbn [negb]; unfold wv; cbn [v_00 v_ss1 v_ss2].
      * rewrite Wa, Wb by first [assumption | apply Ha']. reflexivity.
      * rewrite Wb, Wb2 by assumption. unfold even. destruct (Z.odd _); ring.
      * rewrite Wb, Wb2 by assumption. unfold odd. destruct (Z.odd _); ring.
Qed.
End LCovar2.
