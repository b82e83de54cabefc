(** The Toeplitz approximation, the assembled matrix, and its existence. *)
From Verif Require Import Base M_Bins M_LinAlg M_Workspace M_MCM L_MCM L_MCM2.
Open Scope Z_scope.

Section L.
Context {F : ofield}.
Local Open Scope F_scope.
Add Field FfLM3 : (fth F).
Notation mat := (list (list F)).
Variables (fsqrt fexp flog : F -> F) (junk : Z -> F).
Variable w3j : Z -> Z -> Z -> Z -> Z -> F.
Notation tplz_iter := (tplz_iter fsqrt fexp flog junk w3j).
Notation tplz_norm := (tplz_norm fsqrt).
Notation tplz_fill_iter := (tplz_fill_iter fsqrt).
Notation corner := (corner fsqrt).
Notation master_steps := (master_steps fsqrt fexp flog junk w3j).
Notation master := (master fsqrt fexp flog junk w3j).
Notation acc_pairs := (acc_pairs fsqrt fexp flog junk w3j).
Notation XI := (XI fsqrt fexp flog junk w3j).
Notation main_steps := (main_steps fsqrt fexp flog junk w3j).
Notation iter_steps := (iter_steps fsqrt fexp flog junk w3j).
Notation block_steps := (block_steps fsqrt fexp flog junk w3j).
Notation xi_of := (xi_of fsqrt fexp flog junk w3j).
Notation bufs := (bufs F).
Notation conf := (conf F).
Notation store := (store F).
Notation step := (step F).

(** ** The steps of the Toeplitz calculation *)
Definition tplz_steps (c : conf) (l2 : Z) : list step :=
  adds (acc_pairs c false (fun a icc _ => CT a icc 0 l2) l2 l2)
  ++ adds (acc_pairs c false (fun a icc _ => CT a icc 1 l2) l2 (c_lt c)).
Lemma tplz_iter_ok (c : conf) (b : bufs) l2 :
  cfg_ok c -> (0 < c_lt c)%Z -> bufs_ok c b -> (lstart c <= l2 <= c_lmax c)%Z ->
  exists b', tplz_iter c b l2 = Ok (b', tplz_steps c l2) /\ bufs_ok c b'.
Proof.
  intros H T Hb H2. pose proof (lstart_ge0 c H). pose proof (co_lmax c H). destruct (co_tp c H T) as [Hp [Hlx [Hlt Hdl]]].
  unfold M_MCM.tplz_iter.
  destruct (load_ok fsqrt fexp flog junk w3j c false b l2 l2) as [m0 [b0 [E0 [O0 R0]]]]; try lia; [exact Hb |].
  rewrite E0. cbn [bind].
  rewrite (accumulate_ok fsqrt fexp flog junk w3j) with (l2 := l2) (l3 := l2); [|apply (co_pcl c H)|lia|lia|exact R0].
  cbn [bind].
  destruct (load_ok fsqrt fexp flog junk w3j c false b0 l2 (c_lt c)) as [m1 [b1 [E1 [O1 R1]]]]; try lia; [exact O0 |].
  rewrite E1. cbn [bind].
  rewrite (accumulate_ok fsqrt fexp flog junk w3j) with (l2 := l2) (l3 := c_lt c); [|apply (co_pcl c H)|lia|lia|exact R1].
  cbn [bind]. exists b1. split; [reflexivity | exact O1].
Qed.
Definition is_ct (z : cell) : Prop := match z with CT _ _ _ _ => True | _ => False end.
Lemma cell_ct_ok (c : conf) a icc il l : c_has c a = true -> (icc < npcl c)%nat -> (il < 2)%nat -> (0 <= l <= c_lmax c)%Z ->
  cell_ok c (CT a icc il l) = true.
Proof.
  intros H1 H2 H3 H4. cbn [cell_ok]. rewrite H1. unfold in_l. rewrite !andb_true_iff, !Nat.ltb_lt, !Z.leb_le. repeat split; lia.
Qed.
Lemma cell_cx_ok (c : conf) a icc l2 l3 : c_has c a = true -> (icc < npcl c)%nat -> (0 <= l2 <= c_lmax c)%Z -> (0 <= l3 <= c_lmax c)%Z ->
  cell_ok c (CX a icc 0 l2 l3) = true.
Proof.
  intros H1 H2 H3 H4. cbn [cell_ok]. rewrite H1. unfold in_l. rewrite !andb_true_iff, !Nat.ltb_lt, !Z.leb_le.
  assert (0 < c_np c a)%nat by (unfold c_np; destruct a; try destruct (c_pany c); lia). repeat split; lia.
Qed.
Lemma tplz_steps_facts (c : conf) l2 s : cfg_ok c -> (lstart c <= l2 <= c_lmax c)%Z -> In s (tplz_steps c l2) ->
  is_ct (s_dst s) /\ step_ok c s = true /\ forall x, In x (s_dst s :: s_src s) -> exists a icc il, x = CT a icc il l2.
Proof.
  intros H H2 Hs. pose proof (lstart_ge0 c H). unfold tplz_steps in Hs. apply in_app_iff in Hs.
  assert (G : forall il l3, (il < 2)%nat -> In s (adds (acc_pairs c false (fun a icc _ => CT a icc il l2) l2 l3)) ->
    is_ct (s_dst s) /\ step_ok c s = true /\ forall x, In x (s_dst s :: s_src s) -> exists a icc il, x = CT a icc il l2).
  { intros il l3 Hil Hin. apply in_adds in Hin. destruct Hin as [v [Hin E]].
    apply in_acc_pairs in Hin. destruct Hin as [a [icc [ip [Ed [Ha [Hi _]]]]]].
    rewrite Ed. split; [exact I|]. split.
    - apply step_ok_iff. rewrite E, Ed. intros x [<-|[<-|[]]]; apply cell_ct_ok; try assumption; lia.
    - rewrite E, Ed. intros x [<-|[<-|[]]]; do 3 eexists; reflexivity. }
  destruct Hs as [Hs|Hs]; [apply (G 0%nat l2) | apply (G 1%nat (c_lt c))]; try assumption; lia.
Qed.
Lemma tplz_norm_facts (c : conf) s : cfg_ok c -> (0 < c_lt c)%Z -> In s (tplz_norm c) -> is_ct (s_dst s) /\ step_ok c s = true.
Proof.
  intros H T Hs. destruct (co_tp c H T) as [_ [H1 [H2 _]]]. unfold M_MCM.tplz_norm in Hs. apply in_flat_map in Hs. destruct Hs as [icc [Hi Hs]].
  apply in_seq in Hi. apply in_app_iff in Hs.
  destruct Hs as [Hs|Hs]; apply in_flat_map in Hs; destruct Hs as [l2 [Hl Hs]]; apply in_zrange in Hl;
    apply in_flat_map in Hs; destruct Hs as [a [_ Hs]]; destruct (c_has c a) eqn:Ha; try contradiction; destruct Hs as [<-|[]];
    (split; [exact I|]); apply step_ok_iff; cbn [s_dst s_src]; intros x Hx.
  - destruct Hx as [<-|[<-|[]]]; apply cell_ct_ok; try assumption; lia.
  - destruct Hx as [<-|[<-|[<-|[<-|[]]]]]; apply cell_ct_ok; try assumption; lia.
Qed.
Lemma wrap_range il n : (0 <= il < 2 * n)%Z -> (0 <= toeplitz_wrap il n < n)%Z.
Proof. unfold toeplitz_wrap. intro H. destruct (Z.ltb_spec il 0); [lia|]. destruct (Z.leb_spec n il); lia. Qed.
Definition is_cx0 (z : cell) : Prop := match z with CX _ _ ip _ _ => ip = 0%nat | _ => False end.
Lemma fill_facts (c : conf) l2 s : cfg_ok c -> (0 < c_lt c)%Z -> (0 <= l2 <= c_lmax c)%Z -> In s (tplz_fill_iter c l2) -> is_cx0 (s_dst s) /\ step_ok c s = true.
Proof.
  intros H T H2 Hs. destruct (co_tp c H T) as [_ [P1 [P2 _]]]. unfold M_MCM.tplz_fill_iter in Hs. apply in_flat_map in Hs. destruct Hs as [l3 [H3 Hs]].
  apply in_zrange in H3. apply in_each in Hs. destruct Hs as [a [icc [Ha [Hi [<-|Hs]]]]].
  - split; [reflexivity|]. apply step_ok_iff. cbn [s_dst s_src]. 
    pose proof (wrap_range (l2 + c_lt c - l3) (c_lmax c + 1) ltac:(lia)).
    intros x [<-|[<-|[<-|[<-|[]]]]]; try (apply cell_ct_ok; try assumption; lia). apply cell_cx_ok; try assumption; lia.
  - destruct (l3 =? l2)%Z; [contradiction|]. destruct Hs as [<-|[]]. split; [reflexivity|].
    apply step_ok_iff. cbn [s_dst s_src copy_step]. intros x [<-|[<-|[]]]; apply cell_cx_ok; try assumption; lia.
Qed.
(** the cells recomputed by the last step *)
Definition in_corner (c : conf) (x y : Z) : bool :=
  ((c_lmax c + c_lex c - c_lt c <=? Z.max x y) && (Z.max x y <=? c_lmax c) && (c_lex c <=? Z.min x y) && (Z.min x y <=? Z.max x y + c_lt c - c_lmax c))%Z.
Lemma corner_facts (c : conf) s : cfg_ok c -> (0 < c_lt c)%Z -> In s (corner c) ->
  step_ok c s = true /\ exists a icc x y, s_dst s = CX a icc 0 x y /\ in_corner c x y = true.
Proof.
  intros H T Hs. destruct (co_tp c H T) as [_ [P1 [P2 _]]]. unfold M_MCM.corner in Hs. apply in_flat_map in Hs. destruct Hs as [l2 [H2 Hs]].
  apply in_zrange in H2. apply in_flat_map in Hs. destruct Hs as [l3 [H3 Hs]]. apply in_zrange in H3.
  apply in_each in Hs. destruct Hs as [a [icc [Ha [Hi [<-|[<-|[]]]]]]].
  - split.
    + apply step_ok_iff. cbn [s_dst s_src]. intros x [<-|[<-|[<-|[<-|[<-|[<-|[]]]]]]]; apply cell_cx_ok; try assumption; lia.
    + exists a, icc, l2, l3. split; [reflexivity|]. unfold in_corner. rewrite !andb_true_iff, !Z.leb_le. lia.
  - split.
    + apply step_ok_iff. cbn [s_dst s_src copy_step]. intros x [<-|[<-|[]]]; apply cell_cx_ok; try assumption; lia.
    + exists a, icc, l3, l2. split; [reflexivity|]. unfold in_corner. rewrite !andb_true_iff, !Z.leb_le. lia.
Qed.

(** ** Symmetric stores *)
Definition sym (st : store) : Prop := forall a icc x y, st (CX a icc 0 x y) = st (CX a icc 0 y x).
Definition keeps (ss : list step) : Prop := forall st, sym st -> sym (exec ss st).
Lemma keeps_app a b : keeps a -> keeps b -> keeps (a ++ b).
Proof. intros Ha Hb st H. rewrite exec_app. apply Hb, Ha, H. Qed.
Lemma keeps_nil : keeps [].
Proof. intros st H. exact H. Qed.
Lemma keeps_flat_map {A} (f : A -> list step) l : (forall a, In a l -> keeps (f a)) -> keeps (flat_map f l).
Proof.
  induction l as [|a l IH]; intro H; [apply keeps_nil|]. cbn [flat_map]. apply keeps_app; [apply H; left; reflexivity|].
  apply IH. intros b Hb. apply H. right. exact Hb.
Qed.
Lemma keeps_each (c : conf) f : (forall a icc, keeps (f a icc)) -> keeps (each c f).
Proof.
  intro H. unfold each. apply keeps_flat_map. intros icc _. apply keeps_flat_map. intros a _.
  destruct (c_has c a); [apply H | apply keeps_nil].
Qed.
Lemma keeps_other ss : (forall s, In s ss -> is_ct (s_dst s)) -> keeps ss.
Proof.
  intros H st Hs a icc x y. rewrite !exec_other; [apply Hs| |]; intros s Hin E; specialize (H s Hin); rewrite E in H; exact H.
Qed.
Lemma keeps_pair a icc x y src f : keeps [Step (CX a icc 0 x y) src f; copy_step (CX a icc 0 y x) (CX a icc 0 x y)].
Proof.
  intros st H a' icc' x' y'. unfold exec. cbn [fold_left].
  set (st1 := exec1 st (Step (CX a icc 0 x y) src f)). unfold exec1. cbn [copy_step s_dst s_src s_fun map nth].
  assert (E1 : forall z, z <> CX a icc 0 x y -> st1 z = st z).
  { intros z N. unfold st1, exec1. cbn [s_dst]. apply cell_eqb_neq in N. rewrite N. reflexivity. }
  destruct (cell_eqb (CX a' icc' 0 x' y') (CX a icc 0 y x)) eqn:A; destruct (cell_eqb (CX a' icc' 0 y' x') (CX a icc 0 y x)) eqn:B.
  - reflexivity.
  - apply cell_eqb_eq in A. injection A as -> -> -> ->. reflexivity.
  - apply cell_eqb_eq in B. injection B as -> -> -> ->. reflexivity.
  - apply cell_eqb_neq in A, B. rewrite !E1 by congruence. apply H.
Qed.
Lemma keeps_diag a icc x src f : keeps [Step (CX a icc 0 x x) src f].
Proof.
  intros st H a' icc' x' y'. unfold exec. cbn [fold_left]. unfold exec1. cbn [s_dst s_src s_fun].
  destruct (cell_eqb (CX a' icc' 0 x' y') (CX a icc 0 x x)) eqn:A; destruct (cell_eqb (CX a' icc' 0 y' x') (CX a icc 0 x x)) eqn:B.
  - reflexivity.
  - apply cell_eqb_eq in A. injection A as -> -> -> ->. rewrite cell_eqb_refl in B. discriminate.
  - apply cell_eqb_eq in B. injection B as -> -> -> ->. rewrite cell_eqb_refl in A. discriminate.
  - apply H.
Qed.
Lemma keeps_fill (c : conf) l2 : keeps (tplz_fill_iter c l2).
Proof.
  unfold M_MCM.tplz_fill_iter. apply keeps_flat_map. intros l3 _. apply keeps_each. intros a icc.
  destruct (Z.eqb_spec l3 l2) as [->|N]; [apply keeps_diag | apply keeps_pair].
Qed.
Lemma keeps_corner (c : conf) : keeps (corner c).
Proof.
  unfold M_MCM.corner. apply keeps_flat_map. intros l2 _. apply keeps_flat_map. intros l3 _. apply keeps_each. intros a icc. apply keeps_pair.
Qed.
Lemma key_swap (c : conf) x y : c_pany c = false -> key c x y = key c y x.
Proof. intro H. unfold key. rewrite H. f_equal; lia. Qed.
Lemma keeps_main (c : conf) : cfg_ok c -> c_pany c = false -> keeps (main_steps c).
Proof.
  intros H Hp st Hs a icc x y.
  destruct (c_has c a) eqn:Ha; [destruct (Nat.ltb_spec icc (npcl c)) as [Hi|Hi]|].
  - assert (0 < c_np c a)%nat by (unfold c_np; destruct a; try destruct (c_pany c); lia).
    rewrite !(main_value fsqrt fexp flog junk w3j) by assumption. unfold computed. rewrite (key_swap c y x Hp).
    destruct (key c x y) as [p q]. destruct (_ && _); [reflexivity | apply Hs].
  - rewrite !exec_other; [apply Hs| |]; intros s Hin E; apply in_main in Hin; destruct Hin as [l2 [l3 [_ [_ Hin]]]];
      destruct (block_cells _ _ _ _ _ c l2 l3 s (s_dst s) Hin (or_introl eq_refl)) as [a' [icc' [ip [_ [Hi' [_ [Q|[_ Q]]]]]]]];
      rewrite E in Q; injection Q as _ <- _ _ _; lia.
  - rewrite !exec_other; [apply Hs| |]; intros s Hin E; apply in_main in Hin; destruct Hin as [l2 [l3 [_ [_ Hin]]]];
      destruct (block_cells _ _ _ _ _ c l2 l3 s (s_dst s) Hin (or_introl eq_refl)) as [a' [icc' [ip [Ha' [Hi' [_ [Q|[_ Q]]]]]]]];
      rewrite E in Q; injection Q as <- _ _ _ _; congruence.
Qed.

(** ** The coupling coefficients *)
Lemma master_ok (c : conf) : cfg_ok c ->
  exists st, master c = Ok st /\ (forall i j, st (CW i j) = 0) /\
    (c_pany c = false -> sym st) /\
    (forall a icc ip x y, c_has c a = true -> (icc < npcl c)%nat -> (ip < c_np c a)%nat ->
      ((c_lt c <= 0)%Z \/ (computed c x y = true /\ in_corner c x y = false)) ->
      st (CX a icc ip x y) = xi_of c a icc ip x y).
Proof.
  intro H. unfold M_MCM.master, M_MCM.master_steps.
  pose proof (co_lmax c H) as HL.
  destruct (thread_ok (bufs_ok c) (M_MCM.iter fsqrt fexp flog junk w3j c) (iter_steps c) (zrange (lstart c) (c_lmax c))) with (b := new_bufs (F:=F) c) as [b1 [E1 _]].
  { intros b l Hb Hl. apply in_zrange in Hl. apply iter_ok; assumption. }
  { apply new_bufs_ok. lia. }
  assert (MW : forall s i j, In s (main_steps c) -> s_dst s <> CW i j).
  { intros s i j Hin E. apply in_main in Hin; destruct Hin as [l2 [l3 [_ [_ Hin]]]].
    destruct (block_cells _ _ _ _ _ c l2 l3 s (s_dst s) Hin (or_introl eq_refl)) as [a' [icc' [ip [_ [Hi' [_ [Q|[_ Q]]]]]]]]; congruence. }
  destruct (Z.ltb_spec 0 (c_lt c)) as [T|T].
  - destruct (thread_ok (bufs_ok c) (tplz_iter c) (tplz_steps c) (zrange (lstart c) (c_lmax c))) with (b := new_bufs (F:=F) c) as [b2 [E2 _]].
    { intros b l Hb Hl. apply in_zrange in Hl. apply tplz_iter_ok; assumption. }
    { apply new_bufs_ok. lia. }
    unfold thread. rewrite E2. cbn [bind app]. rewrite E1. cbn [bind app]. fold (main_steps c).
    set (A := flat_map (tplz_steps c) _). set (B := flat_map (tplz_fill_iter c) _).
    assert (FA : forall s, In s A -> is_ct (s_dst s) /\ step_ok c s = true).
    { intros s Hs. unfold A in Hs. apply in_flat_map in Hs. destruct Hs as [l2 [Hl Hs]]. apply in_zrange in Hl.
      destruct (tplz_steps_facts c l2 s H Hl Hs) as [? [? _]]. auto. }
    assert (FB : forall s, In s B -> is_cx0 (s_dst s) /\ step_ok c s = true).
    { intros s Hs. unfold B in Hs. apply in_flat_map in Hs. destruct Hs as [l2 [Hl Hs]]. apply in_zrange in Hl. apply (fill_facts c l2); assumption. }
    assert (HW : forall s i j, In s ((A ++ tplz_norm c ++ B) ++ main_steps c ++ corner c) -> s_dst s <> CW i j).
    { intros s i j Hs E. rewrite !in_app_iff in Hs. destruct Hs as [[Hs|[Hs|Hs]]|[Hs|Hs]].
      - destruct (FA s Hs) as [Q _]. rewrite E in Q. exact Q.
      - destruct (tplz_norm_facts c s H T Hs) as [Q _]. rewrite E in Q. exact Q.
      - destruct (FB s Hs) as [Q _]. rewrite E in Q. exact Q.
      - exact (MW s i j Hs E).
      - destruct (corner_facts c s H T Hs) as [_ [a [icc [x [y [Q _]]]]]]. congruence. }
    rewrite run_ok.
    2:{ intros s Hs. rewrite !in_app_iff in Hs. destruct Hs as [[Hs|[Hs|Hs]]|[Hs|Hs]].
      - apply FA, Hs.
      - apply (tplz_norm_facts c s H T Hs).
      - apply FB, Hs.
      - apply (main_steps_ok fsqrt fexp flog junk w3j); assumption.
      - apply (corner_facts c s H T Hs). }
    eexists. split; [reflexivity|]. split; [|split].
    + intros i j. transitivity (zero_store (F:=F) (CW i j)); [|reflexivity]. apply exec_other. intros s Hs. apply HW. exact Hs.
    + intro Hp. assert (K : keeps ((A ++ tplz_norm c ++ B) ++ main_steps c ++ corner c)).
      { repeat apply keeps_app.
        - apply keeps_other. intros s Hs. apply FA, Hs.
        - apply keeps_other. intros s Hs. apply (tplz_norm_facts c s H T Hs).
        - unfold B. apply keeps_flat_map. intros l _. apply keeps_fill.
        - apply keeps_main; assumption.
        - apply keeps_corner. }
      apply K. intros a icc x y. reflexivity.
    + intros a icc ip x y Ha Hi Hip [C|[C N]]; [lia|].
      rewrite !exec_app. rewrite (exec_other (corner c)).
      2:{ intros s Hs E. destruct (corner_facts c s H T Hs) as [_ [a' [icc' [x' [y' [Q Q']]]]]]. rewrite E in Q. injection Q as -> -> -> -> ->. congruence. }
      rewrite (main_value fsqrt fexp flog junk w3j) by assumption. rewrite C. unfold L_MCM2.xi_of. rewrite C.
      replace (0 <? c_lt c)%Z with true by (symmetry; apply Z.ltb_lt; exact T). ring.
  - destruct (master_exact fsqrt fexp flog junk w3j c H T) as [st [E [S0 S1]]]. unfold M_MCM.master, M_MCM.master_steps in E.
    replace (0 <? c_lt c)%Z with false in E by (symmetry; apply Z.ltb_ge; exact T).
    rewrite E. exists st. split; [reflexivity|]. split; [exact S0|]. split; [|intros; apply S1; assumption].
    intro Hp.
    unfold thread in E. rewrite E1 in E. cbn [bind app] in E. rewrite app_nil_r in E. fold (main_steps c) in E.
    rewrite run_ok in E by (intros s Hs; apply (main_steps_ok fsqrt fexp flog junk w3j); assumption).
    injection E as <-. apply keeps_main; try assumption. intros a icc x y. reflexivity.
Qed.

Lemma table_ok_cfg (c : conf) : cfg_ok c -> (c_spin1 c = 0%Z -> c_pe1 c = false /\ c_pb1 c = false) ->
  (c_spin2 c = 0%Z -> c_pe2 c = false /\ c_pb2 c = false) -> table_ok c.
Proof.
  intros H P1 P2. destruct (co_spin c H) as [S1 S2].
  assert (NP : forall x y : bool, (c_pany c = false -> x = false /\ y = false) -> (b2n x + b2n y < c_np c Kpp)%nat /\ (b2n x + b2n y < c_np c Kmm)%nat).
  { intros x y Hxy. cbn [c_np]. destruct (c_pany c); [destruct x, y; cbn; lia|]. destruct (Hxy eq_refl) as [-> ->]. cbn; lia. }
  assert (PN : c_pany c = false -> c_pe1 c = false /\ c_pb1 c = false /\ c_pe2 c = false /\ c_pb2 c = false).
  { unfold c_pany. rewrite !orb_false_iff. tauto. }
  intros r k sg a ip Hin. unfold table in Hin.
  destruct (c_teb c) eqn:Ht.
  - destruct (co_teb c H Ht) as [Z1 Z2]. unfold c_ncls in Hin. rewrite Ht in Hin.
    assert (Hh : forall a, c_has c a = true) by (intro; unfold c_has; rewrite Ht; reflexivity). split; [apply Hh|].
    assert (N1 : forall x : bool, (c_pany c = false -> x = false) -> (b2n x < c_np c K0s)%nat).
    { intros x Hx. cbn [c_np]. destruct (c_pany c); [destruct x; cbn; lia|]. rewrite (Hx eq_refl). cbn; lia. }
    repeat (destruct Hin as [Hin|Hin]; [injection Hin as _ _ _ <- <-; first [cbn; lia | apply N1; intro Q; apply PN in Q; tauto | apply NP; intro Q; apply PN in Q; tauto]|]).
    destruct Hin.
  - unfold c_ncls in Hin. rewrite Ht in Hin. unfold c_has. rewrite Ht. unfold c_s1, c_s2.
    destruct (Z.eqb_spec (c_spin1 c) 0) as [E1|E1]; destruct (Z.eqb_spec (c_spin2 c) 0) as [E2|E2]; cbn [Nat.mul Nat.add] in Hin.
    + destruct Hin as [Hin|[]]. injection Hin as _ _ _ <- <-. split; [reflexivity | cbn; lia].
    + destruct (P1 E1) as [Q1 Q2]. rewrite Q1, Q2 in Hin. cbn [b2n Nat.add] in Hin.
      assert (N1 : forall x : bool, (c_pany c = false -> x = false) -> (b2n x < c_np c K0s)%nat).
      { intros x Hx. cbn [c_np]. destruct (c_pany c); [destruct x; cbn; lia|]. rewrite (Hx eq_refl). cbn; lia. }
      destruct (Z.eqb_spec (c_spin2 c) 0); [contradiction|].
      destruct Hin as [Hin|[Hin|[]]]; injection Hin as _ _ _ <- <-; (split; [reflexivity | apply N1; intro Q; apply PN in Q; tauto]).
    + destruct (P2 E2) as [Q1 Q2]. rewrite Q1, Q2 in Hin. cbn [b2n] in Hin. rewrite !Nat.add_0_r in Hin.
      assert (N1 : forall x : bool, (c_pany c = false -> x = false) -> (b2n x < c_np c K0s)%nat).
      { intros x Hx. cbn [c_np]. destruct (c_pany c); [destruct x; cbn; lia|]. rewrite (Hx eq_refl). cbn; lia. }
      destruct (Z.eqb_spec (c_spin1 c) 0); [contradiction|]. cbn [Z.eqb negb andb orb].
      destruct Hin as [Hin|[Hin|[]]]; injection Hin as _ _ _ <- <-; (split; [reflexivity | apply N1; intro Q; apply PN in Q; tauto]).
    + destruct (Z.eqb_spec (c_spin1 c) 0); [contradiction|]. destruct (Z.eqb_spec (c_spin2 c) 0); [contradiction|].
      repeat (destruct Hin as [Hin|Hin]; [injection Hin as _ _ _ <- <-; split; [reflexivity | apply NP; intro Q; apply PN in Q; tauto]|]).
      destruct Hin.
Qed.

(** ** The matrix *)
Lemma mcm_entry (c : conf) (st : store) r l2 k l3 :
  (r < c_ncls c)%nat -> (k < c_ncls c)%nat -> (Z.of_nat l2 <= c_lmax c)%Z -> (Z.of_nat l3 <= c_lmax c)%Z ->
  (forall i j, st (CW i j) = 0) ->
  entry2 (mcm_of c (exec (apply_steps c) st)) (c_ncls c * l2 + r) (c_ncls c * l3 + k)
  = fofZ (2 * Z.of_nat l3 + 1) * sign_overall c * tabv c r k (fun a ip => st (CX a 0 ip (Z.of_nat l2) (Z.of_nat l3))).
Proof.
  intros Hr Hk H2 H3 H0. unfold mcm_of, entry2.
  assert (B : forall l r, (r < c_ncls c)%nat -> (Z.of_nat l <= c_lmax c)%Z -> (c_ncls c * l + r < c_ncls c * Z.to_nat (c_lmax c + 1))%nat).
  { intros l r' Hr' Hl. nia. }
  rewrite nth_tab by (apply B; assumption). rewrite nth_tab by (apply B; assumption).
  rewrite <- apply_value; try assumption; try lia. unfold wcell. f_equal. f_equal; lia.
Qed.
Lemma mcm_square (c : conf) (st : store) : let n := (c_ncls c * Z.to_nat (c_lmax c + 1))%nat in
  length (mcm_of c st) = n /\ forall r, In r (mcm_of c st) -> length r = n.
Proof.
  cbn zeta. unfold mcm_of. split; [apply length_tab|]. intros r Hr. unfold tab in Hr. apply in_map_iff in Hr. destruct Hr as [i [<- _]]. apply length_tab.
Qed.
Lemma ncls_pos (c : conf) : (1 <= c_ncls c)%nat.
Proof. unfold c_ncls. destruct (c_teb c); [lia|]. destruct (c_spin1 c =? 0)%Z, (c_spin2 c =? 0)%Z; cbn; lia. Qed.
(** the sequence of assignments of a whole calculation *)
Definition all_steps (c : conf) : list step :=
  (if (0 <? c_lt c)%Z then
     flat_map (tplz_steps c) (zrange (lstart c) (c_lmax c)) ++ tplz_norm c ++ flat_map (tplz_fill_iter c) (zrange 0 (c_lmax c))
   else [])
  ++ main_steps c ++ (if (0 <? c_lt c)%Z then corner c else []).
Lemma master_steps_eq (c : conf) : cfg_ok c -> master_steps c = Ok (all_steps c).
Proof.
  intro H. unfold M_MCM.master_steps, all_steps. pose proof (co_lmax c H) as HL.
  destruct (thread_ok (bufs_ok c) (M_MCM.iter fsqrt fexp flog junk w3j c) (iter_steps c) (zrange (lstart c) (c_lmax c))) with (b := new_bufs (F:=F) c) as [b1 [E1 _]].
  { intros b l Hb Hl. apply in_zrange in Hl. apply iter_ok; assumption. }
  { apply new_bufs_ok. lia. }
  destruct (Z.ltb_spec 0 (c_lt c)) as [T|T].
  - destruct (thread_ok (bufs_ok c) (tplz_iter c) (tplz_steps c) (zrange (lstart c) (c_lmax c))) with (b := new_bufs (F:=F) c) as [b2 [E2 _]].
    { intros b l Hb Hl. apply in_zrange in Hl. apply tplz_iter_ok; assumption. }
    { apply new_bufs_ok. lia. }
    unfold thread. rewrite E2. cbn [bind app]. rewrite E1. reflexivity.
  - cbn [bind]. unfold thread. rewrite E1. reflexivity.
Qed.

End L.
Section Junk.
Context {F : ofield}.
Local Open Scope F_scope.
(** ** The memory next to the table of log-factorials is irrelevant *)
Lemma w000_in_table (c : conf F) l2 l3 l1 : (0 <= l2 <= c_lmax c)%Z -> (0 <= l3 <= c_lmax c)%Z -> (Z.abs (l2 - l3) <= l1 <= l2 + l3)%Z -> (l1 <= c_lmm c)%Z ->
  forall i, In i (w000_reads l2 l3 l1) -> lfac_in c i = true.
Proof.
  intros H2 H3 H1 Hm i. unfold w000_reads. destruct (_ =? _)%Z; [intros []|]. destruct (Z.odd (l1 + l2 + l3)) eqn:Eo; [intros []|].
  assert (E : exists g, (l1 + l2 + l3 = 2 * g)%Z).
  { rewrite <- Z.negb_even in Eo. apply negb_false_iff in Eo. apply Z.even_spec in Eo. destruct Eo as [g E]. exists g. exact E. }
  destruct E as [g E]. rewrite E, (Z.mul_comm 2 g), Z.div_mul by lia.
  unfold lfac_in, lfac_size. rewrite andb_true_iff, Z.leb_le, Z.ltb_lt.
  cbn [In]. intuition lia.
Qed.
Variables (fsqrt fexp flog : F -> F).
Variable w3j : Z -> Z -> Z -> Z -> Z -> F.
Lemma w000_junk (junk junk' : Z -> F) (c : conf F) l2 l3 l1 : (0 <= l2 <= c_lmax c)%Z -> (0 <= l3 <= c_lmax c)%Z -> (Z.abs (l2 - l3) <= l1 <= l2 + l3)%Z -> (l1 <= c_lmm c)%Z ->
  w000 fsqrt fexp flog junk c l2 l3 l1 = w000 fsqrt fexp flog junk' c l2 l3 l1.
Proof.
  intros H2 H3 H1 Hm. pose proof (w000_in_table c l2 l3 l1 H2 H3 H1 Hm) as R. unfold w000. unfold w000_reads in R.
  destruct (l2 + l3 =? Z.abs (l2 - l3))%Z; [reflexivity|]. destruct (Z.odd (l1 + l2 + l3)); [reflexivity|].
  unfold lfac_rd. rewrite !R by (cbn [In]; tauto). reflexivity.
Qed.
Lemma wv_junk junk junk' (c : conf F) pure l2 l3 l1 : (0 <= l2 <= c_lmax c)%Z -> (0 <= l3 <= c_lmax c)%Z -> (Z.abs (l2 - l3) <= l1 <= l2 + l3)%Z -> (l1 <= c_lmm c)%Z ->
  wv fsqrt fexp flog junk w3j c pure l2 l3 l1 = wv fsqrt fexp flog junk' w3j c pure l2 l3 l1.
Proof. intros. unfold wv, W00. rewrite (w000_junk junk junk') by assumption. reflexivity. Qed.
Lemma flat_map_ext_in {A B} (f g : A -> list B) l : (forall a, In a l -> f a = g a) -> flat_map f l = flat_map g l.
Proof. induction l as [|a l IH]; intro H; [reflexivity|]. cbn. rewrite H by (left; reflexivity). rewrite IH; [reflexivity|]. intros b Hb. apply H. right. exact Hb. Qed.
Lemma acc_pairs_junk junk junk' (c : conf F) pure dst l2 l3 : (0 <= l2 <= c_lmax c)%Z -> (0 <= l3 <= c_lmax c)%Z ->
  acc_pairs fsqrt fexp flog junk w3j c pure dst l2 l3 = acc_pairs fsqrt fexp flog junk' w3j c pure dst l2 l3.
Proof.
  intros H2 H3. unfold acc_pairs. apply flat_map_ext_in. intros l1 Hl. unfold l1s in Hl. apply filter_In in Hl. destruct Hl as [Hl Hm].
  apply in_zrange in Hl. apply Z.leb_le in Hm. rewrite (wv_junk junk junk') by assumption. reflexivity.
Qed.
Lemma master_junk junk junk' (c : conf F) : cfg_ok c ->
  master fsqrt fexp flog junk w3j c = master fsqrt fexp flog junk' w3j c.
Proof.
  intro H. unfold master. rewrite !master_steps_eq by exact H. cbn [bind]. f_equal. unfold all_steps. pose proof (lstart_ge0 c H) as L0.
  assert (M : main_steps fsqrt fexp flog junk w3j c = main_steps fsqrt fexp flog junk' w3j c).
  { unfold main_steps. apply flat_map_ext_in. intros l2 H2. apply in_zrange in H2. unfold iter_steps. apply flat_map_ext_in. intros l3 H3.
    apply in_columns in H3. pose proof (lend_le c l2). unfold block_steps. rewrite (acc_pairs_junk junk junk') by (destruct (c_pany c); lia). reflexivity. }
  rewrite M. f_equal. destruct (Z.ltb_spec 0 (c_lt c)) as [T|T]; [|reflexivity]. f_equal. apply flat_map_ext_in. intros l2 H2. apply in_zrange in H2.
  destruct (co_tp c H T) as [_ [P1 [P2 _]]].
  unfold tplz_steps. rewrite !(acc_pairs_junk junk junk') by lia. reflexivity.
Qed.
End Junk.
