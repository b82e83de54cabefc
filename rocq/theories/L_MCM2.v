(** The main loop of nmt_compute_master_coefficients and the application loop: result of every cell. *)
From Coq Require Import FinFun.
From Verif Require Import Base M_Bins M_LinAlg M_Workspace M_MCM L_MCM.
Open Scope Z_scope.

Lemma existsb_false_in {A} (p : A -> bool) l x : existsb p l = false -> In x l -> p x = false.
Proof. intros H Hx. destruct (p x) eqn:E; [|reflexivity]. exfalso. assert (existsb p l = true) by (apply existsb_exists; eauto). congruence. Qed.
Section L.
Context {F : ofield}.
Local Open Scope F_scope.
Add Field FfLM2 : (fth F).
Notation mat := (list (list F)).
Variables (fsqrt fexp flog : F -> F) (junk : Z -> F).
Variable w3j : Z -> Z -> Z -> Z -> Z -> F.
Notation block := (block fsqrt fexp flog junk w3j).
Notation iter := (iter fsqrt fexp flog junk w3j).
Notation tplz_iter := (tplz_iter fsqrt fexp flog junk w3j).
Notation master_steps := (master_steps fsqrt fexp flog junk w3j).
Notation master := (master fsqrt fexp flog junk w3j).
Notation acc_pairs := (acc_pairs fsqrt fexp flog junk w3j).
Notation XI := (XI fsqrt fexp flog junk w3j).
Notation buf := (buf F).
Notation bufs := (bufs F).
Notation conf := (conf F).
Notation store := (store F).
Notation step := (step F).

(** ** Stores, continued *)
Lemma exec_flat_map_one {A} (S : A -> list step) (L : list A) k (P : cell -> Prop) (st : store) x :
  NoDup L -> In k L ->
  (forall s, In s (S k) -> forall y, In y (s_dst s :: s_src s) -> P y) ->
  (forall j, In j L -> j <> k -> forall s, In s (S j) -> ~ P (s_dst s)) ->
  P x -> exec (flat_map S L) st x = exec (S k) st x.
Proof.
  intros ND HI HP HO Hx. apply in_split in HI. destruct HI as [L1 [L2 ->]].
  apply NoDup_remove_2 in ND. rewrite in_app_iff in ND.
  rewrite flat_map_app. cbn [flat_map]. rewrite !exec_app.
  rewrite exec_other.
  - apply exec_ext with (P := P); [exact HP | | exact Hx]. intros y Hy. apply exec_other.
    intros s Hs E. apply in_flat_map in Hs. destruct Hs as [j [Hj Hs]].
    apply (HO j) in Hs; [subst; auto | apply in_app_iff; left; exact Hj | intro; subst; apply ND; left; exact Hj].
  - intros s Hs E. apply in_flat_map in Hs. destruct Hs as [j [Hj Hs]].
    apply (HO j) in Hs; [subst; auto | apply in_app_iff; right; right; exact Hj | intro; subst; apply ND; right; exact Hj].
Qed.
Lemma NoDup_fams : NoDup fams.
Proof. unfold fams. repeat constructor; simpl; intuition congruence. Qed.
Lemma in_fams a : In a fams.
Proof. destruct a; simpl; tauto. Qed.
Lemma in_each (c : conf) f s : In s (each c f) <-> exists a icc, c_has c a = true /\ (icc < npcl c)%nat /\ In s (f a icc).
Proof.
  unfold each. rewrite in_flat_map. split.
  - intros [icc [Hi H]]. apply in_seq in Hi. apply in_flat_map in H. destruct H as [a [_ H]].
    destruct (c_has c a) eqn:E; [|destruct H]. exists a, icc. repeat split; [exact E | lia | exact H].
  - intros [a [icc [Ha [Hi H]]]]. exists icc. split; [apply in_seq; lia|]. apply in_flat_map. exists a.
    split; [apply in_fams|]. rewrite Ha. exact H.
Qed.
Lemma NoDup_app_intro {A} (l m : list A) : NoDup l -> NoDup m -> (forall x, In x l -> ~ In x m) -> NoDup (l ++ m).
Proof.
  intros Hl Hm D. induction Hl as [|a l Ha Hl IH]; [exact Hm|]. cbn. constructor.
  - rewrite in_app_iff. intros [H|H]; [exact (Ha H) | exact (D a (or_introl eq_refl) H)].
  - apply IH. intros x Hx. apply D. right. exact Hx.
Qed.
Lemma NoDup_prod {A B} (l : list A) (m : list B) : NoDup l -> NoDup m -> NoDup (list_prod l m).
Proof.
  intros Hl Hm. induction Hl as [|a l Ha Hl IH]; [constructor|]. cbn [list_prod].
  apply NoDup_app_intro; [|exact IH|].
  - apply FinFun.Injective_map_NoDup; [intros x y E; congruence | exact Hm].
  - intros [x y] H1 H2. apply in_map_iff in H1. destruct H1 as [y' [E _]]. injection E as <- _.
    apply in_prod_iff in H2. apply Ha, H2.
Qed.
Lemma flat_map_prod {A B C} (f : A -> B -> list C) l m :
  flat_map (fun a => flat_map (f a) m) l = flat_map (fun p => f (fst p) (snd p)) (list_prod l m).
Proof.
  induction l as [|a l IH]; [reflexivity|]. cbn [flat_map list_prod]. rewrite flat_map_app, IH. f_equal.
  clear. induction m as [|b m IHm]; [reflexivity|]. cbn [flat_map map fst snd]. rewrite IHm. reflexivity.
Qed.
Lemma exec_each (c : conf) f a icc (P : cell -> Prop) (st : store) x :
  c_has c a = true -> (icc < npcl c)%nat ->
  (forall s, In s (f a icc) -> forall y, In y (s_dst s :: s_src s) -> P y) ->
  (forall a' icc', (a', icc') <> (a, icc) -> forall s, In s (f a' icc') -> ~ P (s_dst s)) ->
  P x -> exec (each c f) st x = exec (f a icc) st x.
Proof.
  intros Ha Hi HP HO Hx. unfold each.
  rewrite (flat_map_prod (fun icc a => if c_has c a then f a icc else [])).
  rewrite exec_flat_map_one with (k := (icc, a)) (P := P).
  - cbn [fst snd]. rewrite Ha. reflexivity.
  - apply NoDup_prod; [apply seq_NoDup | apply NoDup_fams].
  - apply in_prod; [apply in_seq; lia | apply in_fams].
  - cbn [fst snd]. rewrite Ha. exact HP.
  - intros [icc' a'] _ N s Hs. cbn [fst snd] in Hs. destruct (c_has c a'); [|destruct Hs].
    apply (HO a' icc'); [congruence | exact Hs].
  - exact Hx.
Qed.

(** ** Iterations without undefined behaviour *)
(** what the Python layer guarantees (a purified field has spin 2 unless it is a mask-only field,
    see P_MCM.v) plus lmax <= lmax_mask and no purification of a T-E-B workspace *)
Record cfg_ok (c : conf) : Prop := {
  co_lmax : (0 <= c_lmax c <= c_lmm c)%Z;
  co_pcl : pcl_ok c;
  co_spin : (0 <= c_spin1 c)%Z /\ (0 <= c_spin2 c)%Z;
  co_teb : c_teb c = true -> c_spin1 c = 0%Z /\ c_spin2 c <> 0%Z;
  co_pure : c_pany c = true -> c_teb c = false /\ (2 <= lstart c)%Z;
  co_tp : (0 < c_lt c)%Z -> c_pany c = false /\ (0 < c_lex c <= c_lt c)%Z /\ (c_lt c < c_lmax c)%Z /\ (0 <= c_dl c)%Z }.

Definition block_steps (c : conf) (l2 l3 : Z) : list step :=
  (if (0 <? c_lt c)%Z then each c (fun a icc => [set_step (CX a icc 0 l2 l3) 0]) else [])
  ++ adds (acc_pairs c (c_pany c) (fun a icc ip => CX a icc ip l2 l3) l2 l3)
  ++ (if negb (c_pany c) && negb (l2 =? l3)%Z
      then each c (fun a icc => [copy_step (CX a icc 0 l3 l2) (CX a icc 0 l2 l3)]) else []).
Definition iter_steps (c : conf) (l2 : Z) : list step := flat_map (block_steps c l2) (columns c l2).
Definition main_steps (c : conf) : list step := flat_map (iter_steps c) (zrange (lstart c) (c_lmax c)).

Lemma lstart_ge0 (c : conf) : cfg_ok c -> (0 <= lstart c)%Z.
Proof.
  intro H. destruct (co_spin c H). unfold lstart, c_s1, c_s2. destruct (c_has c K00); [lia|].
  destruct (c_spin1 c =? 0)%Z, (c_spin2 c =? 0)%Z; lia.
Qed.
Lemma lend_le (c : conf) l2 : (lend c l2 <= c_lmax c)%Z.
Proof. unfold lend. lia. Qed.
Lemma lend_ge (c : conf) l2 : cfg_ok c -> (l2 <= c_lmax c)%Z -> (l2 <= lend c l2)%Z.
Proof.
  intros H Hl. unfold lend. pose proof (co_tp c H) as T. destruct (Z.ltb_spec 0 (c_lt c)) as [P|P]; [|lia].
  destruct (T P) as [_ [_ [_ D]]]. destruct (l2 <=? c_lex c)%Z, (l2 <=? c_lt c)%Z; lia.
Qed.
Lemma in_columns (c : conf) l2 l3 : In l3 (columns c l2) <-> ((if c_pany c then lstart c else l2) <= l3 <= lend c l2)%Z.
Proof. apply in_zrange. Qed.

Lemma block_ok (c : conf) (b : bufs) l2 l3 :
  cfg_ok c -> bufs_ok c b -> (lstart c <= l2 <= c_lmax c)%Z -> (lstart c <= l3 <= c_lmax c)%Z ->
  exists b', block c b l2 l3 = Ok (b', block_steps c l2 l3) /\ bufs_ok c b'.
Proof.
  intros H Hb H2 H3. pose proof (lstart_ge0 c H) as P0. pose proof (co_lmax c H).
  destruct (load_ok fsqrt fexp flog junk w3j c (c_pany c) b l2 l3) as [m [b' [E [Ob R]]]]; try lia; [|exact Hb|].
  { intro Hp. split; [exact Hp|]. destruct (co_pure c H Hp). lia. }
  exists b'. split; [|exact Ob]. unfold M_MCM.block. rewrite E. cbn [bind].
  rewrite (accumulate_ok fsqrt fexp flog junk w3j) with (l2 := l2) (l3 := l3); [reflexivity | apply (co_pcl c H) | lia | lia | exact R].
Qed.
Lemma thread_ok {B A} (okb : B -> Prop) (it : B -> A -> res (B * list step)) (S : A -> list step) ls :
  (forall b l, okb b -> In l ls -> exists b', it b l = Ok (b', S l) /\ okb b') ->
  forall b, okb b -> exists b', foldM (fun '(b0, ss) l => do (b', s) <- it b0 l; Ok (b', ss ++ s)) (b, []) ls = Ok (b', flat_map S ls) /\ okb b'.
Proof.
  intros H b Hb.
  assert (G : forall ss b, okb b -> exists b', foldM (fun '(b0, ss) l => do (b', s) <- it b0 l; Ok (b', ss ++ s)) (b, ss) ls = Ok (b', ss ++ flat_map S ls) /\ okb b').
  { clear b Hb. induction ls as [|l ls IH]; intros ss b Hb; cbn [foldM].
    - exists b. rewrite app_nil_r. split; [reflexivity | exact Hb].
    - destruct (H b l Hb (or_introl eq_refl)) as [b' [-> Hb']]. cbn [bind].
      destruct (IH (fun b l Hb Hl => H b l Hb (or_intror Hl)) (ss ++ S l) b' Hb') as [b'' [E' Hb'']].
      exists b''. rewrite E'. cbn [flat_map]. rewrite app_assoc. split; [reflexivity | exact Hb'']. }
  apply (G [] b Hb).
Qed.
Lemma iter_ok (c : conf) (b : bufs) l2 :
  cfg_ok c -> bufs_ok c b -> (lstart c <= l2 <= c_lmax c)%Z ->
  exists b', iter c b l2 = Ok (b', iter_steps c l2) /\ bufs_ok c b'.
Proof.
  intros H Hb H2. unfold M_MCM.iter, iter_steps.
  apply (thread_ok (bufs_ok c) (fun b0 l3 => block c b0 l2 l3) (block_steps c l2)); [|exact Hb].
  intros b0 l3 Hb0 Hl. apply in_columns in Hl. apply block_ok; try assumption.
  pose proof (lend_le c l2). destruct (c_pany c); lia.
Qed.

(** ** Footprints *)
(** the block to which a cell belongs *)
Definition key (c : conf) (x y : Z) : Z * Z := if c_pany c then (x, y) else (Z.min x y, Z.max x y).
Definition owned (c : conf) (p q : Z) (z : cell) : Prop :=
  match z with CX a icc ip x y => key c x y = (p, q) | _ => False end.
Lemma in_adds (l : list (cell * F)) s : In s (adds l) -> exists v, In (s_dst s, v) l /\ s_src s = [s_dst s].
Proof. unfold adds. intro H. apply in_map_iff in H. destruct H as [[x v] [<- H]]. exists v. split; [exact H | reflexivity]. Qed.
Lemma contrib_in (c : conf) pure p w sl a ip v : In (a, ip, v) (contrib c pure p w sl) ->
  c_has c a = true /\ (if pure then (ip <= match a with K00 => 0 | K0s => 1 | _ => 2 end)%nat else ip = 0%nat).
Proof.
  unfold contrib. pose proof (has_mm c) as M. rewrite !in_app_iff. intros [H|[H|H]].
  - destruct (c_has c K00) eqn:E; [|destruct H]. destruct H as [H|[]]. injection H as <- <- _. split; [exact E | destruct pure; lia].
  - destruct (c_has c K0s) eqn:E; [|destruct H]. destruct H as [H|H].
    + injection H as <- <- _. split; [exact E | destruct pure; lia].
    + destruct pure; [|destruct H]. destruct H as [H|[]]. injection H as <- <- _. split; [exact E | lia].
  - destruct (c_has c Kpp) eqn:E; [|destruct H]. 
    assert (G : forall b : bool, c_has c (if b then Kmm else Kpp) = true) by (intros []; congruence).
    destruct H as [H|H].
    + injection H as <- <- _. split; [apply G | destruct pure; lia].
    + destruct pure; [|destruct H]. destruct (Z.odd sl); destruct H as [H|[H|[]]]; injection H as <- <- _;
        (split; [congruence | lia]).
Qed.
Lemma in_acc_pairs (c : conf) pure dst l2 l3 x v : In (x, v) (acc_pairs c pure dst l2 l3) ->
  exists a icc ip, x = dst a icc ip /\ c_has c a = true /\ (icc < npcl c)%nat /\
    (if pure then (ip <= match a with K00 => 0 | K0s => 1 | _ => 2 end)%nat else ip = 0%nat).
Proof.
  unfold L_MCM.acc_pairs. rewrite in_flat_map. intros [l1 [_ H]]. apply in_flat_map in H. destruct H as [icc [Hi H]].
  apply in_seq in Hi. apply in_map_iff in H. destruct H as [[[a ip] v'] [E H]]. injection E as <- _.
  apply contrib_in in H. exists a, icc, ip. repeat split; try tauto; lia.
Qed.
Lemma block_cells (c : conf) l2 l3 s x : In s (block_steps c l2 l3) -> In x (s_dst s :: s_src s) ->
  exists a icc ip, c_has c a = true /\ (icc < npcl c)%nat /\
    (if c_pany c then (ip <= match a with K00 => 0 | K0s => 1 | _ => 2 end)%nat else ip = 0%nat) /\
    (x = CX a icc ip l2 l3 \/ (c_pany c = false /\ x = CX a icc ip l3 l2)).
Proof.
  unfold block_steps. rewrite !in_app_iff. intros [H|[H|H]] Hx.
  - destruct (0 <? c_lt c)%Z; [|destruct H]. apply in_each in H. destruct H as [a [icc [Ha [Hi [<-|[]]]]]].
    destruct Hx as [<-|[]]. exists a, icc, 0%nat. repeat split; try assumption; [destruct (c_pany c); lia | left; reflexivity].
  - apply in_adds in H. destruct H as [v [H E]]. apply in_acc_pairs in H. destruct H as [a [icc [ip [E' [Ha [Hi Hp]]]]]].
    rewrite E, E' in Hx. exists a, icc, ip. repeat split; try assumption. left. destruct Hx as [Hx|[Hx|[]]]; auto.
  - destruct (negb (c_pany c) && negb (l2 =? l3)%Z) eqn:EE; [|destruct H]. apply andb_true_iff in EE. destruct EE as [EE _].
    apply negb_true_iff in EE. rewrite EE.
    apply in_each in H. destruct H as [a [icc [Ha [Hi [<-|[]]]]]]. exists a, icc, 0%nat.
    repeat split; try assumption. destruct Hx as [<-|[<-|[]]]; auto.
Qed.
Lemma block_owned (c : conf) l2 l3 s x : (c_pany c = false -> (l2 <= l3)%Z) ->
  In s (block_steps c l2 l3) -> In x (s_dst s :: s_src s) -> owned c l2 l3 x.
Proof.
  intros Hle H Hx. destruct (block_cells c l2 l3 s x H Hx) as [a [icc [ip [_ [_ [_ [->|[Hp ->]]]]]]]]; unfold owned, key.
  - destruct (c_pany c); [reflexivity|]. specialize (Hle eq_refl). f_equal; lia.
  - rewrite Hp in *. specialize (Hle eq_refl). f_equal; lia.
Qed.
Lemma in_main (c : conf) s : In s (main_steps c) -> exists l2 l3, (lstart c <= l2 <= c_lmax c)%Z /\ In l3 (columns c l2) /\ In s (block_steps c l2 l3).
Proof.
  unfold main_steps. rewrite in_flat_map. intros [l2 [H2 H]]. apply in_zrange in H2.
  unfold iter_steps in H. apply in_flat_map in H. destruct H as [l3 [H3 H]]. eauto.
Qed.
Lemma main_steps_ok (c : conf) s : cfg_ok c -> In s (main_steps c) -> step_ok c s = true.
Proof.
  intros H Hs. apply in_main in Hs. destruct Hs as [l2 [l3 [H2 [H3 Hs]]]]. apply step_ok_iff. intros x Hx.
  apply in_columns in H3. pose proof (lstart_ge0 c H). pose proof (lend_le c l2).
  destruct (block_cells c l2 l3 s x Hs Hx) as [a [icc [ip [Ha [Hi [Hp Hc]]]]]].
  assert (L2 : in_l c l2 = true) by (unfold in_l; rewrite andb_true_iff, !Z.leb_le; lia).
  assert (L3 : in_l c l3 = true) by (unfold in_l; rewrite andb_true_iff, !Z.leb_le; destruct (c_pany c); lia).
  assert (I1 : Nat.ltb icc (npcl c) = true) by (apply Nat.ltb_lt; exact Hi).
  assert (I2 : Nat.ltb ip (c_np c a) = true).
  { apply Nat.ltb_lt. unfold c_np. destruct (c_pany c), a; lia. }
  destruct Hc as [->|[_ ->]]; cbn [cell_ok]; rewrite Ha, L2, L3, I1, I2; reflexivity.
Qed.

(** ** Value of every cell after the main loop *)
Lemma block_value (c : conf) l2 l3 a icc ip (st : store) x y :
  (c_pany c = false -> (l2 <= l3)%Z) -> ((0 < c_lt c)%Z -> c_pany c = false) ->
  c_has c a = true -> (icc < npcl c)%nat -> (ip < c_np c a)%nat -> key c x y = (l2, l3) ->
  exec (block_steps c l2 l3) st (CX a icc ip x y)
  = (if (0 <? c_lt c)%Z then 0 else st (CX a icc ip l2 l3)) + XI c (c_pany c) a icc ip l2 l3.
Proof.
  intros Hle Htp Ha Hi Hip Hk. unfold block_steps. rewrite !exec_app.
  set (st1 := exec (if (0 <? c_lt c)%Z then _ else _) st).
  assert (E1 : st1 (CX a icc ip l2 l3) = if (0 <? c_lt c)%Z then 0 else st (CX a icc ip l2 l3)).
  { unfold st1. destruct (Z.ltb_spec 0 (c_lt c)) as [T|T]; [|reflexivity].
    assert (ip = 0%nat) by (unfold c_np in Hip; rewrite (Htp T) in Hip; destruct a; lia). subst ip.
    rewrite exec_each with (a := a) (icc := icc) (P := fun z => z = CX a icc 0 l2 l3); try assumption; try reflexivity.
    - cbn. unfold exec1. cbn [set_step s_dst s_fun s_src]. rewrite cell_eqb_refl. reflexivity.
    - intros s [<-|[]] z [<-|[]]. reflexivity.
    - intros a' icc' N s [<-|[]] E. cbn in E. congruence. }
  set (st2 := exec (adds _) st1).
  assert (E2 : st2 (CX a icc ip l2 l3) = st1 (CX a icc ip l2 l3) + XI c (c_pany c) a icc ip l2 l3).
  { unfold st2. rewrite exec_adds. f_equal.
    apply (acc_value fsqrt fexp flog junk w3j c (c_pany c) (fun a icc ip => CX a icc ip l2 l3)); [exact Hi|].
    intros a' icc' ip' _ E. injection E as -> -> ->. auto. }
  rewrite <- E1, <- E2. unfold key in Hk. destruct (c_pany c) eqn:Hp.
  - injection Hk as -> ->. reflexivity.
  - assert (ip = 0%nat) by (unfold c_np in Hip; rewrite Hp in Hip; destruct a; lia). subst ip.
    injection Hk as K1 K2. specialize (Hle eq_refl). cbn [negb andb].
    destruct (Z.eqb_spec l2 l3) as [E|N]; cbn [negb].
    + replace x with l2 by lia. replace y with l3 by lia. reflexivity.
    + destruct (Z.leb_spec x y) as [L|L].
      * replace x with l2 by lia. replace y with l3 by lia. apply exec_other. intros s Hs E.
        apply in_each in Hs. destruct Hs as [a' [icc' [_ [_ [<-|[]]]]]]. cbn in E. congruence.
      * replace x with l3 by lia. replace y with l2 by lia.
        rewrite exec_each with (a := a) (icc := icc) (P := fun z => z = CX a icc 0 l3 l2 \/ z = CX a icc 0 l2 l3);
          try assumption; try (left; reflexivity).
        -- cbn. unfold exec1. cbn [copy_step s_dst s_fun s_src map nth]. rewrite cell_eqb_refl. reflexivity.
        -- intros s [<-|[]] z [<-|[<-|[]]]; auto.
        -- intros a' icc' N' s [<-|[]] E. cbn in E. destruct E; congruence.
Qed.
(** is (x,y) recomputed by the main loop? *)
Definition computed (c : conf) (x y : Z) : bool :=
  let '(p, q) := key c x y in ((lstart c <=? p) && (lstart c <=? q) && (p <=? c_lmax c) && (q <=? lend c p))%Z.
Lemma computed_iff (c : conf) x y p q : key c x y = (p, q) ->
  computed c x y = true <-> (lstart c <= p <= c_lmax c)%Z /\ In q (columns c p).
Proof.
  intro K. unfold computed. rewrite K, !andb_true_iff, !Z.leb_le, in_columns.
  unfold key in K. destruct (c_pany c); injection K as <- <-; lia.
Qed.
Lemma main_value (c : conf) a icc ip (st : store) x y :
  cfg_ok c -> c_has c a = true -> (icc < npcl c)%nat -> (ip < c_np c a)%nat ->
  exec (main_steps c) st (CX a icc ip x y)
  = if computed c x y then
      (if (0 <? c_lt c)%Z then 0 else st (CX a icc ip (fst (key c x y)) (snd (key c x y))))
      + XI c (c_pany c) a icc ip (fst (key c x y)) (snd (key c x y))
    else st (CX a icc ip x y).
Proof.
  intros H Ha Hi Hip. destruct (key c x y) as [p q] eqn:K. cbn [fst snd].
  assert (Hcol : forall l2 l3, In l3 (columns c l2) -> c_pany c = false -> (l2 <= l3)%Z).
  { intros l2 l3 Hl Hp. apply in_columns in Hl. rewrite Hp in Hl. lia. }
  destruct (computed c x y) eqn:C.
  - apply (computed_iff c x y p q K) in C. destruct C as [Cp Cq].
    unfold main_steps.
    rewrite exec_flat_map_one with (k := p) (P := fun z => exists q', owned c p q' z).
    + unfold iter_steps. rewrite exec_flat_map_one with (k := q) (P := owned c p q).
      * apply block_value; try assumption; [apply Hcol; exact Cq | intro T; apply (co_tp c H T)].
      * apply NoDup_zrange.
      * exact Cq.
      * intros s Hs z Hz. apply (block_owned c p q s z); [apply Hcol; exact Cq | exact Hs | exact Hz].
      * intros j Hj N s Hs O. assert (O' := block_owned c p j s (s_dst s) (Hcol p j Hj) Hs (or_introl eq_refl)).
        destruct (s_dst s); cbn in O, O'; try contradiction. congruence.
      * exact K.
    + apply NoDup_zrange.
    + apply in_zrange. exact Cp.
    + intros s Hs z Hz. unfold iter_steps in Hs. apply in_flat_map in Hs. destruct Hs as [l3 [Hl Hs]].
      exists l3. apply (block_owned c p l3 s z); [apply Hcol; exact Hl | exact Hs | exact Hz].
    + intros j Hj N s Hs [q' O]. unfold iter_steps in Hs. apply in_flat_map in Hs. destruct Hs as [l3 [Hl Hs]].
      assert (O' := block_owned c j l3 s (s_dst s) (Hcol j l3 Hl) Hs (or_introl eq_refl)).
      destruct (s_dst s); cbn in O, O'; try contradiction. congruence.
    + exists q. exact K.
  - apply exec_other. intros s Hs E. apply in_main in Hs. destruct Hs as [l2 [l3 [H2 [H3 Hs]]]].
    assert (O := block_owned c l2 l3 s (s_dst s) (Hcol l2 l3 H3) Hs (or_introl eq_refl)). rewrite E in O. cbn in O.
    rewrite K in O. injection O as -> ->. enough (computed c x y = true) by congruence.
    apply (computed_iff c x y l2 l3 K). auto.
Qed.

(** ** Without the Toeplitz approximation *)
Definition xi_of (c : conf) (a : fam) (icc ip : nat) (x y : Z) : F :=
  if computed c x y then XI c (c_pany c) a icc ip (fst (key c x y)) (snd (key c x y)) else 0.
Lemma master_exact (c : conf) : cfg_ok c -> (c_lt c <= 0)%Z ->
  exists st, master c = Ok st /\ (forall i j, st (CW i j) = 0) /\
    forall a icc ip x y, c_has c a = true -> (icc < npcl c)%nat -> (ip < c_np c a)%nat ->
      st (CX a icc ip x y) = xi_of c a icc ip x y.
Proof.
  intros H Hlt. unfold M_MCM.master, M_MCM.master_steps.
  replace (0 <? c_lt c)%Z with false by (symmetry; apply Z.ltb_ge; exact Hlt). cbn [bind].
  destruct (thread_ok (bufs_ok c) (iter c) (iter_steps c) (zrange (lstart c) (c_lmax c))) with (b := new_bufs c) as [b' [E _]].
  { intros b l Hb Hl. apply in_zrange in Hl. apply iter_ok; assumption. }
  { apply new_bufs_ok. pose proof (co_lmax c H). lia. }
  unfold thread. rewrite E. cbn [bind app]. rewrite app_nil_r. fold (main_steps c).
  rewrite run_ok by (intros s Hs; apply main_steps_ok; assumption).
  eexists. split; [reflexivity|]. split.
  - intros i j. transitivity (zero_store (F:=F) (CW i j)); [|reflexivity]. apply exec_other. intros s Hs Es. apply in_main in Hs. destruct Hs as [l2 [l3 [_ [_ Hs]]]].
    destruct (block_cells c l2 l3 s (s_dst s) Hs (or_introl eq_refl)) as [a [icc [ip [_ [_ [_ [Q|[_ Q]]]]]]]]; congruence.
  - intros a icc ip x y Ha Hi Hp. rewrite main_value by assumption. unfold xi_of.
    replace (0 <? c_lt c)%Z with false by (symmetry; apply Z.ltb_ge; exact Hlt).
    unfold zero_store. destruct (computed c x y); ring.
Qed.

(** ** The application loop *)
Definition tabv (c : conf) (r k : nat) (g : fam -> nat -> F) : F :=
  lsum (map (fun '(r', k', sg, a, ip) => if Nat.eqb r r' && Nat.eqb k k' then sg * g a ip else 0) (table c)).
Lemma exec_table {A} (T : list A) (D : A -> cell) (src : A -> list cell) (f : A -> list F -> F) (st : store) x :
  NoDup (map D T) -> (forall e e', In e T -> In e' T -> ~ In (D e) (src e')) -> st x = 0 ->
  exec (map (fun e => Step (D e) (src e) (f e)) T) st x
  = lsum (map (fun e => if cell_eqb x (D e) then f e (map st (src e)) else 0) T).
Proof.
  intros ND HS.
  assert (G : forall st0, (forall e, In e T -> map st0 (src e) = map st (src e)) ->
    exec (map (fun e => Step (D e) (src e) (f e)) T) st0 x
    = (if existsb (fun e => cell_eqb x (D e)) T then 0 else st0 x) + lsum (map (fun e => if cell_eqb x (D e) then f e (map st (src e)) else 0) T)).
  { induction T as [|e T IH]; intros st0 H0; [cbn; ring|]. cbn [map]. rewrite exec_cons. inversion ND as [|? ? N1 N2]; subst.
    rewrite IH; [|exact N2 | intros; apply HS; right; assumption |].
    - rewrite lsum_cons || change (lsum ((if cell_eqb x (D e) then f e (map st (src e)) else 0) :: map (fun e => if cell_eqb x (D e) then f e (map st (src e)) else 0) T))
        with ((if cell_eqb x (D e) then f e (map st (src e)) else 0) + lsum (map (fun e => if cell_eqb x (D e) then f e (map st (src e)) else 0) T)).
      cbn [existsb]. unfold exec1. cbn [s_dst s_src s_fun]. destruct (cell_eqb x (D e)) eqn:E.
      + apply cell_eqb_eq in E. subst x. cbn [orb].
        destruct (existsb (fun e0 => cell_eqb (D e) (D e0)) T) eqn:EX.
        * exfalso. apply existsb_exists in EX. destruct EX as [e' [He' Ee]]. apply cell_eqb_eq in Ee. apply N1.
          rewrite Ee. apply in_map. exact He'.
        * rewrite H0 by (left; reflexivity). ring.
      + cbn [orb]. ring.
    - intros e' He'. rewrite <- H0 by (right; exact He'). apply map_ext_in. intros z Hz. unfold exec1.
      cbn [s_dst]. destruct (cell_eqb z (D e)) eqn:E; [|reflexivity]. apply cell_eqb_eq in E. subst z. exfalso.
      apply (HS e e'); [left; reflexivity | right; exact He' | exact Hz]. }
  intro Hx. rewrite (G st) by reflexivity. rewrite Hx. destruct (existsb _ T); ring.
Qed.

Definition wcell (c : conf) (r : nat) (l2 : Z) (k : nat) (l3 : Z) : cell :=
  CW (Z.of_nat (c_ncls c) * l2 + Z.of_nat r) (Z.of_nat (c_ncls c) * l3 + Z.of_nat k).
Lemma wcell_inj (c : conf) r l2 k l3 r' l2' k' l3' :
  (r < c_ncls c)%nat -> (k < c_ncls c)%nat -> (r' < c_ncls c)%nat -> (k' < c_ncls c)%nat ->
  wcell c r l2 k l3 = wcell c r' l2' k' l3' -> r = r' /\ l2 = l2' /\ k = k' /\ l3 = l3'.
Proof.
  unfold wcell. intros H1 H2 H3 H4 E. injection E as E1 E2.
  assert (l2 = l2') by nia. assert (l3 = l3') by nia. subst. repeat split; lia.
Qed.
Lemma table_range (c : conf) r k sg a ip : In (r, k, sg, a, ip) (table c) -> (r < c_ncls c)%nat /\ (k < c_ncls c)%nat.
Proof.
  unfold table. destruct (c_ncls c) as [|[|[|[|[|[|[|[|n]]]]]]]]; cbn; intro H;
    repeat (destruct H as [H|H]; [injection H as <- <- _ _ _; lia|]); destruct H.
Qed.
Lemma table_nodup (c : conf) : NoDup (map (fun '(r, k, sg, a, ip) => (r, k)) (table c)).
Proof.
  unfold table. destruct (c_ncls c) as [|[|[|[|[|[|[|[|n]]]]]]]]; cbn; repeat constructor; cbn; intuition congruence.
Qed.
Lemma apply_value (c : conf) (st : store) r l2 k l3 :
  (r < c_ncls c)%nat -> (k < c_ncls c)%nat -> (0 <= l2 <= c_lmax c)%Z -> (0 <= l3 <= c_lmax c)%Z ->
  (forall i j, st (CW i j) = 0) ->
  exec (apply_steps c) st (wcell c r l2 k l3)
  = fofZ (2 * l3 + 1) * sign_overall c * tabv c r k (fun a ip => st (CX a 0 ip l2 l3)).
Proof.
  intros Hr Hk H2 H3 H0. unfold apply_steps.
  assert (Q : forall l2' s, In s (apply_iter c l2') -> exists r' k' l3', (r' < c_ncls c)%nat /\ (k' < c_ncls c)%nat /\ s_dst s = wcell c r' l2' k' l3'
            /\ exists a ip, s_src s = [CX a 0 ip l2' l3']).
  { intros l2' s Hs. unfold apply_iter in Hs. apply in_flat_map in Hs. destruct Hs as [l3' [_ Hs]].
    apply in_map_iff in Hs. destruct Hs as [[[[[r' k'] sg] a] ip] [<- Ht]]. apply table_range in Ht.
    exists r', k', l3'. repeat split; try tauto. exists a, ip. reflexivity. }
  rewrite exec_flat_map_one with (k := l2) (P := fun z => match z with CW i j => exists r k l3, (r < c_ncls c)%nat /\ (k < c_ncls c)%nat /\ CW i j = wcell c r l2 k l3 | _ => True end).
  - unfold apply_iter.
    rewrite exec_flat_map_one with (k := l3) (P := fun z => match z with CW i j => exists r k, (r < c_ncls c)%nat /\ (k < c_ncls c)%nat /\ CW i j = wcell c r l2 k l3 | _ => True end).
    + set (T := table c).
      pose proof (exec_table T (fun '(r, k, sg, a, ip) => wcell c r l2 k l3) (fun '(r, k, sg, a, ip) => [CX a 0 ip l2 l3])
                    (fun '(r, k, sg, a, ip) x => sg * (fofZ (2 * l3 + 1) * sign_overall c) * nth 0 x 0) st (wcell c r l2 k l3)) as ET.
      erewrite map_ext; [rewrite ET|].
      * unfold tabv. fold T. rewrite <- lsum_mul_l. apply lsum_ext. intros [[[[r' k'] sg] a] ip] Hin. cbn [map nth].
        apply table_range in Hin. destruct (cell_eqb (wcell c r l2 k l3) (wcell c r' l2 k' l3)) eqn:E.
        -- apply cell_eqb_eq in E. apply wcell_inj in E; try tauto. destruct E as [<- [_ [<- _]]]. rewrite !Nat.eqb_refl. cbn [andb]. ring.
        -- destruct (Nat.eqb_spec r r') as [<-|]; [|cbn [andb]; ring]. destruct (Nat.eqb_spec k k') as [<-|]; [|cbn [andb]; ring].
           rewrite cell_eqb_refl in E. discriminate.
      * clear ET. pose proof (table_nodup c) as ND. fold T in ND. assert (TR : forall r k sg a ip, In (r, k, sg, a, ip) T -> (r < c_ncls c)%nat /\ (k < c_ncls c)%nat) by (apply table_range).
        clearbody T. induction T as [|[[[[r' k'] sg] a] ip] T IH]; [constructor|]. cbn [map] in *. inversion ND as [|? ? N1 N2]; subst. constructor.
        -- intro Hin. apply in_map_iff in Hin. destruct Hin as [[[[[r'' k''] sg'] a'] ip'] [E Hin]]. apply N1.
           assert (T1 := TR _ _ _ _ _ (or_introl eq_refl)). assert (T2 := TR _ _ _ _ _ (or_intror Hin)).
           apply wcell_inj in E; try tauto. destruct E as [<- [_ [<- _]]].
           apply in_map_iff. exists (r'', k'', sg', a', ip'). split; [reflexivity | exact Hin].
        -- apply IH; [exact N2 | intros; eapply TR; right; eassumption].
      * intros [[[[r' k'] sg] a] ip] [[[[r'' k''] sg'] a'] ip'] _ _ [E|[]]. unfold wcell in E. discriminate.
      * apply H0.
      * intros [[[[r' k'] sg] a] ip]. reflexivity.
    + apply NoDup_zrange.
    + apply in_zrange. exact H3.
    + intros s Hs y Hy. apply in_map_iff in Hs. destruct Hs as [[[[[r' k'] sg] a] ip] [<- Ht]]. apply table_range in Ht.
      destruct Hy as [<-|[<-|[]]]; cbn [s_dst]; [|exact I]. exists r', k'. tauto.
    + intros j Hj N s Hs. apply in_map_iff in Hs. destruct Hs as [[[[[r' k'] sg] a] ip] [<- Ht]]. apply table_range in Ht.
      cbn [s_dst]. intros [r'' [k'' [R1 [R2 E]]]]. apply wcell_inj in E; try tauto.
    + unfold wcell. exists r, k. tauto.
  - apply NoDup_zrange.
  - apply in_zrange. exact H2.
  - intros s Hs y Hy. destruct (Q l2 s Hs) as [r' [k' [l3' [R1 [R2 [E [a [ip E']]]]]]]]. rewrite E, E' in Hy.
    destruct Hy as [<-|[<-|[]]]; [|exact I]. unfold wcell. exists r', k', l3'. tauto.
  - intros j Hj N s Hs. destruct (Q j s Hs) as [r' [k' [l3' [R1 [R2 [E _]]]]]]. rewrite E. unfold wcell at 1.
    intros [r'' [k'' [l3'' [R3 [R4 E']]]]]. apply wcell_inj in E'; try tauto.
  - unfold wcell. exists r, k, l3. tauto.
Qed.
Definition table_ok (c : conf) : Prop := forall r k sg a ip, In (r, k, sg, a, ip) (table c) -> c_has c a = true /\ (ip < c_np c a)%nat.
Lemma apply_ok (c : conf) s : (0 < npcl c)%nat -> table_ok c -> In s (apply_steps c) -> step_ok c s = true.
Proof.
  intros Hn HT Hs. unfold apply_steps in Hs. apply in_flat_map in Hs. destruct Hs as [l2 [H2 Hs]]. apply in_zrange in H2.
  unfold apply_iter in Hs. apply in_flat_map in Hs. destruct Hs as [l3 [H3 Hs]]. apply in_zrange in H3.
  apply in_map_iff in Hs. destruct Hs as [[[[[r k] sg] a] ip] [<- Ht]]. pose proof (table_range _ _ _ _ _ _ Ht). apply HT in Ht.
  apply step_ok_iff. cbn [s_dst s_src]. intros x [<-|[<-|[]]]; cbn [cell_ok].
  - unfold in_w. rewrite !andb_true_iff, !Z.leb_le, !Z.ltb_lt. nia.
  - destruct Ht as [-> Hip]. unfold in_l. rewrite !andb_true_iff, !Z.leb_le, !Nat.ltb_lt. repeat split; lia.
Qed.
End L.
