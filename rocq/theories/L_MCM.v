(** Lemmas on the computation of mode-coupling matrices: the store semantics, absence of undefined
    behaviour and the closed form of the coupling coefficients. *)
From Coq Require Import FinFun.
From Verif Require Import Base M_Bins M_LinAlg M_Workspace M_MCM.
Open Scope Z_scope.

Lemma in_zrange x lo hi : In x (zrange lo hi) <-> lo <= x <= hi.
Proof.
  unfold zrange. rewrite in_map_iff. split.
  - intros [k [<- Hk]]. apply in_seq in Hk. lia.
  - intro H. exists (Z.to_nat (x - lo)). split; [lia|]. apply in_seq. lia.
Qed.
Lemma NoDup_zrange lo hi : NoDup (zrange lo hi).
Proof.
  unfold zrange. apply FinFun.Injective_map_NoDup; [|apply seq_NoDup].
  intros x y H. lia.
Qed.
Lemma length_zrange lo hi : length (zrange lo hi) = Z.to_nat (hi - lo + 1).
Proof. unfold zrange. rewrite map_length, seq_length. reflexivity. Qed.
Lemma zrange_nil lo hi : hi < lo -> zrange lo hi = [].
Proof. intro H. unfold zrange. replace (Z.to_nat (hi - lo + 1)) with 0%nat by lia. reflexivity. Qed.
Lemma nth_zrange lo hi k d : (k < Z.to_nat (hi - lo + 1))%nat -> nth k (zrange lo hi) d = lo + Z.of_nat k.
Proof.
  intro H. unfold zrange. rewrite (nth_indep _ d (lo + Z.of_nat 0)) by (rewrite map_length, seq_length; exact H).
  rewrite (map_nth (fun k => lo + Z.of_nat k)), seq_nth by exact H. reflexivity.
Qed.

Lemma fam_eqb_eq a b : fam_eqb a b = true <-> a = b.
Proof. destruct a, b; simpl; split; congruence. Qed.
Lemma cell_eqb_eq c d : cell_eqb c d = true <-> c = d.
Proof.
  destruct c, d; simpl; try (split; congruence);
    rewrite ?andb_true_iff, ?fam_eqb_eq, ?Nat.eqb_eq, ?Z.eqb_eq; split; intro H; try intuition congruence;
    injection H; intros; subst; intuition reflexivity.
Qed.
Lemma cell_eqb_refl c : cell_eqb c c = true.
Proof. apply cell_eqb_eq. reflexivity. Qed.
Lemma cell_eqb_neq c d : cell_eqb c d = false <-> c <> d.
Proof. rewrite <- cell_eqb_eq. destruct (cell_eqb c d); intuition congruence. Qed.

Section L.
Context {F : ofield}.
Local Open Scope F_scope.
Add Field FfLM : (fth F).
Notation mat := (list (list F)).
Variables (fsqrt fexp flog : F -> F) (junk : Z -> F).
Variable w3j : Z -> Z -> Z -> Z -> Z -> F.
Notation drc3jj_000 := (drc3jj_000 fsqrt fexp flog junk).
Notation drc3jj := (drc3jj w3j).
Notation w000 := (w000 fsqrt fexp flog junk).
Notation load := (load fsqrt fexp flog junk w3j).
Notation wread := (wread fsqrt).
Notation accumulate := (accumulate fsqrt).
Notation block := (block fsqrt fexp flog junk w3j).
Notation iter := (iter fsqrt fexp flog junk w3j).
Notation tplz_iter := (tplz_iter fsqrt fexp flog junk w3j).
Notation master_steps := (master_steps fsqrt fexp flog junk w3j).
Notation master := (master fsqrt fexp flog junk w3j).
Notation fac12 := (fac12 fsqrt).
Notation fac02 := (fac02 fsqrt).
Notation buf := (buf F).
Notation bufs := (bufs F).
Notation conf := (conf F).
Notation store := (store F).
Notation step := (step F).

(** ** Stores *)
Lemma exec_app (a b : list step) (st : store) : exec (a ++ b) st = exec b (exec a st).
Proof. unfold exec. apply fold_left_app. Qed.
Lemma exec_cons s (b : list step) (st : store) : exec (s :: b) st = exec b (exec1 st s).
Proof. reflexivity. Qed.
Lemma exec_other (ss : list step) (st : store) x : (forall s, In s ss -> s_dst s <> x) -> exec ss st x = st x.
Proof.
  revert st. induction ss as [|s ss IH]; intros st H; [reflexivity|].
  rewrite exec_cons, IH by (intros s' H'; apply H; right; exact H'). unfold exec1.
  replace (cell_eqb x (s_dst s)) with false; [reflexivity|]. symmetry. apply cell_eqb_neq.
  intro E. apply (H s); [left; reflexivity | congruence].
Qed.
Lemma exec_last (ss : list step) (s : step) (st : store) :
  exec (ss ++ [s]) st (s_dst s) = s_fun s (map (exec ss st) (s_src s)).
Proof. rewrite exec_app. simpl. unfold exec1. rewrite cell_eqb_refl. reflexivity. Qed.
(** a list of increments *)
Definition adds (l : list (cell * F)) : list step := map (fun '(x, v) => add_step x v) l.
Lemma exec_adds (l : list (cell * F)) (st : store) x :
  exec (adds l) st x = st x + lsum (map (fun '(y, v) => if cell_eqb x y then v else 0) l).
Proof.
  revert st. induction l as [|[y v] l IH]; intro st; [change (st x = st x + 0); ring|].
  change (adds ((y, v) :: l)) with (add_step y v :: adds l). rewrite exec_cons, IH.
  rewrite lsum_cons. unfold exec1. cbn [add_step s_dst s_fun s_src map nth]. destruct (cell_eqb x y) eqn:E.
  - apply cell_eqb_eq in E. subst y. ring.
  - ring.
Qed.
(** a step only sees the cells it names *)
Lemma exec_ext (ss : list step) (P : cell -> Prop) (st st' : store) :
  (forall s, In s ss -> forall x, In x (s_dst s :: s_src s) -> P x) ->
  (forall x, P x -> st x = st' x) -> forall x, P x -> exec ss st x = exec ss st' x.
Proof.
  revert st st'. induction ss as [|s ss IH]; intros st st' H E x Hx; [apply E; exact Hx|].
  rewrite !exec_cons. apply IH; [intros s' H'; apply H; right; exact H' | | exact Hx].
  intros y Hy. unfold exec1. destruct (cell_eqb y (s_dst s)); [|apply E; exact Hy].
  f_equal. apply map_ext_in. intros z Hz. apply E. apply (H s); [left; reflexivity | right; exact Hz].
Qed.
Lemma run_ok (c : conf) (ss : list step) (st : store) :
  (forall s, In s ss -> step_ok c s = true) -> run c ss st = Ok (exec ss st).
Proof. intro H. unfold run. replace (forallb (step_ok c) ss) with true; [reflexivity|]. symmetry. apply forallb_forall. exact H. Qed.
Lemma step_ok_iff (c : conf) (s : step) : step_ok c s = true <-> forall x, In x (s_dst s :: s_src s) -> cell_ok c x = true.
Proof. unfold step_ok. apply forallb_forall. Qed.

(** ** 3j buffers *)
Lemma length_fillbuf (b : buf) n f b' : fillbuf b n f = Ok b' -> length b' = length b.
Proof.
  unfold fillbuf. destruct (Z.leb_spec n (Z.of_nat (length b))); [|discriminate]. intro E. injection E as <-.
  rewrite app_length, !map_length, length_zrange, skipn_length. lia.
Qed.
Lemma fillbuf_ok (b : buf) n f : (n <= Z.of_nat (length b))%Z ->
  exists b', fillbuf b n f = Ok b' /\ length b' = length b /\
    forall j, (0 <= j < n)%Z -> buf_rd b' j = Ok (f j).
Proof.
  intro H. unfold fillbuf. replace (n <=? Z.of_nat (length b))%Z with true by (symmetry; apply Z.leb_le; exact H).
  eexists. split; [reflexivity|]. split.
  - rewrite app_length, !map_length, length_zrange, skipn_length. lia.
  - intros j Hj. unfold buf_rd.
    rewrite (rd_nth _ _ None) by (rewrite app_length, !map_length, length_zrange, skipn_length; lia).
    cbn [bind]. rewrite app_nth1 by (rewrite !map_length, length_zrange; lia).
    rewrite map_map, (nth_indep _ None (Some (f 0%Z))) by (rewrite map_length, length_zrange; lia).
    rewrite (map_nth (fun x => Some (f x))), nth_zrange by lia. do 2 f_equal. lia.
Qed.

(** the value entering the sums: zero outside the validity range of the symbol *)
Definition g3j (l2 l3 m2 m3 l1 : Z) : F :=
  if ((l2 - Z.abs m2 <? 0) || (l3 - Z.abs m3 <? 0))%Z then 0 else w3j l2 l3 m2 m3 l1.
Definition lo3j (l2 l3 m2 m3 : Z) : Z := Z.max (Z.abs (l2 - l3)) (Z.abs (- m2 - m3)).
Lemma drc3jj_ok (c : conf) l2 l3 m2 m3 (b : buf) :
  (0 <= l2)%Z -> (0 <= l3)%Z -> (Z.min l2 l3 <= c_lmm c)%Z -> Z.of_nat (length b) = bsize c ->
  exists b', drc3jj c l2 l3 m2 m3 b = Ok (lo3j l2 l3 m2 m3, b') /\ Z.of_nat (length b') = bsize c /\
    forall l1, (lo3j l2 l3 m2 m3 <= l1 <= l2 + l3)%Z -> buf_rd b' (l1 - lo3j l2 l3 m2 m3) = Ok (g3j l2 l3 m2 m3 l1).
Proof.
  intros H2 H3 Hm Hb. unfold M_MCM.drc3jj, g3j. fold (lo3j l2 l3 m2 m3).
  destruct ((l2 - Z.abs m2 <? 0) || (l3 - Z.abs m3 <? 0))%Z eqn:EZ.
  - destruct (fillbuf_ok b (l2 + l3 - lo3j l2 l3 m2 m3 + 1)%Z (fun _ => 0)) as [b' [E [L R]]].
    { unfold lo3j. unfold bsize in Hb. lia. }
    rewrite E. cbn [bind]. exists b'. split; [reflexivity|]. split; [lia|]. intros l1 Hl. apply R. lia.
  - apply orb_false_iff in EZ. destruct EZ as [E2 E3]. apply Z.ltb_ge in E2, E3.
    assert (P : (lo3j l2 l3 m2 m3 <= l2 + l3)%Z) by (unfold lo3j; lia).
    replace (l2 + l3 - lo3j l2 l3 m2 m3 <? 0)%Z with false by (symmetry; apply Z.ltb_ge; lia).
    replace (bsize c <? l2 + l3 - lo3j l2 l3 m2 m3 + 1)%Z with false by (symmetry; apply Z.ltb_ge; unfold bsize, lo3j; lia).
    rewrite andb_false_r.
    destruct (fillbuf_ok b (l2 + l3 - lo3j l2 l3 m2 m3 + 1)%Z (fun i => w3j l2 l3 m2 m3 (lo3j l2 l3 m2 m3 + i)%Z)) as [b' [E [L R]]].
    { unfold lo3j. unfold bsize in Hb. lia. }
    rewrite E. cbn [bind]. exists b'. split; [reflexivity|]. split; [lia|]. intros l1 Hl.
    rewrite R by lia. do 2 f_equal. lia.
Qed.
Lemma drc000_ok (c : conf) l2 l3 (b : buf) :
  (0 <= l2)%Z -> (0 <= l3)%Z -> (Z.min l2 l3 <= c_lmm c)%Z -> Z.of_nat (length b) = bsize c ->
  exists b', drc3jj_000 c l2 l3 b = Ok (Z.abs (l2 - l3), b') /\ Z.of_nat (length b') = bsize c /\
    forall l1, (Z.abs (l2 - l3) <= l1 <= l2 + l3)%Z -> buf_rd b' (l1 - Z.abs (l2 - l3)) = Ok (w000 c l2 l3 l1).
Proof.
  intros H2 H3 Hm Hb. unfold M_MCM.drc3jj_000.
  replace (l2 + l3 - Z.abs (l2 - l3) <? 0)%Z with false by (symmetry; apply Z.ltb_ge; lia).
  replace (bsize c <? l2 + l3 - Z.abs (l2 - l3) + 1)%Z with false by (symmetry; apply Z.ltb_ge; unfold bsize; lia).
  rewrite andb_false_r.
  destruct (fillbuf_ok b (l2 + l3 - Z.abs (l2 - l3) + 1)%Z (fun i => w000 c l2 l3 (Z.abs (l2 - l3) + i)%Z)) as [b' [E [L R]]].
  { unfold bsize in Hb. lia. }
  rewrite E. cbn [bind]. exists b'. split; [reflexivity|]. split; [lia|]. intros l1 Hl.
  rewrite R by lia. do 2 f_equal. lia.
Qed.

(** buffers of the right sizes (contents arbitrary) *)
Definition sized (c : conf) (x : bool) (b : buf) : Prop := x = true -> Z.of_nat (length b) = bsize c.
Record bufs_ok (c : conf) (b : bufs) : Prop := {
  bo_00 : sized c (c_has c K00 || c_has c K0s) (b_00 b);
  bo_s1 : sized c (c_has c K0s || c_has c Kpp) (b_ss1 b);
  bo_s2 : sized c (has_ss2 c) (b_ss2 b);
  bo_12 : sized c (c_pany c) (b_12 b);
  bo_02 : sized c (c_pany c) (b_02 b) }.
Lemma new_bufs_ok (c : conf) : (0 <= c_lmm c)%Z -> bufs_ok c (new_bufs c).
Proof.
  intro H. split; unfold sized; cbn [b_00 b_ss1 b_ss2 b_12 b_02 new_bufs]; intro E; rewrite E, repeat_length; unfold bsize; lia.
Qed.

(** the 3j factors of one term of the sums *)
Definition W00 (c : conf) l2 l3 l1 : F := if c_has c K00 || c_has c K0s then w000 c l2 l3 l1 else 0.
Definition Wss (c : conf) s l2 l3 l1 : F := if c_has c Kpp || c_has c K0s then g3j l2 l3 s (- s) l1 else 0.
Definition Ws1 (c : conf) l2 l3 l1 : F := Wss c (c_s1 c) l2 l3 l1.
Definition Ws2 (c : conf) l2 l3 l1 : F := Wss c (if has_ss2 c then c_s2 c else c_s1 c) l2 l3 l1.
Definition Wpu (c : conf) l2 l3 l1 : F :=
  Ws1 c l2 l3 l1
  + (if (l1 <? lo3j l2 l3 1 (-2))%Z then 0 else fac12 l2 l1 * g3j l2 l3 1 (-2) l1)
  + (if (l1 <? lo3j l2 l3 0 (-2))%Z then 0 else fac02 l2 l1 * g3j l2 l3 0 (-2) l1).
Definition wv (c : conf) (pure : bool) l2 l3 l1 : wvals :=
  WV (W00 c l2 l3 l1) (Ws1 c l2 l3 l1) (Ws2 c l2 l3 l1) (if pure then Wpu c l2 l3 l1 else 0).

Lemma lo3j_opp l2 l3 s : lo3j l2 l3 s (- s) = Z.abs (l2 - l3).
Proof. unfold lo3j. replace (- s - - s)%Z with 0%Z by lia. lia. Qed.
Lemma buf_rd0_ok (b : buf) j : (0 <= j)%Z -> buf_rd0 b j = buf_rd b j.
Proof. intro H. unfold buf_rd0. replace (j <? 0)%Z with false by (symmetry; apply Z.ltb_ge; exact H). reflexivity. Qed.

Lemma load_ok (c : conf) (pure : bool) (b : bufs) l2 l3 :
  (pure = true -> c_pany c = true /\ (2 <= l2 + l3)%Z) ->
  (0 <= l2)%Z -> (0 <= l3)%Z -> (Z.min l2 l3 <= c_lmm c)%Z -> bufs_ok c b ->
  exists m b', load c pure b l2 l3 = Ok (m, b') /\ bufs_ok c b' /\
    forall l1, (Z.abs (l2 - l3) <= l1 <= l2 + l3)%Z -> wread c pure m b' l2 l1 = Ok (wv c pure l2 l3 l1).
Proof.
  intros Hp H2 H3 Hm [O0 O1 O2 O3 O4]. unfold M_MCM.load.
  assert (A0 : exists m x, (if c_has c K00 || c_has c K0s then drc3jj_000 c l2 l3 (b_00 b) else Ok (0%Z, b_00 b)) = Ok (m, x)
               /\ sized c (c_has c K00 || c_has c K0s) x /\
               forall l1, (Z.abs (l2 - l3) <= l1 <= l2 + l3)%Z ->
                 (if c_has c K00 || c_has c K0s then buf_rd0 x (l1 - m) else Ok 0) = Ok (W00 c l2 l3 l1)).
  { unfold sized in *. unfold W00. destruct (c_has c K00 || c_has c K0s) eqn:E.
    - destruct (drc000_ok c l2 l3 (b_00 b) H2 H3 Hm (O0 eq_refl)) as [x [Ex [L R]]]. exists (Z.abs (l2 - l3)), x.
      split; [exact Ex|]. split; [intros _; exact L|]. intros l1 Hl. rewrite buf_rd0_ok by lia. apply R. exact Hl.
    - exists 0%Z, (b_00 b). repeat split; try discriminate. }
  destruct A0 as [m0 [x0 [-> [S0 R0]]]]. cbn [bind].
  assert (A1 : exists m x, (if c_has c K0s || c_has c Kpp then drc3jj c l2 l3 (c_s1 c) (- c_s1 c) (b_ss1 b) else Ok (0%Z, b_ss1 b)) = Ok (m, x)
               /\ sized c (c_has c K0s || c_has c Kpp) x /\
               forall l1, (Z.abs (l2 - l3) <= l1 <= l2 + l3)%Z ->
                 (if c_has c Kpp || c_has c K0s then buf_rd0 x (l1 - m) else Ok 0) = Ok (Ws1 c l2 l3 l1)).
  { unfold sized in *. unfold Ws1, Wss. rewrite (orb_comm (c_has c Kpp)). destruct (c_has c K0s || c_has c Kpp) eqn:E.
    - destruct (drc3jj_ok c l2 l3 (c_s1 c) (- c_s1 c) (b_ss1 b) H2 H3 Hm (O1 eq_refl)) as [x [Ex [L R]]].
      rewrite lo3j_opp in *. exists (Z.abs (l2 - l3)), x.
      split; [exact Ex|]. split; [intros _; exact L|]. intros l1 Hl. rewrite buf_rd0_ok by lia. apply R. exact Hl.
    - exists 0%Z, (b_ss1 b). repeat split; try discriminate. }
  destruct A1 as [m1 [x1 [-> [S1 R1]]]]. cbn [bind].
  assert (A2 : exists m x, (if has_ss2 c then drc3jj c l2 l3 (c_s2 c) (- c_s2 c) (b_ss2 b) else Ok (m1, b_ss2 b)) = Ok (m, x)
               /\ sized c (has_ss2 c) x /\
               forall l1, (Z.abs (l2 - l3) <= l1 <= l2 + l3)%Z ->
                 (if c_has c Kpp || c_has c K0s then buf_rd0 (if has_ss2 c then x else x1) (l1 - m) else Ok 0) = Ok (Ws2 c l2 l3 l1)).
  { unfold sized in *. unfold Ws2. destruct (has_ss2 c) eqn:E.
    - destruct (drc3jj_ok c l2 l3 (c_s2 c) (- c_s2 c) (b_ss2 b) H2 H3 Hm (O2 eq_refl)) as [x [Ex [L R]]].
      rewrite lo3j_opp in *. exists (Z.abs (l2 - l3)), x.
      split; [exact Ex|]. split; [intros _; exact L|]. intros l1 Hl. unfold Wss.
      destruct (c_has c Kpp || c_has c K0s); [|reflexivity]. rewrite buf_rd0_ok by lia. apply R. exact Hl.
    - exists m1, (b_ss2 b). split; [reflexivity|]. split; [discriminate|]. exact R1. }
  destruct A2 as [m2 [x2 [-> [S2 R2]]]]. cbn [bind].
  destruct pure.
  - destruct (Hp eq_refl) as [Hpa Hs]. unfold sized in O3, O4. specialize (O3 Hpa). specialize (O4 Hpa).
    destruct (drc3jj_ok c l2 l3 1 (-2) (b_12 b) H2 H3 Hm O3) as [x3 [-> [L3 R3]]]. cbn [bind].
    destruct (drc3jj_ok c l2 l3 0 (-2) (b_02 b) H2 H3 Hm O4) as [x4 [-> [L4 R4]]]. cbn [bind].
    eexists _, _. split; [reflexivity|]. split.
    { split; cbn; try assumption; intros _; assumption. }
    intros l1 Hl. unfold M_MCM.wread. cbn [b_00 b_ss1 b_ss2 b_12 b_02 m_00 m_ss1 m_ss2 m_12 m_02].
    rewrite R0, R1, R2 by exact Hl. cbn [bind]. unfold wv, Wpu.
    assert (P3 : (lo3j l2 l3 1 (-2) <= l2 + l3)%Z) by (unfold lo3j; lia).
    assert (P4 : (lo3j l2 l3 0 (-2) <= l2 + l3)%Z) by (unfold lo3j; lia).
    assert (Q3 : exists v, buf_rd x3 (if (l1 - lo3j l2 l3 1 (-2) <? 0)%Z then 0 else l1 - lo3j l2 l3 1 (-2))%Z = Ok v /\
                 (if (l1 - lo3j l2 l3 1 (-2) <? 0)%Z then 0 else fac12 l2 l1) * v
                 = if (l1 <? lo3j l2 l3 1 (-2))%Z then 0 else fac12 l2 l1 * g3j l2 l3 1 (-2) l1).
    { destruct (Z.ltb_spec l1 (lo3j l2 l3 1 (-2))) as [H|H].
      - replace (l1 - lo3j l2 l3 1 (-2) <? 0)%Z with true by (symmetry; apply Z.ltb_lt; lia).
        eexists. split; [|ring]. rewrite <- (Z.sub_diag (lo3j l2 l3 1 (-2))). apply R3. lia.
      - replace (l1 - lo3j l2 l3 1 (-2) <? 0)%Z with false by (symmetry; apply Z.ltb_ge; lia).
        eexists. split; [apply R3; lia | reflexivity]. }
    assert (Q4 : exists v, buf_rd x4 (if (l1 - lo3j l2 l3 0 (-2) <? 0)%Z then 0 else l1 - lo3j l2 l3 0 (-2))%Z = Ok v /\
                 (if (l1 - lo3j l2 l3 0 (-2) <? 0)%Z then 0 else fac02 l2 l1) * v
                 = if (l1 <? lo3j l2 l3 0 (-2))%Z then 0 else fac02 l2 l1 * g3j l2 l3 0 (-2) l1).
    { destruct (Z.ltb_spec l1 (lo3j l2 l3 0 (-2))) as [H|H].
      - replace (l1 - lo3j l2 l3 0 (-2) <? 0)%Z with true by (symmetry; apply Z.ltb_lt; lia).
        eexists. split; [|ring]. rewrite <- (Z.sub_diag (lo3j l2 l3 0 (-2))). apply R4. lia.
      - replace (l1 - lo3j l2 l3 0 (-2) <? 0)%Z with false by (symmetry; apply Z.ltb_ge; lia).
        eexists. split; [apply R4; lia | reflexivity]. }
    destruct Q3 as [v3 [-> E3]], Q4 as [v4 [-> E4]]. cbn [bind]. rewrite E3, E4. reflexivity.
  - cbn [bind]. eexists _, _. split; [reflexivity|]. split.
    { split; cbn; assumption. }
    intros l1 Hl. unfold M_MCM.wread. cbn [b_00 b_ss1 b_ss2 b_12 b_02 m_00 m_ss1 m_ss2 m_12 m_02].
    rewrite R0, R1, R2 by exact Hl. reflexivity.
Qed.

(** ** The accumulation loop *)
Definition pcl_at (c : conf) (icc : nat) (l1 : Z) : F := nth (Z.to_nat l1) (nth icc (c_pcl c) []) 0.
Definition l1s (c : conf) (l2 l3 : Z) : list Z := filter (fun l1 => (l1 <=? c_lmm c)%Z) (zrange (Z.abs (l2 - l3)) (l2 + l3)).
Definition acc_pairs (c : conf) (pure : bool) (dst : fam -> nat -> nat -> cell) (l2 l3 : Z) : list (cell * F) :=
  flat_map (fun l1 => flat_map (fun icc =>
     map (fun '(a, ip, v) => (dst a icc ip, v)) (contrib c pure (pcl_at c icc l1) (wv c pure l2 l3 l1) (l1 + l2 + l3)))
     (seq 0 (npcl c))) (l1s c l2 l3).
Definition pcl_ok (c : conf) : Prop := forall icc, (icc < npcl c)%nat -> Z.of_nat (length (nth icc (c_pcl c) [])) = (c_lmm c + 1)%Z.

Lemma concat_filter {A B} (p : A -> bool) (f : A -> list B) l :
  concat (map (fun a => if p a then f a else []) l) = flat_map f (filter p l).
Proof.
  induction l as [|a l IH]; [reflexivity|]. simpl. destruct (p a); simpl; rewrite IH; reflexivity.
Qed.
Lemma adds_app (a b : list (cell * F)) : adds (a ++ b) = adds a ++ adds b.
Proof. unfold adds. apply map_app. Qed.
Lemma adds_flat_map {A} (f : A -> list (cell * F)) l : adds (flat_map f l) = flat_map (fun a => adds (f a)) l.
Proof. induction l as [|a l IH]; [reflexivity|]. simpl. rewrite adds_app, IH. reflexivity. Qed.

Lemma accumulate_ok (c : conf) (pure : bool) dst m (b : bufs) l2 l3 :
  pcl_ok c -> (0 <= l2)%Z -> (0 <= l3)%Z ->
  (forall l1, (Z.abs (l2 - l3) <= l1 <= l2 + l3)%Z -> wread c pure m b l2 l1 = Ok (wv c pure l2 l3 l1)) ->
  accumulate c pure dst m b l2 l3 = Ok (adds (acc_pairs c pure dst l2 l3)).
Proof.
  intros Hpc H2 H3 HR. unfold M_MCM.accumulate.
  rewrite (mapM_ok _ (fun l1 => if (l1 <=? c_lmm c)%Z
     then adds (flat_map (fun icc => map (fun '(a, ip, v) => (dst a icc ip, v))
            (contrib c pure (pcl_at c icc l1) (wv c pure l2 l3 l1) (l1 + l2 + l3))) (seq 0 (npcl c)))
     else [])).
  - cbn [bind]. f_equal. unfold acc_pairs. rewrite adds_flat_map. unfold l1s. apply concat_filter.
  - intros l1 Hl. apply in_zrange in Hl. destruct (Z.leb_spec l1 (c_lmm c)) as [Hm|Hm]; [|reflexivity].
    rewrite HR by exact Hl. cbn [bind].
    rewrite (mapM_ok _ (fun icc => adds (map (fun '(a, ip, v) => (dst a icc ip, v))
            (contrib c pure (pcl_at c icc l1) (wv c pure l2 l3 l1) (l1 + l2 + l3))))).
    + cbn [bind]. f_equal. rewrite adds_flat_map, flat_map_concat_map. reflexivity.
    + intros icc Hi. apply in_seq in Hi. rewrite (rd_nat _ _ []) by (unfold npcl in Hi; lia). cbn [bind].
      assert (Hi' : (icc < npcl c)%nat) by lia. specialize (Hpc icc Hi').
      rewrite (rd_nth _ _ 0) by lia. cbn [bind]. f_equal. unfold adds. rewrite map_map. apply map_ext.
      intros [[a ip] v]. reflexivity.
Qed.

(** coefficient of the mask spectrum in xi_a[ip][l2][l3] *)
Definition coef (c : conf) (pure : bool) (a : fam) (ip : nat) (l2 l3 l1 : Z) : F :=
  let w := wv c pure l2 l3 l1 in
  if negb (c_has c a) then 0 else
  match a with
  | K00 => match ip with O => v_00 w * v_00 w | _ => 0 end
  | K0s => match ip with
           | O => v_ss1 w * v_00 w
           | S O => if pure then v_pure w * v_00 w else 0
           | _ => 0 end
  | Kpp => if Z.odd (l1 + l2 + l3) then 0 else
           match ip with
           | O => v_ss1 w * v_ss2 w
           | S O => if pure then v_pure w * v_ss2 w else 0
           | S (S O) => if pure then v_pure w * v_pure w else 0
           | _ => 0 end
  | Kmm => if Z.odd (l1 + l2 + l3) then
           match ip with
           | O => v_ss1 w * v_ss2 w
           | S O => if pure then v_pure w * v_ss2 w else 0
           | S (S O) => if pure then v_pure w * v_pure w else 0
           | _ => 0 end else 0
  end.
Definition XI (c : conf) (pure : bool) (a : fam) (icc ip : nat) (l2 l3 : Z) : F :=
  lsum (map (fun l1 => pcl_at c icc l1 * coef c pure a ip l2 l3 l1) (l1s c l2 l3)).

Lemma lsum_flat_map {A B} (f : A -> list B) (h : B -> F) l :
  lsum (map h (flat_map f l)) = lsum (map (fun a => lsum (map h (f a))) l).
Proof.
  induction l as [|a l IH]; [reflexivity|]. simpl. rewrite map_app, lsum_app, IH. reflexivity.
Qed.
Lemma lsum_seq n (f : nat -> F) : lsum (map f (seq 0 n)) = sum n f.
Proof. apply lsum_tab. Qed.
Lemma has_mm (c : conf) : c_has c Kmm = c_has c Kpp.
Proof. unfold c_has. destruct (c_teb c); reflexivity. Qed.

Lemma acc_value (c : conf) (pure : bool) dst l2 l3 a icc ip :
  (icc < npcl c)%nat ->
  (forall a' icc' ip', In (a', ip') (map fst (contrib c pure 0 (wv c pure l2 l3 0) 0) ++ map fst (contrib c pure 0 (wv c pure l2 l3 0) 1)) ->
     dst a' icc' ip' = dst a icc ip -> a' = a /\ icc' = icc /\ ip' = ip) ->
  lsum (map (fun '(y, v) => if cell_eqb (dst a icc ip) y then v else 0) (acc_pairs c pure dst l2 l3)) = XI c pure a icc ip l2 l3.
Proof.
  intros Hi Hd. unfold acc_pairs, XI. rewrite lsum_flat_map. apply lsum_ext. intros l1 Hl.
  rewrite lsum_flat_map.
  rewrite (lsum_ext _ (fun icc' => kron icc' icc * (pcl_at c icc l1 * coef c pure a ip l2 l3 l1))).
  { rewrite lsum_seq. apply (sum_kron (npcl c) icc (fun _ => pcl_at c icc l1 * coef c pure a ip l2 l3 l1)). exact Hi. }
  intros icc' Hi'. rewrite map_map.
  assert (G : forall p : F, lsum (map (fun x : fam * nat * F =>
        let '(y, v) := (let '(a', ip', v) := x in (dst a' icc' ip', v)) in if cell_eqb (dst a icc ip) y then v else 0)
        (contrib c pure p (wv c pure l2 l3 l1) (l1 + l2 + l3)))
      = lsum (map (fun '(a', ip', v) => if fam_eqb a a' && Nat.eqb icc icc' && Nat.eqb ip ip' then v else 0)
        (contrib c pure p (wv c pure l2 l3 l1) (l1 + l2 + l3)))).
  { intro p. apply lsum_ext. intros [[a' ip'] v] Hin.
    destruct (cell_eqb (dst a icc ip) (dst a' icc' ip')) eqn:E.
    - apply cell_eqb_eq in E. destruct (Hd a' icc' ip') as [-> [-> ->]]; [|symmetry; exact E|].
      + apply in_app_iff. revert Hin. clear. unfold contrib. cbn [Z.odd].
        destruct (c_has c K00), (c_has c K0s), (c_has c Kpp), pure, (Z.odd (l1 + l2 + l3)); simpl; clear; intuition congruence.
      + replace (fam_eqb a a) with true by (symmetry; apply fam_eqb_eq; reflexivity). rewrite !Nat.eqb_refl. reflexivity.
    - destruct (fam_eqb a a') eqn:Ea; [|reflexivity]. apply fam_eqb_eq in Ea. subst a'.
      destruct (Nat.eqb_spec icc icc') as [<-|]; [|reflexivity].
      destruct (Nat.eqb_spec ip ip') as [<-|]; [|reflexivity]. rewrite cell_eqb_refl in E. discriminate. }
  rewrite G. clear G. unfold kron. rewrite (Nat.eqb_sym icc' icc). destruct (Nat.eqb_spec icc icc') as [<-|N].
  - unfold contrib, coef. rewrite has_mm || idtac. set (p := pcl_at c icc l1). clearbody p.
    set (w := wv c pure l2 l3 l1). clearbody w.
    pose proof (has_mm c) as Hmm.
    destruct a; rewrite ?Hmm; destruct (c_has c K00), (c_has c K0s), (c_has c Kpp), pure, (Z.odd (l1 + l2 + l3));
      destruct ip as [|[|[|ip]]]; cbn; ring.
  - rewrite lsum_zero; [ring|]. intros [[a' ip'] v] _. rewrite andb_false_r. reflexivity.
Qed.
End L.
