(** The anisotropic calculation: every element of the resulting matrix. *)
From Coq Require Import FinFun.
From Verif Require Import Base M_Bins M_LinAlg M_Workspace M_MCM L_MCM L_MCM2 L_MCM3.
Open Scope Z_scope.

Section L.
Context {F : ofield}.
Local Open Scope F_scope.
Add Field FfLM4 : (fth F).
Notation mat := (list (list F)).
Variable (pi : F).
Variable w3j : Z -> Z -> Z -> Z -> Z -> F.
Notation a_block := (a_block pi w3j).
Notation a_iter := (a_iter pi w3j).
Notation a_mcm := (a_mcm pi w3j).
Notation g3j := (g3j w3j).
Notation aconf := (aconf F).
Notation store := (store F).
Notation step := (step F).

Record abufs_ok (c : aconf) (b : abufs) : Prop := {
  ab_1 : Z.of_nat (length (d_ss1 b)) = bsize (to_conf c);
  ab_2 : sized (to_conf c) (negb (reuse c)) (d_ss2 b);
  ab_1a : sized (to_conf c) (a_an1 c) (d_ss1a b);
  ab_2a : sized (to_conf c) (own_2a c) (d_ss2a b) }.
Record acfg_ok (c : aconf) : Prop := {
  ac_lmax : (0 <= a_lmax c <= a_lmm c)%Z;
  ac_spin : (0 <= a_spin1 c)%Z /\ (0 <= a_spin2 c)%Z;
  ac_len : forall x, In x [a_00 c; a_0e c; a_e0 c; a_0b c; a_b0 c; a_ee c; a_eb c; a_be c; a_bb c] -> Z.of_nat (length x) = (a_lmm c + 1)%Z }.
Lemma new_abufs_ok (c : aconf) : (0 <= a_lmm c)%Z -> abufs_ok c (new_abufs c).
Proof.
  intro H. split; unfold sized; cbn [d_ss1 d_ss2 d_ss1a d_ss2a new_abufs]; [rewrite repeat_length; unfold bsize; cbn [to_conf c_lmm]; lia| | |];
    intro E; rewrite E, repeat_length; unfold bsize; cbn [to_conf c_lmm]; lia.
Qed.

(** (s s -2s) symbol, zero below its range *)
Definition Wa (an : bool) (s l2 l3 l1 : Z) : F := if an then if (l1 <? lo3j l2 l3 s s)%Z then 0 else g3j l2 l3 s s l1 else 0.
Definition pv (used : bool) (sg : Z) (x : list F) (l1 : Z) : F :=
  if used then nth (Z.to_nat l1) x 0 * (sgn sg * (fofZ (2 * l1 + 1) / ((1 + 1 + 1 + 1) * pi))) else 0.
Definition a_terms (c : aconf) (l2 l3 l1 : Z) : list (nat * nat * F) :=
  let s1 := a_spin1 c in let s2 := a_spin2 c in let e1 := a_an1 c in let e2 := a_an2 c in
  let w1 := g3j l2 l3 s1 (- s1) l1 in let w2 := g3j l2 l3 s2 (- s2) l1 in
  let w1a := Wa e1 s1 l2 l3 l1 in let w2a := Wa e2 s2 l2 l3 l1 in
  a_entries c (Z.odd (l1 + l2 + l3)) (w1 * w2 * pv true 0 (a_00 c) l1) (w1 * w2a * pv e2 s2 (a_0e c) l1) (w1 * w2a * pv e2 s2 (a_0b c) l1)
    (w1a * w2 * pv e1 s1 (a_e0 c) l1) (w1a * w2 * pv e1 s1 (a_b0 c) l1) (w1a * w2a * pv (e1 && e2) (s1 + s2) (a_ee c) l1)
    (w1a * w2a * pv (e1 && e2) (s1 + s2) (a_eb c) l1) (w1a * w2a * pv (e1 && e2) (s1 + s2) (a_be c) l1) (w1a * w2a * pv (e1 && e2) (s1 + s2) (a_bb c) l1).
Definition a_pairs (c : aconf) (l2 l3 : Z) : list (cell * F) :=
  flat_map (fun l1 => map (fun '(r, k, v) => (wcell (to_conf c) r l2 k l3, fofZ (2 * l3 + 1) * v)) (a_terms c l2 l3 l1)) (l1s (to_conf c) l2 l3).

Lemma a_pcl_ok (c : aconf) used sg x l1 : (used = true -> Z.of_nat (length x) = (a_lmm c + 1)%Z) -> (0 <= l1 <= a_lmm c)%Z ->
  a_pcl pi c used sg x l1 = Ok (pv used sg x l1).
Proof.
  intros L H. unfold a_pcl, pv. destruct used; [|reflexivity]. specialize (L eq_refl). rewrite (rd_nth _ _ 0) by lia. reflexivity.
Qed.

Lemma a_block_ok (c : aconf) (b : abufs) l2 l3 : acfg_ok c -> abufs_ok c b -> (a_start c <= l2 <= a_lmax c)%Z -> (a_start c <= l3 <= a_lmax c)%Z ->
  exists b', a_block c b l2 l3 = Ok (b', adds (a_pairs c l2 l3)) /\ abufs_ok c b'.
Proof.
  intros H [O1 O2 O3 O4] H2 H3. destruct (ac_spin c H) as [S1 S2]. pose proof (ac_lmax c H) as HL. pose proof (ac_len c H) as Len.
  unfold a_start in *. set (cc := to_conf c) in *.
  assert (Q2 : (0 <= l2)%Z) by lia. assert (Q3 : (0 <= l3)%Z) by lia. assert (Qm : (Z.min l2 l3 <= c_lmm cc)%Z) by (change (c_lmm cc) with (a_lmm c); lia).
  unfold M_MCM.a_block. fold cc.
  destruct (drc3jj_ok w3j cc l2 l3 (a_spin1 c) (- a_spin1 c) (d_ss1 b) Q2 Q3 Qm O1) as [x1 [E1 [L1 R1]]]. rewrite E1. cbn [bind].
  rewrite lo3j_opp in R1 |- *.
  assert (A2 : exists x2, (if reuse c then Ok (Z.abs (l2 - l3), d_ss2 b) else drc3jj w3j cc l2 l3 (a_spin2 c) (- a_spin2 c) (d_ss2 b)) = Ok (Z.abs (l2 - l3), x2)
     /\ sized cc (negb (reuse c)) x2 /\ forall l1, (Z.abs (l2 - l3) <= l1 <= l2 + l3)%Z -> buf_rd (if reuse c then x1 else x2) (l1 - Z.abs (l2 - l3)) = Ok (g3j l2 l3 (a_spin2 c) (- a_spin2 c) l1)).
  { destruct (reuse c) eqn:Er.
    - exists (d_ss2 b). split; [reflexivity|]. split; [discriminate|]. unfold reuse in Er. apply Z.eqb_eq in Er. rewrite <- Er. exact R1.
    - destruct (drc3jj_ok w3j cc l2 l3 (a_spin2 c) (- a_spin2 c) (d_ss2 b) Q2 Q3 Qm (O2 eq_refl)) as [x2 [E2 [L2 R2]]].
      rewrite lo3j_opp in *. exists x2. split; [exact E2|]. split; [intros _; exact L2 | exact R2]. }
  destruct A2 as [x2 [-> [L2 R2]]]. cbn [bind].
  assert (RA : forall (s : Z) (x : buf F), (0 <= s)%Z -> (forall l1, (lo3j l2 l3 s s <= l1 <= l2 + l3)%Z -> buf_rd x (l1 - lo3j l2 l3 s s) = Ok (g3j l2 l3 s s l1)) ->
     forall l1, (Z.abs (l2 - l3) <= l1 <= l2 + l3)%Z -> buf_rd0 x (l1 - lo3j l2 l3 s s) = Ok (if (l1 <? lo3j l2 l3 s s)%Z then 0 else g3j l2 l3 s s l1)).
  { intros s x Hs R l1 Hl. unfold buf_rd0. destruct (Z.ltb_spec l1 (lo3j l2 l3 s s)) as [L|L].
    - replace (l1 - lo3j l2 l3 s s <? 0)%Z with true by (symmetry; apply Z.ltb_lt; lia). reflexivity.
    - replace (l1 - lo3j l2 l3 s s <? 0)%Z with false by (symmetry; apply Z.ltb_ge; lia). apply R. lia. }
  assert (A3 : exists m x, (if a_an1 c then drc3jj w3j cc l2 l3 (a_spin1 c) (a_spin1 c) (d_ss1a b) else Ok (0%Z, d_ss1a b)) = Ok (m, x)
     /\ sized cc (a_an1 c) x /\ (a_an1 c = true -> m = lo3j l2 l3 (a_spin1 c) (a_spin1 c)) /\
     forall l1, (Z.abs (l2 - l3) <= l1 <= l2 + l3)%Z -> (if a_an1 c then buf_rd0 x (l1 - m) else Ok 0) = Ok (Wa (a_an1 c) (a_spin1 c) l2 l3 l1)).
  { unfold Wa, sized in *. destruct (a_an1 c).
    - destruct (drc3jj_ok w3j cc l2 l3 (a_spin1 c) (a_spin1 c) (d_ss1a b) Q2 Q3 Qm (O3 eq_refl)) as [x [E [L R]]].
      eexists _, x. split; [exact E|]. split; [intros _; exact L|]. split; [reflexivity|]. apply RA; assumption.
    - exists 0%Z, (d_ss1a b). repeat split; discriminate. }
  destruct A3 as [m1a [x1a [-> [L3 [M1 R3]]]]]. cbn [bind].
  assert (A4 : exists m x, (if own_2a c then drc3jj w3j cc l2 l3 (a_spin2 c) (a_spin2 c) (d_ss2a b) else Ok (m1a, d_ss2a b)) = Ok (m, x)
     /\ sized cc (own_2a c) x /\
     forall l1, (Z.abs (l2 - l3) <= l1 <= l2 + l3)%Z -> (if a_an2 c then buf_rd0 (if own_2a c then x else x1a) (l1 - m) else Ok 0) = Ok (Wa (a_an2 c) (a_spin2 c) l2 l3 l1)).
  { unfold sized in *. destruct (own_2a c) eqn:Eo.
    - destruct (drc3jj_ok w3j cc l2 l3 (a_spin2 c) (a_spin2 c) (d_ss2a b) Q2 Q3 Qm (O4 eq_refl)) as [x [E [L R]]].
      eexists _, x. split; [exact E|]. split; [intros _; exact L|]. intros l1 Hl. unfold Wa. destruct (a_an2 c); [|reflexivity]. apply RA; assumption.
    - exists m1a, (d_ss2a b). split; [reflexivity|]. split; [discriminate|]. intros l1 Hl. unfold Wa. destruct (a_an2 c) eqn:E2; [|reflexivity].
      unfold own_2a in Eo. rewrite E2 in Eo. cbn in Eo. apply orb_false_iff in Eo. destruct Eo as [Eo1 Eo2].
      apply negb_false_iff in Eo1, Eo2. unfold reuse in Eo1. apply Z.eqb_eq in Eo1. rewrite <- Eo1. specialize (R3 l1 Hl). unfold Wa in R3. rewrite Eo2 in R3. exact R3. }
  destruct A4 as [m2a [x2a [-> [L4 R4]]]]. cbn [bind].
  rewrite (mapM_ok _ (fun l1 => if (l1 <=? c_lmm cc)%Z
     then adds (map (fun '(r, k, v) => (wcell cc r l2 k l3, fofZ (2 * l3 + 1) * v)) (a_terms c l2 l3 l1)) else [])).
  - cbn [bind]. exists (ABufs x1 x2 x1a x2a). split; [|constructor; assumption]. do 2 f_equal. unfold a_pairs. rewrite adds_flat_map. unfold l1s. fold cc. apply concat_filter.
  - intros l1 Hl. apply in_zrange in Hl. change (a_lmm c) with (c_lmm cc). destruct (Z.leb_spec l1 (c_lmm cc)) as [Hm|Hm]; [|reflexivity].
    rewrite !buf_rd0_ok by lia. rewrite R1, R2, R3, R4 by exact Hl. cbn [bind].
    assert (L0 : (0 <= l1 <= a_lmm c)%Z) by (change (c_lmm cc) with (a_lmm c) in Hm; lia).
    rewrite !a_pcl_ok by (try exact L0; intros _; apply Len; cbn; tauto). cbn [bind]. f_equal. unfold adds, a_terms. rewrite map_map.
    apply map_ext. intros [[r k] v]. reflexivity.
Qed.
Definition a_iter_steps (c : aconf) (l2 : Z) : list step := flat_map (fun l3 => adds (a_pairs c l2 l3)) (zrange (a_start c) (a_lmax c)).
Lemma a_iter_ok (c : aconf) (b : abufs) l2 : acfg_ok c -> abufs_ok c b -> (a_start c <= l2 <= a_lmax c)%Z ->
  exists b', a_iter c b l2 = Ok (b', a_iter_steps c l2) /\ abufs_ok c b'.
Proof.
  intros H Hb H2. unfold M_MCM.a_iter, a_iter_steps. apply (thread_ok (abufs_ok c) (fun b0 l3 => a_block c b0 l2 l3) (fun l3 => adds (a_pairs c l2 l3))); [|exact Hb].
  intros b0 l3 Hb0 Hl. apply in_zrange in Hl. apply a_block_ok; assumption.
Qed.
Lemma a_start_ge0 (c : aconf) : acfg_ok c -> (0 <= a_start c)%Z.
Proof. intro H. destruct (ac_spin c H). unfold a_start. lia. Qed.
Lemma a_terms_range (c : aconf) l2 l3 l1 r k v : In (r, k, v) (a_terms c l2 l3 l1) -> (r < c_ncls (to_conf c))%nat /\ (k < c_ncls (to_conf c))%nat.
Proof.
  unfold a_terms, a_entries, c_ncls. cbn [to_conf c_teb c_spin1 c_spin2]. destruct (a_spin1 c =? 0)%Z, (a_spin2 c =? 0)%Z; cbn [In Nat.mul Nat.add];
    intros H; repeat (destruct H as [H|H]; [injection H as <- <- _; cbn; lia|]); destruct H.
Qed.
Lemma a_steps_ok (c : aconf) l2 s : acfg_ok c -> (a_start c <= l2 <= a_lmax c)%Z -> In s (a_iter_steps c l2) ->
  step_ok (to_conf c) s = true /\ exists i j, s_dst s = CW i j /\ s_src s = [CW i j] /\ (i / Z.of_nat (c_ncls (to_conf c)) = l2)%Z.
Proof.
  intros H H2 Hs. pose proof (a_start_ge0 c H). unfold a_iter_steps in Hs. apply in_flat_map in Hs. destruct Hs as [l3 [H3 Hs]]. apply in_zrange in H3.
  apply in_adds in Hs. destruct Hs as [v [Hs Es]]. unfold a_pairs in Hs. apply in_flat_map in Hs. destruct Hs as [l1 [_ Hs]].
  apply in_map_iff in Hs. destruct Hs as [[[r k] u] [E Hin]]. apply a_terms_range in Hin. injection E as E _. unfold wcell in E.
  set (n := c_ncls (to_conf c)) in *. destruct Hin as [Hr Hk].
  split.
  - apply step_ok_iff. intros x Hx. rewrite Es in Hx. assert (x = s_dst s) by (destruct Hx as [|[|[]]]; congruence). subst x. rewrite <- E.
    cbn [cell_ok in_w to_conf c_lmax]. fold n. unfold in_w. cbn [to_conf c_lmax]. fold n. rewrite !andb_true_iff, !Z.leb_le, !Z.ltb_lt. nia.
  - rewrite <- E. eexists _, _. split; [reflexivity|]. split; [congruence|]. rewrite Z.add_comm, (Z.mul_comm (Z.of_nat n)), Z.div_add by lia. rewrite Z.div_small by lia. lia.
Qed.

(** ** The matrix *)
Definition pick (r k : nat) (L : list (nat * nat * F)) : F := lsum (map (fun '(r', k', v) => if Nat.eqb r r' && Nat.eqb k k' then v else 0) L).
Definition a_el (c : aconf) (r l k l' : nat) : F :=
  fofZ (2 * Z.of_nat l' + 1) * lsum (map (fun l1 => pick r k (a_terms c (Z.of_nat l) (Z.of_nat l') l1)) (l1s (to_conf c) (Z.of_nat l) (Z.of_nat l'))).
Lemma a_mcm_ok (c : aconf) : acfg_ok c ->
  exists M, a_mcm c = Ok M /\ (let n := (c_ncls (to_conf c) * Z.to_nat (a_lmax c + 1))%nat in length M = n /\ forall r, In r M -> length r = n) /\
  forall r l k l', (r < c_ncls (to_conf c))%nat -> (k < c_ncls (to_conf c))%nat -> (Z.of_nat l <= a_lmax c)%Z -> (Z.of_nat l' <= a_lmax c)%Z ->
  entry2 M (c_ncls (to_conf c) * l + r) (c_ncls (to_conf c) * l' + k)
  = if ((a_start c <=? Z.of_nat l) && (a_start c <=? Z.of_nat l'))%Z then a_el c r l k l' else 0.
Proof.
  intro H. pose proof (a_start_ge0 c H) as P0. pose proof (ac_lmax c H) as HL. unfold M_MCM.a_mcm.
  destruct (thread_ok (abufs_ok c) (a_iter c) (a_iter_steps c) (zrange (a_start c) (a_lmax c))) with (b := @new_abufs F c) as [b' [E _]].
  { intros b l Hb Hl. apply in_zrange in Hl. apply a_iter_ok; assumption. }
  { apply new_abufs_ok. lia. }
  unfold thread. rewrite E. cbn [bind]. rewrite run_ok.
  2:{ intros s Hs. apply in_flat_map in Hs. destruct Hs as [l [Hl Hs]]. apply in_zrange in Hl. apply (a_steps_ok c l s H Hl Hs). }
  cbn [bind]. eexists. split; [reflexivity|]. split; [apply (mcm_square (to_conf c))|].
  intros r l k l' Hr Hk H2 H3. unfold mcm_of, entry2. set (n := c_ncls (to_conf c)) in *.
  assert (B : forall l r, (r < n)%nat -> (Z.of_nat l <= a_lmax c)%Z -> (n * l + r < n * Z.to_nat (a_lmax c + 1))%nat) by (intros; nia).
  change (c_lmax (to_conf c)) with (a_lmax c).
  rewrite nth_tab by (apply B; assumption). rewrite nth_tab by (apply B; assumption).
  replace (CW (Z.of_nat (n * l + r)) (Z.of_nat (n * l' + k))) with (wcell (to_conf c) r (Z.of_nat l) k (Z.of_nat l')) by (unfold wcell; fold n; f_equal; lia).
  assert (EA : flat_map (a_iter_steps c) (zrange (a_start c) (a_lmax c))
     = adds (flat_map (fun l2 => flat_map (a_pairs c l2) (zrange (a_start c) (a_lmax c))) (zrange (a_start c) (a_lmax c)))).
  { rewrite adds_flat_map. apply flat_map_ext. intro l2. rewrite adds_flat_map. reflexivity. }
  rewrite EA, exec_adds. change (zero_store (wcell (to_conf c) r (Z.of_nat l) k (Z.of_nat l'))) with (0 : F).
  set (x := wcell (to_conf c) r (Z.of_nat l) k (Z.of_nat l')).
  assert (C : forall l2 l3, (0 <= l2)%Z -> (0 <= l3)%Z -> lsum (map (fun '(y, v) => if cell_eqb x y then v else 0) (a_pairs c l2 l3))
     = if ((l2 =? Z.of_nat l) && (l3 =? Z.of_nat l'))%Z then a_el c r l k l' else 0).
  { intros l2 l3 G2 G3. unfold a_pairs. rewrite lsum_flat_map.
    assert (T : forall l1, lsum (map (fun '(y, v) => if cell_eqb x y then v else 0) (map (fun '(r0, k0, v) => (wcell (to_conf c) r0 l2 k0 l3, fofZ (2 * l3 + 1) * v)) (a_terms c l2 l3 l1)))
       = if ((l2 =? Z.of_nat l) && (l3 =? Z.of_nat l'))%Z then fofZ (2 * l3 + 1) * pick r k (a_terms c l2 l3 l1) else 0).
    { intro l1. rewrite map_map. unfold pick.
      assert (G : forall L, (forall r0 k0 v, In (r0, k0, v) L -> (r0 < n)%nat /\ (k0 < n)%nat) ->
         lsum (map (fun x0 : nat * nat * F => let '(y, v) := let '(r0, k0, v) := x0 in (wcell (to_conf c) r0 l2 k0 l3, fofZ (2 * l3 + 1) * v) in if cell_eqb x y then v else 0) L)
         = if ((l2 =? Z.of_nat l) && (l3 =? Z.of_nat l'))%Z then fofZ (2 * l3 + 1) * lsum (map (fun '(r', k', v) => if Nat.eqb r r' && Nat.eqb k k' then v else 0) L) else 0).
      { induction L as [|[[r0 k0] v] L IH]; intro HB.
        - cbn. destruct ((l2 =? Z.of_nat l) && (l3 =? Z.of_nat l'))%Z; [ring | reflexivity].
        - rewrite !lsum_cons, IH by (intros; eapply HB; right; eassumption). destruct (HB r0 k0 v (or_introl eq_refl)) as [Hr0 Hk0].
          assert (EQ : cell_eqb x (wcell (to_conf c) r0 l2 k0 l3) = (Nat.eqb r r0 && Nat.eqb k k0) && ((l2 =? Z.of_nat l) && (l3 =? Z.of_nat l'))%Z).
          { apply eq_true_iff_eq. rewrite cell_eqb_eq, !andb_true_iff, !Nat.eqb_eq, !Z.eqb_eq. unfold x. split.
            - intro E'. apply wcell_inj in E'; try assumption. intuition congruence.
            - intros [[-> ->] [-> ->]]. reflexivity. }
          rewrite EQ. destruct (Nat.eqb r r0 && Nat.eqb k k0), ((l2 =? Z.of_nat l) && (l3 =? Z.of_nat l'))%Z; cbn [andb]; ring. }
      apply G. intros r0 k0 v Hv. apply (a_terms_range c l2 l3 l1 r0 k0 v Hv). }
    transitivity (lsum (map (fun l1 => if ((l2 =? Z.of_nat l) && (l3 =? Z.of_nat l'))%Z then fofZ (2 * l3 + 1) * pick r k (a_terms c l2 l3 l1) else 0) (l1s (to_conf c) l2 l3))).
    { apply lsum_ext. intros l1 _. apply T. }
    destruct ((l2 =? Z.of_nat l) && (l3 =? Z.of_nat l'))%Z eqn:Eq.
    - apply andb_true_iff in Eq. rewrite !Z.eqb_eq in Eq. destruct Eq as [-> ->]. unfold a_el. apply lsum_mul_l.
    - induction (l1s (to_conf c) l2 l3) as [|? L IH]; [reflexivity|]. rewrite lsum_cons, IH. ring. }
  rewrite lsum_flat_map.
  transitivity (0 + lsum (map (fun l2 => lsum (map (fun l3 => if ((l2 =? Z.of_nat l) && (l3 =? Z.of_nat l'))%Z then a_el c r l k l' else 0) (zrange (a_start c) (a_lmax c)))) (zrange (a_start c) (a_lmax c)))).
  { f_equal. apply lsum_ext. intros l2 Hl2. apply in_zrange in Hl2. rewrite lsum_flat_map. apply lsum_ext. intros l3 Hl3. apply in_zrange in Hl3. apply C; lia. }
  assert (S1 : forall (L : list Z) (g : F) z, NoDup L -> lsum (map (fun y => if (y =? z)%Z then g else 0) L) = if existsb (Z.eqb z) L then g else 0).
  { induction L as [|y L IH]; intros g z ND; [reflexivity|]. rewrite lsum_cons. inversion ND as [|? ? N1 N2]. subst. rewrite IH by exact N2. cbn [existsb].
    rewrite (Z.eqb_sym z y). destruct (Z.eqb_spec y z) as [->|_]; cbn [orb]; [|ring].
    replace (existsb (Z.eqb z) L) with false; [ring|]. symmetry. apply not_true_is_false. intro Q. apply existsb_exists in Q. destruct Q as [u [Hu Q]]. apply Z.eqb_eq in Q. congruence. }
  assert (IN : forall z, (z <= a_lmax c)%Z -> existsb (Z.eqb z) (zrange (a_start c) (a_lmax c)) = (a_start c <=? z)%Z).
  { intros z Hz. apply eq_true_iff_eq. rewrite existsb_exists, Z.leb_le. split.
    - intros [y [Hy Q]]. apply Z.eqb_eq in Q. subst y. apply in_zrange in Hy. lia.
    - intro Q. exists z. split; [apply in_zrange; lia | apply Z.eqb_refl]. }
  transitivity (0 + lsum (map (fun l2 => if (l2 =? Z.of_nat l)%Z then (if (a_start c <=? Z.of_nat l')%Z then a_el c r l k l' else 0) else 0) (zrange (a_start c) (a_lmax c)))).
  { f_equal. apply lsum_ext. intros l2 _. destruct (l2 =? Z.of_nat l)%Z; cbn [andb].
    - rewrite S1 by apply NoDup_zrange. rewrite IN by exact H3. reflexivity.
    - generalize (zrange (a_start c) (a_lmax c)). intro L. induction L as [|? L IH]; [reflexivity|]. rewrite lsum_cons, IH. ring. }
  rewrite S1 by apply NoDup_zrange. rewrite IN by exact H2.
  destruct (a_start c <=? Z.of_nat l)%Z, (a_start c <=? Z.of_nat l')%Z; cbn [andb]; ring.
Qed.
End L.
