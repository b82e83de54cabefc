(** Property C27: the mode-coupling matrix does not depend on the number of threads or on their schedule. *)
From Coq Require Import Permutation.
From Verif Require Import Base M_Bins M_LinAlg M_Workspace M_MCM M_OMP L_Bins L_Bins2 L_Bins3 P_Bins L_LinAlg L_Workspace P_Workspace L_MCM L_MCM2 L_MCM3 L_MCM4 L_OMP P_MCM P_MCM2 P_MCM3 P_Aniso.
Open Scope Z_scope.

Section Statements.
Context {F : ofield}.
Local Open Scope F_scope.
Notation store := (store F).
Notation step := (step F).
Notation conf := (conf F).
Notation wsp := (wsp F).
Variables (fsqrt fexp flog : F -> F) (pi : F).
Variable w3j : Z -> Z -> Z -> Z -> Z -> F.

(** ** Specification vocabulary *)
(** two assignments that may not be executed concurrently *)
Definition conflict (s s' : step) : Prop := s_dst s = s_dst s' \/ In (s_dst s) (s_src s') \/ In (s_dst s') (s_src s).
(** compute_coupling_matrix with the OpenMP regions of the library executed by any number of threads *)
Definition par_compute (junk : Z -> F) (i : minp (F:=F)) : res wsp -> Prop :=
  thenR (retR (toeplitz_sanity (n_lt i) (n_lex i) (n_dl i) (n_lmax i) (n_pe1 i || n_pb1 i || n_pe2 i || n_pb2 i))) (fun _ =>
  par_comp_coupling_matrix fsqrt fexp flog pi junk w3j (n_spin1 i) (n_spin2 i) (n_lmax i) (n_lmm i)
    (n_pe1 i) (n_pb1 i) (n_pe2 i) (n_pb2 i) (n_norm i) (n_w2 i) (n_b1 i) (n_b2 i) (n_pcl i) (n_bin i)
    (n_teb i) (n_lt i) (n_lex i) (n_dl i)).
Definition par_by_name (j : ainp (F:=F)) : res wsp -> Prop :=
  par_anisotropic pi w3j (j_spin1 j) (j_spin2 j) (j_an1 j) (j_an2 j) (b_lmax (j_bin j)) (j_lmm j)
    (j_00 j) (j_0e j) (j_e0 j) (j_0b j) (j_b0 j) (j_ee j) (j_eb j) (j_be j) (j_bb j) (j_b1 j) (j_b2 j) (j_bin j) (j_norm j) (j_w2 j).

(** ** Who owns what *)
Definition owner_main (c : conf) (x : cell) : option Z := match x with CX a icc ip p q => Some (fst (key c p q)) | _ => None end.
Definition owner_tplz (x : cell) : option Z := match x with CT a icc il l => Some l | _ => None end.
Definition owner_fill (x : cell) : option Z := match x with CX a icc ip p q => Some (Z.max p q) | _ => None end.
Definition owner_rows (n : nat) (x : cell) : option Z := match x with CW i j => Some (i / Z.of_nat n)%Z | _ => None end.
Notation iter_steps := (iter_steps fsqrt fexp flog).
Notation tplz_steps := (tplz_steps fsqrt fexp flog).
Lemma dj_main junk (c : conf) L : (forall k, In k L -> (lstart c <= k <= c_lmax c)%Z) -> disjoint_loop (owner_main c) (iter_steps junk w3j c) L.
Proof.
  intros HL k s Hk Hs. unfold L_MCM2.iter_steps in Hs. apply in_flat_map in Hs. destruct Hs as [l3 [H3 Hs]].
  assert (O : forall x, In x (s_dst s :: s_src s) -> owner_main c x = Some k).
  { intros x Hx. apply (block_owned fsqrt fexp flog junk w3j c k l3 s x) in Hs; [|intro Hp; apply in_columns in H3; rewrite Hp in H3; lia|exact Hx].
    destruct x; cbn in Hs |- *; try contradiction. rewrite Hs. reflexivity. }
  split; [apply O; left; reflexivity | intros x Hx; left; apply O; right; exact Hx].
Qed.
Lemma dj_tplz junk (c : conf) L : cfg_ok c -> (forall k, In k L -> (lstart c <= k <= c_lmax c)%Z) -> disjoint_loop owner_tplz (tplz_steps junk w3j c) L.
Proof.
  intros H HL k s Hk Hs. destruct (tplz_steps_facts fsqrt fexp flog junk w3j c k s H (HL k Hk) Hs) as [_ [_ X]].
  assert (O : forall x, In x (s_dst s :: s_src s) -> owner_tplz x = Some k) by (intros x Hx; destruct (X x Hx) as [a [icc [il ->]]]; reflexivity).
  split; [apply O; left; reflexivity | intros x Hx; left; apply O; right; exact Hx].
Qed.
Lemma dj_fill (c : conf) L : disjoint_loop owner_fill (tplz_fill_iter fsqrt c) L.
Proof.
  intros k s _ Hs. unfold tplz_fill_iter in Hs. apply in_flat_map in Hs. destruct Hs as [l3 [H3 Hs]]. apply in_zrange in H3.
  apply in_each in Hs. destruct Hs as [a [icc [_ [_ [<-|Hs]]]]]; cbn [s_dst s_src].
  - split; [cbn; f_equal; lia|]. intros x [<-|[<-|[<-|[]]]]; right; reflexivity.
  - destruct (l3 =? k)%Z; [contradiction|]. destruct Hs as [<-|[]]. cbn [copy_step s_dst s_src]. split; [cbn; f_equal; lia|]. intros x [<-|[]]. left. cbn. f_equal. lia.
Qed.
Lemma dj_apply (c : conf) L : disjoint_loop (owner_rows (c_ncls c)) (apply_iter c) L.
Proof.
  intros k s _ Hs. unfold apply_iter in Hs. apply in_flat_map in Hs. destruct Hs as [l3 [_ Hs]]. apply in_map_iff in Hs. destruct Hs as [[[[[r q] sg] a] ip] [<- Ht]].
  apply table_range in Ht. cbn [s_dst s_src owner_rows]. split; [|intros x [<-|[]]; right; reflexivity].
  f_equal. rewrite Z.add_comm, (Z.mul_comm (Z.of_nat (c_ncls c))), Z.div_add by lia. rewrite Z.div_small by lia. lia.
Qed.
Lemma dj_aniso (c : aconf F) L : acfg_ok c -> (forall k, In k L -> (a_start c <= k <= a_lmax c)%Z) -> disjoint_loop (owner_rows (c_ncls (to_conf c))) (a_iter_steps pi w3j c) L.
Proof.
  intros H HL k s Hk Hs. destruct (a_steps_ok pi w3j c k s H (HL k Hk) Hs) as [_ [i [j [E1 [E2 E3]]]]].
  rewrite E1, E2. assert (O : owner_rows (c_ncls (to_conf c)) (CW i j) = Some k) by (unfold owner_rows; f_equal; exact E3).
  split; [exact O|]. intros x [<-|[]]. left. exact O.
Qed.
Lemma no_conflict (owner : cell -> option Z) (S : Z -> list step) L k k' s s' : disjoint_loop owner S L -> In k L -> In k' L -> k <> k' -> In s (S k) -> In s' (S k') -> ~ conflict s s'.
Proof.
  intros D Hk Hk' N Hs Hs'. destruct (D k s Hk Hs) as [A1 A2]. destruct (D k' s' Hk' Hs') as [B1 B2].
  intros [E|[E|E]]; [congruence| |]; [destruct (B2 _ E) | destruct (A2 _ E)]; congruence.
Qed.

(** ** No data races: whatever the private buffers hold, two different iterations of a parallel loop never touch the same memory with a write among the accesses *)
Theorem C27_race_free_main junk i b b' k k' x x' ss ss' s s' : fields_ok i -> toeplitz_sanity (n_lt i) (n_lex i) (n_dl i) (n_lmax i) (purified i) = Ok tt ->
  let c := cfg pi i in bufs_ok c b -> bufs_ok c b' ->
  (lstart c <= k <= c_lmax c)%Z -> (lstart c <= k' <= c_lmax c)%Z -> k <> k' ->
  iter fsqrt fexp flog junk w3j c b k = Ok (x, ss) -> iter fsqrt fexp flog junk w3j c b' k' = Ok (x', ss') -> In s ss -> In s' ss' -> ~ conflict s s'.
Proof.
  intros H T c Hb Hb' Hk Hk' N E E' Hs Hs'. pose proof (cfg_ok_of fsqrt fexp flog pi w3j i H T) as C. fold c in C.
  destruct (iter_ok fsqrt fexp flog junk w3j c b k C Hb Hk) as [y [Ey _]]. destruct (iter_ok fsqrt fexp flog junk w3j c b' k' C Hb' Hk') as [y' [Ey' _]].
  rewrite E in Ey. rewrite E' in Ey'. injection Ey as _ ->. injection Ey' as _ ->.
  apply (no_conflict (owner_main c) (iter_steps junk w3j c) (zrange (lstart c) (c_lmax c)) k k'); try assumption; try (apply in_zrange; assumption).
  apply dj_main. intros z Hz. apply in_zrange. exact Hz.
Qed.
Theorem C27_race_free_toeplitz junk i b b' k k' x x' ss ss' s s' : fields_ok i -> toeplitz_sanity (n_lt i) (n_lex i) (n_dl i) (n_lmax i) (purified i) = Ok tt -> (0 < n_lt i)%Z ->
  let c := cfg pi i in bufs_ok c b -> bufs_ok c b' ->
  (lstart c <= k <= c_lmax c)%Z -> (lstart c <= k' <= c_lmax c)%Z -> k <> k' ->
  tplz_iter fsqrt fexp flog junk w3j c b k = Ok (x, ss) -> tplz_iter fsqrt fexp flog junk w3j c b' k' = Ok (x', ss') -> In s ss -> In s' ss' -> ~ conflict s s'.
Proof.
  intros H T P c Hb Hb' Hk Hk' N E E' Hs Hs'. pose proof (cfg_ok_of fsqrt fexp flog pi w3j i H T) as C. fold c in C.
  destruct (tplz_iter_ok fsqrt fexp flog junk w3j c b k C P Hb Hk) as [y [Ey _]]. destruct (tplz_iter_ok fsqrt fexp flog junk w3j c b' k' C P Hb' Hk') as [y' [Ey' _]].
  rewrite E in Ey. rewrite E' in Ey'. injection Ey as _ ->. injection Ey' as _ ->.
  apply (no_conflict owner_tplz (tplz_steps junk w3j c) (zrange (lstart c) (c_lmax c)) k k'); try assumption; try (apply in_zrange; assumption).
  apply dj_tplz; [exact C|]. intros z Hz. apply in_zrange. exact Hz.
Qed.
Theorem C27_race_free_fill (c : conf) k k' s s' : k <> k' -> In s (tplz_fill_iter fsqrt c k) -> In s' (tplz_fill_iter fsqrt c k') -> ~ conflict s s'.
Proof. intros N Hs Hs'. apply (no_conflict owner_fill (tplz_fill_iter fsqrt c) [k; k'] k k'); try assumption; [apply dj_fill | left; reflexivity | right; left; reflexivity]. Qed.
Theorem C27_race_free_apply (c : conf) k k' s s' : k <> k' -> In s (apply_iter c k) -> In s' (apply_iter c k') -> ~ conflict s s'.
Proof. intros N Hs Hs'. apply (no_conflict (owner_rows (c_ncls c)) (apply_iter c) [k; k'] k k'); try assumption; [apply dj_apply | left; reflexivity | right; left; reflexivity]. Qed.
Theorem C27_race_free_anisotropic j b b' k k' x x' ss ss' s s' : afields_ok j -> let c := ac j in abufs_ok c b -> abufs_ok c b' ->
  (a_start c <= k <= a_lmax c)%Z -> (a_start c <= k' <= a_lmax c)%Z -> k <> k' ->
  a_iter pi w3j c b k = Ok (x, ss) -> a_iter pi w3j c b' k' = Ok (x', ss') -> In s ss -> In s' ss' -> ~ conflict s s'.
Proof.
  intros H c Hb Hb' Hk Hk' N E E' Hs Hs'. pose proof (ac_ok fsqrt fexp flog pi j H) as C. fold c in C.
  destruct (a_iter_ok pi w3j c b k C Hb Hk) as [y [Ey _]]. destruct (a_iter_ok pi w3j c b' k' C Hb' Hk') as [y' [Ey' _]].
  rewrite E in Ey. rewrite E' in Ey'. injection Ey as _ ->. injection Ey' as _ ->.
  apply (no_conflict (owner_rows (c_ncls (to_conf c))) (a_iter_steps pi w3j c) (zrange (a_start c) (a_lmax c)) k k'); try assumption; try (apply in_zrange; assumption).
  apply dj_aniso; [exact C|]. intros z Hz. apply in_zrange. exact Hz.
Qed.

(** ** Schedule independence *)
Lemma thenR_ok {A B} (R : res A -> Prop) (K : A -> res B -> Prop) r (Q : A -> Prop) :
  thenR R K r -> (forall r0, R r0 -> exists a, r0 = Ok a /\ Q a) -> exists a, Q a /\ K a r.
Proof.
  intros [[a [Ra Ka]]|[[e [Re _]]|[Ru _]]] H.
  - destruct (H _ Ra) as [a' [E Qa]]. injection E as <-. exists a. split; assumption.
  - destruct (H _ Re) as [a' [E _]]. discriminate.
  - destruct (H _ Ru) as [a' [E _]]. discriminate.
Qed.
Lemma exec_eq (ss : list step) (st st' : store) : (forall x, st x = st' x) -> forall x, exec ss st x = exec ss st' x.
Proof. intros E x. apply (exec_ext ss (fun _ => True)); auto. Qed.
Lemma nobuf_ok (f : Z -> list step) (L : list Z) : forall (b : unit) k, True -> In k L -> exists b', nobuf f b k = Ok (b', f k) /\ True.
Proof. intros b k _ _. exists tt. split; [reflexivity | exact I]. Qed.
Lemma par_master_ok junk (c : conf) r : cfg_ok c -> par_master fsqrt fexp flog junk w3j c r ->
  exists st, r = Ok st /\ forall x, st x = exec (all_steps fsqrt fexp flog junk w3j c) zero_store x.
Proof.
  intros H R. unfold par_master in R. pose proof (co_lmax c H) as HL. pose proof (lstart_ge0 c H) as L0. unfold all_steps.
  assert (IT : forall b k, bufs_ok c b -> In k (zrange (lstart c) (c_lmax c)) -> exists b', iter fsqrt fexp flog junk w3j c b k = Ok (b', iter_steps junk w3j c k) /\ bufs_ok c b').
  { intros b k Hb Hk. apply in_zrange in Hk. apply iter_ok; assumption. }
  assert (DM : disjoint_loop (owner_main c) (iter_steps junk w3j c) (zrange (lstart c) (c_lmax c))) by (apply dj_main; intros k Hk; apply in_zrange; exact Hk).
  assert (SM : forall k s, In k (zrange (lstart c) (c_lmax c)) -> In s (iter_steps junk w3j c k) -> step_ok c s = true).
  { intros k s Hk Hs. apply (main_steps_ok fsqrt fexp flog junk w3j c s H). unfold main_steps. apply in_flat_map. exists k. split; assumption. }
  destruct (Z.ltb_spec 0 (c_lt c)) as [T|T].
  - apply thenR_ok with (Q := fun st => forall x, st x = exec (flat_map (tplz_steps junk w3j c) (zrange (lstart c) (c_lmax c)) ++ tplz_norm fsqrt c ++ flat_map (tplz_fill_iter fsqrt c) (zrange 0 (c_lmax c))) zero_store x) in R.
    2:{ intros r0 R0. 
        apply thenR_ok with (Q := fun st => forall x, st x = exec (flat_map (tplz_steps junk w3j c) (zrange (lstart c) (c_lmax c))) zero_store x) in R0.
        2:{ intros r1 R1. apply (region_seq c _ (new_bufs c) (bufs_ok c) (tplz_steps junk w3j c) (zrange (lstart c) (c_lmax c)) owner_tplz) in R1.
            - destruct R1 as [st [-> E]]. exists st. split; [reflexivity | exact E].
            - apply new_bufs_ok. lia.
            - intros b k Hb Hk. apply in_zrange in Hk. apply tplz_iter_ok; assumption.
            - apply NoDup_zrange.
            - apply dj_tplz; [exact H | intros k Hk; apply in_zrange; exact Hk].
            - intros k s Hk Hs. apply in_zrange in Hk. apply (tplz_steps_facts fsqrt fexp flog junk w3j c k s H Hk Hs). }
        destruct R0 as [st1 [E1 R0]].
        apply thenR_ok with (Q := fun st => forall x, st x = exec (tplz_norm fsqrt c) st1 x) in R0.
        2:{ intros r1 ->. exists (exec (tplz_norm fsqrt c) st1). split; [apply run_ok; intros s Hs; apply (tplz_norm_facts fsqrt c s H T Hs) | reflexivity]. }
        destruct R0 as [st2 [E2 R0]].
        apply (region_seq c _ tt (fun _ => True) (tplz_fill_iter fsqrt c) (zrange 0 (c_lmax c)) owner_fill) in R0.
        - destruct R0 as [st3 [-> E3]]. exists st3. split; [reflexivity|]. intro x. rewrite !exec_app, E3. apply exec_eq. intro y. rewrite E2. apply exec_eq. exact E1.
        - exact I.
        - apply nobuf_ok.
        - apply NoDup_zrange.
        - apply dj_fill.
        - intros k s Hk Hs. apply in_zrange in Hk. apply (fill_facts fsqrt c k s H T Hk Hs). }
    destruct R as [st3 [E3 R]].
    apply thenR_ok with (Q := fun st => forall x, st x = exec (main_steps fsqrt fexp flog junk w3j c) st3 x) in R.
    2:{ intros r1 R1. exact (region_seq c _ (new_bufs c) (bufs_ok c) (iter_steps junk w3j c) (zrange (lstart c) (c_lmax c)) (owner_main c) (new_bufs_ok c ltac:(lia)) IT (NoDup_zrange _ _) DM SM st3 r1 R1). }
    destruct R as [st4 [E4 R]]. unfold retR in R. rewrite run_ok in R by (intros s Hs; apply (corner_facts fsqrt c s H T Hs)).
    eexists. split; [exact R|]. intro x. rewrite !exec_app. rewrite !exec_app in E3. apply exec_eq. intro y. rewrite E4. apply exec_eq. intro z. rewrite E3. rewrite ?exec_app. reflexivity.
  - apply thenR_ok with (Q := fun st => forall x, st x = zero_store x) in R; [|intros r0 ->; exists zero_store; split; reflexivity].
    destruct R as [st3 [E3 R]].
    apply thenR_ok with (Q := fun st => forall x, st x = exec (main_steps fsqrt fexp flog junk w3j c) st3 x) in R.
    2:{ intros r1 R1. exact (region_seq c _ (new_bufs c) (bufs_ok c) (iter_steps junk w3j c) (zrange (lstart c) (c_lmax c)) (owner_main c) (new_bufs_ok c ltac:(lia)) IT (NoDup_zrange _ _) DM SM st3 r1 R1). }
    destruct R as [st4 [E4 R]]. exists st4. split; [exact R|]. intro x. cbn [app]. rewrite app_nil_r, E4. apply exec_eq. exact E3.
Qed.
Lemma mcm_of_ext (c : conf) (st st' : store) : (forall x, st x = st' x) -> mcm_of c st = mcm_of c st'.
Proof. intro E. unfold mcm_of. apply tab_ext. intros i _. apply tab_ext. intros j _. apply E. Qed.
Lemma guard_then {B} (g : bool) e (K : unit -> res B -> Prop) (k : res B) r :
  (g = true -> K tt r -> r = k) -> thenR (retR (guard g e)) K r -> r = (do _ <- guard g e; k).
Proof.
  intros H R. destruct g; cbn [guard] in *.
  - destruct R as [[a [Ra Ka]]|[[e' [Re _]]|[Ru _]]]; [|discriminate|discriminate]. injection Ra as ->. cbn. apply H; [reflexivity | exact Ka].
  - destruct R as [[a [Ra Ka]]|[[e' [Re Er]]|[Ru _]]]; [discriminate| |discriminate]. injection Re as ->. exact Er.
Qed.
Lemma table_ok_of i : fields_ok i -> toeplitz_sanity (n_lt i) (n_lex i) (n_dl i) (n_lmax i) (purified i) = Ok tt -> table_ok (cfg pi i).
Proof.
  intros H T. pose proof (cfg_ok_of fsqrt fexp flog pi w3j i H T) as C. apply (table_ok_cfg fsqrt fexp flog); [exact C| |]; cbn.
  - intro E1. pose proof (fo_p1 i H) as P. destruct (n_pe1 i), (n_pb1 i); cbn in P; try (split; reflexivity); specialize (P eq_refl); lia.
  - intro E1. pose proof (fo_p2 i H) as P. destruct (n_pe2 i), (n_pb2 i); cbn in P; try (split; reflexivity); specialize (P eq_refl); lia.
Qed.
(** every execution ends with the result of the sequential program *)
Theorem C27_schedule_independent junk i r : fields_ok i -> par_compute junk i r -> r = mcompute fsqrt fexp flog pi w3j junk i.
Proof.
  intros H R. unfold par_compute in R. fold (purified i) in R.
  destruct (toeplitz_sanity (n_lt i) (n_lex i) (n_dl i) (n_lmax i) (purified i)) as [[]|e|] eqn:T.
  2:{ unfold mcompute. fold (purified i). rewrite T. cbn. destruct R as [[a [Ra _]]|[[e' [Re Er]]|[Ru _]]]; try discriminate. injection Re as ->. exact Er. }
  2:{ unfold mcompute. fold (purified i). rewrite T. cbn. destruct R as [[a [Ra _]]|[[e' [Re Er]]|[Ru Er]]]; try discriminate. exact Er. }
  apply thenR_ok with (Q := fun _ => True) in R; [|intros r0 ->; exists tt; split; [reflexivity | exact I]]. destruct R as [_ [_ R]].
  unfold mcompute. fold (purified i). rewrite T. cbn [bind]. unfold comp_coupling_matrix. unfold par_comp_coupling_matrix in R.
  revert R. apply guard_then. intro G1. apply guard_then. intro G2. apply guard_then. intro G3. apply guard_then. intros G4 R.
  fold (n_lmax i) in R |- *. rewrite Z.ltb_irrefl in R |- *. fold (cfg pi i) in R |- *.
  pose proof (cfg_ok_of fsqrt fexp flog pi w3j i H T) as C.
  apply thenR_ok with (Q := fun st => forall x, st x = exec (all_steps fsqrt fexp flog junk w3j (cfg pi i)) zero_store x) in R.
  2:{ intros r0 R0. apply (par_master_ok junk (cfg pi i) r0 C R0). }
  destruct R as [st [E R]].
  assert (SA : forall s, In s (apply_steps (cfg pi i)) -> step_ok (cfg pi i) s = true).
  { intros s Hs. apply apply_ok; [cbn; lia | apply table_ok_of; assumption | exact Hs]. }
  apply thenR_ok with (Q := fun st' => forall x, st' x = exec (apply_steps (cfg pi i)) st x) in R.
  2:{ intros r0 R0. apply (region_seq (cfg pi i) _ tt (fun _ => True) (apply_iter (cfg pi i)) (zrange 0 (c_lmax (cfg pi i))) (owner_rows (c_ncls (cfg pi i)))) in R0.
      - destruct R0 as [st' [-> E']]. exists st'. split; [reflexivity | exact E'].
      - exact I.
      - apply nobuf_ok.
      - apply NoDup_zrange.
      - apply dj_apply.
      - intros k s Hk Hs. apply SA. unfold apply_steps. apply in_flat_map. exists k. split; assumption. }
  destruct R as [st' [E' R]]. unfold retR in R. rewrite R.
  destruct (mcompute_built fsqrt fexp flog pi w3j junk i H T) as [st0 [Em _]].
  pose proof (master_steps_eq fsqrt fexp flog junk w3j (cfg pi i) C) as MS. rewrite Em. cbn [bind].
  unfold master in Em. rewrite MS in Em. cbn [bind] in Em. unfold run in Em. destruct (forallb _ _); [|discriminate]. injection Em as <-.
  rewrite run_ok by exact SA. cbn [bind]. f_equal. apply mcm_of_ext. intro x. rewrite E'. apply exec_eq. exact E.
Qed.
Theorem C27_schedule_independent_anisotropic j r : afields_ok j -> par_by_name j r -> r = by_name pi w3j j.
Proof.
  intros H R. unfold par_by_name, par_anisotropic in R. unfold by_name, nmt_compute_coupling_matrix_anisotropic. rewrite Z.ltb_irrefl in R |- *. fold (ac j) in R |- *.
  pose proof (ac_ok fsqrt fexp flog pi j H) as C. pose proof (a_start_ge0 (ac j) C) as S0. pose proof (ac_lmax (ac j) C) as L0.
  assert (IT : forall b k, abufs_ok (ac j) b -> In k (zrange (a_start (ac j)) (a_lmax (ac j))) -> exists b', a_iter pi w3j (ac j) b k = Ok (b', a_iter_steps pi w3j (ac j) k) /\ abufs_ok (ac j) b').
  { intros b k Hb Hk. apply in_zrange in Hk. apply a_iter_ok; assumption. }
  assert (SO : forall k s, In k (zrange (a_start (ac j)) (a_lmax (ac j))) -> In s (a_iter_steps pi w3j (ac j) k) -> step_ok (to_conf (ac j)) s = true).
  { intros k s Hk Hs. apply in_zrange in Hk. apply (a_steps_ok pi w3j (ac j) k s C Hk Hs). }
  apply thenR_ok with (Q := fun st => forall x, st x = exec (flat_map (a_iter_steps pi w3j (ac j)) (zrange (a_start (ac j)) (a_lmax (ac j)))) zero_store x) in R.
  2:{ intros r0 R0. apply (region_seq (to_conf (ac j)) _ (new_abufs (ac j)) (abufs_ok (ac j)) (a_iter_steps pi w3j (ac j)) (zrange (a_start (ac j)) (a_lmax (ac j))) (owner_rows (c_ncls (to_conf (ac j))))) in R0.
      - destruct R0 as [st' [-> E']]. exists st'. split; [reflexivity | exact E'].
      - apply new_abufs_ok. lia.
      - exact IT.
      - apply NoDup_zrange.
      - apply dj_aniso; [exact C|]. intros k Hk. apply in_zrange. exact Hk.
      - exact SO. }
  destruct R as [st [E R]]. unfold retR in R. rewrite R. unfold a_mcm, thread.
  destruct (thread_ok (abufs_ok (ac j)) (a_iter pi w3j (ac j)) (a_iter_steps pi w3j (ac j)) (zrange (a_start (ac j)) (a_lmax (ac j)))) with (b := new_abufs (F:=F) (ac j)) as [b1 [E1 _]].
  { intros b k Hb Hk. apply IT; assumption. }
  { apply new_abufs_ok. lia. }
  rewrite E1. cbn [bind]. rewrite run_ok by (intros s Hs; apply in_flat_map in Hs; destruct Hs as [k [Hk Hs]]; apply (SO k); assumption).
  cbn [bind]. f_equal. apply mcm_of_ext. exact E.
Qed.
(** executions exist: the sequential result is among the outcomes *)
Lemma thenR_ex {A B} (R : res A -> Prop) (K : A -> res B -> Prop) : (exists r, R r) -> (forall a, exists r, K a r) -> exists r, thenR R K r.
Proof.
  intros [[a|e|] Hr] HK.
  - destruct (HK a) as [r Kr]. exists r. left. exists a. split; assumption.
  - exists (Exn e). right; left. exists e. split; [exact Hr | reflexivity].
  - exists UB. right; right. split; [exact Hr | reflexivity].
Qed.
Lemma region_ex {B} (c : conf) (it : B -> Z -> res (B * list step)) fresh L st : exists r, region c it fresh L st r.
Proof. apply (region_exists c it fresh L st [L]). cbn. rewrite app_nil_r. apply Permutation_refl. Qed.
Lemma ret_ex {A} (x : res A) : exists r, retR x r.
Proof. exists x. reflexivity. Qed.
Theorem C27_execution_exists junk i : fields_ok i -> par_compute junk i (mcompute fsqrt fexp flog pi w3j junk i).
Proof.
  intro H. assert (X : exists r, par_compute junk i r).
  { unfold par_compute, par_comp_coupling_matrix, par_master. repeat (first [apply ret_ex | apply region_ex | apply thenR_ex; [|intro] | match goal with |- context [if ?b then _ else _] => destruct b end]). }
  destruct X as [r R]. rewrite <- (C27_schedule_independent junk i r H R). exact R.
Qed.
End Statements.

(** ** Concrete executions *)
Section Examples.
Local Notation Q := Qc_field.
Ltac mi_tac := apply mi_ok; cbn; try lia; try discriminate; try (intros; repeat split; lia); try reflexivity.
(** one execution exists for calls of every kind: plain, purified, temperature-polarisation jointly, and with the Toeplitz approximation *)
Example ex_par fsqrt fexp flog pi w3j junk : Forall (fun i : minp (F:=Q) => fields_ok i /\ toeplitz_sanity (n_lt i) (n_lex i) (n_dl i) (n_lmax i) (purified i) = Ok tt /\
    par_compute fsqrt fexp flog pi w3j junk i (mcompute fsqrt fexp flog pi w3j junk i))
  [mi 0 0 false false false false false (-1) (-1) (-1);
   mi 0 2 false false false true false (-1) (-1) (-1);
   mi 2 2 false true false true false (-1) (-1) (-1);
   mi 0 2 false false false false true (-1) (-1) (-1);
   mi 0 2 false false false false false 2 1 1].
Proof.
  repeat first [apply Forall_nil | apply Forall_cons].
  all: split; [mi_tac | split; [vm_compute; reflexivity | apply C27_execution_exists; mi_tac]].
Qed.
(** two threads, one taking the multipoles 2 then 0 and the other 3 then 1: some interleaving leads to an outcome, and every interleaving leads to the sequential one *)
Example ex_two_threads fsqrt fexp flog pi w3j junk (c := cfg pi (mi 0 0 false false false false false (-1) (-1) (-1))) :
  Permutation (concat [[2; 0]; [3; 1]]) (zrange (lstart c) (c_lmax c)) /\
  exists r, region c (iter fsqrt fexp flog junk w3j c) (new_bufs c) (zrange (lstart c) (c_lmax c)) zero_store r.
Proof.
  assert (P : Permutation (concat [[2; 0]; [3; 1]]) (zrange (lstart c) (c_lmax c))).
  { change (zrange (lstart c) (c_lmax c)) with [0; 1; 2; 3]. cbn [concat app].
    apply (perm_trans (l' := [0; 2; 3; 1])); [apply perm_swap|]. apply perm_skip. apply (perm_trans (l' := [2; 1; 3])); [apply perm_skip, perm_swap|]. apply perm_swap. }
  split; [exact P|]. exact (region_exists c (iter fsqrt fexp flog junk w3j c) (new_bufs c) _ zero_store _ P).
Qed.
(** the race-freedom theorems quantify over writes that occur: with spins 0, 0 the iterations 1 and 2 both write and both read what the other does not write *)
Example ex_writes (c := cfg (qz 3) (mi 0 0 false false false false false (-1) (-1) (-1))) :
  exists s s', In s (apply_iter c 1) /\ In s' (apply_iter c 2) /\ s_dst s = CW 1 0 /\ s_dst s' = CW 2 0.
Proof. eexists _, _. split; [left; reflexivity|]. split; [left; reflexivity|]. split; reflexivity. Qed.
End Examples.

Print Assumptions C27_schedule_independent.
Print Assumptions C27_schedule_independent_anisotropic.
Print Assumptions C27_execution_exists.
Print Assumptions C27_race_free_main.
Print Assumptions C27_race_free_toeplitz.
Print Assumptions C27_race_free_fill.
Print Assumptions C27_race_free_apply.
Print Assumptions C27_race_free_anisotropic.
