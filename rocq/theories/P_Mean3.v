(** Property C94, continued: catalogues of sources, and workspaces made by compute_coupling_matrix. *)
From Verif Require Import Base M_Utils L_Utils M_Field L_Field M_Cell L_Cell P_Field5 P_Cell P_Catalog M_Bins M_LinAlg M_Workspace M_MCM L_Bins L_Bins2 L_Bins3 P_Bins L_LinAlg L_Workspace P_Workspace L_MCM L_MCM2 L_MCM3 P_MCM P_MCM2 L_MCM4 P_MCM3 L_Legendre P_Legendre M_SynSph P_SynSph P_Mean M_FITS M_Session.
Local Open Scope nat_scope.

Section Mean3.
Context {F : ofield}.
Local Open Scope F_scope.
Add Field FfC94c : (fth F).
Notation mat := (list (list F)).
Variables (fsqrt fexp flog : F -> F) (pi : F).
Variable w3j : Z -> Z -> Z -> Z -> Z -> F.
Notation mcompute := (mcompute fsqrt fexp flog pi w3j).
Notation corr := (corr pi).
Let d : F := (1 + 1 + 1 + 1) * pi.
Context {Om : Type}.
Variable E : (Om -> F) -> F.
Variable cat2alm : Z -> Z -> mat -> list F -> list F -> mat.
Variable Y : Z -> Z -> nat -> nat -> nat -> F -> F -> F.
(** cosine of the angle between two positions; scalar harmonics obey the addition theorem *)
Variable cosang : F -> F -> F -> F -> F.
Definition addition0 (L : nat) : Prop := (forall th ph, cosang th ph th ph = 1) /\ forall l th ph th' ph', (l <= L)%nat -> pair Y 0 L l 0 0 0 0 th ph th' ph' = leg (cosang th ph th' ph') l / d.
(** pairs of different sources *)
Definition cweight (w : list F) (p q : nat) : F := if Nat.eqb p q then 0 else nth p w 0 * nth q w 0.
Lemma add0 L l : addition0 L -> pi <> 0 -> (l <= L)%nat -> addition pi Y 0 1 L l.
Proof.
  intros [C A] Hpi Hl e c e' c' th ph He Hc He' Hc'. assert (e = 0%nat) as -> by lia. assert (c = 0%nat) as -> by lia. assert (e' = 0%nat) as -> by lia. assert (c' = 0%nat) as -> by lia. cbn [Nat.eqb andb].
  rewrite A by exact Hl. rewrite C, leg_at_1. pose proof (four_pi pi Hpi) as D. fold d in D. replace (fofZ 4 * pi * fofnat 1) with d by (unfold d; cbn; ring). replace (fofZ 2 : F) with (1 + 1 : F) by (cbn; ring). field. exact D.
Qed.
(** the power of the weights of a catalogue, without the pairs of a source with itself, is what remains after Nw *)
Lemma mask_pairs w th ph L l (am : list F) : synthesis cat2alm Y -> addition0 L -> pi <> 0 -> length th = length w -> length ph = length w -> (l <= L)%nat -> am = nth 0 (cat2alm 0 (Z.of_nat L) [w] th ph) [] ->
  spectrum L am am l - sum (length w) (fun p => nth p w 0 * nth p w 0) / (fofZ 4 * pi) =
  ppower pi (length w) (cweight w) (fun p q => cosang (nth p th 0) (nth p ph 0) (nth q th 0) (nth q ph 0)) l.
Proof.
  intros Sy Ad Hpi Lt Lp Hl ->. pose proof (four_pi pi Hpi) as D. fold d in D. assert (Sw : L_Utils.shaped 1 (length w) [w]) by (split; [reflexivity|repeat constructor]).
  assert (R : forall i, nth i (nth 0 (cat2alm 0 (Z.of_nat L) [w] th ph) []) 0 = sum 1 (fun c => sum (length w) (fun p => nth p w 0 * nth i (Ys Y 0 (Z.of_nat L) 0 c (nth p th 0) (nth p ph 0)) 0))).
  { intro i. rewrite (synth_rows cat2alm Y _ _ _ _ _ _ _ 0 i Sy Sw Lt Lp) by lia. apply sum_ext. intros c Hc. assert (c = 0%nat) as -> by lia. reflexivity. }
  rewrite (spectrum_lin2_l L 1 (length w) (fun _ p => nth p w 0) (fun c p => Ys Y 0 (Z.of_nat L) 0 c (nth p th 0) (nth p ph 0)) _ _ l R).
  rewrite (sum_ext 1 _ (fun _ => sum (length w) (fun p => nth p w 0 * sum (length w) (fun q => nth q w 0 * (leg (cosang (nth p th 0) (nth p ph 0) (nth q th 0) (nth q ph 0)) l / d))))).
  2:{ intros c Hc. assert (c = 0%nat) as -> by lia. apply sum_ext. intros p Hp. f_equal. rewrite (spectrum_lin2_r L 1 (length w) (fun _ p => nth p w 0) (fun c p => Ys Y 0 (Z.of_nat L) 0 c (nth p th 0) (nth p ph 0)) _ _ l R). cbn [sum].
      match goal with |- 0 + ?a = _ => transitivity a; [ring|] end. apply sum_ext. intros q Hq. f_equal. apply (proj2 Ad). exact Hl. }
  cbn [sum]. unfold ppower, pairs. fold d. replace (fofZ 4 * pi) with d by (unfold d; cbn; ring). rewrite !(Fdiv_def (fth F)), <- !sum_mul_r.
  match goal with |- 0 + ?a - ?b = ?c => transitivity (a - b); [ring|] end. rewrite <- sum_sub. apply sum_ext. intros p Hp. rewrite <- sum_mul_l, <- sum_mul_r.
  assert (SS : nth p w 0 * nth p w 0 * finv d = sum (length w) (fun q => if Nat.eqb p q then nth p w 0 * nth p w 0 * finv d else 0)).
  { rewrite (sum_single (length w) p); [rewrite Nat.eqb_refl; reflexivity | exact Hp | intros q _ Hq; destruct (Nat.eqb_spec p q); [congruence|reflexivity]]. }
  rewrite SS, <- sum_sub. apply sum_ext. intros q Hq. unfold cweight. rewrite ?(Fdiv_def (fth F)). destruct (Nat.eqb_spec p q) as [->|]; [|ring]. rewrite (proj1 Ad), leg_at_1. ring.
Qed.
(** The auto-spectrum of a catalogue of a scalar quantity: whatever the noise in the values of the sources, as long as it is independent from source to source
    (nothing is assumed about the squares), the mean is what couple_cell makes of the spectrum of the sky, if the workspace is given the spectrum of the weights
    without Nw (workspaces.py:256-262 and 328) *)
Theorem C94_catalog junk i ws hd pos w (v : Om -> mat) lmax lmm lmaxm spin beam wd ll (f : Om -> gfield F) f0 am pcl (cell : Om -> mat) th ph k c :
  libm_laws fsqrt fexp flog -> pi <> 0 -> average E -> synthesis cat2alm Y -> addition0 lmax -> addition0 lmm ->
  positions_of pi pos w ll = Ok (th, ph) ->
  (forall o, catalog_new pi cat2alm hd pos w (Some (v o)) (Z.of_nat lmax) lmaxm spin beam wd ll = Ok (f o) /\ g_spin (f o) = 0%Z /\ compute_coupled_cell true (f o) (f o) = Ok (cell o)) ->
  (exists v0, catalog_new pi cat2alm hd pos w (Some v0) (Z.of_nat lmax) lmaxm spin beam wd ll = Ok f0) -> g_alm_mask f0 = Some am -> alm2cl (g_lmaxm f0) am am = Ok pcl -> g_lmaxm f0 = Z.of_nat lmm ->
  scalar i -> mcompute junk i = Ok ws -> n_lmax i = Z.of_nat lmax -> n_lmm i = g_lmaxm f0 -> n_b1 i = g_beam f0 -> n_b2 i = g_beam f0 -> n_pcl i = map (fun y => y - g_Nw f0) pcl ->
  length c = k -> (nell i <= k)%nat -> let x p q := cosang (nth p th 0) (nth p ph 0) (nth q th 0) (nth q ph 0) in
  (forall p q, (p < length w)%nat -> (q < length w)%nat -> p <> q ->
    E (fun o => value wd w (v o) 0 p * value wd w (v o) 0 q) = nth p w 0 * nth q w 0 * corr (nell i) (fun l => nth l (g_beam f0) 0 * nth l (g_beam f0) 0 * nth l c 0) (x p q)) ->
  exists o, couple_cell (obj ws) (A2 k [c]) = Ok (A2 (nell i) [o]) /\ length o = nell i /\
  forall l, (l < nell i)%nat -> mask_limit i c (ppower pi (length w) (cweight w) x) l -> E (fun om => mg (cell om) 0 l) = nth l o 0.
Proof.
  intros LL Hpi AV Sy Ad Adm Ep Hf [v0 Hf0] Ea Ecl Elm SI Ew N1 N2 B1 B2 N3 Lc Hk x Iso. pose proof AV as (X & _ & Sc). pose proof (four_pi pi Hpi) as D. fold d in D.
  destruct (coupled fsqrt fexp flog pi w3j junk i ws k c LL SI Ew Lc Hk) as (o & Eo & Lo & Fo). exists o. split; [exact Eo|]. split; [exact Lo|]. intros l Hl Room. rewrite (Fo l Hl). clear Fo.
  pose proof (catalog_inv pi cat2alm hd pos w v0 (Z.of_nat lmax) lmaxm spin beam wd ll f0 Hf0) as (th' & ph' & y & Ep' & Lt & Lp & _ & _ & _ & _ & _ & Q1 & Q2 & _ & Q3 & _). rewrite Ep in Ep'. injection Ep' as <- <-.
  assert (MS : forall L, (L < nmask i)%nat -> mask_cl i L = ppower pi (length w) (cweight w) x L).
  { intros L HL. unfold nmask in HL. rewrite N2, Elm in HL. rewrite Elm in Ecl. destruct (alm2cl_spectrum _ _ _ _ Ecl) as [LP SP]. unfold mask_cl. rewrite N3. rewrite (nth_indep _ 0 (0 - g_Nw f0)) by (rewrite map_length; lia). rewrite (map_nth (fun y => y - g_Nw f0)). rewrite SP by lia. rewrite Q3.
    apply (mask_pairs w th ph lmm L am Sy Adm Hpi Lt Lp); [lia|]. rewrite <- Q1, Elm in Q2. rewrite Ea in Q2. injection Q2 as ->. reflexivity. }
  transitivity (pairs (length w) (cweight w) (fun p q => corr (nell i) (beamed i c) (x p q) * leg (x p q) l) / d).
  2:{ unfold d. rewrite (core fsqrt fexp flog pi (length w) (cweight w) x (nell i) (nmask i) (beamed i c) l Hpi).
      - apply sum_ext. intros l' _. f_equal. f_equal. apply sum_ext. intros L HL. rewrite (pmask_eq pi i L Hpi). rewrite MS by exact HL. reflexivity.
      - intros l' L Hl' HL1 HL2. destruct (Room l' L Hl' HL1 HL2) as [Z0|Z0]; [left; unfold beamed; rewrite Z0; ring | right; exact Z0]. }
  assert (Ll : (l <= lmax)%nat) by (unfold nell in Hl; lia).
  rewrite (X _ (fun om => sum (length w) (fun p => sum (length w) (fun q => (if Nat.eqb p q then 0 else leg (x p q) l / d) * (value wd w (v om) 0 p * value wd w (v om) 0 q))))).
  2:{ intro om. destruct (Hf om) as (F1 & F2 & F3). assert (Ad' : addition pi Y (g_spin (f om)) (ncomp (g_spin (f om))) lmax l) by (rewrite F2; apply add0; assumption).
      pose proof (C42_pairs pi cat2alm Y hd pos w (v om) lmax lmaxm spin beam wd ll (f om) (cell om) th ph l 0 0 Sy F1 Ep F3 Ll Ad') as CP. rewrite F2 in CP. cbn [ncomp Z.eqb] in CP. specialize (CP ltac:(lia) ltac:(lia)). cbn [Nat.mul Nat.add] in CP. rewrite CP.
      apply sum_ext. intros p Hp. apply sum_ext. intros q Hq. destruct (Nat.eqb p q); [ring|]. cbn [sum]. rewrite (proj2 Ad) by exact Ll. unfold x. ring. }
  rewrite (E_sum E (length w) (fun p om => sum (length w) (fun q => (if Nat.eqb p q then 0 else leg (x p q) l / d) * (value wd w (v om) 0 p * value wd w (v om) 0 q))) AV). unfold pairs. rewrite (Fdiv_def (fth F)), <- sum_mul_r. apply sum_ext. intros p Hp.
  rewrite (E_sum E (length w) (fun q om => (if Nat.eqb p q then 0 else leg (x p q) l / d) * (value wd w (v om) 0 p * value wd w (v om) 0 q)) AV), <- sum_mul_r. apply sum_ext. intros q Hq. rewrite Sc. unfold cweight.
  destruct (Nat.eqb_spec p q) as [->|Npq]; [ring|]. rewrite (Iso p q Hp Hq Npq). assert (BE : (fun l0 => nth l0 (g_beam f0) 0 * nth l0 (g_beam f0) 0 * nth l0 c 0) = beamed i c) by (unfold beamed; rewrite B1, B2; reflexivity). rewrite BE. field. exact D.
Qed.
(** *** compute_coupling_matrix gives such workspaces *)
Variable mask_cl' : Z -> Z -> M_Session.field F -> M_Session.field F -> list F.
Variable mask_dot : M_Session.field F -> M_Session.field F -> res F.
(** what compute_coupling_matrix sees of a field on a map, and of a catalogue *)
Definition sees (id : Z) (g : nfield F) : M_Session.field F :=
  M_Session.Field id (M_Field.f_lmax g) (M_Field.f_lmaxm g) (M_Field.f_spin g) (M_Field.f_pe g) (M_Field.f_pb g) (M_Field.f_beam g) (match f_mask_a g with Some _ => true | None => false end) false 0.
Definition sees_catalog (id : Z) (f : gfield F) : M_Session.field F := M_Session.Field id (g_lmax f) (g_lmaxm f) (g_spin f) false false (g_beam f) false true (g_Nw f).
Notation call := (M_Session.compute_coupling_matrix fsqrt fexp flog pi).
Lemma session_scalar junk p0 p1 (s1 s2 : M_Session.field F) b lt lex dl norm : call junk w3j mask_cl' mask_dot p0 s1 s2 b false lt lex dl norm = (p1, Ok tt) ->
  M_Session.f_an s1 = false -> M_Session.f_an s2 = false -> M_Session.f_spin s1 = 0%Z -> M_Session.f_spin s2 = 0%Z -> valid_bins b -> (lt <= 0)%Z -> (b_lmax b < 46340)%Z -> (M_Session.f_lmax s1 <= M_Session.f_lmaxm s1)%Z ->
  (M_Session.f_pe s1 || M_Session.f_pb s1 = false) -> (M_Session.f_pe s2 || M_Session.f_pb s2 = false) ->
  exists i ws, p1 = obj ws /\ scalar i /\ mcompute junk i = Ok ws /\ n_bin i = b /\ n_lmax i = M_Session.f_lmax s1 /\ n_lmm i = M_Session.f_lmaxm s1 /\ n_b1 i = M_Session.f_beam s1 /\ n_b2 i = M_Session.f_beam s2 /\
    n_pcl i = map (fun x => x - (if M_Session.same_object s1 s2 then M_Session.f_Nw s1 else 0)) (mask_cl' 0%Z 0%Z s1 s2) /\ M_Session.f_lmax s1 = M_Session.f_lmax s2 /\ M_Session.f_lmaxm s1 = M_Session.f_lmaxm s2.
Proof.
  intros H A1 A2 S1 S2 V Hlt Hb Hlm P1 P2. unfold M_Session.compute_coupling_matrix in H. destruct (negb (M_Session.is_compatible s1 s2)) eqn:Ec; [discriminate H|]. destruct (negb (_ =? _)%Z) eqn:El in H; [discriminate H|].
  apply negb_false_iff in Ec, El. apply andb_true_iff in Ec as [Ec1 Ec2]. apply Z.eqb_eq in El, Ec1, Ec2.
  destruct (M_Session.compute_lib _ _ _ _ _ _ _ _ _ _ _ _ _ _ _ _) as [ws| |] eqn:Ew; [|discriminate H|discriminate H]. injection H as <-.
  unfold M_Session.compute_lib in Ew. rewrite A1, A2 in Ew. cbn [orb andb] in Ew. cbv zeta in Ew. apply bind_ok in Ew as ([] & Et & Ew). apply bind_ok in Ew as (nt & _ & Ew). apply bind_ok in Ew as (wawb & _ & Ew).
  rewrite S1, S2, El in Ew. apply orb_false_iff in P1 as [P1a P1b]. apply orb_false_iff in P2 as [P2a P2b]. rewrite P1a, P1b, P2a, P2b in Ew, Et.
  set (pcl := map _ (mask_cl' 0%Z 0%Z s1 s2)) in Ew. pose (i := MInp (F:=F) 0 0 false false false false (M_Session.f_lmaxm s1) pcl b (M_Session.f_beam s1) (M_Session.f_beam s2) nt wawb false lt lex dl).
  assert (Em : mcompute junk i = Ok ws) by (unfold P_MCM.mcompute, n_lmax; cbn [i n_lt n_lex n_dl n_bin n_pe1 n_pb1 n_pe2 n_pb2 n_spin1 n_spin2 n_lmm n_norm n_w2 n_b1 n_b2 n_pcl n_teb]; rewrite Et; cbn [bind]; exact Ew).
  unfold comp_coupling_matrix in Ew. apply bind_ok in Ew as (u1 & G1 & Ew). apply bind_ok in Ew as (u2 & G2 & Ew). apply bind_ok in Ew as (u3 & G3 & _).
  assert (Hg : forall bb e u, guard bb e = Ok u -> bb = true) by (intros [] e u; [reflexivity|discriminate 1]). apply Hg in G1, G2, G3. apply Z.eqb_eq in G1, G2, G3.
  exists i, ws. split; [reflexivity|]. split.
  { constructor; try reflexivity; try exact Hlt; try exact Hb. constructor; try assumption; try discriminate; try (cbn; lia). unfold n_lmax. cbn [i n_bin n_lmm]. lia. }
  repeat (split; [first [exact Em | reflexivity | symmetry; exact El]|]). split; assumption.
Qed.
(** the workspace of two plain scalar fields on maps, with the cross spectrum of their masks *)
Theorem C94_workspace junk K p a1 a2 g1 g2 p0 p1 id1 id2 b lt lex dl norm eigh np_inv am1 am2 : plain a1 -> plain a2 -> field_new (fofZ 4 * pi) fsqrt eigh np_inv K p a1 = Ok g1 -> field_new (fofZ 4 * pi) fsqrt eigh np_inv K p a2 = Ok g2 ->
  M_Field.f_spin g1 = 0%Z -> M_Field.f_spin g2 = 0%Z -> f_info g1 = f_info g2 ->
  snd (get_mask_alms K g1) = Ok am1 -> snd (get_mask_alms K g2) = Ok am2 -> alm2cl (M_Field.f_lmaxm g1) am1 am2 = Ok (mask_cl' 0%Z 0%Z (sees id1 g1) (sees id2 g2)) ->
  valid_bins b -> (lt <= 0)%Z -> (b_lmax b < 46340)%Z -> (M_Field.f_lmax g1 <= M_Field.f_lmaxm g1)%Z ->
  call junk w3j mask_cl' mask_dot p0 (sees id1 g1) (sees id2 g2) b false lt lex dl norm = (p1, Ok tt) ->
  exists i ws, p1 = obj ws /\ wsp_inputs K g1 g2 i /\ scalar i /\ mcompute junk i = Ok ws /\ n_bin i = b.
Proof.
  intros P1 P2 G1 G2 S1 S2 EI A1 A2 EC V Hlt Hb Hlm H. destruct (plain_flags fsqrt pi eigh np_inv K p a1 g1 P1 G1) as (X1 & X2 & X3). destruct (plain_flags fsqrt pi eigh np_inv K p a2 g2 P2 G2) as (Y1 & Y2 & Y3).
  destruct (session_scalar junk p0 p1 _ _ b lt lex dl norm H) as (i & ws & Ep & SI & Em & Eb & El & Elm & B1 & B2 & Epc & L1 & L2); cbn [sees M_Session.f_an M_Session.f_spin M_Session.f_pe M_Session.f_pb M_Session.f_lmax M_Session.f_lmaxm]; rewrite ?X1, ?X2, ?X3, ?Y1, ?Y2, ?Y3; try reflexivity; try assumption.
  exists i, ws. split; [exact Ep|]. split; [|split; [exact SI|split; assumption]]. cbn [sees M_Session.f_lmax M_Session.f_lmaxm M_Session.f_beam] in *. split; [exact EI|]. repeat (split; [assumption|]). exists am1, am2. repeat (split; [assumption|]). rewrite EC, Epc. f_equal.
  cbn [sees M_Session.f_Nw]. symmetry. rewrite <- (map_id (mask_cl' 0%Z 0%Z _ _)) at 2. apply map_ext. intro y. destruct (M_Session.same_object _ _); ring.
Qed.
(** the workspace of a catalogue with itself: Nw is subtracted *)
Theorem C94_workspace_catalog junk (f0 : gfield F) p0 p1 id b lt lex dl norm : g_spin f0 = 0%Z -> valid_bins b -> (lt <= 0)%Z -> (b_lmax b < 46340)%Z -> (g_lmax f0 <= g_lmaxm f0)%Z ->
  call junk w3j mask_cl' mask_dot p0 (sees_catalog id f0) (sees_catalog id f0) b false lt lex dl norm = (p1, Ok tt) ->
  exists i ws, p1 = obj ws /\ scalar i /\ mcompute junk i = Ok ws /\ n_bin i = b /\ n_lmax i = g_lmax f0 /\ n_lmm i = g_lmaxm f0 /\ n_b1 i = g_beam f0 /\ n_b2 i = g_beam f0 /\
    n_pcl i = map (fun y => y - g_Nw f0) (mask_cl' 0%Z 0%Z (sees_catalog id f0) (sees_catalog id f0)).
Proof.
  intros S V Hlt Hb Hlm H. destruct (session_scalar junk p0 p1 _ _ b lt lex dl norm H) as (i & ws & Ep & SI & Em & Eb & El & Elm & B1 & B2 & Epc & _ & _); try reflexivity; try assumption.
  exists i, ws. unfold M_Session.same_object in Epc. rewrite Z.eqb_refl in Epc. repeat (split; [assumption|]). exact Epc.
Qed.
End Mean3.
Print Assumptions C94_catalog.
Print Assumptions C94_workspace.
Print Assumptions C94_workspace_catalog.
