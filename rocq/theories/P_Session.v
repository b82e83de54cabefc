(** Properties C29-C34: life of a workspace object, workspace files. *)
From Coq Require Import Permutation Sorted.
From Verif Require Import Base M_Bins M_LinAlg M_Workspace M_MCM M_FITS M_Session L_Bins L_Bins2 L_Bins3 P_Bins L_LinAlg L_Workspace P_Workspace L_MCM L_MCM2 L_MCM3 P_MCM L_MCM4 P_Aniso L_FITS L_FITS2 L_Session.
Open Scope Z_scope.

Section Statements.
Context {F : ofield}.
Local Open Scope F_scope.
Notation mat := (list (list F)).
Notation bins := (bins F).
Notation wsp := (wsp F).
Notation pyw := (pyw F).
Notation inputs := (@inputs F).
Notation field := (field F).
Notation files := (files F).
Notation call := (call F).
Notation ret := (ret F).
Notation junk := (junk F).
Variables (fsqrt fexp flog : F -> F) (pi : F) (cjunk : Z -> F).
Variable w3j : Z -> Z -> Z -> Z -> Z -> F.
Variable mask_cl : Z -> Z -> field -> field -> list F.
Variable mask_dot : field -> field -> res F.
Notation step := (call_step fsqrt fexp flog pi cjunk w3j mask_cl mask_dot).
Notation run := (calls fsqrt fexp flog pi cjunk w3j mask_cl mask_dot).
Notation computem := (compute_coupling_matrix fsqrt fexp flog pi cjunk w3j mask_cl mask_dot).

Definition loads (c : call) : bool := match c with Compute _ _ _ _ _ _ _ _ | Read _ _ => true | _ => false end.
Definition updates (c : call) : bool := match c with UpdateBeams _ _ | UpdateBins _ | UpdateMatrix _ => true | _ => false end.

(** ** C29 *)
Theorem C29_uninitialised_raises J u fs c : loads c = false -> exists e, step J (PyW None u, fs) c = ((PyW None u, fs), Exn e).
Proof.
  destruct c as [| |n|b1 b2|b|a| |a|a x y|]; cbn [loads]; intro H; try discriminate H; cbn [call_step].
  - eexists. reflexivity.
  - destruct b1, b2; eexists; reflexivity.
  - eexists. reflexivity.
  - eexists. reflexivity.
  - eexists. reflexivity.
  - eexists. reflexivity.
  - eexists. reflexivity.
  - unfold get_bandpower_windows, check_unbinned. destruct u; cbn; eexists; reflexivity.
Qed.
(** a call that fails leaves the object as it was or uninitialised *)
Theorem C29_failed_load J p fs c p' fs' r : loads c = true -> step J (p, fs) c = ((p', fs'), r) -> (forall x, r <> Ok x) ->
  fs' = fs /\ (p' = p \/ p_wsp p' = None).
Proof.
  destruct c as [f1 f2 b teb lt lex dl norm|n u| | | | | | | |]; cbn [loads]; intros H E N; try discriminate H; cbn [call_step] in E.
  - unfold compute_coupling_matrix in E. destruct (negb (is_compatible f1 f2)); [injection E as <- <- <-; auto|].
    destruct (negb _); [injection E as <- <- <-; auto|]. destruct (compute_lib _ _ _ _ _ _ _ _ _ _ _ _ _ _ _ _) as [w|e|]; injection E as <- <- <-; [exfalso; eapply N; reflexivity | auto | auto].
  - unfold read_from in E. destruct (match fs n with None => _ | Some _ => _ end) as [w|e|]; injection E as <- <- <-; [exfalso; eapply N; reflexivity | auto | auto].
Qed.
(** argument errors found before the old matrix is released leave the object unchanged; all others leave it uninitialised *)
Theorem C29_which_failures p f1 f2 b teb lt lex dl norm :
  (is_compatible f1 f2 = false \/ f_lmax f1 <> b_lmax b -> computem p f1 f2 b teb lt lex dl norm = (p, Exn ValueError)) /\
  (is_compatible f1 f2 = true -> f_lmax f1 = b_lmax b ->
   exists r, snd (computem p f1 f2 b teb lt lex dl norm) = r /\ (r = Ok tt -> p_unb (fst (computem p f1 f2 b teb lt lex dl norm)) = true) /\
     (r <> Ok tt -> p_wsp (fst (computem p f1 f2 b teb lt lex dl norm)) = None)).
Proof.
  unfold compute_coupling_matrix. split.
  - intros [H|H]; [rewrite H; reflexivity|]. destruct (is_compatible f1 f2); [|reflexivity]. cbn [negb]. apply Z.eqb_neq in H. rewrite H. reflexivity.
  - intros H1 H2. rewrite H1, H2, Z.eqb_refl. cbn [negb].
    destruct (compute_lib _ _ _ _ _ _ _ _ _ _ _ _ _ _ _ _) as [w|e|]; cbn; eexists; (split; [reflexivity|]); split; intro H; try reflexivity; try discriminate H; try contradiction.
Qed.
(** as long as nothing has been computed or read successfully, every other method raises and leaves no trace *)
Theorem C29_until_loaded J cs : forall u fs s rs, run J (PyW None u, fs) cs = (s, rs) ->
  (forall k c r, nth_error cs k = Some c -> nth_error rs k = Some r -> loads c = true -> forall x, r <> Ok x) ->
  s = (PyW None u, fs) /\ (forall k c r, nth_error cs k = Some c -> nth_error rs k = Some r -> loads c = false -> exists e, r = Exn e).
Proof.
  induction cs as [|c cs IH]; intros u fs s rs E H.
  - injection E as <- <-. split; [reflexivity|]. intros [|k] ? ? Hk; discriminate Hk.
  - cbn [calls] in E. destruct (step J (PyW None u, fs) c) as [s1 r] eqn:E1. destruct (run J s1 cs) as [s2 rs'] eqn:E2. injection E as <- <-.
    assert (S : s1 = (PyW None u, fs) /\ (loads c = false -> exists e, r = Exn e)).
    { destruct (loads c) eqn:L.
      - split; [|discriminate]. destruct s1 as [p1 fs1]. destruct (C29_failed_load J (PyW None u) fs c p1 fs1 r L E1) as [-> Hp].
        { apply (H 0%nat c r); [reflexivity | reflexivity | exact L]. }
        f_equal. destruct c as [f1 f2 b teb lt lex dl norm|n u'| | | | | | | |]; try discriminate L; cbn [call_step] in E1.
        + unfold compute_coupling_matrix in E1. destruct (negb (is_compatible f1 f2)); [injection E1 as <- _; reflexivity|].
          destruct (negb _); [injection E1 as <- _; reflexivity|]. destruct (compute_lib _ _ _ _ _ _ _ _ _ _ _ _ _ _ _ _) as [w|e|]; injection E1 as <- <-; try reflexivity.
          destruct Hp as [Hp|Hp]; discriminate Hp.
        + unfold read_from in E1. destruct (match fs n with None => _ | Some _ => _ end) as [w|e|]; injection E1 as <- <-; try reflexivity. destruct Hp as [Hp|Hp]; discriminate Hp.
      - destruct (C29_uninitialised_raises J u fs c L) as [e E']. rewrite E' in E1. injection E1 as <- <-. split; [reflexivity|]. intros _. eauto. }
    destruct S as [-> S]. destruct (IH u fs s2 rs' E2) as [-> I].
    { intros k c' r' Hc Hr. apply (H (Datatypes.S k) c' r'); assumption. }
    split; [reflexivity|]. intros [|k] c' r' Hc Hr; [injection Hc as <-; injection Hr as <-; exact S | apply (I k); assumption].
Qed.
(** in every reachable state the flag has_unbinned tells whether the C structure holds the unbinned matrix *)
Definition consistent (p : pyw) : Prop := forall w, p_wsp p = Some w -> p_unb p = true -> w_mcm w <> None.
Lemma build_mcm n bin teb lf lm norm w2 pcl b1 b2 m (w : wsp) : workspace_build n bin teb lf lm norm w2 pcl b1 b2 m = Ok w -> w_mcm w <> None.
Proof.
  unfold workspace_build. intro H. do 2 (apply bind_ok in H; destruct H as [? [_ H]]). destruct (_ <? _)%Z; [discriminate H|].
  apply bind_ok in H. destruct H as [bm [_ H]]. unfold bin_coupling_matrix in H. cbv zeta in H. apply bind_ok in H. destruct H as [? [_ H]]. injection H as <-. discriminate.
Qed.
Lemma run_bin_mcm (w : wsp) : w_mcm w <> None -> w_mcm (fst (run_bin w)) <> None.
Proof.
  intro H. unfold run_bin, bin_coupling_matrix. cbv zeta. destruct (tabM _ _); cbn; exact H.
Qed.
Lemma update_consistent (p : pyw) (o : op) : consistent p -> consistent (fst (apply_op p o)).
Proof.
  intros C. destruct p as [[w|] u].
  2:{ destruct o as [[b1|] [b2|]|b|a]; cbn; exact C. }
  assert (K : forall w', (w_mcm w <> None -> w_mcm w' <> None) -> consistent (PyW (Some w') u)).
  { intros w' Hw x Hx Hu. cbn in Hx, Hu. injection Hx as <-. apply Hw. apply (C w eq_refl Hu). }
  destruct o as [b1 b2|b|a]; cbn [apply_op].
  - unfold update_beams. destruct b1, b2; try exact C. cbn [on_wsp p_wsp p_unb]. destruct (_ || _)%bool eqn:E; [apply K; auto|].
    unfold c_update_beams. rewrite E. destruct (beam_product _ _ _); try (apply K; auto).
    destruct (run_bin _) as [w1 r] eqn:E1. cbn [fst]. apply K. intro Hm. change w1 with (fst (w1, r)). rewrite <- E1. apply run_bin_mcm. exact Hm.
  - unfold update_bins. cbn [on_wsp p_wsp p_unb]. unfold c_update_bins. destruct (negb _); [apply K; auto|].
    destruct (run_bin _) as [w1 r] eqn:E1. cbn [fst]. apply K. intro Hm. change w1 with (fst (w1, r)). rewrite <- E1. apply run_bin_mcm. exact Hm.
  - unfold update_coupling_matrix. cbn [on_wsp p_wsp p_unb check_unbinned]. unfold check_unbinned. cbn [p_unb]. destruct (guard u ValueError); [|apply K; auto|apply K; auto].
    destruct (negb _); [apply K; auto|]. destruct (i32 _); [|apply K; auto|apply K; auto]. destruct (negb _); [apply K; auto|].
    unfold c_update_coupling_matrix. destruct (negb _); [apply K; auto|]. destruct (w_mcm w) eqn:Em; [|apply K; rewrite Em; auto]. destruct (tabM _ _); [|apply K; rewrite Em; auto|apply K; rewrite Em; auto].
    destruct (run_bin _) as [w1 r] eqn:E1. cbn [fst]. apply K. intro Hm. change w1 with (fst (w1, r)). rewrite <- E1. apply run_bin_mcm. discriminate.
Qed.
Theorem C29_flag_is_right J cs : forall p fs, consistent p -> consistent (fst (fst (run J (p, fs) cs))).
Proof.
  induction cs as [|c cs IH]; intros p fs C; [exact C|]. cbn [calls]. destruct (step J (p, fs) c) as [[p1 fs1] r] eqn:E.
  specialize (IH p1 fs1). destruct (run J (p1, fs1) cs) as [s2 rs]. cbn [fst] in *. apply IH.
  assert (None_ok : forall u, consistent (PyW None u)) by (intros u w Hw; discriminate Hw).
  destruct c as [f1 f2 b teb lt lex dl norm|n u|n|b1 b2|b|a| |a|a x y|]; cbn [call_step] in E; try (injection E as <- _ _; exact C).
  - unfold compute_coupling_matrix in E. destruct (negb (is_compatible f1 f2)); [injection E as <- _ _; exact C|].
    destruct (negb _); [injection E as <- _ _; exact C|]. destruct (compute_lib _ _ _ _ _ _ _ _ _ _ _ _ _ _ _ _) as [w|e|] eqn:Ew; injection E as <- _ _; try apply None_ok.
    intros w' Hw _. cbn in Hw. injection Hw as <-. unfold compute_lib in Ew. cbv zeta in Ew. destruct (_ && _)%bool; [discriminate Ew|].
    do 3 (apply bind_ok in Ew; destruct Ew as [? [_ Ew]]). destruct (f_an f1 || f_an f2).
    + unfold comp_coupling_matrix_anisotropic in Ew. do 3 (apply bind_ok in Ew; destruct Ew as [? [_ Ew]]). unfold nmt_compute_coupling_matrix_anisotropic in Ew.
      destruct (_ <? _)%Z; [discriminate Ew|]. apply bind_ok in Ew. destruct Ew as [? [_ Ew]]. apply build_mcm in Ew. exact Ew.
    + unfold comp_coupling_matrix in Ew. do 4 (apply bind_ok in Ew; destruct Ew as [? [_ Ew]]). destruct (_ <? _)%Z; [discriminate Ew|].
      do 2 (apply bind_ok in Ew; destruct Ew as [? [_ Ew]]). apply build_mcm in Ew. exact Ew.
  - unfold read_from in E. destruct (fs n) as [f|]; [|injection E as <- _ _; apply None_ok].
    destruct (workspace_read_fits J f u) as [w|e|] eqn:Ew; injection E as <- _ _; try apply None_ok.
    intros w' Hw Hu. cbn in Hw, Hu. injection Hw as <-. subst u. unfold workspace_read_fits in Ew.
    repeat match type of Ew with (let '(_, _) := ?e in _) = _ => destruct e end.
    destruct (negb _); [discriminate Ew|]. repeat match type of Ew with (let '(_, _) := ?e in _) = _ => destruct e end. cbv zeta in Ew.
    apply bind_ok in Ew. destruct Ew as [mc [Em Ew]]. do 2 (apply bind_ok in Ew; destruct Ew as [? [_ Ew]]).
    do 2 (apply bind_ok in Ew; destruct Ew as [[? ?] [_ Ew]]). destruct (negb _); [discriminate Ew|]. apply bind_ok in Ew. destruct Ew as [? [_ Ew]]. injection Ew as <-. cbn.
    apply bind_ok in Em. destruct Em as [? [_ Em]]. injection Em as <-. discriminate.
  - destruct (write_to fs p n) as [fs' r']. injection E as <- _ _. exact C.
  - pose proof (update_consistent p (UBeams b1 b2) C) as U. cbn [apply_op] in U. destruct (update_beams p b1 b2). injection E as <- _ _. exact U.
  - pose proof (update_consistent p (UBins b) C) as U. cbn [apply_op] in U. destruct (update_bins p b). injection E as <- _ _. exact U.
  - pose proof (update_consistent p (UMatrix a) C) as U. cbn [apply_op] in U. destruct (update_coupling_matrix p a). injection E as <- _ _. exact U.
Qed.

(** ** C33 *)
Theorem C33_round_trip (b : bins) : valid_bins b -> no_repeats b ->
  exists h, bins_tohdus b = Ok h /\ forall J f, find_hdu f true "BANDPOWERS" = Some h ->
  exists b', bins_fromhdus J f = Ok (b', true) /\ b_lmax b' = b_lmax b /\ length (b_bands b') = length (b_bands b) /\
    (forall k, Permutation (nth k (b_bands b') []) (nth k (b_bands b) []) /\ ascending (nth k (b_bands b') [])) /\
    ((forall x, In x (b_bands b) -> ascending x) -> b' = b).
Proof.
  intros V N. destruct (valid_bins_facts b V) as [W [E P]]. pose proof (once_of b N) as O.
  exists (bands_hdu b). split; [apply bins_tohdus_eq; exact E|]. intros J f Hf. exists (sorted_bins b).
  split; [apply (bins_fromhdus_eq b W E O); assumption|]. split; [reflexivity|]. split; [apply length_tab|]. split.
  - pose proof (sorted_bins_perm b W E O) as Q. pose proof (sorted_bins_asc b W E O) as A. intro k. split.
    + clear A. revert k. induction Q as [|x y l l' Hxy Q IH]; intros [|k]; cbn; auto.
    + destruct (Nat.lt_ge_cases k (length (b_bands (sorted_bins b)))) as [L|L]; [apply A, nth_In, L|]. rewrite nth_overflow by exact L. constructor.
  - intro A. apply sorted_bins_eq; assumption.
Qed.

(** ** C32 *)
Definition sim_state (g : bool) (p p' : pyw) : Prop :=
  p = p' \/ exists u w w', p = PyW (Some w) u /\ p' = PyW (Some w') u /\ sim true w w' /\ (g = true -> w2_irrelevant w w').
Lemma step_sim g J fs p p' c : sim_state g p p' -> (g = true \/ updates c = false) ->
  let '((p1, fs1), r) := step J (p, fs) c in let '((p1', fs1'), r') := step J (p', fs) c in sim_state g p1 p1' /\ fs1 = fs1' /\ r = r'.
Proof.
  intros [<-|[u [w [w' [-> [-> [S W]]]]]]] G.
  { destruct (step J (p, fs) c) as [[p1 fs1] r]. split; [left; reflexivity | split; reflexivity]. }
  assert (Same : sim_state g (PyW (Some w) u) (PyW (Some w') u)) by (right; exists u, w, w'; auto).
  assert (Lift : forall q q', psim q q' -> sim_state g q q').
  { intros q q' [<-|[u0 [x [x' [-> [-> [H1 H2]]]]]]]; [left; reflexivity | right; exists u0, x, x'; auto]. }
  destruct c as [f1 f2 b teb lt lex dl norm|n v|n|b1 b2|b|a| |a|a x y|]; cbn [call_step].
  - unfold compute_coupling_matrix. destruct (negb (is_compatible f1 f2)); [auto|]. destruct (negb _); [auto|].
    destruct (compute_lib _ _ _ _ _ _ _ _ _ _ _ _ _ _ _ _); cbn; (split; [left; reflexivity | auto]).
  - unfold read_from. destruct (match fs n with None => _ | Some _ => _ end); cbn; (split; [left; reflexivity | auto]).
  - unfold write_to. cbn [need_wsp p_wsp bind]. unfold check_unbinned. cbn [p_unb]. destruct (guard u ValueError); cbn [bind]; [|auto|auto].
    rewrite (sim_write w w' S). destruct (workspace_write_fits w'); auto.
  - destruct G as [G|G]; [|discriminate G]. destruct (update_beams_sim u w w' b1 b2 S (W G)) as [H1 H2].
    destruct (update_beams (PyW (Some w) u) b1 b2), (update_beams (PyW (Some w') u) b1 b2). cbn [fst snd] in *. subst. auto.
  - destruct G as [G|G]; [|discriminate G]. destruct (update_bins_sim u w w' b S (W G)) as [H1 H2].
    destruct (update_bins (PyW (Some w) u) b), (update_bins (PyW (Some w') u) b). cbn [fst snd] in *. subst. auto.
  - destruct G as [G|G]; [|discriminate G]. destruct (update_matrix_sim u w w' a S (W G)) as [H1 H2].
    destruct (update_coupling_matrix (PyW (Some w) u) a), (update_coupling_matrix (PyW (Some w') u) a). cbn [fst snd] in *. subst. auto.
  - rewrite (get_sim u w w' S). auto.
  - rewrite (couple_sim u w w' a S). auto.
  - rewrite (decouple_sim true u u w w' a x y S). auto.
  - rewrite (windows_sim u w w' S). auto.
Qed.
Lemma run_sim g J cs : forall fs p p', sim_state g p p' -> (g = true \/ forallb (fun c => negb (updates c)) cs = true) ->
  snd (run J (p, fs) cs) = snd (run J (p', fs) cs).
Proof.
  induction cs as [|c cs IH]; intros fs p p' S G; [reflexivity|]. cbn [calls].
  assert (G1 : g = true \/ updates c = false) by (destruct G as [G|G]; [auto|]; cbn in G; destruct (updates c); [discriminate G | auto]).
  assert (G2 : g = true \/ forallb (fun c => negb (updates c)) cs = true) by (destruct G as [G|G]; [auto|]; cbn in G; apply andb_true_iff in G; tauto).
  pose proof (step_sim g J fs p p' c S G1) as H. destruct (step J (p, fs) c) as [[p1 fs1] r], (step J (p', fs) c) as [[p1' fs1'] r'].
  destruct H as [H1 [-> ->]]. specialize (IH fs1' p1 p1' H1 G2). destruct (run J (p1, fs1') cs), (run J (p1', fs1') cs). cbn [snd] in *. congruence.
Qed.
(** Writing changes only the named file.  An object that reads it back (whatever it held before) answers every
    sequence of calls like the object that was written; for the FKP normalisation this holds for sequences without updates. *)
Theorem C32_round_trip i w fs J name : storable i -> compute i = Ok w ->
  exists fs', step J (obj w, fs) (Write name) = ((obj w, fs'), Ok RNone) /\ (forall n, n <> name -> fs' n = fs n) /\
  forall J' p0, exists p1, step J' (p0, fs') (Read name true) = ((p1, fs'), Ok RNone) /\
  forall J'' cs, i_norm i = 0%Z \/ forallb (fun c => negb (updates c)) cs = true ->
    snd (run J'' (p1, fs') cs) = snd (run J'' (obj w, fs') cs).
Proof.
  intros St C. pose proof St as [V _]. rewrite compute_ok in C by exact V. injection C as <-.
  exists (fun n => if String.eqb n name then Some (stored i) else fs n). split; [|split].
  - cbn [call_step]. unfold write_to. cbn [obj need_wsp p_wsp bind check_unbinned p_unb guard]. rewrite (write_ok i St). reflexivity.
  - intros n Hn. apply String.eqb_neq in Hn. rewrite Hn. reflexivity.
  - intros J' p0. exists (PyW (Some (reread i true)) true). split.
    + cbn [call_step]. unfold read_from. rewrite String.eqb_refl, (read_ok i J' true St). reflexivity.
    + intros J'' cs G. symmetry. destruct G as [G|G].
      * apply (run_sim true); [|auto]. right. exists true, (mk i), (reread i true). do 2 (split; [reflexivity|]). split; [apply reread_sim, St|]. intros _. left. exact G.
      * apply (run_sim false); [|auto]. right. exists true, (mk i), (reread i true). do 2 (split; [reflexivity|]). split; [apply reread_sim, St|]. discriminate.
Qed.
(** with the FKP normalisation every update that the original accepts uses an uninitialised number after reading *)
Lemma tabM_first {A} n (f : nat -> res A) : (0 < n)%nat -> f 0%nat = UB -> tabM n f = UB.
Proof. intros H E. destruct n as [|n]; [lia|]. unfold tabM. cbn [seq mapM]. rewrite E. reflexivity. Qed.
Lemma bin_ub (w : wsp) : (1 <= w_ncls w)%nat -> (1 <= nbands w)%nat -> bin_elem w 0 0 0 0 = UB -> bin_coupling_matrix w = UB.
Proof.
  intros H1 H2 E. unfold bin_coupling_matrix. cbv zeta. rewrite tabM_first; [reflexivity|nia|]. apply tabM_first; [nia|].
  rewrite Nat.div_0_l, Nat.mod_0_l by lia. exact E.
Qed.
Lemma run_ub (w : wsp) : (1 <= w_ncls w)%nat -> (1 <= nbands w)%nat -> bin_elem w 0 0 0 0 = UB -> run_bin w = (w, UB).
Proof. intros H1 H2 E. unfold run_bin. rewrite (bin_ub w H1 H2 E). reflexivity. Qed.
Lemma nb_pos (b : bins) : valid_bins b -> (1 <= length (b_bands b))%nat /\ exists e x, nth_error (b_bands b) 0 = Some (e :: x).
Proof.
  intro V. destruct (valid_bins_facts b V) as [W _]. pose proof (wf_pos b W) as P. unfold get_n_bands in P. split; [lia|].
  destruct (b_bands b) as [|[|e x] l] eqn:Eb; [cbn in P; lia| |eexists; eexists; reflexivity].
  pose proof (wf_sum b W [] ltac:(rewrite Eb; left; reflexivity)) as Q. unfold wsum, lsum in Q. cbn in Q. exfalso. apply (f1_neq_0 (F:=F)). symmetry. exact Q.
Qed.
Lemma sorted_pos (i : inputs) : storable i -> exists e x, nth_error (b_bands (sorted_bins (i_bin i))) 0 = Some (e :: x).
Proof.
  intros [V [N _]]. pose proof V as [_ [HV _]]. destruct (valid_bins_facts _ HV) as [W [E _]]. destruct (nb_pos _ HV) as [_ [e [x Hx]]].
  pose proof (sorted_bins_perm (i_bin i) W E (once_of _ N)) as Q. destruct (b_bands (i_bin i)) as [|y l]; [discriminate Hx|]. cbn in Hx. injection Hx as ->.
  destruct (b_bands (sorted_bins (i_bin i))) as [|a l1]; inversion Q as [|a0 bb l10 l2 Pm Q' E1 E2]; subst. destruct a as [|e' a]; [apply Permutation_nil in Pm; discriminate Pm|]. exists e', a. reflexivity.
Qed.
Lemma mcm_slices (i : inputs) a : valid i -> fits i -> valid_op (UMatrix a) -> acceptable i (UMatrix a) = true -> i_norm i <> 0%Z ->
  forall w, w_mcm w <> None -> w_lmax w = b_lmax (i_bin i) -> w_ncls w = i_ncls i -> w_norm w = i_norm i -> w_w2 w = None -> (1 <= nbands w)%nat ->
  snd (update_coupling_matrix (PyW (Some w) true) a) = UB.
Proof.
  intros V Ft Vo A Nz w Hm Hl Hn Hno H2 Hb. pose proof V as [H1 _].
  pose proof (nrows_eq i V) as NR. cbn [mk core set_mb w_lmax ncl w_ncls] in NR. unfold ncl in NR. cbn [mk core set_mb w_lmax ncl w_ncls] in NR.
  assert (X : bin_elem w 0 0 0 0 = UB /\ forall m, bin_elem (set_mcm w m) 0 0 0 0 = UB).
  { unfold bin_elem. cbn [set_mcm w_norm w_ncls w_w2]. rewrite Hno. apply Z.eqb_neq in Nz. rewrite Nz, Nat.eqb_refl, H2. auto. }
  unfold update_coupling_matrix. cbn [on_wsp p_wsp p_unb]. unfold check_unbinned. cbn [p_unb guard].
  unfold ncl. rewrite Hl, Hn, NR.
  assert (AA : arr_len a = Z.of_nat (i_nrows i) /\ length (flatten a) = (i_nrows i * i_nrows i)%nat).
  { destruct a as [v|k rows|]; cbn [acceptable] in A; try discriminate A; apply andb_true_iff in A; destruct A as [A1' A2']; apply Nat.eqb_eq in A1', A2'; cbn [arr_len flatten].
    - rewrite A2' in *. split; lia.
    - cbn [valid_op arr_wf] in Vo. rewrite Forall_forall in Vo. rewrite (concat_rows rows k Vo). split; nia. }
  destruct AA as [A1' A2']. rewrite A1', Z.eqb_refl. cbn [negb]. unfold fits in Ft. rewrite i32_ok by (try exact Ft; nia).
  rewrite A2'. replace (Z.of_nat (i_nrows i * i_nrows i) =? Z.of_nat (i_nrows i) * Z.of_nat (i_nrows i))%Z with true by lia. cbn [negb].
  unfold c_update_coupling_matrix. unfold ncl. rewrite Hl, Hn. replace (Z.of_nat (i_ncls i) * (b_lmax (i_bin i) + 1))%Z with (Z.of_nat (i_nrows i)) by lia. rewrite Z.eqb_refl. cbn [negb].
  destruct (w_mcm w) eqn:Em; [|contradiction]. destruct (tabM _ _) as [m0| |]; [|reflexivity|reflexivity].
  rewrite run_ub; [reflexivity | cbn; lia | exact Hb | apply X].
Qed.
Theorem C32_fkp_update_refuted i w fs fs' J p0 p1 name o : storable i -> fits i -> compute i = Ok w -> i_norm i <> 0%Z ->
  step J (obj w, fs) (Write name) = ((obj w, fs'), Ok RNone) -> step J (p0, fs') (Read name true) = ((p1, fs'), Ok RNone) ->
  valid_op o -> acceptable i o = true -> snd (apply_op (obj w) o) = Ok tt /\ snd (apply_op p1 o) = UB.
Proof.
  intros St Ft C Nz Ew Er Vo A. pose proof St as [V _]. rewrite compute_ok in C by exact V. injection C as <-.
  pose proof (apply_op_spec i o V Ft Vo) as Sp. rewrite A in Sp. rewrite Sp. split; [reflexivity|].
  cbn [call_step] in Ew. unfold write_to in Ew. cbn [obj need_wsp p_wsp bind check_unbinned p_unb guard] in Ew. rewrite (write_ok i St) in Ew. injection Ew as <-.
  cbn [call_step] in Er. unfold read_from in Er. rewrite String.eqb_refl, (read_ok i J true St) in Er. injection Er as <-.
  pose proof V as [H1 [HV _]].
  assert (NB : (1 <= nbands (reread i true))%nat) by (unfold nbands; cbn [reread w_bin sorted_bins b_bands]; rewrite length_tab; apply (nb_pos _ HV)).
  assert (X : forall w' : wsp, w_norm w' = i_norm i -> w_w2 w' = None -> bin_elem w' 0 0 0 0 = UB).
  { intros w' Hn Hw. unfold bin_elem. rewrite Hn. apply Z.eqb_neq in Nz. rewrite Nz, Nat.eqb_refl, Hw. reflexivity. }
  destruct o as [[v1|] [v2|]|b'|a]; cbn [acceptable] in A; try discriminate A.
  - cbn [apply_op update_beams on_wsp p_wsp]. change (w_lmax_fields (reread i true)) with (i_lmaxf i).
    replace ((Z.of_nat (length v1) <=? i_lmaxf i) || (Z.of_nat (length v2) <=? i_lmaxf i))%Z with false by lia.
    unfold c_update_beams. change (w_lmax_fields (reread i true)) with (i_lmaxf i).
    replace ((Z.of_nat (length v1) <=? i_lmaxf i) || (Z.of_nat (length v2) <=? i_lmaxf i))%Z with false by lia.
    rewrite beam_product_ok by lia. rewrite run_ub; [reflexivity | exact H1 | exact NB | apply X; reflexivity].
  - cbn [apply_op]. unfold update_bins. cbn [on_wsp p_wsp]. unfold c_update_bins. apply Z.eqb_eq in A.
    replace (b_lmax b' =? b_lmax (w_bin (reread i true)))%Z with true by (symmetry; apply Z.eqb_eq; exact A). cbn [negb].
    rewrite run_ub; [reflexivity | exact H1 | apply (nb_pos _ Vo) | apply X; reflexivity].
  - cbn [apply_op]. apply (mcm_slices i a V Ft Vo A Nz); try reflexivity; [discriminate | exact NB].
Qed.

(** ** C30 *)
Definition read_binned (i : inputs) (p : pyw) : Prop :=
  exists w J J' fs fs' p0 name, compute i = Ok w /\ step J (obj w, fs) (Write name) = ((obj w, fs'), Ok RNone) /\ step J' (p0, fs') (Read name false) = ((p, fs'), Ok RNone).
Lemma read_binned_eq i p : storable i -> read_binned i p -> p = PyW (Some (reread i false)) false.
Proof.
  intros St [w [J [J' [fs [fs' [p0 [name [C [Ew Er]]]]]]]]]. pose proof St as [V _]. rewrite compute_ok in C by exact V. injection C as <-.
  cbn [call_step] in Ew. unfold write_to in Ew. cbn [obj need_wsp p_wsp bind check_unbinned p_unb guard] in Ew. rewrite (write_ok i St) in Ew. injection Ew as <-.
  cbn [call_step] in Er. unfold read_from in Er. rewrite String.eqb_refl, (read_ok i J' false St) in Er. injection Er as <-. reflexivity.
Qed.
Theorem C30_matrix_needed_raises i p J fs : storable i -> read_binned i p ->
  (forall c, In c [GetMatrix; Windows] \/ (exists a, c = UpdateMatrix a) \/ (exists n, c = Write n) -> step J (p, fs) c = ((p, fs), Exn ValueError)) /\
  (forall a, exists e, step J (p, fs) (Couple a) = ((p, fs), Exn e)) /\
  (forall k cl, spectra (i_ncls i) k cl -> (i_nell i <= k)%nat -> step J (p, fs) (Couple (A2 k cl)) = ((p, fs), Exn ValueError)).
Proof.
  intros St R. rewrite (read_binned_eq i p St R). split; [|split].
  - intros c [H|[[a ->]|[n ->]]]; [|reflexivity|reflexivity]. destruct H as [<-|[<-|[]]]; reflexivity.
  - intro a. cbn [call_step]. unfold couple_cell. cbn [need_wsp p_wsp bind].
    destruct (spec_shape_reject (ncl (reread i false)) (w_lmax (reread i false) + 1) a) as [[[k rows] ->]|[e ->]]; eexists; reflexivity.
  - intros k cl Hc Hk. cbn [call_step]. unfold couple_cell. cbn [need_wsp p_wsp bind]. destruct St as [[H1 [HV _]] _]. destruct (valid_bins_facts _ HV) as [_ [_ P]].
    rewrite (proj2 (spec_shape_ok (i_ncls i) _ k cl H1)); [reflexivity|]. split; [apply Hc|]. unfold i_nell in Hk. cbn. lia.
Qed.
Theorem C30_decouple_unchanged i w p J fs a x y : storable i -> compute i = Ok w -> read_binned i p ->
  snd (step J (p, fs) (Decouple a x y)) = snd (step J (obj w, fs) (Decouple a x y)).
Proof.
  intros St C R. pose proof St as [V _]. rewrite compute_ok in C by exact V. injection C as <-. rewrite (read_binned_eq i p St R). cbn [call_step snd].
  unfold obj. rewrite (decouple_sim false true false (mk i) (reread i false) a x y (reread_sim i false St)). reflexivity.
Qed.
(** update_beams and update_bins do not check for the matrix: every acceptable call goes through a null pointer *)
Theorem C30_update_refuted i p J fs : storable i -> read_binned i p ->
  (forall v1 v2, (i_lmaxf i < Z.of_nat (length v1))%Z -> (i_lmaxf i < Z.of_nat (length v2))%Z -> snd (step J (p, fs) (UpdateBeams (Some v1) (Some v2))) = UB) /\
  (forall b, valid_bins b -> b_lmax b = b_lmax (i_bin i) -> snd (step J (p, fs) (UpdateBins b)) = UB).
Proof.
  intros St R. rewrite (read_binned_eq i p St R). pose proof St as [[H1 [HV _]] _].
  assert (X : forall w' : wsp, w_mcm w' = None -> w_w2 w' = None -> (exists e x, nth_error (b_bands (w_bin w')) 0 = Some (e :: x)) -> bin_elem w' 0 0 0 0 = UB).
  { intros w' Hm Hw [e [x Hx]]. unfold bin_elem. destruct (w_norm w' =? 0)%Z; [|rewrite Nat.eqb_refl, Hw; reflexivity].
    assert (E : rd (b_bands (w_bin w')) (Z.of_nat 0) = Ok (e :: x)) by (apply rd_ok; split; [lia | exact Hx]). rewrite !E. cbn [bind]. unfold lsumM. cbn [foldM].
    unfold mcm_rd. rewrite Hm. reflexivity. }
  split.
  - intros v1 v2 L1 L2. cbn [call_step update_beams on_wsp p_wsp]. change (w_lmax_fields (reread i false)) with (i_lmaxf i).
    replace ((Z.of_nat (length v1) <=? i_lmaxf i) || (Z.of_nat (length v2) <=? i_lmaxf i))%Z with false by lia.
    unfold c_update_beams. change (w_lmax_fields (reread i false)) with (i_lmaxf i).
    replace ((Z.of_nat (length v1) <=? i_lmaxf i) || (Z.of_nat (length v2) <=? i_lmaxf i))%Z with false by lia.
    rewrite beam_product_ok by lia. rewrite run_ub; [reflexivity | exact H1 | |apply X; try reflexivity; apply (sorted_pos i St)].
    unfold nbands. cbn [set_beam reread w_bin sorted_bins b_bands]. rewrite length_tab. apply (nb_pos _ HV).
  - intros b Vb Lb. cbn [call_step]. unfold update_bins. cbn [on_wsp p_wsp]. unfold c_update_bins.
    replace (b_lmax b =? b_lmax (w_bin (reread i false)))%Z with true by (symmetry; apply Z.eqb_eq; exact Lb). cbn [negb].
    rewrite run_ub; [reflexivity | exact H1 | apply (nb_pos _ Vb) | apply X; try reflexivity; apply (nb_pos _ Vb)].
Qed.

(** ** C34 *)
(** the status left by the first reader is never reset, so the fall-back cannot succeed *)
Lemma read_key_false k c v : read_key (F:=F) k (c, false) v = (v, (c, false)).
Proof. destruct c; reflexivity. Qed.
Lemma num_rows_false (c : option (hdu F)) v : num_rows (c, false) v = (v, (c, false)).
Proof. destruct c; reflexivity. Qed.
Lemma coli_false k n (c : option (hdu F)) v : read_coli k n (c, false) v = (v, (c, false)).
Proof. destruct c; reflexivity. Qed.
Lemma cold_false k n (c : option (hdu F)) v : read_cold k n (c, false) v = (v, (c, false)).
Proof. destruct c; reflexivity. Qed.
Lemma old_bands_false (J : junk) f nells : forall c nrows ii,
  (exists bs c', old_bands J f ((c, false), nrows) ii nells = Ok (bs, (c', false))) \/ old_bands J f ((c, false), nrows) ii nells = Exn RuntimeError.
Proof.
  induction nells as [|n nells IH]; intros c nrows ii; [left; eexists; eexists; reflexivity|]. cbn [old_bands].
  unfold old_band, movnam. rewrite num_rows_false. destruct (negb _); [right; reflexivity|]. rewrite coli_false, !cold_false. cbn [bind].
  specialize (IH c nrows (S ii)). unfold fpos in *. destruct IH as [[bs [c' ->]]| ->]; [left; cbn [bind]; eexists; eexists; reflexivity | right; reflexivity].
Qed.
Lemma zip_tabs n (a b : nat -> Z) (c d : nat -> F) : exists rows, zip_rows (tab n a) (tab n b) (tab n c) (tab n d) = Ok rows.
Proof.
  destruct (zip_rows_spec (tab n a) (tab n b) (tab n c) (tab n d)) as [[_ [_ [_ [rows [H _]]]]]|[H _]]; [exists rows; exact H|].
  exfalso. apply H. rewrite !length_tab. auto.
Qed.
Theorem C34_legacy_never_read_refuted (J : junk) f unb : find_hdu f true "BANDPOWERS" = None -> workspace_read_fits J f unb = Exn RuntimeError.
Proof.
  intro H. unfold workspace_read_fits.
  destruct (read_key "LMAX" _ _) as [lmax p1]. destruct (read_key "LMAX_FIELDS" p1 0) as [lf p2]. destruct (read_key "LMAX_MASK" p2 0) as [lm p3].
  destruct (read_key "IS_TEB" p3 0) as [teb p4]. destruct (read_key "NCLS" p4 0) as [ncls p5]. destruct (negb (snd p5)); [reflexivity|].
  destruct (read_key "NORM_TYPE" p5 0) as [norm p6]. cbv zeta.
  assert (RE : forall (A : Type) (r : res A) (k : A -> res wsp), (r = Exn RuntimeError \/ exists a, r = Ok a) -> (forall a, k a = Exn RuntimeError) -> (do a <- r; k a) = Exn RuntimeError).
  { intros A r k [->|[a ->]] Hk; [reflexivity | apply Hk]. }
  apply RE.
  { destruct unb; [|right; eexists; reflexivity]. set (n := Z.to_nat (ncls * (lmax + 1))).
    assert (TM : forall l, mapM (fun ii => read_pix (ii * n) n p5) l = Exn RuntimeError \/ exists r, mapM (fun ii => read_pix (ii * n) n p5) l = Ok r).
    { induction l as [|a l IH]; [right; eexists; reflexivity|]. cbn [mapM].
      assert (RP : read_pix (a * n) n p5 = Exn RuntimeError \/ exists r, read_pix (a * n) n p5 = Ok r).
      { unfold read_pix. destruct p5 as [[h|] [|]]; auto. destruct (_ <=? _)%nat; [right; eexists; reflexivity | left; reflexivity]. }
      destruct RP as [->|[r ->]]; [left; reflexivity|]. cbn [bind]. destruct IH as [->|[r' ->]]; [left; reflexivity | right; eexists; reflexivity]. }
    unfold tabM. destruct (TM (seq 0 n)) as [->|[r ->]]; [left; reflexivity | right; eexists; reflexivity]. }
  intro mcm.
  assert (LA : forall lx nm, l_arr_fromhdus f lx nm = Exn RuntimeError \/ exists a, l_arr_fromhdus f lx nm = Ok a).
  { intros lx nm. unfold l_arr_fromhdus. destruct (num_rows _ _) as [nr [c [|]]]; [|left; reflexivity]. destruct (negb _); [left; reflexivity|].
    destruct (read_cold _ _ _ _) as [v [c' [|]]]; [right; eexists; reflexivity | left; reflexivity]. }
  apply RE; [apply LA|]. intro beam. apply RE; [apply LA|]. intro pcl.
  assert (BF : bins_fromhdus J f = Exn RuntimeError \/ exists b, bins_fromhdus J f = Ok (b, false)).
  { unfold bins_fromhdus, movnam. rewrite H. rewrite !read_key_false, num_rows_false. destruct (j_nrows J <? 0)%Z; [left; reflexivity|].
    rewrite !coli_false, !cold_false. destruct (zip_tabs (Z.to_nat (j_nrows J)) (j_ints J) (j_ints J) (j_dbls J) (j_dbls J)) as [rows ->]. cbn [bind].
    destruct (create_fail rows (j_lmax J)) as [[b ->]|[-> _]]; [|left; reflexivity]. cbn [bind]. destruct (negb _); [left; reflexivity | right; eexists; reflexivity]. }
  destruct BF as [->|[b ->]]; [reflexivity|]. cbn [bind].
  unfold bins_fromhdus_old, movnam. rewrite !read_key_false, num_rows_false. destruct (negb _); [reflexivity|]. destruct (_ <? 0)%Z; [reflexivity|].
  rewrite coli_false. pose proof (old_bands_false J f (tab (Z.to_nat (j_nbands J)) (j_ints J)) None (j_nrows J) 0) as OB. unfold fpos in *. destruct OB as [[bs [c' ->]]| ->]; [|reflexivity]. cbn [bind snd negb]. reflexivity.
Qed.

(** ** C31 *)
(** a field as its constructor leaves it, with a beam of exactly lmax+1 elements *)
Record good_field (f : field) : Prop := {
  gf_lmax : (f_lmax f <= f_lmaxm f)%Z; gf_spin : (0 <= f_spin f)%Z; gf_beam : Z.of_nat (length (f_beam f)) = (f_lmax f + 1)%Z;
  gf_pure : f_pe f || f_pb f = true -> f_spin f = 2%Z }.
Definition good_cls : Prop := forall a c f1 f2, (0 <= f_lmaxm f1)%Z -> Z.of_nat (length (mask_cl a c f1 f2)) = (f_lmaxm f1 + 1)%Z.
(** what the documentation requires of the arguments *)
Record acceptable_call (f1 f2 : field) (b : bins) (teb : bool) (lt lex dl : Z) (norm : option bool) : Prop := {
  ac_res : f_lmaxm f1 = f_lmaxm f2 /\ f_lmax f1 = f_lmax f2;
  ac_bins : f_lmax f1 = b_lmax b;
  ac_teb : teb = true -> f_spin f1 = 0%Z /\ f_spin f2 <> 0%Z /\ (f_pe f2 || f_pb f2 = false);
  ac_toep : toeplitz_sanity lt lex dl (b_lmax b) (f_pe f1 || f_pb f1 || f_pe f2 || f_pb f2) = Ok tt;
  ac_an : f_an f1 || f_an f2 = true -> (lt < 0)%Z;
  ac_norm : norm = Some false \/ (norm = Some true /\ exists x, get_wawb mask_dot 1 f1 f2 = Ok x) }.
Theorem C31_succeeds p f1 f2 b teb lt lex dl norm : good_cls -> good_field f1 -> good_field f2 -> valid_bins b -> acceptable_call f1 f2 b teb lt lex dl norm ->
  exists w, computem p f1 f2 b teb lt lex dl norm = (obj w, Ok tt).
Proof.
  intros GC G1 G2 V [[R1 R2] B T TO AN NO]. unfold compute_coupling_matrix, is_compatible. rewrite R1, R2, !Z.eqb_refl. cbn [andb negb].
  rewrite <- R2, B, Z.eqb_refl. cbn [negb]. unfold compute_lib. cbv zeta. rewrite B.
  replace ((f_an f1 || f_an f2) && (0 <=? lt)%Z) with false by (destruct (f_an f1 || f_an f2) eqn:Ea; [specialize (AN eq_refl); cbn; lia | reflexivity]).
  rewrite TO. cbn [bind].
  assert (NO' : exists nt x, norm_type norm = Ok nt /\ get_wawb mask_dot nt f1 f2 = Ok x).
  { destruct NO as [->|[-> [x Hx]]]; [exists 0%Z, 0 | exists 1%Z, x]; split; try reflexivity; exact Hx. }
  destruct NO' as [nt [x [-> Hx]]]. cbn [bind]. rewrite Hx. cbn [bind].
  pose proof (gf_lmax f1 G1) as L1. pose proof (proj2 (proj2 (valid_bins_facts b V))) as L0. pose proof (gf_beam f1 G1) as Bm1. pose proof (gf_beam f2 G2) as Bm2. pose proof (gf_spin f1 G1) as S1. pose proof (gf_spin f2 G2) as S2.
  destruct (f_an f1 || f_an f2) eqn:Ea.
  - set (sp := fun (u : bool) a c => if u then mask_cl a c f1 f2 else map (fun _ => 0) (mask_cl 0 0 f1 f2)).
    set (j := AInp (f_spin f1) (f_spin f2) (f_an f1) (f_an f2) (f_lmaxm f1) (mask_cl 0 0 f1 f2) (sp (f_an f2) 0 1)%Z (sp (f_an f2) 0 2)%Z (sp (f_an f1) 1 0)%Z (sp (f_an f1) 2 0)%Z
      (sp (f_an f1 && f_an f2) 1 1)%Z (sp (f_an f1 && f_an f2) 1 2)%Z (sp (f_an f1 && f_an f2) 2 1)%Z (sp (f_an f1 && f_an f2) 2 2)%Z b (f_beam f1) (f_beam f2) nt x).
    assert (LS : forall u a c, Z.of_nat (length (sp u a c)) = (f_lmaxm f1 + 1)%Z) by (intros [|] a c; unfold sp; [|rewrite map_length]; apply GC; lia).
    assert (A : afields_ok j).
    { constructor.
      - constructor; cbn; try assumption; try discriminate; unfold n_lmax; cbn; try lia. apply GC; lia.
      - intros y Hy. cbn [j j_0e j_0b j_e0 j_b0 j_ee j_eb j_be j_bb j_lmm] in *.
        repeat (destruct Hy as [<-|Hy]; [apply LS|]). destruct Hy. }
    pose proof (C25_wrapper_exchanges_0b_and_e0 pi w3j j A) as E. destruct (by_name_built fsqrt fexp flog pi w3j (crossed j) (crossed_ok fsqrt fexp flog pi j A)) as [M [_ [_ E2]]].
    rewrite E2 in E. unfold called in E. cbn [j j_spin1 j_spin2 j_an1 j_an2 j_lmm j_00 j_0e j_0b j_e0 j_b0 j_ee j_eb j_be j_bb j_bin j_b1 j_b2 j_norm j_w2] in E.
    unfold sp in E. cbv beta in E. rewrite E. eexists. reflexivity.
  - set (i := MInp (f_spin f1) (f_spin f2) (f_pe f1) (f_pb f1) (f_pe f2) (f_pb f2) (f_lmaxm f1)
      (map (fun y => y - (if same_object f1 f2 then f_Nw f1 else 0)) (mask_cl 0 0 f1 f2)) b (f_beam f1) (f_beam f2) nt x teb lt lex dl).
    assert (A : fields_ok i).
    { constructor; cbn; unfold n_lmax; cbn; try assumption; try lia; [rewrite map_length; apply GC; lia | apply (gf_pure f1 G1) | apply (gf_pure f2 G2)]. }
    destruct (mcompute_built fsqrt fexp flog pi w3j cjunk i A TO) as [st [_ E]]. unfold mcompute in E. fold (purified i) in E.
    change (toeplitz_sanity (n_lt i) (n_lex i) (n_dl i) (n_lmax i) (purified i)) with (toeplitz_sanity lt lex dl (b_lmax b) (f_pe f1 || f_pb f1 || f_pe f2 || f_pb f2)) in E.
    rewrite TO in E. cbn [bind] in E. unfold n_lmax in E.
    cbn [i n_spin1 n_spin2 n_pe1 n_pb1 n_pe2 n_pb2 n_lmm n_pcl n_bin n_b1 n_b2 n_norm n_w2 n_teb n_lt n_lex n_dl] in E. rewrite E. eexists. reflexivity.
Qed.
Theorem C31_raises p f1 f2 b teb lt lex dl norm :
  (f_lmaxm f1 <> f_lmaxm f2 \/ f_lmax f1 <> f_lmax f2 \/ f_lmax f1 <> b_lmax b -> computem p f1 f2 b teb lt lex dl norm = (p, Exn ValueError)) /\
  ((forall g1 g2, mask_dot g1 g2 <> UB) -> teb = true -> f_an f1 || f_an f2 = false -> f_spin f1 <> 0%Z \/ f_spin f2 = 0%Z -> exists p' e, computem p f1 f2 b teb lt lex dl norm = (p', Exn e)) /\
  (norm = None -> exists p' e, computem p f1 f2 b teb lt lex dl norm = (p', Exn e)) /\
  ((0 < lt)%Z -> f_pe f1 || f_pb f1 || f_pe f2 || f_pb f2 = true \/ f_an f1 || f_an f2 = true -> exists p' e, computem p f1 f2 b teb lt lex dl norm = (p', Exn e)).
Proof.
  assert (K : forall r : res wsp, (exists e, r = Exn e) -> exists p' e, match r with Ok w => (PyW (Some w) true, Ok tt) | Exn e => (PyW None (p_unb p), Exn e) | UB => (PyW None (p_unb p), UB) end = (p', Exn e)).
  { intros r [e ->]. eauto. }
  assert (TS : forall lm pu, toeplitz_sanity lt lex dl lm pu = Ok tt \/ toeplitz_sanity lt lex dl lm pu = Exn ValueError).
  { intros lm pu. unfold toeplitz_sanity. destruct (_ <? _)%Z; [|auto]. destruct pu; [auto|]. destruct (_ || _)%bool; [auto|]. destruct (_ <? _)%Z; [auto|]. destruct (_ || _)%bool; auto. }
  unfold compute_coupling_matrix, is_compatible. split; [|split; [|split]].
  - intro H. destruct (Z.eqb_spec (f_lmaxm f1) (f_lmaxm f2)); [|reflexivity]. destruct (Z.eqb_spec (f_lmax f1) (f_lmax f2)); [|reflexivity]. cbn [andb negb].
    destruct (Z.eqb_spec (f_lmax f1) (b_lmax b)); [lia | reflexivity].
  - intros MD Ht Ha Hs. destruct (negb _); [eauto|]. destruct (negb _); [eauto|]. unfold compute_lib. cbv zeta. apply K. rewrite Ha. cbn [andb].
    destruct (TS (b_lmax b) (f_pe f1 || f_pb f1 || f_pe f2 || f_pb f2)) as [->| ->]; cbn [bind]; [|eauto].
    destruct norm as [nm|]; cbn [norm_type bind]; [|eauto].
    destruct (get_wawb mask_dot (zbool nm) f1 f2) as [x|e|] eqn:Ew; cbn [bind]; [|eauto|].
    + unfold comp_coupling_matrix, guard. do 3 (match goal with |- context [if ?x then Ok tt else _] => destruct x end; cbn [bind]; [|eauto]).
      rewrite Ht. cbn [negb orb]. replace ((f_spin f1 =? 0)%Z && negb (f_spin f2 =? 0)%Z) with false by (destruct Hs; destruct (Z.eqb_spec (f_spin f1) 0), (Z.eqb_spec (f_spin f2) 0); cbn; lia).
      cbn [bind]. eauto.
    + exfalso. revert Ew. unfold get_wawb. destruct (_ =? _)%Z; [|discriminate]. destruct (f_cat f1 || f_cat f2); [destruct (same_object f1 f2); discriminate | apply MD].
  - intros ->. destruct (negb _); [eauto|]. destruct (negb _); [eauto|]. unfold compute_lib. cbv zeta. apply K. destruct (_ && _)%bool; [eauto|].
    destruct (TS (b_lmax b) (f_pe f1 || f_pb f1 || f_pe f2 || f_pb f2)) as [->| ->]; cbn [bind norm_type]; eauto.
  - intros Hl Hp. destruct (negb _); [eauto|]. destruct (negb _); [eauto|]. unfold compute_lib. cbv zeta. apply K. destruct (_ && _)%bool eqn:Ea; [eauto|].
    destruct Hp as [Hp|Hp]; [|rewrite Hp in Ea; cbn in Ea; lia]. unfold toeplitz_sanity. rewrite Hp. destruct (Z.ltb_spec 0 lt); [|lia]. cbn [bind]. eauto.
Qed.
(** the field constructor accepts beams longer than lmax+1 (field.py:231-236); compute_coupling_matrix does not *)
Theorem C31_long_beam_refuted p f1 f2 b teb lt lex dl norm : good_cls -> good_field f2 -> valid_bins b -> acceptable_call f1 f2 b teb lt lex dl norm ->
  (f_lmax f1 + 1 < Z.of_nat (length (f_beam f1)))%Z -> computem p f1 f2 b teb lt lex dl norm = (PyW None (p_unb p), Exn RuntimeError).
Proof.
  intros GC G2 V [[R1 R2] B T TO AN NO] L. unfold compute_coupling_matrix, is_compatible. rewrite R1, R2, !Z.eqb_refl. cbn [andb negb].
  rewrite <- R2, B, Z.eqb_refl. cbn [negb]. unfold compute_lib. cbv zeta. rewrite B.
  replace ((f_an f1 || f_an f2) && (0 <=? lt)%Z) with false by (destruct (f_an f1 || f_an f2) eqn:Ea; [specialize (AN eq_refl); cbn; lia | reflexivity]).
  rewrite TO. cbn [bind].
  assert (NO' : exists nt x, norm_type norm = Ok nt /\ get_wawb mask_dot nt f1 f2 = Ok x).
  { destruct NO as [->|[-> [x Hx]]]; [exists 0%Z, 0 | exists 1%Z, x]; split; try reflexivity; exact Hx. }
  destruct NO' as [nt [x [-> Hx]]]. cbn [bind]. rewrite Hx. cbn [bind].
  assert (E : (Z.of_nat (length (f_beam f1)) =? b_lmax b + 1)%Z = false) by lia.
  unfold comp_coupling_matrix_anisotropic, comp_coupling_matrix. rewrite E. destruct (f_an f1 || f_an f2); reflexivity.
Qed.
(** with anisotropic masks is_teb is accepted for every pair of spins and has no effect *)
Theorem C31_anisotropic_teb_ignored p f1 f2 b teb teb' lt lex dl norm : f_an f1 || f_an f2 = true ->
  computem p f1 f2 b teb lt lex dl norm = computem p f1 f2 b teb' lt lex dl norm.
Proof. intro H. unfold compute_coupling_matrix, compute_lib. cbv zeta. rewrite H. reflexivity. Qed.
(** l_toeplitz = 0 means "no Toeplitz approximation" but is rejected with anisotropic masks *)
Theorem C31_anisotropic_toeplitz_zero_refuted p f1 f2 b teb lex dl norm : f_an f1 || f_an f2 = true -> is_compatible f1 f2 = true -> f_lmax f1 = b_lmax b ->
  snd (computem p f1 f2 b teb 0 lex dl norm) = Exn NotImplementedError.
Proof. intros H1 H2 H3. unfold compute_coupling_matrix, compute_lib. cbv zeta. rewrite H1, H2, H3, Z.eqb_refl. reflexivity. Qed.
End Statements.

(** ** Concrete cases *)
Section Examples.
Notation Q := Qc_field.
Ltac solve_valid := split; [do 5 eexists; apply from_ok_eq; vm_compute; reflexivity | apply nonneg_check; vm_compute; reflexivity].
Definition exj : junk Q := Junk 1 4 1 (fun _ => 0%Z) (fun _ => qz 1).
Definition idq (x : Q) : Q := x.
Definition exw3j (l1 l2 l3 m1 m2 : Z) : Q := qz (l1 + l2 + l3 + 1).
Definition excl (a c : Z) (f1 f2 : field Q) : list Q := map (fun k => qz (Z.of_nat k + 1 + 3 * a + c)) (seq 0 (Z.to_nat (f_lmaxm f1 + 1))).
Definition exdot (f1 f2 : field Q) : res Q := Ok (q 2 3).
Notation stepq := (call_step idq idq idq (qz 3) (fun _ => qz 0) exw3j excl exdot exj).
Notation runq := (calls idq idq idq (qz 3) (fun _ => qz 0) exw3j excl exdot exj).
Definition exf (id spin : Z) (an : bool) : field Q := Field id 4 9 spin false false (map qz [1; 1; 2; 1; 1]%Z) an false (qz 0).
Definition nofiles : files Q := fun _ => None.
(** outcome of each call: 0 a value, 1 ValueError, 2 RuntimeError, 3 other exception, 4 undefined behaviour *)
Definition code {A} (r : res A) : Z := match r with Ok _ => 0 | Exn ValueError => 1 | Exn RuntimeError => 2 | Exn _ => 3 | UB => 4 end.
Definition show (r : res (ret Q)) := match r with Ok (RArr a) => show2 a | Ok (RMat m) => show2 (A2 0 m) | _ => [] end.

Definition sx (norm : Z) : inputs :=
  Inputs 2 false 5 9 norm (q 2 3) (map qz [1; 2; 3; 4; 5; 6; 7; 8; 9; 10]%Z) exb (map qz [1; 2; 3; 4; 5; 6]%Z) (map (q 1) [1; 2; 3; 2; 1; 2]%positive) (exm 7).
Lemma sx_storable norm : storable (sx norm).
Proof.
  pose proof (ex_valid exb norm exb_valid ltac:(vm_compute; reflexivity)) as V.
  split; [exact V|]. split; [apply exb_no_repeats|]. split; [discriminate|]. split; [reflexivity | vm_compute; discriminate].
Qed.
Lemma sx_fits norm : fits (sx norm). Proof. vm_compute. discriminate. Qed.
(** C29: a life with failures *)
Example ex_life :
  map code (snd (runq (fresh, nofiles)
    [GetMatrix; Windows; Read "w" true; Couple (A2 5 []); Compute (exf 0 0 false) (exf 1 0 false) exb true (-1) (-1) (-1) (Some false); Write "w"; UpdateBins exb2;
     Compute (exf 0 0 false) (exf 1 2 false) exb false (-1) (-1) (-1) (Some false); GetMatrix; Write "w";
     Compute (exf 0 0 false) (exf 1 2 false) exb3 false (-1) (-1) (-1) (Some false); GetMatrix;
     Compute (exf 0 0 false) (exf 1 2 false) exb false (-1) (-1) (-1) None; GetMatrix;
     Read "w" true; GetMatrix; Read "w" false; GetMatrix; Write "x"; UpdateBins exb2]))
  = [2; 1; 2; 3; 2; 2; 1;  0; 0; 0;  1; 0;  1; 2;  0; 0; 0; 1; 1; 4].
Proof. vm_compute. reflexivity. Qed.
(** C31: arguments that meet the hypotheses, isotropic and anisotropic, both normalisations *)
Example ex_accept : good_cls excl /\ (forall id s an, (0 <= s)%Z -> good_field (exf id s an)) /\ valid_bins exb /\
  acceptable_call exdot (exf 0 0 false) (exf 1 2 false) exb true (-1) (-1) (-1) (Some true) /\
  acceptable_call exdot (exf 0 2 true) (exf 1 2 false) exb false (-1) (-1) (-1) (Some false).
Proof.
  split; [intros a c f1 f2 H0; unfold excl; rewrite map_length, seq_length; lia|].
  split; [intros id s an Hs; constructor; cbn; try lia; discriminate|]. split; [apply exb_valid|].
  assert (L : b_lmax exb = 4%Z) by (vm_compute; reflexivity).
  split; constructor; cbn [exf f_lmax f_lmaxm f_spin f_pe f_pb f_an f_cat]; rewrite ?L; auto; try discriminate; try lia; [right; split; [reflexivity | eexists; reflexivity]].
Qed.
(** C32 *)
Example ex_file : storable (sx 0) /\ fits (sx 0) /\ storable (sx 1) /\ exists w, compute (sx 0) = Ok w /\
  let s1 := fst (stepq (obj w, nofiles) (Write "f")) in
  let cs := [UpdateBeams (Some (map qz [1; 1; 1; 1; 3; 1]%Z)) (Some (map qz [1; 2; 1; 1; 3; 1]%Z)); UpdateBins exb2; Decouple (A2 5 (tab 2 (fun i => tab 5 (fun l => qz (Z.of_nat (i + l)))))) None None] in
  code (snd (stepq (fresh, snd s1) (Read "f" true))) = 0 /\
  map show (snd (runq (fst (stepq (fresh, snd s1) (Read "f" true))) cs)) = map show (snd (runq s1 cs)) /\ map code (snd (runq s1 cs)) = [0; 0; 0].
Proof.
  split; [apply sx_storable|]. split; [apply sx_fits|]. split; [apply sx_storable|]. eexists. split; [apply compute_ok, sx_storable|]. vm_compute. auto.
Qed.
(** C30, C32: the hypotheses of the findings *)
Example ex_refuted : valid_op (UBins exb2) /\ acceptable (sx 1) (UBins exb2) = true /\ i_norm (sx 1) <> 0%Z /\ b_lmax exb2 = b_lmax (i_bin (sx 0)) /\
  read_binned idq idq idq (qz 3) (fun _ => qz 0) exw3j excl exdot (sx 0) (PyW (Some (reread (sx 0) false)) false).
Proof.
  split; [apply exb2_valid|]. split; [vm_compute; reflexivity|]. split; [discriminate|]. split; [vm_compute; reflexivity|].
  exists (mk (sx 0)), exj, exj, nofiles, (fun n => if String.eqb n "f" then Some (stored (sx 0)) else None), fresh, "f"%string.
  split; [apply compute_ok, sx_storable|]. split.
  - cbn [call_step]. unfold write_to. cbn [obj need_wsp p_wsp bind check_unbinned p_unb guard]. rewrite (write_ok _ (sx_storable 0)). reflexivity.
  - cbn [call_step]. unfold read_from. rewrite String.eqb_refl, (read_ok _ exj false (sx_storable 0)). reflexivity.
Qed.
(** C33: a scheme listed in descending order is read back in ascending order *)
Definition exbd : bins Q := from_ok (Bins 0 []) (NmtBin [0; 1; 0; 1]%Z [2; 4; 1; 3]%Z (Some 4%Z) (Some [qz 3; qz 2; qz 1; qz 2]) None).
Example ex_bins_order : valid_bins exbd /\ valid_bins exb /\ no_repeats exb /\
  (do h <- bins_tohdus exbd; do (b, ok) <- bins_fromhdus exj [h]; Ok (map (map e_ell) (b_bands b), ok)) = Ok ([[1; 2]; [3; 4]]%Z, true) /\
  map (map e_ell) (b_bands exbd) = [[2; 1]; [4; 3]]%Z.
Proof. split; [solve_valid|]. split; [apply exb_valid|]. split; [apply exb_no_repeats|]. split; vm_compute; reflexivity. Qed.
(** C33 fails when a multipole lies in two bands: it is lost from one of them, or the file cannot be read *)
Definition exo1 : bins Q := from_ok (Bins 0 []) (NmtBin [0; 0; 1; 1]%Z [2; 3; 3; 4]%Z (Some 4%Z) None None).
Definition exo2 : bins Q := from_ok (Bins 0 []) (NmtBin [0; 1; 1]%Z [3; 3; 4]%Z (Some 4%Z) None None).
Theorem C33_overlap_refuted :
  (exists (b : bins Q) h b', valid_bins b /\ bins_tohdus b = Ok h /\ bins_fromhdus exj [h] = Ok (b', true) /\
     map (map e_ell) (b_bands b) = [[2; 3]; [3; 4]]%Z /\ map (map e_ell) (b_bands b') = [[2]; [3; 4]]%Z) /\
  (exists (b : bins Q) h, valid_bins b /\ bins_tohdus b = Ok h /\ bins_fromhdus exj [h] = Exn RuntimeError /\ map (map e_ell) (b_bands b) = [[3]; [3; 4]]%Z).
Proof.
  split.
  - assert (G : exists h, bins_tohdus exo1 = Ok h /\ exists r, bins_fromhdus exj [h] = Ok r /\ snd r = true /\ map (map e_ell) (b_bands (fst r)) = [[2]; [3; 4]]%Z).
    { eexists. split; [apply (from_ok_eq (Hdu false "" [] 0 [] [])); vm_compute; reflexivity|]. apply ex_ok. vm_compute. auto. }
    destruct G as [h [H1 [[b' ok] [H2 [H3 H4]]]]]. cbn [fst snd] in *. subst ok. exists exo1, h, b'. split; [solve_valid|]. do 2 (split; [assumption|]). split; [vm_compute; reflexivity | exact H4].
  - exists exo2. eexists. split; [solve_valid|]. split; [apply (from_ok_eq (Hdu false "" [] 0 [] [])); vm_compute; reflexivity|]. split; vm_compute; reflexivity.
Qed.
(** C34: a file in the legacy format that the fall-back reader would accept on its own *)
Definition exold : M_FITS.fits Q :=
  [Hdu false "WSP_PRIMARY" [("LMAX", 4); ("LMAX_FIELDS", 4); ("LMAX_MASK", 4); ("IS_TEB", 0); ("NCLS", 1); ("NORM_TYPE", 0)]%string%Z 0 [] (repeat (qz 1) 25);
   Hdu true "BEAMS" [] 5 [CI [0; 1; 2; 3; 4]%Z; CD (repeat (qz 1) 5)] []; Hdu true "PCL_MASKS" [] 5 [CI [0; 1; 2; 3; 4]%Z; CD (repeat (qz 1) 5)] [];
   Hdu true "BINS_SUMMARY" [("N_BANDS", 2); ("ELL_MAX", 4)]%string%Z 2 [CI [2; 2]%Z] [];
   Hdu true "BINS_BAND_1" [] 2 [CI [1; 2]%Z; CD [q 1 2; q 1 2]; CD [qz 1; qz 1]] [];
   Hdu true "BINS_BAND_2" [] 2 [CI [3; 4]%Z; CD [q 1 2; q 1 2]; CD [qz 1; qz 1]] [];
   Hdu false "MCM_BINNED" [] 0 [] (repeat (qz 1) 4)].
Example ex_legacy : find_hdu exold true "BANDPOWERS" = None /\
  (do (b, ok) <- bins_fromhdus_old exj exold true; Ok (map (map e_ell) (b_bands b), ok)) = Ok ([[1; 2]; [3; 4]]%Z, true) /\
  workspace_read_fits exj exold true = Exn RuntimeError /\
  is_ok (do h <- bins_tohdus exb; workspace_read_fits exj (h :: exold) true) = true.
Proof. split; [reflexivity|]. split; [vm_compute; reflexivity|]. split; [apply C34_legacy_never_read_refuted; reflexivity | vm_compute; reflexivity]. Qed.
End Examples.

Print Assumptions C29_uninitialised_raises.
Print Assumptions C29_failed_load.
Print Assumptions C29_which_failures.
Print Assumptions C29_until_loaded.
Print Assumptions C29_flag_is_right.
Print Assumptions C33_round_trip.
Print Assumptions C32_round_trip.
Print Assumptions C32_fkp_update_refuted.
Print Assumptions C30_matrix_needed_raises.
Print Assumptions C30_decouple_unchanged.
Print Assumptions C30_update_refuted.
Print Assumptions C34_legacy_never_read_refuted.
Print Assumptions C31_succeeds.
Print Assumptions C31_raises.
Print Assumptions C31_long_beam_refuted.
Print Assumptions C31_anisotropic_teb_ignored.
Print Assumptions C31_anisotropic_toeplitz_zero_refuted.
Print Assumptions C33_overlap_refuted.
