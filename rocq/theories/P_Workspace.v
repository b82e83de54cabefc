(** Properties C12-C19: what a curved-sky workspace does with its coupling matrix, and updates. *)
From Verif Require Import Base M_Bins M_LinAlg M_Workspace L_Bins L_Bins2 L_Bins3 P_Bins L_LinAlg L_Workspace.
From Coq Require Import ZifyBool ZifyNat.
Open Scope nat_scope.
Ltac Zify.zify_post_hook ::= Z.div_mod_to_equations.

Section Statements.
Context {F : ofield}.
Local Open Scope F_scope.
Add Field FfPW : (fth F).
Notation mat := (list (list F)).
Notation bins := (bins F).
Notation wsp := (wsp F).
Notation pyw := (pyw F).

(** ** Specification vocabulary *)
(** everything that determines a workspace; the unbinned coupling matrix is an arbitrary square matrix *)
Record inputs := Inputs {
  i_ncls : nat; i_teb : bool; i_lmaxf : Z; i_lmaxm : Z; i_norm : Z; i_w2 : F; i_pcl : list F;
  i_bin : bins; i_b1 : list F; i_b2 : list F; i_mcm : mat }.
Definition compute (i : inputs) : res wsp :=
  workspace_build (i_ncls i) (i_bin i) (i_teb i) (i_lmaxf i) (i_lmaxm i) (i_norm i) (i_w2 i) (i_pcl i)
                  (i_b1 i) (i_b2 i) (i_mcm i).
(** bins made by the constructor, all of whose multipoles are array indices *)
Definition valid_bins (b : bins) : Prop :=
  (exists bpws ells lmax ws fs, NmtBin bpws ells lmax ws fs = Ok b) /\ nonneg_ells b.
Definition i_nell (i : inputs) : nat := Z.to_nat (b_lmax (i_bin i) + 1).
Definition i_nrows (i : inputs) : nat := (i_ncls i * i_nell i)%nat.
Definition valid (i : inputs) : Prop :=
  (1 <= i_ncls i)%nat /\ valid_bins (i_bin i) /\ (b_lmax (i_bin i) <= i_lmaxf i)%Z /\
  Z.of_nat (length (i_b1 i)) = (i_lmaxf i + 1)%Z /\ Z.of_nat (length (i_b2 i)) = (i_lmaxf i + 1)%Z /\
  length (i_mcm i) = i_nrows i /\ (forall r, In r (i_mcm i) -> length r = i_nrows i).
(** the Python object holding a computed workspace *)
Definition obj (w : wsp) : pyw := PyW (Some w) true.
(** a list of spectra of length k *)
Definition spectra (n k : nat) (cl : mat) : Prop := length cl = n /\ forall r, In r cl -> length r = k.

Lemma valid_bins_facts b : valid_bins b -> wf b /\ ells_in b /\ (0 <= b_lmax b)%Z.
Proof.
  intros [[bp [el [lm [ws [fs H]]]]] Hn]. pose proof (NmtBin_wf _ _ _ _ _ _ H) as W. pose proof (ells_in_of b W Hn) as E.
  split; [exact W|]. split; [exact E|].
  destruct (b_bands b) as [|x t] eqn:Eb; [pose proof (wf_pos b W) as P; unfold get_n_bands in P; rewrite Eb in P; simpl in P; lia|].
  destruct x as [|e x].
  - pose proof (wf_sum b W [] ltac:(rewrite Eb; left; reflexivity)) as S. unfold wsum, lsum in S. simpl in S. exfalso. apply (f1_neq_0 (F:=F)). symmetry. exact S.
  - pose proof (E (e :: x) e ltac:(rewrite Eb; left; reflexivity) ltac:(left; reflexivity)). lia.
Qed.

Lemma nonneg_check (b : bins) : forallb (forallb (fun e => (0 <=? e_ell e)%Z)) (b_bands b) = true -> nonneg_ells b.
Proof.
  intros H ib l [L [HL Hl]] _. unfold get_ell_list in HL. apply bind_ok in HL. destruct HL as [x [Hx HL]]. injection HL as <-.
  unfold get_band in Hx. destruct (_ <? _)%Z; [|discriminate]. apply rd_ok in Hx. destruct Hx as [_ Hx]. apply nth_error_In in Hx.
  rewrite forallb_forall in H. specialize (H x Hx). rewrite forallb_forall in H. apply in_map_iff in Hl. destruct Hl as [e [<- He]].
  specialize (H e He). lia.
Qed.

Definition beams (i : inputs) (l : nat) : F := nth l (i_b1 i) 0 * nth l (i_b2 i) 0.
Definition core (i : inputs) : wsp :=
  Wsp (b_lmax (i_bin i)) (i_lmaxf i) (i_lmaxm i) (i_teb i) (i_ncls i) (tab (Z.to_nat (i_lmaxf i + 1)) (beams i))
      (i_pcl i) (Some (i_mcm i)) (i_bin i) (i_norm i) (Some (i_w2 i)) [].
Definition mk (i : inputs) : wsp := set_mb (core i) (mb_tab (core i)).

Lemma beam_product_ok lmaxf (b1 b2 : list F) : (Z.of_nat (length b1) >= lmaxf + 1)%Z -> (Z.of_nat (length b2) >= lmaxf + 1)%Z ->
  beam_product lmaxf b1 b2 = Ok (tab (Z.to_nat (lmaxf + 1)) (fun l => nth l b1 0 * nth l b2 0)).
Proof.
  intros H1 H2. unfold beam_product. apply tabM_ok. intros l Hl. rewrite (rd_nat _ _ 0) by lia. cbn [bind].
  rewrite (rd_nat _ _ 0) by lia. reflexivity.
Qed.
Lemma core_shaped i : valid i -> shaped (core i).
Proof.
  intros [H1 [H2 [H3 [H4 [H5 [H6 H7]]]]]]. destruct (valid_bins_facts _ H2) as [W [E P]].
  constructor; cbn; try assumption; try reflexivity.
  - rewrite length_tab. lia.
  - exists (i_mcm i). split; [reflexivity|]. split; [exact H6 | exact H7].
  - eexists. reflexivity.
Qed.
Lemma set_mb_shaped (w : wsp) m : shaped w -> shaped (set_mb w m).
Proof. intros []. constructor; assumption. Qed.
Lemma mk_shaped i : valid i -> shaped (mk i).
Proof. intro H. apply set_mb_shaped, core_shaped, H. Qed.
Lemma compute_ok i : valid i -> compute i = Ok (mk i).
Proof.
  intro V. pose proof (core_shaped i V) as S. destruct V as [H1 [H2 [H3 [H4 [H5 [H6 H7]]]]]]. unfold compute, workspace_build.
  rewrite H4, H5, Z.eqb_refl. cbn [guard bind]. destruct (Z.ltb_spec (i_lmaxf i) (b_lmax (i_bin i))); [lia|].
  rewrite beam_product_ok by lia. cbn [bind]. apply (bin_coupling_ok (core i) S).
Qed.
Lemma mk_wf i : valid i -> wfw (mk i).
Proof.
  intro V. pose proof (mk_shaped i V) as S. pose proof (bin_coupling_ok (mk i) S) as B. destruct V as [H1 [H2 [H3 [H4 [H5 [H6 H7]]]]]].
  destruct (valid_bins_facts _ H2) as [W [E P]].
  constructor; try (destruct S; assumption).
  - cbn. rewrite length_tab. reflexivity.
Qed.

(** ** C12 *)
Lemma rect_spectra n k (cl : mat) : spectra n k cl -> rect n k cl.
Proof. exact (fun H => H). Qed.
Lemma spec_shape_ok n lmin k (cl : mat) : (1 <= n)%nat -> spec_shape (Z.of_nat n) lmin (A2 k cl) = Ok (k, cl) <-> length cl = n /\ (lmin <= Z.of_nat k)%Z.
Proof.
  intro Hn. unfold spec_shape. destruct (Z.eqb_spec (Z.of_nat (length cl)) (Z.of_nat n)) as [E|E]; [|split; [discriminate | lia]].
  destruct cl as [|r cl]; [simpl in E; lia|]. destruct (Z.ltb_spec (Z.of_nat k) lmin); split; try discriminate; try lia. reflexivity.
Qed.
Lemma spec_shape_inv n lmin (a : arr F) k cl : spec_shape n lmin a = Ok (k, cl) -> a = A2 k cl /\ Z.of_nat (length cl) = n /\ (lmin <= Z.of_nat k)%Z.
Proof.
  unfold spec_shape. destruct a as [v|k' rows|]; intro H.
  - destruct (_ =? _)%Z; discriminate.
  - destruct (Z.eqb_spec (Z.of_nat (length rows)) n); [|discriminate]. destruct rows; [discriminate|].
    destruct (Z.ltb_spec (Z.of_nat k') lmin); [discriminate|]. injection H as <- <-. repeat split; assumption.
  - discriminate.
Qed.
Lemma spec_shape_reject n lmin (a : arr F) : (exists x, spec_shape n lmin a = Ok x) \/ exists e, spec_shape n lmin a = Exn e.
Proof.
  unfold spec_shape. destruct a as [v|k rows|]; [destruct (_ =? _)%Z|destruct (_ =? _)%Z; [destruct rows; [|destruct (_ <? _)%Z]|]|]; eauto.
Qed.
Lemma rect_firstn n k m (cl : mat) : rect n k cl -> (m <= k)%nat -> rect n m (map (firstn m) cl).
Proof.
  intros [H1 H2] Hm. split; [rewrite map_length; exact H1|]. intros r Hr. apply in_map_iff in Hr. destruct Hr as [r' [<- Hr]].
  rewrite firstn_length, (H2 _ Hr). lia.
Qed.
Lemma nth_firstn_lt {A} (r : list A) m j d : (j < m)%nat -> nth j (firstn m r) d = nth j r d.
Proof. revert r j. induction m as [|m IH]; intros [|a r] [|j] H; simpl; try lia; try reflexivity. apply IH. lia. Qed.
Lemma nth_map_firstn m (cl : mat) i : nth i (map (firstn m) cl) [] = firstn m (nth i cl []).
Proof. transitivity (nth i (map (firstn m) cl) (firstn m [])); [destruct m; reflexivity | apply map_nth]. Qed.
Lemma entry_firstn m (cl : mat) i j : (j < m)%nat -> entry2 (map (firstn m) cl) i j = entry2 cl i j.
Proof. intro H. unfold entry2. rewrite nth_map_firstn. apply nth_firstn_lt. exact H. Qed.
Lemma couple_cell_eq i k cl : valid i -> spectra (i_ncls i) k cl -> (i_nell i <= k)%nat ->
  couple_cell (obj (mk i)) (A2 k cl) =
  Ok (A2 (i_nell i) (tab (i_ncls i) (fun a => tab (i_nell i) (fun l => coup (mk i) cl a l)))).
Proof.
  intros V Hc Hk. pose proof (mk_shaped i V) as S. unfold couple_cell. cbn [obj p_wsp need_wsp bind p_unb].
  destruct (V) as [H1 _]. rewrite (proj2 (spec_shape_ok (i_ncls i) _ k cl H1)).
  2:{ split; [apply Hc|]. unfold i_nell in Hk. cbn. lia. }
  cbn [bind check_unbinned guard obj p_unb].
  rewrite (couple_ok (mk i) _ (i_nell i) S); [|apply (rect_firstn _ k); [exact Hc | exact Hk]|apply le_n].
  cbn [bind]. f_equal. f_equal. apply tab_ext. intros a Ha. apply tab_ext. intros l Hl.
  unfold coup. apply sum_ext. intros l' Hl'. apply sum_ext. intros j Hj. rewrite entry_firstn; [reflexivity|exact Hl'].
Qed.

(** the matrix and the spectrum are combined with the beams as documented; the output has shape (ncls, lmax+1) *)
Theorem C12_couple_is_matrix i w k cl : valid i -> compute i = Ok w -> spectra (i_ncls i) k cl -> (i_nell i <= k)%nat ->
  exists o, couple_cell (obj w) (A2 k cl) = Ok (A2 (i_nell i) o) /\ spectra (i_ncls i) (i_nell i) o /\
  (forall M, get_coupling_matrix (obj w) = Ok M ->
   forall a l, (a < i_ncls i)%nat -> (l < i_nell i)%nat ->
    entry2 o a l =
    sum (i_nell i) (fun l' => sum (i_ncls i) (fun j =>
      entry2 M (i_ncls i * l + a) (i_ncls i * l' + j) * (nth l' (i_b1 i) 0 * nth l' (i_b2 i) 0) * entry2 cl j l'))).
Proof.
  intros V C Hc Hk. rewrite compute_ok in C by exact V. injection C as <-. eexists. split; [apply couple_cell_eq; assumption|].
  split; [apply rect_tab|]. intros M HM a l Ha Hl.
  rewrite entry_tab by assumption. unfold coup. cbn [mk core set_mb w_ncls nlm w_lmax]. change (nlm (mk i)) with (i_nell i). change (w_ncls (mk i)) with (i_ncls i).
  apply sum_ext. intros l' Hl'. apply sum_ext. intros j Hj. f_equal. f_equal.
  - pose proof (mk_shaped i V) as S. unfold get_coupling_matrix in HM. cbn [obj need_wsp p_wsp bind check_unbinned p_unb guard] in HM.
    assert (EN : Z.to_nat ((w_lmax (mk i) + 1) * ncl (mk i)) = (i_ncls i * i_nell i)%nat).
    { unfold ncl, i_nell. cbn. destruct V as [? [V2 _]]. destruct (valid_bins_facts _ V2) as [_ [_ ?]]. lia. }
    rewrite EN in HM. apply tabM_inv in HM. destruct HM as [HL HM].
    specialize (HM (i_ncls i * l + a)%nat [] ltac:(apply idx_lt; assumption)).
    apply bind_ok in HM. destruct HM as [z [_ HM]]. apply tabM_inv in HM. destruct HM as [HL' HM].
    specialize (HM (i_ncls i * l' + j)%nat 0 ltac:(apply idx_lt; assumption)).
    pose proof (mcm_rd_ok (mk i) (Z.of_nat l) a (Z.of_nat l') j S) as R.
    destruct V as [? [V2 _]]. destruct (valid_bins_facts _ V2) as [_ [_ ?]].
    specialize (R ltac:(cbn; unfold i_nell in *; lia) ltac:(cbn; unfold i_nell in *; lia) Ha Hj).
    replace (ncl (mk i) * Z.of_nat l + Z.of_nat a)%Z with (Z.of_nat (i_ncls i * l + a)) in R by (unfold ncl; cbn; lia).
    replace (ncl (mk i) * Z.of_nat l' + Z.of_nat j)%Z with (Z.of_nat (i_ncls i * l' + j)) in R by (unfold ncl; cbn; lia).
    rewrite R in HM. injection HM as HM. unfold entry2. rewrite !Nat2Z.id in HM. exact HM.
  - unfold Bm. cbn. rewrite nth_tab; [reflexivity|]. destruct V as [? [V2 [V3 _]]]. unfold i_nell in Hl'. lia.
Qed.
(** linear *)
Theorem C12_couple_linear i w k cl cl' s o o' : valid i -> compute i = Ok w ->
  spectra (i_ncls i) k cl -> spectra (i_ncls i) k cl' ->
  couple_cell (obj w) (A2 k cl) = Ok (A2 (i_nell i) o) -> couple_cell (obj w) (A2 k cl') = Ok (A2 (i_nell i) o') ->
  couple_cell (obj w) (A2 k (tab (i_ncls i) (fun a => tab k (fun l => entry2 cl a l + s * entry2 cl' a l)))) =
  Ok (A2 (i_nell i) (tab (i_ncls i) (fun a => tab (i_nell i) (fun l => entry2 o a l + s * entry2 o' a l)))).
Proof.
  intros V C Hc Hc' E E'. rewrite compute_ok in C by exact V. injection C as <-.
  assert (Hk : (i_nell i <= k)%nat).
  { unfold couple_cell in E. cbn [obj p_wsp need_wsp bind] in E. apply bind_ok in E. destruct E as [[k0 r] [E0 _]].
    apply spec_shape_inv in E0. destruct E0 as [E0 [_ E1]]. injection E0 as <- <-. cbn in E1. unfold i_nell. lia. }
  rewrite couple_cell_eq in E, E' by assumption. injection E as <-. injection E' as <-.
  rewrite couple_cell_eq; [|exact V|apply rect_tab|exact Hk]. f_equal. f_equal. apply tab_ext. intros a Ha. apply tab_ext. intros l Hl.
  rewrite !entry_tab by assumption. unfold coup. rewrite <- sum_mul_l, <- sum_add. apply sum_ext. intros l' Hl'.
  rewrite <- sum_mul_l, <- sum_add. apply sum_ext. intros j Hj. rewrite entry_tab; [ring|exact Hj|].
  change (nlm (mk i)) with (i_nell i) in Hl'. lia.
Qed.
(** spectra of any other shape are rejected with an exception *)
Theorem C12_couple_shape i w a : valid i -> compute i = Ok w -> arr_wf a ->
  ~ (exists k cl, a = A2 k cl /\ length cl = i_ncls i /\ (i_nell i <= k)%nat) ->
  exists e, couple_cell (obj w) a = Exn e.
Proof.
  intros V C Ha Hn. rewrite compute_ok in C by exact V. injection C as <-. unfold couple_cell. cbn [obj p_wsp need_wsp bind].
  destruct (spec_shape_reject (ncl (mk i)) (w_lmax (mk i) + 1) a) as [[[k cl] E]|[e ->]]; [|exists e; reflexivity].
  exfalso. apply Hn. apply spec_shape_inv in E. destruct E as [-> [E1 E2]]. exists k, cl. split; [reflexivity|].
  unfold ncl in E1. cbn in E1, E2. split; [lia|]. unfold i_nell. lia.
Qed.

(** ** C13 *)
(** no multipole is listed twice, in the same band or in different ones *)
Definition no_repeats (b : bins) : Prop :=
  forall ib ib' L L' k k' l, (0 <= ib)%Z -> (0 <= ib')%Z ->
    get_ell_list b ib = Ok L -> get_ell_list b ib' = Ok L' ->
    nth_error L k = Some l -> nth_error L' k' = Some l -> ib = ib' /\ k = k'.
Lemma get_ell_nth (b : bins) i x : nth_error (b_bands b) i = Some x -> get_ell_list b (Z.of_nat i) = Ok (map e_ell x).
Proof.
  intro H. unfold get_ell_list, get_band, get_n_bands. assert (i < length (b_bands b))%nat by (apply nth_error_Some; congruence).
  destruct (Z.ltb_spec (Z.of_nat i) (Z.of_nat (length (b_bands b)))); [|lia].
  rewrite (rd_nat _ _ []) by assumption. cbn [bind]. rewrite (nth_error_nth _ _ _ H). reflexivity.
Qed.
Lemma once_of b : no_repeats b -> once b.
Proof.
  intro H. unfold once.
  assert (G : forall bands k0, (forall i x, nth_error bands i = Some x -> nth_error (b_bands b) (k0 + i) = Some x) -> NoDup (flat_map (map e_ell) bands)).
  { induction bands as [|x bands IH]; intros k0 Hk; simpl; [constructor|].
    assert (Hx : nth_error (b_bands b) k0 = Some x) by (rewrite <- (Nat.add_0_r k0); apply Hk; reflexivity).
    assert (N2 : NoDup (flat_map (map e_ell) bands)).
    { apply (IH (S k0)). intros i y Hy. replace (S k0 + i)%nat with (k0 + S i)%nat by lia. apply Hk. exact Hy. }
    assert (N1 : NoDup (map e_ell x)).
    { apply NoDup_nth_error. intros i j Hi E. destruct (nth_error (map e_ell x) i) as [l|] eqn:Ei; [|apply nth_error_None in Ei; lia].
      symmetry in E. eapply (H (Z.of_nat k0) (Z.of_nat k0) (map e_ell x) (map e_ell x)); try lia; try (apply get_ell_nth; exact Hx); eassumption. }
    assert (D : forall l, In l (map e_ell x) -> ~ In l (flat_map (map e_ell) bands)).
    { intros l Hl Hin. apply in_flat_map in Hin. destruct Hin as [y [Hy Hl']]. apply In_nth_error in Hy. destruct Hy as [i Hi].
      apply In_nth_error in Hl. destruct Hl as [m Hm]. apply In_nth_error in Hl'. destruct Hl' as [m' Hm'].
      assert (Hy : nth_error (b_bands b) (k0 + S i) = Some y) by (apply Hk; exact Hi).
      destruct (H _ _ _ _ _ _ _ (Zle_0_nat k0) (Zle_0_nat (k0 + S i)) (get_ell_nth b _ _ Hx) (get_ell_nth b _ _ Hy) Hm Hm') as [E _]. lia. }
    clear -N1 N2 D. induction (map e_ell x) as [|a t IHt]; simpl; [exact N2|]. inversion N1; subst. constructor.
    - intro I. apply in_app_or in I. destruct I as [I|I]; [contradiction|]. apply (D a); [left; reflexivity | exact I].
    - apply IHt; [assumption|]. intros l Hl. apply D. right. exact Hl. }
  apply (G (b_bands b) 0%nat). intros i x Hx. exact Hx.
Qed.

Lemma zeros_like_rect n k (cl : mat) : rect n k cl -> rect n k (zeros_like cl).
Proof.
  intros [H1 H2]. unfold zeros_like. split; [rewrite map_length; exact H1|]. intros r Hr. apply in_map_iff in Hr. destruct Hr as [r' [<- Hr]].
  rewrite map_length. apply H2, Hr.
Qed.
Lemma entry_zeros_like (cl : mat) i j : entry2 (zeros_like cl) i j = 0.
Proof.
  unfold entry2, zeros_like. change (@nil F) with (map (fun _ : F => 0 : F) (@nil F)) at 1. rewrite (map_nth (fun r : list F => map (fun _ => 0) r) cl [] i).
  destruct (nth_in_or_default j (map (fun _ : F => (0:F)) (nth i cl [])) 0) as [I|E]; [|exact E].
  apply in_map_iff in I. destruct I as [x [<- _]]. reflexivity.
Qed.
Lemma mk_square i : square (w_ncls (mk i) * nbands (mk i)) (w_mb (mk i)).
Proof. apply (square_mb (core i)). Qed.
Lemma decouple_cell_eq i k cl (bias noise : option (arr F)) bm nm : valid i -> spectra (i_ncls i) k cl -> (i_nell i <= k)%nat ->
  match bias with None => bm = zeros_like cl | Some a => a = A2 k bm /\ spectra (i_ncls i) k bm end ->
  match noise with None => nm = zeros_like cl | Some a => a = A2 k nm /\ spectra (i_ncls i) k nm end ->
  decouple_cell (obj (mk i)) (A2 k cl) bias noise =
  do x <- lu_solve (w_mb (mk i)) (dvec (mk i) (fun a l => entry2 cl a l - entry2 nm a l - entry2 bm a l));
  Ok (A2 (nbands (mk i)) (unpack (mk i) x)).
Proof.
  intros V Hc Hk Hb Hn. pose proof (mk_shaped i V) as S. unfold decouple_cell. cbn [obj p_wsp need_wsp bind].
  assert (H1 : (1 <= i_ncls i)%nat) by (destruct V; assumption).
  assert (G : forall rows, spectra (i_ncls i) k rows -> spec_shape (ncl (mk i)) (w_lmax (mk i) + 1) (A2 k rows) = Ok (k, rows)).
  { intros rows Hr. apply (proj2 (spec_shape_ok (i_ncls i) _ k rows H1)). split; [apply Hr|]. unfold i_nell in Hk. cbn. lia. }
  rewrite (G cl Hc). cbn [bind].
  assert (Rb : spectra (i_ncls i) k bm /\ match bias with None => Ok (k, zeros_like cl) | Some x => spec_shape (ncl (mk i)) (w_lmax (mk i) + 1) x end = Ok (k, bm)).
  { destruct bias as [a|]; [destruct Hb as [-> Hb]; split; [exact Hb | apply G, Hb] | subst bm; split; [apply zeros_like_rect, Hc | reflexivity]]. }
  assert (Rn : spectra (i_ncls i) k nm /\ match noise with None => Ok (k, zeros_like cl) | Some x => spec_shape (ncl (mk i)) (w_lmax (mk i) + 1) x end = Ok (k, nm)).
  { destruct noise as [a|]; [destruct Hn as [-> Hn]; split; [exact Hn | apply G, Hn] | subst nm; split; [apply zeros_like_rect, Hc | reflexivity]]. }
  destruct Rb as [Rb ->]. cbn [bind]. destruct Rn as [Rn ->]. cbn [bind]. rewrite Nat.eqb_refl. cbn [andb].
  rewrite (decouple_eq (mk i) cl nm bm k); try assumption; [|apply mk_square].
  destruct (lu_solve _ _); reflexivity.
Qed.
Lemma decouple_plain i k cl : valid i -> spectra (i_ncls i) k cl -> (i_nell i <= k)%nat ->
  decouple_cell (obj (mk i)) (A2 k cl) None None =
  do x <- lu_solve (w_mb (mk i)) (dvec (mk i) (fun a l => entry2 cl a l)); Ok (A2 (nbands (mk i)) (unpack (mk i) x)).
Proof.
  intros V Hc Hk. rewrite (decouple_cell_eq i k cl None None (zeros_like cl) (zeros_like cl)) by (try assumption; reflexivity).
  rewrite (dvec_ext (mk i) _ (fun a l => entry2 cl a l) (mk_shaped i V)); [reflexivity|].
  intros a l _ _. rewrite !entry_zeros_like. ring.
Qed.
Lemma unbin_cell_eq b nb (v : mat) : ells_in b -> v <> [] -> nb = Z.to_nat (get_n_bands b) ->
  unbin_cell b (A2 nb v) = Ok (A2 (Z.to_nat (b_lmax b + 1)) (map (unbin1 b) v)).
Proof.
  intros He Hv ->. unfold unbin_cell, shape_guard. destruct v as [|r v]; [congruence|].
  destruct (Z.eqb_spec (Z.of_nat (Z.to_nat (get_n_bands b))) (get_n_bands b)) as [_|N]; [|exfalso; apply N; unfold get_n_bands; lia].
  cbn [bind]. rewrite unbin_eq by exact He. reflexivity.
Qed.

Lemma decouple_couple_unbin i w v c d o :
  valid i -> compute i = Ok w -> i_norm i = 0%Z -> no_repeats (i_bin i) ->
  spectra (i_ncls i) (Z.to_nat (get_n_bands (i_bin i))) v ->
  unbin_cell (i_bin i) (A2 (Z.to_nat (get_n_bands (i_bin i))) v) = Ok c ->
  couple_cell (obj w) c = Ok d ->
  decouple_cell (obj w) d None None = Ok o ->
  o = A2 (Z.to_nat (get_n_bands (i_bin i))) v.
Proof.
  intros V C Hno Hr Hv Hu Hc Hd. rewrite compute_ok in C by exact V. injection C as <-.
  pose proof (mk_wf i V) as W. pose proof (mk_shaped i V) as S. apply once_of in Hr.
  destruct (V) as [Hn1 [Vb _]]. destruct (valid_bins_facts _ Vb) as [Wb [Eb Pb]].
  assert (ENb : Z.to_nat (get_n_bands (i_bin i)) = nbands (mk i)) by (unfold get_n_bands, nbands; cbn; lia).
  rewrite ENb in *.
  rewrite unbin_cell_eq in Hu; [|exact Eb|intros ->; destruct Hv as [Hv _]; simpl in Hv; lia|symmetry; exact ENb].
  injection Hu as <-. fold (i_nell i) in Hc.
  assert (Hcl : spectra (i_ncls i) (i_nell i) (map (unbin1 (i_bin i)) v)).
  { split; [rewrite map_length; apply Hv|]. intros r Hr'. apply in_map_iff in Hr'. destruct Hr' as [r' [<- _]]. apply length_unbin1. }
  rewrite (couple_cell_eq i (i_nell i)) in Hc; [|exact V|exact Hcl|apply le_n]. injection Hc as <-.
  set (cl := map (unbin1 (i_bin i)) v) in *.
  rewrite (decouple_plain i (i_nell i)) in Hd; [|exact V|apply rect_tab|apply le_n].
  apply bind_ok in Hd. destruct Hd as [x [Hx Hd]]. injection Hd as <-. f_equal.
  rewrite (dvec_ext (mk i) _ (coup (mk i) cl) S) in Hx.
  2:{ intros a l Ha Hl. rewrite entry_tab by assumption. reflexivity. }
  apply (lu_solve_iff (w_ncls (mk i) * nbands (mk i))) in Hx; [|apply mk_square|apply length_tab].
  destruct Hx as [Hns [Hlx Hx]].
  assert (P : matvec (w_mb (mk i)) (pack (mk i) v) = dvec (mk i) (coup (mk i) cl)).
  { apply dvec_solution; [exact W| |exact Hv|].
    - cbn. rewrite Hno. reflexivity.
    - intros a ib Ha Hib. apply binned_couple_unbin; try assumption; [cbn; rewrite Hno; reflexivity|].
      intros j Hj. unfold cl. rewrite (nth_indep _ [] (unbin1 (i_bin i) [])) by (rewrite map_length; destruct Hv as [-> _]; exact Hj).
      apply map_nth. }
  assert (E : x = pack (mk i) v).
  { pose proof (lu_solve_spec (w_ncls (mk i) * nbands (mk i)) (w_mb (mk i)) (dvec (mk i) (coup (mk i) cl)) (mk_square i) (length_tab _ _)) as L.
    destruct (lu_solve _ _) as [z| |]; [|destruct L|].
    - destruct L as [_ [_ [U _]]]. rewrite (U x Hlx Hx). symmetry. apply U; [apply length_tab | exact P].
    - contradiction. }
  subst x. apply unpack_pack. exact Hv.
Qed.
(** decoupling fails (gsl aborts on a singular matrix) for all spectra or for none *)
Lemma decouple_all_or_none i a bias noise o : valid i -> arr_wf a ->
  decouple_cell (obj (mk i)) a bias noise = Ok o ->
  nonsingular (w_ncls (mk i) * nbands (mk i)) (w_mb (mk i)).
Proof.
  intros V Ha H. unfold decouple_cell in H. cbn [obj p_wsp need_wsp bind] in H.
  apply bind_ok in H. destruct H as [[k cl] [E1 H]]. apply bind_ok in H. destruct H as [[kb rb] [E2 H]].
  apply bind_ok in H. destruct H as [[kn rn] [E3 H]].
  destruct (Nat.eqb k kn && Nat.eqb kn kb)%bool; [|discriminate]. apply bind_ok in H. destruct H as [x [Hx _]].
  unfold c_decouple in Hx. cbv zeta in Hx. apply bind_ok in Hx. destruct Hx as [v [Hv Hx]]. apply bind_ok in Hx. destruct Hx as [y [Hy _]].
  apply tabM_inv in Hv. destruct Hv as [Hv _].
  apply (lu_solve_iff (w_ncls (mk i) * nbands (mk i))) in Hy; [|apply mk_square|exact Hv]. apply Hy.
Qed.
(** for every bandpowers [v]: coupling the unbinned [v] and decoupling returns [v], provided the
    workspace can decouple anything at all (its binned matrix is invertible) *)
Theorem C13_decouple_couple_unbin i w v : 
  valid i -> compute i = Ok w -> i_norm i = 0%Z -> no_repeats (i_bin i) ->
  (exists a o, arr_wf a /\ decouple_cell (obj w) a None None = Ok o) ->
  spectra (i_ncls i) (Z.to_nat (get_n_bands (i_bin i))) v ->
  exists c d, unbin_cell (i_bin i) (A2 (Z.to_nat (get_n_bands (i_bin i))) v) = Ok c /\
    couple_cell (obj w) c = Ok d /\
    decouple_cell (obj w) d None None = Ok (A2 (Z.to_nat (get_n_bands (i_bin i))) v).
Proof.
  intros V C Hno Hr [a0 [o0 [Ha0 Hinv]]] Hv.
  destruct (V) as [Hn1 [Vb _]]. destruct (valid_bins_facts _ Vb) as [Wb [Eb Pb]].
  assert (Hne : v <> []) by (intros ->; destruct Hv as [Hv _]; simpl in Hv; lia).
  pose proof (unbin_cell_eq (i_bin i) _ v Eb Hne eq_refl) as Hu.
  assert (Hcl : spectra (i_ncls i) (i_nell i) (map (unbin1 (i_bin i)) v)).
  { split; [rewrite map_length; apply Hv|]. intros r Hr'. apply in_map_iff in Hr'. destruct Hr' as [r' [<- _]]. apply length_unbin1. }
  eexists. eexists. split; [exact Hu|]. pose proof C as C'. rewrite compute_ok in C' by exact V. injection C' as E. rewrite <- E in Hinv.
  pose proof (couple_cell_eq i (i_nell i) _ V Hcl (le_n _)) as Hc. rewrite E in Hc. split; [exact Hc|].
  apply decouple_all_or_none in Hinv; [|exact V|exact Ha0].
  destruct (lu_solve_ok _ (w_mb (mk i)) (dvec (mk i) (fun a l => entry2 (tab (i_ncls i) (fun a => tab (i_nell i) (fun l => coup w (map (unbin1 (i_bin i)) v) a l))) a l)) (mk_square i) (length_tab _ _) Hinv) as [x [Hx _]].
  pose proof (decouple_plain i (i_nell i) (tab (i_ncls i) (fun a => tab (i_nell i) (fun l => coup w (map (unbin1 (i_bin i)) v) a l))) V (rect_tab _ _ _) (le_n _)) as Hd.
  rewrite Hx in Hd. cbn [bind] in Hd. rewrite E in Hd. rewrite Hd. f_equal.
  eapply (decouple_couple_unbin i w v); eassumption.
Qed.

(** ** C14 *)
Lemma bind_inv_ok {A B} (x : res A) (k : A -> res B) b : bind x k = Ok b -> exists a, x = Ok a /\ k a = Ok b.
Proof. apply bind_ok. Qed.
Definition mcv (w : wsp) (r c : nat) : F :=
  lsum (map (fun e => Mx w (w_ncls w * el e + r mod w_ncls w) c * Bm w (c / w_ncls w) * (e_f e * e_w e)) (band w (r / w_ncls w))).
Lemma coupled_binned_ok (w : wsp) r c : shaped w -> (r < w_ncls w * nbands w)%nat -> (c < w_ncls w * nlm w)%nat ->
  coupled_binned w r c = Ok (mcv w r c).
Proof.
  intros Hs Hr Hc. assert (Hn : (1 <= w_ncls w)%nat) by (destruct Hs; assumption). assert (0 <= w_lmax w)%Z by (destruct Hs; assumption).
  destruct (divmod_lt _ _ r Hn Hr) as [D1 D2]. destruct (divmod_lt _ _ c Hn Hc) as [E1 E2].
  unfold coupled_binned. cbv zeta. rewrite band_rd_ok by exact D1. cbn [bind]. apply lsumM_ok. intros e He.
  pose proof (band_in w _ e D1 He Hs).
  assert (Ec : c = (w_ncls w * (c / w_ncls w) + c mod w_ncls w)%nat) by (apply Nat.div_mod; lia).
  set (q0 := (c / w_ncls w)%nat) in *. set (r0 := (c mod w_ncls w)%nat) in *. clearbody q0 r0.
  replace (Z.of_nat c) with (ncl w * Z.of_nat q0 + Z.of_nat r0)%Z by (unfold ncl; lia).
  set (rm := (r mod w_ncls w)%nat) in *. clearbody rm.
  unfold nlm in E1. rewrite mcm_rd_ok by (try assumption; lia). cbn [bind].
  rewrite beam_rd_ok by (try assumption; lia). cbn [bind]. rewrite !Nat2Z.id. rewrite <- Ec. reflexivity.
Qed.
Lemma dvec_mcv (w : wsp) (cl : mat) r : shaped w -> (r < w_ncls w * nbands w)%nat ->
  nth r (dvec w (coup w cl)) 0 = sum (w_ncls w * nlm w) (fun c => mcv w r c * entry2 cl (c mod w_ncls w) (c / w_ncls w)).
Proof.
  intros Hs Hr. assert (Hn : (1 <= w_ncls w)%nat) by (destruct Hs; assumption).
  unfold dvec. rewrite nth_tab by exact Hr. unfold bdat, mcv.
  transitivity (lsum (map (fun e => sum (w_ncls w * nlm w) (fun c => Mx w (w_ncls w * el e + r mod w_ncls w) c * Bm w (c / w_ncls w) * (e_f e * e_w e) * entry2 cl (c mod w_ncls w) (c / w_ncls w))) (band w (r / w_ncls w)))).
  - apply lsum_ext. intros e _. unfold coup. rewrite sum_packed. rewrite <- !sum_mul_r. apply sum_ext. intros l' _.
    rewrite <- !sum_mul_r. apply sum_ext. intros j Hj.
    rewrite (proj1 (divmod_idx _ l' _ Hj)), (proj2 (divmod_idx _ l' _ Hj)). ring.
  - rewrite lsum_swap. apply sum_ext. intros c _. rewrite <- lsum_mul_r. reflexivity.
Qed.
Lemma entry_mat_mul n k m (A B : mat) i j : (i < n)%nat -> (j < m)%nat ->
  entry2 (mat_mul n k m A B) i j = sum k (fun t => entry2 A i t * entry2 B t j).
Proof. intros. unfold mat_mul. rewrite entry_tab by assumption. reflexivity. Qed.

(** for every workspace (either normalisation) and every spectrum *)
Theorem C14_windows i w W cl c o : valid i -> compute i = Ok w -> spectra (i_ncls i) (i_nell i) cl ->
  get_bandpower_windows (obj w) = Ok W ->
  couple_cell (obj w) (A2 (i_nell i) cl) = Ok c -> decouple_cell (obj w) c None None = Ok o ->
  exists rows, o = A2 (Z.to_nat (get_n_bands (i_bin i))) rows /\
  forall a b, (a < i_ncls i)%nat -> (b < Z.to_nat (get_n_bands (i_bin i)))%nat ->
    entry2 rows a b =
    sum (i_ncls i) (fun j => sum (i_nell i) (fun l => nth l (nth j (nth b (nth a W []) []) []) 0 * entry2 cl j l)).
Proof.
  intros V C Hcl HW Hc Hd. rewrite compute_ok in C by exact V. injection C as <-.
  pose proof (mk_shaped i V) as S. rewrite (couple_cell_eq i (i_nell i)) in Hc by (try assumption; apply le_n). injection Hc as <-.
  rewrite (decouple_plain i (i_nell i)) in Hd; [|exact V|apply rect_tab|apply le_n].
  apply bind_ok in Hd. destruct Hd as [x [Hx Hd]]. injection Hd as <-.
  assert (ENb : Z.to_nat (get_n_bands (i_bin i)) = nbands (mk i)) by (unfold get_n_bands, nbands; cbn; lia).
  rewrite ENb. eexists. split; [reflexivity|]. intros a b Ha Hb. rewrite entry_unpack by assumption.
  rewrite (dvec_ext (mk i) _ (coup (mk i) cl) S) in Hx by (intros; apply entry_tab; assumption).
  unfold get_bandpower_windows in HW. cbn [obj check_unbinned p_unb guard bind p_wsp need_wsp] in HW.
  apply bind_ok in HW. destruct HW as [d [HD HW]]. injection HW as <-.
  set (n := w_ncls (mk i)) in *. set (nb := nbands (mk i)) in *. set (nl := nlm (mk i)) in *.
  change (i_ncls i) with n in *. change (i_nell i) with nl in *.
  assert (Hn : (1 <= n)%nat) by (apply V).
  unfold c_windows in HD. cbv zeta in HD. fold n nb nl in HD.
  rewrite (tabM_ok _ _ (fun r => tab (n * nl) (fun c => mcv (mk i) r c))) in HD.
  2:{ intros r Hr. apply tabM_ok. intros c Hc. apply coupled_binned_ok; assumption. }
  cbn [bind] in HD. apply bind_ok in HD. destruct HD as [inv [Hinv HD]]. injection HD as <-.
  pose proof (lu_invert_spec (n * nb) (w_mb (mk i)) (mk_square i)) as L. rewrite Hinv in L. destruct L as [Li [_ L]].
  specialize (L (dvec (mk i) (coup (mk i) cl)) (length_tab _ _)). rewrite Hx in L. injection L as ->.
  rewrite (nth_matvec (n * nb)); [|exact Li|apply length_tab|apply idx_lt; assumption].
  (* right-hand side *)
  transitivity (sum (n * nl) (fun c => sum (n * nb) (fun r => entry2 inv (n * b + a) r * (mcv (mk i) r c * entry2 cl (c mod n) (c / n))))).
  - rewrite sum_swap. apply sum_ext. intros r Hr. rewrite dvec_mcv by assumption. rewrite <- sum_mul_l. apply sum_ext. intros c Hc. reflexivity.
  - rewrite sum_packed. rewrite sum_swap. apply sum_ext. intros j Hj. apply sum_ext. intros l Hl.
    rewrite (nth_tab n) by assumption. rewrite (nth_tab nb) by assumption. rewrite (nth_tab n) by assumption. rewrite (nth_tab nl) by assumption.
    assert (I1 : (n * l + j < n * nl)%nat) by (apply idx_lt; assumption).
    assert (I2 : (n * b + a < n * nb)%nat) by (apply idx_lt; assumption).
    replace (((b * n + a) * nl + l) * n + j)%nat with ((n * nl) * (n * b + a) + (n * l + j))%nat by ring.
    rewrite nth_tab by (replace (n * nb * (n * nl))%nat with ((n * nl) * (n * nb))%nat by ring; apply idx_lt; assumption).
    rewrite (proj1 (divmod_idx _ _ _ I1)), (proj2 (divmod_idx _ _ _ I1)).
    rewrite entry_mat_mul by assumption. rewrite <- sum_mul_r. apply sum_ext. intros r Hr.
    rewrite entry_tab by assumption.
    rewrite (proj1 (divmod_idx _ _ _ Hj)), (proj2 (divmod_idx _ _ _ Hj)). ring.
Qed.

(** ** C15 *)
(** element-wise difference, None counting as zero *)
Definition minus (n k : nat) (cl : mat) (x y : option mat) : mat :=
  tab n (fun a => tab k (fun l => entry2 cl a l
    - match x with Some m => entry2 m a l | None => 0 end - match y with Some m => entry2 m a l | None => 0 end)).
Definition opt_spectra (n k : nat) (x : option mat) : Prop := match x with Some m => spectra n k m | None => True end.

Theorem C15_biases_subtracted i w k cl bias noise : valid i -> compute i = Ok w -> (i_nell i <= k)%nat ->
  spectra (i_ncls i) k cl -> opt_spectra (i_ncls i) k bias -> opt_spectra (i_ncls i) k noise ->
  decouple_cell (obj w) (A2 k cl) (option_map (A2 k) bias) (option_map (A2 k) noise) =
  decouple_cell (obj w) (A2 k (minus (i_ncls i) k cl bias noise)) None None.
Proof.
  intros V C Hk Hc Hb Hn. rewrite compute_ok in C by exact V. injection C as <-. pose proof (mk_shaped i V) as S.
  rewrite (decouple_cell_eq i k cl _ _ (match bias with Some m => m | None => zeros_like cl end) (match noise with Some m => m | None => zeros_like cl end));
    [|exact V|exact Hc|exact Hk|destruct bias; [split; [reflexivity | exact Hb] | reflexivity] |destruct noise; [split; [reflexivity | exact Hn] | reflexivity]].
  rewrite (decouple_plain i k); [|exact V|apply rect_tab|exact Hk].
  erewrite (dvec_ext (mk i)); [reflexivity|exact S|]. intros a l Ha Hl. unfold minus. change (nlm (mk i)) with (i_nell i) in Hl.
  rewrite entry_tab by (try assumption; lia). destruct bias, noise; rewrite ?entry_zeros_like; ring.
Qed.
Theorem C15_decouple_linear i w k cl cl' s o o' : valid i -> compute i = Ok w -> (i_nell i <= k)%nat ->
  spectra (i_ncls i) k cl -> spectra (i_ncls i) k cl' ->
  let nb := Z.to_nat (get_n_bands (i_bin i)) in
  decouple_cell (obj w) (A2 k cl) None None = Ok (A2 nb o) ->
  decouple_cell (obj w) (A2 k cl') None None = Ok (A2 nb o') ->
  decouple_cell (obj w) (A2 k (tab (i_ncls i) (fun a => tab k (fun l => entry2 cl a l + s * entry2 cl' a l)))) None None =
  Ok (A2 nb (tab (i_ncls i) (fun a => tab nb (fun b => entry2 o a b + s * entry2 o' a b)))).
Proof.
  intros V C Hk Hc Hc' nb E E'. rewrite compute_ok in C by exact V. injection C as <-. pose proof (mk_shaped i V) as S.
  rewrite (decouple_plain i k) in E, E' by assumption. rewrite (decouple_plain i k); [|exact V|apply rect_tab|exact Hk].
  apply bind_ok in E. destruct E as [x [Hx E]]. apply bind_ok in E'. destruct E' as [x' [Hx' E']].
  injection E as _ <-. injection E' as Enb <-.
  assert (Hsq := mk_square i). set (N := (w_ncls (mk i) * nbands (mk i))%nat) in *.
  apply (lu_solve_iff N) in Hx; [|exact Hsq|apply length_tab]. apply (lu_solve_iff N) in Hx'; [|exact Hsq|apply length_tab].
  destruct Hx as [Hns [Lx Hx]]. destruct Hx' as [_ [Lx' Hx']].
  match goal with |- context [lu_solve _ ?b] =>
    rewrite (proj2 (lu_solve_iff N (w_mb (mk i)) b (tab N (fun r => nth r x 0 + s * nth r x' 0)) Hsq (length_tab _ _))) end.
  - cbn [bind]. rewrite <- Enb. f_equal. f_equal. unfold unpack. apply tab_ext. intros a Ha. apply tab_ext. intros b Hb.
    rewrite nth_tab by (apply idx_lt; assumption). fold (unpack (mk i) x) (unpack (mk i) x').
    rewrite !entry_unpack by assumption. reflexivity.
  - split; [exact Hns|]. split; [apply length_tab|]. apply (matvec_eq N); [exact Hsq|apply length_tab|apply length_tab|].
    intros r Hr.
    assert (Ex : nth r (matvec (w_mb (mk i)) x) 0 = nth r (dvec (mk i) (fun a l => entry2 cl a l)) 0) by (rewrite Hx; reflexivity).
    assert (Ex' : nth r (matvec (w_mb (mk i)) x') 0 = nth r (dvec (mk i) (fun a l => entry2 cl' a l)) 0) by (rewrite Hx'; reflexivity).
    rewrite (nth_matvec N) in Ex, Ex' by assumption.
    rewrite (sum_ext _ _ (fun c => entry2 (w_mb (mk i)) r c * nth c x 0 + s * (entry2 (w_mb (mk i)) r c * nth c x' 0))).
    2:{ intros c Hc0. rewrite nth_tab by exact Hc0. ring. }
    rewrite sum_add, sum_mul_l, Ex, Ex'. unfold dvec. rewrite !nth_tab by exact Hr. unfold bdat.
    rewrite <- lsum_mul_l, <- lsum_add. apply lsum_ext. intros e He.
    destruct (divmod_lt _ _ r (sh_ncls (mk i) S) Hr) as [D1 D2]. pose proof (band_in (mk i) _ e D1 He S) as Be. cbn in Be.
    rewrite entry_tab; [ring|exact D2|]. unfold i_nell in Hk. unfold el. lia.
Qed.
(** biases that are longer than the spectrum are not truncated but rejected *)
Theorem C15_bias_length i w k kb cl bias : valid i -> compute i = Ok w -> (i_nell i <= k)%nat -> (i_nell i <= kb)%nat -> k <> kb ->
  spectra (i_ncls i) k cl -> spectra (i_ncls i) kb bias ->
  decouple_cell (obj w) (A2 k cl) (Some (A2 kb bias)) None = Exn RuntimeError /\
  decouple_cell (obj w) (A2 k cl) None (Some (A2 kb bias)) = Exn RuntimeError.
Proof.
  intros V C Hk Hkb Hne Hc Hb. rewrite compute_ok in C by exact V. injection C as <-.
  assert (H1 : (1 <= i_ncls i)%nat) by (destruct V; assumption).
  assert (G : forall k0 rows, spectra (i_ncls i) k0 rows -> (i_nell i <= k0)%nat -> spec_shape (ncl (mk i)) (w_lmax (mk i) + 1) (A2 k0 rows) = Ok (k0, rows)).
  { intros k0 rows Hr H0. apply (proj2 (spec_shape_ok (i_ncls i) _ k0 rows H1)). split; [apply Hr|]. unfold i_nell in H0. cbn. lia. }
  unfold decouple_cell. cbn [obj p_wsp need_wsp bind].
  rewrite (G k cl) by assumption. rewrite (G kb bias) by assumption. cbn [bind]. 
  destruct (Nat.eqb_spec k kb); [contradiction|]. destruct (Nat.eqb_spec kb k); [congruence|]. rewrite Nat.eqb_refl. split; reflexivity.
Qed.

(** ** C16 *)
Definition int_ok (z : Z) : Prop := (z <= 2147483647)%Z.
Lemma i32_ok z : (0 <= z)%Z -> int_ok z -> i32 z = Ok z.
Proof. unfold int_ok, i32, int_max. intros. destruct (Z.leb_spec (- (2147483647) - 1) z), (Z.leb_spec z 2147483647); try lia; reflexivity. Qed.
Lemma i32_ub z : (0 <= z)%Z -> ~ int_ok z -> i32 z = UB.
Proof. unfold int_ok, i32, int_max. intros. destruct (Z.leb_spec (- (2147483647) - 1) z), (Z.leb_spec z 2147483647); try lia; reflexivity. Qed.
Lemma nrows_eq i : valid i -> ((w_lmax (mk i) + 1) * ncl (mk i))%Z = Z.of_nat (i_nrows i).
Proof. intros [? [V2 _]]. destruct (valid_bins_facts _ V2) as [_ [_ ?]]. unfold i_nrows, i_nell, ncl. cbn. lia. Qed.
Lemma square_eq n (A : mat) : length A = n -> (forall r, In r A -> length r = n) -> A = tab n (fun i => tab n (fun j => entry2 A i j)).
Proof. intros H1 H2. apply (rect_ext n n); [split; assumption|apply rect_tab|]. intros. rewrite entry_tab by assumption. reflexivity. Qed.
Lemma mcm_rd_mk i r c : valid i -> (r < i_nrows i)%nat -> (c < i_nrows i)%nat ->
  mcm_rd (mk i) (Z.of_nat r) (Z.of_nat c) = Ok (entry2 (i_mcm i) r c).
Proof.
  intros [H1 [H2 [H3 [H4 [H5 [H6 H7]]]]]] Hr Hc. unfold mcm_rd. cbn [mk core set_mb w_mcm].
  rewrite (rd_nat _ _ []) by lia. cbn [bind]. rewrite (rd_nat _ _ 0); [reflexivity|]. rewrite H7; [exact Hc|]. apply nth_In. lia.
Qed.
Lemma get_mk i : valid i -> int_ok ((Z.of_nat (i_nrows i) - 1) * Z.of_nat (i_nrows i)) -> get_coupling_matrix (obj (mk i)) = Ok (i_mcm i).
Proof.
  intros V Hi. unfold get_coupling_matrix. cbn [obj need_wsp p_wsp bind check_unbinned p_unb guard]. rewrite nrows_eq by exact V.
  rewrite Nat2Z.id. destruct (V) as [_ [_ [_ [_ [_ [H6 H7]]]]]]. rewrite (square_eq _ _ H6 H7) at 1.
  apply tabM_ok. intros r Hr. rewrite i32_ok; [|nia|unfold int_ok in *; nia]. cbn [bind]. apply tabM_ok. intros c Hc.
  apply mcm_rd_mk; assumption.
Qed.

(** *** Histories of updates *)
Inductive op :=
| UBeams (b1 b2 : option (list F))  (* None: not an array *)
| UBins (b : bins)
| UMatrix (a : arr F).
Definition apply_op (p : pyw) (o : op) : pyw * res unit :=
  match o with
  | UBeams b1 b2 => update_beams p b1 b2
  | UBins b => update_bins p b
  | UMatrix a => update_coupling_matrix p a
  end.
Fixpoint history (p : pyw) (ops : list op) : pyw * list (res unit) :=
  match ops with
  | [] => (p, [])
  | o :: ops => let '(p1, r) := apply_op p o in let '(p2, rs) := history p1 ops in (p2, r :: rs)
  end.
(** which updates are documented to be accepted *)
Definition acceptable (i : inputs) (o : op) : bool :=
  match o with
  | UBeams (Some v1) (Some v2) => ((i_lmaxf i <? Z.of_nat (length v1)) && (i_lmaxf i <? Z.of_nat (length v2)))%Z
  | UBeams _ _ => false
  | UBins b => (b_lmax b =? b_lmax (i_bin i))%Z
  | UMatrix (A2 k rows) => (Nat.eqb (length rows) (i_nrows i) && Nat.eqb k (i_nrows i))%bool
  | UMatrix (A1 v) => (Nat.eqb (length v) (i_nrows i) && Nat.eqb (i_nrows i) 1)%bool  (* numpy flattens a 1x1 matrix *)
  | UMatrix AN => false
  end.
(** the inputs from which to compute afresh *)
Definition replaced (i : inputs) (o : op) : inputs :=
  let 'Inputs n t lf lm no w2 pcl b b1 b2 m := i in
  match o with
  | UBeams (Some v1) (Some v2) =>
      Inputs n t lf lm no w2 pcl b (firstn (Z.to_nat (lf + 1)) v1) (firstn (Z.to_nat (lf + 1)) v2) m
  | UBeams _ _ => i
  | UBins b' => Inputs n t lf lm no w2 pcl b' b1 b2 m
  | UMatrix (A2 _ rows) => Inputs n t lf lm no w2 pcl b b1 b2 rows
  | UMatrix (A1 v) => Inputs n t lf lm no w2 pcl b b1 b2 [v]
  | UMatrix AN => i
  end.
Definition valid_op (o : op) : Prop :=
  match o with UBins b => valid_bins b | UMatrix a => arr_wf a | _ => True end.
Definition fits (i : inputs) : Prop := int_ok (Z.of_nat (i_nrows i) * Z.of_nat (i_nrows i)).

Lemma valid_replaced i o : valid i -> valid_op o -> acceptable i o = true -> valid (replaced i o) /\ i_nrows (replaced i o) = i_nrows i.
Proof.
  destruct i as [n t lf lm no w2 pcl b b1 b2 m]. unfold valid, i_nrows, i_nell. cbn [i_ncls i_teb i_lmaxf i_lmaxm i_norm i_w2 i_pcl i_bin i_b1 i_b2 i_mcm].
  intros [H1 [H2 [H3 [H4 [H5 [H6 H7]]]]]] Ho Ha. destruct (valid_bins_facts _ H2) as [_ [_ P]].
  destruct o as [[v1|] [v2|]|b'|[v|k rows|]]; cbn [acceptable valid_op i_lmaxf i_bin] in *; try discriminate; cbn [replaced i_ncls i_bin i_lmaxf i_b1 i_b2 i_mcm].
  - apply andb_true_iff in Ha. destruct Ha as [A1' A2']. apply Z.ltb_lt in A1'. apply Z.ltb_lt in A2'. rewrite !firstn_length. repeat split; try assumption; try lia; apply H2.
  - apply Z.eqb_eq in Ha. rewrite Ha. repeat split; try assumption; apply Ho.
  - unfold i_nrows, i_nell in Ha. cbn [i_ncls i_bin] in Ha. apply andb_true_iff in Ha. destruct Ha as [A1' A2']. apply Nat.eqb_eq in A1'. apply Nat.eqb_eq in A2'.
    rewrite A2' in *. repeat split; try assumption; try apply H2. intros r [<-|[]]. exact A1'.
  - unfold i_nrows, i_nell in Ha. cbn [i_ncls i_bin] in Ha. apply andb_true_iff in Ha. destruct Ha as [A1' A2']. apply Nat.eqb_eq in A1'. apply Nat.eqb_eq in A2'.
    cbn in Ho. rewrite Forall_forall in Ho. repeat split; try assumption; try apply H2. intros r Hr. rewrite (Ho r Hr). exact A2'.
Qed.
Lemma run_bin_core i w : valid i -> (forall m, set_mb w m = set_mb (core i) m) -> run_bin w = (mk i, Ok tt).
Proof.
  intros V E. assert (S : shaped w).
  { pose proof (core_shaped i V) as S. pose proof (E []) as E0. destruct w. unfold set_mb in E0. cbn in E0. injection E0 as -> -> -> -> -> -> -> -> -> -> ->.
    destruct S. constructor; assumption. }
  unfold run_bin. rewrite bin_coupling_ok by exact S. f_equal. rewrite E. unfold mk. f_equal.
  transitivity (mb_tab (set_mb w [])); [reflexivity|]. rewrite E. reflexivity.
Qed.
Lemma beams_firstn lf (v1 v2 : list F) :
  tab (Z.to_nat (lf + 1)) (fun l => nth l v1 0 * nth l v2 0) =
  tab (Z.to_nat (lf + 1)) (fun l => nth l (firstn (Z.to_nat (lf + 1)) v1) 0 * nth l (firstn (Z.to_nat (lf + 1)) v2) 0).
Proof. apply tab_ext. intros l Hl. rewrite !nth_firstn_lt by exact Hl. reflexivity. Qed.
Lemma concat_rows (rows : mat) k : (forall r, In r rows -> length r = k) -> length (concat rows) = (length rows * k)%nat.
Proof. induction rows as [|r rows IH]; intro H; simpl; [reflexivity|]. rewrite app_length, IH by (intros; apply H; right; assumption). rewrite (H r) by (left; reflexivity). reflexivity. Qed.
Lemma nth_concat_rows (rows : mat) k : (forall r, In r rows -> length r = k) -> forall i j, (i < length rows)%nat -> (j < k)%nat ->
  nth (i * k + j) (concat rows) 0 = entry2 rows i j.
Proof.
  induction rows as [|r rows IH]; intros H i j Hi Hj; simpl in Hi; [lia|]. simpl. assert (Lr : length r = k) by (apply H; left; reflexivity).
  destruct i as [|i].
  - rewrite app_nth1 by lia. reflexivity.
  - rewrite app_nth2 by nia. replace (S i * k + j - length r)%nat with (i * k + j)%nat by nia. apply IH; [intros; apply H; right; assumption|lia|exact Hj].
Qed.
Lemma slices N (flat : list F) (M : mat) : int_ok (Z.of_nat N * Z.of_nat N) -> length flat = (N * N)%nat -> length M = N -> (forall r, In r M -> length r = N) ->
  (forall i j, (i < N)%nat -> (j < N)%nat -> nth (i * N + j) flat 0 = entry2 M i j) ->
  tabM (Z.to_nat (Z.of_nat N)) (fun ii => do o <- i32 (Z.of_nat ii * Z.of_nat N); slice flat o (Z.of_nat N)) = Ok M.
Proof.
  intros Hi HL H1 H2 H. rewrite (square_eq N M H1 H2). rewrite Nat2Z.id. apply tabM_ok. intros r Hr.
  rewrite i32_ok; [|nia|unfold int_ok in *; nia]. cbn [bind]. unfold slice. rewrite Nat2Z.id. apply tabM_ok. intros c Hc.
  replace (Z.of_nat r * Z.of_nat N + Z.of_nat c)%Z with (Z.of_nat (r * N + c)) by lia. rewrite (rd_nat _ _ 0) by nia. f_equal. apply H; assumption.
Qed.
Lemma update_matrix_flat i flat M len : valid i -> fits i -> len = Z.of_nat (i_nrows i) -> length flat = (i_nrows i * i_nrows i)%nat ->
  length M = i_nrows i -> (forall r, In r M -> length r = i_nrows i) ->
  (forall a j, (a < i_nrows i)%nat -> (j < i_nrows i)%nat -> nth (a * i_nrows i + j) flat 0 = entry2 M a j) ->
  c_update_coupling_matrix (mk i) len flat = (mk (Inputs (i_ncls i) (i_teb i) (i_lmaxf i) (i_lmaxm i) (i_norm i) (i_w2 i) (i_pcl i) (i_bin i) (i_b1 i) (i_b2 i) M), Ok tt).
Proof.
  intros V Hf -> HL H1 H2 H. unfold c_update_coupling_matrix. rewrite (Z.mul_comm (ncl _)). rewrite nrows_eq by exact V. rewrite Z.eqb_refl. cbn [negb].
  cbn [mk core set_mb w_mcm]. rewrite (slices (i_nrows i) flat M) by assumption.
  apply run_bin_core; [|reflexivity].
  destruct V as [V1 [V2 [V3 [V4 [V5 _]]]]]. repeat split; try assumption; apply V2.
Qed.
Lemma apply_op_spec i o : valid i -> fits i -> valid_op o ->
  if acceptable i o then apply_op (obj (mk i)) o = (obj (mk (replaced i o)), Ok tt)
  else exists e, apply_op (obj (mk i)) o = (obj (mk i), Exn e).
Proof.
  intros V Hf Ho. destruct (acceptable i o) eqn:Ha.
  - destruct (valid_replaced i o V Ho Ha) as [V' _].
    assert (Elm : w_lmax_fields (mk i) = i_lmaxf i) by reflexivity.
    destruct o as [[v1|] [v2|]|b'|[v|k rows|]]; cbn [acceptable] in Ha; try discriminate.
    + cbn [apply_op update_beams on_wsp obj p_wsp]. rewrite Elm.
      destruct (Z.leb_spec (Z.of_nat (length v1)) (i_lmaxf i)), (Z.leb_spec (Z.of_nat (length v2)) (i_lmaxf i)); try lia. cbn [orb].
      unfold c_update_beams. rewrite Elm.
      destruct (Z.leb_spec (Z.of_nat (length v1)) (i_lmaxf i)), (Z.leb_spec (Z.of_nat (length v2)) (i_lmaxf i)); try lia. cbn [orb].
      rewrite beam_product_ok by lia. rewrite (run_bin_core (replaced i (UBeams (Some v1) (Some v2)))); [reflexivity|exact V'|].
      intro m. destruct i. cbn [replaced]. unfold set_mb, core, beams. cbn. rewrite beams_firstn. reflexivity.
    + cbn [apply_op]. unfold update_bins. cbn [on_wsp obj p_wsp]. unfold c_update_bins. apply Z.eqb_eq in Ha.
      cbn [mk core set_mb w_bin]. rewrite Ha, Z.eqb_refl. cbn [negb].
      rewrite (run_bin_core (replaced i (UBins b'))); [reflexivity|exact V'|]. intro m. destruct i. cbn [replaced] in *. unfold set_mb, core, set_bin. cbn. cbn in Ha. rewrite <- Ha. reflexivity.
    + apply andb_true_iff in Ha. destruct Ha as [A1' A2']. apply Nat.eqb_eq in A1'. apply Nat.eqb_eq in A2'.
      cbn [apply_op]. unfold update_coupling_matrix. cbn [on_wsp obj p_wsp]. cbn [check_unbinned p_unb guard]. rewrite nrows_eq by exact V. cbn [arr_len flatten]. rewrite A1', Z.eqb_refl. cbn [negb].
      rewrite i32_ok; [|nia|exact Hf]. destruct (Z.eqb_spec (Z.of_nat (i_nrows i)) (Z.of_nat (i_nrows i) * Z.of_nat (i_nrows i))); [|nia]. cbn [negb].
      rewrite (update_matrix_flat i v [v]); try assumption; try reflexivity; try nia.
      * destruct i; reflexivity.
      * simpl. lia.
      * intros r [<-|[]]. exact A1'.
      * intros a j Ha Hj. replace a with 0%nat by lia. reflexivity.
    + apply andb_true_iff in Ha. destruct Ha as [A1' A2']. apply Nat.eqb_eq in A1'. apply Nat.eqb_eq in A2'.
      cbn [valid_op arr_wf] in Ho. rewrite Forall_forall in Ho. rewrite A2' in Ho.
      assert (LC : length (concat rows) = (i_nrows i * i_nrows i)%nat) by (rewrite (concat_rows rows (i_nrows i)), A1' by exact Ho; reflexivity).
      cbn [apply_op]. unfold update_coupling_matrix. cbn [on_wsp obj p_wsp]. cbn [check_unbinned p_unb guard]. rewrite nrows_eq by exact V. cbn [arr_len flatten]. rewrite A1', Z.eqb_refl. cbn [negb].
      rewrite i32_ok; [|nia|exact Hf].
      destruct (Z.eqb_spec (Z.of_nat (length (concat rows))) (Z.of_nat (i_nrows i) * Z.of_nat (i_nrows i))); [|nia]. cbn [negb].
      rewrite (update_matrix_flat i (concat rows) rows); try assumption; try reflexivity.
      * destruct i; reflexivity.
      * intros a j Ha Hj. apply nth_concat_rows; [exact Ho|lia|exact Hj].
  - destruct o as [[v1|] [v2|]|b'|a]; cbn [apply_op update_beams]; try (eexists; reflexivity).
    + cbn [on_wsp obj p_wsp]. cbn [acceptable] in Ha. change (w_lmax_fields (mk i)) with (i_lmaxf i).
      destruct (Z.leb_spec (Z.of_nat (length v1)) (i_lmaxf i)), (Z.leb_spec (Z.of_nat (length v2)) (i_lmaxf i)); try (eexists; reflexivity). exfalso. lia.
    + unfold update_bins. cbn [on_wsp obj p_wsp]. unfold c_update_bins. cbn [acceptable] in Ha. cbn [mk core set_mb w_bin]. rewrite Ha. eexists. reflexivity.
    + unfold update_coupling_matrix. cbn [on_wsp obj p_wsp]. cbn [check_unbinned p_unb guard]. rewrite nrows_eq by exact V.
      destruct (Z.eqb_spec (arr_len a) (Z.of_nat (i_nrows i))) as [E|E]; cbn [negb]; [|eexists; reflexivity]. rewrite E. rewrite i32_ok; [|nia|exact Hf].
      destruct (Z.eqb_spec (Z.of_nat (length (flatten a))) (Z.of_nat (i_nrows i) * Z.of_nat (i_nrows i))) as [E'|E']; cbn [negb]; [|eexists; reflexivity].
      exfalso. assert (Hpos : (1 <= i_nrows i)%nat).
      { destruct V as [? [V2 _]]. destruct (valid_bins_facts _ V2) as [_ [_ ?]]. unfold i_nrows, i_nell. nia. }
      destruct a as [v|k rows|]; cbn [arr_len flatten acceptable valid_op arr_wf] in *.
      * assert (i_nrows i = 1)%nat by nia. assert (length v = i_nrows i) by lia. rewrite (proj2 (Nat.eqb_eq _ _) H0), (proj2 (Nat.eqb_eq _ _) H) in Ha. discriminate.
      * rewrite Forall_forall in Ho. rewrite (concat_rows rows k Ho) in E'. assert (length rows = i_nrows i) by lia. assert (k = i_nrows i) by nia.
        rewrite (proj2 (Nat.eqb_eq _ _) H), (proj2 (Nat.eqb_eq _ _) H0) in Ha. discriminate.
      * lia.
Qed.

(** C16-C18: after any sequence of updates the workspace is the one computed afresh from the latest
    accepted beams, bins and matrix (so every method gives the same results); an update is accepted
    exactly if it has the documented shape, and a rejected one raises and changes nothing. *)
Definition latest (i : inputs) (ops : list op) : inputs :=
  fold_left (fun i o => if acceptable i o then replaced i o else i) ops i.
Lemma history_mk ops : forall i, valid i -> fits i -> Forall valid_op ops ->
  exists rs, history (obj (mk i)) ops = (obj (mk (latest i ops)), rs) /\ valid (latest i ops) /\ length rs = length ops /\
  forall k o, nth_error ops k = Some o ->
    if acceptable (latest i (firstn k ops)) o then nth_error rs k = Some (Ok tt) else exists e, nth_error rs k = Some (Exn e).
Proof.
  induction ops as [|o ops IH]; intros i V Hf Ho; cbn [history].
  - exists []. repeat split; try assumption; try apply V. intros [|k] o H; discriminate.
  - inversion Ho as [|? ? Ho1 Ho2]; subst. pose proof (apply_op_spec i o V Hf Ho1) as S.
    set (i' := if acceptable i o then replaced i o else i).
    assert (V' : valid i' /\ fits i').
    { unfold i', fits in *. destruct (acceptable i o) eqn:E; [|split; assumption]. destruct (valid_replaced i o V Ho1 E) as [? ->]. split; assumption. }
    destruct V' as [V' Hf']. destruct (IH i' V' Hf' Ho2) as [rs [Hh [Hv [Hl Hk]]]].
    assert (G : exists r, apply_op (obj (mk i)) o = (obj (mk i'), r) /\ if acceptable i o then r = Ok tt else exists e, r = Exn e).
    { unfold i'. destruct (acceptable i o); [eexists; split; [exact S | reflexivity]|]. destruct S as [e S]. eexists. split; [exact S | eexists; reflexivity]. }
    destruct G as [r [Hr Hr']]. rewrite Hr, Hh. exists (r :: rs). split; [reflexivity|]. split; [exact Hv|]. split; [simpl; congruence|].
    intros [|k] o' H.
    + injection H as <-. cbn. destruct (acceptable i o); [rewrite Hr'; reflexivity|]. destruct Hr' as [e ->]. exists e. reflexivity.
    + cbn [nth_error firstn] in *. specialize (Hk k o' H). exact Hk.
Qed.
Theorem C18_updates_are_recomputation i w ops p rs : valid i -> fits i -> compute i = Ok w -> Forall valid_op ops ->
  history (obj w) ops = (p, rs) ->
  (exists w', p = obj w' /\ compute (latest i ops) = Ok w') /\
  (forall k o, nth_error ops k = Some o ->
    if acceptable (latest i (firstn k ops)) o then nth_error rs k = Some (Ok tt) else exists e, nth_error rs k = Some (Exn e)).
Proof.
  intros V Hf C Ho H. rewrite compute_ok in C by exact V. injection C as <-.
  destruct (history_mk ops i V Hf Ho) as [rs' [Hh [Hv [Hl Hk]]]]. rewrite Hh in H. injection H as <- <-.
  split; [|exact Hk]. eexists. split; [reflexivity|]. apply compute_ok, Hv.
Qed.
(** the latest beams win: whatever happened before *)
Theorem C17_latest_beams_win i w ops p rs v1 v2 : valid i -> fits i -> compute i = Ok w -> Forall valid_op ops ->
  history (obj w) ops = (p, rs) ->
  (i_lmaxf i < Z.of_nat (length v1))%Z -> (i_lmaxf i < Z.of_nat (length v2))%Z ->
  let n := Z.to_nat (i_lmaxf i + 1) in
  exists w', update_beams p (Some v1) (Some v2) = (obj w', Ok tt) /\
    let j := latest i ops in
    compute (Inputs (i_ncls i) (i_teb i) (i_lmaxf i) (i_lmaxm i) (i_norm i) (i_w2 i) (i_pcl i)
                    (i_bin j) (firstn n v1) (firstn n v2) (i_mcm j)) = Ok w'.
Proof.
  intros V Hf C Ho H H1 H2 n. rewrite compute_ok in C by exact V. injection C as <-.
  destruct (history_mk ops i V Hf Ho) as [rs' [Hh [Hv [Hl Hk]]]]. rewrite Hh in H. injection H as <- <-.
  assert (G : let j := latest i ops in i_ncls j = i_ncls i /\ i_teb j = i_teb i /\ i_lmaxf j = i_lmaxf i /\ i_lmaxm j = i_lmaxm i /\ i_norm j = i_norm i /\ i_w2 j = i_w2 i /\ i_pcl j = i_pcl i /\ i_nrows j = i_nrows i).
  { clear -V Ho. unfold latest. revert i V Ho. induction ops as [|o ops IH]; intros i V Ho; [repeat split|]. inversion Ho; subst.
    cbn [fold_left]. destruct (acceptable i o) eqn:E; [|apply IH; assumption]. destruct (valid_replaced i o V H1 E) as [V' N'].
    specialize (IH (replaced i o) V' H2). cbv zeta in *. 
    destruct IH as [-> [-> [-> [-> [-> [-> [-> ->]]]]]]]. rewrite N'. destruct i, o as [[|] [|]|?|[?|? ?|]]; repeat split. }
  cbv zeta in *. set (j := latest i ops) in *. clearbody j.
  destruct G as [G1 [G2 [G3 [G4 [G5 [G6 [G7 G8]]]]]]].
  assert (Fj : fits j) by (unfold fits in *; rewrite G8; exact Hf).
  pose proof (apply_op_spec j (UBeams (Some v1) (Some v2)) Hv Fj I) as S.
  assert (A : acceptable j (UBeams (Some v1) (Some v2)) = true) by (cbn; rewrite G3; lia).
  rewrite A in S. cbn [apply_op] in S. eexists. split; [exact S|].
  destruct (valid_replaced j (UBeams (Some v1) (Some v2)) Hv I A) as [V' _]. rewrite <- (compute_ok _ V').
  subst n. destruct j. cbn in *. subst. reflexivity.
Qed.
(** update_bins: same statement for one step *)
Theorem C18_update_bins i w b : valid i -> compute i = Ok w -> valid_bins b ->
  if (b_lmax b =? b_lmax (i_bin i))%Z
  then exists w', update_bins (obj w) b = (obj w', Ok tt) /\
         compute (Inputs (i_ncls i) (i_teb i) (i_lmaxf i) (i_lmaxm i) (i_norm i) (i_w2 i) (i_pcl i) b (i_b1 i) (i_b2 i) (i_mcm i)) = Ok w'
  else exists e, update_bins (obj w) b = (obj w, Exn e).
Proof.
  intros V C Hb. rewrite compute_ok in C by exact V. injection C as <-.
  unfold update_bins. cbn [on_wsp obj p_wsp]. unfold c_update_bins. cbn [mk core set_mb w_bin].
  destruct (Z.eqb_spec (b_lmax b) (b_lmax (i_bin i))) as [E|E]; cbn [negb]; [|eexists; reflexivity].
  destruct (valid_replaced i (UBins b) V Hb (proj2 (Z.eqb_eq _ _) E)) as [V' _].
  assert (ER : replaced i (UBins b) = Inputs (i_ncls i) (i_teb i) (i_lmaxf i) (i_lmaxm i) (i_norm i) (i_w2 i) (i_pcl i) b (i_b1 i) (i_b2 i) (i_mcm i)) by (destruct i; reflexivity).
  rewrite ER in V'. exists (mk (Inputs (i_ncls i) (i_teb i) (i_lmaxf i) (i_lmaxm i) (i_norm i) (i_w2 i) (i_pcl i) b (i_b1 i) (i_b2 i) (i_mcm i))).
  split; [|apply compute_ok, V'].
  rewrite (run_bin_core _ _ V'); [reflexivity|]. intro m. unfold set_mb, core, set_bin. cbn. rewrite <- E. reflexivity.
Qed.

(** C16: reading back an updated matrix *)
Theorem C16_get_after_update i w M : valid i -> fits i -> compute i = Ok w -> spectra (i_nrows i) (i_nrows i) M ->
  exists w', update_coupling_matrix (obj w) (A2 (i_nrows i) M) = (obj w', Ok tt) /\ get_coupling_matrix (obj w') = Ok M.
Proof.
  intros V Hf C [HM1 HM2]. rewrite compute_ok in C by exact V. injection C as <-.
  assert (Ho : valid_op (UMatrix (A2 (i_nrows i) M))) by (cbn; apply Forall_forall; exact HM2).
  assert (A : acceptable i (UMatrix (A2 (i_nrows i) M)) = true) by (cbn; rewrite HM1, Nat.eqb_refl; reflexivity).
  pose proof (apply_op_spec i _ V Hf Ho) as S. rewrite A in S. destruct (valid_replaced i _ V Ho A) as [V' N'].
  eexists. split; [exact S|]. rewrite get_mk; [destruct i; reflexivity|exact V'|]. rewrite N'. unfold fits, int_ok in *. nia.
Qed.
Theorem C16_update_with_own_matrix i w M : valid i -> fits i -> compute i = Ok w -> get_coupling_matrix (obj w) = Ok M ->
  update_coupling_matrix (obj w) (A2 (i_nrows i) M) = (obj w, Ok tt).
Proof.
  intros V Hf C HM. rewrite compute_ok in C by exact V. injection C as <-. rewrite get_mk in HM; [|exact V|unfold fits, int_ok in *; nia].
  injection HM as <-. destruct (V) as [_ [_ [_ [_ [_ [H6 H7]]]]]].
  assert (Ho : valid_op (UMatrix (A2 (i_nrows i) (i_mcm i)))) by (cbn; apply Forall_forall; exact H7).
  assert (A : acceptable i (UMatrix (A2 (i_nrows i) (i_mcm i))) = true) by (cbn; rewrite H6, Nat.eqb_refl; reflexivity).
  pose proof (apply_op_spec i _ V Hf Ho) as S. rewrite A in S. cbn [apply_op] in S. rewrite S. destruct i; reflexivity.
Qed.
Theorem C16_other_shapes_rejected i w a : valid i -> fits i -> compute i = Ok w -> arr_wf a ->
  a <> A2 (i_nrows i) (match a with A2 _ m => m | _ => [] end) \/ arr_len a <> Z.of_nat (i_nrows i) ->
  (forall v, a = A1 v -> i_nrows i <> 1%nat) ->
  exists e, update_coupling_matrix (obj w) a = (obj w, Exn e).
Proof.
  intros V Hf C Ha Hne H1. rewrite compute_ok in C by exact V. injection C as <-.
  pose proof (apply_op_spec i (UMatrix a) V Hf Ha) as S. cbn [apply_op] in S.
  assert (A : acceptable i (UMatrix a) = false); [|rewrite A in S; exact S].
  destruct a as [v|k rows|]; cbn in *.
  - destruct (Nat.eqb_spec (i_nrows i) 1); [exfalso; apply (H1 v); [reflexivity | assumption]|]. apply andb_false_r.
  - destruct (Nat.eqb_spec (length rows) (i_nrows i)), (Nat.eqb_spec k (i_nrows i)); try reflexivity. exfalso. subst k. destruct Hne as [N|N]; [apply N; reflexivity | lia].
  - reflexivity.
Qed.
Lemma mapM_ub {A B} (f : A -> res B) l : (forall a, In a l -> forall e, f a <> Exn e) -> (exists a, In a l /\ f a = UB) -> mapM f l = UB.
Proof.
  induction l as [|a l IH]; intros HE [a0 [Hin HU]]; [destruct Hin|]. cbn [mapM].
  destruct (f a) as [b|e|] eqn:E; [|exfalso; apply (HE a (or_introl eq_refl) e E)|reflexivity]. cbn [bind].
  destruct Hin as [->|Hin]; [congruence|]. rewrite IH; [reflexivity|intros; apply HE; right; assumption|exists a0; auto].
Qed.
(** beyond 46341 rows the index computed in 32-bit arithmetic overflows (undefined behaviour) *)
Theorem C16_get_overflows i w : valid i -> compute i = Ok w -> (46341 < Z.of_nat (i_nrows i))%Z -> get_coupling_matrix (obj w) = UB.
Proof.
  intros V C Hbig. rewrite compute_ok in C by exact V. injection C as <-.
  unfold get_coupling_matrix. cbn [obj need_wsp p_wsp bind check_unbinned p_unb guard]. rewrite nrows_eq by exact V.
  rewrite Nat2Z.id. unfold tabM. apply mapM_ub.
  - intros a Ha e E. apply in_seq in Ha. destruct (Z_le_gt_dec (Z.of_nat a * Z.of_nat (i_nrows i)) 2147483647) as [L|L].
    + rewrite i32_ok in E by (unfold int_ok; lia). cbn [bind] in E. 
      pose proof (tabM_ok (i_nrows i) (fun jj => mcm_rd (mk i) (Z.of_nat a) (Z.of_nat jj)) (fun jj => entry2 (i_mcm i) a jj)) as T.
      unfold tabM in T. rewrite T in E; [discriminate|]. intros c Hc. apply mcm_rd_mk; [exact V|lia|exact Hc].
    + rewrite i32_ub in E by (unfold int_ok; lia). discriminate.
  - exists (i_nrows i - 1)%nat. split; [apply in_seq; lia|]. rewrite i32_ub; [reflexivity|nia|unfold int_ok; nia].
Qed.
Theorem C16_update_overflows i w M : valid i -> compute i = Ok w -> (46340 < Z.of_nat (i_nrows i))%Z -> length M = i_nrows i ->
  snd (update_coupling_matrix (obj w) (A2 (i_nrows i) M)) = UB.
Proof.
  intros V C Hbig HM. rewrite compute_ok in C by exact V. injection C as <-.
  unfold update_coupling_matrix. cbn [on_wsp obj p_wsp]. cbn [check_unbinned p_unb guard]. rewrite nrows_eq by exact V.
  cbn [arr_len]. rewrite HM, Z.eqb_refl. cbn [negb]. rewrite i32_ub; [reflexivity|nia|unfold int_ok; nia].
Qed.

(** ** C19 *)
Theorem C19_fkp i w cl rows : valid i -> compute i = Ok w -> i_norm i <> 0%Z -> i_w2 i <> 0 ->
  spectra (i_ncls i) (i_nell i) cl ->
  bin_cell (i_bin i) (A2 (i_nell i) cl) = Ok (A2 (Z.to_nat (get_n_bands (i_bin i))) rows) ->
  decouple_cell (obj w) (A2 (i_nell i) cl) None None =
  Ok (A2 (Z.to_nat (get_n_bands (i_bin i))) (map (map (fun x => x / i_w2 i)) rows)).
Proof.
  intros V C Hn Hw2 Hc Hb. rewrite compute_ok in C by exact V. injection C as <-. pose proof (mk_shaped i V) as S.
  rewrite (decouple_plain i (i_nell i)); [|exact V|exact Hc|apply le_n].
  change (w_mb (mk i)) with (mb_tab (core i)).
  rewrite (solve_diag (core i)); [|apply core_shaped, V|cbn; lia|exact Hw2|apply length_tab]. cbn [bind].
  assert (ENb : Z.to_nat (get_n_bands (i_bin i)) = nbands (mk i)) by (unfold get_n_bands, nbands; cbn; lia).
  rewrite ENb in *. f_equal. f_equal.
  destruct (V) as [Hn1 [Vb _]]. destruct (valid_bins_facts _ Vb) as [Wb [Eb Pb]].
  assert (Hcl : Forall (fun r => Z.of_nat (length r) = (b_lmax (i_bin i) + 1)%Z) cl).
  { apply Forall_forall. intros r Hr. destruct Hc as [_ Hc]. rewrite (Hc r Hr). unfold i_nell. lia. }
  assert (Er : rows = map (fun c => map (bp_val c) (b_bands (i_bin i))) cl).
  { unfold bin_cell, shape_guard in Hb. destruct cl as [|r cl]; [discriminate|].
    destruct (_ =? _)%Z; [|discriminate]. cbn [bind] in Hb. rewrite bin_eq in Hb by assumption. cbn [bind] in Hb. unfold reshape in Hb. congruence. }
  subst rows. destruct Hc as [Hc1 Hc2].
  apply (rect_ext (i_ncls i) (nbands (mk i))).
  - apply (rect_unpack (mk i)).
  - split; [rewrite !map_length; exact Hc1|]. intros r Hr. apply in_map_iff in Hr. destruct Hr as [r1 [<- Hr]]. apply in_map_iff in Hr. destruct Hr as [r2 [<- _]].
    rewrite !map_length. reflexivity.
  - intros a b Ha Hb'. rewrite (entry_unpack (mk i)) by assumption.
    assert (I : (w_ncls (mk i) * b + a < w_ncls (mk i) * nbands (mk i))%nat) by (apply idx_lt; assumption).
    rewrite (nth_indep _ 0 (0 / w2v (core i))) by (rewrite map_length; unfold dvec; rewrite length_tab; exact I).
    rewrite (map_nth (fun y => y / w2v (core i))). change (w2v (core i)) with (i_w2 i).
    change (core i) with (core i). rewrite (nth_dvec (mk i)) by assumption.
    unfold entry2. rewrite map_map.
    rewrite (nth_indep _ [] ((fun c => map (fun x => x / i_w2 i) (map (bp_val c) (b_bands (i_bin i)))) [])) by (rewrite map_length; lia).
    rewrite (map_nth (fun c => map (fun x => x / i_w2 i) (map (bp_val c) (b_bands (i_bin i)))) cl []). rewrite map_map.
    rewrite (nth_indep _ 0 ((fun x => bp_val (nth a cl []) x / i_w2 i) [])) by (rewrite map_length; exact Hb').
    rewrite (map_nth (fun x => bp_val (nth a cl []) x / i_w2 i)). f_equal. unfold bdat, bp_val, band, el. cbn [mk core set_mb w_bin].
    apply lsum_ext. intros e _. ring.
Qed.
(** so the result does not depend on the coupling matrix or the beams *)
Theorem C19_fkp_independent i i' w w' cl o : valid i -> valid i' -> compute i = Ok w -> compute i' = Ok w' ->
  i_norm i <> 0%Z -> i_norm i' <> 0%Z -> i_w2 i <> 0 -> i_w2 i' = i_w2 i -> i_bin i' = i_bin i -> i_ncls i' = i_ncls i ->
  spectra (i_ncls i) (i_nell i) cl ->
  decouple_cell (obj w) (A2 (i_nell i) cl) None None = Ok o -> decouple_cell (obj w') (A2 (i_nell i) cl) None None = Ok o.
Proof.
  intros V V' C C' Hn Hn' H0 E2 Eb En Hc H.
  destruct (V) as [Hn1 [Vb _]]. destruct (valid_bins_facts _ Vb) as [Wb [Ein Pb]].
  assert (Hb : exists rows, bin_cell (i_bin i) (A2 (i_nell i) cl) = Ok (A2 (Z.to_nat (get_n_bands (i_bin i))) rows)).
  { unfold bin_cell, shape_guard. destruct cl as [|r cl]; [destruct Hc as [Hc _]; simpl in Hc; lia|].
    destruct (Z.eqb_spec (Z.of_nat (i_nell i)) (b_lmax (i_bin i) + 1)) as [_|N]; [|unfold i_nell in N; lia]. cbn [bind].
    rewrite bin_eq; [|exact Ein|]. 2:{ apply Forall_forall. intros x Hx. destruct Hc as [_ Hc]. rewrite (Hc x Hx). unfold i_nell. lia. }
    cbn [bind reshape]. eexists. unfold get_n_bands. rewrite Nat2Z.id. reflexivity. }
  destruct Hb as [rows Hb]. rewrite (C19_fkp i w cl rows) in H by assumption. 
  assert (Enl : i_nell i' = i_nell i) by (unfold i_nell; rewrite Eb; reflexivity).
  pose proof (C19_fkp i' w' cl rows V' C' Hn') as T. rewrite E2, Eb, En, Enl in T. rewrite <- H. apply T; assumption.
Qed.
End Statements.

(** ** Concrete cases *)
Section Examples.
Local Notation Q := Qc_field.
Definition exb : bins Q := from_ok (Bins 0 []) (NmtBin [0; 0; 1; 1]%Z [1; 2; 3; 4]%Z (Some 4%Z) (Some [qz 1; qz 3; qz 2; qz 2]) (Some [qz 1; qz 2; qz 3; qz 4])).
Definition exb2 : bins Q := from_ok (Bins 0 []) (NmtBin [0; 1; 1]%Z [0; 3; 4]%Z (Some 4%Z) None None).
Definition exm (d : Z) : list (list Q) := tab 10 (fun r => tab 10 (fun c => if Nat.eqb r c then qz (d + Z.of_nat r) else q 1 (Z.to_pos (Z.of_nat (2 + r + 3 * c))))).
Definition ex (b : bins Q) (norm : Z) : inputs :=
  Inputs 2 false 5 9 norm (q 2 3) [] b (map qz [1; 2; 3; 4; 5; 6]%Z) (map (q 1) [1; 2; 3; 2; 1; 2]%positive) (exm 7).
Definition exb3 : bins Q := from_ok (Bins 0 []) (NmtBin [0; 1; 1]%Z [0; 2; 3]%Z None None None).
Ltac solve_valid := split; [do 5 eexists; apply from_ok_eq; vm_compute; reflexivity | apply nonneg_check; vm_compute; reflexivity].
Lemma exb_valid : valid_bins exb. Proof. solve_valid. Qed.
Lemma exb2_valid : valid_bins exb2. Proof. solve_valid. Qed.
Lemma exb3_valid : valid_bins exb3. Proof. solve_valid. Qed.
Lemma ex_valid b norm : valid_bins b -> b_lmax b = 4%Z -> valid (ex b norm).
Proof.
  intros H E. unfold valid, i_nrows, i_nell. cbn [ex i_ncls i_bin i_lmaxf i_b1 i_b2 i_mcm]. rewrite E.
  repeat split; try apply H; try (vm_compute; (reflexivity || discriminate)); try lia.
  intros r Hr. unfold exm, tab in Hr. apply in_map_iff in Hr. destruct Hr as [k [<- _]]. rewrite map_length, seq_length. reflexivity.
Qed.
Definition show2 (a : arr Q) := match a with A2 _ v => map (map out) v | _ => [] end.
Lemma exb_no_repeats : no_repeats exb.
Proof.
  assert (G : forall ib L, (0 <= ib)%Z -> get_ell_list exb ib = Ok L -> (ib = 0 /\ L = [1; 2])%Z \/ (ib = 1 /\ L = [3; 4])%Z).
  { intros ib L Hi HL. destruct (Z.eq_dec ib 0) as [->|]; [|destruct (Z.eq_dec ib 1) as [->|]].
    - left. assert (E : get_ell_list exb 0 = Ok [1; 2]%Z) by (vm_compute; reflexivity). rewrite E in HL. injection HL as <-. auto.
    - right. assert (E : get_ell_list exb 1 = Ok [3; 4]%Z) by (vm_compute; reflexivity). rewrite E in HL. injection HL as <-. auto.
    - exfalso. unfold get_ell_list in HL. apply bind_ok in HL. destruct HL as [x [HL _]]. unfold get_band in HL.
      assert (E : get_n_bands exb = 2%Z) by (vm_compute; reflexivity). rewrite E in HL. destruct (ib <? 2)%Z eqn:E1; [lia|discriminate]. }
  intros ib ib' L L' k k' l Hi Hi' HL HL' Hk Hk'. apply G in HL; [|exact Hi]. apply G in HL'; [|exact Hi'].
  destruct HL as [[-> ->]|[-> ->]], HL' as [[-> ->]|[-> ->]]; destruct k as [|[|[|k]]], k' as [|[|[|k']]]; simpl in *; try discriminate; split; congruence.
Qed.

(** C12-C15, C17, C18: inputs satisfying the hypotheses; the binned matrix is invertible *)
Example ex_master : valid (ex exb 0) /\ fits (ex exb 0) /\ no_repeats exb /\
  exists w, compute (ex exb 0) = Ok w /\
  (exists a o, arr_wf a /\ decouple_cell (obj w) a None None = Ok o) /\
  is_ok (get_bandpower_windows (obj w)) = true /\ is_ok (get_coupling_matrix (obj w)) = true.
Proof.
  assert (V : valid (ex exb 0)) by (apply ex_valid; [apply exb_valid | vm_compute; reflexivity]).
  split; [exact V|]. split; [vm_compute; discriminate|]. split; [apply exb_no_repeats|].
  eexists. split; [apply (compute_ok _ V)|]. split; [|split; vm_compute; reflexivity].
  exists (A2 5 (tab 2 (fun i => tab 5 (fun l => qz (Z.of_nat (i + l)))))).
  eexists. split; [repeat constructor|]. apply (from_ok_eq AN). vm_compute. reflexivity.
Qed.
(** the round trip of C13 evaluated *)
Example ex_roundtrip : let w := mk (ex exb 0) in let v := [[qz 3; qz (-5)]; [qz 7; q 1 2]] in
  (do c <- unbin_cell exb (A2 2 v); do d <- couple_cell (obj w) c; do o <- decouple_cell (obj w) d None None; Ok (show2 o))
  = Ok (map (map out) v).
Proof. vm_compute. reflexivity. Qed.
(** C16-C18: a history with accepted and rejected updates *)
Definition ex_ops : list (op (F:=Q)) :=
  [UBins exb2; UBeams (Some (map qz [1; 1; 1; 1; 1]%Z)) (Some (map qz [1; 1; 1; 1; 1; 1]%Z)); UMatrix (A2 10 (exm 3));
   UBeams (Some (map qz [1; 2; 1; 1; 1; 2; 3]%Z)) (Some (map qz [1; 1; 1; 1; 3; 1]%Z)); UMatrix (A2 9 (map (firstn 9) (exm 3)));
   UBins exb3].
Example ex_history : Forall valid_op ex_ops.
Proof. repeat constructor; try apply exb2_valid; try apply exb3_valid. Qed.
Example ex_history_outcomes :
  map (fun r : res unit => match r with Ok _ => 0 | Exn RuntimeError => 1 | Exn ValueError => 2 | _ => 3 end) (snd (history (obj (mk (ex exb 0))) ex_ops))
  = [0; 2; 0; 0; 1; 1].
Proof. vm_compute. reflexivity. Qed.
(** C19 *)
Example ex_fkp : valid (ex exb2 1) /\ i_norm (ex exb2 1) <> 0%Z /\ i_w2 (ex exb2 1) <> f0 /\
  (let w := mk (ex exb2 1) in
   (do o <- decouple_cell (obj w) (A2 5 [map qz [1; 2; 3; 4; 6]%Z; map qz [2; 0; 0; 2; 4]%Z]) None None; Ok (show2 o)) =
   Ok [[out (q 3 2); out (q 15 2)]; [out (qz 3); out (q 9 2)]]).
Proof.
  split; [apply ex_valid; [apply exb2_valid | vm_compute; reflexivity]|]. split; [discriminate|]. split; [intro H; apply (f_equal out) in H; vm_compute in H; discriminate|].
  vm_compute. reflexivity.
Qed.
(** C13 fails when a multipole is listed twice (the constructor accepts this) *)
Definition exr : bins Q := from_ok (Bins 0 []) (NmtBin [0; 0; 0; 1]%Z [2; 2; 3; 4]%Z (Some 4%Z) None None).
Theorem C13_repeated_multipole_refuted :
  exists bpws ells lmax ws fs (b : bins Q) i w v c d o, NmtBin bpws ells lmax ws fs = Ok b /\ nonneg_ells b /\ i_bin i = b /\
    compute i = Ok w /\ i_norm i = 0%Z /\ unbin_cell b (A2 2 v) = Ok c /\ couple_cell (obj w) c = Ok d /\
    decouple_cell (obj w) d None None = Ok o /\ o <> A2 2 v.
Proof.
  exists [0; 0; 0; 1]%Z, [2; 2; 3; 4]%Z, (Some 4%Z), None, None, exr, (ex exr 0).
  eexists. exists [[qz 1; qz 1]; [qz 1; qz 2]]. eexists. eexists. eexists.
  split; [apply from_ok_eq; vm_compute; reflexivity|]. split.
  { apply nonneg_check. vm_compute. reflexivity. }
  split; [reflexivity|].
  split; [apply (from_ok_eq (Wsp 0 0 0 false 0 [] [] None exr 0 None [])); vm_compute; reflexivity|].
  split; [reflexivity|].
  split; [apply (from_ok_eq AN); vm_compute; reflexivity|].
  split; [apply (from_ok_eq AN); vm_compute; reflexivity|].
  split; [apply (from_ok_eq AN); vm_compute; reflexivity|].
  intro H. apply (f_equal show2) in H. vm_compute in H. discriminate.
Qed.

(** C16: valid inputs of the size at which get_coupling_matrix overflows exist *)
Definition exbig : bins Q := from_ok (Bins 0 []) (NmtBin [0]%Z [2]%Z (Some 46341%Z) None None).
Example ex_overflow : exists i : inputs (F:=Q), valid i /\ (46341 < Z.of_nat (i_nrows i))%Z.
Proof.
  set (N := Z.to_nat 46342).
  exists (Inputs 1 false 46341 46341 0 f1 [] exbig (repeat f1 N) (repeat f1 N) (repeat (repeat f0 N) N)).
  assert (EN : i_nell (Inputs 1 false 46341 46341 0 f1 [] exbig (repeat f1 N) (repeat f1 N) (repeat (repeat f0 N) N)) = N).
  { unfold i_nell. cbn [i_bin]. assert (E : b_lmax exbig = 46341%Z) by (vm_compute; reflexivity). rewrite E. reflexivity. }
  assert (HN : Z.of_nat N = 46342%Z) by (unfold N; apply Z2Nat.id; lia). clearbody N.
  unfold valid, i_nrows. rewrite EN. cbn [i_ncls i_bin i_lmaxf i_b1 i_b2 i_mcm].
  assert (E : b_lmax exbig = 46341%Z) by (vm_compute; reflexivity). rewrite E, !repeat_length.
  split; [|lia]. split; [lia|]. split.
  { split; [do 5 eexists; apply from_ok_eq; vm_compute; reflexivity|].
    apply nonneg_check. vm_compute. reflexivity. }
  repeat split; try lia. intros r Hr. apply repeat_spec in Hr. subst r. rewrite repeat_length. lia.
Qed.
End Examples.

Print Assumptions C12_couple_is_matrix.
Print Assumptions C12_couple_linear.
Print Assumptions C12_couple_shape.
Print Assumptions C13_decouple_couple_unbin.
Print Assumptions C14_windows.
Print Assumptions C15_biases_subtracted.
Print Assumptions C15_decouple_linear.
Print Assumptions C15_bias_length.
Print Assumptions C18_updates_are_recomputation.
Print Assumptions C17_latest_beams_win.
Print Assumptions C18_update_bins.
Print Assumptions C16_get_after_update.
Print Assumptions C16_update_with_own_matrix.
Print Assumptions C16_other_shapes_rejected.
Print Assumptions C16_get_overflows.
Print Assumptions C16_update_overflows.
Print Assumptions C19_fkp.
Print Assumptions C19_fkp_independent.
Print Assumptions C13_repeated_multipole_refuted.
