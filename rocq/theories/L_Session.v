(** Workspaces that cannot be told apart by calling methods. *)
From Coq Require Import Permutation.
From Verif Require Import Base M_Bins M_LinAlg M_Workspace M_MCM M_FITS M_Session L_Bins L_Bins2 L_Bins3 P_Bins L_LinAlg L_Workspace P_Workspace L_FITS L_FITS2.
Open Scope Z_scope.

Section LSession.
Context {F : ofield}.
Local Open Scope F_scope.
Add Field FfLS : (fth F).
Notation mat := (list (list F)).
Notation bins := (bins F).
Notation wsp := (wsp F).
Notation pyw := (pyw F).
Notation inputs := (@inputs F).

Lemma tabM_ext {A} n (f g : nat -> res A) : (forall i, (i < n)%nat -> f i = g i) -> tabM n f = tabM n g.
Proof.
  intro H. unfold tabM. assert (G : forall l, (forall i, In i l -> f i = g i) -> mapM f l = mapM g l).
  { induction l as [|a l IH]; intro K; [reflexivity|]. cbn [mapM]. rewrite (K a (or_introl eq_refl)), IH by (intros; apply K; right; assumption). reflexivity. }
  apply G. intros i Hi. apply in_seq in Hi. apply H. lia.
Qed.
Definition noexn {A} (r : res A) : Prop := forall e, r <> Exn e.
Lemma noexn_bind {A B} (r : res A) (k : A -> res B) : noexn r -> (forall a, noexn (k a)) -> noexn (do a <- r; k a).
Proof. intros H1 H2 e. destruct r; cbn; [apply H2 | intro E; apply (H1 e0); reflexivity | discriminate]. Qed.
Lemma noexn_rd {A} (l : list A) i : noexn (rd l i).
Proof. intros e. unfold rd. destruct (_ <=? _)%Z; [|discriminate]. destruct (nth_error _ _); discriminate. Qed.
Lemma noexn_ok {A} (a : A) : noexn (Ok a). Proof. intros e H. discriminate. Qed.
Lemma noexn_mcm (w : wsp) i j : noexn (mcm_rd w i j).
Proof. unfold mcm_rd. destruct (w_mcm w); [apply noexn_bind; intros; apply noexn_rd | intros e H; discriminate]. Qed.

Lemma acc_perm {A} (f : A -> res F) (l l' : list A) : (forall a, noexn (f a)) -> Permutation l l' -> forall s,
  foldM (fun acc a => do v <- f a; Ok (acc + v)) s l = foldM (fun acc a => do v <- f a; Ok (acc + v)) s l'.
Proof.
  intros H P. induction P as [|a l l' P IH|a b l|l l' l'' P1 IH1 P2 IH2]; intro s; [reflexivity| | |rewrite IH1; apply IH2].
  - cbn [foldM]. destruct (f a); cbn; [apply IH | reflexivity | reflexivity].
  - cbn [foldM]. destruct (f a) eqn:Ea, (f b) eqn:Eb; cbn; try reflexivity;
      try (exfalso; apply (H _ _ Ea)); try (exfalso; apply (H _ _ Eb)).
    replace (s + a1 + a0) with (s + a0 + a1) by ring. reflexivity.
Qed.
Lemma lsumM_perm {A} (f : A -> res F) (l l' : list A) : (forall a, noexn (f a)) -> Permutation l l' -> lsumM f l = lsumM f l'.
Proof. intros H P. apply (acc_perm f l l' H P). Qed.
Lemma noexn_lsumM {A} (f : A -> res F) (l : list A) : (forall a, noexn (f a)) -> noexn (lsumM f l).
Proof.
  intro H. unfold lsumM. generalize (0 : F). induction l as [|a l IH]; intro s; [apply noexn_ok|]. cbn [foldM].
  apply noexn_bind; [apply noexn_bind; [apply H | intro; apply noexn_ok] | exact IH].
Qed.
Lemma lsumM_ext {A} (f g : A -> res F) (l : list A) : (forall a, f a = g a) -> lsumM f l = lsumM g l.
Proof.
  intro H. unfold lsumM. generalize (0 : F). induction l as [|a l IH]; intro s; [reflexivity|]. cbn [foldM]. rewrite H.
  destruct (g a); cbn; [apply IH | reflexivity | reflexivity].
Qed.

(** the same bins up to the order of the multipoles inside the bands *)
Definition bperm (b b' : bins) : Prop := b_lmax b = b_lmax b' /\ Forall2 (@Permutation _) (b_bands b) (b_bands b').
Definition bsame (b b' : bins) : Prop := b = b' \/ (bperm b b' /\ ells_in b /\ once b).
Lemma bsame_perm b b' : bsame b b' -> bperm b b'.
Proof.
  intros [->|[H _]]; [|exact H]. split; [reflexivity|]. induction (b_bands b') as [|x l IH]; constructor; [apply Permutation_refl | exact IH].
Qed.
Lemma forall2_len {A B} (Q : A -> B -> Prop) l l' : Forall2 Q l l' -> length l = length l'.
Proof. intro H. induction H; cbn; congruence. Qed.
Lemma rd_perm (l l' : list (list (entry F))) i : Forall2 (@Permutation _) l l' ->
  match rd l i, rd l' i with Ok x, Ok x' => Permutation x x' | UB, UB => True | _, _ => False end.
Proof.
  intro H. unfold rd. destruct (0 <=? i)%Z; [|exact I]. generalize (Z.to_nat i) as n. induction H as [|x x' l l' Hx H IH]; intros [|n]; cbn; try exact I; [exact Hx | apply IH].
Qed.

(** everything but w2 and, when [m] is false, the unbinned matrix *)
Record sim (m : bool) (w w' : wsp) : Prop := {
  s_lmax : w_lmax w = w_lmax w'; s_lf : w_lmax_fields w = w_lmax_fields w'; s_lm : w_lmax_mask w = w_lmax_mask w'; s_teb : w_teb w = w_teb w';
  s_ncls : w_ncls w = w_ncls w'; s_beam : w_beam w = w_beam w'; s_pcl : w_pcl w = w_pcl w'; s_mcm : m = true -> w_mcm w = w_mcm w';
  s_bin : bsame (w_bin w) (w_bin w'); s_norm : w_norm w = w_norm w'; s_mb : w_mb w = w_mb w' }.
Definition w2_irrelevant (w w' : wsp) : Prop := w_norm w = 0%Z \/ w_w2 w = w_w2 w'.

Section One.
Variables (m : bool) (w w' : wsp).
Hypothesis S : sim m w w'.
Lemma sim_nbands : nbands w = nbands w'.
Proof. unfold nbands. apply (forall2_len _ _ _ (proj2 (bsame_perm _ _ (s_bin _ _ _ S)))). Qed.
Lemma sim_ncl : ncl w = ncl w'. Proof. unfold ncl. rewrite (s_ncls _ _ _ S). reflexivity. Qed.
Lemma sim_nlm : nlm w = nlm w'. Proof. unfold nlm. rewrite (s_lmax _ _ _ S). reflexivity. Qed.
Lemma sim_rd i : match rd (b_bands (w_bin w)) i, rd (b_bands (w_bin w')) i with Ok x, Ok x' => Permutation x x' | UB, UB => True | _, _ => False end.
Proof. apply rd_perm, (bsame_perm _ _ (s_bin _ _ _ S)). Qed.
Lemma sim_decouple cl noise bias : c_decouple w cl noise bias = c_decouple w' cl noise bias.
Proof.
  unfold c_decouple. rewrite sim_nbands, (s_ncls _ _ _ S), (s_mb _ _ _ S), sim_ncl.
  replace (tabM (w_ncls w' * nbands w') (fun r => binned_data w cl noise bias (r mod w_ncls w') (r / w_ncls w')))
     with (tabM (w_ncls w' * nbands w') (fun r => binned_data w' cl noise bias (r mod w_ncls w') (r / w_ncls w'))); [reflexivity|].
  apply tabM_ext. intros r _. unfold binned_data. pose proof (sim_rd (Z.of_nat (r / w_ncls w'))) as P.
  destruct (rd (b_bands (w_bin w)) _), (rd (b_bands (w_bin w')) _); try contradiction; [|reflexivity]. cbn [bind].
  apply lsumM_perm; [|symmetry; exact P]. intro e. unfold rd2. repeat (first [apply noexn_bind; [|intro]| apply noexn_rd | apply noexn_ok]).
Qed.
Hypothesis M : m = true.
Lemma sim_mcm i j : mcm_rd w i j = mcm_rd w' i j. Proof. unfold mcm_rd. rewrite (s_mcm _ _ _ S M). reflexivity. Qed.
Lemma sim_couple cl : c_couple w cl = c_couple w' cl.
Proof.
  unfold c_couple. rewrite (s_ncls _ _ _ S), sim_nlm, sim_ncl, (s_beam _ _ _ S).
  unfold mcm_rd. rewrite (s_mcm _ _ _ S M). reflexivity.
Qed.
Lemma sim_windows : c_windows w = c_windows w'.
Proof.
  unfold c_windows. rewrite (s_ncls _ _ _ S), sim_nlm, sim_nbands, (s_mb _ _ _ S). cbv zeta.
  replace (tabM (w_ncls w' * nbands w') (fun r => tabM (w_ncls w' * nlm w') (fun c => coupled_binned w r c)))
     with (tabM (w_ncls w' * nbands w') (fun r => tabM (w_ncls w' * nlm w') (fun c => coupled_binned w' r c))); [reflexivity|].
  apply tabM_ext. intros r _. apply tabM_ext. intros c _. unfold coupled_binned. rewrite (s_ncls _ _ _ S), sim_ncl, (s_beam _ _ _ S).
  cbv zeta. pose proof (sim_rd (Z.of_nat (r / w_ncls w'))) as P.
  destruct (rd (b_bands (w_bin w)) _), (rd (b_bands (w_bin w')) _); try contradiction; [|reflexivity]. cbn [bind].
  rewrite (lsumM_perm _ a0 a) by (first [symmetry; exact P | intro e; repeat (first [apply noexn_bind; [|intro]| apply noexn_rd | apply noexn_ok | apply noexn_mcm])]).
  apply lsumM_ext. intro e. rewrite sim_mcm. reflexivity.
Qed.
Lemma sim_bin_elem ib2 a ib3 b : w2_irrelevant w w' -> bin_elem w ib2 a ib3 b = bin_elem w' ib2 a ib3 b.
Proof.
  intro HW. unfold bin_elem. rewrite <- (s_norm _ _ _ S), sim_ncl, (s_ncls _ _ _ S), (s_beam _ _ _ S).
  destruct (Z.eqb_spec (w_norm w) 0) as [E|E].
  - pose proof (sim_rd (Z.of_nat ib2)) as P2. pose proof (sim_rd (Z.of_nat ib3)) as P3.
    destruct (rd (b_bands (w_bin w)) (Z.of_nat ib2)) as [x2| |], (rd (b_bands (w_bin w')) (Z.of_nat ib2)) as [x2'| |]; try contradiction; [|reflexivity]. cbn [bind].
    destruct (rd (b_bands (w_bin w)) (Z.of_nat ib3)) as [x3| |], (rd (b_bands (w_bin w')) (Z.of_nat ib3)) as [x3'| |]; try contradiction; [|reflexivity]. cbn [bind].
    rewrite (lsumM_perm _ x2 x2') by (first [exact P2 | intro e; apply noexn_lsumM; intro e3; repeat (first [apply noexn_bind; [|intro]| apply noexn_rd | apply noexn_ok | apply noexn_mcm])]).
    apply lsumM_ext. intro e2.
    rewrite (lsumM_perm _ x3 x3') by (first [exact P3 | intro e3; repeat (first [apply noexn_bind; [|intro]| apply noexn_rd | apply noexn_ok | apply noexn_mcm])]).
    apply lsumM_ext. intro e3. rewrite sim_mcm. reflexivity.
  - destruct HW as [HW|HW]; [contradiction|]. rewrite HW. reflexivity.
Qed.
Lemma sim_info : info_tohdus w = info_tohdus w'.
Proof.
  unfold info_tohdus. rewrite (s_lmax _ _ _ S), (s_lf _ _ _ S), (s_lm _ _ _ S), (s_teb _ _ _ S), sim_ncl, (s_norm _ _ _ S).
  unfold mcm_rd. rewrite (s_mcm _ _ _ S M). reflexivity.
Qed.
Lemma sim_binned : binned_tohdus w = binned_tohdus w'.
Proof. unfold binned_tohdus. rewrite (s_ncls _ _ _ S), sim_nbands, (s_mb _ _ _ S). reflexivity. Qed.
End One.

(** *** the file *)
Lemma wlist_perm bands bands' : Forall2 (@Permutation (entry F)) bands bands' -> forall k, Permutation (wlist bands k) (wlist bands' k).
Proof.
  intro H. induction H as [|x x' l l' Hx H IH]; intro k; [constructor|]. unfold wlist. cbn [length seq combine flat_map].
  apply Permutation_app; [apply Permutation_map, Hx | apply (IH (Datatypes.S k))].
Qed.
Lemma put_all_perm (W W' : list (Z * entry F)) t : Permutation W W' -> NoDup (map (fun p => e_ell (snd p)) W) ->
  (forall q, In q W -> (0 <= e_ell (snd q) < Z.of_nat (length t))%Z) -> put_all W t = put_all W' t.
Proof.
  intros P ND R.
  assert (R' : forall q, In q W' -> (0 <= e_ell (snd q) < Z.of_nat (length t))%Z) by (intros q Hq; apply R; eapply Permutation_in; [symmetry; exact P | exact Hq]).
  assert (ND' : NoDup (map (fun p => e_ell (snd p)) W')) by (eapply Permutation_NoDup; [apply Permutation_map, P | exact ND]).
  pose proof (proj2 (foldM_put W t R)) as L. pose proof (proj2 (foldM_put W' t R')) as L'.
  apply (list_eq_nth _ _ ((-1)%Z, (-1)%Z, 0, 0)); [congruence|]. intros l Hl. rewrite L in Hl.
  destruct (in_dec Nat.eq_dec l (map (fun p => Z.to_nat (e_ell (snd p))) W)) as [I|I].
  - apply in_map_iff in I. destruct I as [p [<- Hp]]. rewrite !put_in; try assumption; [reflexivity|]. eapply Permutation_in; [exact P | exact Hp].
  - rewrite !put_other; [reflexivity| |]; intros p Hp E; apply I; apply in_map_iff; exists p; (split; [exact E|]); [eapply Permutation_in; [symmetry; exact P | exact Hp] | exact Hp].
Qed.
Lemma forall2_in_r {A B} (Q : A -> B -> Prop) l l' y : Forall2 Q l l' -> In y l' -> exists x, In x l /\ Q x y.
Proof. intro H. induction H as [|a b l l' Hab H IH]; intros []; [subst; exists a; split; [left; reflexivity | exact Hab] | destruct (IH H0) as [x [? ?]]; exists x; split; [right; assumption | assumption]]. Qed.
Lemma bsame_ells b b' : bperm b b' -> ells_in b -> ells_in b'.
Proof.
  intros [P1 P2] E x e Hx He. destruct (forall2_in_r _ _ _ _ P2 Hx) as [y [Hy Pm]]. rewrite <- P1. apply (E y e Hy). eapply Permutation_in; [symmetry; exact Pm | exact He].
Qed.
Lemma bsame_tohdus b b' : bsame b b' -> bins_tohdus b = bins_tohdus b'.
Proof.
  intros [->|[P [E O]]]; [reflexivity|]. pose proof (bsame_ells _ _ P E) as E'. destruct P as [P1 P2].
  rewrite (bins_tohdus_eq b E), (bins_tohdus_eq b' E'). f_equal. unfold bands_hdu. rewrite <- P1, <- (forall2_len _ _ _ P2).
  rewrite (put_all_perm (wlist (b_bands b) 0) (wlist (b_bands b') 0)); [reflexivity | apply wlist_perm, P2 | rewrite wlist_ells; exact O|].
  intros [i e] Hq. apply in_wlist in Hq. destruct Hq as [x [k [Hk [He _]]]]. apply nth_error_In in Hk. rewrite repeat_length. cbn. pose proof (E x e Hk He). lia.
Qed.
Lemma sim_write w w' : sim true w w' -> workspace_write_fits w = workspace_write_fits w'.
Proof.
  intro S. unfold workspace_write_fits. rewrite (sim_info true w w' S eq_refl), (sim_binned true w w' S), (s_lf _ _ _ S), (s_beam _ _ _ S), (s_lm _ _ _ S), (s_pcl _ _ _ S).
  rewrite (bsame_tohdus _ _ (s_bin _ _ _ S)). reflexivity.
Qed.

(** *** updates *)
Lemma sim_bin_matrix w w' : sim true w w' -> w2_irrelevant w w' ->
  match bin_coupling_matrix w, bin_coupling_matrix w' with
  | Ok x, Ok x' => sim true x x' /\ w2_irrelevant x x'
  | Exn e, Exn e' => e = e'
  | UB, UB => True
  | _, _ => False
  end.
Proof.
  intros S W. unfold bin_coupling_matrix. cbv zeta.
  rewrite (s_ncls _ _ _ S), (sim_nbands _ _ _ S).
  rewrite (tabM_ext _ (fun r => tabM (w_ncls w' * nbands w') (fun c => bin_elem w (r / w_ncls w') (r mod w_ncls w') (c / w_ncls w') (c mod w_ncls w')))
            (fun r => tabM (w_ncls w' * nbands w') (fun c => bin_elem w' (r / w_ncls w') (r mod w_ncls w') (c / w_ncls w') (c mod w_ncls w')))).
  2:{ intros r _. apply tabM_ext. intros c _. apply (sim_bin_elem true); [exact S | reflexivity | exact W]. }
  destruct (tabM _ _) as [t| |]; cbn [bind]; [|reflexivity|exact I].
  split; [|destruct W; [left | right]; assumption]. destruct S. constructor; cbn; try assumption; try reflexivity.
Qed.
Definition psim (p p' : pyw) : Prop :=
  p = p' \/ exists u w w', p = PyW (Some w) u /\ p' = PyW (Some w') u /\ sim true w w' /\ w2_irrelevant w w'.
Lemma sim_run w w' : sim true w w' -> w2_irrelevant w w' ->
  sim true (fst (run_bin w)) (fst (run_bin w')) /\ w2_irrelevant (fst (run_bin w)) (fst (run_bin w')) /\ snd (run_bin w) = snd (run_bin w').
Proof.
  intros S W. pose proof (sim_bin_matrix w w' S W) as H. unfold run_bin.
  destruct (bin_coupling_matrix w), (bin_coupling_matrix w'); try contradiction; cbn; [destruct H; auto | subst; auto | auto].
Qed.
Lemma sim_set_beam w w' b : sim true w w' -> sim true (set_beam w b) (set_beam w' b).
Proof. intros []. constructor; cbn; try assumption; reflexivity. Qed.
Lemma sim_set_mcm w w' b : sim true w w' -> sim true (set_mcm w b) (set_mcm w' b).
Proof. intros []. constructor; cbn; try assumption; reflexivity. Qed.
Lemma sim_set_bin w w' b : sim true w w' -> sim true (set_bin w b) (set_bin w' b).
Proof. intros []. constructor; cbn; try assumption; left; reflexivity. Qed.
Lemma on_wsp_sim u w w' e f f' : sim true w w' ->
  (sim true (fst (f w)) (fst (f' w')) /\ w2_irrelevant (fst (f w)) (fst (f' w')) /\ snd (f w) = snd (f' w')) ->
  psim (fst (on_wsp (PyW (Some w) u) e f)) (fst (on_wsp (PyW (Some w') u) e f')) /\ snd (on_wsp (PyW (Some w) u) e f) = snd (on_wsp (PyW (Some w') u) e f').
Proof.
  intros S H. cbn. destruct (f w) as [x r], (f' w') as [x' r']. cbn in *. destruct H as [H1 [H2 H3]]. split; [|exact H3]. right. exists u, x, x'. auto.
Qed.
Lemma update_beams_sim u w w' b1 b2 : sim true w w' -> w2_irrelevant w w' ->
  psim (fst (update_beams (PyW (Some w) u) b1 b2)) (fst (update_beams (PyW (Some w') u) b1 b2)) /\ snd (update_beams (PyW (Some w) u) b1 b2) = snd (update_beams (PyW (Some w') u) b1 b2).
Proof.
  intros S W. unfold update_beams.
  destruct b1 as [v1|], b2 as [v2|]; try (split; [right; exists u, w, w'; auto | reflexivity]).
  apply on_wsp_sim; [exact S|]. rewrite (s_lf _ _ _ S). destruct (_ || _)%bool eqn:E; [cbn; auto|].
  unfold c_update_beams. rewrite (s_lf _ _ _ S), E. destruct (beam_product _ _ _); [|cbn; auto|cbn; auto].
  apply sim_run; [apply sim_set_beam, S | exact W].
Qed.
Lemma update_bins_sim u w w' b : sim true w w' -> w2_irrelevant w w' ->
  psim (fst (update_bins (PyW (Some w) u) b)) (fst (update_bins (PyW (Some w') u) b)) /\ snd (update_bins (PyW (Some w) u) b) = snd (update_bins (PyW (Some w') u) b).
Proof.
  intros S W. unfold update_bins. apply on_wsp_sim; [exact S|]. unfold c_update_bins.
  rewrite (proj1 (bsame_perm _ _ (s_bin _ _ _ S))). destruct (negb _); [cbn; auto|]. apply sim_run; [apply sim_set_bin, S | exact W].
Qed.
Lemma update_matrix_sim u w w' a : sim true w w' -> w2_irrelevant w w' ->
  psim (fst (update_coupling_matrix (PyW (Some w) u) a)) (fst (update_coupling_matrix (PyW (Some w') u) a)) /\ snd (update_coupling_matrix (PyW (Some w) u) a) = snd (update_coupling_matrix (PyW (Some w') u) a).
Proof.
  intros S W. unfold update_coupling_matrix. apply on_wsp_sim; [exact S|]. unfold check_unbinned. cbn [p_unb]. destruct (guard u ValueError); [|cbn; auto|cbn; auto].
  rewrite (s_lmax _ _ _ S), (sim_ncl _ _ _ S). destruct (negb (arr_len a =? (w_lmax w' + 1) * ncl w')%Z); [cbn; auto|]. destruct (i32 _); [|cbn; auto|cbn; auto]. destruct (negb (_ =? a1)%Z); [cbn; auto|].
  unfold c_update_coupling_matrix. rewrite (s_mcm _ _ _ S eq_refl), (s_lmax _ _ _ S), (sim_ncl _ _ _ S).
  destruct (negb (arr_len a =? ncl w' * (w_lmax w' + 1))%Z); [cbn; auto|]. destruct (w_mcm w'); [|cbn; auto]. destruct (tabM _ _); [|cbn; auto|cbn; auto].
  apply sim_run; [apply sim_set_mcm, S | exact W].
Qed.
Lemma get_sim u w w' : sim true w w' -> get_coupling_matrix (PyW (Some w) u) = get_coupling_matrix (PyW (Some w') u).
Proof.
  intro S. unfold get_coupling_matrix, mcm_rd. cbn [need_wsp p_wsp bind]. rewrite (s_lmax _ _ _ S), (sim_ncl _ _ _ S), (s_mcm _ _ _ S eq_refl). reflexivity.
Qed.
Lemma couple_sim u w w' a : sim true w w' -> couple_cell (PyW (Some w) u) a = couple_cell (PyW (Some w') u) a.
Proof.
  intro S. unfold couple_cell. cbn [need_wsp p_wsp bind]. rewrite (s_lmax _ _ _ S), (sim_ncl _ _ _ S), (sim_nlm _ _ _ S).
  destruct (spec_shape _ _ _) as [[k rows]| |]; [|reflexivity|reflexivity]. cbn [bind]. rewrite (sim_couple _ _ _ S eq_refl). reflexivity.
Qed.
Lemma decouple_sim m u u' w w' a x y : sim m w w' -> decouple_cell (PyW (Some w) u) a x y = decouple_cell (PyW (Some w') u') a x y.
Proof.
  intro S. unfold decouple_cell. cbn [need_wsp p_wsp bind]. rewrite (s_lmax _ _ _ S), (sim_ncl _ _ _ S), (sim_nbands _ _ _ S).
  destruct (spec_shape _ _ a) as [[k rows]| |]; [|reflexivity|reflexivity]. cbn [bind].
  destruct (match x with None => _ | Some _ => _ end) as [[kb rb]| |]; [|reflexivity|reflexivity]. cbn [bind].
  destruct (match y with None => _ | Some _ => _ end) as [[kn rn]| |]; [|reflexivity|reflexivity]. cbn [bind].
  destruct (_ && _)%bool; [|reflexivity]. rewrite (sim_decouple _ _ _ S). reflexivity.
Qed.
Lemma windows_sim u w w' : sim true w w' -> get_bandpower_windows (PyW (Some w) u) = get_bandpower_windows (PyW (Some w') u).
Proof.
  intro S. unfold get_bandpower_windows. cbn [need_wsp p_wsp bind check_unbinned p_unb]. unfold check_unbinned; cbn [p_unb]; destruct (guard u ValueError); [|reflexivity|reflexivity]. cbn [bind].
  rewrite (sim_windows _ _ _ S eq_refl), (s_ncls _ _ _ S), (sim_nbands _ _ _ S), (sim_nlm _ _ _ S). reflexivity.
Qed.
Lemma reread_sim (i : inputs) unb : storable i -> sim unb (mk i) (reread i unb).
Proof.
  intros [V [N _]]. destruct V as [_ [H2 _]]. destruct (valid_bins_facts _ H2) as [W [E P]]. constructor; try reflexivity.
  - intros ->. reflexivity.
  - right. split; [split; [reflexivity|]|split; [exact E | apply once_of, N]].
    pose proof (sorted_bins_perm (i_bin i) W E (once_of _ N)) as Q. cbn [mk core set_mb w_bin reread]. clear - Q. revert Q. generalize (b_bands (sorted_bins (i_bin i))) as l. generalize (b_bands (i_bin i)) as l'.
    intros l' l Q. induction Q; constructor; [symmetry; assumption | assumption].
Qed.
End LSession.
