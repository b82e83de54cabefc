(** Properties of compute_full_master_flat: its documented steps (C83), and templates cleaned with the true spectra as guess do not bias it (C82). *)
From Verif Require Import Base FieldR M_Utils M_Bins M_FlatBins M_LinAlg M_Workspace M_Flat M_WspFlat M_Syn M_FieldFlat M_BiasFlat P_FlatBins L_LinAlg L_Flat L_Flat2 L_Flat3 L_WspFlat L_WspFlat2 L_FlatLin L_FlatMean L_Pure P_FlatMean P_FieldFlat L_BiasFlat P_BiasFlat P_Flat P_WspFlat.
From Coq Require Import Permutation.
Open Scope nat_scope.

Section PFullFlat.
Context {F : ofield}.
Local Open Scope F_scope.
Add Field FfPUF : (fth F).
Notation mat := (list (list F)).
Notation cplx := (cplx F).
Notation fsinfo := (fsinfo F).
Notation ffield := (ffield F).
Notation fbins := (fbins F).
Notation fwsp := (fwsp F).
Notation cuts := (cuts F).
Notation flat_args := (flat_args F).
Notation flat_field := (flat_field F).
Variables (pi : F) (fsqrt : F -> F) (trunc : F -> Z) (ph : nat -> nat -> cplx) (eigh : mat -> list F * mat).
Notation flat_new := (flat_new pi fsqrt ph eigh).
Notation py_coupled_cell := (py_coupled_cell pi fsqrt).
Notation coupling_matrix := (coupling_matrix pi fsqrt trunc ph).
Notation py_bias_flat := (py_bias_flat pi fsqrt ph).
Notation full_master := (py_full_master_flat pi fsqrt trunc ph).

Lemma spin_length n sp0 sp : spin_from n sp0 = Ok sp -> n = nmap_of sp.
Proof.
  unfold spin_from, nmap_of. destruct n as [|[|[|n]]]; cbn [Nat.eqb orb negb andb]; intro E; try discriminate E; (destruct sp0 as [y|]; [|injection E as <-; reflexivity]);
    (destruct (Z.eqb_spec y 0) as [E0|Ny]; cbn [andb orb negb] in E; try discriminate E); injection E as E; subst sp; destruct (Z.eqb_spec y 0); try contradiction; reflexivity.
Qed.
(** the harmonic coefficients of a field *)
Definition complete (g : ffield) : Prop := length (ff_alms g) = ff_nmaps g /\ full (ff_fs g) (ff_alms g).
Lemma made_complete (a : flat_args) f : flat_new a = Ok f -> ff_mask_only (f_base f) = false -> complete (f_base f).
Proof.
  intros E Hm. unfold M_FieldFlat.flat_new in E. destruct ((g_lx a <? 0) || (g_ly a <? 0))%bool; [discriminate|].
  destruct (g_maps a) as [m|]; [|destruct (g_spin a) as [sp|]; [|discriminate E]; cbn [bind negb] in E; destruct ((g_pe a || g_pb a) && negb (sp =? 2)%Z)%bool; [discriminate E|]; destruct (g_temp a) as [|[|]|]; cbn [bind] in E; try discriminate E; (destruct (negb _) in E; [discriminate E|]); injection E as <-; discriminate Hm].
  destruct (spin_from (length m) (g_spin a)) as [sp|x|] eqn:Esp; [|discriminate|discriminate]. cbn [bind] in E. destruct ((g_pe a || g_pb a) && negb (sp =? 2)%Z)%bool eqn:Ep; [discriminate|]. destruct (negb (forallb _ m)) eqn:EL; [discriminate|]. destruct (temps_from _ _ _) as [ts|x|]; [|discriminate|discriminate]. cbn [bind] in E.
  destruct (negb _) in E; [discriminate E|]. apply spin_length in Esp. apply Bool.negb_false_iff in EL. rewrite forallb_forall in EL. unfold field_flat_alloc in E. rewrite Ep in E. cbv zeta in E.
  set (s := FS (g_nx a) (g_ny a) (g_lx a) (g_ly a)) in *. assert (Sm : shaped (nmap_of sp) (npix_fs s) m) by (split; [exact Esp | intros r Hr; apply Nat.eqb_eq; exact (EL r Hr)]).
  destruct (if (0 <? _)%nat then _ else _) as [d|x|] in E; [|discriminate E|discriminate E]. cbn [bind] in E. fold (nmap_of sp) in E.
  assert (Su : shaped (nmap_of sp) (npix_fs s) (if g_masked a then map (unmask s (g_mask a)) m else m)). { destruct (g_masked a); [|exact Sm]. split; [rewrite map_length; apply Sm|]. intros r Hr. apply in_map_iff in Hr as [r' [<- Hr]]. unfold unmask. apply length_tab. }
  assert (Sk : shaped (nmap_of sp) (npix_fs s) (if g_masked a then m else map (product s (g_mask a)) m)). { destruct (g_masked a); [exact Sm|]. apply shaped_product. apply Sm. }
  destruct (g_pe a || g_pb a)%bool eqn:Epp.
  - cbn [andb] in Ep. apply Bool.negb_false_iff in Ep. apply Z.eqb_eq in Ep. subst sp. match type of E with bind (purify_flat _ _ _ _ _ _ _ ?X) _ = _ => assert (LX : length X = 2%nat) by (apply (subtract_shaped s 2 _ _ _ Su)) end.
    destruct (purified_ok pi fsqrt ph s (g_pe a, g_pb a) (g_mask a) (map2alm0 pi ph s (g_mask a)) _ LX) as [[pm E1] [x [y [E2 [L1 L2]]]]]. rewrite E1 in E. cbn [bind] in E. destruct (if g_lite a then _ else _) as [t|?|] in E; [|discriminate E|discriminate E]. cbn [bind] in E. injection E as <-. unfold complete. cbn [f_base ff_alms ff_fs]. rewrite E2. split; [reflexivity|]. intros r [<-|[<-|[]]]; assumption.
  - match type of E with bind (fs_map2alm _ _ _ _ _ ?X) _ = _ => assert (LX : length X = nmap_of sp) by (apply (subtract_shaped s (nmap_of sp) _ _ _ Sk)) end.
    rewrite analysed_ok in E by exact LX. cbn [bind] in E. destruct (if g_lite a then _ else _) as [t|?|] in E; [|discriminate E|discriminate E]. cbn [bind] in E. injection E as <-. unfold complete. cbn [f_base ff_alms ff_fs]. exact (analysed_shape pi fsqrt ph s sp _).
Qed.
Lemma coupled_rect g1 g2 b c cl : contiguous b -> complete g1 -> complete g2 -> py_coupled_cell g1 g2 b c = Ok cl -> rect (ff_nmaps g1 * ff_nmaps g2) (n_bands b) cl.
Proof.
  intros Hc [L1 F1] [L2 F2] E. unfold M_WspFlat.py_coupled_cell in E. destruct (negb _) in E; [discriminate E|]. destruct (_ || _)%bool in E; [discriminate E|]. destruct (negb _) eqn:ES in E; [discriminate E|]. apply Bool.negb_false_iff in ES. apply same_fs_eq in ES.
  rewrite spectra_ok in E by (try assumption; rewrite ES; assumption). injection E as <-. unfold spectra. rewrite L1, L2. apply rect_tab.
Qed.
Lemma bias_rect f1 f2 b c ells guess B : py_bias_flat f1 f2 b ells guess c = Ok B -> rect (ff_nmaps (f_base f1) * ff_nmaps (f_base f2)) (n_bands b) B.
Proof.
  intro E. unfold M_BiasFlat.py_bias_flat in E. destruct (negb _) in E; [discriminate E|]. destruct (negb _) in E; [discriminate E|]. unfold bias_flat in E. cbv zeta in E. destruct (_ || _)%bool in E; [discriminate E|]. destruct (negb _) in E; [discriminate E|]. destruct (negb _) in E; [discriminate E|].
  repeat match type of E with bind ?x _ = _ => destruct x; [|discriminate E|discriminate E]; cbn [bind] in E end. injection E as <-. apply rect_tab.
Qed.
Lemma nmaps_pos (g : ffield) : (0 < ff_nmaps g)%nat.
Proof. unfold ff_nmaps. destruct (_ =? 0)%Z; lia. Qed.
Lemma check_shape_ok n k (a : mat) : (0 < n)%nat -> rect n k a -> check_shape n k a = Ok tt.
Proof. intros Hn [L R]. unfold check_shape. rewrite L, Nat.eqb_refl. cbn [negb]. destruct a as [|r t]; [cbn in L; lia|]. cbn [hd]. rewrite (R r) by (left; reflexivity). rewrite Nat.eqb_refl. reflexivity. Qed.

Lemma zeros_rect n k (a : mat) : rect n k a -> zeros_like a = repeat (repeat (0 : F) k) n.
Proof.
  revert n. induction a as [|r t IH]; intros n [L R]; subst n; [reflexivity|]. cbn [length repeat zeros_like map]. f_equal; [|apply IH; split; [reflexivity | intros x Hx; apply R; right; exact Hx]].
  rewrite <- (R r) by (left; reflexivity). clear. induction r as [|x r IH]; [reflexivity|]. cbn. rewrite IH. reflexivity.
Qed.
Lemma check_shape_inv n k (a : mat) u : check_shape n k a = Ok u -> length a = n /\ length (hd [] a) = k.
Proof. unfold check_shape. destruct (Nat.eqb_spec (length a) n) as [E|E]; cbn [negb]; [|discriminate]. destruct a as [|r t]; [discriminate|]. destruct (Nat.eqb_spec (length (hd [] (r :: t))) k) as [E'|E']; [auto | discriminate]. Qed.
(** ** C83: the steps listed in the documentation *)
Definition master_steps (f1 f2 : flat_field) (b : fbins) (noise : option mat) (guess : mat) (ells : list F) (w : option fwsp) (c : cuts) (rows : list nat) : res mat :=
  do w <- match w with Some w => Ok w | None => coupling_matrix (f_base f1) (f_base f2) b c false rows end;
  do bias <- py_bias_flat f1 f2 b ells guess c;
  do cl <- py_coupled_cell (f_base f1) (f_base f2) b c;
  py_decouple (Some w) cl (Some bias) noise.
(** a workspace given has the pixels, the number of bands and of spectra of the fields *)
Definition fits (w : fwsp) (f1 f2 : flat_field) (b : fbins) : Prop :=
  same_fs (ff_fs (f_base f1)) (fw_fs w) = true /\ same_fs (ff_fs (f_base f2)) (fw_fs w) = true /\ fw_nb w = n_bands b /\ fw_ncls w = (ff_nmaps (f_base f1) * ff_nmaps (f_base f2))%nat.
Definition rectangular (n k : nat) (x : mat) : Prop := length x = n -> length (hd [] x) = k -> rect n k x.
Theorem C83_steps (a1 a2 : flat_args) (f1 f2 : flat_field) (b : fbins) (noise : option mat) (guess : mat) (ells : list F) (w : option fwsp) (c : cuts) (rows : list nat) (r : mat) :
  flat_new a1 = Ok f1 -> flat_new a2 = Ok f2 -> contiguous b ->
  (forall x, w = Some x -> fits x f1 f2 b) -> (forall x, noise = Some x -> rectangular (ff_nmaps (f_base f1) * ff_nmaps (f_base f2)) (n_bands b) x) ->
  full_master f1 f2 b noise (Some (guess, Some ells)) w c rows = Ok r <-> master_steps f1 f2 b noise guess ells w c rows = Ok r.
Proof.
  intros H1 H2 Hc Hw Hn. unfold py_full_master_flat, master_steps, power_spectra_flat. cbv zeta. set (g1 := f_base f1). set (g2 := f_base f2). set (n := (ff_nmaps g1 * ff_nmaps g2)%nat). assert (Pn : (0 < n)%nat) by (pose proof (nmaps_pos g1); pose proof (nmaps_pos g2); unfold n; nia).
  assert (Wf : forall w', match w with Some w => Ok w | None => coupling_matrix g1 g2 b c false rows end = Ok w' -> fw_ncls w' = n /\ fw_nb w' = n_bands b).
  { intros w' E. destruct w as [w|]; [injection E as <-; destruct (Hw w eq_refl) as [_ [_ [A B]]]; auto|]. unfold M_WspFlat.coupling_matrix in E. destruct (negb _) in E; [discriminate E|]. cbn [andb] in E. destruct (grid_bands _ _ _ _) as [gb|x|] in E; [|discriminate E|discriminate E]. cbn [bind] in E. injection E as <-. split; reflexivity. }
  split; intro E.
  - destruct (negb (_ && _)) eqn:Exy in E; [discriminate E|].
    destruct (match noise with None => _ | Some x => _ end) as [cln|x|] eqn:En in E; [|discriminate E|discriminate E]. cbn [bind] in E. destruct (_ && _)%bool eqn:Eg in E; [|discriminate E]. cbn [bind] in E.
    assert (EW : exists w', match w with Some w => Ok w | None => coupling_matrix g1 g2 b c false rows end = Ok w' /\ (if (ff_mask_only g1 || ff_mask_only g2)%bool then Exn RuntimeError else if (fw_ncls w' <? n)%nat then UB else do data <- fs_alm2cl pi fsqrt (ff_fs g1) b c (ff_alms g1) (ff_alms g2); do bias <- bias_flat pi fsqrt ph f1 f2 b c ells guess; if Nat.eqb (fw_ncls w') n then fdecouple w' data cln bias else UB) = Ok r).
    { destruct w as [w|]; [|destruct (coupling_matrix g1 g2 b c false rows) as [w'|x|]; [|discriminate E|discriminate E]; exists w'; split; [reflexivity | exact E]]. destruct (_ || _)%bool in E; [discriminate E|]. destruct (negb _) in E; [discriminate E|]. cbn [bind] in E. exists w. split; [reflexivity | exact E]. }
    clear E. destruct EW as [w' [EW E]]. destruct (Wf w' EW) as [W1 W2]. rewrite EW. cbn [bind]. destruct (_ || _)%bool eqn:EM in E; [discriminate E|]. rewrite W1, Nat.eqb_refl, Nat.ltb_irrefl in E.
    destruct (fs_alm2cl _ _ _ _ _ _ _) as [cl|x|] eqn:Ecl in E; [|discriminate E|discriminate E]. cbn [bind] in E. destruct (bias_flat _ _ _ _ _ _ _ _ _) as [B|x|] eqn:EB in E; [|discriminate E|discriminate E]. cbn [bind] in E.
    assert (EB' : py_bias_flat f1 f2 b ells guess c = Ok B). { unfold M_BiasFlat.py_bias_flat. fold g1 g2. fold n. apply andb_prop in Eg. destruct Eg as [-> ->]. cbn [negb]. exact EB. }
    assert (ES : same_fs (ff_fs g1) (ff_fs g2) = true). { unfold bias_flat in EB. cbv zeta in EB. destruct (_ || _)%bool in EB; [discriminate EB|]. destruct (negb _) in EB; [discriminate EB|]. fold g1 g2 in EB. destruct (same_fs (ff_fs g1) (ff_fs g2)); [reflexivity | discriminate EB]. }
    assert (EC : py_coupled_cell g1 g2 b c = Ok cl). { unfold M_WspFlat.py_coupled_cell. rewrite Exy, EM, ES. exact Ecl. }
    rewrite EB', EC. cbn [bind]. apply Bool.orb_false_iff in EM. destruct EM as [M1 M2]. pose proof (coupled_rect g1 g2 b c cl Hc (made_complete a1 f1 H1 M1) (made_complete a2 f2 H2 M2) EC) as Rc. pose proof (bias_rect f1 f2 b c ells guess B EB') as Rb. fold g1 g2 n in Rc, Rb.
    unfold py_decouple. cbn [need bind]. rewrite W1, W2. rewrite !check_shape_ok by assumption. cbn [bind]. destruct noise as [x|].
    + destruct (_ && _)%bool eqn:E1 in En; [|discriminate En]. injection En as <-. apply andb_prop in E1. destruct E1 as [E1 E2]. apply Nat.eqb_eq in E1, E2. rewrite check_shape_ok by (try exact Pn; apply (Hn x eq_refl); assumption). cbn [bind]. exact E.
    + injection En as <-. cbn [bind]. rewrite (zeros_rect n (n_bands b)) by exact Rc. exact E.
  - destruct (match w with Some w => Ok w | None => _ end) as [w'|x|] eqn:EW in E; [|discriminate E|discriminate E]. cbn [bind] in E. destruct (Wf w' EW) as [W1 W2]. destruct (py_bias_flat f1 f2 b ells guess c) as [B|x|] eqn:EB in E; [|discriminate E|discriminate E]. cbn [bind] in E. destruct (py_coupled_cell g1 g2 b c) as [cl|x|] eqn:EC in E; [|discriminate E|discriminate E]. cbn [bind] in E.
    pose proof EB as EB0. unfold M_BiasFlat.py_bias_flat in EB. fold g1 g2 in EB. fold n in EB. destruct (Nat.eqb (length guess) n) eqn:G1; cbn [negb] in EB; [|discriminate EB]. destruct (Nat.eqb (length (hd [] guess)) (length ells)) eqn:G2; cbn [negb] in EB; [|discriminate EB].
    pose proof EC as EC0. unfold M_WspFlat.py_coupled_cell in EC. destruct (negb (Nat.eqb _ _ && _)) eqn:Exy in EC; [discriminate EC|]. destruct (_ || _)%bool eqn:EM in EC; [discriminate EC|]. destruct (negb (same_fs _ _)) eqn:ES in EC; [discriminate EC|].
    pose proof EM as EM'. apply Bool.orb_false_iff in EM'. destruct EM' as [M1 M2]. pose proof (coupled_rect g1 g2 b c cl Hc (made_complete a1 f1 H1 M1) (made_complete a2 f2 H2 M2) EC0) as Rc. pose proof (bias_rect f1 f2 b c ells guess B EB0) as Rb. fold g1 g2 n in Rc, Rb.
    unfold py_decouple in E. cbn [need bind] in E. rewrite W1, W2 in E. rewrite !check_shape_ok in E by assumption. cbn [bind] in E. rewrite Exy, ?G1, ?G2. cbn [andb].
    assert (R : forall cln, fdecouple w' cl cln B = Ok r -> (do w0 <- match w with None => coupling_matrix g1 g2 b c false rows | Some w1 => if negb (same_fs (ff_fs g1) (fw_fs w1)) || negb (same_fs (ff_fs g2) (fw_fs w1)) then Exn RuntimeError else if negb (Nat.eqb (length (fb_l0 b)) (fw_nb w1)) then Exn RuntimeError else Ok w1 end;
        if (ff_mask_only g1 || ff_mask_only g2)%bool then Exn RuntimeError else if (fw_ncls w0 <? n)%nat then UB else do data <- fs_alm2cl pi fsqrt (ff_fs g1) b c (ff_alms g1) (ff_alms g2); do bias <- bias_flat pi fsqrt ph f1 f2 b c ells guess; if Nat.eqb (fw_ncls w0) n then fdecouple w0 data cln bias else UB) = Ok r).
    { intros cln ER. assert (EW' : match w with None => coupling_matrix g1 g2 b c false rows | Some w1 => if negb (same_fs (ff_fs g1) (fw_fs w1)) || negb (same_fs (ff_fs g2) (fw_fs w1)) then Exn RuntimeError else if negb (Nat.eqb (length (fb_l0 b)) (fw_nb w1)) then Exn RuntimeError else Ok w1 end = Ok w').
      { destruct w as [w|]; [|exact EW]. destruct (Hw w eq_refl) as [A1 [A2 [A3 _]]]. fold g1 g2 in A1, A2. rewrite A1, A2, A3. cbn [negb orb]. unfold n_bands. rewrite Nat.eqb_refl. exact EW. }
      rewrite EW'. cbn [bind]. rewrite EM, W1, Nat.ltb_irrefl, Nat.eqb_refl, EC. cbn [bind]. rewrite EB. exact ER. }
    destruct noise as [x|].
    + destruct (check_shape n (n_bands b) x) as [u|e|] eqn:Ex in E; [|discriminate E|discriminate E]. cbn [bind] in E. destruct (check_shape_inv _ _ _ _ Ex) as [X1 X2]. rewrite X1, X2. unfold n_bands. rewrite !Nat.eqb_refl. cbn [andb bind]. apply R. exact E.
    + cbn [bind] in E |- *. apply R. rewrite (zeros_rect n (n_bands b)) in E by exact Rc. exact E.
Qed.
(** no guess, no templates, at least two bands with increasing effective multipoles: the steps without a bias *)
Definition steps_no_bias (f1 f2 : flat_field) (b : fbins) (noise : option mat) (w : option fwsp) (c : cuts) (rows : list nat) : res mat :=
  do w <- match w with Some w => Ok w | None => coupling_matrix (f_base f1) (f_base f2) b c false rows end;
  do cl <- py_coupled_cell (f_base f1) (f_base f2) b c;
  py_decouple (Some w) cl None noise.
Lemma repeat_tab {A} (x : A) n : repeat x n = tab n (fun _ => x).
Proof. unfold tab. generalize 0%nat. induction n as [|n IH]; intro k; [reflexivity|]. cbn [repeat seq map]. f_equal. apply IH. Qed.
Lemma bias_no_templates (f1 f2 : flat_field) b c ells guess B : temps_of f1 = [] -> temps_of f2 = [] -> bias_flat pi fsqrt ph f1 f2 b c ells guess = Ok B -> B = repeat (repeat 0 (n_bands b)) (ff_nmaps (f_base f1) * ff_nmaps (f_base f2)).
Proof.
  intros T1 T2 E. unfold bias_flat in E. cbv zeta in E. rewrite T1, T2 in E. destruct (_ || _)%bool in E; [discriminate E|]. destruct (negb _) in E; [discriminate E|]. destruct (negb _) in E; [discriminate E|].
  cbn in E. injection E as <-. rewrite !repeat_tab. apply tab_ext. intros i Hi. apply tab_ext. intros j Hj. cbn [sum]. ring.
Qed.
Lemma no_temps (a : flat_args) f : flat_new a = Ok f -> g_temp a = NoTemp -> temps_of f = [].
Proof.
  intros E Ht. unfold M_FieldFlat.flat_new in E. rewrite Ht in E. destruct ((g_lx a <? 0) || (g_ly a <? 0))%bool; [discriminate|].
  destruct (g_maps a) as [m|].
  - destruct (spin_from (length m) (g_spin a)) as [sp|x|]; [|discriminate|discriminate]. cbn [bind temps_from] in E. destruct ((g_pe a || g_pb a) && negb (sp =? 2)%Z)%bool eqn:Ep; [discriminate|]. destruct (negb (forallb _ m)); [discriminate|]. destruct (negb _) in E; [discriminate E|].
    unfold field_flat_alloc in E. rewrite Ep in E. cbn [map length Nat.ltb Nat.leb bind] in E. destruct (g_pe a || g_pb a)%bool.
    + destruct (purify_flat _ _ _ _ _ _ _ _) as [[x pm]|x|] in E; [|discriminate E|discriminate E]. cbn [bind] in E. destruct (if g_lite a then _ else _) as [t|?|] in E; [|discriminate E|discriminate E]. cbn [bind] in E. injection E as <-. reflexivity.
    + destruct (fs_map2alm _ _ _ _ _ _) as [x|x|] in E; [|discriminate E|discriminate E]. cbn [bind] in E. destruct (if g_lite a then _ else _) as [t|?|] in E; [|discriminate E|discriminate E]. cbn [bind] in E. injection E as <-. reflexivity.
  - destruct (g_spin a) as [sp|]; [|discriminate E]. cbn [bind negb] in E. destruct ((g_pe a || g_pb a) && negb (sp =? 2)%Z)%bool; [discriminate E|]. destruct (negb _) in E; [discriminate E|]. injection E as <-. reflexivity.
Qed.
Lemma ells_length (b : fbins) : contiguous b -> length (flat_effective_ells b) = n_bands b.
Proof. intros [[L _] _]. unfold flat_effective_ells. rewrite map_length, combine_length, L. unfold n_bands. lia. Qed.
Lemma ells_ok (b : fbins) : contiguous b -> k_alloc_ok (flat_effective_ells b) = (2 <=? n_bands b)%nat.
Proof.
  intro Hc. unfold k_alloc_ok. rewrite (ells_length b Hc). rewrite increasing_ok; [apply Bool.andb_true_r|]. intros i Hi. rewrite (ells_length b Hc) in Hi. destruct Hc as [[L [_ [S1 _]]] S2].
  assert (N : forall q, (q < n_bands b)%nat -> nth q (flat_effective_ells b) 0 = M_FlatBins.half (low b q) (high b q)).
  { intros q Hq. unfold flat_effective_ells. rewrite (nth_indep _ 0 ((fun p => M_FlatBins.half (fst p) (snd p)) (0, 0))) by (rewrite map_length, combine_length, L; unfold n_bands in *; lia). rewrite (map_nth (fun p => M_FlatBins.half (fst p) (snd p))). rewrite combine_nth by (unfold n_bands in *; congruence). reflexivity. }
  rewrite !N by lia. unfold M_FlatBins.half. pose proof (S1 i ltac:(lia)) as A. pose proof (S1 (S i) ltac:(lia)) as B. rewrite (S2 i Hi) in *. set (x := low b i) in *. set (y := low b (S i)) in *. set (z := high b (S i)) in *.
  assert (T : 0 < (1 : F) + 1). { replace 0 with ((0 : F) + 0) by ring. apply flt_le_add; [apply f0_lt_1 | apply f0_le_1]. }
  apply flt_sub_0. replace (1 / (1 + 1) * (y + z) - 1 / (1 + 1) * (x + y)) with (/ (1 + 1) * ((y - x) + (z - y))) by (field; apply fpos_neq; exact T). apply fmul_pos; [apply finv_pos; exact T|]. replace 0 with ((0 : F) + 0) by ring. apply flt_le_add; [|apply flt_le]; apply (proj1 (flt_sub_0 _ _)); assumption.
Qed.
(** Without a guess and without templates the function does the steps without a bias -- if there are two bands or more and the fields are not lightweight. *)
Theorem C83_default (a1 a2 : flat_args) (f1 f2 : flat_field) (b : fbins) (noise : option mat) (w : option fwsp) (c : cuts) (rows : list nat) (r : mat) :
  flat_new a1 = Ok f1 -> flat_new a2 = Ok f2 -> g_temp a1 = NoTemp -> g_temp a2 = NoTemp -> contiguous b ->
  (forall x, w = Some x -> fits x f1 f2 b) -> (forall x, noise = Some x -> rectangular (ff_nmaps (f_base f1) * ff_nmaps (f_base f2)) (n_bands b) x) ->
  full_master f1 f2 b noise None w c rows = Ok r <-> (2 <= n_bands b)%nat /\ f_lite f1 = false /\ f_lite f2 = false /\ steps_no_bias f1 f2 b noise w c rows = Ok r.
Proof.
  intros H1 H2 T1 T2 Hc Hw Hn. apply (no_temps a1 f1 H1) in T1. apply (no_temps a2 f2 H2) in T2. set (n := (ff_nmaps (f_base f1) * ff_nmaps (f_base f2))%nat) in *. set (z := repeat (repeat (0 : F) (n_bands b)) n).
  assert (Pn : (0 < n)%nat) by (pose proof (nmaps_pos (f_base f1)); pose proof (nmaps_pos (f_base f2)); unfold n; nia).
  assert (Rz : rect n (n_bands b) z) by (unfold z; rewrite !repeat_tab; apply rect_tab).
  assert (Lz : length z = n /\ length (hd [] z) = n_bands b) by (split; [apply repeat_length|]; unfold z; destruct n; [lia|]; apply repeat_length).
  assert (E0 : full_master f1 f2 b noise None w c rows = full_master f1 f2 b noise (Some (z, Some (flat_effective_ells b))) w c rows).
  { unfold py_full_master_flat. cbv zeta. fold n. rewrite (proj1 Lz), (proj2 Lz), (ells_length b Hc), !Nat.eqb_refl. cbn [andb bind]. reflexivity. }
  rewrite E0, (C83_steps a1 a2 f1 f2 b noise z (flat_effective_ells b) w c rows r H1 H2 Hc Hw Hn). unfold master_steps, steps_no_bias. set (W := match w with Some w => Ok w | None => _ end).
  split.
  - intro E. destruct W as [w'|x|]; [|discriminate E|discriminate E]. cbn [bind] in E |- *. destruct (py_bias_flat f1 f2 b _ z c) as [B|x|] eqn:EB; [|discriminate E|discriminate E]. cbn [bind] in E. destruct (py_coupled_cell (f_base f1) (f_base f2) b c) as [cl|x|] eqn:EC; [|discriminate E|discriminate E]. cbn [bind] in E |- *.
    unfold M_BiasFlat.py_bias_flat in EB. fold n in EB. rewrite (proj1 Lz), (proj2 Lz), (ells_length b Hc), !Nat.eqb_refl in EB. cbn [negb] in EB. pose proof EB as EB'. apply bias_no_templates in EB'; [|assumption|assumption]. fold n z in EB'. subst B.
    unfold bias_flat in EB. cbv zeta in EB. destruct (f_lite f1); [discriminate EB|]. destruct (f_lite f2); [discriminate EB|]. cbn [orb] in EB. rewrite (ells_ok b Hc) in EB. destruct (2 <=? n_bands b)%nat eqn:E2; cbn [negb] in EB; [|discriminate EB]. apply Nat.leb_le in E2.
    split; [exact E2|]. split; [reflexivity|]. split; [reflexivity|]. pose proof EC as EC'. unfold M_WspFlat.py_coupled_cell in EC'. destruct (negb _) in EC'; [discriminate EC'|]. destruct (_ || _)%bool eqn:EM in EC'; [discriminate EC'|]. apply Bool.orb_false_iff in EM. destruct EM as [M1 M2]. pose proof (coupled_rect _ _ b c cl Hc (made_complete a1 f1 H1 M1) (made_complete a2 f2 H2 M2) EC) as Rc. fold n in Rc.
    unfold py_decouple in E |- *. cbn [need bind] in E |- *. destruct (check_shape (fw_ncls w') (fw_nb w') cl); [|discriminate E|discriminate E]. cbn [bind] in E |- *. destruct (check_shape (fw_ncls w') (fw_nb w') z); [|discriminate E|discriminate E]. cbn [bind] in E. rewrite (zeros_rect n (n_bands b) cl Rc) in E |- *. exact E.
  - intros [E2 [L1 [L2 E]]]. destruct W as [w'|x|]; [|discriminate E|discriminate E]. cbn [bind] in E |- *. destruct (py_coupled_cell (f_base f1) (f_base f2) b c) as [cl|x|] eqn:EC; [|discriminate E|discriminate E]. cbn [bind] in E |- *.
    pose proof EC as EC'. unfold M_WspFlat.py_coupled_cell in EC'. destruct (negb _) in EC'; [discriminate EC'|]. destruct (_ || _)%bool eqn:EM in EC'; [discriminate EC'|]. destruct (negb _) eqn:ES in EC'; [discriminate EC'|]. apply Bool.orb_false_iff in EM. destruct EM as [M1 M2]. pose proof (coupled_rect _ _ b c cl Hc (made_complete a1 f1 H1 M1) (made_complete a2 f2 H2 M2) EC) as Rc. fold n in Rc.
    assert (EB : exists B, py_bias_flat f1 f2 b (flat_effective_ells b) z c = Ok B). { unfold M_BiasFlat.py_bias_flat. fold n. rewrite (proj1 Lz), (proj2 Lz), (ells_length b Hc), !Nat.eqb_refl. cbn [negb]. unfold bias_flat. cbv zeta. rewrite L1, L2, (ells_ok b Hc), (proj2 (Nat.leb_le _ _) E2), ES, T1, T2. cbn. eexists. reflexivity. }
    destruct EB as [B EB]. rewrite EB. cbn [bind]. unfold M_BiasFlat.py_bias_flat in EB. fold n in EB. rewrite (proj1 Lz), (proj2 Lz), (ells_length b Hc), !Nat.eqb_refl in EB. cbn [negb] in EB. apply bias_no_templates in EB; [|assumption|assumption]. fold n z in EB. subst B.
    unfold py_decouple in E |- *. cbn [need bind] in E |- *. destruct (check_shape (fw_ncls w') (fw_nb w') cl) eqn:Ec; [|discriminate E|discriminate E]. apply check_shape_inv in Ec. destruct Ec as [C1 C2]. assert (Wn : fw_ncls w' = n) by (rewrite <- C1; apply Rc). assert (Wb : fw_nb w' = n_bands b). { rewrite <- C2. destruct cl as [|r0 t]; [destruct Rc as [Rc _]; cbn in Rc; lia|]. apply (proj2 Rc). left. reflexivity. }
    cbn [bind] in E |- *. rewrite Wn, Wb, (check_shape_ok n (n_bands b) z Pn Rz) in *. cbn [bind] in E |- *. rewrite (zeros_rect n (n_bands b) cl Rc) in E |- *. exact E.
Qed.
(** With a single band the process ends (GSL refuses to interpolate one sample), although the steps succeed ... *)
Theorem C83_single_band_refuted (a1 a2 : flat_args) (f1 f2 : flat_field) (b : fbins) (c : cuts) (rows : list nat) (r : mat) :
  flat_new a1 = Ok f1 -> flat_new a2 = Ok f2 -> g_temp a1 = NoTemp -> g_temp a2 = NoTemp -> f_lite f1 = false -> f_lite f2 = false -> contiguous b -> n_bands b = 1%nat ->
  steps_no_bias f1 f2 b None None c rows = Ok r -> full_master f1 f2 b None None None c rows = UB.
Proof.
  intros H1 H2 T1 T2 L1 L2 Hc Hb E. unfold steps_no_bias in E. destruct (coupling_matrix (f_base f1) (f_base f2) b c false rows) as [w|x|] eqn:EW; [|discriminate E|discriminate E]. cbn [bind] in E. destruct (py_coupled_cell (f_base f1) (f_base f2) b c) as [cl|x|] eqn:EC; [|discriminate E|discriminate E]. clear E.
  unfold M_WspFlat.py_coupled_cell in EC. unfold py_full_master_flat, power_spectra_flat. cbv zeta. rewrite EW. destruct (negb (_ && _)) in EC |- *; [discriminate EC|]. cbn [bind]. destruct (ff_mask_only _ || _)%bool in EC |- *; [discriminate EC|]. destruct (negb _) in EC; [discriminate EC|].
  unfold M_WspFlat.coupling_matrix in EW. destruct (negb _) in EW; [discriminate EW|]. cbn [andb] in EW. destruct (grid_bands _ _ _ _) as [gb|x|] in EW; [|discriminate EW|discriminate EW]. cbn [bind] in EW. injection EW as <-. cbn [fw_ncls]. rewrite Nat.ltb_irrefl, EC. cbn [bind]. unfold bias_flat. cbv zeta. rewrite L1, L2, (ells_ok b Hc), Hb. reflexivity.
Qed.
(** ... and lightweight fields are refused, although they have no templates to subtract. *)
Theorem C83_lite_refuted (f1 f2 : flat_field) (b : fbins) (noise : option mat) guess (w : option fwsp) (c : cuts) (rows : list nat) (r : mat) :
  f_lite f1 = true \/ f_lite f2 = true -> full_master f1 f2 b noise guess w c rows <> Ok r.
Proof.
  intros HL E. unfold py_full_master_flat, power_spectra_flat in E. cbv zeta in E. destruct (negb _) in E; [discriminate E|]. destruct (match noise with None => _ | Some x => _ end) as [cln|x|] in E; [|discriminate E|discriminate E]. cbn [bind] in E.
  destruct (match guess with None => _ | Some _ => _ end) as [[lf clg]|x|] in E; [|discriminate E|discriminate E]. cbn [bind] in E. destruct (match w with None => _ | Some _ => _ end) as [w'|x|] in E; [|discriminate E|discriminate E]. cbn [bind] in E. destruct (_ || _)%bool in E; [discriminate E|]. destruct (_ <? _)%nat in E; [discriminate E|]. destruct (fs_alm2cl _ _ _ _ _ _ _) as [cl|x|] in E; [|discriminate E|discriminate E]. cbn [bind] in E.
  unfold bias_flat in E. cbv zeta in E. replace (f_lite f1 || f_lite f2)%bool with true in E by (destruct HL as [-> | ->]; [reflexivity | symmetry; apply Bool.orb_true_r]). discriminate E.
Qed.
(** A workspace with another number of spectra, made for the same pixels and as many bands, is used: memory beyond the arrays is read or written. *)
Theorem C83_other_workspace_refuted (a1 a2 : flat_args) (f1 f2 : flat_field) (b : fbins) (w : fwsp) (c : cuts) (rows : list nat) :
  flat_new a1 = Ok f1 -> flat_new a2 = Ok f2 -> g_temp a1 = NoTemp -> g_temp a2 = NoTemp -> f_lite f1 = false -> f_lite f2 = false -> contiguous b -> (2 <= n_bands b)%nat ->
  same_fs (ff_fs (f_base f1)) (fw_fs w) = true -> same_fs (ff_fs (f_base f2)) (fw_fs w) = true -> fw_nb w = n_bands b -> fw_ncls w <> (ff_nmaps (f_base f1) * ff_nmaps (f_base f2))%nat ->
  ff_mask_only (f_base f1) = false -> ff_mask_only (f_base f2) = false -> full_master f1 f2 b None None (Some w) c rows = UB.
Proof.
  intros H1 H2 T1 T2 L1 L2 Hc Hb S1 S2 Wb Wn M1 M2. pose proof (made_complete a1 f1 H1 M1) as [A1 A2]. pose proof (made_complete a2 f2 H2 M2) as [B1 B2]. apply (no_temps a1 f1 H1) in T1. apply (no_temps a2 f2 H2) in T2.
  assert (ES : ff_fs (f_base f1) = ff_fs (f_base f2)) by (apply same_fs_eq in S1; apply same_fs_eq in S2; congruence).
  unfold py_full_master_flat, power_spectra_flat. cbv zeta. rewrite S1, S2, ES, !Nat.eqb_refl, Wb. cbn [andb negb orb bind]. unfold n_bands at 1. rewrite Nat.eqb_refl. cbn [negb bind]. rewrite M1, M2. cbn [orb]. destruct (_ <? _)%nat eqn:EL; [reflexivity|].
  rewrite spectra_ok by (try assumption; rewrite <- ES; assumption). cbn [bind].
  unfold bias_flat. cbv zeta. rewrite L1, L2, (ells_ok b Hc), (proj2 (Nat.leb_le _ _) Hb), T1, T2, ES, same_fs_refl. cbn. rewrite (proj2 (Nat.eqb_neq _ _) Wn). reflexivity.
Qed.
(** ** C82: with the spectra of the maps as guess, cleaning does not bias the bandpowers *)
Lemma full_parts (f1 f2 : flat_field) b noise guess ells c rows r : full_master f1 f2 b noise (Some (guess, Some ells)) None c rows = Ok r ->
  exists w cl B cln, coupling_matrix (f_base f1) (f_base f2) b c false rows = Ok w /\ py_coupled_cell (f_base f1) (f_base f2) b c = Ok cl /\ py_bias_flat f1 f2 b ells guess c = Ok B /\ fdecouple w cl cln B = Ok r /\
    cln = match noise with None => repeat (repeat 0 (n_bands b)) (ff_nmaps (f_base f1) * ff_nmaps (f_base f2)) | Some x => x end /\ (forall x, noise = Some x -> length x = (ff_nmaps (f_base f1) * ff_nmaps (f_base f2))%nat /\ length (hd [] x) = n_bands b) /\
    fw_ncls w = (ff_nmaps (f_base f1) * ff_nmaps (f_base f2))%nat /\ fw_nb w = n_bands b /\ square (fw_ncls w * fw_nb w) (fw_bnd w) /\ ff_mask_only (f_base f1) = false /\ ff_mask_only (f_base f2) = false.
Proof.
  unfold py_full_master_flat, power_spectra_flat. cbv zeta. set (g1 := f_base f1). set (g2 := f_base f2). set (n := (ff_nmaps g1 * ff_nmaps g2)%nat). intro E. destruct (negb (_ && _)) eqn:Exy in E; [discriminate E|].
  destruct (match noise with None => _ | Some x => _ end) as [cln|x|] eqn:En in E; [|discriminate E|discriminate E]. cbn [bind] in E. destruct (_ && _)%bool eqn:Eg in E; [|discriminate E]. cbn [bind] in E.
  destruct (coupling_matrix g1 g2 b c false rows) as [w|x|] eqn:EW; [|discriminate E|discriminate E]. cbn [bind] in E.
  assert (W : fw_ncls w = n /\ fw_nb w = n_bands b /\ square (n * n_bands b) (fw_bnd w)).
  { unfold M_WspFlat.coupling_matrix in EW. destruct (negb _) in EW; [discriminate EW|]. cbn [andb] in EW. destruct (grid_bands _ _ _ _) as [gb|x|] in EW; [|discriminate EW|discriminate EW]. cbn [bind] in EW. injection EW as <-. split; [reflexivity|]. split; [reflexivity|]. cbn [fw_bnd]. exact (rect_tab _ _ _). }
  destruct W as [W1 [W2 W3]]. destruct (_ || _)%bool eqn:EM in E; [discriminate E|]. rewrite W1, Nat.eqb_refl, Nat.ltb_irrefl in E.
  destruct (fs_alm2cl _ _ _ _ _ _ _) as [cl|x|] eqn:Ecl in E; [|discriminate E|discriminate E]. cbn [bind] in E. destruct (bias_flat _ _ _ _ _ _ _ _ _) as [B|x|] eqn:EB in E; [|discriminate E|discriminate E]. cbn [bind] in E.
  exists w, cl, B, cln. split; [reflexivity|]. split.
  { assert (ES : same_fs (ff_fs g1) (ff_fs g2) = true). { unfold bias_flat in EB. cbv zeta in EB. destruct (_ || _)%bool in EB; [discriminate EB|]. destruct (negb _) in EB; [discriminate EB|]. fold g1 g2 in EB. destruct (same_fs (ff_fs g1) (ff_fs g2)); [reflexivity | discriminate EB]. }
    unfold M_WspFlat.py_coupled_cell. rewrite Exy, EM, ES. exact Ecl. }
  split. { unfold M_BiasFlat.py_bias_flat. fold g1 g2. fold n. apply andb_prop in Eg. destruct Eg as [-> ->]. cbn [negb]. exact EB. }
  split; [exact E|]. apply Bool.orb_false_iff in EM. destruct EM as [M1 M2].
  assert (Nz : cln = match noise with None => repeat (repeat 0 (n_bands b)) n | Some x => x end /\ (forall x, noise = Some x -> length x = n /\ length (hd [] x) = n_bands b)).
  { destruct noise as [x|]; [|injection En as <-; split; [reflexivity | discriminate]]. destruct (_ && _)%bool eqn:E1 in En; [|discriminate En]. injection En as <-. apply andb_prop in E1. destruct E1 as [E1 E2]. apply Nat.eqb_eq in E1, E2. split; [reflexivity|]. intros y Ey. injection Ey as <-. split; assumption. }
  destruct Nz as [Nz1 Nz2]. rewrite W2. rewrite W1. repeat split; try assumption; try (intros; apply Nz2; assumption); apply W3.
Qed.
Theorem C82_full_master (a1 a2 : flat_args) (N : nat) (pr : nat -> F) (m1 m2 : nat -> mat) (f1 f2 u1 u2 : nat -> flat_field) (n1 n2 : nat) (b : fbins) (noise : option mat) (c : cuts) (ells : list F) (guess : mat) (rows : list nat) (R U : nat -> mat) :
  sum N pr = 1 -> g_masked a1 = false -> g_masked a2 = false -> g_lite a1 = false -> g_lite a2 = false ->
  (forall k, (k < N)%nat -> length (m1 k) = n1 /\ length (m2 k) = n2) ->
  (forall k, (k < N)%nat -> flat_new (set_maps a1 (m1 k)) = Ok (f1 k) /\ flat_new (no_templates (set_maps a1 (m1 k))) = Ok (u1 k)) ->
  (forall k, (k < N)%nat -> flat_new (set_maps a2 (m2 k)) = Ok (f2 k) /\ flat_new (no_templates (set_maps a2 (m2 k))) = Ok (u2 k)) ->
  let sp1 := ff_spin (f_base (f1 0%nat)) in let sp2 := ff_spin (f_base (f2 0%nat)) in let cl i i' := table ells (nth (i * n2 + i') guess []) in
  correlated pi fsqrt ph (geometry a1) sp1 sp2 cl N pr m1 m2 -> correlated pi fsqrt ph (geometry a1) sp2 sp1 (fun i' i => cl i i') N pr m2 m1 ->
  contiguous b -> (forall x, noise = Some x -> rectangular (n1 * n2) (n_bands b) x) ->
  (forall k, (k < N)%nat -> full_master (f1 k) (f2 k) b noise (Some (guess, Some ells)) None c rows = Ok (R k) /\ full_master (u1 k) (u2 k) b noise (Some (guess, Some ells)) None c rows = Ok (U k)) ->
  forall i ib, (i < n1 * n2)%nat -> (ib < n_bands b)%nat -> sum N (fun k => pr k * nth ib (nth i (R k) []) 0) = sum N (fun k => pr k * nth ib (nth i (U k) []) 0).
Proof.
  intros P1 Ek1 Ek2 El1 El2 Ln H1 H2 sp1 sp2 cl Cor1 Cor2 Hc Hn HRU.
  destruct N as [|N]; [exfalso; cbn in P1; exact (f1_neq_0 (eq_sym P1))|]. set (K := S N) in *. assert (K0 : (0 < K)%nat) by (unfold K; lia).
  destruct (family pi fsqrt ph eigh a1 K m1 f1 u1 n1 0 K0 Ek1 El1 (fun k Hk => proj1 (Ln k Hk)) H1) as (s1 & ts1 & A1 & _ & _ & _ & _ & _ & _ & A8). destruct (family pi fsqrt ph eigh a2 K m2 f2 u2 n2 0 K0 Ek2 El2 (fun k Hk => proj2 (Ln k Hk)) H2) as (s2 & ts2 & B1 & _ & _ & _ & _ & _ & _ & B8). cbv zeta in *.
  assert (Sp1 : forall k, (k < K)%nat -> ff_spin (f_base (f1 k)) = sp1 /\ ff_spin (f_base (u1 k)) = sp1) by (intros k Hk; unfold sp1; rewrite (proj1 (A8 0%nat K0)), (proj1 (A8 k Hk)), (proj2 (A8 k Hk)); split; reflexivity).
  assert (Sp2 : forall k, (k < K)%nat -> ff_spin (f_base (f2 k)) = sp2 /\ ff_spin (f_base (u2 k)) = sp2) by (intros k Hk; unfold sp2; rewrite (proj1 (B8 0%nat K0)), (proj1 (B8 k Hk)), (proj2 (B8 k Hk)); split; reflexivity).
  assert (Nm1 : forall k, (k < K)%nat -> ff_nmaps (f_base (f1 k)) = n1 /\ ff_nmaps (f_base (u1 k)) = n1) by (intros k Hk; rewrite (proj1 (A8 k Hk)), (proj2 (A8 k Hk)), A1; split; reflexivity).
  assert (Nm2 : forall k, (k < K)%nat -> ff_nmaps (f_base (f2 k)) = n2 /\ ff_nmaps (f_base (u2 k)) = n2) by (intros k Hk; rewrite (proj1 (B8 k Hk)), (proj2 (B8 k Hk)), B1; split; reflexivity).
  assert (WW : forall k, (k < K)%nat -> coupling_matrix (f_base (f1 k)) (f_base (f2 k)) b c false rows = coupling_matrix (f_base (f1 0%nat)) (f_base (f2 0%nat)) b c false rows /\ coupling_matrix (f_base (u1 k)) (f_base (u2 k)) b c false rows = coupling_matrix (f_base (f1 0%nat)) (f_base (f2 0%nat)) b c false rows).
  { intros k Hk. rewrite (proj1 (A8 k Hk)), (proj2 (A8 k Hk)), (proj1 (B8 k Hk)), (proj2 (B8 k Hk)), (proj1 (A8 0%nat K0)), (proj1 (B8 0%nat K0)). split; reflexivity. }
  destruct (full_parts _ _ _ _ _ _ _ _ _ (proj1 (HRU 0%nat K0))) as (w & cl0 & B0 & cln & EW & _ & _ & _ & Ecln & Hcl & W1 & W2 & W3 & _). rewrite (proj1 (Nm1 0%nat K0)), (proj1 (Nm2 0%nat K0)) in *. set (n := (n1 * n2)%nat) in *.
  assert (Pn : (0 < n)%nat) by (unfold n; rewrite A1, B1; unfold nmap_of; destruct (_ =? _)%Z, (_ =? _)%Z; lia). rewrite W1, W2 in W3.
  assert (Rn : rect n (n_bands b) cln). { rewrite Ecln. destruct noise as [x|]; [destruct (Hcl x eq_refl) as [Q1 Q2]; exact (Hn x eq_refl Q1 Q2)|]. rewrite !repeat_tab. apply rect_tab. }
  set (Cc := fun k => from_ok [] (py_coupled_cell (f_base (f1 k)) (f_base (f2 k)) b c)). set (Dd := fun k => from_ok [] (py_coupled_cell (f_base (u1 k)) (f_base (u2 k)) b c)).
  set (Bb := fun k => from_ok [] (py_bias_flat (f1 k) (f2 k) b ells guess c)). set (Zz := fun k => from_ok [] (py_bias_flat (u1 k) (u2 k) b ells guess c)).
  assert (HK : forall k, (k < K)%nat -> py_coupled_cell (f_base (f1 k)) (f_base (f2 k)) b c = Ok (Cc k) /\ py_coupled_cell (f_base (u1 k)) (f_base (u2 k)) b c = Ok (Dd k) /\ py_bias_flat (f1 k) (f2 k) b ells guess c = Ok (Bb k) /\ py_bias_flat (u1 k) (u2 k) b ells guess c = Ok (Zz k) /\
     rect n (n_bands b) (R k) /\ rect n (n_bands b) (U k) /\ nonsingular (n * n_bands b) (fw_bnd w) /\
     (forall i ib, (i < n)%nat -> (ib < n_bands b)%nat -> apply_matrix (fw_bnd w) n (n_bands b) (R k) i ib = entry2 (Cc k) i ib - entry2 cln i ib - entry2 (Bb k) i ib) /\ (forall i ib, (i < n)%nat -> (ib < n_bands b)%nat -> apply_matrix (fw_bnd w) n (n_bands b) (U k) i ib = entry2 (Dd k) i ib - entry2 cln i ib - entry2 (Zz k) i ib)).
  { intros k Hk. destruct (full_parts _ _ _ _ _ _ _ _ _ (proj1 (HRU k Hk))) as (w' & cl1 & B1' & cln' & E1 & E2 & E3 & E4 & E5 & _ & E6 & E7 & E8 & M1 & M2). destruct (full_parts _ _ _ _ _ _ _ _ _ (proj2 (HRU k Hk))) as (w'' & cl2 & B2' & cln'' & G1 & G2 & G3 & G4 & G5 & _ & G6 & G7 & G8 & M3 & M4).
    rewrite (proj1 (WW k Hk)), EW in E1. injection E1 as <-. rewrite (proj2 (WW k Hk)), EW in G1. injection G1 as <-. rewrite (proj1 (Nm1 k Hk)), (proj1 (Nm2 k Hk)) in E5. rewrite (proj2 (Nm1 k Hk)), (proj2 (Nm2 k Hk)) in G5. fold n in E5, G5. rewrite <- Ecln in E5, G5. subst cln' cln''.
    pose proof (coupled_rect _ _ b c cl1 Hc (made_complete _ _ (proj1 (H1 k Hk)) M1) (made_complete _ _ (proj1 (H2 k Hk)) M2) E2) as R1. pose proof (coupled_rect _ _ b c cl2 Hc (made_complete _ _ (proj2 (H1 k Hk)) M3) (made_complete _ _ (proj2 (H2 k Hk)) M4) G2) as R2. pose proof (bias_rect _ _ b c ells guess B1' E3) as R3. pose proof (bias_rect _ _ b c ells guess B2' G3) as R4.
    rewrite (proj1 (Nm1 k Hk)), (proj1 (Nm2 k Hk)) in R1, R3. rewrite (proj2 (Nm1 k Hk)), (proj2 (Nm2 k Hk)) in R2, R4. fold n in R1, R2, R3, R4. unfold Cc, Dd, Bb, Zz. rewrite E2, G2, E3, G3. cbn [from_ok].
    apply fdecouple_iff in E4; rewrite ?W1, ?W2; try assumption. apply fdecouple_iff in G4; rewrite ?W1, ?W2; try assumption. rewrite W1, W2 in E4, G4. destruct E4 as [X1 [X2 X3]]. destruct G4 as [Y1 [Y2 Y3]]. repeat (split; [first [reflexivity | assumption]|]). exact Y3. }
  assert (Bias : forall k i ib, (k < K)%nat -> (i < n)%nat -> (ib < n_bands b)%nat -> entry2 (Bb k) i ib = sum K (fun k => pr k * entry2 (Cc k) i ib) - sum K (fun k => pr k * entry2 (Dd k) i ib) /\ entry2 (Zz k) i ib = 0).
  { intros k i ib Hk Hi Hib. destruct (div_mod_lt n2 i n1) as [I1 I2]; [unfold n in Pn; nia | unfold n in Hi; rewrite Nat.mul_comm; exact Hi|]. assert (Ei : i = (i / n2 * n2 + i mod n2)%nat) by (rewrite (Nat.div_mod i n2) at 1 by lia; lia). unfold entry2. rewrite Ei.
    pose proof (C82_bias pi fsqrt ph eigh a1 a2 K k pr m1 m2 f1 f2 u1 u2 n1 n2 b c ells guess (Bb k) Cc Dd Hk Ek1 Ek2 El1 El2 Ln H1 H2) as T. cbv zeta in T. rewrite (proj1 (Sp1 k Hk)), (proj1 (Sp2 k Hk)) in T. specialize (T Cor1 Cor2 Hc (fun k Hk => conj (proj1 (HK k Hk)) (proj1 (proj2 (HK k Hk)))) (proj1 (proj2 (proj2 (HK k Hk)))) (i / n2)%nat (i mod n2) ib I1 I2 Hib).
    pose proof (C82_bias pi fsqrt ph eigh (no_templates a1) (no_templates a2) K k pr m1 m2 u1 u2 u1 u2 n1 n2 b c ells guess (Zz k) Dd Dd Hk Ek1 Ek2 El1 El2 Ln (fun k Hk => conj (proj2 (H1 k Hk)) (proj2 (H1 k Hk))) (fun k Hk => conj (proj2 (H2 k Hk)) (proj2 (H2 k Hk)))) as T'. cbv zeta in T'. rewrite (proj2 (Sp1 k Hk)), (proj2 (Sp2 k Hk)) in T'.
    specialize (T' Cor1 Cor2 Hc (fun k Hk => conj (proj1 (proj2 (HK k Hk))) (proj1 (proj2 (HK k Hk)))) (proj1 (proj2 (proj2 (proj2 (HK k Hk))))) (i / n2)%nat (i mod n2) ib I1 I2 Hib). split; [rewrite T; ring|].
    set (x := sum K _) in T'. set (z := nth ib _ 0) in T' |- *. replace z with (x + z - x) by ring. rewrite <- T'. ring. }
  set (X := tab n (fun i => tab (n_bands b) (fun ib => sum K (fun k => pr k * entry2 (R k) i ib) - sum K (fun k => pr k * entry2 (U k) i ib)))).
  assert (EX : forall i ib, (i < n)%nat -> (ib < n_bands b)%nat -> entry2 X i ib = sum K (fun k => pr k * entry2 (R k) i ib) - sum K (fun k => pr k * entry2 (U k) i ib)) by (intros i ib Hi Hib; unfold X, entry2 at 1; rewrite nth_tab by exact Hi; rewrite nth_tab by exact Hib; reflexivity).
  assert (AX : forall i ib, (i < n)%nat -> (ib < n_bands b)%nat -> 0 = apply_matrix (fw_bnd w) n (n_bands b) X i ib).
  { intros i ib Hi Hib. set (A := fun V => apply_matrix (fw_bnd w) n (n_bands b) V i ib).
    assert (L : A X = sum K (fun k => pr k * A (R k)) - sum K (fun k => pr k * A (U k))).
    { unfold A, apply_matrix. rewrite (sum_ext n _ (fun j => sum (n_bands b) (fun jb => sum K (fun k => pr k * (entry2 (fw_bnd w) (ib * n + i) (jb * n + j) * entry2 (R k) j jb)) - sum K (fun k => pr k * (entry2 (fw_bnd w) (ib * n + i) (jb * n + j) * entry2 (U k) j jb))))).
      - rewrite (sum_ext n _ (fun j => sum K (fun k => pr k * sum (n_bands b) (fun jb => entry2 (fw_bnd w) (ib * n + i) (jb * n + j) * entry2 (R k) j jb)) - sum K (fun k => pr k * sum (n_bands b) (fun jb => entry2 (fw_bnd w) (ib * n + i) (jb * n + j) * entry2 (U k) j jb)))).
        + rewrite sum_sub. f_equal; (rewrite sum_swap; apply sum_ext; intros k _; rewrite sum_mul_l; reflexivity).
        + intros j _. rewrite sum_sub. f_equal; (rewrite sum_swap; apply sum_ext; intros k _; rewrite sum_mul_l; reflexivity).
      - intros j Hj. apply sum_ext. intros jb Hjb. rewrite (EX j jb Hj Hjb). set (e := entry2 (fw_bnd w) _ _). rewrite (sum_ext K (fun k => pr k * (e * entry2 (R k) j jb)) (fun k => e * (pr k * entry2 (R k) j jb))), (sum_ext K (fun k => pr k * (e * entry2 (U k) j jb)) (fun k => e * (pr k * entry2 (U k) j jb))) by (intros; ring). rewrite !sum_mul_l. ring. }
    change (0 = A X). rewrite L. set (c0' := sum K (fun k => pr k * entry2 (Cc k) i ib)). set (d0' := sum K (fun k => pr k * entry2 (Dd k) i ib)).
    rewrite (sum_ext K (fun k => pr k * A (R k)) (fun k => pr k * entry2 (Cc k) i ib - (entry2 cln i ib + (c0' - d0')) * pr k)). 2:{ intros k Hk. unfold A. destruct (HK k Hk) as (_ & _ & _ & _ & _ & _ & _ & ER & _). rewrite (ER i ib Hi Hib). rewrite (proj1 (Bias k i ib Hk Hi Hib)). fold c0' d0'. ring. }
    rewrite (sum_ext K (fun k => pr k * A (U k)) (fun k => pr k * entry2 (Dd k) i ib - entry2 cln i ib * pr k)). 2:{ intros k Hk. unfold A. destruct (HK k Hk) as (_ & _ & _ & _ & _ & _ & _ & _ & ER). rewrite (ER i ib Hi Hib). rewrite (proj2 (Bias k i ib Hk Hi Hib)). ring. }
    rewrite !sum_sub, !sum_mul_l, P1. fold c0' d0'. ring. }
  destruct (HK 0%nat K0) as (_ & _ & _ & _ & _ & _ & NS & _). pose proof (proj1 (matvec_flatten (fw_bnd w) n (n_bands b) X (tab n (fun _ => tab (n_bands b) (fun _ => 0))) Pn W3)) as MF.
  assert (Z : flatten n (n_bands b) X = zeros (n * n_bands b)). { apply NS; [apply length_tab|]. rewrite MF; [|intros i ib Hi Hib; unfold entry2 at 1; rewrite nth_tab by exact Hi; rewrite nth_tab by exact Hib; apply AX; assumption]. unfold flatten, zeros. rewrite repeat_tab. apply tab_ext. intros r Hr. destruct (div_mod_lt n r (n_bands b) Pn Hr) as [Q1 Q2]. unfold entry2. rewrite nth_tab by assumption. rewrite nth_tab by assumption. reflexivity. }
  intros i ib Hi Hib. fold n in Hi. pose proof (nth_flatten n (n_bands b) X i ib Hi Hib) as E. rewrite Z in E. unfold zeros in E. rewrite repeat_tab, nth_tab in E by nia. rewrite (EX i ib Hi Hib) in E. unfold entry2 in E. match type of E with 0 = ?x - ?y => replace x with (x - y + y) by ring end. rewrite <- E. ring.
Qed.
Lemma no_templates_ok (a : flat_args) f m : flat_new a = Ok f -> g_maps a = Some m -> g_masked a = false -> g_lite a = false -> exists u, flat_new (no_templates a) = Ok u.
Proof.
  intros E Em Ek El. destruct (flat_facts pi fsqrt ph eigh a f m E Em Ek El) as (sp & ts & X & A1 & A2 & A3 & _). cbv zeta in A3. unfold M_FieldFlat.flat_new in E |- *. cbn [no_templates g_lx g_ly g_maps g_spin g_pe g_pb g_nx g_ny g_temp g_mask g_beam g_tol g_masked g_lite] in *. rewrite Em in *. rewrite Ek, El in *. rewrite A1 in *.
  destruct ((g_lx a <? 0) || (g_ly a <? 0))%bool; [discriminate|]. cbn [bind temps_from] in *. destruct ((g_pe a || g_pb a) && negb (sp =? 2)%Z)%bool eqn:Ep; [discriminate|]. destruct (negb (forallb _ m)); [discriminate|]. destruct (temps_from _ _ _) in E; [|discriminate E|discriminate E]. cbn [bind] in E. destruct (negb _) in E |- *; [discriminate E|]. clear E.
  unfold field_flat_alloc. rewrite Ep. cbv zeta. cbn [map length Nat.ltb Nat.leb bind subtract fold_left seq]. fold (geometry a). destruct (g_pe a || g_pb a)%bool eqn:Eb.
  - specialize (A2 eq_refl). subst sp. destruct (purified_ok pi fsqrt ph (geometry a) (g_pe a, g_pb a) (g_mask a) (map2alm0 pi ph (geometry a) (g_mask a)) m (proj1 A3)) as [[pm Hp] _]. rewrite Hp. cbn [bind mapM]. eexists. reflexivity.
  - rewrite analysed_ok by (rewrite map_length; apply A3). cbn [bind mapM]. eexists. reflexivity.
Qed.
Lemma product_times (s : fsinfo) (mask t : list F) : length t = npix_fs s -> product s mask t = times_mask mask t.
Proof. intro L. unfold product, times_mask. rewrite L. apply tab_ext. intros. ring. Qed.
Lemma iso_cov_sym (s : fsinfo) P p p' : iso_cov pi fsqrt ph s P p p' = iso_cov pi fsqrt ph s P p' p.
Proof. unfold iso_cov. f_equal. apply lsum_ext. intros m _. unfold cdot. ring. Qed.
Lemma iso_cov_ext (s : fsinfo) P Q p p' : (forall m, In m (grid s) -> P (kmod_of pi fsqrt s m) = Q (kmod_of pi fsqrt s m)) -> iso_cov pi fsqrt ph s P p p' = iso_cov pi fsqrt ph s Q p p'.
Proof. intro H. unfold iso_cov. f_equal. apply lsum_ext. intros m Hm. rewrite (H m Hm). reflexivity. Qed.
(** a field of one map, cleaned or not *)
Lemma one_map (a : flat_args) f t : flat_new a = Ok f -> g_maps a = Some [t] -> g_masked a = false -> g_lite a = false ->
  exists X, f_base f = FF (geometry a) 0 false false (g_mask a) (g_beam a) X false /\ length t = npix_fs (geometry a) /\ 0 < g_lx a /\ 0 < g_ly a /\ (g_temp a = NoTemp -> X = [map2alm0 pi ph (geometry a) (times_mask (g_mask a) t)]).
Proof.
  intros E Em Ek El. destruct (flat_facts pi fsqrt ph eigh a f [t] E Em Ek El) as (sp & ts & X & A1 & A2 & A3 & A4 & _ & A6 & A7 & A8 & _ & _ & _ & A12 & _). cbv zeta in *.
  assert (sp = 0%Z). { apply spin_length in A1. cbn [length] in A1. unfold nmap_of in A1. destruct (Z.eqb_spec sp 0); [assumption | discriminate]. } subst sp.
  assert (Ep : g_pe a = false /\ g_pb a = false) by (destruct (g_pe a), (g_pb a); try (specialize (A2 eq_refl); discriminate); split; reflexivity). destruct Ep as [Ep1 Ep2]. rewrite Ep1, Ep2 in *. exists X. split; [exact A8|]. assert (L : length t = npix_fs (geometry a)) by (apply (proj2 A3); left; reflexivity). split; [exact L|]. split; [exact A6|]. split; [exact A7|].
  intro NT. rewrite NT in A4. cbn [temps_from] in A4. injection A4 as <-. rewrite A12. cbn [subtract fold_left seq length map]. unfold harm, core. cbn [ff_pe ff_pb ff_fs ff_spin ff_mask]. rewrite Ep1, Ep2. cbn [orb]. unfold analysed. cbn [Z.eqb map nth]. rewrite product_times by exact L. reflexivity.
Qed.
Lemma bias_none (f1 f2 : flat_field) b c ells guess : temps_of f1 = [] -> temps_of f2 = [] -> f_lite f1 = false -> f_lite f2 = false -> k_alloc_ok ells = true -> same_fs (ff_fs (f_base f1)) (ff_fs (f_base f2)) = true ->
  bias_flat pi fsqrt ph f1 f2 b c ells guess = Ok (repeat (repeat 0 (n_bands b)) (ff_nmaps (f_base f1) * ff_nmaps (f_base f2))).
Proof.
  intros T1 T2 L1 L2 K S. destruct (bias_flat pi fsqrt ph f1 f2 b c ells guess) as [B|x|] eqn:E; [rewrite (bias_no_templates _ _ _ _ _ _ _ T1 T2 E); reflexivity| |]; exfalso; unfold bias_flat in E; rewrite T1, T2, L1, L2, K, S in E; cbv zeta in E; cbn [orb negb mapM bind length tabM Nat.ltb Nat.leb andb] in E; discriminate E.
Qed.
(** Scalar maps with the statistics of isotropic fields of power spectrum [C], each smoothed by its beam, observed through any two masks, cleaned of any templates: with the true spectrum of the smoothed maps as guess, the mean bandpowers are those of [C]. *)
Theorem C82_unbiased (a1 a2 : flat_args) (N : nat) (pr : nat -> F) (t1 t2 : nat -> list F) (f1 f2 : nat -> flat_field) (b : fbins) (c : cuts) (ells cl : list F) (rows : list nat) (C : F -> F) (v : list F) (R : nat -> mat) :
  let s := geometry a1 in geometry a2 = s -> (0 < fs_nx s)%nat -> (0 < fs_ny s)%nat -> length (g_mask a1) = npix_fs s -> length (g_mask a2) = npix_fs s ->
  g_masked a1 = false -> g_masked a2 = false -> g_lite a1 = false -> g_lite a2 = false -> pi <> 0 -> conj_roots ph s -> hom_roots ph s -> y_symmetric pi s c -> contiguous b -> all_rows s rows ->
  sum N pr = 1 ->
  (forall p p', In p (grid s) -> In p' (grid s) -> sum N (fun k => pr k * (pix s (t1 k) p * pix s (t2 k) p')) = iso_cov pi fsqrt ph s (fun k => C k * (g_beam a1 k * g_beam a2 k)) p p') ->
  (forall m, In m (grid s) -> table ells cl (kmod_of pi fsqrt s m) = C (kmod_of pi fsqrt s m) * (g_beam a1 (kmod_of pi fsqrt s m) * g_beam a2 (kmod_of pi fsqrt s m))) ->
  length v = n_bands b ->
  (forall m, In m (grid s) -> (forall i, (i < n_bands b)%nat -> inb b i (kmod_of pi fsqrt s m) = true -> C (kmod_of pi fsqrt s m) = nth i v 0) /\ ((forall i, (i < n_bands b)%nat -> inb b i (kmod_of pi fsqrt s m) = false) -> C (kmod_of pi fsqrt s m) = 0)) ->
  (forall k, (k < N)%nat -> flat_new (set_maps a1 [t1 k]) = Ok (f1 k) /\ flat_new (set_maps a2 [t2 k]) = Ok (f2 k) /\ full_master (f1 k) (f2 k) b None (Some ([cl], Some ells)) None c rows = Ok (R k)) ->
  forall i, (i < n_bands b)%nat -> sum N (fun k => pr k * nth i (nth 0 (R k) []) 0) = nth i v 0.
Proof.
  intros s Eg Nx Ny Lm1 Lm2 Ek1 Ek2 El1 El2 Hpi HR HH HY Hc HP P1 HC HG Lv Hv HF i Hi.
  destruct N as [|N]; [exfalso; cbn in P1; exact (f1_neq_0 (eq_sym P1))|]. set (K := S N) in *. assert (K0 : (0 < K)%nat) by (unfold K; lia).
  set (u1 := fun k => from_ok (f1 k) (flat_new (no_templates (set_maps a1 [t1 k])))). set (u2 := fun k => from_ok (f2 k) (flat_new (no_templates (set_maps a2 [t2 k])))).
  assert (HU : forall k, (k < K)%nat -> flat_new (no_templates (set_maps a1 [t1 k])) = Ok (u1 k) /\ flat_new (no_templates (set_maps a2 [t2 k])) = Ok (u2 k)).
  { intros k Hk. destruct (HF k Hk) as (E1 & E2 & _). destruct (no_templates_ok _ _ _ E1 eq_refl Ek1 El1) as [x Ex]. destruct (no_templates_ok _ _ _ E2 eq_refl Ek2 El2) as [y Ey]. unfold u1, u2. rewrite Ex, Ey. split; reflexivity. }
  assert (Hl : forall k, (k < K)%nat -> length (t1 k) = npix_fs s /\ length (t2 k) = npix_fs s).
  { intros k Hk. destruct (HF k Hk) as (E1 & E2 & _). destruct (one_map _ _ _ E1 eq_refl Ek1 El1) as (X1 & _ & A & _). destruct (one_map _ _ _ E2 eq_refl Ek2 El2) as (X2 & _ & B & _). change (geometry (set_maps a2 [t2 k])) with (geometry a2) in B. rewrite Eg in B. split; assumption. }
  destruct (HF 0%nat K0) as (E1 & E2 & EF). destruct (one_map _ _ _ E1 eq_refl Ek1 El1) as (X1 & FX1 & _ & Hlx & Hly & _). destruct (one_map _ _ _ E2 eq_refl Ek2 El2) as (X2 & FX2 & _). cbn [set_maps g_mask g_beam g_lx g_ly] in *. change (geometry (set_maps a1 [t1 0%nat])) with s in *. change (geometry (set_maps a2 [t2 0%nat])) with (geometry a2) in *. rewrite Eg in *.
  destruct (C77_unbiased pi fsqrt trunc ph s (g_mask a1) (g_mask a2) (g_beam a1) (g_beam a2) b c Hc HY HR HH Hlx Hly Lm1 Lm2 K pr t1 t2 Hl C HC rows v HP Lv Hv) as (w & EW & T).
  assert (CM : forall Y Y' mo mo', coupling_matrix (FF s 0 false false (g_mask a1) (g_beam a1) Y mo) (FF s 0 false false (g_mask a2) (g_beam a2) Y' mo') b c false rows = Ok w).
  { intros. unfold workspace_of in EW. rewrite !mask_only_ok in EW by assumption. cbn [bind] in EW. rewrite coupling_matrix_eq in EW |- * by assumption. exact EW. }
  destruct (full_parts _ _ _ _ _ _ _ _ _ EF) as (w' & cl0 & B & cln & W0 & E3 & E4 & E5 & E6 & _ & E7 & E8 & E9 & _). rewrite FX1, FX2, CM in W0. injection W0 as <-. rewrite FX1, FX2 in E6, E7. unfold ff_nmaps in E6, E7. cbn [ff_spin Z.eqb Nat.mul Nat.add] in E6, E7.
  assert (NS : nonsingular (n_bands b) (fw_bnd w)).
  { pose proof (coupled_rect _ _ b c cl0 Hc (made_complete _ _ E1 ltac:(rewrite FX1; reflexivity)) (made_complete _ _ E2 ltac:(rewrite FX2; reflexivity)) E3) as R1. pose proof (bias_rect _ _ b c ells [cl] B E4) as R2. rewrite FX1, FX2 in R1, R2. unfold ff_nmaps in R1, R2. cbn [ff_spin Z.eqb Nat.mul Nat.add] in R1, R2.
    assert (R3 : rect 1 (n_bands b) cln) by (rewrite E6, !repeat_tab; apply rect_tab). apply fdecouple_iff in E5; rewrite ?E7, ?E8; try assumption; try lia; [|rewrite E7, E8 in E9; exact E9]. destruct E5 as [NS _]. rewrite E7, E8, Nat.mul_1_l in NS. exact NS. }
  destruct (T NS) as (r & Tr & Tm).
  assert (KO : k_alloc_ok ells = true). { unfold M_BiasFlat.py_bias_flat in E4. destruct (negb _) in E4; [discriminate E4|]. destruct (negb _) in E4; [discriminate E4|]. unfold bias_flat in E4. cbv zeta in E4. destruct (_ || _)%bool in E4; [discriminate E4|]. destruct (k_alloc_ok ells); [reflexivity | discriminate E4]. }
  assert (LG : length cl = length ells). { unfold M_BiasFlat.py_bias_flat in E4. destruct (negb _) in E4; [discriminate E4|]. destruct (negb _) eqn:G in E4; [discriminate E4|]. apply Bool.negb_false_iff, Nat.eqb_eq in G. exact G. }
  assert (HM : forall k, (k < K)%nat -> full_master (u1 k) (u2 k) b None (Some ([cl], Some ells)) None c rows = Ok [r k]).
  { intros k Hk. destruct (HU k Hk) as [U1 U2]. destruct (one_map _ _ _ U1 eq_refl Ek1 El1) as (Y1 & FY1 & L1 & _ & _ & Z1). destruct (one_map _ _ _ U2 eq_refl Ek2 El2) as (Y2 & FY2 & L2 & _ & _ & Z2). specialize (Z1 eq_refl). specialize (Z2 eq_refl).
    change (geometry (no_templates (set_maps a1 [t1 k]))) with s in *. change (geometry (no_templates (set_maps a2 [t2 k]))) with (geometry a2) in *. rewrite Eg in *. cbn [no_templates set_maps g_mask g_beam] in *. subst Y1 Y2. fold (scalar pi ph s (g_mask a1) (t1 k) (g_beam a1)) in FY1. fold (scalar pi ph s (g_mask a2) (t2 k) (g_beam a2)) in FY2.
    destruct (flat_facts pi fsqrt ph eigh _ _ _ U1 eq_refl Ek1 El1) as (sp & ts & X & _ & _ & _ & A4 & _ & _ & _ & _ & A9 & A10 & _). destruct (flat_facts pi fsqrt ph eigh _ _ _ U2 eq_refl Ek2 El2) as (sp' & ts' & X' & _ & _ & _ & B4 & _ & _ & _ & _ & B9 & B10 & _). cbv zeta in *. cbn [no_templates set_maps g_temp temps_from] in A4, B4. injection A4 as <-. injection B4 as <-. cbn [map] in A10, B10.
    destruct (Tr k Hk) as [D _]. unfold decoupled_of in D. destruct (Hl k Hk) as [Q1 Q2]. rewrite !scalar_ok in D by assumption. cbn [bind] in D. unfold scalar at 1 2 in D. rewrite CM in D. cbn [bind] in D. rewrite coupled_ok in D by assumption. cbn [bind] in D. unfold py_decouple, need, check_shape in D. cbn [bind] in D. rewrite E7, E8 in D. cbn [length hd] in D. rewrite length_tab, !Nat.eqb_refl in D. cbn [andb negb bind] in D.
    unfold py_full_master_flat, power_spectra_flat. cbv zeta. rewrite FY1, FY2. unfold scalar at 1 2 3 4. cbn [ff_fs]. rewrite !Nat.eqb_refl. cbn [andb negb bind]. unfold ff_nmaps at 1 2 3 4. cbn [scalar ff_spin Z.eqb Nat.mul Nat.add length hd]. rewrite LG, !Nat.eqb_refl. cbn [andb bind]. unfold scalar at 1 2. rewrite CM. cbn [bind]. cbn [scalar ff_mask_only orb]. unfold ff_nmaps. cbn [ff_spin Z.eqb Nat.mul Nat.add]. rewrite E7. cbn [Nat.ltb Nat.leb Nat.eqb].
    assert (Ecc := coupled_ok pi fsqrt ph s (g_mask a1) (g_mask a2) (g_beam a1) (g_beam a2) b c (t1 k) (t2 k) Hc HY HR). unfold M_WspFlat.py_coupled_cell in Ecc. cbn [scalar ff_fs ff_mask_only orb] in Ecc. rewrite !Nat.eqb_refl, same_fs_refl in Ecc. cbn [andb negb] in Ecc. cbn [scalar ff_fs ff_alms] in Ecc |- *. rewrite Ecc. cbn [bind].
    rewrite bias_none; try assumption; [|rewrite FY1, FY2; apply same_fs_refl]. cbn [bind]. rewrite FY1, FY2. unfold ff_nmaps. cbn [scalar ff_spin Z.eqb Nat.mul Nat.add]. rewrite <- D. unfold zeros_like. cbn [map repeat]. f_equal. 
    - f_equal. rewrite repeat_tab. unfold tab at 2. rewrite map_map. reflexivity.
    - f_equal. rewrite repeat_tab. unfold tab at 2. rewrite map_map. reflexivity. }
  transitivity (sum K (fun k => pr k * nth i (r k) 0)); [|apply Tm; exact Hi].
  assert (Cor : forall x y : nat -> list F, (forall p p', In p (grid s) -> In p' (grid s) -> sum K (fun k => pr k * (pix s (x k) p * pix s (y k) p')) = iso_cov pi fsqrt ph s (table ells cl) p p') -> correlated pi fsqrt ph s 0 0 (fun _ _ => table ells cl) K pr (fun k => [x k]) (fun k => [y k])) by (intros x y Hxy; apply C82_isotropic; assumption).
  refine (C82_full_master a1 a2 K pr (fun k => [t1 k]) (fun k => [t2 k]) f1 f2 u1 u2 1 1 b None c ells [cl] rows R (fun k => [r k]) P1 Ek1 Ek2 El1 El2 _ _ _ _ _ Hc _ _ 0%nat i _ Hi).
  - intros; split; reflexivity.
  - intros k Hk. split; [apply (HF k Hk) | apply (HU k Hk)].
  - intros k Hk. split; [apply (HF k Hk) | apply (HU k Hk)].
  - fold s. rewrite FX1, FX2. cbn [ff_spin]. intros h x y z H1 H2 H3 H4 H5 H6. refine (Cor t1 t2 _ h x y z H1 H2 H3 H4 H5 _).
    + intros p p' Hp Hp'. rewrite (HC p p' Hp Hp'). symmetry. apply iso_cov_ext. exact HG.
    + intros i0 ix iy Hi0 Hix Hiy. cbn in Hi0. assert (i0 = 0%nat) as -> by lia. rewrite (H6 0%nat ix iy Hi0 Hix Hiy). reflexivity.
  - fold s. rewrite FX1, FX2. cbn [ff_spin]. intros h x y z H1 H2 H3 H4 H5 H6. refine (Cor t2 t1 _ h x y z H1 H2 H3 H4 H5 _).
    + intros p p' Hp Hp'. rewrite iso_cov_sym. rewrite (iso_cov_ext s (table ells cl) (fun k => C k * (g_beam a1 k * g_beam a2 k)) p' p HG). rewrite <- (HC p' p Hp' Hp). apply sum_ext. intros; ring.
    + intros i0 ix iy Hi0 Hix Hiy. cbn in Hi0. assert (i0 = 0%nat) as -> by lia. rewrite (H6 0%nat ix iy Hi0 Hix Hiy). reflexivity.
  - intros x Hx. discriminate Hx.
  - intros k Hk. split; [apply (HF k Hk) | apply (HM k Hk)].
  - lia.
Qed.
End PFullFlat.

(** * Maps of 4 by 4 pixels: 32 cosine and sine maps and an empty one, weighted so that they are an ensemble of isotropic maps, seen through two masks and cleaned of one template each. *)
Section Ex.
Notation Q := Qc_field.
Definition eig1 (m : list (list Q)) : list Q * list (list Q) := ([entry2 m 0 0], [[qz 1]]).
Definition ga1 : flat_args Q := FlatArgs 4 4 (qz 2) (qz 2) mask44 None None (Temps [[map qz [1; 2; 0; 1; 3; 1; 0; 2; 1; 1; 0; 2; 1; 4; 1; 0]%Z]]) bm false false (q 1 1000) false false.
Definition ga2 : flat_args Q := FlatArgs 4 4 (qz 2) (qz 2) mask44' None (Some 0%Z) (Temps [[map qz [0; 1; 1; 2; -1; 1; 5; 0; 1; 0; 2; 2; 1; 0; 1; 3]%Z]]) (fun _ => qz 1) false false (q 1 1000) false false.
Definition power44 : Q -> Q := band_value bring [q 7 10; q 3 10].
Definition seen44 (k : Q) : Q := fmul (power44 k) (fmul (bm k) (qz 1)).
Definition weight44 (k : nat) : Q := if Nat.ltb k 32 then ens_weight (qz 1) sq8 s44 seen44 k else fsub (qz 1) (sum 32 (ens_weight (qz 1) sq8 s44 seen44)).
Definition map44 (k : nat) : list Q := if Nat.ltb k 32 then t44 k else repeat (qz 0) 16.
Definition ells44 : list Q := [qz 0; qz 1; q 1414 1000; qz 2; q 2236 1000; q 2828 1000].
Definition guess44 : list Q := map seen44 ells44.
Definition no_field : flat_field Q := FlatField (FF s44 0 false false [] bm [] false) None None None None false.
Definition new44 (a : flat_args Q) (k : nat) : res (flat_field Q) := flat_new (qz 1) sq8 ph4 eig1 (set_maps a [map44 k]).
Definition master44 (guess : list Q) (k : nat) : res (list (list Q)) := py_full_master_flat (qz 1) sq8 trq ph4 (from_ok no_field (new44 ga1 k)) (from_ok no_field (new44 ga2 k)) bring None (Some ([guess], Some ells44)) None free [2; 0; 1; 3]%nat.
Definition mean44 (guess : list Q) (i : nat) : Q := sum 33 (fun k => fmul (weight44 k) (nth i (nth 0 (from_ok [] (master44 guess k)) []) (qz 0))).
Add Field FfPUFq : (fth Q).
Lemma sum_33 (f : nat -> Q) : sum 33 f = fadd (sum 32 f) (f 32%nat).
Proof. reflexivity. Qed.
Example ex_templates_unbiased :
  geometry ga2 = geometry ga1 /\ conj_roots ph4 (geometry ga1) /\ hom_roots ph4 (geometry ga1) /\ y_symmetric (qz 1) (geometry ga1) free /\ contiguous bring /\ all_rows (geometry ga1) [2; 0; 1; 3]%nat /\
  forallb (fun k => negb (fltb (weight44 k) (qz 0))) (seq 0 33) = true /\ sum 33 weight44 = qz 1 /\
  (forall p p', In p (grid s44) -> In p' (grid s44) -> sum 33 (fun k => fmul (weight44 k) (fmul (pix s44 (map44 k) p) (pix s44 (map44 k) p'))) = iso_cov (qz 1) sq8 ph4 s44 seen44 p p') /\
  forallb (fun m => feqb (table ells44 guess44 (kmod_of (qz 1) sq8 s44 m)) (seen44 (kmod_of (qz 1) sq8 s44 m))) (grid s44) = true /\
  forallb (fun k => is_ok (new44 ga1 k) && is_ok (new44 ga2 k) && is_ok (master44 guess44 k))%bool (seq 0 33) = true /\
  map out (tab 2 (mean44 guess44)) = map out [q 7 10; q 3 10] /\
  (** with a guess of zero they are not *)
  map out (tab 2 (mean44 (repeat (qz 0) 6))) <> map out [q 7 10; q 3 10].
Proof.
  split; [reflexivity|]. split; [exact roots44|]. split; [exact hom44|]. split; [intros iy Hy; cbn in Hy; destruct iy as [|[|[|[|iy]]]]; try lia; vm_compute; reflexivity|]. split; [exact contiguous_ring|].
  split; [unfold all_rows; cbn; apply (Permutation_cons_app [0; 1]%nat [3]%nat 2%nat); apply Permutation_refl|]. split; [vm_compute; reflexivity|]. split; [apply out_inj; vm_compute; reflexivity|].
  split.
  - intros p p' Hp Hp'. rewrite sum_33. assert (Z : forall p, pix s44 (map44 32) p = qz 0) by (intro x; unfold pix, map44; cbn [Nat.ltb Nat.leb]; apply nth_repeat).
    rewrite !Z. rewrite (sum_ext 32 _ (fun k => fmul (ens_weight (qz 1) sq8 s44 seen44 k) (fmul (pix s44 (ens_map ph4 s44 k) p) (pix s44 (ens_map ph4 s44 k) p')))) by (intros k Hk; unfold weight44, map44, t44; apply Nat.ltb_lt in Hk; rewrite Hk; reflexivity).
    transitivity (sum 32 (fun k => fmul (ens_weight (qz 1) sq8 s44 seen44 k) (fmul (pix s44 (ens_map ph4 s44 k) p) (pix s44 (ens_map ph4 s44 k) p')))); [change (qz 0) with (f0 : Q); ring | exact (proj2 (C77_ensemble_exists (qz 1) sq8 ph4 s44 seen44 p p' Hp Hp'))].
  - split; [vm_compute; reflexivity|]. split; [vm_compute; reflexivity|]. split; [vm_compute; reflexivity|]. vm_compute. discriminate.
Qed.
(** fields without templates: default arguments; one band; a field made with lite=True; a workspace of two spin-2 fields *)
Definition plain44 (a : flat_args Q) (k : nat) : res (flat_field Q) := flat_new (qz 1) sq8 ph4 eig1 (no_templates (set_maps a [map44 k])).
Definition pf1 : flat_field Q := from_ok no_field (plain44 ga1 5).
Definition pf2 : flat_field Q := from_ok no_field (plain44 ga2 9).
Definition lite1 : res (flat_field Q) := flat_new (qz 1) sq8 ph4 eig1 (FlatArgs 4 4 (qz 2) (qz 2) mask44 (Some [t44 5]) None NoTemp bm false false (q 1 1000) false true).
Definition one_band : fbins Q := FBins [qz 0] [qz 2].
Definition default44 (f1 f2 : flat_field Q) (b : fbins Q) (w : option (fwsp Q)) : res (list (list Q)) := py_full_master_flat (qz 1) sq8 trq ph4 f1 f2 b None None w free [2; 0; 1; 3]%nat.
Definition steps44 (f1 f2 : flat_field Q) (b : fbins Q) : res (list (list Q)) := steps_no_bias (qz 1) sq8 trq ph4 f1 f2 b None None free [2; 0; 1; 3]%nat.
Definition wsp22 : res (fwsp Q) := coupling_matrix (qz 1) sq8 trq ph4 (field44 2 mask44) (field44 2 mask44) bring free false [2; 0; 1; 3]%nat.
Example ex_full_master :
  is_ok (plain44 ga1 5) = true /\ is_ok (plain44 ga2 9) = true /\ contiguous bring /\ contiguous one_band /\
  is_ok (default44 pf1 pf2 bring None) = true /\ map (map out) (from_ok [] (default44 pf1 pf2 bring None)) = map (map out) (from_ok [] (steps44 pf1 pf2 bring)) /\
  is_ok (steps44 pf1 pf2 one_band) = true /\ default44 pf1 pf2 one_band None = UB /\
  is_ok lite1 = true /\ is_ok (steps44 (from_ok pf1 lite1) pf2 bring) = true /\ default44 (from_ok pf1 lite1) pf2 bring None = Exn RuntimeError /\
  is_ok wsp22 = true /\ fw_ncls (from_ok dummy wsp22) = 4%nat /\ default44 pf1 pf2 bring (Some (from_ok dummy wsp22)) = UB.
Proof.
  split; [vm_compute; reflexivity|]. split; [vm_compute; reflexivity|]. split; [exact contiguous_ring|]. split; [split; [split; [reflexivity|split; [cbn; lia|split]]|]; intros i Hi; change (n_bands one_band) with 1%nat in Hi; try lia; destruct i as [|i]; try lia; vm_compute; reflexivity|].
  repeat (split; [vm_compute; reflexivity|]). vm_compute. reflexivity.
Qed.
End Ex.
Print Assumptions C82_full_master.
Print Assumptions C82_unbiased.
Print Assumptions C83_steps.
Print Assumptions C83_default.
Print Assumptions C83_single_band_refuted.
Print Assumptions C83_lite_refuted.
Print Assumptions C83_other_workspace_refuted.
