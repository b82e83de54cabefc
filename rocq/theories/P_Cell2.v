(** C76: compute_full_master is the sequence of steps it is documented to stand for. *)
From Coq Require Import QArith Qcanon.
From Verif Require Import Base M_Bins M_LinAlg M_Workspace M_Utils L_Utils M_Field M_Cell M_Covar L_Workspace P_Workspace L_Cell P_Field7.
Open Scope nat_scope.

Section PCell2.
Context {F : ofield}.
Local Open Scope F_scope.
Add Field FfPCe2 : (fth F).
Notation mat := (list (list F)).
Variable fsqrt : F -> F.
Variables (K : calc F) (p : params F).
(** decouple_cell of a workspace, applied to spectra with k multipoles *)
Definition dec (k : nat) (w : pyw F) (m : mat) : res mat := do a <- decouple_cell w (A2 k m) None None; Ok (rows_of_arr a).
Definition rows (x : res (arr F)) : res mat := do a <- x; Ok (rows_of_arr a).
Definition zero (n k : nat) : mat := tab n (fun _ => repeat 0 k).

Lemma zip_minus n k (c d m : mat) : P_Workspace.spectra n k c -> P_Workspace.spectra n k d -> P_Workspace.spectra n k m ->
  zipw (zipw fsub) (zipw (zipw fsub) c d) m = minus n k c (Some d) (Some m).
Proof.
  intros [C1 C2] [D1 D2] [M1 M2].
  assert (Z : forall (x y : list F) l, length x = k -> length y = k -> (l < k)%nat -> nth l (zipw fsub x y) 0 = nth l x 0 - nth l y 0).
  { intros x y l X Y L. unfold zipw. rewrite nth_indep with (d' := (fun p : F * F => fst p - snd p) (0, 0)) by (rewrite map_length, combine_length; lia).
    rewrite (map_nth (fun p : F * F => fst p - snd p)). rewrite combine_nth by congruence. reflexivity. }
  assert (L : forall (x y : list F), length x = k -> length y = k -> length (zipw fsub x y) = k) by (intros x y X Y; unfold zipw; rewrite map_length, combine_length; lia).
  assert (R : forall (x y : mat) i, length x = n -> length y = n -> (i < n)%nat -> nth i (zipw (zipw fsub) x y) [] = zipw fsub (nth i x []) (nth i y [])).
  { intros x y i X Y I. unfold zipw at 1. rewrite nth_indep with (d' := (fun p : list F * list F => zipw fsub (fst p) (snd p)) ([], [])) by (rewrite map_length, combine_length; lia).
    rewrite (map_nth (fun p : list F * list F => zipw fsub (fst p) (snd p))). rewrite combine_nth by congruence. reflexivity. }
  assert (LL : forall (x y : mat), length x = n -> length y = n -> length (zipw (zipw fsub) x y) = n) by (intros x y X Y; unfold zipw at 1; rewrite map_length, combine_length; lia).
  assert (G : forall (x : mat) i, length x = n -> (forall r, In r x -> length r = k) -> (i < n)%nat -> length (nth i x []) = k) by (intros x i X H I; apply H; apply nth_In; lia).
  apply (list_eq_nth _ _ []); [unfold minus; rewrite length_tab, !LL; auto|]. rewrite !LL by auto. intros i Hi. unfold minus. rewrite nth_tab by exact Hi.
  rewrite R by auto. rewrite R by auto. apply (list_eq_nth _ _ 0); [rewrite length_tab, !L; auto|]. rewrite !L by auto. intros l Hl. rewrite nth_tab by exact Hl.
  rewrite !Z by auto. reflexivity.
Qed.
Lemma opt_shape_ok (m : option mat) n k : opt_spectra n k m -> opt_shape m n k = Ok (match m with Some x => x | None => zero n k end).
Proof.
  destruct m as [x|]; [|reflexivity]. intros [A B]. unfold opt_shape, shape_is. rewrite A, Nat.eqb_refl. cbn [andb].
  assert (E : forallb (fun x0 => Nat.eqb (length x0) k) x = true) by (apply forallb_forall; intros r Hr; apply Nat.eqb_eq; apply B; exact Hr). rewrite E. reflexivity.
Qed.
Lemma zero_spectra n k : P_Workspace.spectra n k (zero n k).
Proof. split; [apply length_tab|]. intros r H. apply In_nth with (d := []) in H. destruct H as [i [Hi <-]]. unfold zero in *. rewrite length_tab in Hi. rewrite nth_tab by exact Hi. apply repeat_length. Qed.
Lemma spectra_spectra n1 n2 nl (f : nat -> nat -> nat -> F) : P_Workspace.spectra (n1 * n2) nl (M_Cell.spectra n1 n2 nl f).
Proof.
  unfold M_Cell.spectra. split.
  - rewrite (length_concat n1 n2); [reflexivity|]. split; [apply length_tab|]. apply Forall_forall. intros x H. apply In_nth with (d := []) in H. destruct H as [i [Hi <-]]. rewrite length_tab in Hi. rewrite nth_tab by exact Hi. apply length_tab.
  - intros r H. apply in_concat in H. destruct H as [x [H1 H2]]. apply In_nth with (d := []) in H1. destruct H1 as [i [Hi <-]]. rewrite length_tab in Hi. rewrite nth_tab in H2 by exact Hi.
    apply In_nth with (d := []) in H2. destruct H2 as [j [Hj <-]]. rewrite length_tab in Hj. rewrite nth_tab by exact Hj. apply length_tab.
Qed.
Lemma bias_spectra m1 m2 g n d : deprojection_bias fsqrt K p m1 m2 g n = Ok d -> P_Workspace.spectra (Z.to_nat (f_nmaps m1) * Z.to_nat (f_nmaps m2)) (Z.to_nat (f_lmax m1 + 1)) d.
Proof.
  unfold deprojection_bias. cbv zeta. destruct (negb _); [discriminate|]. destruct (negb _); [discriminate|]. destruct (_ || _)%bool; [discriminate|]. intro H.
  apply bind_ok in H as (? & _ & H). apply bind_ok in H as (? & _ & H). apply bind_ok in H as (? & _ & H). injection H as <-. apply spectra_spectra.
Qed.

Section Run.
Variables (same : bool) (m1 m2 : nfield F) (i : inputs (F:=F)) (w : wsp F) (c d : mat) (noise guess : option mat).
Let n := i_ncls i.
Let k := Z.to_nat (f_lmax m1 + 1).
(** a workspace for these fields; their pseudo-spectra and deprojection bias (for the guess spectra, zero if none are given) *)
Record ready : Prop := {
  r_valid : valid i; r_comp : compute i = Ok w; r_n : Z.of_nat n = (f_nmaps m1 * f_nmaps m2)%Z; r_n1 : (0 <= f_nmaps m1)%Z; r_n2 : (0 <= f_nmaps m2)%Z;
  r_k : (i_nell i <= k)%nat; r_c : compute_coupled_cell same (of_map m1) (of_map m2) = Ok c; r_cs : P_Workspace.spectra n k c;
  r_noise : opt_spectra n k noise; r_guess : opt_spectra n k guess;
  r_d : deprojection_bias fsqrt K p m1 m2 (match guess with Some g => g | None => zero n k end) None = Ok d }.
Lemma run_common {B} (ff : B -> res (pyw F)) (b : option B) (ws : option (pyw F)) : ready -> (b <> None \/ ws <> None) ->
  compute_full_master fsqrt ff (dec k) K p same (of_map m1) (of_map m2) b noise guess ws =
  do x <- match ws, b with Some x, _ => Ok x | None, Some b => ff b | None, None => Exn TypeError end;
  dec k x (minus n k c (Some d) (Some (match noise with Some m => m | None => zero n k end))).
Proof.
  intros [V C N N1 N2 HK HC HS HN HG HD] HB. unfold compute_full_master.
  assert (Cm : ((g_lmaxm (of_map m1) =? g_lmaxm (of_map m2))%Z && (g_lmax (of_map m1) =? g_lmax (of_map m2))%Z)%bool = true).
  { unfold compute_coupled_cell in HC. destruct (_ && _)%bool; [reflexivity | discriminate HC]. }
  rewrite Cm. cbn [negb of_map g_nmaps g_lmax]. fold k. rewrite <- N, Nat2Z.id. rewrite !opt_shape_ok by assumption. cbn [bind]. rewrite HC. cbn [bind].
  unfold bias_of. cbn [of_map g_map]. rewrite HD. cbn [bind].
  rewrite (zip_minus n k c d); [|exact HS| |destruct noise; [exact HN | apply zero_spectra]].
  - destruct b as [b|], ws as [x|]; reflexivity.
  - pose proof (bias_spectra _ _ _ _ _ HD) as S. fold k in S. replace (Z.to_nat (f_nmaps m1) * Z.to_nat (f_nmaps m2))%nat with n in S; [exact S|]. rewrite <- Z2Nat.inj_mul by assumption. lia.
Qed.
Lemma dec_biases : ready -> dec k (obj w) (minus n k c (Some d) (Some (match noise with Some m => m | None => zero n k end))) =
  rows (decouple_cell (obj w) (A2 k c) (Some (A2 k d)) (option_map (A2 k) noise)).
Proof.
  intros [V C N N1 N2 HK HC HS HN HG HD].
  assert (SD : P_Workspace.spectra n k d).
  { pose proof (bias_spectra _ _ _ _ _ HD) as S. fold k in S. replace (Z.to_nat (f_nmaps m1) * Z.to_nat (f_nmaps m2))%nat with n in S; [exact S|]. rewrite <- Z2Nat.inj_mul by assumption. lia. }
  unfold dec, rows. change (Some (A2 k d)) with (option_map (A2 k) (Some d)). rewrite (C15_biases_subtracted i w k c (Some d) noise V C HK HS SD HN).
  replace (minus (i_ncls i) k c (Some d) noise) with (minus n k c (Some d) (Some (match noise with Some m => m | None => zero n k end))); [reflexivity|].
  unfold minus. apply tab_ext. intros a Ha. apply tab_ext. intros l Hl. destruct noise; [reflexivity|]. unfold zero, entry2. fold n in Ha. rewrite nth_tab by exact Ha. rewrite nth_repeat. reflexivity.
Qed.
(** with a workspace: the pseudo-spectra are decoupled with it after subtracting the deprojection bias and the noise, whatever binning is handed in as well *)
Theorem C76_given_workspace {B} (ff : B -> res (pyw F)) (b : option B) : ready ->
  compute_full_master fsqrt ff (dec k) K p same (of_map m1) (of_map m2) b noise guess (Some (obj w)) =
  rows (decouple_cell (obj w) (A2 k c) (Some (A2 k d)) (option_map (A2 k) noise)).
Proof. intro R. rewrite (run_common ff b (Some (obj w)) R) by (right; discriminate). cbn [bind]. apply dec_biases. exact R. Qed.
(** without one: the workspace made from the fields and the binning is used *)
Theorem C76_new_workspace {B} (ff : B -> res (pyw F)) (b : B) : ready -> ff b = Ok (obj w) ->
  compute_full_master fsqrt ff (dec k) K p same (of_map m1) (of_map m2) (Some b) noise guess None =
  rows (decouple_cell (obj w) (A2 k c) (Some (A2 k d)) (option_map (A2 k) noise)).
Proof. intros R E. rewrite (run_common ff (Some b) None R) by (left; discriminate). rewrite E. cbn [bind]. apply dec_biases. exact R. Qed.
End Run.
(** the call needs a workspace or a binning, compatible fields and arrays of the right shape *)
Theorem C76_neither {B} (ff : B -> res (pyw F)) dc same (f1 f2 : gfield F) noise guess : compute_full_master fsqrt ff dc K p same f1 f2 None noise guess None = Exn TypeError.
Proof. reflexivity. Qed.
Theorem C76_incompatible {B} (ff : B -> res (pyw F)) dc same (f1 f2 : gfield F) b noise guess ws : (b <> None \/ ws <> None) -> g_lmaxm f1 <> g_lmaxm f2 \/ g_lmax f1 <> g_lmax f2 ->
  compute_full_master fsqrt ff dc K p same f1 f2 b noise guess ws = Exn ValueError.
Proof.
  intros HB H. unfold compute_full_master. destruct (Z.eqb_spec (g_lmaxm f1) (g_lmaxm f2)); destruct (Z.eqb_spec (g_lmax f1) (g_lmax f2)); try (exfalso; destruct H; congruence);
  destruct b, ws; try reflexivity; destruct HB; congruence.
Qed.
Theorem C76_wrong_shape {B} (ff : B -> res (pyw F)) dc same (m1 m2 : nfield F) b noise guess ws x : (b <> None \/ ws <> None) -> f_lmaxm m1 = f_lmaxm m2 -> f_lmax m1 = f_lmax m2 ->
  (noise = Some x \/ noise = None /\ guess = Some x) -> ~ P_Workspace.spectra (Z.to_nat (f_nmaps m1 * f_nmaps m2)) (Z.to_nat (f_lmax m1 + 1)) x ->
  compute_full_master fsqrt ff dc K p same (of_map m1) (of_map m2) b noise guess ws = Exn ValueError.
Proof.
  intros HB E1 E2 HX NS. unfold compute_full_master. cbn [of_map g_lmaxm g_lmax g_nmaps]. rewrite E1, E2, !Z.eqb_refl. cbn [andb negb]. rewrite <- E2.
  assert (SH : shape_is x (Z.to_nat (f_nmaps m1 * f_nmaps m2)) (Z.to_nat (f_lmax m1 + 1)) = false).
  { destruct (shape_is _ _ _) eqn:S; [|reflexivity]. exfalso. apply NS. unfold shape_is in S. rewrite andb_true_iff in S. destruct S as [S1 S2]. split; [apply Nat.eqb_eq; exact S1|].
    intros r Hr. rewrite forallb_forall in S2. apply Nat.eqb_eq. apply S2. exact Hr. }
  destruct HX as [-> | [-> ->]]; cbn [opt_shape]; rewrite SH; cbn [bind]; destruct b, ws; try reflexivity; destruct HB; congruence.
Qed.
End PCell2.

(** a scalar field with two templates, as in P_Field7, and an identity coupling matrix *)
Section Ex.
Notation Q := Qc_field.
Definition bq : bins Q := from_ok (Bins 0 []) (NmtBin [0; 1; 1]%Z [0; 1; 2]%Z None None None).
Definition iq : inputs := Inputs 1 false 2 2 0 (qz 1) [] bq (map qz [1; 1; 1]%Z) (map qz [1; 1; 1]%Z) (tab 3 (fun r => tab 3 (fun c => if Nat.eqb r c then qz 2 else qz 0))).
Definition nq : list (list Q) := [map qz [1; 2; 3]%Z].
Definition gq2 : list (list Q) := [map qz [4; 5; 6]%Z].
Definition cq : list (list Q) := from_ok [] (compute_coupled_cell true (of_map exf) (of_map exf)).
Definition dq : list (list Q) := from_ok [] (deprojection_bias exsqrt (toy 0) expar exf exf gq2 None).
Example ex_ready : ready exsqrt (toy 0) expar true exf exf iq (mk iq) cq dq (Some nq) (Some gq2) /\ existsb (fun r => existsb (fun x => negb (feqb x (qz 0))) r) dq = true /\
  is_ok (rows (decouple_cell (obj (mk iq)) (A2 3 cq) (Some (A2 3 dq)) (Some (A2 3 nq)))) = true.
Proof.
  assert (V : valid iq).
  { unfold valid, i_nrows, i_nell. split; [cbn; lia|]. split; [split; [do 5 eexists; apply from_ok_eq; vm_compute; reflexivity | apply nonneg_check; vm_compute; reflexivity]|]. 
    repeat split; try (vm_compute; (reflexivity || discriminate)). intros r Hr. cbn [iq i_mcm] in Hr. unfold tab in Hr. apply in_map_iff in Hr. destruct Hr as [k [<- _]]. rewrite map_length, seq_length. reflexivity. }
  split; [|split; vm_compute; reflexivity]. constructor.
  - exact V.
  - apply compute_ok. exact V.
  - vm_compute. reflexivity.
  - vm_compute. discriminate.
  - vm_compute. discriminate.
  - apply Nat.leb_le. vm_compute. reflexivity.
  - apply from_ok_eq. vm_compute. reflexivity.
  - split; [vm_compute; reflexivity|]. assert (E : map (@length Q) cq = [3%nat]) by (vm_compute; reflexivity). intros r Hr. apply (in_map (@length Q)) in Hr. rewrite E in Hr. destruct Hr as [<-|[]]. vm_compute. reflexivity.
  - split; [vm_compute; reflexivity|]. intros r [<-|[]]. vm_compute. reflexivity.
  - split; [vm_compute; reflexivity|]. intros r [<-|[]]. vm_compute. reflexivity.
  - apply from_ok_eq. vm_compute. reflexivity.
Qed.
End Ex.
Print Assumptions C76_given_workspace. Print Assumptions C76_new_workspace. Print Assumptions C76_wrong_shape.
