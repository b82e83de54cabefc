(** Properties of compute_coupled_cell and of catalogue fields (C41, C42, C43). *)
From Verif Require Import Base M_Utils L_Utils M_Field L_Field M_Cell L_Cell P_Field5.
Section PCell.
Context {F : ofield}.
Local Open Scope F_scope.
Add Field FfPC : (fth F).
Notation mat := (list (list F)).

(** *** Spectra are symmetric and bilinear *)
Lemma spectrum_sym lmax (a b : list F) l : spectrum lmax a b l = spectrum lmax b a l.
Proof. unfold spectrum. f_equal. rewrite (sum_ext l (fun m => re lmax a l (S m) * _ + _) (fun m => re lmax b l (S m) * re lmax a l (S m) + im lmax b l (S m) * im lmax a l (S m))) by (intros; ring). ring. Qed.
Lemma spectrum_ext lmax (a a' b b' : list F) l : (forall i, nth i a 0 = nth i a' 0) -> (forall i, nth i b 0 = nth i b' 0) -> spectrum lmax a b l = spectrum lmax a' b' l.
Proof. intros H1 H2. unfold spectrum, re, im. rewrite !H1, !H2. do 3 f_equal. apply sum_ext. intros i _. rewrite !H1, !H2. reflexivity. Qed.
Lemma spectrum_lin_l lmax n (co : nat -> F) (xs : nat -> list F) (a b : list F) l : (forall i, nth i a 0 = sum n (fun k => co k * nth i (xs k) 0)) -> spectrum lmax a b l = sum n (fun k => co k * spectrum lmax (xs k) b l).
Proof.
  intro H. unfold spectrum. rewrite (sum_ext n _ (fun k => co k * (re lmax (xs k) l 0 * re lmax b l 0 + fofZ 2 * sum l (fun m => re lmax (xs k) l (S m) * re lmax b l (S m) + im lmax (xs k) l (S m) * im lmax b l (S m))) * (1 / fofZ (2 * Z.of_nat l + 1)))) by (intros; rewrite !(Fdiv_def (fth F)); ring).
  rewrite sum_mul_r. rewrite !(Fdiv_def (fth F)). rewrite (sum_ext n _ (fun k => co k * (re lmax (xs k) l 0 * re lmax b l 0) + fofZ 2 * sum l (fun m => co k * (re lmax (xs k) l (S m) * re lmax b l (S m) + im lmax (xs k) l (S m) * im lmax b l (S m))))) by (intros; rewrite sum_mul_l; ring).
  rewrite (sum_add n (fun k => co k * (re lmax (xs k) l 0 * re lmax b l 0)) (fun k => fofZ 2 * sum l (fun m => co k * (re lmax (xs k) l (S m) * re lmax b l (S m) + im lmax (xs k) l (S m) * im lmax b l (S m))))).
  rewrite (sum_mul_l n (fofZ 2)), (sum_swap n l). unfold re at 1. rewrite H. rewrite (sum_ext n (fun k => co k * (re lmax (xs k) l 0 * _)) (fun k => co k * nth (2 * pos lmax l 0) (xs k) 0 * re lmax b l 0)) by (intros; unfold re; ring). rewrite sum_mul_r.
  rewrite (sum_ext l _ (fun m => sum n (fun k => co k * (re lmax (xs k) l (S m) * re lmax b l (S m) + im lmax (xs k) l (S m) * im lmax b l (S m))))); [ring|].
  intros m _. unfold re at 1, im at 1. rewrite !H, <- !sum_mul_r, <- sum_add. apply sum_ext. intros k _. unfold re at 2, im at 2. ring.
Qed.
Lemma spectrum_lin_r lmax n (co : nat -> F) (xs : nat -> list F) (a b : list F) l : (forall i, nth i b 0 = sum n (fun k => co k * nth i (xs k) 0)) -> spectrum lmax a b l = sum n (fun k => co k * spectrum lmax a (xs k) l).
Proof. intro H. rewrite spectrum_sym, (spectrum_lin_l lmax n co xs b a l H). apply sum_ext. intros k _. rewrite spectrum_sym. reflexivity. Qed.

(** *** Entries of the list of spectra *)
Lemma mapM_nth {A B} (g : A -> res B) l r d e i : mapM g l = Ok r -> (i < length l)%nat -> g (nth i l d) = Ok (nth i r e).
Proof.
  intros H Hi. destruct (mapM_inv g l r H i (nth i l d)) as (b & E & E'); [apply nth_error_nth'; exact Hi|]. rewrite E. f_equal. symmetry. apply nth_error_nth. exact E'.
Qed.
Lemma cross_at lmax (A B : mat) c : cross lmax A B = Ok c -> length c = length A /\ forall i, (i < length A)%nat -> length (nth i c []) = length B /\ forall j, (j < length B)%nat -> alm2cl lmax (nth i A []) (nth j B []) = Ok (nth j (nth i c []) []).
Proof.
  intro H. unfold cross in H. split; [eapply mapM_length; exact H|]. intros i Hi. pose proof (mapM_nth _ _ _ [] [] i H Hi) as H'. split; [eapply mapM_length; exact H'|]. intros j Hj. exact (mapM_nth _ _ _ [] [] j H' Hj).
Qed.
Lemma cross_shaped lmax (A B : mat) c : cross lmax A B = Ok c -> shaped (length A) (length B) c.
Proof.
  intro H. apply cross_at in H as [L H]. split; [exact L|]. apply Forall_forall. intros r Hr. apply (In_nth _ _ []) in Hr as (i & Hi & <-). apply H. lia.
Qed.
(** [same]: the two arguments are one object, and then of course equal *)
Theorem C43_order same (f1 f2 : gfield F) C A1 A2 lmax : compute_coupled_cell same f1 f2 = Ok C -> g_alm f1 = Some A1 -> g_alm f2 = Some A2 -> g_lmax f1 = Z.of_nat lmax ->
  length C = (length A1 * length A2)%nat /\ forall i j l, (i < length A1)%nat -> (j < length A2)%nat -> (l <= lmax)%nat -> length (nth (i * length A2 + j) C []) = S lmax /\
    nth l (nth (i * length A2 + j) C []) 0 = spectrum lmax (nth i A1 []) (nth j A2 []) l - (if same && Nat.eqb i j then g_Nf f1 else 0).
Proof.
  unfold compute_coupled_cell. intros H E1 E2 El. destruct (negb _) eqn:Ec; [discriminate H|]. apply negb_false_iff, andb_true_iff in Ec as [_ Ec]. apply Z.eqb_eq in Ec. rewrite E1, E2 in H. cbn [stored bind] in H.
  rewrite <- Ec, Z.min_id, El in H. apply bind_ok in H as (c & Hc & H). pose proof (cross_shaped _ _ _ _ Hc) as Sc. apply cross_at in Hc as [Lc Hc]. set (Nf := if same then g_Nf f1 else 0) in *.
  assert (Hs : forall i j l, (i < length A1)%nat -> (j < length A2)%nat -> (l <= lmax)%nat -> length (nth j (nth i c []) []) = S lmax /\ nth l (nth j (nth i c []) []) 0 = spectrum lmax (nth i A1 []) (nth j A2 []) l).
  { intros i j l Hi Hj Hl. destruct (Hc i Hi) as [_ Hcj]. specialize (Hcj j Hj). apply alm2cl_spectrum in Hcj as [L S0]. split; [exact L | apply S0; exact Hl]. }
  cbv zeta in H. set (c' := if Nf =? 0 then c else _) in H. injection H as <-.
  assert (Sc' : shaped (length A1) (length A2) c').
  { unfold c'. destruct (Nf =? 0); [exact Sc|]. split; [apply length_tab|]. apply Forall_forall. intros r Hr. apply (In_nth _ _ []) in Hr as (i & Hi & <-). rewrite length_tab in Hi. rewrite nth_tab by exact Hi. rewrite length_tab. apply Hc. exact Hi. }
  split; [apply length_concat; exact Sc'|]. intros i j l Hi Hj Hl. destruct (Hs i j l Hi Hj Hl) as [L S0]. rewrite (nth_concat (length A1) (length A2)) by assumption. unfold c'.
  assert (EN : (if same && Nat.eqb i j then g_Nf f1 else 0) = if Nat.eqb i j then Nf else 0) by (unfold Nf; destruct same, (Nat.eqb i j); reflexivity). rewrite EN.
  destruct (feqb Nf 0) eqn:E0.
  - split; [exact L|]. rewrite S0. apply feqb_eq in E0. rewrite E0. destruct (Nat.eqb i j); ring.
  - destruct (Hc i Hi) as [Li _]. rewrite nth_tab by exact Hi. cbv zeta. rewrite nth_tab by (rewrite Li; exact Hj). destruct (Nat.eqb i j).
    + rewrite map_length. split; [exact L|]. rewrite (nth_indep _ 0 ((fun x => x - Nf) 0)) by (rewrite map_length, L; lia). rewrite (map_nth (fun x => x - Nf)). rewrite S0. reflexivity.
    + split; [exact L|]. rewrite S0. ring.
Qed.
Lemma alm2cl_sym lmax (a b : list F) c : alm2cl lmax a b = Ok c -> exists c', alm2cl lmax b a = Ok c'.
Proof. unfold alm2cl. cbv zeta. rewrite (andb_comm (Nat.eqb (length b) _)). destruct (_ && _)%bool; [|discriminate 1]. eexists; reflexivity. Qed.
Lemma mapM_all {A B} (g : A -> res B) l : (forall i d, (i < length l)%nat -> exists b, g (nth i l d) = Ok b) -> exists r, mapM g l = Ok r.
Proof.
  intro H. induction l as [|a l IH]; [eexists; reflexivity|]. destruct (H 0%nat a ltac:(cbn [length]; lia)) as (b & Eb). cbn [nth] in Eb. destruct IH as (r & Er).
  - intros i d Hi. apply (H (S i) d). cbn [length]. lia.
  - cbn [mapM]. rewrite Eb. cbn [bind]. rewrite Er. cbn [bind]. eexists; reflexivity.
Qed.
Theorem C43_exchange (f1 f2 : gfield F) C A1 A2 lmax : compute_coupled_cell false f1 f2 = Ok C -> g_alm f1 = Some A1 -> g_alm f2 = Some A2 -> g_lmax f1 = Z.of_nat lmax ->
  exists C', compute_coupled_cell false f2 f1 = Ok C' /\ length C' = length C /\
    forall i j, (i < length A1)%nat -> (j < length A2)%nat -> nth (j * length A1 + i) C' [] = nth (i * length A2 + j) C [].
Proof.
  intros H E1 E2 El. pose proof (C43_order _ _ _ _ _ _ _ H E1 E2 El) as [LC HC].
  assert (Ex : exists C', compute_coupled_cell false f2 f1 = Ok C').
  { unfold compute_coupled_cell in *. rewrite (Z.eqb_sym (g_lmaxm f2)), (Z.eqb_sym (g_lmax f2)). destruct (negb _); [discriminate H|]. rewrite E1, E2 in *. cbn [stored bind] in *. rewrite Z.min_comm. apply bind_ok in H as (c & Hc & _).
    apply cross_at in Hc as [_ Hc]. destruct (mapM_all (fun a1 => mapM (alm2cl (Z.min (g_lmax f1) (g_lmax f2)) a1) A1) A2) as (r & Er).
    - intros j d Hj. apply mapM_all. intros i d' Hi. destruct (Hc i Hi) as [_ Hcj]. specialize (Hcj j Hj). rewrite (nth_indep A2 d []), (nth_indep A1 d' []) by assumption. eapply alm2cl_sym. exact Hcj.
    - unfold cross. rewrite Er. cbn [bind]. eexists; reflexivity. }
  destruct Ex as (C' & H'). exists C'. split; [exact H'|].
  assert (El2 : g_lmax f2 = Z.of_nat lmax). { unfold compute_coupled_cell in H. destruct (negb _) eqn:Ec; [discriminate H|]. apply negb_false_iff, andb_true_iff in Ec as [_ Ec]. apply Z.eqb_eq in Ec. congruence. }
  pose proof (C43_order _ _ _ _ _ _ _ H' E2 E1 El2) as [LC' HC']. split; [rewrite LC, LC'; apply Nat.mul_comm|].
  intros i j Hi Hj. destruct (HC i j 0%nat Hi Hj ltac:(lia)) as [L _]. destruct (HC' j i 0%nat Hj Hi ltac:(lia)) as [L' _].
  apply (list_eq_nth _ _ 0); [congruence|]. intros l Hl. rewrite L' in Hl. destruct (HC i j l Hi Hj ltac:(lia)) as [_ ->]. destruct (HC' j i l Hj Hi ltac:(lia)) as [_ ->]. cbn [andb]. rewrite spectrum_sym. reflexivity.
Qed.
(** a field whose coefficients are a combination of those of n others *)
Theorem C43_bilinear (f g : gfield F) n (co : nat -> F) (fs : nat -> gfield F) (As : nat -> mat) A B C (Cs : nat -> mat) lmax nc :
  g_alm f = Some A -> g_alm g = Some B -> (forall k, (k < n)%nat -> g_alm (fs k) = Some (As k)) -> g_lmax f = Z.of_nat lmax -> (forall k, (k < n)%nat -> g_lmax (fs k) = Z.of_nat lmax) ->
  length A = nc -> (forall k, (k < n)%nat -> length (As k) = nc) -> (forall c i, (c < nc)%nat -> mg A c i = sum n (fun k => co k * mg (As k) c i)) ->
  compute_coupled_cell false f g = Ok C -> (forall k, (k < n)%nat -> compute_coupled_cell false (fs k) g = Ok (Cs k)) ->
  forall r l, (r < nc * length B)%nat -> (l <= lmax)%nat -> mg C r l = sum n (fun k => co k * mg (Cs k) r l).
Proof.
  intros EA EB EAs El Els LA LAs Hc H Hs r l Hr Hl. assert (LB : (length B <> 0)%nat) by lia. set (i := (r / length B)%nat). set (j := (r mod length B)%nat).
  assert (Er : r = (i * length B + j)%nat) by (unfold i, j; rewrite Nat.mul_comm; apply Nat.div_mod; exact LB). assert (Hj : (j < length B)%nat) by (apply Nat.mod_upper_bound; exact LB). assert (Hi : (i < nc)%nat) by (apply Nat.div_lt_upper_bound; lia).
  unfold mg at 1. rewrite Er. destruct (C43_order _ _ _ _ _ _ _ H EA EB El) as [_ HC]. destruct (HC i j l ltac:(lia) Hj Hl) as [_ ->]. cbn [andb].
  rewrite (spectrum_lin_l lmax n co (fun k => nth i (As k) [])) by (intro p; exact (Hc i p Hi)). rewrite (sum_ext n (fun k => co k * mg (Cs k) _ l) (fun k => co k * spectrum lmax (nth i (As k) []) (nth j B []) l)); [ring|].
  intros k Hk. f_equal. unfold mg. destruct (C43_order _ _ _ _ _ _ _ (Hs k Hk) (EAs k Hk) EB (Els k Hk)) as [_ HC']. destruct (HC' i j l ltac:(rewrite LAs by exact Hk; lia) Hj Hl) as [_ ->]. cbn [andb]. ring.
Qed.
End PCell.
