(** Facts about the workspace model: closed forms of the loops for well-formed workspaces. *)
From Verif Require Import Base M_Bins M_LinAlg M_Workspace L_Bins L_Bins2 L_Bins3 L_LinAlg.
From Coq Require Import ZifyBool ZifyNat.
Open Scope nat_scope.
Ltac Zify.zify_post_hook ::= Z.div_mod_to_equations.

Section LWorkspace.
Context {F : ofield}.
Local Open Scope F_scope.
Add Field FfLW : (fth F).
Notation mat := (list (list F)).
Notation bins := (bins F).
Notation wsp := (wsp F).

Lemma NoDup_app_split {A} (l1 l2 : list A) : NoDup (l1 ++ l2) -> NoDup l1 /\ NoDup l2.
Proof.
  induction l1 as [|a l IH]; simpl; intro H; [split; [constructor | exact H]|]. inversion H; subst. destruct (IH H3). split; [|assumption].
  constructor; [|assumption]. intro I. apply H2. apply in_or_app. left. exact I.
Qed.
(** ** Unbinned spectra under a sum over multipoles *)
Definition once (b : bins) : Prop := NoDup (flat_map (map e_ell) (b_bands b)).

Lemma sum_upd N (g : nat -> F) o k x : length o = N -> (k < N)%nat -> nth k o 0 = 0 ->
  sum N (fun l => g l * nth l (upd o k x) 0) = sum N (fun l => g l * nth l o 0) + g k * x.
Proof.
  intros HL Hk H0.
  rewrite (sum_ext N _ (fun l => g l * nth l o 0 + kron l k * (g l * x))).
  - rewrite sum_add, (sum_kron N k (fun l => g l * x) Hk). reflexivity.
  - intros l Hl. rewrite nth_upd by lia. unfold kron. destruct (Nat.eqb_spec l k) as [->|]; [rewrite H0|]; ring.
Qed.
Lemma sum_wr_all N (g : nat -> F) W : forall o, length o = N ->
  (forall p, In p W -> (0 <= fst p < Z.of_nat N)%Z) -> NoDup (map fst W) ->
  (forall p, In p W -> nth (Z.to_nat (fst p)) o 0 = 0) ->
  sum N (fun l => g l * nth l (wr_all W o) 0) =
  sum N (fun l => g l * nth l o 0) + lsum (map (fun p => g (Z.to_nat (fst p)) * snd p) W).
Proof.
  induction W as [|p W IH]; intros o HL HR HN H0.
  - unfold wr_all. simpl. unfold lsum. simpl. ring.
  - change (wr_all (p :: W) o) with (wr_all W (upd o (Z.to_nat (fst p)) (snd p))). inversion HN as [|? ? Hn1 Hn2]; subst.
    pose proof (HR p (or_introl eq_refl)) as Rp.
    rewrite IH.
    + rewrite sum_upd; [|exact eq_refl|lia|apply H0; left; reflexivity].
      rewrite lsum_cons. ring.
    + apply length_upd.
    + intros p' Hp'. apply HR. right. exact Hp'.
    + exact Hn2.
    + intros p' Hp'. rewrite nth_upd by lia.
      destruct (Nat.eqb_spec (Z.to_nat (fst p')) (Z.to_nat (fst p))) as [E|E]; [|apply H0; right; exact Hp'].
      exfalso. apply Hn1. pose proof (HR p' (or_intror Hp')). replace (fst p) with (fst p') by lia. apply in_map. exact Hp'.
Qed.

Lemma keys_writes v (bands : list (list (entry F))) : length v = length bands ->
  map fst (writes v bands) = flat_map (map e_ell) bands.
Proof.
  unfold writes. revert v. induction bands as [|x bands IH]; intros [|c v] H; simpl in *; try discriminate; [reflexivity|].
  rewrite map_app, map_map. cbn [fst]. f_equal. apply IH. congruence.
Qed.
Lemma lsum_writes (h : Z * F -> F) v (bands : list (list (entry F))) : length v = length bands ->
  lsum (map h (writes v bands)) =
  sum (length bands) (fun ib => lsum (map (fun e => h (e_ell e, nth ib v 0 / e_f e)) (nth ib bands []))).
Proof.
  unfold writes. revert v. induction bands as [|x bands IH]; intros [|c v] H; simpl in H; try discriminate; [reflexivity|].
  cbn [combine flat_map fst snd length]. rewrite map_app, lsum_app, sum_S_l. cbn [nth]. f_equal.
  - rewrite map_map. reflexivity.
  - apply IH. congruence.
Qed.

Lemma once_disjoint b : once b -> disjoint b.
Proof.
  unfold once, disjoint. generalize (b_bands b) as bands. clear b. induction bands as [|z bands IH]; intros HN i j x y e e' Hi Hj He He' E.
  - destruct i; discriminate.
  - simpl in HN. 
    assert (D : forall k u f, nth_error bands k = Some u -> In f u -> forall g, In g z -> e_ell f <> e_ell g).
    { intros k u f Hk Hf g Hg Ef.
      assert (N : ~ In (e_ell g) (flat_map (map e_ell) bands)).
      { intro I. apply (in_map e_ell) in Hg. revert Hg I. clear -HN. generalize (e_ell g) as l. intro l.
        induction (map e_ell z) as [|a t IHt]; intros Hl I; [destruct Hl|]. simpl in HN. inversion HN; subst.
        destruct Hl as [->|Hl]; [apply H1; apply in_or_app; right; exact I | apply IHt; assumption]. }
      apply N. rewrite <- Ef. apply in_flat_map. exists u. split; [eapply nth_error_In; exact Hk | apply in_map; exact Hf]. }
    assert (HN1 : NoDup (map e_ell z)) by (apply (NoDup_app_split _ _ HN)).
    assert (HN2 : NoDup (flat_map (map e_ell) bands)) by (apply (NoDup_app_split _ _ HN)).
    destruct i as [|i], j as [|j]; simpl in Hi, Hj.
    + injection Hi as <-. injection Hj as <-. split; [reflexivity|].
      assert (e = e'); [|congruence]. clear -HN1 He He' E. induction z as [|a z IHz]; [destruct He|]. simpl in HN1. inversion HN1; subst.
      destruct He as [<-|He], He' as [<-|He'].
      * reflexivity.
      * exfalso. apply H1. rewrite E. apply in_map. exact He'.
      * exfalso. apply H1. rewrite <- E. apply in_map. exact He.
      * apply IHz; assumption.
    + exfalso. injection Hi as <-. apply (D _ _ _ Hj He' _ He). auto.
    + exfalso. injection Hj as <-. apply (D _ _ _ Hi He _ He'). auto.
    + destruct (IH HN2 i j x y e e' Hi Hj He He' E) as [-> ?]. auto.
Qed.

(** the sum over multipoles of an unbinned spectrum is a sum over bands *)
Lemma sum_unbin1 b (g : nat -> F) v : ells_in b -> once b -> length v = length (b_bands b) -> (0 <= b_lmax b + 1)%Z ->
  sum (Z.to_nat (b_lmax b + 1)) (fun l => g l * nth l (unbin1 b v) 0) =
  sum (length (b_bands b)) (fun ib => lsum (map (fun e => g (Z.to_nat (e_ell e)) * (nth ib v 0 / e_f e)) (nth ib (b_bands b) []))).
Proof.
  intros He Ho HL Hm. unfold unbin1. rewrite sum_wr_all.
  - rewrite (sum_zero _ (fun l => g l * nth l (repeat 0 _) 0)) by (intros; rewrite nth_repeat; ring).
    rewrite lsum_writes by exact HL. cbn [fst snd]. ring.
  - apply repeat_length.
  - intros p Hp. apply (in_map fst) in Hp. rewrite keys_writes in Hp by exact HL. apply in_flat_map in Hp.
    destruct Hp as [x [Hx Hp]]. apply in_map_iff in Hp. destruct Hp as [e [<- Hin]]. specialize (He x e Hx Hin). lia.
  - rewrite keys_writes by exact HL. exact Ho.
  - intros p _. apply nth_repeat.
Qed.

(** ** Well-formed workspaces *)
Record wfw (w : wsp) : Prop := {
  ww_ncls : (1 <= w_ncls w)%nat;
  ww_lmax : (0 <= w_lmax w)%Z;
  ww_lf : (w_lmax w <= w_lmax_fields w)%Z;
  ww_bl : b_lmax (w_bin w) = w_lmax w;
  ww_beam : length (w_beam w) = Z.to_nat (w_lmax_fields w + 1);
  ww_mcm : exists M, w_mcm w = Some M /\ square (w_ncls w * nlm w) M;
  ww_bin : wf (w_bin w);
  ww_ells : ells_in (w_bin w);
  ww_w2 : exists x, w_w2 w = Some x;
  ww_mb : bin_coupling_matrix w = Ok w
}.

Definition Mx (w : wsp) (i j : nat) : F := match w_mcm w with Some M => entry2 M i j | None => 0 end.
Definition Bm (w : wsp) (l : nat) : F := nth l (w_beam w) 0.
Definition band (w : wsp) (ib : nat) : list (entry F) := nth ib (b_bands (w_bin w)) [].
Definition el (e : entry F) : nat := Z.to_nat (e_ell e).
Definition w2v (w : wsp) : F := match w_w2 w with Some x => x | None => 0 end.

(** shape conditions that do not involve the binned matrix *)
Record shaped (w : wsp) : Prop := {
  sh_ncls : (1 <= w_ncls w)%nat;
  sh_lmax : (0 <= w_lmax w)%Z;
  sh_beam : (Z.of_nat (length (w_beam w)) >= w_lmax w + 1)%Z;
  sh_mcm : exists M, w_mcm w = Some M /\ square (w_ncls w * nlm w) M;
  sh_bl : b_lmax (w_bin w) = w_lmax w;
  sh_ells : ells_in (w_bin w);
  sh_w2 : exists x, w_w2 w = Some x
}.
Lemma wfw_shaped w : wfw w -> shaped w.
Proof. intros []. constructor; try assumption. lia. Qed.

Lemma idx_lt n N l a : (l < N)%nat -> (a < n)%nat -> (n * l + a < n * N)%nat.
Proof. intros. nia. Qed.
Lemma mcm_rd_ok w l a l' b : shaped w -> (0 <= l <= w_lmax w)%Z -> (0 <= l' <= w_lmax w)%Z -> (a < w_ncls w)%nat -> (b < w_ncls w)%nat ->
  mcm_rd w (ncl w * l + Z.of_nat a) (ncl w * l' + Z.of_nat b) =
  Ok (Mx w (w_ncls w * Z.to_nat l + a) (w_ncls w * Z.to_nat l' + b)).
Proof.
  intros [] Hl Hl' Ha Hb. destruct sh_mcm0 as [M [EM [HM1 HM2]]]. unfold mcm_rd, Mx. rewrite EM.
  assert (I1 : (w_ncls w * Z.to_nat l + a < w_ncls w * nlm w)%nat) by (apply idx_lt; unfold nlm; lia).
  assert (I2 : (w_ncls w * Z.to_nat l' + b < w_ncls w * nlm w)%nat) by (apply idx_lt; unfold nlm; lia).
  replace (ncl w * l + Z.of_nat a)%Z with (Z.of_nat (w_ncls w * Z.to_nat l + a)) by (unfold ncl; lia).
  replace (ncl w * l' + Z.of_nat b)%Z with (Z.of_nat (w_ncls w * Z.to_nat l' + b)) by (unfold ncl; lia).
  rewrite (rd_nat _ _ []) by lia. cbn [bind]. rewrite (rd_nat _ _ 0); [reflexivity|].
  rewrite (HM2 (nth (w_ncls w * Z.to_nat l + a) M [])); [exact I2|]. apply nth_In. lia.
Qed.
Lemma beam_rd_ok w l : shaped w -> (0 <= l <= w_lmax w)%Z -> rd (w_beam w) l = Ok (Bm w (Z.to_nat l)).
Proof. intros [] Hl. unfold Bm. apply rd_nth. lia. Qed.
Lemma band_rd_ok w ib : (ib < nbands w)%nat -> rd (b_bands (w_bin w)) (Z.of_nat ib) = Ok (band w ib).
Proof. intro H. apply rd_nat. exact H. Qed.
Lemma band_in w ib e : (ib < nbands w)%nat -> In e (band w ib) -> shaped w -> (0 <= e_ell e <= w_lmax w)%Z.
Proof. intros H He []. rewrite <- sh_bl0. apply (sh_ells0 (band w ib)); [apply nth_In; exact H | exact He]. Qed.

(** element of the binned matrix *)
Definition mbv (w : wsp) (ib a ib' b : nat) : F :=
  if (w_norm w =? 0)%Z then
    lsum (map (fun e2 => lsum (map (fun e3 =>
      Mx w (w_ncls w * el e2 + a) (w_ncls w * el e3 + b) * Bm w (el e3) * e_w e2 * e_f e2 / e_f e3) (band w ib'))) (band w ib))
  else if Nat.eqb (w_ncls w * ib + a) (w_ncls w * ib' + b) then w2v w else 0.
Lemma bin_elem_ok w ib a ib' b : shaped w -> (ib < nbands w)%nat -> (ib' < nbands w)%nat -> (a < w_ncls w)%nat -> (b < w_ncls w)%nat ->
  bin_elem w ib a ib' b = Ok (mbv w ib a ib' b).
Proof.
  intros Hs H1 H2 Ha Hb. unfold bin_elem, mbv. destruct (w_norm w =? 0)%Z.
  - rewrite !band_rd_ok by assumption. cbn [bind]. apply lsumM_ok. intros e2 He2. apply lsumM_ok. intros e3 He3.
    pose proof (band_in w ib e2 H1 He2 Hs). pose proof (band_in w ib' e3 H2 He3 Hs).
    rewrite mcm_rd_ok by assumption. cbn [bind]. rewrite beam_rd_ok by assumption. reflexivity.
  - destruct (Nat.eqb _ _); [|reflexivity]. destruct Hs. destruct sh_w3 as [x Ex]. unfold w2v. rewrite Ex. reflexivity.
Qed.
Lemma divmod_lt n N r : (1 <= n)%nat -> (r < n * N)%nat -> (r / n < N)%nat /\ (r mod n < n)%nat.
Proof. intros. split; [apply Nat.div_lt_upper_bound; lia | apply Nat.mod_upper_bound; lia]. Qed.
Lemma divmod_idx n l a : (a < n)%nat -> ((n * l + a) / n = l)%nat /\ ((n * l + a) mod n = a)%nat.
Proof.
  intro H. replace (n * l + a)%nat with (a + l * n)%nat by lia. split.
  - rewrite Nat.div_add by lia. rewrite Nat.div_small by lia. reflexivity.
  - rewrite Nat.mod_add by lia. apply Nat.mod_small. exact H.
Qed.

Definition mb_tab (w : wsp) : mat :=
  let n := w_ncls w in
  tab (n * nbands w) (fun r => tab (n * nbands w) (fun c => mbv w (r / n) (r mod n) (c / n) (c mod n))).
Lemma bin_coupling_ok w : shaped w -> bin_coupling_matrix w = Ok (set_mb w (mb_tab w)).
Proof.
  intro Hs. unfold bin_coupling_matrix, mb_tab. cbv zeta.
  assert (Hn : (1 <= w_ncls w)%nat) by (destruct Hs; assumption).
  rewrite (tabM_ok _ _ (fun r => tab (w_ncls w * nbands w) (fun c => mbv w (r / w_ncls w) (r mod w_ncls w) (c / w_ncls w) (c mod w_ncls w)))); [reflexivity|].
  intros r Hr. apply tabM_ok. intros c Hc.
  destruct (divmod_lt (w_ncls w) (nbands w) r Hn Hr). destruct (divmod_lt (w_ncls w) (nbands w) c Hn Hc).
  apply bin_elem_ok; assumption.
Qed.
Lemma mb_tab_set_mb w m : mb_tab (set_mb w m) = mb_tab w.
Proof. reflexivity. Qed.
Lemma wfw_mb w : wfw w -> w_mb w = mb_tab w.
Proof.
  intro Hw. pose proof (bin_coupling_ok w (wfw_shaped w Hw)) as E. rewrite (ww_mb w Hw) in E. injection E as E.
  rewrite E at 1. reflexivity.
Qed.
Lemma square_mb w : square (w_ncls w * nbands w) (mb_tab w).
Proof. apply square_tab. Qed.
Lemma entry_mb w ib a ib' b : (ib < nbands w)%nat -> (ib' < nbands w)%nat -> (a < w_ncls w)%nat -> (b < w_ncls w)%nat ->
  entry2 (mb_tab w) (w_ncls w * ib + a) (w_ncls w * ib' + b) = mbv w ib a ib' b.
Proof.
  intros. unfold mb_tab, entry2. cbv zeta. rewrite nth_tab by (apply idx_lt; assumption). rewrite nth_tab by (apply idx_lt; assumption).
  rewrite !(proj1 (divmod_idx _ _ _ H1)), !(proj2 (divmod_idx _ _ _ H1)), !(proj1 (divmod_idx _ _ _ H2)), !(proj2 (divmod_idx _ _ _ H2)).
  reflexivity.
Qed.

(** couple *)
Definition coup (w : wsp) (cl : mat) (i l : nat) : F :=
  sum (nlm w) (fun l' => sum (w_ncls w) (fun j => Mx w (w_ncls w * l + i) (w_ncls w * l' + j) * Bm w l' * entry2 cl j l')).
Definition rect (n k : nat) (A : mat) : Prop := length A = n /\ forall r, In r A -> length r = k.
Lemma rd2_ok n k A i j : rect n k A -> (0 <= i < Z.of_nat n)%Z -> (0 <= j < Z.of_nat k)%Z ->
  rd2 A i j = Ok (entry2 A (Z.to_nat i) (Z.to_nat j)).
Proof.
  intros [H1 H2] Hi Hj. unfold rd2, entry2. rewrite (rd_nth _ _ []) by lia. cbn [bind]. apply rd_nth.
  rewrite (H2 (nth (Z.to_nat i) A [])); [lia|]. apply nth_In. lia.
Qed.
Lemma couple_ok w cl k : shaped w -> rect (w_ncls w) k cl -> (nlm w <= k)%nat ->
  c_couple w cl = Ok (tab (w_ncls w) (fun i => tab (nlm w) (fun l => coup w cl i l))).
Proof.
  intros Hs Hr Hk. unfold c_couple. apply tabM_ok. intros i Hi. apply tabM_ok. intros l Hl.
  apply sumM_ok. intros l' Hl'. apply sumM_ok. intros j Hj.
  unfold nlm in *. assert (0 <= w_lmax w)%Z by (destruct Hs; assumption).
  rewrite mcm_rd_ok by (try assumption; lia). cbn [bind]. rewrite beam_rd_ok by (try assumption; lia). cbn [bind].
  pose proof (rd2_ok _ _ cl (Z.of_nat j) (Z.of_nat l') Hr) as R. unfold rd2 in R.
  specialize (R ltac:(lia) ltac:(lia)).
  destruct (rd cl (Z.of_nat j)) as [row| |]; cbn [bind] in *; [rewrite R|discriminate|discriminate]. cbn [bind].
  rewrite !Nat2Z.id. reflexivity.
Qed.

(** decouple *)
Definition bdat (w : wsp) (cl : nat -> nat -> F) (i ib : nat) : F :=
  lsum (map (fun e => cl i (el e) * e_f e * e_w e) (band w ib)).
Lemma binned_data_ok w cl noise bias k i ib : shaped w -> rect (w_ncls w) k cl -> rect (w_ncls w) k noise -> rect (w_ncls w) k bias ->
  (nlm w <= k)%nat -> (i < w_ncls w)%nat -> (ib < nbands w)%nat ->
  binned_data w cl noise bias i ib = Ok (bdat w (fun a l => entry2 cl a l - entry2 noise a l - entry2 bias a l) i ib).
Proof.
  intros Hs H1 H2 H3 Hk Hi Hib. unfold binned_data. rewrite band_rd_ok by exact Hib. cbn [bind].
  apply lsumM_ok. intros e He. pose proof (band_in w ib e Hib He Hs). unfold nlm in Hk.
  rewrite (rd2_ok _ _ cl _ _ H1), (rd2_ok _ _ noise _ _ H2), (rd2_ok _ _ bias _ _ H3) by lia. cbn [bind].
  rewrite Nat2Z.id. reflexivity.
Qed.
Definition dvec (w : wsp) (f : nat -> nat -> F) : list F :=
  tab (w_ncls w * nbands w) (fun r => bdat w f (r mod w_ncls w) (r / w_ncls w)).
Definition unpack (w : wsp) (x : list F) : mat :=
  tab (w_ncls w) (fun i => tab (nbands w) (fun ib => nth (w_ncls w * ib + i) x 0)).
Lemma decouple_eq w cl noise bias k : shaped w -> rect (w_ncls w) k cl -> rect (w_ncls w) k noise -> rect (w_ncls w) k bias ->
  (nlm w <= k)%nat -> square (w_ncls w * nbands w) (w_mb w) ->
  c_decouple w cl noise bias =
  do x <- lu_solve (w_mb w) (dvec w (fun a l => entry2 cl a l - entry2 noise a l - entry2 bias a l)); Ok (unpack w x).
Proof.
  intros Hs H1 H2 H3 Hk Hsq. unfold c_decouple. cbv zeta.
  assert (Hn : (1 <= w_ncls w)%nat) by (destruct Hs; assumption).
  rewrite (tabM_ok _ _ (fun r => bdat w (fun a l => entry2 cl a l - entry2 noise a l - entry2 bias a l) (r mod w_ncls w) (r / w_ncls w))).
  2:{ intros r Hr. destruct (divmod_lt _ _ r Hn Hr). eapply binned_data_ok; eassumption. }
  cbn [bind]. fold (dvec w (fun a l => entry2 cl a l - entry2 noise a l - entry2 bias a l)).
  pose proof (lu_solve_spec (w_ncls w * nbands w) (w_mb w) (dvec w (fun a l => entry2 cl a l - entry2 noise a l - entry2 bias a l)) Hsq (length_tab _ _)) as S.
  destruct (lu_solve _ _) as [x| |]; cbn [bind]; [|reflexivity|reflexivity].
  apply tabM_ok. intros i Hi. apply tabM_ok. intros ib Hib.
  replace (ncl w * Z.of_nat ib + Z.of_nat i)%Z with (Z.of_nat (w_ncls w * ib + i)) by (unfold ncl; lia).
  apply rd_nat. destruct S as [-> _]. apply idx_lt; assumption.
Qed.
Lemma nth_dvec w f ib i : (i < w_ncls w)%nat -> (ib < nbands w)%nat -> nth (w_ncls w * ib + i) (dvec w f) 0 = bdat w f i ib.
Proof.
  intros Hi Hib. unfold dvec. rewrite nth_tab by (apply idx_lt; assumption).
  destruct (divmod_idx (w_ncls w) ib i Hi) as [-> ->]. reflexivity.
Qed.
Lemma dvec_ext w f g : shaped w -> (forall i l, (i < w_ncls w)%nat -> (l < nlm w)%nat -> f i l = g i l) -> dvec w f = dvec w g.
Proof.
  intros Hs H. unfold dvec. apply tab_ext. intros r Hr. assert (Hn : (1 <= w_ncls w)%nat) by (destruct Hs; assumption).
  destruct (divmod_lt _ _ r Hn Hr) as [Hd Hm].
  unfold bdat. apply lsum_ext. intros e He. pose proof (band_in w _ e Hd He Hs).
  rewrite H by (unfold el, nlm; lia). reflexivity.
Qed.
(** pack/unpack *)
Lemma entry_unpack w x i ib : (i < w_ncls w)%nat -> (ib < nbands w)%nat -> entry2 (unpack w x) i ib = nth (w_ncls w * ib + i) x 0.
Proof. intros Hi Hib. unfold unpack, entry2. rewrite nth_tab by exact Hi. rewrite nth_tab by exact Hib. reflexivity. Qed.
Definition pack (w : wsp) (v : mat) : list F := tab (w_ncls w * nbands w) (fun r => entry2 v (r mod w_ncls w) (r / w_ncls w)).
Lemma nth_pack w v i ib : (i < w_ncls w)%nat -> (ib < nbands w)%nat -> nth (w_ncls w * ib + i) (pack w v) 0 = entry2 v i ib.
Proof.
  intros Hi Hib. unfold pack. rewrite nth_tab by (apply idx_lt; assumption).
  destruct (divmod_idx (w_ncls w) ib i Hi) as [-> ->]. reflexivity.
Qed.
Lemma rect_ext n k (A B : mat) : rect n k A -> rect n k B -> (forall i j, (i < n)%nat -> (j < k)%nat -> entry2 A i j = entry2 B i j) -> A = B.
Proof.
  intros [A1 A2] [B1 B2] H. apply (list_eq_nth _ _ []); [congruence|]. intros i Hi.
  assert (LA : length (nth i A []) = k) by (apply A2, nth_In; exact Hi).
  assert (LB : length (nth i B []) = k) by (apply B2, nth_In; congruence).
  apply (list_eq_nth _ _ 0); [congruence|]. intros j Hj. apply H; lia.
Qed.
Lemma rect_unpack w x : rect (w_ncls w) (nbands w) (unpack w x).
Proof.
  split; [apply length_tab|]. intros r Hr. unfold unpack, tab in Hr. apply in_map_iff in Hr. destruct Hr as [i [<- _]].
  rewrite map_length, seq_length. reflexivity.
Qed.
Lemma rect_tab n k (f : nat -> nat -> F) : rect n k (tab n (fun i => tab k (fun j => f i j))).
Proof.
  split; [apply length_tab|]. intros r Hr. unfold tab in Hr. apply in_map_iff in Hr. destruct Hr as [i [<- _]].
  rewrite map_length, seq_length. reflexivity.
Qed.
Lemma entry_tab n k (f : nat -> nat -> F) i j : (i < n)%nat -> (j < k)%nat -> entry2 (tab n (fun i => tab k (fun j => f i j))) i j = f i j.
Proof. intros. unfold entry2. rewrite nth_tab by assumption. apply nth_tab. assumption. Qed.
Lemma unpack_pack w v : rect (w_ncls w) (nbands w) v -> unpack w (pack w v) = v.
Proof.
  intro H. apply (rect_ext (w_ncls w) (nbands w)); [apply rect_unpack | exact H|]. intros i j Hi Hj.
  rewrite entry_unpack by assumption. apply nth_pack; assumption.
Qed.

(** sum over the packed index *)
Lemma sum_packed n N (f : nat -> F) : sum (n * N) f = sum N (fun ib => sum n (fun i => f (n * ib + i)%nat)).
Proof. rewrite Nat.mul_comm. apply sum_flat. Qed.

(** binning the coupled spectrum of an unbinned one is the binned matrix *)
Lemma fdiv_eq (x y : F) : x / y = x * / y.
Proof. apply (Fdiv_def (fth F)). Qed.
Lemma binned_couple_unbin w v : shaped w -> (w_norm w =? 0)%Z = true -> once (w_bin w) -> rect (w_ncls w) (nbands w) v ->
  forall cl, (forall j, (j < w_ncls w)%nat -> nth j cl [] = unbin1 (w_bin w) (nth j v [])) ->
  forall i ib, (i < w_ncls w)%nat -> (ib < nbands w)%nat ->
  bdat w (coup w cl) i ib =
  sum (nbands w) (fun ib' => sum (w_ncls w) (fun j => mbv w ib i ib' j * entry2 v j ib')).
Proof.
  intros Hs Hnorm Ho Hv cl Hcl i ib Hi Hib. unfold bdat, coup, mbv. rewrite Hnorm.
  destruct Hs. 
  transitivity (lsum (map (fun e => sum (w_ncls w) (fun j =>
     sum (nbands w) (fun ib' => lsum (map (fun e' => Mx w (w_ncls w * el e + i) (w_ncls w * el e' + j) * Bm w (el e') * e_w e * e_f e / e_f e' * entry2 v j ib') (band w ib'))))) (band w ib))).
  - apply lsum_ext. intros e He. rewrite sum_swap.
    rewrite <- !sum_mul_r. apply sum_ext. intros j Hj.
    rewrite (sum_ext (nlm w) _ (fun l' => (Mx w (w_ncls w * el e + i) (w_ncls w * l' + j) * Bm w l') * nth l' (unbin1 (w_bin w) (nth j v [])) 0)).
    2:{ intros l' _. unfold entry2. rewrite Hcl by exact Hj. reflexivity. }
    unfold nlm. rewrite <- sh_bl0. rewrite (sum_unbin1 (w_bin w) (fun l' => Mx w (w_ncls w * el e + i) (w_ncls w * l' + j) * Bm w l')); [|exact sh_ells0|exact Ho| |lia].
    2:{ destruct Hv as [V1 V2]. apply V2, nth_In. lia. }
    rewrite <- !sum_mul_r. apply sum_ext. intros ib' Hib'. fold (band w ib'). rewrite <- !lsum_mul_r.
    apply lsum_ext. intros e' He'. unfold entry2. fold (el e'). rewrite !fdiv_eq. ring.
  - rewrite lsum_swap. rewrite sum_swap. 
    rewrite (sum_ext _ _ (fun j => sum (nbands w) (fun ib' => lsum (map (fun e => lsum (map (fun e' => Mx w (w_ncls w * el e + i) (w_ncls w * el e' + j) * Bm w (el e') * e_w e * e_f e / e_f e' * entry2 v j ib') (band w ib'))) (band w ib))))).
    2:{ intros j _. apply lsum_swap. }
    apply sum_ext. intros j _. apply sum_ext. intros ib' _.
    rewrite <- lsum_mul_r. apply lsum_ext. intros e _. rewrite <- lsum_mul_r. reflexivity.
Qed.

Lemma dvec_solution w v f : wfw w -> (w_norm w =? 0)%Z = true -> rect (w_ncls w) (nbands w) v ->
  (forall i ib, (i < w_ncls w)%nat -> (ib < nbands w)%nat ->
    bdat w f i ib = sum (nbands w) (fun ib' => sum (w_ncls w) (fun j => mbv w ib i ib' j * entry2 v j ib'))) ->
  matvec (w_mb w) (pack w v) = dvec w f.
Proof.
  intros Hw Hn Hv H. rewrite (wfw_mb w Hw). apply (matvec_eq (w_ncls w * nbands w)); [apply square_mb|apply length_tab|apply length_tab|].
  intros r Hr. destruct (divmod_lt _ _ r (ww_ncls w Hw) Hr) as [Hd Hm].
  assert (E : r = (w_ncls w * (r / w_ncls w) + r mod w_ncls w)%nat) by (apply Nat.div_mod; pose proof (ww_ncls w Hw); lia).
  set (ib := (r / w_ncls w)%nat) in *. set (i := (r mod w_ncls w)%nat) in *. clearbody ib i. subst r.
  rewrite nth_dvec by assumption. rewrite H by assumption. rewrite sum_packed. apply sum_ext. intros ib' Hib'.
  apply sum_ext. intros j Hj. rewrite entry_mb by assumption. rewrite nth_pack by assumption. reflexivity.
Qed.

(** ** Diagonal binned matrix (FKP normalisation) *)
Lemma mb_diag w x : shaped w -> (w_norm w =? 0)%Z = false -> length x = (w_ncls w * nbands w)%nat ->
  matvec (mb_tab w) x = map (fun y => w2v w * y) x.
Proof.
  intros Hs Hn Hx. apply (matvec_eq (w_ncls w * nbands w)); [apply square_mb|exact Hx|rewrite map_length; exact Hx|].
  assert (Hp : (1 <= w_ncls w)%nat) by (destruct Hs; assumption).
  intros r Hr. rewrite (nth_indep _ 0 (w2v w * 0)) by (rewrite map_length; lia). rewrite map_nth.
  rewrite (sum_ext _ _ (fun c => kron r c * (w2v w * nth c x 0))).
  - rewrite (sum_kron' _ r (fun c => w2v w * nth c x 0)) by exact Hr. reflexivity.
  - intros c Hc. unfold mb_tab, entry2. cbv zeta. rewrite !nth_tab by assumption. unfold mbv. rewrite Hn.
    rewrite <- !Nat.div_mod by lia. unfold kron. destruct (Nat.eqb r c); ring.
Qed.
Lemma solve_diag w v : shaped w -> (w_norm w =? 0)%Z = false -> w2v w <> 0 -> length v = (w_ncls w * nbands w)%nat ->
  lu_solve (mb_tab w) v = Ok (map (fun y => y / w2v w) v).
Proof.
  intros Hs Hn H0 Hv. apply (lu_solve_iff (w_ncls w * nbands w)); [apply square_mb|exact Hv|]. split; [|split].
  - intros y Hy E. rewrite mb_diag in E by assumption. apply (list_eq_nth _ _ 0); [unfold zeros; rewrite repeat_length; exact Hy|].
    intros i Hi. unfold zeros. rewrite nth_repeat.
    assert (Ei : nth i (map (fun y => w2v w * y) y) 0 = 0) by (rewrite E; apply nth_repeat).
    rewrite (nth_indep _ 0 (w2v w * 0)) in Ei by (rewrite map_length; lia). rewrite map_nth in Ei.
    apply fmul_eq_0 in Ei. destruct Ei; [contradiction | assumption].
  - rewrite map_length. exact Hv.
  - rewrite mb_diag by (try assumption; rewrite map_length; exact Hv). rewrite map_map.
    rewrite <- (map_id v) at 2. apply map_ext. intro a. field. exact H0.
Qed.
End LWorkspace.
