(** Lemmas about the Gaussian covariance: values of one element, of the coupled and of the binned matrix. *)
From Verif Require Import Base M_Bins M_LinAlg M_Workspace M_MCM M_Utils M_Field M_Cell M_Covar L_Bins L_Bins2 L_Bins3 P_Bins L_LinAlg L_Workspace.
Open Scope nat_scope.

Section LCovar.
Context {F : ofield}.
Local Open Scope F_scope.
Add Field FfLCo : (fth F).
Notation mat := (list (list F)).
Notation cwsp := (cwsp F).
Notation cls4 := (cls4 F).

Definition half : F := 1 / fofZ 2.
(** sign of a component under a quarter turn: E -> B, B -> -E *)
Definition sgE (i : nat) : F := match i with O => 1 | _ => - (1) end.
(** first-order change of a spectrum when the first field is turned against the second *)
Definition turn (C : nat -> nat -> F) (i j : nat) : F := sgE i * C (1 - i)%nat j - sgE j * C i (1 - j)%nat.
(** coefficients for two pairs of fields with na, nc and nb, nd components *)
Definition pairv (na nc nb nd : nat) (x : list F) (A A' B B' : nat -> nat -> F) (i k j m : nat) : F :=
  match Nat.eqb na 2 && Nat.eqb nc 2, Nat.eqb nb 2 && Nat.eqb nd 2 with
  | true, true => nth 2 x 0 * (half * (A i k * B' j m + A' i k * B j m)) - nth 3 x 0 * (half * (turn A i k * turn B' j m + turn A' i k * turn B j m))
  | false, false => nth 0 x 0 * (half * (A i k * B' j m + A' i k * B j m))
  | _, _ => nth 1 x 0 * (half * (A i k * B' j m + A' i k * B j m))
  end.
Definition is12 (n : nat) : Prop := n = 1%nat \/ n = 2%nat.
Lemma is12_nm s : is12 (nm s).
Proof. unfold nm, is12. destruct (s =? 0)%Z; auto. Qed.
Lemma pair_sum (na nc nb nd : nat) (x0 x1 x2 x3 : F) (A A' B B' : nat -> nat -> F) i k j m :
  is12 na -> is12 nc -> is12 nb -> is12 nd -> (i < na)%nat -> (k < nc)%nat -> (j < nb)%nat -> (m < nd)%nat ->
  let x := [x0; x1; x2; x3; - x3; 0] in
  sum na (fun i' => sum nb (fun j' => sum nc (fun k' => sum nd (fun m' =>
    nth (coupling_pair_index na nc nb nd i i' k k' j j' m m') x 0 * (half * (A i' k' * B' j' m' + A' i' k' * B j' m'))))))
  = pairv na nc nb nd x A A' B B' i k j m.
Proof.
  intros Ha Hc Hb Hd Hi Hk Hj Hm x. unfold x. clear x. unfold pairv. generalize half as h. intro h.
  assert (R : forall n p, is12 n -> (p < n)%nat -> (n = 1%nat /\ p = 0%nat) \/ (n = 2%nat /\ p = 0%nat) \/ (n = 2%nat /\ p = 1%nat)).
  { intros n p [->| ->] Hp; lia. }
  destruct (R na i Ha Hi) as [[-> ->]|[[-> ->]|[-> ->]]]; destruct (R nc k Hc Hk) as [[-> ->]|[[-> ->]|[-> ->]]];
  destruct (R nb j Hb Hj) as [[-> ->]|[[-> ->]|[-> ->]]]; destruct (R nd m Hd Hm) as [[-> ->]|[[-> ->]|[-> ->]]];
  cbn; unfold turn; cbn [sgE Nat.sub]; ring.
Qed.

(** ** One element *)
Definition nle (cw : cwsp) : nat := Z.to_nat (cw_lmax cw + 1).
Definition rect2 (n : nat) (t : mat * mat) : Prop := rect n n (fst t) /\ rect n n (snd t).
Record fits (cw : cwsp) (s : spins4) (c : cls4) (k : nat) : Prop := {
  fi_lmax : (0 <= cw_lmax cw)%Z;
  fi_k : (nle cw <= k)%nat;
  fi_00 : rect2 (nle cw) (cw_00 cw);
  fi_02 : rect2 (nle cw) (cw_02 cw);
  fi_pp : rect2 (nle cw) (cw_pp cw);
  fi_mm : rect2 (nle cw) (cw_mm cw);
  fi_ac : rect (nm (sp_a s) * nm (sp_c s)) k (cl_ac c);
  fi_ad : rect (nm (sp_a s) * nm (sp_d s)) k (cl_ad c);
  fi_bc : rect (nm (sp_b s) * nm (sp_c s)) k (cl_bc c);
  fi_bd : rect (nm (sp_b s) * nm (sp_d s)) k (cl_bd c) }.
(** spectrum of components i, j at multipole l *)
Definition spc (m : mat) (n l i j : nat) : F := entry2 m (j + n * i) l.
Definition xlist (cw : cwsp) (sel : mat * mat -> mat) (la lb : nat) : list F :=
  let x t := entry2 (sel t) la lb in [x (cw_00 cw); x (cw_02 cw); x (cw_pp cw); x (cw_mm cw); - x (cw_mm cw); 0].
Definition elemv (cw : cwsp) (s : spins4) (c : cls4) (ia ib ic id la lb : nat) : F :=
  let na := nm (sp_a s) in let nb := nm (sp_b s) in let nc := nm (sp_c s) in let nd := nm (sp_d s) in
  pairv na nc nb nd (xlist cw fst la lb) (spc (cl_ac c) nc la) (spc (cl_ac c) nc lb) (spc (cl_bd c) nd la) (spc (cl_bd c) nd lb) ia ic ib id
  + pairv na nd nb nc (xlist cw snd la lb) (spc (cl_ad c) nd la) (spc (cl_ad c) nd lb) (spc (cl_bc c) nc la) (spc (cl_bc c) nc lb) ia id ib ic.
Lemma rect_row n k (m : mat) i : rect n k m -> (i < n)%nat -> rd m (Z.of_nat i) = Ok (nth i m []) /\ length (nth i m []) = k.
Proof. intros [H1 H2] Hi. split; [apply rd_nat; lia|]. apply H2. apply nth_In. lia. Qed.
Lemma idx2 n m i j : (i < n)%nat -> (j < m)%nat -> (j + m * i < n * m)%nat.
Proof. intros. nia. Qed.
Lemma cov_elem_ok cw s c k ia ib ic id la lb pf : fits cw s c k -> (la < nle cw)%nat -> (lb < nle cw)%nat ->
  (ia < nm (sp_a s))%nat -> (ib < nm (sp_b s))%nat -> (ic < nm (sp_c s))%nat -> (id < nm (sp_d s))%nat ->
  cov_elem cw s c ia ib ic id (Z.of_nat la) (Z.of_nat lb) pf = Ok (elemv cw s c ia ib ic id la lb * pf).
Proof.
  intros H Hla Hlb Ha Hb Hc Hd. unfold cov_elem.
  assert (X : forall sel, (forall t, rect2 (nle cw) t -> rect (nle cw) (nle cw) (sel t)) -> xis cw sel (Z.of_nat la) (Z.of_nat lb) = Ok (xlist cw sel la lb)).
  { intros sel Hs. unfold xis, xlist.
    rewrite (rd2_ok (nle cw) (nle cw)) by (try (apply Hs; apply H); lia). cbn [bind].
    rewrite (rd2_ok (nle cw) (nle cw)) by (try (apply Hs; apply H); lia). cbn [bind].
    rewrite (rd2_ok (nle cw) (nle cw)) by (try (apply Hs; apply H); lia). cbn [bind].
    rewrite (rd2_ok (nle cw) (nle cw)) by (try (apply Hs; apply H); lia). cbn [bind]. rewrite !Nat2Z.id. reflexivity. }
  rewrite (X fst), (X snd) by (intros t [? ?]; assumption). cbn [bind].
  set (na := nm (sp_a s)) in *. set (nb := nm (sp_b s)) in *. set (nc := nm (sp_c s)) in *. set (nd := nm (sp_d s)) in *.
  set (x1 := xlist cw fst la lb). set (x2 := xlist cw snd la lb).
  pose (t1 := fun iap ibp icp idp => nth (coupling_pair_index na nc nb nd ia iap ic icp ib ibp id idp) x1 0
      * (half * (spc (cl_ac c) nc la iap icp * spc (cl_bd c) nd lb ibp idp + spc (cl_ac c) nc lb iap icp * spc (cl_bd c) nd la ibp idp))).
  pose (t2 := fun iap ibp icp idp => nth (coupling_pair_index na nd nb nc ia iap id idp ib ibp ic icp) x2 0
      * (half * (spc (cl_ad c) nd la iap idp * spc (cl_bc c) nc lb ibp icp + spc (cl_ad c) nd lb iap idp * spc (cl_bc c) nc la ibp icp))).
  assert (E : sumM na (fun iap => sumM nb (fun ibp => sumM nc (fun icp => sumM nd (fun idp =>
      do t <- cov_term s c x1 x2 ia ib ic id iap ibp icp idp (Z.of_nat la) (Z.of_nat lb); Ok (t * pf)))))
    = Ok (sum na (fun iap => sum nb (fun ibp => sum nc (fun icp => sum nd (fun idp => (t1 iap ibp icp idp + t2 iap ibp icp idp) * pf)))))).
  { apply sumM_ok. intros iap Hap. apply sumM_ok. intros ibp Hbp. apply sumM_ok. intros icp Hcp. apply sumM_ok. intros idp Hdp.
    unfold cov_term. fold na nb nc nd.
    pose proof (fi_k _ _ _ _ H) as Hk.
    destruct (rect_row _ _ _ _ (fi_ac _ _ _ _ H) (idx2 _ _ _ _ Hap Hcp)) as [-> La]. destruct (rect_row _ _ _ _ (fi_ad _ _ _ _ H) (idx2 _ _ _ _ Hap Hdp)) as [-> Lb].
    destruct (rect_row _ _ _ _ (fi_bc _ _ _ _ H) (idx2 _ _ _ _ Hbp Hcp)) as [-> Lc]. destruct (rect_row _ _ _ _ (fi_bd _ _ _ _ H) (idx2 _ _ _ _ Hbp Hdp)) as [-> Ld].
    cbn [bind]. fold nc in La, Lc. fold nd in Lb, Ld. rewrite !(rd_nat _ _ 0) by lia. reflexivity. }
  rewrite E. f_equal. clear E.
  transitivity ((sum na (fun iap => sum nb (fun ibp => sum nc (fun icp => sum nd (t1 iap ibp icp)))) + sum na (fun iap => sum nb (fun ibp => sum nc (fun icp => sum nd (t2 iap ibp icp))))) * pf).
  { rewrite <- sum_add, <- sum_mul_r. apply sum_ext. intros. rewrite <- sum_add, <- sum_mul_r. apply sum_ext. intros.
    rewrite <- sum_add, <- sum_mul_r. apply sum_ext. intros. rewrite <- sum_add, <- sum_mul_r. reflexivity. }
  f_equal. unfold elemv. fold na nb nc nd. f_equal.
  - apply (pair_sum na nc nb nd); try apply is12_nm; assumption.
  - transitivity (sum na (fun iap => sum nb (fun ibp => sum nd (fun idp => sum nc (fun icp => t2 iap ibp icp idp))))).
    + apply sum_ext. intros. apply sum_ext. intros. apply sum_swap.
    + apply (pair_sum na nd nb nc); try apply is12_nm; assumption.
Qed.

(** ** The coupled matrix *)
Lemma find_ell_in (b : bins F) l e : find_ell b l = Some e -> In e (concat (b_bands b)) /\ e_ell e = l.
Proof. unfold find_ell. intro H. apply find_some in H. destruct H as [H1 H2]. apply in_rev in H1. apply Z.eqb_eq in H2. auto. Qed.
Lemma find_ell_some (b : bins F) e : In e (concat (b_bands b)) -> exists e', find_ell b (e_ell e) = Some e'.
Proof.
  intro H. unfold find_ell. destruct (find _ _) eqn:E; [eauto|]. exfalso. apply find_none with (x := e) in E; [|apply in_rev in H; exact H].
  cbv beta in E. rewrite Z.eqb_refl in E. discriminate.
Qed.
Lemma once_concat (b : bins F) : once b -> NoDup (map e_ell (concat (b_bands b))).
Proof.
  unfold once. generalize (b_bands b) as bs. induction bs as [|x bs IH]; [intro; constructor|]. cbn. intro H. rewrite map_app.
  replace (map e_ell (concat bs)) with (flat_map (map e_ell) bs); [exact H|]. clear. induction bs as [|y bs IH]; [reflexivity|]. cbn. rewrite map_app, IH. reflexivity.
Qed.
Lemma NoDup_map_in {A B} (f : A -> B) l a a' : NoDup (map f l) -> In a l -> In a' l -> f a = f a' -> a = a'.
Proof.
  induction l as [|x l IH]; [intros _ []|]. cbn. intro H. inversion H; subst. intros [<-|Ha] [<-|Ha'] E; auto.
  - exfalso. apply H2. rewrite E. apply in_map. exact Ha'.
  - exfalso. apply H2. rewrite <- E. apply in_map. exact Ha.
Qed.
Lemma find_ell_once (b : bins F) e : once b -> In e (concat (b_bands b)) -> find_ell b (e_ell e) = Some e.
Proof.
  intros O H. destruct (find_ell_some b e H) as [e' E]. rewrite E. f_equal. destruct (find_ell_in _ _ _ E) as [I L].
  apply (NoDup_map_in e_ell (concat (b_bands b))); try assumption. apply once_concat. exact O.
Qed.
Lemma ells_fit_of (b : bins F) lmax : ells_in b -> (b_lmax b <= lmax)%Z -> ells_fit b lmax = true.
Proof.
  intros H L. unfold ells_fit. apply forallb_forall. intros e He. apply in_concat in He. destruct He as [x [Hx He]].
  pose proof (H x e Hx He). apply andb_true_iff. rewrite !Z.leb_le. lia.
Qed.
Record wfit (w : wsp F) (lmax : Z) (na nb : nat) : Prop := {
  wf_ells : ells_in (w_bin w);
  wf_lmax : (b_lmax (w_bin w) <= lmax)%Z;
  wf_ncls : w_ncls w = (na * nb)%nat;
  wf_mb : square (w_ncls w * nbands w) (w_mb w) }.
Lemma guards_ok cw s wa wb : wfit wa (cw_lmax cw) (nm (sp_a s)) (nm (sp_b s)) -> wfit wb (cw_lmax cw) (nm (sp_c s)) (nm (sp_d s)) ->
  (cw_s0 cw = true -> (sp_a s + sp_b s + sp_c s + sp_d s = 0)%Z) -> covar_guards cw s wa wb = Ok tt.
Proof.
  intros Ha Hb H0. unfold covar_guards. pose proof (wf_lmax _ _ _ _ Ha). pose proof (wf_lmax _ _ _ _ Hb).
  replace (cw_lmax cw <? b_lmax (w_bin wa))%Z with false by (symmetry; apply Z.ltb_ge; assumption).
  replace (cw_lmax cw <? b_lmax (w_bin wb))%Z with false by (symmetry; apply Z.ltb_ge; assumption). cbn [orb].
  rewrite (wf_ncls _ _ _ _ Ha), (wf_ncls _ _ _ _ Hb), !Nat.eqb_refl. cbn [negb orb].
  destruct (cw_s0 cw); cbn [andb]; [|reflexivity]. rewrite (H0 eq_refl). reflexivity.
Qed.
(** coordinates of the output *)
Definition at_a (s : spins4) (la ia ib : nat) : nat := (nm (sp_a s) * nm (sp_b s) * la + (nm (sp_b s) * ia + ib))%nat.
Definition coupled_value (cw : cwsp) (s : spins4) (c : cls4) (wa wb : wsp F) (r k : nat) : option F :=
  let na := (nm (sp_a s) * nm (sp_b s))%nat in let nb := (nm (sp_c s) * nm (sp_d s))%nat in
  match find_ell (w_bin wa) (Z.of_nat (r / na)), find_ell (w_bin wb) (Z.of_nat (k / nb)) with
  | Some ea, Some eb => Some (elemv cw s c (r mod na / nm (sp_b s)) ((r mod na) mod nm (sp_b s)) (k mod nb / nm (sp_d s)) ((k mod nb) mod nm (sp_d s)) (r / na) (k / nb) * (e_f ea * e_f eb))
  | _, _ => None
  end.
Lemma nm_pos s : (1 <= nm s)%nat.
Proof. unfold nm. destruct (s =? 0)%Z; lia. Qed.
Lemma split_idx n p r L : (1 <= n)%nat -> (1 <= p)%nat -> (r < n * p * L)%nat ->
  (r / (n * p) < L)%nat /\ (r mod (n * p) / p < n)%nat /\ ((r mod (n * p)) mod p < p)%nat.
Proof.
  intros Hn Hp Hr. split; [apply Nat.div_lt_upper_bound; nia|]. split; [|apply Nat.mod_upper_bound; lia].
  apply Nat.div_lt_upper_bound; [lia|]. rewrite (Nat.mul_comm p). apply Nat.mod_upper_bound. nia.
Qed.
Lemma coupled_ok cw s c k wa wb : fits cw s c k ->
  wfit wa (cw_lmax cw) (nm (sp_a s)) (nm (sp_b s)) -> wfit wb (cw_lmax cw) (nm (sp_c s)) (nm (sp_d s)) ->
  (cw_s0 cw = true -> (sp_a s + sp_b s + sp_c s + sp_d s = 0)%Z) ->
  covar_coupled cw s c wa wb = Ok (tab (w_ncls wa * nle cw) (fun r => tab (nle cw * w_ncls wb) (fun q => coupled_value cw s c wa wb r q))).
Proof.
  intros H Ha Hb H0. unfold covar_coupled. rewrite guards_ok by assumption. cbn [bind].
  rewrite !ells_fit_of by first [apply (wf_ells _ _ _ _ Ha) | apply (wf_ells _ _ _ _ Hb) | apply (wf_lmax _ _ _ _ Ha) | apply (wf_lmax _ _ _ _ Hb)].
  cbn [andb negb]. fold (nle cw). rewrite (wf_ncls _ _ _ _ Ha), (wf_ncls _ _ _ _ Hb).
  apply tabM_ok. intros r Hr. apply tabM_ok. intros q Hq. cbv zeta. unfold coupled_value.
  pose proof (nm_pos (sp_a s)). pose proof (nm_pos (sp_b s)). pose proof (nm_pos (sp_c s)). pose proof (nm_pos (sp_d s)).
  destruct (split_idx (nm (sp_a s)) (nm (sp_b s)) r (nle cw)) as [I1 [I2 I3]]; [lia | lia | exact Hr|].
  destruct (split_idx (nm (sp_c s)) (nm (sp_d s)) q (nle cw)) as [J1 [J2 J3]]; [lia | lia | rewrite Nat.mul_comm; exact Hq|].
  destruct (find_ell (w_bin wa) _) as [ea|]; [|reflexivity]. destruct (find_ell (w_bin wb) _) as [eb|]; [|reflexivity].
  rewrite (cov_elem_ok cw s c k) by assumption. reflexivity.
Qed.

(** ** The binned matrix and its sandwich *)
Definition binnedv (cw : cwsp) (s : spins4) (c : cls4) (wa wb : wsp F) (ba ca bb cb : nat) : F :=
  lsum (map (fun ea => lsum (map (fun eb => elemv cw s c (ca / nm (sp_b s)) (ca mod nm (sp_b s)) (cb / nm (sp_d s)) (cb mod nm (sp_d s)) (el ea) (el eb)
     * (e_w ea * e_f ea * e_w eb * e_f eb)) (band wb bb))) (band wa ba)).
Definition bmat (cw : cwsp) (s : spins4) (c : cls4) (wa wb : wsp F) : mat :=
  tab (w_ncls wa * nbands wa) (fun r => tab (w_ncls wb * nbands wb) (fun q => binnedv cw s c wa wb (r / w_ncls wa) (r mod w_ncls wa) (q / w_ncls wb) (q mod w_ncls wb))).
Lemma band_fit w lmax na nb ib e : wfit w lmax na nb -> (ib < nbands w)%nat -> In e (band w ib) -> (0 <= e_ell e <= lmax)%Z.
Proof. intros H Hi He. pose proof (wf_ells _ _ _ _ H (band w ib) e ltac:(apply nth_In; exact Hi) He). pose proof (wf_lmax _ _ _ _ H). lia. Qed.
Lemma binned_ok cw s c k wa wb r q : fits cw s c k ->
  wfit wa (cw_lmax cw) (nm (sp_a s)) (nm (sp_b s)) -> wfit wb (cw_lmax cw) (nm (sp_c s)) (nm (sp_d s)) ->
  (r < w_ncls wa * nbands wa)%nat -> (q < w_ncls wb * nbands wb)%nat ->
  cov_binned cw s c wa wb r q = Ok (binnedv cw s c wa wb (r / w_ncls wa) (r mod w_ncls wa) (q / w_ncls wb) (q mod w_ncls wb)).
Proof.
  intros H Ha Hb Hr Hq. unfold cov_binned. rewrite (wf_ncls _ _ _ _ Ha), (wf_ncls _ _ _ _ Hb) in *.
  pose proof (nm_pos (sp_a s)). pose proof (nm_pos (sp_b s)). pose proof (nm_pos (sp_c s)). pose proof (nm_pos (sp_d s)).
  destruct (split_idx (nm (sp_a s)) (nm (sp_b s)) r (nbands wa)) as [I1 [I2 I3]]; [lia | lia | exact Hr|].
  destruct (split_idx (nm (sp_c s)) (nm (sp_d s)) q (nbands wb)) as [J1 [J2 J3]]; [lia | lia | exact Hq|].
  cbv zeta. rewrite !band_rd_ok by assumption. cbn [bind]. unfold binnedv.
  apply lsumM_ok. intros ea Hea. apply lsumM_ok. intros eb Heb.
  pose proof (band_fit _ _ _ _ _ _ Ha I1 Hea) as La. pose proof (band_fit _ _ _ _ _ _ Hb J1 Heb) as Lb. pose proof (fi_lmax _ _ _ _ H).
  assert (Na : (el ea < nle cw)%nat) by (clear -La; unfold el, nle; lia). assert (Nb : (el eb < nle cw)%nat) by (clear -Lb; unfold el, nle; lia).
  rewrite <- (cov_elem_ok cw s c k) by assumption. unfold el. rewrite !Z2Nat.id by first [apply La | apply Lb]. reflexivity.
Qed.
Lemma decoupled_ok cw s c k wa wb : fits cw s c k ->
  wfit wa (cw_lmax cw) (nm (sp_a s)) (nm (sp_b s)) -> wfit wb (cw_lmax cw) (nm (sp_c s)) (nm (sp_d s)) ->
  (cw_s0 cw = true -> (sp_a s + sp_b s + sp_c s + sp_d s = 0)%Z) ->
  covar_decoupled cw s c wa wb =
    (do ib <- lu_invert (w_mb wb); do ia <- lu_invert (w_mb wa);
     let na := (w_ncls wa * nbands wa)%nat in let nb := (w_ncls wb * nbands wb)%nat in
     Ok (mat_mul na na nb ia (mat_mul_t na nb nb (bmat cw s c wa wb) ib))).
Proof.
  intros H Ha Hb H0. unfold covar_decoupled. rewrite guards_ok by assumption. cbn [bind]. cbv zeta.
  erewrite (tabM_ok (w_ncls wa * nbands wa)).
  2:{ intros r Hr. apply tabM_ok. intros q Hq. apply (binned_ok cw s c k); assumption. }
  reflexivity.
Qed.
End LCovar.
