(** Properties of the Gaussian covariance (pymaster/covariance.py, src/nmt_covar.c). *)
From Coq Require Import QArith Qcanon.
From Verif Require Import Base M_Bins M_LinAlg M_Workspace M_MCM M_Utils M_Field M_Cell M_Covar L_Bins L_Bins2 L_Bins3 P_Bins L_LinAlg L_Workspace P_Workspace L_MCM L_MCM2 L_MCM3 P_MCM L_Covar L_Covar2.
Open Scope nat_scope.

Section PCovar.
Context {F : ofield}.
Local Open Scope F_scope.
Add Field FfPCo : (fth F).
Notation mat := (list (list F)).
Notation el := L_Workspace.el.

(** ** Calls of gaussian_covariance *)
(** a covariance workspace, the four spins, four lists of spectra of length k, and two workspaces *)
Record covargs := CovArgs { g_cw : cwsp F; g_s : spins4; g_k : nat; g_c : cls4 F; g_wa : wsp F; g_wb : wsp F }.
Definition cov (g : covargs) (coupled : bool) : res (covmat F) :=
  gaussian_covariance (Some (g_cw g)) (g_s g) (A2 (g_k g) (cl_ac (g_c g))) (A2 (g_k g) (cl_ad (g_c g))) (A2 (g_k g) (cl_bc (g_c g))) (A2 (g_k g) (cl_bd (g_c g)))
    (obj (g_wa g)) (Some (obj (g_wb g))) coupled.
Definition coupled_size (g : covargs) : Z := (ncl (g_wa g) * (cw_lmax (g_cw g) + 1) * (ncl (g_wb g) * (cw_lmax (g_cw g) + 1)))%Z.
Definition decoupled_size (g : covargs) : Z := (ncl (g_wa g) * Z.of_nat (nbands (g_wa g)) * (ncl (g_wb g) * Z.of_nat (nbands (g_wb g))))%Z.
Definition int_max : Z := 2147483647.
(** the eight tables are symmetric *)
Definition symt (cw : cwsp F) : Prop := forall t, In t [cw_00 cw; cw_02 cw; cw_pp cw; cw_mm cw] -> forall sel, In sel [fst; snd] ->
  forall la lb, (la < nle cw)%nat -> (lb < nle cw)%nat -> entry2 (sel t) la lb = entry2 (sel t) lb la.
Record good (g : covargs) : Prop := {
  gd_fits : fits (g_cw g) (g_s g) (g_c g) (g_k g);
  gd_a : wfit (g_wa g) (cw_lmax (g_cw g)) (nm (sp_a (g_s g))) (nm (sp_b (g_s g)));
  gd_b : wfit (g_wb g) (cw_lmax (g_cw g)) (nm (sp_c (g_s g))) (nm (sp_d (g_s g)));
  gd_s0 : cw_s0 (g_cw g) = true -> (sp_a (g_s g) = 0 /\ sp_b (g_s g) = 0 /\ sp_c (g_s g) = 0 /\ sp_d (g_s g) = 0)%Z;
  gd_sym : symt (g_cw g) }.

(** what [good] asks of the workspaces holds for every computed workspace *)
Lemma wfit_compute (i : inputs (F:=F)) (w : wsp F) lmax na nb : valid i -> compute i = Ok w -> i_ncls i = (na * nb)%nat -> (b_lmax (i_bin i) <= lmax)%Z -> wfit w lmax na nb.
Proof.
  intros V C N L. rewrite (compute_ok i V) in C. injection C as <-. pose proof (mk_wf i V) as W.
  destruct V as [_ [H2 _]]. destruct (valid_bins_facts _ H2) as [_ [E _]].
  constructor; [exact E | exact L | exact N |].
  pose proof (wfw_mb _ W) as B. rewrite B. apply square_mb.
Qed.
Lemma alloc_ok n : (0 <= n <= int_max)%Z -> alloc_out n = Ok tt.
Proof.
  unfold int_max, alloc_out, wrap32. intro H. rewrite Z.mod_small by lia. replace (n + 2147483648 - 2147483648)%Z with n by lia.
  replace (n <? 0)%Z with false by (symmetry; apply Z.ltb_ge; lia). rewrite Z.eqb_refl. reflexivity.
Qed.
Definition shape_ok (g : covargs) : Prop := fits (g_cw g) (g_s g) (g_c g) (g_k g).
Lemma ilen_A2 k (m : mat) n : rect n k m -> (1 <= n)%nat -> ilen (A2 k m) = Ok (Z.of_nat k).
Proof. intros [L _] Hn. destruct m; [cbn in L; lia | reflexivity]. Qed.
Lemma cov_unfold g b : good g -> cov g b =
  (if b then do _ <- alloc_out (coupled_size g); do m <- covar_coupled (g_cw g) (g_s g) (g_c g) (g_wa g) (g_wb g); Ok (Coupled m)
   else do _ <- alloc_out (decoupled_size g); do m <- covar_decoupled (g_cw g) (g_s g) (g_c g) (g_wa g) (g_wb g); Ok (Decoupled m)).
Proof.
  intros [H Ha Hb _ _]. unfold cov, gaussian_covariance. cbn [opt need_wsp obj p_wsp bind alen]. destruct g as [cw s k c wa wb]. cbn [g_cw g_s g_k g_c g_wa g_wb] in *.
  pose proof (wf_ncls _ _ _ _ Ha) as Na. pose proof (wf_ncls _ _ _ _ Hb) as Nb.
  replace (ncl wa =? Z.of_nat (nm (sp_a s)) * Z.of_nat (nm (sp_b s)))%Z with true by (symmetry; apply Z.eqb_eq; unfold ncl; lia).
  replace (ncl wb =? Z.of_nat (nm (sp_c s)) * Z.of_nat (nm (sp_d s)))%Z with true by (symmetry; apply Z.eqb_eq; unfold ncl; lia).
  pose proof (nm_pos (sp_a s)). pose proof (nm_pos (sp_b s)). pose proof (nm_pos (sp_c s)). pose proof (nm_pos (sp_d s)).
  pose proof (fi_ac _ _ _ _ H) as R1. pose proof (fi_ad _ _ _ _ H) as R2. pose proof (fi_bc _ _ _ _ H) as R3. pose proof (fi_bd _ _ _ _ H) as R4.
  pose proof (fi_k _ _ _ _ H) as Hk. pose proof (fi_lmax _ _ _ _ H) as Hl. unfold nle in Hk.
  rewrite (proj1 R1), (proj1 R2), (proj1 R3), (proj1 R4), !Nat2Z.inj_mul, !Z.eqb_refl. cbn [negb orb].
  rewrite (ilen_A2 _ _ _ R1), (ilen_A2 _ _ _ R2), (ilen_A2 _ _ _ R3), (ilen_A2 _ _ _ R4) by nia. cbn [bind rows_of_arr].
  replace (Z.of_nat k <? cw_lmax cw + 1)%Z with false by (symmetry; apply Z.ltb_ge; lia). rewrite !Z.eqb_refl. cbn [negb andb].
  destruct c as [ac ad bc bd]. destruct b; reflexivity.
Qed.
Lemma size_nonneg g : good g -> (0 <= coupled_size g)%Z /\ (0 <= decoupled_size g)%Z.
Proof. intros [H _ _ _ _]. pose proof (fi_lmax _ _ _ _ H). unfold coupled_size, decoupled_size, ncl. split; apply Z.mul_nonneg_nonneg; apply Z.mul_nonneg_nonneg; lia. Qed.
Lemma cov_coupled g : good g -> (coupled_size g <= int_max)%Z ->
  cov g true = Ok (Coupled (tab (w_ncls (g_wa g) * nle (g_cw g)) (fun r => tab (nle (g_cw g) * w_ncls (g_wb g)) (fun q => coupled_value (g_cw g) (g_s g) (g_c g) (g_wa g) (g_wb g) r q)))).
Proof.
  intros H S. rewrite cov_unfold by exact H. rewrite alloc_ok by (pose proof (size_nonneg g H); lia). cbn [bind].
  rewrite (coupled_ok _ _ _ (g_k g)) by first [apply H | intro E; pose proof (gd_s0 g H E); lia]. reflexivity.
Qed.

(** ** C52: the value of each element *)
(** position of multipole l, components i of the first and j of the second field, n components in total of the second *)
Definition cpos (n1 n2 l i j : nat) : nat := (n1 * n2 * l + (n2 * i + j))%nat.
Definition row (g : covargs) := cpos (nm (sp_a (g_s g))) (nm (sp_b (g_s g))).
Definition col (g : covargs) := cpos (nm (sp_c (g_s g))) (nm (sp_d (g_s g))).
Definition centry (M : list (list (option F))) (r k : nat) : option F := nth k (nth r M []) None.
Definition comps (g : covargs) (ia ib ic id : nat) : Prop :=
  (ia < nm (sp_a (g_s g)))%nat /\ (ib < nm (sp_b (g_s g)))%nat /\ (ic < nm (sp_c (g_s g)))%nat /\ (id < nm (sp_d (g_s g)))%nat.
Definition in_bins (w : wsp F) (e : entry F) : Prop := In e (concat (b_bands (w_bin w))).

Lemma cpos_lt n1 n2 l i j L : (i < n1)%nat -> (j < n2)%nat -> (l < L)%nat -> (cpos n1 n2 l i j < n1 * n2 * L)%nat.
Proof. unfold cpos. intros. assert (n2 * i + j < n1 * n2)%nat by nia. nia. Qed.
Lemma cpos_split n1 n2 l i j : (i < n1)%nat -> (j < n2)%nat ->
  (cpos n1 n2 l i j / (n1 * n2) = l)%nat /\ (cpos n1 n2 l i j mod (n1 * n2) / n2 = i)%nat /\ ((cpos n1 n2 l i j mod (n1 * n2)) mod n2 = j)%nat.
Proof.
  intros Hi Hj. assert (K : (n2 * i + j < n1 * n2)%nat) by nia.
  assert (E1 : (cpos n1 n2 l i j / (n1 * n2) = l)%nat) by (symmetry; apply (Nat.div_unique _ _ _ (n2 * i + j)); [exact K | reflexivity]).
  assert (E2 : (cpos n1 n2 l i j mod (n1 * n2) = n2 * i + j)%nat) by (symmetry; apply (Nat.mod_unique _ _ l); [exact K | reflexivity]).
  rewrite E2. split; [exact E1|]. split; [symmetry; apply (Nat.div_unique _ _ _ j); [exact Hj | reflexivity] | symmetry; apply (Nat.mod_unique _ _ i); [exact Hj | reflexivity]].
Qed.
Definition fE (b : bins F) (l : nat) : option F := match find_ell b (Z.of_nat l) with Some e => Some (e_f e) | None => None end.
Lemma coupled_at g ia ib ic id la lb : good g -> (coupled_size g <= int_max)%Z -> comps g ia ib ic id -> (la < nle (g_cw g))%nat -> (lb < nle (g_cw g))%nat ->
  forall M, cov g true = Ok (Coupled M) ->
  centry M (row g la ia ib) (col g lb ic id) =
    match find_ell (w_bin (g_wa g)) (Z.of_nat la), find_ell (w_bin (g_wb g)) (Z.of_nat lb) with
    | Some ea, Some eb => Some (elemv (g_cw g) (g_s g) (g_c g) ia ib ic id la lb * (e_f ea * e_f eb))
    | _, _ => None
    end.
Proof.
  intros H S [Ia [Ib [Ic Id]]] Hla Hlb M E. rewrite cov_coupled in E by assumption. injection E as <-. unfold centry, row, col.
  rewrite (wf_ncls _ _ _ _ (gd_a g H)), (wf_ncls _ _ _ _ (gd_b g H)).
  rewrite nth_tab by (apply cpos_lt; assumption). rewrite nth_tab by (rewrite Nat.mul_comm; apply cpos_lt; assumption).
  unfold coupled_value. destruct (cpos_split _ _ la ia ib Ia Ib) as [-> [-> ->]]. destruct (cpos_split _ _ lb ic id Ic Id) as [-> [-> ->]]. reflexivity.
Qed.
(** every call whose arguments have the right shapes is accepted *)
Theorem C52_accepted g : good g -> (coupled_size g <= int_max)%Z ->
  exists M, cov g true = Ok (Coupled M) /\ length M = (w_ncls (g_wa g) * nle (g_cw g))%nat /\ forall r, In r M -> length r = (w_ncls (g_wb g) * nle (g_cw g))%nat.
Proof.
  intros H S. eexists. split; [apply cov_coupled; assumption|]. split; [apply length_tab|].
  intros r Hr. apply In_nth with (d := []) in Hr. destruct Hr as [i [Hi <-]]. rewrite length_tab in Hi. rewrite nth_tab by exact Hi. rewrite length_tab. apply Nat.mul_comm.
Qed.

(** the symmetrised product of two spectra, at la and lb *)
Definition sympr (A A' B B' : nat -> nat -> F) (i k j m : nat) : F := (A i k * B' j m + A' i k * B j m) / fofZ 2.
(** one pairing: kernels, spectra (at la and at lb) of the first and of the second pair of fields, components *)
Definition pairing (na nc nb nd : nat) (k00 k02 kpp kmm : F) (A A' B B' : nat -> nat -> F) (i k j m : nat) : F :=
  let polA := Nat.eqb na 2 && Nat.eqb nc 2 in let polB := Nat.eqb nb 2 && Nat.eqb nd 2 in
  if polA && polB then kpp * sympr A A' B B' i k j m - kmm * sympr (turn A) (turn A') (turn B) (turn B') i k j m
  else if polA || polB then k02 * sympr A A' B B' i k j m
  else k00 * sympr A A' B B' i k j m.
Lemma pairv_pairing na nc nb nd x A A' B B' i k j m : pairv na nc nb nd x A A' B B' i k j m = pairing na nc nb nd (nth 0 x 0) (nth 1 x 0) (nth 2 x 0) (nth 3 x 0) A A' B B' i k j m.
Proof.
  unfold pairv, pairing, sympr. cbv zeta. rewrite !(Fdiv_def (fth F)). unfold half. rewrite !(Fdiv_def (fth F)). generalize (/ (fofZ 2 : F)). intro h.
  destruct (Nat.eqb na 2 && Nat.eqb nc 2), (Nat.eqb nb 2 && Nat.eqb nd 2); cbn [andb orb]; ring.
Qed.
Variables (fsqrt fexp flog : F -> F) (pi : F).
Variable w3j : Z -> Z -> Z -> Z -> Z -> F.
(** the sum of the two pairings, for the kernels of the masks p1 (a1 b1 x a2 b2) and p2 (a1 b2 x a2 b1) *)
Definition wick (s : spins4) (c : cls4 F) (p1 p2 : list F) (lmm : Z) (ia ib ic id la lb : nat) : F :=
  let na := nm (sp_a s) in let nb := nm (sp_b s) in let nc := nm (sp_c s) in let nd := nm (sp_d s) in
  let k p f := f p lmm la lb in
  pairing na nc nb nd (k p1 (X00 fsqrt fexp flog pi)) (k p1 (X02 fsqrt fexp flog pi w3j)) (k p1 (Xpp pi w3j)) (k p1 (Xmm pi w3j))
    (spc (cl_ac c) nc la) (spc (cl_ac c) nc lb) (spc (cl_bd c) nd la) (spc (cl_bd c) nd lb) ia ic ib id
  + pairing na nd nb nc (k p2 (X00 fsqrt fexp flog pi)) (k p2 (X02 fsqrt fexp flog pi w3j)) (k p2 (Xpp pi w3j)) (k p2 (Xmm pi w3j))
    (spc (cl_ad c) nd la) (spc (cl_ad c) nd lb) (spc (cl_bc c) nc la) (spc (cl_bc c) nc lb) ia id ib ic.
(** the workspace was initialised with these spectra of the products of masks, without Toeplitz approximation *)
Definition built (cw : cwsp F) (p1 p2 : list F) (lmax lmm : Z) (s0 : bool) : Prop :=
  pi <> 0 /\ (0 <= lmax <= lmm)%Z /\ Z.of_nat (length p1) = (lmm + 1)%Z /\ Z.of_nat (length p2) = (lmm + 1)%Z /\
  exists junk lt lex dl, (lt <= 0)%Z /\ covar_workspace_init_py fsqrt fexp flog pi junk w3j p1 p2 lmax lmm lt lex dl s0 = Ok cw.
Lemma built_elem cw p1 p2 lmax lmm s0 s c ia ib ic id la lb : built cw p1 p2 lmax lmm s0 ->
  (cw_s0 cw = true -> (sp_a s = 0 /\ sp_b s = 0 /\ sp_c s = 0 /\ sp_d s = 0)%Z) -> (la < nle cw)%nat -> (lb < nle cw)%nat ->
  elemv cw s c ia ib ic id la lb = wick s c p1 p2 lmm ia ib ic id la lb.
Proof.
  intros [Hpi [HL [L1 [L2 [junk [lt [lex [dl [Hlt E]]]]]]]]] H0 Ha Hb.
  destruct (init_ok fsqrt fexp flog pi w3j junk p1 p2 lmax lmm lt lex dl s0 Hpi HL L1 L2) as [cw' [E' [C1 [C2 [C3 [_ V]]]]]]; [unfold tplz_ok; lia|].
  assert (cw' = cw) by congruence. subst cw'. clear E E'. specialize (V Hlt).
  destruct (V fst p1 (or_introl eq_refl) la lb Ha Hb) as [A1 A2]. destruct (V snd p2 (or_intror (or_introl eq_refl)) la lb Ha Hb) as [B1 B2].
  unfold elemv, wick. cbv zeta. rewrite !pairv_pairing. unfold xlist. cbn [nth].
  destruct s0.
  - rewrite C3 in H0. destruct (H0 eq_refl) as [-> [-> [-> ->]]]. cbn [nm Z.eqb]. unfold pairing. cbn [Nat.eqb andb orb]. rewrite A1, B1. reflexivity.
  - destruct (A2 eq_refl) as [-> [-> ->]]. destruct (B2 eq_refl) as [-> [-> ->]]. rewrite A1, B1. reflexivity.
Qed.
Theorem C52_coupled_value g p1 p2 lmm s0 : good g -> (coupled_size g <= int_max)%Z -> built (g_cw g) p1 p2 (cw_lmax (g_cw g)) lmm s0 ->
  once (w_bin (g_wa g)) -> once (w_bin (g_wb g)) -> forall M, cov g true = Ok (Coupled M) ->
  forall ea eb ia ib ic id, in_bins (g_wa g) ea -> in_bins (g_wb g) eb -> comps g ia ib ic id ->
  centry M (row g (el ea) ia ib) (col g (el eb) ic id) = Some (e_f ea * e_f eb * wick (g_s g) (g_c g) p1 p2 lmm ia ib ic id (el ea) (el eb)).
Proof.
  intros H S B Oa Ob M E ea eb ia ib ic id Ia Ib C.
  assert (G : forall w na nb e, wfit w (cw_lmax (g_cw g)) na nb -> in_bins w e -> (0 <= e_ell e <= cw_lmax (g_cw g))%Z).
  { intros w na nb e W I. apply in_concat in I. destruct I as [x [Hx He]]. pose proof (wf_ells _ _ _ _ W x e Hx He). pose proof (wf_lmax _ _ _ _ W). lia. }
  pose proof (G _ _ _ _ (gd_a g H) Ia) as La. pose proof (G _ _ _ _ (gd_b g H) Ib) as Lb.
  assert (Na : (el ea < nle (g_cw g))%nat) by (unfold el, nle; lia). assert (Nb : (el eb < nle (g_cw g))%nat) by (unfold el, nle; lia).
  rewrite (coupled_at g ia ib ic id (el ea) (el eb) H S C Na Nb M E). unfold el at 1 2. rewrite !Z2Nat.id by lia.
  rewrite (find_ell_once _ ea Oa Ia), (find_ell_once _ eb Ob Ib). f_equal.
  rewrite (built_elem (g_cw g) p1 p2 _ lmm s0 (g_s g) (g_c g) ia ib ic id _ _ B (gd_s0 g H) Na Nb). ring.
Qed.
(** four scalar fields: the formula of the documentation *)
Corollary C52_scalar g p1 p2 lmm s0 : good g -> (coupled_size g <= int_max)%Z -> built (g_cw g) p1 p2 (cw_lmax (g_cw g)) lmm s0 ->
  once (w_bin (g_wa g)) -> once (w_bin (g_wb g)) -> g_s g = Spins 0 0 0 0 -> forall M, cov g true = Ok (Coupled M) ->
  forall ea eb, in_bins (g_wa g) ea -> in_bins (g_wb g) eb ->
  let C m l := entry2 m 0 l in let la := el ea in let lb := el eb in
  let J l1 := J0 fsqrt fexp flog (Z.of_nat (Nat.min la lb)) (Z.of_nat (Nat.max la lb)) l1 * J0 fsqrt fexp flog (Z.of_nat (Nat.min la lb)) (Z.of_nat (Nat.max la lb)) l1 in
  let Xi p := sum (Z.to_nat (lmm + 1)) (fun l1 => nth l1 p 0 * fofnat (2 * l1 + 1) / ((1 + 1 + 1 + 1) * pi) * J (Z.of_nat l1)) in
  centry M la lb = Some (e_f ea * e_f eb * (
      Xi p1 * ((C (cl_ac (g_c g)) la * C (cl_bd (g_c g)) lb + C (cl_ac (g_c g)) lb * C (cl_bd (g_c g)) la) / fofZ 2)
    + Xi p2 * ((C (cl_ad (g_c g)) la * C (cl_bc (g_c g)) lb + C (cl_ad (g_c g)) lb * C (cl_bc (g_c g)) la) / fofZ 2))).
Proof.
  intros H S B Oa Ob Es M E ea eb Ia Ib C la lb J Xi.
  assert (Cm : comps g 0 0 0 0) by (unfold comps; rewrite Es; cbn; lia).
  pose proof (C52_coupled_value g p1 p2 lmm s0 H S B Oa Ob M E ea eb 0 0 0 0 Ia Ib Cm) as V.
  unfold row, col, cpos in V. rewrite Es in V. cbn [sp_a sp_b sp_c sp_d nm Z.eqb Nat.mul Nat.add] in V. rewrite !Nat.add_0_r in V. exact V.
Qed.
End PCovar.
