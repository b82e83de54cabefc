(** Lemmas: the arrays filled by fs_synalm do not depend on how the stores of the threads interleave. *)
From Coq Require Import Permutation.
From Verif Require Import Base M_Utils M_Bins M_FlatBins M_LinAlg M_Workspace M_OMP L_OMP M_Flat M_WspFlat M_Syn L_Flat L_Flat2 L_Flat3.
Open Scope nat_scope.

(** position of the first occurrence *)
Fixpoint index_of (x : nat) (l : list nat) : nat := match l with [] => 0 | y :: t => if Nat.eqb y x then 0 else S (index_of x t) end.
Fixpoint part_of (x : nat) (ps : list (list nat)) : nat := match ps with [] => 0 | l :: t => if existsb (Nat.eqb x) l then 0 else S (part_of x t) end.
Lemma index_of_in x l : In x l -> (index_of x l < length l)%nat /\ nth (index_of x l) l 0%nat = x.
Proof. induction l as [|y t IH]; [intros []|]. cbn. intros H. destruct (Nat.eqb_spec y x) as [->|N]; [split; [lia | reflexivity]|]. destruct H as [H|H]; [congruence|]. destruct (IH H). split; [lia | assumption]. Qed.
Lemma part_of_in x ps : In x (concat ps) -> (part_of x ps < length ps)%nat /\ In x (nth (part_of x ps) ps []).
Proof.
  induction ps as [|l t IH]; [intros []|]. cbn. intro H. destruct (existsb (Nat.eqb x) l) eqn:E.
  - apply existsb_exists in E. destruct E as [y [E1 E2]]. apply Nat.eqb_eq in E2. subst. split; [lia | exact E1].
  - apply in_app_or in H. destruct H as [H|H]; [exfalso; rewrite (proj2 (existsb_exists _ _)) in E; [discriminate | exists x; split; [exact H | apply Nat.eqb_refl]]|]. destruct (IH H). split; [lia | assumption].
Qed.
(** each element occurs at one place only *)
Lemma NoDup_app_disj {A} (l1 l2 : list A) x : NoDup (l1 ++ l2) -> In x l1 -> In x l2 -> False.
Proof. induction l1 as [|y t IH]; [intros _ []|]. cbn. intros H [->|H1] H2; inversion H as [|? ? N1 N2]; subst; [apply N1; apply in_or_app; auto | auto]. Qed.
Lemma place_unique ps t p : NoDup (concat ps) -> (p < length (nth t ps []))%nat -> t = part_of (nth p (nth t ps []) 0%nat) ps /\ p = index_of (nth p (nth t ps []) 0%nat) (nth t ps []).
Proof.
  revert t. induction ps as [|l r IH]; intros t ND Hp; [destruct t; cbn in Hp; lia|]. cbn [concat] in ND. destruct t as [|t]; cbn [nth] in *.
  - split.
    + cbn [part_of]. rewrite (proj2 (existsb_exists _ _)); [reflexivity|]. exists (nth p l 0%nat). split; [apply nth_In; exact Hp | apply Nat.eqb_refl].
    + destruct (index_of_in (nth p l 0%nat) l) as [A B]; [apply nth_In; exact Hp|]. assert (NDl : NoDup l) by (clear - ND; induction l; [constructor|]; cbn in ND; inversion ND; subst; constructor; [intro H; apply H1; apply in_or_app; auto | auto]). symmetry. apply (proj1 (NoDup_nth l 0%nat) NDl); assumption.
  - assert (NDr : NoDup (concat r)) by (clear - ND; induction l; [exact ND|]; cbn in ND; inversion ND; subst; auto). destruct (IH t NDr Hp) as [A B]. split; [|exact B]. cbn [part_of].
    destruct (existsb (Nat.eqb (nth p (nth t r []) 0%nat)) l) eqn:E; [|congruence]. exfalso. apply existsb_exists in E. destruct E as [y [E1 E2]]. apply Nat.eqb_eq in E2. subst y. apply (NoDup_app_disj _ _ _ ND E1). apply in_concat. exists (nth t r []). split; [|apply nth_In; exact Hp].
    apply nth_In. destruct (Nat.lt_ge_cases t (length r)); [assumption|]. rewrite nth_overflow in Hp by assumption. cbn in Hp. lia.
Qed.

Lemma icl_lt nmaps i j : (i <= j < nmaps)%nat -> (icl nmaps i j < (nmaps * (nmaps + 1)) / 2)%nat.
Proof.
  intros H. unfold icl. assert (G : forall n, (n <= nmaps)%nat -> (2 * list_sum (map (fun a => nmaps - a) (seq 0 n)) = n * (2 * nmaps + 1 - n))%nat).
  { induction n as [|n IH]; intro Hn; [reflexivity|]. rewrite seq_S, map_app, list_sum_app. cbn [map list_sum fold_right Nat.add]. rewrite Nat.mul_add_distr_l, IH by lia. nia. }
  pose proof (G i ltac:(lia)) as E. set (L := list_sum _) in *. change (S (L + (j - i)) <= nmaps * (nmaps + 1) / 2)%nat. apply Nat.div_le_lower_bound; [lia|]. assert (Q : exists d, nmaps = (i + d)%nat) by (exists (nmaps - i)%nat; lia). destruct Q as [d Q]. subst nmaps. replace (2 * (i + d) + 1 - i)%nat with (i + 2 * d + 1)%nat in E by lia. nia.
Qed.

Section LSyn.
Context {F : ofield}.
Local Open Scope F_scope.
Notation mat := (list (list F)).
Notation cplx := (cplx F).
Notation fsinfo := (fsinfo F).
Notation store1 := (@store1 F).

(** ** Stores *)
Definition quiet (ws : list store1) (l : nat * nat) : Prop := forall w, In w ws -> loc_eqb (fst w) l = false.
Lemma loc_eqb_eq a b : loc_eqb a b = true <-> a = b.
Proof. unfold loc_eqb. rewrite Bool.andb_true_iff, !Nat.eqb_eq. destruct a, b. cbn. split; [intros [-> ->]; reflexivity | intro E; injection E; auto]. Qed.
Lemma lookup_fold (ws : list store1) l : forall o, fold_left (fun acc w => if loc_eqb (fst w) l then Some (snd w) else acc) ws o = match lookup ws l with Some v => Some v | None => o end.
Proof.
  unfold lookup. induction ws as [|w t IH]; intro o; [reflexivity|]. cbn [fold_left]. rewrite IH. rewrite (IH (if loc_eqb (fst w) l then Some (snd w) else None)). destruct (loc_eqb (fst w) l); match goal with |- context [fold_left ?f t None] => destruct (fold_left f t None) end; reflexivity.
Qed.
Lemma lookup_app (u v : list store1) l : lookup (u ++ v) l = match lookup v l with Some x => Some x | None => lookup u l end.
Proof. unfold lookup at 1. rewrite fold_left_app. rewrite lookup_fold. reflexivity. Qed.
Lemma lookup_cons (w : store1) t l : lookup (w :: t) l = match lookup t l with Some x => Some x | None => if loc_eqb (fst w) l then Some (snd w) else None end.
Proof. change (w :: t) with ([w] ++ t). rewrite lookup_app. reflexivity. Qed.
Lemma lookup_quiet (ws : list store1) l : quiet ws l -> lookup ws l = None.
Proof. induction ws as [|w t IH]; intro H; [reflexivity|]. rewrite lookup_cons, IH by (intros x Hx; apply H; cbn; auto). rewrite H by (cbn; auto). reflexivity. Qed.
Lemma lookup_filter (ws : list store1) l : lookup (filter (fun w => loc_eqb (fst w) l) ws) l = lookup ws l.
Proof.
  induction ws as [|w t IH]; [reflexivity|]. cbn [filter]. rewrite lookup_cons. destruct (loc_eqb (fst w) l) eqn:E; [rewrite lookup_cons, IH, E; reflexivity | rewrite IH; destruct (lookup t l); reflexivity].
Qed.
Lemma lookup_concat (ls : list (list store1)) l p : (forall j, j <> p -> quiet (nth j ls []) l) -> lookup (concat ls) l = lookup (nth p ls []) l.
Proof.
  revert p. induction ls as [|w t IH]; intros p H; [destruct p; reflexivity|]. cbn [concat]. rewrite lookup_app. destruct p as [|p]; cbn [nth].
  - rewrite (lookup_quiet (concat t)); [reflexivity|]. intros x Hx. apply in_concat in Hx. destruct Hx as [u [Hu Hx]]. apply (In_nth _ _ []) in Hu. destruct Hu as [j [Hj E]]. apply (H (S j) ltac:(lia)). cbn [nth]. rewrite E. exact Hx.
  - rewrite (IH p). + rewrite (lookup_quiet w) by exact (H 0%nat ltac:(lia)). destruct (lookup (nth p t []) l); reflexivity. + intros j Hj. exact (H (S j) ltac:(lia)).
Qed.
Lemma quiet_concat (ls : list (list store1)) l : (forall j, (j < length ls)%nat -> quiet (nth j ls []) l) -> quiet (concat ls) l.
Proof. intros H x Hx. apply in_concat in Hx. destruct Hx as [u [Hu Hx]]. apply (In_nth _ _ []) in Hu. destruct Hu as [j [Hj E]]. apply (H j Hj). rewrite E. exact Hx. Qed.
(** only the stores of thread t matter if no other thread stores there *)
Lemma lookup_sched (ts : list (list store1)) ss l t : sched ts ss -> (forall j, j <> t -> quiet (nth j ts []) l) -> lookup (map snd ss) l = lookup (nth t ts []) l.
Proof.
  intros S Q. rewrite <- (lookup_filter (map snd ss)), <- (lookup_filter (nth t ts [])). f_equal. rewrite <- (sched_proj ts ss S t).
  assert (G : forall o, In o ss -> loc_eqb (fst (snd o)) l = true -> fst o = t). { intros [j w] Ho E. cbn [fst snd] in *. destruct (Nat.eq_dec j t) as [->|N]; [reflexivity|]. pose proof (sched_tag ts ss S j w Ho) as I. rewrite (Q j N w I) in E. discriminate. }
  clear S Q. induction ss as [|[j w] r IH]; [reflexivity|]. assert (Gr : forall o, In o r -> loc_eqb (fst (snd o)) l = true -> fst o = t) by (intros; apply G; cbn; auto). specialize (IH Gr). cbn [map filter snd fst]. destruct (loc_eqb (fst w) l) eqn:E.
  - pose proof (G (j, w) (or_introl eq_refl) E) as Et. cbn [fst] in Et. subst j. rewrite Nat.eqb_refl. cbn [map filter snd]. rewrite E, IH. reflexivity.
  - destruct (Nat.eqb j t); cbn [map filter snd]; rewrite ?E; exact IH.
Qed.

Section S.
(** the row whose thread stores position (ix,iy) *)
Definition owner (s : fsinfo) (ix iy : nat) : nat := if (Nat.eqb ix 0 && (fs_ny s / 2 <? iy)%nat)%bool then (fs_ny s - iy)%nat else iy.
Lemma owner_lt (s : fsinfo) ix iy : (iy < fs_ny s)%nat -> (owner s ix iy < fs_ny s)%nat.
Proof. intro H. unfold owner. destruct (_ && (fs_ny s / 2 <? iy)%nat)%bool eqn:E; [|exact H]. apply Bool.andb_true_iff in E. destruct E as [_ E]. apply Nat.ltb_lt in E. lia. Qed.
Lemma nhalf_pos (s : fsinfo) : (0 < nhalf s)%nat. Proof. unfold nhalf. lia. Qed.
Lemma half_ny n : (2 * (n / 2) <= n < 2 * (n / 2) + 2)%nat.
Proof. pose proof (Nat.div_mod n 2 ltac:(lia)). pose proof (Nat.mod_upper_bound n 2 ltac:(lia)). lia. Qed.
Lemma pos_div (s : fsinfo) ix iy : (ix < nhalf s)%nat -> ((ix + nhalf s * iy) / nhalf s = iy /\ (ix + nhalf s * iy) mod nhalf s = ix)%nat.
Proof. intro H. rewrite (Nat.mul_comm (nhalf s) iy), Nat.div_add, Nat.mod_add by lia. rewrite Nat.div_small, Nat.mod_small by lia. lia. Qed.
Section S1.
Variable sqrt2 : F.
Lemma mode_stores_loc (s : fsinfo) a ix iy w : In w (mode_stores sqrt2 s a ix iy) -> (ix < nhalf s)%nat -> (iy < fs_ny s)%nat ->
  (fst (fst w) < length a)%nat /\ (snd (fst w) < fs_ny s * nhalf s)%nat /\ (snd (fst w) mod nhalf s = ix)%nat /\ owner s ix (snd (fst w) / nhalf s) = iy.
Proof.
  intros H Hx Hy. unfold mode_stores in H. apply in_concat in H. destruct H as [u [Hu Hw]]. apply in_map_iff in Hu. destruct Hu as [i [Eu Hi]]. apply in_seq in Hi. subst u. pose proof (half_ny (fs_ny s)) as HN.
  assert (Main : forall y, (y < fs_ny s)%nat -> owner s ix y = iy -> fst w = (i, (ix + nhalf s * y)%nat) -> (fst (fst w) < length a)%nat /\ (snd (fst w) < fs_ny s * nhalf s)%nat /\ (snd (fst w) mod nhalf s = ix)%nat /\ owner s ix (snd (fst w) / nhalf s) = iy).
  { intros y Hy' Ho E. rewrite E. cbn [fst snd]. destruct (pos_div s ix y Hx) as [E1 E2]. rewrite E1, E2. split; [lia|]. split; [nia|]. split; [reflexivity | exact Ho]. }
  cbv zeta in Hw. destruct (Nat.eqb_spec ix 0) as [E0|E0].
  - destruct (Nat.ltb_spec (fs_ny s / 2) iy) as [L|L]; [destruct Hw|]. assert (Oi : owner s ix iy = iy). { unfold owner. rewrite (proj2 (Nat.ltb_ge _ _) L), Bool.andb_false_r. reflexivity. }
    destruct (Nat.eqb_spec iy 0) as [E1|E1]; [destruct Hw as [<-|[]]; apply (Main iy Hy Oi); reflexivity|]. destruct Hw as [<-|[<-|[]]]; [apply (Main iy Hy Oi); reflexivity|]. apply (Main (fs_ny s - iy)%nat); [lia | | reflexivity].
    unfold owner. rewrite (proj2 (Nat.eqb_eq _ _) E0). cbn [andb]. destruct (Nat.ltb_spec (fs_ny s / 2) (fs_ny s - iy)); lia.
  - destruct Hw as [<-|[]]. apply (Main iy Hy); [|reflexivity]. unfold owner. rewrite (proj2 (Nat.eqb_neq _ _) E0). reflexivity.
Qed.
(** value stored at (ix,iy), from the coefficients [v] of the mode that owns it *)
Definition stored (s : fsinfo) (ix iy : nat) (v : cplx) : cplx :=
  if negb (Nat.eqb ix 0) then v else if Nat.eqb iy 0 then (sqrt2 * fst v, 0) else if (2 * iy <? fs_ny s)%nat then v else conjc v.
Lemma mode_stores_value (s : fsinfo) a ix iy i : (ix < nhalf s)%nat -> (iy < fs_ny s)%nat -> (i < length a)%nat ->
  lookup (mode_stores sqrt2 s a ix (owner s ix iy)) (i, (ix + nhalf s * iy)%nat) = Some (stored s ix iy (nth i a c0)).
Proof.
  intros Hx Hy Hi. unfold mode_stores. cbv zeta. set (g := fun i0 : nat => _). rewrite (lookup_concat _ _ i).
  2:{ intros j Hj w Hw. destruct (Nat.lt_ge_cases j (length a)) as [L|L]; [|rewrite nth_overflow in Hw by (rewrite map_length, seq_length; exact L); destruct Hw].
      rewrite (nth_indep _ [] (g 0%nat)) in Hw by (rewrite map_length, seq_length; exact L). rewrite (map_nth g), seq_nth in Hw by exact L. cbn [Nat.add] in Hw. assert (E : fst (fst w) = j).
      { unfold g in Hw. destruct (Nat.eqb ix 0); [destruct (_ <? _)%nat; [destruct Hw|]; destruct (Nat.eqb _ 0); [destruct Hw as [<-|[]]; reflexivity | destruct Hw as [<-|[<-|[]]]; reflexivity] | destruct Hw as [<-|[]]; reflexivity]. }
      unfold loc_eqb. rewrite E. cbn [fst]. rewrite (proj2 (Nat.eqb_neq j i) Hj). reflexivity. }
  rewrite (nth_indep _ [] (g 0%nat)) by (rewrite map_length, seq_length; exact Hi). rewrite (map_nth g), seq_nth by exact Hi. cbn [Nat.add]. unfold g, owner, stored. pose proof (half_ny (fs_ny s)) as HN. set (v := nth i a c0).
  assert (LE : forall y, loc_eqb (i, (ix + nhalf s * y)%nat) (i, (ix + nhalf s * iy)%nat) = Nat.eqb y iy).
  { intro y. unfold loc_eqb. cbn [fst snd]. rewrite Nat.eqb_refl. cbn [andb]. destruct (Nat.eqb_spec y iy) as [->|N]; [apply Nat.eqb_refl|]. apply Nat.eqb_neq. pose proof (nhalf_pos s). nia. }
  destruct (Nat.eqb_spec ix 0) as [E0|E0]; cbn [andb negb]; [|rewrite lookup_cons; cbn [lookup fold_left fst snd]; rewrite LE, Nat.eqb_refl; reflexivity].
  destruct (Nat.ltb_spec (fs_ny s / 2) iy) as [L|L].
  - rewrite (proj2 (Nat.ltb_ge (fs_ny s / 2) (fs_ny s - iy))) by lia. rewrite (proj2 (Nat.eqb_neq (fs_ny s - iy) 0)) by lia. rewrite (proj2 (Nat.eqb_neq iy 0)) by lia. rewrite (proj2 (Nat.ltb_ge (2 * iy) (fs_ny s))) by lia.
    rewrite !lookup_cons. cbn [lookup fold_left fst snd]. rewrite !LE. replace (fs_ny s - (fs_ny s - iy))%nat with iy by lia. rewrite Nat.eqb_refl. reflexivity.
  - rewrite (proj2 (Nat.ltb_ge _ _) L). destruct (Nat.eqb_spec iy 0) as [E1|E1]; [rewrite lookup_cons; cbn [lookup fold_left fst snd]; rewrite LE, Nat.eqb_refl; reflexivity|].
    rewrite !lookup_cons. cbn [lookup fold_left fst snd]. rewrite !LE, Nat.eqb_refl. destruct (Nat.ltb_spec (2 * iy) (fs_ny s)) as [Q|Q]; [rewrite (proj2 (Nat.eqb_neq (fs_ny s - iy) iy)) by lia; reflexivity|]. rewrite (proj2 (Nat.eqb_eq (fs_ny s - iy) iy)) by lia. reflexivity.
Qed.
End S1.
Variables (pi : F) (fsqrt : F -> F) (sqrt2 : F) (gauss : Z -> nat -> F * F) (root : mat -> mat).
(** ** The result *)
(** seed of the thread that works on row iy, and the place of the row among those of the thread *)
Definition seed_of (seed : Z) (parts : list (list nat)) (arrival : list nat) (iy : nat) : Z := ((seed + Z.of_nat (nth (part_of iy parts) arrival 0%nat)) mod 2 ^ 32)%Z.
Definition place_of (parts : list (list nat)) (iy : nat) : nat := index_of iy (nth (part_of iy parts) parts []).

Definition fits (s : fsinfo) nmaps (cells beams : list (F -> F)) : Prop := length cells = ((nmaps * (nmaps + 1)) / 2)%nat /\ length beams = nmaps.
Definition zero_fun : F -> F := fun _ => 0.
Definition clmat_of (s : fsinfo) nmaps (cells : list (F -> F)) (k : F) : mat := tab nmaps (fun i => tab nmaps (fun j => 1 / fofZ 2 * inv_dkvol pi s * nth (icl nmaps (Nat.min i j) (Nat.max i j)) cells zero_fun k)).
Lemma clmat_ok (s : fsinfo) nmaps cells beams k : fits s nmaps cells beams -> clmat pi s nmaps cells k = Ok (clmat_of s nmaps cells k).
Proof.
  intros [H1 _]. unfold clmat, clmat_of. apply tabM_ok. intros i Hi. apply tabM_ok. intros j Hj. rewrite (rd_nat _ _ zero_fun). 1: reflexivity. rewrite H1. apply icl_lt. split; [lia|]. apply Nat.max_lub_lt; assumption.
Qed.
Definition alm_at (s : fsinfo) nmaps cells beams (draws : nat -> F * F) ix iy i : cplx :=
  let k := kmodf pi fsqrt s ix iy in let r := root (clmat_of s nmaps cells k) in
  (nth i beams zero_fun k * dot (nth i r []) (tab nmaps (fun j => fst (draws j))), nth i beams zero_fun k * dot (nth i r []) (tab nmaps (fun j => snd (draws j)))).
Lemma mode_alm_ok (s : fsinfo) nmaps cells beams draws ix iy : fits s nmaps cells beams -> mode_alm pi fsqrt root s nmaps cells beams draws ix iy = Ok (tab nmaps (alm_at s nmaps cells beams draws ix iy)).
Proof.
  intros H. unfold mode_alm. cbv zeta. rewrite (clmat_ok _ _ _ _ _ H). cbn [bind]. apply tabM_ok. intros i Hi. destruct H as [_ H2]. rewrite (rd_nat _ _ zero_fun) by lia. reflexivity.
Qed.
Lemma row_stores_ok (s : fsinfo) nmaps cells beams g p iy : fits s nmaps cells beams ->
  row_stores pi fsqrt sqrt2 root s nmaps cells beams g p iy = Ok (concat (tab (nhalf s) (fun ix => mode_stores sqrt2 s (tab nmaps (alm_at s nmaps cells beams (fun i => g ((p * nhalf s + ix) * nmaps + i)%nat) ix iy)) ix iy))).
Proof. intro H. unfold row_stores. rewrite (tabM_ok _ _ (fun ix => mode_stores sqrt2 s (tab nmaps (alm_at s nmaps cells beams (fun i => g ((p * nhalf s + ix) * nmaps + i)%nat) ix iy)) ix iy)); [reflexivity|]. intros ix Hx. rewrite mode_alm_ok by exact H. reflexivity. Qed.
Definition row_list (s : fsinfo) nmaps cells beams sd p iy : list store1 := concat (tab (nhalf s) (fun ix => mode_stores sqrt2 s (tab nmaps (alm_at s nmaps cells beams (fun i => gauss sd ((p * nhalf s + ix) * nmaps + i)%nat) ix iy)) ix iy)).
Lemma thread_stores_ok (s : fsinfo) nmaps cells beams seed t rows : fits s nmaps cells beams -> (seed + Z.of_nat t < 2 ^ 31)%Z ->
  thread_stores pi fsqrt sqrt2 gauss root s nmaps cells beams seed (t, rows) = Ok (concat (tab (length rows) (fun p => row_list s nmaps cells beams ((seed + Z.of_nat t) mod 2 ^ 32) p (nth p rows 0%nat)))).
Proof.
  intros H L. unfold thread_stores. cbv zeta. cbn [fst snd]. rewrite (proj2 (Z.leb_gt _ _) L). rewrite (tabM_ok _ _ (fun p => row_list s nmaps cells beams ((seed + Z.of_nat t) mod 2 ^ 32) p (nth p rows 0%nat))); [reflexivity|]. intros p Hp. apply row_stores_ok. exact H.
Qed.
Lemma row_list_loc (s : fsinfo) nmaps cells beams sd p iy w : (iy < fs_ny s)%nat -> In w (row_list s nmaps cells beams sd p iy) ->
  (fst (fst w) < nmaps)%nat /\ (snd (fst w) < fs_ny s * nhalf s)%nat /\ owner s (snd (fst w) mod nhalf s) (snd (fst w) / nhalf s) = iy.
Proof.
  intros Hy H. unfold row_list in H. apply in_concat in H. destruct H as [u [Hu Hw]]. apply (In_nth _ _ []) in Hu. destruct Hu as [ix [Hx E]]. rewrite length_tab in Hx. rewrite nth_tab in E by exact Hx. subst u.
  destruct (mode_stores_loc sqrt2 _ _ _ _ _ Hw Hx Hy) as [A [B [C D]]]. rewrite length_tab in A. rewrite C. auto.
Qed.
Lemma row_list_value (s : fsinfo) nmaps cells beams sd p ix iy i : (ix < nhalf s)%nat -> (iy < fs_ny s)%nat -> (i < nmaps)%nat ->
  lookup (row_list s nmaps cells beams sd p (owner s ix iy)) (i, (ix + nhalf s * iy)%nat) = Some (stored sqrt2 s ix iy (alm_at s nmaps cells beams (fun j => gauss sd ((p * nhalf s + ix) * nmaps + j)%nat) ix (owner s ix iy) i)).
Proof.
  intros Hx Hy Hi. unfold row_list. rewrite (lookup_concat _ _ ix).
  - rewrite nth_tab by exact Hx. rewrite mode_stores_value by (rewrite ?length_tab; assumption). rewrite nth_tab by exact Hi. reflexivity.
  - intros j Hj w Hw. destruct (Nat.lt_ge_cases j (nhalf s)) as [L|L]; [|rewrite nth_overflow in Hw by (rewrite length_tab; exact L); destruct Hw]. rewrite nth_tab in Hw by exact L.
    destruct (mode_stores_loc sqrt2 _ _ _ _ _ Hw L (owner_lt s ix iy Hy)) as [A [B [C D]]]. destruct (loc_eqb (fst w) (i, (ix + nhalf s * iy)%nat)) eqn:E; [|reflexivity]. apply loc_eqb_eq in E. rewrite E in C. cbn [snd] in C. rewrite (proj2 (pos_div s ix iy Hx)) in C. congruence.
Qed.
Definition final (s : fsinfo) nmaps cells beams seed parts arrival (i ix iy : nat) : cplx :=
  stored sqrt2 s ix iy (alm_at s nmaps cells beams (fun j => gauss (seed_of seed parts arrival (owner s ix iy)) ((place_of parts (owner s ix iy) * nhalf s + ix) * nmaps + j)%nat) ix (owner s ix iy) i).
Lemma synalm_value (s : fsinfo) nmaps cells beams seed parts arrival r : fits s nmaps cells beams -> Permutation (concat parts) (seq 0 (fs_ny s)) -> Permutation arrival (seq 0 (length parts)) ->
  (seed + Z.of_nat (length parts) <= 2 ^ 31)%Z ->
  synalm_with pi fsqrt sqrt2 gauss root s nmaps cells beams seed parts arrival r ->
  r = Ok (tab nmaps (fun i => tab (fs_ny s * nhalf s) (fun q => final s nmaps cells beams seed parts arrival i (q mod nhalf s) (q / nhalf s)))).
Proof.
  intros HF HP HA HS H. unfold synalm_with in H. assert (LA : length arrival = length parts) by (rewrite (Permutation_length HA), seq_length; reflexivity).
  assert (ND : NoDup (concat parts)) by (apply (Permutation_NoDup (Permutation_sym HP)); apply seq_NoDup).
  set (row := fun t p => row_list s nmaps cells beams ((seed + Z.of_nat (nth t arrival 0%nat)) mod 2 ^ 32) p (nth p (nth t parts []) 0%nat)).
  set (ts := tab (length parts) (fun t => concat (tab (length (nth t parts [])) (row t)))).
  assert (E : mapM (thread_stores pi fsqrt sqrt2 gauss root s nmaps cells beams seed) (combine arrival parts) = Ok ts).
  { rewrite (mapM_ok (thread_stores pi fsqrt sqrt2 gauss root s nmaps cells beams seed) (fun th => concat (tab (length (snd th)) (fun p => row_list s nmaps cells beams ((seed + Z.of_nat (fst th)) mod 2 ^ 32) p (nth p (snd th) 0%nat))))).
    - f_equal. unfold ts. apply (list_eq_nth _ _ []).
      + rewrite map_length, combine_length, length_tab. lia.
      + intros t Ht. rewrite map_length, combine_length in Ht. rewrite nth_tab by lia. set (g := fun th : nat * list nat => _). rewrite (nth_indep _ [] (g (0%nat, []))) by (rewrite map_length, combine_length; exact Ht). rewrite map_nth. rewrite combine_nth by exact LA. reflexivity.
    - intros [t rows] Hin. apply thread_stores_ok; [exact HF|]. apply in_combine_l in Hin. apply (Permutation_in _ HA) in Hin. apply in_seq in Hin. cbn [fst]. lia. }
  rewrite E in H. destruct H as [ss [HSc ->]].
  assert (RY : forall t p, (t < length parts)%nat -> (p < length (nth t parts []))%nat -> (nth p (nth t parts []) 0%nat < fs_ny s)%nat).
  { intros t p Ht Hp. assert (I : In (nth p (nth t parts []) 0%nat) (seq 0 (fs_ny s))). { apply (Permutation_in _ HP). apply in_concat. exists (nth t parts []). split; apply nth_In; assumption. } apply in_seq in I. lia. }
  assert (LOC : forall t w, In w (nth t ts []) -> (t < length parts)%nat /\ exists p, (p < length (nth t parts []))%nat /\ In w (row t p)).
  { intros t w Hw. destruct (Nat.lt_ge_cases t (length parts)) as [L|L]; [|rewrite nth_overflow in Hw by (unfold ts; rewrite length_tab; exact L); destruct Hw]. split; [exact L|]. unfold ts in Hw. rewrite nth_tab in Hw by exact L. apply in_concat in Hw. destruct Hw as [u [Hu Hw]].
    apply (In_nth _ _ []) in Hu. destruct Hu as [p [Hp Eu]]. rewrite length_tab in Hp. rewrite nth_tab in Eu by exact Hp. subst u. exists p. split; assumption. }
  unfold arrays. replace (forallb _ (map snd ss)) with true.
  2:{ symmetry. apply forallb_forall. intros w Hw. apply in_map_iff in Hw. destruct Hw as [[t w'] [Ew Hw]]. cbn [snd] in Ew. subst w'. apply (sched_tag _ _ HSc) in Hw. destruct (LOC t w Hw) as [Ht [p [Hp Hr]]]. unfold row in Hr.
      destruct (row_list_loc _ _ _ _ _ _ _ _ (RY t p Ht Hp) Hr) as [A [B C]]. unfold in_range. rewrite (proj2 (Nat.ltb_lt _ _) A), (proj2 (Nat.ltb_lt _ _) B). reflexivity. }
  apply tabM_ok. intros i Hi. apply tabM_ok. intros q Hq. pose proof (nhalf_pos s) as Hn. assert (Hx : (q mod nhalf s < nhalf s)%nat) by (apply Nat.mod_upper_bound; lia). assert (Hy : (q / nhalf s < fs_ny s)%nat) by (apply Nat.div_lt_upper_bound; lia).
  set (ix := (q mod nhalf s)%nat) in *. set (iy := (q / nhalf s)%nat) in *. assert (Eq : q = (ix + nhalf s * iy)%nat) by (unfold ix, iy; pose proof (Nat.div_mod q (nhalf s) ltac:(lia)); lia).
  set (o := owner s ix iy). assert (Ho : (o < fs_ny s)%nat) by (apply owner_lt; exact Hy). assert (Io : In o (concat parts)) by (apply (Permutation_in _ (Permutation_sym HP)); apply in_seq; lia).
  destruct (part_of_in o parts Io) as [Ht Hin]. destruct (index_of_in o _ Hin) as [Hp Ep]. fold (place_of parts o) in Hp, Ep. set (t := part_of o parts) in *. set (p := place_of parts o) in *.
  assert (ONE : forall t' p' w, (t' < length parts)%nat -> (p' < length (nth t' parts []))%nat -> In w (row t' p') -> loc_eqb (fst w) (i, q) = true -> t' = t /\ p' = p).
  { intros t' p' w Ht' Hp' Hw El. apply loc_eqb_eq in El. destruct (row_list_loc _ _ _ _ _ _ _ _ (RY t' p' Ht' Hp') Hw) as [_ [_ C]]. rewrite El in C. cbn [snd] in C. fold ix iy in C. fold o in C. destruct (place_unique parts t' p' ND Hp') as [U1 U2]. rewrite <- C in U1, U2. fold t in U1. subst t'. split; [reflexivity|]. exact U2. }
  rewrite (lookup_sched ts ss (i, q) t HSc).
  2:{ intros t' Nt w Hw. destruct (loc_eqb (fst w) (i, q)) eqn:El; [|reflexivity]. destruct (LOC t' w Hw) as [Ht' [p' [Hp' Hr]]]. destruct (ONE t' p' w Ht' Hp' Hr El). contradiction. }
  unfold ts. rewrite nth_tab by exact Ht. rewrite (lookup_concat _ _ p).
  2:{ intros p' Np w Hw. destruct (Nat.lt_ge_cases p' (length (nth t parts []))) as [L|L]; [|rewrite nth_overflow in Hw by (rewrite length_tab; exact L); destruct Hw]. rewrite nth_tab in Hw by exact L. destruct (loc_eqb (fst w) (i, q)) eqn:El; [|reflexivity]. destruct (ONE t p' w Ht L Hw El). contradiction. }
  rewrite nth_tab by exact Hp. unfold row. rewrite Ep. unfold o. rewrite Eq at 1. rewrite row_list_value by assumption. reflexivity.
Qed.
Lemma synalm_exists (s : fsinfo) nmaps cells beams seed parts arrival : exists r, synalm_with pi fsqrt sqrt2 gauss root s nmaps cells beams seed parts arrival r.
Proof. unfold synalm_with. destruct (mapM _ _) as [ts|e|]; [|eauto|eauto]. destruct (sched_exists ts) as [ss H]. eauto. Qed.
End S.
End LSyn.
