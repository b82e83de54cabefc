(** Lemmas: sums of roots of unity, maps with a single Fourier mode, and the leakage with pixels that are not square. *)
From Verif Require Import Base M_Utils M_Bins M_FlatBins M_LinAlg M_Workspace M_Flat M_WspFlat M_Syn M_FieldFlat P_FlatBins L_LinAlg L_Flat L_Flat2 L_Flat3 L_FITS L_MCM L_WspFlat L_WspFlat2 L_FlatMean L_Conv L_Pure L_Pure2.
From Coq Require Import Permutation.
Open Scope nat_scope.

Lemma fq0 n : freq n 0 = 0%Z.
Proof. reflexivity. Qed.
Lemma fq1 n : 3 <= n -> freq n 1 = 1%Z.
Proof. intro H. unfold freq. destruct (Nat.leb_spec (2 * 1) n); lia. Qed.
Lemma fqm n : 3 <= n -> freq n (n - 1) = (-1)%Z.
Proof. intro H. unfold freq. destruct (Nat.leb_spec (2 * (n - 1)) n); lia. Qed.
Section LPure3.
Context {F : ofield}.
Local Open Scope F_scope.
Add Field FfLPu3 : (fth F).
Notation mat := (list (list F)).
Notation cplx := (cplx F).
Notation fsinfo := (fsinfo F).

Definition pair_dec (a b : nat * nat) : {a = b} + {a <> b}.
Proof. decide equality; apply Nat.eq_dec. Defined.
Lemma cmul_0 (x y : cplx) : cmul x y = c0 -> x = c0 \/ y = c0.
Proof.
  unfold c0. intro E. assert (E1 := f_equal fst E). assert (E2 := f_equal snd E). cbn [fst snd cmul] in E1, E2.
  assert (Z : (fst x * fst x + snd x * snd x) * (fst y * fst y + snd y * snd y) = 0).
  { transitivity ((fst x * fst y - snd x * snd y) * (fst x * fst y - snd x * snd y) + (fst x * snd y + snd x * fst y) * (fst x * snd y + snd x * fst y)); [ring | rewrite E1, E2; ring]. }
  apply fmul_eq_0 in Z. destruct Z as [Z|Z]; [left|right]; destruct (sq_sum_0 _ _ ltac:(rewrite Z; apply fle_refl)) as [A B]; apply cplx_eq; assumption.
Qed.
(** ** Sums of roots of unity *)
Lemma roots_sum (ph : nat -> nat -> cplx) n d : (d < n)%nat -> ph n 0%nat = (1, 0) ->
  (forall j, (j < n)%nat -> ph n (opp_row n j) = conjc (ph n j)) -> (forall i j, (i < n)%nat -> (j < n)%nat -> ph n (diff n i j) = cmul (ph n i) (conjc (ph n j))) ->
  (forall j, (0 < j < n)%nat -> ph n j <> (1, 0)) -> csum n (fun j => ph n ((j * d) mod n)) = if Nat.eqb d 0 then (fofnat n, 0) else c0.
Proof.
  intros Hd H0 HC HH HN. destruct (Nat.eqb_spec d 0) as [->|ND].
  - rewrite (csum_ext n _ (fun _ => (1, 0))) by (intros j _; rewrite Nat.mul_0_r, Nat.mod_0_l by lia; exact H0). unfold csum. cbn [fst snd]. f_equal; [|apply sum_zero; reflexivity]. clear. induction n as [|n IH]; [reflexivity|]. cbn [sum]. rewrite IH. cbn [fofnat]. ring.
  - set (g := fun j => ph n ((j * d) mod n)). set (w := ph n d). assert (U : fst w * fst w + snd w * snd w = 1).
    { pose proof (HH d d Hd Hd) as E. replace (diff n d d) with 0%nat in E by (unfold diff; rewrite Nat.leb_refl; lia). rewrite H0 in E. fold w in E. apply (f_equal fst) in E. cbn [cmul conjc fst snd] in E. rewrite E. ring. }
    assert (Hn : (1 < n)%nat) by lia. assert (E1 : g 1%nat = w) by (unfold g, w; rewrite Nat.mul_1_l, Nat.mod_small by lia; reflexivity).
    assert (G : forall j, (j < n)%nat -> g (S j) = cmul w (g j)).
    { intros j Hj. destruct (Nat.eq_dec (S j) n) as [E|N].
      - assert (A : g j = conjc w). { unfold g, w. replace j with (opp_row n 1) by (unfold opp_row; rewrite Nat.mod_small by lia; lia). rewrite mod_opp_mul by lia. rewrite Nat.mul_1_l, (Nat.mod_small d) by lia. apply HC. exact Hd. }
        rewrite A. unfold g. rewrite E, Nat.mul_comm, Nat.mod_mul by lia. rewrite H0. apply cplx_eq; cbn [cmul conjc fst snd]; [rewrite <- U; ring | ring].
      - assert (A : g j = cmul (g (S j)) (conjc w)). { rewrite <- E1. unfold g. assert (DJ : j = diff n (S j) 1) by (unfold diff; destruct (Nat.leb_spec 1 (S j)); lia). rewrite DJ at 1. rewrite diff_mul by lia. apply HH; apply Nat.mod_upper_bound; lia. }
        rewrite A. apply cplx_eq; cbn [cmul conjc fst snd].
        + transitivity ((fst w * fst w + snd w * snd w) * fst (g (S j))); [rewrite U; ring | ring].
        + transitivity ((fst w * fst w + snd w * snd w) * snd (g (S j))); [rewrite U; ring | ring]. }
    assert (P : g n = g 0%nat) by (unfold g; rewrite Nat.mul_0_l, Nat.mul_comm, Nat.mod_mul, Nat.mod_0_l by lia; reflexivity).
    assert (SH : csum n (fun j => g (S j)) = csum n g).
    { unfold csum. assert (X : forall h : nat -> F, h n = h 0%nat -> sum n (fun j => h (S j)) = sum n h). { intros h E. pose proof (sum_S_l n h) as A. cbn [sum] in A. rewrite E in A. transitivity (h 0%nat + sum n (fun j => h (S j)) - h 0%nat); [ring | rewrite <- A; ring]. }
      rewrite (X (fun j => fst (g j))), (X (fun j => snd (g j))) by (rewrite P; reflexivity). reflexivity. }
    rewrite (csum_ext n _ _ G) in SH. fold (csum n g). set (S := csum n g) in *. assert (M : csum n (fun j => cmul w (g j)) = cmul w S).
    { unfold S, csum, cmul. cbn [fst snd]. rewrite <- !sum_mul_l, <- sum_sub, <- sum_add. reflexivity. }
    rewrite M in SH. assert (Z : cmul (csub w (1, 0)) S = c0). { transitivity (csub (cmul w S) S); [apply cplx_eq; cbn; ring | rewrite SH; unfold c0; apply cplx_eq; cbn; ring]. }
    apply cmul_0 in Z. destruct Z as [Z|Z]; [|exact Z]. exfalso. apply (HN d); [lia|]. fold w. unfold c0 in Z. assert (A := f_equal fst Z). assert (B := f_equal snd Z). cbn [csub fst snd] in A, B. apply cplx_eq; cbn [fst snd]; [apply fsub_0_eq; exact A | transitivity (snd w - 0); [ring | exact B]].
Qed.
(** ** Maps with one Fourier mode *)
Section P.
Variables (pi : F) (fsqrt : F -> F) (ph : nat -> nat -> cplx) (s : fsinfo).
Notation coeff := (coeff pi ph s).
Hypothesis (Hpi : pi <> 0) (Hx : fs_lx s <> 0) (Hy : fs_ly s <> 0) (HR : conj_roots ph s) (HH : hom_roots ph s) (HF : full_roots ph s) (Hnx : (0 < fs_nx s)%nat) (Hny : (0 < fs_ny s)%nat).
Hypothesis H1 : ph (fs_nx s) 0%nat = (1, 0) /\ ph (fs_ny s) 0%nat = (1, 0).
Lemma wave_0 p : wave ph s (0, 0)%nat p = (1, 0).
Proof. unfold wave. cbn [fst snd]. rewrite !Nat.mul_0_l, !Nat.mod_0_l by lia. destruct H1 as [-> ->]. apply cplx_eq; cbn; ring. Qed.
Lemma orthogonal l m : In l (grid s) -> In m (grid s) -> clsum (grid s) (fun p => cmul (wave ph s l p) (conjc (wave ph s m p))) = if pair_dec l m then (fofnat (fs_nx s) * fofnat (fs_ny s), 0) else c0.
Proof.
  intros Hl Hm. rewrite (clsum_ext _ _ (fun p => wave ph s p (diff_mode s l m))) by (intros p Hp; rewrite (wave_sym ph s p), (wdiff pi ph s l m p HH Hl Hm); reflexivity).
  rewrite (sum_wave ph s (diff_mode s l m) HF) by (apply in_diff; assumption). apply in_grid in Hl, Hm. unfold diff_mode. cbn [fst snd]. destruct l as [lx ly], m as [mx my]. cbn [fst snd] in *.
  pose proof (diff_0 (fs_nx s) lx mx ltac:(tauto) ltac:(tauto)) as A. pose proof (diff_0 (fs_ny s) ly my ltac:(tauto) ltac:(tauto)) as B.
  destruct (pair_dec (lx, ly) (mx, my)) as [E|E].
  - injection E as -> ->. rewrite (proj2 A eq_refl), (proj2 B eq_refl). reflexivity.
  - destruct (Nat.eqb_spec (diff (fs_nx s) lx mx) 0) as [X|X]; [|reflexivity]. destruct (Nat.eqb_spec (diff (fs_ny s) ly my) 0) as [Y|Y]; [|reflexivity]. exfalso. apply E. rewrite (proj1 A X), (proj1 B Y). reflexivity.
Qed.
Definition cos_map (a : F) (m : nat * nat) : list F := tab (npix_fs s) (fun i => a + fofZ 2 * fst (wave ph s m (i mod fs_nx s, i / fs_nx s)%nat)).
Lemma pix_cos a m p : In p (grid s) -> pix s (cos_map a m) p = a + fofZ 2 * fst (wave ph s m p).
Proof.
  intro Hp. apply in_grid in Hp. unfold pix, cos_map. rewrite nth_tab by (unfold npix_fs; nia). replace ((fst p + fs_nx s * snd p) mod fs_nx s)%nat with (fst p) by (rewrite Nat.mul_comm, Nat.mod_add, Nat.mod_small by lia; reflexivity).
  replace ((fst p + fs_nx s * snd p) / fs_nx s)%nat with (snd p) by (rewrite Nat.mul_comm, Nat.div_add, Nat.div_small by lia; reflexivity). rewrite <- surjective_pairing. reflexivity.
Qed.
Definition one_if (b : bool) : cplx := if b then (1, 0) else c0.
Lemma coeff_cos a m l : In m (grid s) -> In l (grid s) -> coeff (cos_map a m) l =
  cscal (area pi s) (cadd (cscal a (one_if (if pair_dec l (0, 0)%nat then true else false))) (cadd (one_if (if pair_dec l m then true else false)) (one_if (if pair_dec l (flip s m) then true else false)))).
Proof.
  intros Hm Hl. assert (G0 : In (0, 0)%nat (grid s)) by (apply in_grid; cbn; lia). pose proof (in_flip s Hnx Hny m Hm) as Hf. pose proof (n_neq0 _ Hnx : (fofnat (fs_nx s) : F) <> 0) as N1. pose proof (n_neq0 _ Hny : (fofnat (fs_ny s) : F) <> 0) as N2. pose proof (two_neq0 s Hnx Hny) as N3.
  rewrite coeff_sum. rewrite (clsum_ext _ _ (fun p => cscal (norm_m2a pi s) (cadd (cscal a (cmul (wave ph s l p) (conjc (wave ph s (0, 0)%nat p)))) (cadd (cmul (wave ph s l p) (conjc (wave ph s m p))) (cmul (wave ph s l p) (conjc (wave ph s (flip s m) p))))))).
  2:{ intros p Hp. rewrite pix_cos by exact Hp. rewrite wave_0, (wflip pi ph s m p HR Hm). change (fofZ 2 : F) with ((1 : F) + 1). apply cplx_eq; cbn [cscal cadd cmul conjc fst snd]; ring. }
  rewrite clsum_scal, !clsum_add, clsum_scal, !orthogonal by assumption. unfold one_if, norm_m2a, area. destruct (pair_dec l (0, 0)%nat), (pair_dec l m), (pair_dec l (flip s m)); unfold c0; apply cplx_eq; cbn [cscal cadd fst snd]; field; auto.
Qed.
(** the mask 2+2cos(2 pi y/ny) and the map Q=2cos(2 pi x/nx), U=0, which has only E modes *)
Definition wmask : list F := cos_map (fofZ 2) (0, 1)%nat.
Definition qmap : list F := cos_map 0 (1, 0)%nat.
Definition umap : list F := tab (npix_fs s) (fun _ => 0).
Hypothesis (Hnx3 : (3 <= fs_nx s)%nat) (Hny3 : (3 <= fs_ny s)%nat).
Lemma coeff_u m : coeff umap m = c0.
Proof. rewrite coeff_sum. apply clsum_zero. intros p Hp. replace (pix s umap p) with (0 : F) by (apply in_grid in Hp; unfold pix, umap; rewrite nth_tab by (unfold npix_fs; nia); reflexivity). unfold c0. apply cplx_eq; cbn; ring. Qed.
Lemma flip_01 : flip s (0, 1)%nat = (0, fs_ny s - 1)%nat.
Proof. unfold flip, opp_row. cbn [fst snd]. rewrite Nat.sub_0_r, Nat.mod_same, Nat.mod_small by lia. reflexivity. Qed.
Lemma flip_10 : flip s (1, 0)%nat = (fs_nx s - 1, 0)%nat.
Proof. unfold flip, opp_row. cbn [fst snd]. rewrite Nat.sub_0_r, Nat.mod_same, Nat.mod_small by lia. reflexivity. Qed.
Lemma coeff_mask m : In m (grid s) -> coeff wmask m = cscal (area pi s) (if pair_dec m (0, 0)%nat then (fofZ 2, 0) else if pair_dec m (0, 1)%nat then (1, 0) else if pair_dec m (0, fs_ny s - 1)%nat then (1, 0) else c0).
Proof.
  intro Hm. unfold wmask. rewrite coeff_cos by (try assumption; apply in_grid; cbn; lia). rewrite flip_01. f_equal. unfold one_if.
  destruct (pair_dec m (0, 0)%nat) as [->|N0]; destruct (pair_dec _ (0, 1)%nat) as [E1|N1]; destruct (pair_dec _ (0, fs_ny s - 1)%nat) as [E2|N2]; try (exfalso; congruence); try (injection E1; intros; lia); try (injection E2; intros; lia); try (exfalso; rewrite E1 in E2; injection E2; intros; lia); unfold c0; apply cplx_eq; cbn [cscal cadd fst snd]; ring.
Qed.
Lemma coeff_q m : In m (grid s) -> coeff qmap m = cscal (area pi s) (if pair_dec m (1, 0)%nat then (1, 0) else if pair_dec m (fs_nx s - 1, 0)%nat then (1, 0) else c0).
Proof.
  intro Hm. unfold qmap. rewrite coeff_cos by (try assumption; apply in_grid; cbn; lia). rewrite flip_10. f_equal. unfold one_if.
  destruct (pair_dec m (0, 0)%nat) as [->|N0]; destruct (pair_dec _ (1, 0)%nat) as [E1|N1]; destruct (pair_dec _ (fs_nx s - 1, 0)%nat) as [E2|N2]; try (exfalso; congruence); try (exfalso; rewrite E1 in E2; injection E2; intros; lia); try (exfalso; injection E1; intros; lia); try (exfalso; injection E2; intros; lia); unfold c0; apply cplx_eq; cbn [cscal cadd fst snd]; ring.
Qed.
Lemma mask_limited : band_limited pi ph s 0 1 wmask.
Proof.
  intros m Hm HB. rewrite coeff_mask by exact Hm. destruct (pair_dec m (0, 0)%nat) as [->|N0]; [exfalso; cbn [fst snd] in HB; rewrite ?fq0, ?fq1, ?fqm in HB by assumption; lia|].
  destruct (pair_dec m (0, 1)%nat) as [->|N1]; [exfalso; cbn [fst snd] in HB; rewrite ?fq0, ?fq1, ?fqm in HB by assumption; lia|].
  destruct (pair_dec m (0, fs_ny s - 1)%nat) as [->|N2]; [exfalso; cbn [fst snd] in HB; rewrite ?fq0, ?fq1, ?fqm in HB by assumption; lia|].
  unfold c0. apply cplx_eq; cbn; ring.
Qed.
Lemma q_limited : band_limited pi ph s 1 0 qmap.
Proof.
  intros m Hm HB. rewrite coeff_q by exact Hm.
  destruct (pair_dec m (1, 0)%nat) as [->|N1]; [exfalso; cbn [fst snd] in HB; rewrite ?fq0, ?fq1, ?fqm in HB by assumption; lia|].
  destruct (pair_dec m (fs_nx s - 1, 0)%nat) as [->|N2]; [exfalso; cbn [fst snd] in HB; rewrite ?fq0, ?fq1, ?fqm in HB by assumption; lia|].
  unfold c0. apply cplx_eq; cbn; ring.
Qed.
Lemma u_limited bx by_ : band_limited pi ph s bx by_ umap.
Proof. intros m _ _. apply coeff_u. Qed.
(** only one pair of modes of the mask and of the map meets at (1,1) *)
Lemma meet (f g : nat * nat -> F) : conv pi ph s wmask (fun q' => let p := diff_mode s (1, 1)%nat q' in cadd (cscal (f q') (coeff qmap p)) (cscal (g q') (coeff umap p))) = (area pi s * f (0, 1)%nat, 0).
Proof.
  assert (G1 : In (0, 1)%nat (grid s)) by (apply in_grid; cbn; lia). assert (G11 : In (1, 1)%nat (grid s)) by (apply in_grid; cbn; lia).
  assert (NA : area pi s <> 0). { pose proof (two_neq0 s Hnx Hny) as N3. unfold area; intro E; assert (X : fs_lx s * fs_ly s = 0) by (transitivity (fs_lx s * fs_ly s / (fofZ 2 * pi) * (fofZ 2 * pi)); [field; auto | rewrite E; ring]); apply fmul_eq_0 in X; tauto. }
  unfold conv, tot. cbv zeta. rewrite (clsum_point ph s (0, 1)%nat _ G1).
  - assert (D : diff_mode s (1, 1)%nat (0, 1)%nat = (1, 0)%nat) by reflexivity. rewrite D, coeff_u, coeff_mask, coeff_q by (try exact G1; apply in_grid; cbn; lia).
    destruct (pair_dec (0, 1)%nat (0, 0)%nat) as [E|_]; [discriminate|]. destruct (pair_dec (0, 1)%nat (0, 1)%nat) as [_|N]; [|congruence]. destruct (pair_dec (1, 0)%nat (1, 0)%nat) as [_|N]; [|congruence].
    unfold c0. apply cplx_eq; cbn [cscal cmul cadd fst snd]; field; exact NA.
  - intros q' Hq Nq. pose proof (in_diff s _ _ G11 Hq) as Hp. rewrite coeff_u, coeff_q by exact Hp. rewrite coeff_mask by exact Hq.
    assert (Z : forall x y : cplx, x = c0 \/ y = c0 -> cmul x y = c0) by (intros x y [-> | ->]; unfold c0; apply cplx_eq; cbn; ring).
    apply Z. clear Z. destruct (pair_dec q' (0, 1)%nat) as [|_]; [contradiction|].
    assert (Cs : cscal (area pi s) c0 = c0) by (unfold c0; apply cplx_eq; cbn; ring).
    destruct (pair_dec q' (0, 0)%nat) as [->|N0]; [right | destruct (pair_dec q' (0, fs_ny s - 1)%nat) as [->|N2]; [right | left; exact Cs]].
    + change (diff_mode s (1, 1)%nat (0, 0)%nat) with (1, 1)%nat. destruct (pair_dec (1, 1)%nat (1, 0)%nat) as [E|_]; [discriminate|]. destruct (pair_dec (1, 1)%nat (fs_nx s - 1, 0)%nat) as [E|_]; [congruence|]. unfold c0. apply cplx_eq; cbn; ring.
    + unfold diff_mode, diff. cbn [fst snd]. destruct (Nat.leb_spec (fs_ny s - 1) 1); [lia|]. replace (1 + fs_ny s - (fs_ny s - 1))%nat with 2%nat by lia. destruct (pair_dec _ (1, 0)%nat) as [E|_]; [injection E; intros; lia|]. destruct (pair_dec _ (fs_nx s - 1, 0)%nat) as [E|_]; [injection E; intros; lia|]. unfold c0. apply cplx_eq; cbn; ring.
Qed.
End P.
End LPure3.
