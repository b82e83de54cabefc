(** Lemmas about the files of flat-sky workspaces and of covariance workspaces. *)
From Verif Require Import Base M_Utils M_Bins M_FlatBins M_LinAlg M_Workspace M_Flat M_WspFlat M_Covar M_CovFlat M_FITS2 L_LinAlg L_WspFlat2.
Open Scope nat_scope.

Section Lem.
Context {F : ofield}.
Local Open Scope F_scope.
Notation mat := (list (list F)).
Notation fwmem := (fwmem F).

Lemma tab_self {A} (l : list A) d : tab (length l) (fun i => nth i l d) = l.
Proof. apply (list_eq_nth _ _ d); [apply length_tab|]. intros i Hi. rewrite length_tab in Hi. rewrite nth_tab by exact Hi. reflexivity. Qed.
Lemma tabM_rd {A} (l : list A) n : length l = n -> tabM n (fun i => rd l (Z.of_nat i)) = Ok l.
Proof.
  intros <-. destruct l as [|a l]; [reflexivity|]. rewrite (tabM_ok _ _ (fun i => nth i (a :: l) a)); [rewrite tab_self; reflexivity|]. intros i Hi. apply rd_nat. exact Hi.
Qed.
Lemma rows_out_ok n m (A : mat) : rect n m A -> rows_out n m A = Ok (concat A).
Proof.
  intros [L R]. unfold rows_out. rewrite (tabM_ok _ _ (fun i => nth i A [])); [cbn [bind]; rewrite <- L, tab_self; reflexivity|].
  intros i Hi. assert (Hr : length (nth i A []) = m) by (apply R, nth_In; lia). etransitivity; [|exact (tabM_rd _ _ Hr)]. unfold tabM. f_equal. unfold rd2. rewrite (rd_nat A i []) by lia. reflexivity.
Qed.
Lemma length_concat_rect n m (A : mat) : rect n m A -> length (concat A) = (n * m)%nat.
Proof.
  intros [L R]. revert n L. induction A as [|r A IH]; intros n L; [cbn in L; subst; reflexivity|]. cbn in L. subst n. cbn [concat]. rewrite app_length, (R r (or_introl eq_refl)), (IH (fun x H => R x (or_intror H)) _ eq_refl). cbn. reflexivity.
Qed.
Lemma skipn_concat n m (A : mat) : rect n m A -> forall i, (i <= n)%nat -> skipn (i * m) (concat A) = concat (skipn i A).
Proof.
  intros [L R] i Hi. revert n A L R Hi. induction i as [|i IH]; intros n A L R Hi; [reflexivity|]. destruct A as [|r A]; [cbn in L; lia|]. cbn [concat skipn]. replace (S i * m)%nat with (length r + i * m)%nat by (rewrite (R r (or_introl eq_refl)); reflexivity).
  rewrite skipn_app, skipn_all2, app_nil_l by lia. replace (length r + i * m - length r)%nat with (i * m)%nat by lia. apply (IH (length A)); [reflexivity | intros x H; apply R; right; exact H | cbn in L; lia].
Qed.
Lemma pixels_row n m (A : mat) i : rect n m A -> (i < n)%nat -> pixels (concat A) (i * m) m = Ok (nth i A []).
Proof.
  intros R Hi. unfold pixels. rewrite (length_concat_rect n m A R). assert (B : (i * m + m <= n * m)%nat) by nia. apply Nat.leb_le in B. rewrite B. f_equal. rewrite (skipn_concat n m A R i) by lia. destruct R as [L R].
  assert (S : skipn i A = nth i A [] :: skipn (S i) A). { revert i Hi B. rewrite <- L. clear. induction A as [|r A IH]; intros [|i] Hi B; cbn in Hi; try lia; [reflexivity|]. cbn [skipn nth]. apply IH; [lia|]. apply Nat.leb_le. nia. }
  rewrite S. cbn [concat]. assert (Hr : length (nth i A []) = m) by (apply R, nth_In; lia). rewrite <- Hr at 1. rewrite firstn_app, firstn_all, Nat.sub_diag, firstn_O, app_nil_r. reflexivity.
Qed.
Lemma pixels_rows n m (A : mat) : rect n m A -> tabM n (fun i => pixels (concat A) (i * m) m) = Ok A.
Proof.
  intro R. rewrite (tabM_ok _ _ (fun i => nth i A [])); [|intros i Hi; apply (pixels_row n m); assumption]. destruct R as [L R]. rewrite <- L, tab_self. reflexivity.
Qed.
Lemma pixels_all {A} (v : list A) n : length v = n -> pixels v 0 n = Ok v.
Proof. intros <-. unfold pixels. rewrite Nat.leb_refl. cbn [skipn plus]. rewrite firstn_all. reflexivity. Qed.
Lemma nth_concat n m (A : mat) i j d : rect n m A -> (i < n)%nat -> (j < m)%nat -> nth (i * m + j) (concat A) d = nth j (nth i A []) d.
Proof.
  intros R Hi Hj. pose proof (pixels_row n m A i R Hi) as P. unfold pixels in P. destruct (_ <=? _)%nat; [|discriminate]. injection P as P. rewrite <- P.
  transitivity (nth j (skipn (i * m) (concat A)) d).
  - rewrite <- (firstn_skipn (i * m) (concat A)) at 1. rewrite app_nth2; rewrite firstn_length, (length_concat_rect n m A R); [f_equal; nia | nia].
  - set (l := skipn _ _). rewrite <- (firstn_skipn m l) at 1. rewrite app_nth1; [reflexivity|]. rewrite firstn_length. unfold l. rewrite skipn_length, (length_concat_rect n m A R). nia.
Qed.
Lemma square_in_ok junk n (A : mat) t nm ks k cs ip : rect n n A -> square_in junk (U2 t nm ks k cs (n, n) (concat A) ip) = Ok A.
Proof.
  intro R. unfold square_in. cbn [u_axes u_pix]. rewrite (pixels_all _ _ (length_concat_rect n n A R)). cbn [bind]. rewrite Nat.ltb_irrefl. cbn [andb]. f_equal.
  etransitivity; [|exact (rect_tab_eq n n A R)]. apply tab_ext. intros i Hi. apply tab_ext. intros j Hj. rewrite (nth_concat n n A i j _ R Hi Hj). unfold entry2. apply nth_indep. rewrite (proj2 R); [exact Hj | apply nth_In; rewrite (proj1 R); exact Hi].
Qed.
End Lem.

(** what is needed to write a flat-sky workspace: tables of the right sizes *)
Section Flat.
Context {F : ofield}.
Local Open Scope F_scope.
Notation mat := (list (list F)).
Notation fwmem := (fwmem F).
Record good_mem (w : fwmem) : Prop := {
  gm_unb : rect (Z.to_nat (mw_ncls w) * mw_nb w) (Z.to_nat (mw_ncls w) * mw_ne w) (mw_unb w);
  gm_bnd : rect (Z.to_nat (mw_ncls w) * mw_nb w) (Z.to_nat (mw_ncls w) * mw_nb w) (mw_bnd w);
  gm_gsl : rect (Z.to_nat (mw_ncls w) * mw_nb w) (Z.to_nat (mw_ncls w) * mw_nb w) (mw_gsl w);
  gm_perm : length (mw_perm w) = (Z.to_nat (mw_ncls w) * mw_nb w)%nat;
  gm_cells : length (mw_cells w) = mw_nb w;
  gm_lf : length (fb_lf (mw_bin w)) = mw_nb w }.
Variable rnd : F -> F.
(** the workspace with its keywords rounded *)
Definition rounded_fs (m : fsmem F) : fsmem F := FSM (m_nx m) (m_ny m) (m_npix m) (rnd (m_lx m)) (rnd (m_ly m)) (rnd (m_pixsize m)) (rnd (m_dell m)) (rnd (m_idell m)) (m_ellmin m).
Definition rounded (w : fwmem) : fwmem :=
  FWM (mw_ncls w) (mw_teb w) (rnd (mw_lmax w)) (Cuts (rnd (mn_x (mw_cut w))) (rnd (mx_x (mw_cut w))) (rnd (mn_y (mw_cut w))) (rnd (mx_y (mw_cut w)))) (mw_pe1 w) (mw_pe2 w) (mw_pb1 w) (mw_pb2 w)
      (rounded_fs (mw_fs w)) (mw_cells w) (mw_unb w) (mw_bnd w) (mw_gsl w) (mw_perm w) (mw_bin w).
Definition file_of (w : fwmem) : file2 F :=
  let n := (Z.to_nat (mw_ncls w) * mw_nb w)%nat in
  [image "WSP_PRIMARY"
       [("LMAX", kd rnd (mw_lmax w)); ("ELLCUT_X_I", kd rnd (mn_x (mw_cut w))); ("ELLCUT_X_F", kd rnd (mx_x (mw_cut w)));
        ("ELLCUT_Y_I", kd rnd (mn_y (mw_cut w))); ("ELLCUT_Y_F", kd rnd (mx_y (mw_cut w)));
        ("PURE_E1", KI (mw_pe1 w)); ("PURE_E2", KI (mw_pe2 w)); ("PURE_B1", KI (mw_pb1 w)); ("PURE_B2", KI (mw_pb2 w));
        ("IS_TEB", KI (mw_teb w)); ("NCLS", KI (mw_ncls w))]%string (Z.to_nat (mw_ncls w) * mw_ne w) n (concat (mw_unb w));
   fsinfo_out rnd (mw_fs w); table "N_CELLS" [] (mw_nb w) [FI (mw_cells w)];
   image "MCM_BINNED" [] n n (concat (mw_bnd w)); image "MCM_BINNED_GSL" [] n n (concat (mw_gsl w)); U2 false "MCM_PERM" [] 0 [] (n, 0)%nat [] (mw_perm w);
   table "BINS_SUMMARY" [] (mw_nb w) [FD (fb_l0 (mw_bin w)); FD (fb_lf (mw_bin w))]].
Lemma write_ok (w : fwmem) : good_mem w -> workspace_flat_write rnd w = Ok (file_of w).
Proof.
  intros [G1 G2 G3 G4 G5 G6]. unfold workspace_flat_write, winfo_out, ncells_out, fbinned_out, fbins_out. fold (mw_nb w).
  rewrite (rows_out_ok _ _ _ G1). cbn [bind]. rewrite (tabM_rd _ _ G5). cbn [bind]. rewrite (rows_out_ok _ _ _ G2). cbn [bind]. rewrite (rows_out_ok _ _ _ G3). cbn [bind]. rewrite (tabM_rd _ _ G4). cbn [bind]. rewrite (tabM_rd _ _ G6). reflexivity.
Qed.
Lemma read_ok junk (w : fwmem) : good_mem w -> workspace_flat_read junk (file_of w) = Ok (rounded w).
Proof.
  intros [G1 G2 G3 G4 G5 G6]. unfold workspace_flat_read, file_of.
  set (n := (Z.to_nat (mw_ncls w) * mw_nb w)%nat) in *.
  cbn -[pixels tabM concat square_in Nat.eqb]. rewrite (pixels_rows _ _ _ G1). cbn [bind]. unfold fsinfo_in, ncells_in, fbinned_in, fbins_in.
  cbn -[pixels concat square_in Nat.eqb]. unfold image, table. unfold col_d, col_i. cbn -[pixels concat square_in Nat.eqb].
  rewrite Nat.eqb_refl. cbn [bind]. rewrite G5, Nat.eqb_refl. cbn [bind].
  rewrite (square_in_ok junk n (mw_bnd w)) by exact G2. cbn [bind]. rewrite Nat.eqb_refl. cbn [andb negb]. rewrite (square_in_ok junk n (mw_gsl w)) by exact G3. cbn [bind].
  rewrite (pixels_all _ n G4). cbn [bind]. fold (mw_nb w). rewrite Nat.eqb_refl. cbn [bind]. rewrite G6, Nat.eqb_refl. cbn [bind]. unfold rounded, rounded_fs. destruct (mw_bin w). reflexivity.
Qed.
End Flat.
