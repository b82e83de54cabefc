(** Writing a workspace and reading it back. *)
From Coq Require Import Permutation.
From Verif Require Import Base M_Bins M_LinAlg M_Workspace M_FITS L_Bins L_Bins2 L_Bins3 P_Bins L_LinAlg L_Workspace P_Workspace L_FITS.
Open Scope Z_scope.

Section LFITS2.
Context {F : ofield}.
Local Open Scope F_scope.
Add Field FfLF2 : (fth F).
Notation mat := (list (list F)).
Notation bins := (bins F).
Notation wsp := (wsp F).
Notation inputs := (@inputs F).

Lemma firstn_skipn_concat (M : mat) k : (forall r, In r M -> length r = k) -> forall i, (i < length M)%nat -> firstn k (skipn (i * k) (concat M)) = nth i M [].
Proof.
  induction M as [|r M IH]; intros H i Hi; [cbn in Hi; lia|]. pose proof (H r (or_introl eq_refl)) as Hr. destruct i as [|i].
  - cbn. rewrite <- Hr. rewrite firstn_app, Nat.sub_diag, firstn_all. cbn. apply app_nil_r.
  - cbn [concat nth]. replace (S i * k)%nat with (length r + i * k)%nat by lia.
    rewrite skipn_app, skipn_all2, Nat.add_comm, Nat.add_sub by lia. cbn [app]. apply IH; [intros s Hs; apply H; right; exact Hs|]. cbn in Hi. lia.
Qed.
Lemma info_tohdus_ok (w : wsp) (M : mat) : w_mcm w = Some M -> square (Z.to_nat (ncl w * (w_lmax w + 1))) M ->
  info_tohdus w = Ok (Hdu false "WSP_PRIMARY"
        [("LMAX", w_lmax w); ("LMAX_FIELDS", w_lmax_fields w); ("LMAX_MASK", w_lmax_mask w); ("IS_TEB", zbool (w_teb w));
         ("NCLS", ncl w); ("NORM_TYPE", w_norm w)]%string 0 [] (concat M)).
Proof.
  intros HM [S1 S2]. unfold info_tohdus. set (n := Z.to_nat (ncl w * (w_lmax w + 1))) in *. cbv zeta.
  rewrite (tabM_ok n _ (fun i => tab n (fun j => entry2 M i j))).
  - cbn [bind]. rewrite <- (square_eq n M S1 S2). reflexivity.
  - intros r Hr. apply tabM_ok. intros c Hc. unfold mcm_rd. rewrite HM. rewrite (rd_nat _ _ []) by lia. cbn [bind].
    rewrite (rd_nat _ _ 0); [reflexivity|]. rewrite S2; [exact Hc | apply nth_In; lia].
Qed.
Lemma l_arr_ok lmax (v : list F) name : length v = Z.to_nat (lmax + 1) ->
  l_arr_tohdus lmax v name = Ok (Hdu true name [] (Z.of_nat (Z.to_nat (lmax + 1))) [CI (tab (Z.to_nat (lmax + 1)) Z.of_nat); CD v] []).
Proof.
  intro H. unfold l_arr_tohdus. cbv zeta. rewrite (tabM_ok _ _ (fun l => nth l v 0)) by (intros l Hl; apply rd_nat; lia).
  cbn [bind]. replace (tab (Z.to_nat (lmax + 1)) (fun l => nth l v 0)) with v; [reflexivity|].
  apply (list_eq_nth _ _ 0); [rewrite length_tab; exact H|]. intros k Hk. symmetry. apply (nth_tab _ (fun l => nth l v 0)). lia.
Qed.
Lemma binned_ok (w : wsp) : square (w_ncls w * nbands w) (w_mb w) -> int_ok (Z.of_nat (w_ncls w * nbands w) * Z.of_nat (w_ncls w * nbands w)) ->
  binned_tohdus w = Ok (Hdu (F:=F) false "MCM_BINNED" [] 0 [] (concat (w_mb w))).
Proof.
  intros [S1 S2] HI. unfold binned_tohdus. set (n := (w_ncls w * nbands w)%nat) in *. cbv zeta.
  rewrite (tabM_ok n _ (fun i => tab n (fun j => entry2 (w_mb w) i j))).
  - cbn [bind]. rewrite <- (square_eq n _ S1 S2). reflexivity.
  - intros r Hr. rewrite i32_ok; [|lia|unfold int_ok in *; nia]. cbn [bind]. apply tabM_ok. intros c Hc. unfold rd2.
    rewrite (rd_nat _ _ []) by lia. cbn [bind]. rewrite (rd_nat _ _ 0); [reflexivity|]. rewrite S2; [exact Hc | apply nth_In; lia].
Qed.
Lemma binned_read (f : M_FITS.fits F) n (m : mat) : square n m -> int_ok (Z.of_nat n * Z.of_nat n) ->
  find_hdu f false "MCM_BINNED" = Some (Hdu false "MCM_BINNED" [] 0 [] (concat m)) -> binned_fromhdus f n = Ok m.
Proof.
  intros [S1 S2] HI Hf. unfold binned_fromhdus, movnam. rewrite Hf. unfold read_pix. cbn [h_pix Nat.add skipn].
  assert (L : length (concat m) = (n * n)%nat) by (rewrite (concat_rows m n S2), S1; reflexivity). rewrite L, Nat.leb_refl, firstn_all2 by lia. cbn [bind].
  transitivity (Ok (tab n (fun i => tab n (fun j => entry2 m i j)))); [|rewrite <- (square_eq n m S1 S2); reflexivity].
  apply tabM_ok. intros r Hr. rewrite i32_ok; [|lia|unfold int_ok in *; nia]. cbn [bind]. apply tabM_ok. intros c Hc.
  replace (Z.of_nat (r * n) + Z.of_nat c)%Z with (Z.of_nat (r * n + c)) by lia.
  rewrite (rd_nat _ _ 0) by nia. f_equal. apply (nth_concat_rows m n S2); lia.
Qed.
Lemma l_arr_read (f : M_FITS.fits F) lmax name (v : list F) : length v = Z.to_nat (lmax + 1) -> (0 <= lmax + 1)%Z ->
  find_hdu f true name = Some (Hdu true name [] (Z.of_nat (Z.to_nat (lmax + 1))) [CI (tab (Z.to_nat (lmax + 1)) Z.of_nat); CD v] []) ->
  l_arr_fromhdus f lmax name = Ok v.
Proof.
  intros H Hp Hf. unfold l_arr_fromhdus, movnam. rewrite Hf. cbn [num_rows h_nrows read_cold h_cols nth_error].
  rewrite Z2Nat.id by exact Hp. rewrite Z.eqb_refl. cbn [negb]. rewrite H. replace (lmax + 1 <=? Z.of_nat (Z.to_nat (lmax + 1)))%Z with true by lia.
  rewrite <- H, firstn_all. reflexivity.
Qed.

(** *** workspaces that can be stored *)
Definition storable (i : inputs) : Prop :=
  valid i /\ no_repeats (i_bin i) /\ (0 <= i_lmaxm i)%Z /\ Z.of_nat (length (i_pcl i)) = (i_lmaxm i + 1)%Z /\
  int_ok (Z.of_nat (i_ncls i * length (b_bands (i_bin i))) * Z.of_nat (i_ncls i * length (b_bands (i_bin i)))).
(** what is read back: everything but w2, the multipoles of each band in ascending order *)
Definition reread (i : inputs) (unb : bool) : wsp :=
  Wsp (b_lmax (i_bin i)) (i_lmaxf i) (i_lmaxm i) (i_teb i) (i_ncls i) (w_beam (core i)) (i_pcl i)
      (if unb then Some (i_mcm i) else None) (sorted_bins (i_bin i)) (i_norm i) None (mb_tab (core i)).
Definition stored (i : inputs) : M_FITS.fits F :=
  [Hdu false "WSP_PRIMARY" [("LMAX", b_lmax (i_bin i)); ("LMAX_FIELDS", i_lmaxf i); ("LMAX_MASK", i_lmaxm i); ("IS_TEB", zbool (i_teb i));
         ("NCLS", Z.of_nat (i_ncls i)); ("NORM_TYPE", i_norm i)]%string 0 [] (concat (i_mcm i));
   Hdu true "BEAMS" [] (Z.of_nat (Z.to_nat (i_lmaxf i + 1))) [CI (tab (Z.to_nat (i_lmaxf i + 1)) Z.of_nat); CD (w_beam (core i))] [];
   Hdu true "PCL_MASKS" [] (Z.of_nat (Z.to_nat (i_lmaxm i + 1))) [CI (tab (Z.to_nat (i_lmaxm i + 1)) Z.of_nat); CD (i_pcl i)] [];
   bands_hdu (i_bin i);
   Hdu false "MCM_BINNED" [] 0 [] (concat (mb_tab (core i)))].
Lemma sq_mcm (i : inputs) : valid i -> square (Z.to_nat (Z.of_nat (i_ncls i) * (b_lmax (i_bin i) + 1))) (i_mcm i).
Proof.
  intros [H1 [H2 [H3 [H4 [H5 [H6 H7]]]]]]. destruct (valid_bins_facts _ H2) as [_ [_ ?]].
  replace (Z.to_nat (Z.of_nat (i_ncls i) * (b_lmax (i_bin i) + 1))) with (i_nrows i) by (unfold i_nrows, i_nell; nia).
  split; assumption.
Qed.
Lemma write_ok (i : inputs) : storable i -> workspace_write_fits (mk i) = Ok (stored i).
Proof.
  intros [V [N [Lm [Lp HI]]]]. pose proof (sq_mcm i V) as Sq. pose proof V as [H1 [H2 [H3 [H4 [H5 [H6 H7]]]]]].
  destruct (valid_bins_facts _ H2) as [W [E P]]. unfold workspace_write_fits.
  rewrite (info_tohdus_ok (mk i) (i_mcm i) eq_refl Sq). cbn [bind].
  rewrite (l_arr_ok (w_lmax_fields (mk i)) (w_beam (mk i))) by apply length_tab. cbn [bind].
  rewrite (l_arr_ok (w_lmax_mask (mk i)) (w_pcl (mk i))) by (cbn; lia). cbn [bind].
  change (w_bin (mk i)) with (i_bin i). rewrite (bins_tohdus_eq (i_bin i) E). cbn [bind].
  rewrite (binned_ok (mk i)); [reflexivity | apply (square_mb (core i)) | exact HI].
Qed.
Lemma read_ok (i : inputs) J unb : storable i -> workspace_read_fits J (stored i) unb = Ok (reread i unb).
Proof.
  intros [V [N [Lm [Lp HI]]]]. pose proof (sq_mcm i V) as Sq. pose proof V as [H1 [H2 [H3 [H4 [H5 [H6 H7]]]]]].
  destruct (valid_bins_facts _ H2) as [W [E P]]. unfold workspace_read_fits.
  assert (B : bins_fromhdus J (stored i) = Ok (sorted_bins (i_bin i), true)) by (apply (bins_fromhdus_eq (i_bin i) W E (once_of _ N)); [reflexivity | exact P]).
  assert (L1 : l_arr_fromhdus (stored i) (i_lmaxf i) "BEAMS" = Ok (w_beam (core i))) by (apply l_arr_read; [apply length_tab | lia | reflexivity]).
  assert (L2 : l_arr_fromhdus (stored i) (i_lmaxm i) "PCL_MASKS" = Ok (i_pcl i)) by (apply l_arr_read; [lia | lia | reflexivity]).
  assert (NB : length (b_bands (sorted_bins (i_bin i))) = length (b_bands (i_bin i))) by apply length_tab.
  assert (L3 : binned_fromhdus (stored i) (i_ncls i * length (b_bands (sorted_bins (i_bin i)))) = Ok (mb_tab (core i))).
  { rewrite NB. apply binned_read; [apply (square_mb (core i)) | exact HI | reflexivity]. }
  unfold movnam. change (find_hdu (stored i) false "WSP_PRIMARY") with (nth_error (stored i) 0). cbn [nth_error stored].
  unfold read_key. cbn [h_keys find fst snd String.eqb Ascii.eqb Bool.eqb negb]. fold (stored i).
  rewrite L1, L2, B. unfold bind. rewrite Nat2Z.id. cbn [negb].
  assert (EB : negb (zbool (i_teb i) =? 0)%Z = i_teb i) by (destruct (i_teb i); reflexivity).
  destruct unb.
  - rewrite (tabM_ok _ _ (fun ii => nth ii (i_mcm i) [])).
    + rewrite L3, EB. unfold reread. do 3 f_equal. destruct Sq as [S1 _]. rewrite <- S1.
      apply (list_eq_nth _ _ []); [apply length_tab|]. intros k Hk. rewrite length_tab in Hk. rewrite nth_tab by exact Hk. reflexivity.
    + intros r Hr. unfold read_pix. cbn [h_pix]. destruct Sq as [S1 S2]. rewrite (concat_rows _ _ S2), S1.
      replace (_ <=? _)%nat with true by (symmetry; apply Nat.leb_le; nia). f_equal. apply firstn_skipn_concat; [exact S2 | lia].
  - rewrite L3, EB. reflexivity.
Qed.
End LFITS2.
