(** Properties C01-C09: curved-sky binning. *)
From Verif Require Import Base M_Bins L_Bins L_Bins2 L_Bins3.
From Coq Require Import ZifyBool ZifyNat.
Open Scope nat_scope.

Section Statements.
Context {F : ofield}.
Local Open Scope F_scope.
Add Field FfPB : (fth F).
Notation bins := (bins F).

(** ** Specification vocabulary *)
(** inputs (bandpower, multipole, weight) that the caller put into band [ib] *)
Definition assigned (bpws ells : list Z) (ws : list F) (lm ib : Z) : list (Z * Z * F) :=
  filter (fun t => (fst (fst t) =? ib)%Z && (snd (fst t) <=? lm)%Z) (combine (combine bpws ells) ws).
Definition given_ells (l : list (Z * Z * F)) : list Z := map (fun t => snd (fst t)) l.
Definition given_ws (l : list (Z * Z * F)) : list F := map snd l.
(** the maximum multipole: the argument, or the largest multipole *)
Definition is_lmax (lmax : option Z) (ells : list Z) (lm : Z) : Prop :=
  match lmax with
  | Some l => lm = l
  | None => In lm ells /\ forall l, In l ells -> (l <= lm)%Z
  end.
Definition weights_or_ones (w : option (list F)) (ells : list Z) : list F :=
  match w with Some w => w | None => map (fun _ => 1) ells end.

Lemma ones_wo w ells : match w with None => ones (length ells) | Some w => w end = weights_or_ones w ells.
Proof. destruct w; [reflexivity|]. simpl. unfold ones. induction ells; simpl; congruence. Qed.
Lemma lmax_of_is lmax ells : lmax <> None \/ ells <> [] -> is_lmax lmax ells (lmax_of lmax ells).
Proof.
  destruct lmax; [reflexivity|]. intros [H|H]; [congruence|]. destruct ells as [|a t]; [congruence|].
  unfold is_lmax, lmax_of. cbn [hd].
  assert (G : forall l x, In (fold_right Z.max x l) (x :: l) /\ forall y, In y (x :: l) -> (y <= fold_right Z.max x l)%Z).
  { induction l as [|b l IH]; intro x; simpl; [split; [auto | intros y [<-|[]]; lia]|].
    destruct (IH x) as [H1 H2]. simpl in H1, H2. split.
    - destruct (Z.max_spec b (fold_right Z.max x l)) as [[_ ->]|[_ ->]]; tauto.
    - intros y [<-|[<-|Hy]]; [specialize (H2 x); intuition lia | lia | specialize (H2 y); intuition lia]. }
  destruct (G (a :: t) a) as [G1 G2]. split.
  - destruct G1 as [G1|G1]; [rewrite <- G1; left; reflexivity | exact G1].
  - intros l Hl. apply G2. right. exact Hl.
Qed.

(** ** C02 (first part of C01 uses it): construction *)
Theorem C02_band_membership bpws ells lmax ws fs (b : bins) :
  NmtBin bpws ells lmax ws fs = Ok b ->
  exists lm, is_lmax lmax ells lm /\ b_lmax b = lm /\
  let given := assigned bpws ells (weights_or_ones ws ells) lm in
  (forall ib, (0 <= ib < get_n_bands b)%Z ->
     get_ell_list b ib = Ok (given_ells (given ib))) /\
  get_nell_list b = map (fun ib => Z.of_nat (length (given (Z.of_nat ib)))) (seq 0 (Z.to_nat (get_n_bands b))) /\
  (* every usable index is a band, and the last band is used *)
  (forall k bp l, nth_error bpws k = Some bp -> nth_error ells k = Some l -> (l <= lm)%Z -> (bp < get_n_bands b)%Z) /\
  (exists k l, nth_error bpws k = Some (get_n_bands b - 1)%Z /\ nth_error ells k = Some l /\ (l <= lm)%Z) /\
  (0 < get_n_bands b)%Z.
Proof.
  intro H. pose proof (NmtBin_wf _ _ _ _ _ _ H) as Hwf. pose proof (NmtBin_lmax _ _ _ _ _ _ H) as Hlm.
  exists (lmax_of lmax ells). split.
  { apply lmax_of_is. destruct lmax; [left; discriminate|]. right. intros ->. discriminate. }
  split; [exact Hlm|]. apply NmtBin_ok in H. destruct H as [rows [E1 [E2 [E3 [_ H]]]]].
  rewrite ones_wo in E3. rewrite <- E1, <- E2, <- E3 in *. cbv zeta. clear E1 E2 E3.
  set (lm := lmax_of lmax (map r_ell rows)) in *.
  assert (Eell : forall ib, given_ells (assigned (map r_bpw rows) (map r_ell rows) (map r_w rows) lm ib) = map r_ell (sel lm ib rows)).
  { intro ib. unfold given_ells, assigned. clearbody lm. clear. induction rows as [|r rows IH]; [reflexivity|]. simpl.
    destruct (r_ell r <=? lm)%Z, (r_bpw r =? ib)%Z; simpl; rewrite IH; reflexivity. }
  split; [|split; [|split; [|split]]].
  - intros ib Hib. unfold get_ell_list. rewrite (bands_nth rows lm b ib H Hib). cbn [bind].
    rewrite map_ell_norm, map_ell_ent, Eell. reflexivity.
  - apply (list_eq_nth _ _ 0%Z); unfold get_nell_list, get_n_bands.
    + rewrite !map_length, seq_length. lia.
    + intros i Hi. rewrite map_length in Hi.
      apply create_ok in H. destruct H as [_ ->]. cbn [b_bands] in *. unfold raw_bands in *.
      rewrite !map_tab in *. rewrite length_tab in *.
      rewrite nth_tab by exact Hi.
      change (map (fun ib => Z.of_nat (length (assigned (map r_bpw rows) (map r_ell rows) (map r_w rows) lm (Z.of_nat ib)))))
        with (map (fun ib => Z.of_nat (length (assigned (map r_bpw rows) (map r_ell rows) (map r_w rows) lm (Z.of_nat ib))))).
      fold (tab (Z.to_nat (Z.of_nat (Z.to_nat (nband_max lm rows)))) (fun ib => Z.of_nat (length (assigned (map r_bpw rows) (map r_ell rows) (map r_w rows) lm (Z.of_nat ib))))).
      rewrite nth_tab by lia. f_equal. unfold norm_band. rewrite !map_length.
      transitivity (length (map r_ell (sel lm (Z.of_nat i) rows))); [rewrite map_length; reflexivity|].
      rewrite <- Eell. unfold given_ells. rewrite map_length. reflexivity.
  - intros k bp l Hb Hl Hle. rewrite nth_error_map' in Hb, Hl.
    destruct (nth_error rows k) as [r|] eqn:Er; [|discriminate]. cbn in Hb, Hl. injection Hb as <-. injection Hl as <-.
    apply (proj1 (create_nbands rows lm b H) r); [eapply nth_error_In; exact Er | exact Hle].
  - destruct (proj2 (create_nbands rows lm b H)) as [r [Hr [Hl Hb]]].
    apply In_nth_error in Hr. destruct Hr as [k Hk]. exists k, (r_ell r).
    rewrite !nth_error_map', Hk. cbn. rewrite Hb. auto.
  - apply (wf_pos b Hwf).
Qed.

(** construction never corrupts memory *)
Theorem C02_construction_memory_safe bpws ells lmax (ws fs : option (list F)) :
  NmtBin bpws ells lmax ws fs <> UB.
Proof. apply NmtBin_total. Qed.

(** construction succeeds exactly when the arrays have the same length and every band up to the
    last one (band 0 included) has weights with a positive sum *)
Theorem C02_construction_outcome bpws ells lm (ws fs : list F) :
  (exists b, NmtBin bpws ells (Some lm) (Some ws) (Some fs) = Ok b) <->
  (length bpws = length ells /\ length ells = length ws /\ length ws = length fs) /\
  (forall ib, (0 <= ib)%Z ->
     (ib = 0%Z \/ exists k l bp, nth_error bpws k = Some bp /\ nth_error ells k = Some l /\ (ib <= bp)%Z /\ (l <= lm)%Z) ->
     0 < lsum (given_ws (assigned bpws ells ws lm ib))).
Proof.
  assert (Ew : forall rows ib, map r_bpw rows = bpws -> map r_ell rows = ells -> map r_w rows = ws ->
     wsum (map ent (sel lm ib rows)) = lsum (given_ws (assigned bpws ells ws lm ib))).
  { intros rows ib E1 E2 E3. unfold given_ws, assigned. rewrite <- E1, <- E2, <- E3, <- sel_combine_w.
    unfold wsum. rewrite map_map. reflexivity. }
  split.
  - intros [b Hb]. unfold NmtBin in Hb. cbn [bind] in Hb.
    destruct (zip_rows_spec bpws ells ws fs) as [Z|[_ Z]]; [|rewrite Z in Hb; discriminate].
    destruct Z as [L1 [L2 [L3 [rows [Z1 [Z2 [Z3 [Z4 Z5]]]]]]]]. split; [auto|]. rewrite Z1 in Hb. cbn [bind] in Hb.
    apply create_ok in Hb. destruct Hb as [Hp _]. intros ib Hib Hk. rewrite <- (Ew rows ib Z2 Z3 Z4). apply Hp.
    unfold raw_bands, tab. apply in_map_iff. exists (Z.to_nat ib). split; [rewrite Z2Nat.id by lia; reflexivity|].
    apply in_seq. destruct (nband_max_spec lm rows) as [N1 [N2 _]].
    destruct Hk as [->|[k [l [bp [K1 [K2 [K3 K4]]]]]]]; [lia|].
    rewrite <- Z2, nth_error_map' in K1. rewrite <- Z3, nth_error_map' in K2.
    destruct (nth_error rows k) as [r|] eqn:Er; [|discriminate]. cbn in *. injection K1 as <-. injection K2 as <-.
    specialize (N2 r (nth_error_In _ _ Er) K4). lia.
  - intros [[L1 [L2 L3]] Hp]. unfold NmtBin. cbn [bind].
    destruct (zip_rows_spec bpws ells ws fs) as [Z|[Z _]]; [|tauto].
    destruct Z as [_ [_ [_ [rows [Z1 [Z2 [Z3 [Z4 Z5]]]]]]]]. rewrite Z1. cbn [bind].
    eexists. apply create_ok. split; [|reflexivity]. intros x Hx. unfold raw_bands, tab in Hx.
    apply in_map_iff in Hx. destruct Hx as [k [<- Hk]]. apply in_seq in Hk. rewrite (Ew rows _ Z2 Z3 Z4).
    apply Hp; [lia|]. destruct (nband_max_spec lm rows) as [N1 [_ N3]].
    destruct N3 as [N3|[r [Hr [Hl Hb]]]]; [left; lia|]. right.
    apply In_nth_error in Hr. destruct Hr as [j Hj]. exists j, (r_ell r), (r_bpw r).
    rewrite <- Z2, <- Z3, !nth_error_map', Hj. cbn. repeat split; lia.
Qed.

(** ** C01 *)
Theorem C01_weights_normalised bpws ells lmax ws fs (b : bins) :
  NmtBin bpws ells lmax ws fs = Ok b ->
  forall ib, (0 <= ib < get_n_bands b)%Z ->
  exists w, get_weight_list b ib = Ok w /\ lsum w = 1 /\
    let given := given_ws (assigned bpws ells (weights_or_ones ws ells) (b_lmax b) ib) in
    0 < lsum given /\ w = map (fun x => x / lsum given) given /\
    ((forall x, In x given -> 0 <= x) -> forall y, In y w -> 0 <= y).
Proof.
  intros H ib Hib. pose proof (NmtBin_wf _ _ _ _ _ _ H) as Hwf. pose proof (NmtBin_lmax _ _ _ _ _ _ H) as Hlm.
  apply NmtBin_ok in H. destruct H as [rows [E1 [E2 [E3 [_ H]]]]].
  rewrite ones_wo in E3. rewrite <- Hlm in H. rewrite <- E1, <- E2 in *. rewrite <- E3. cbv zeta.
  unfold get_weight_list. rewrite (bands_nth rows _ b ib H Hib). cbn [bind].
  set (lm := b_lmax b) in *. unfold given_ws, assigned. rewrite <- sel_combine_w.
  set (x := map ent (sel lm ib rows)).
  assert (Ew : map r_w (sel lm ib rows) = map e_w x) by (unfold x; rewrite map_map; reflexivity).
  rewrite Ew. fold (wsum x).
  assert (Hp : 0 < wsum x).
  { apply create_ok in H. destruct H as [Hp Eb]. apply Hp. unfold raw_bands, tab. apply in_map_iff.
    exists (Z.to_nat ib). split; [rewrite Z2Nat.id by lia; reflexivity|]. apply in_seq.
    unfold get_n_bands in Hib. rewrite Eb in Hib. cbn [b_bands] in Hib. rewrite map_length in Hib.
    unfold raw_bands in Hib. rewrite length_tab in Hib. lia. }
  assert (Em : map e_w (norm_band x) = map (fun y => y / wsum x) (map e_w x)).
  { unfold norm_band. rewrite !map_map. reflexivity. }
  exists (map e_w (norm_band x)). split; [reflexivity|]. split; [exact (wsum_norm x Hp)|].
  split; [exact Hp|]. split; [exact Em|].
  intros Hn y Hy. rewrite Em in Hy. apply in_map_iff in Hy. destruct Hy as [z [<- Hz]].
  apply fdiv_nonneg; [apply Hn; exact Hz | exact Hp].
Qed.

(** a band whose weights add up to zero or less makes construction fail *)
Theorem C01_bad_weights_rejected bpws ells lm (ws fs : list F) ib :
  length bpws = length ells -> length ells = length ws -> length ws = length fs ->
  (0 <= ib)%Z -> (exists k l bp, nth_error bpws k = Some bp /\ nth_error ells k = Some l /\ (ib <= bp)%Z /\ (l <= lm)%Z) ->
  lsum (given_ws (assigned bpws ells ws lm ib)) <= 0 ->
  NmtBin bpws ells (Some lm) (Some ws) (Some fs) = Exn RuntimeError.
Proof.
  intros L1 L2 L3 Hib [k [l [bp [Hk [Hkl [Hbp Hl]]]]]] Hs. unfold NmtBin. cbn [bind].
  destruct (zip_rows_spec bpws ells ws fs) as [Z|[Z _]]; [|tauto].
  destruct Z as [_ [_ [_ [rows [Z1 [Z2 [Z3 [Z4 Z5]]]]]]]]. rewrite Z1. cbn [bind].
  destruct (create_fail rows lm) as [[b E]|[E _]]; [|exact E]. exfalso.
  assert (Hn : (0 <= ib < get_n_bands b)%Z).
  { split; [exact Hib|]. apply Z.le_lt_trans with bp; [exact Hbp|].
    rewrite <- Z2, nth_error_map' in Hk. rewrite <- Z3, nth_error_map' in Hkl.
    destruct (nth_error rows k) as [r|] eqn:Er; [|discriminate]. cbn in *. injection Hk as <-. injection Hkl as <-.
    apply (proj1 (create_nbands rows lm b E) r); [eapply nth_error_In; exact Er | exact Hl]. }
  apply create_ok in E. destruct E as [Hp Eb].
  assert (Hin : In (map ent (sel lm ib rows)) (raw_bands lm rows)).
  { unfold raw_bands, tab. apply in_map_iff. exists (Z.to_nat ib). split; [rewrite Z2Nat.id by lia; reflexivity|].
    apply in_seq. unfold get_n_bands in Hn. rewrite Eb in Hn. cbn [b_bands] in Hn. rewrite map_length in Hn.
    unfold raw_bands in Hn. rewrite length_tab in Hn. lia. }
  apply Hp in Hin. unfold given_ws, assigned in Hs. rewrite <- Z2, <- Z3, <- Z4, <- sel_combine_w in Hs.
  unfold wsum in Hin. rewrite map_map in Hin. cbn in Hin. apply flt_not_le in Hin. apply Hin. exact Hs.
Qed.

(** ** C03 *)
(** the two independent implementations (Python and C) agree *)
Theorem C03_linear_is_constant (pi : F) lmax nlb is_Dell :
  0 < pi -> (1 <= nlb)%Z -> (nlb + 1 <= lmax)%Z ->
  from_lmax_linear pi lmax nlb is_Dell None = Ok (nmt_bins_constant pi nlb lmax is_Dell).
Proof. apply from_lmax_constant. Qed.

Theorem C03_linear_tiling (pi : F) lmax nlb is_Dell f_ell :
  (1 <= nlb)%Z -> (nlb + 1 <= lmax)%Z ->
  (match f_ell with Some f => Z.of_nat (length f) = lmax + 1 | None => True end)%Z ->
  exists b : bins, from_lmax_linear pi lmax nlb is_Dell f_ell = Ok b /\
    (* as many complete bands as fit *)
    (2 + get_n_bands b * nlb <= lmax + 1 < 2 + (get_n_bands b + 1) * nlb)%Z /\
    (forall ib, (0 <= ib < get_n_bands b)%Z ->
       get_ell_list b ib = Ok (zrange (2 + ib * nlb) (2 + (ib + 1) * nlb)) /\
       get_weight_list b ib = Ok (map (fun _ => 1 / fofZ nlb) (zrange (2 + ib * nlb) (2 + (ib + 1) * nlb)))) /\
    b_lmax b = lmax.
Proof.
  intros Hn Hl Hf. rewrite from_lmax_rows; [|lia|lia|destruct f_ell; [lia|exact I]].
  rewrite create_lin by lia. eexists. split; [reflexivity|]. unfold get_n_bands. cbn [b_bands b_lmax].
  rewrite map_length, seq_length.
  assert (H0 : (1 <= nfull lmax nlb)%Z) by (unfold nfull; apply Z.div_le_lower_bound; lia).
  rewrite Z2Nat.id by lia.
  split.
  { unfold nfull. pose proof (Z.div_mod (lmax - 1) nlb ltac:(lia)). pose proof (Z.mod_pos_bound (lmax - 1) nlb ltac:(lia)). nia. }
  split; [|reflexivity]. intros ib Hib.
  assert (Eb : forall B, get_band (Bins lmax (map B (seq 0 (Z.to_nat (nfull lmax nlb))))) ib = Ok (B (Z.to_nat ib) : list (entry F))).
  { intro B. unfold get_band, get_n_bands. cbn [b_bands]. rewrite map_length, seq_length.
    replace (ib <? _)%Z with true by lia. change (map B (seq 0 ?n)) with (tab n B). rewrite rd_tab by lia. reflexivity. }
  unfold get_ell_list, get_weight_list. rewrite !Eb. cbn [bind]. unfold zrange. rewrite !map_map.
  replace (2 + (ib + 1) * nlb - (2 + ib * nlb))%Z with nlb by lia. split; f_equal.
  apply map_ext. intro jj. cbv zeta. cbn [e_ell]. rewrite Z2Nat.id by lia. reflexivity.
Qed.

Theorem C03_too_short_rejected (pi : F) lmax nlb is_Dell f_ell :
  (1 <= nlb)%Z -> (lmax < nlb + 1)%Z -> exists e, from_lmax_linear pi lmax nlb is_Dell f_ell = Exn e.
Proof. apply from_lmax_fail. Qed.

Theorem C03_nside (pi : F) nside nlb is_Dell f_ell :
  from_nside_linear pi nside nlb is_Dell f_ell = from_lmax_linear pi (3 * nside - 1) nlb is_Dell f_ell.
Proof. reflexivity. Qed.

(** ** C04 *)
Theorem C04_edges (pi : F) (E : list (Z * Z)) is_Dell f_ell (b : bins) :
  E <> [] -> (forall li le, In (li, le) E -> (li < le)%Z) ->
  from_edges pi (map fst E) (map snd E) is_Dell f_ell = Ok b ->
  get_n_bands b = Z.of_nat (length E) /\
  (exists p, In p E /\ b_lmax b = (snd p - 1)%Z) /\ (forall p, In p E -> (snd p <= b_lmax b + 1)%Z) /\
  forall ib li le, nth_error E ib = Some (li, le) ->
    get_ell_list b (Z.of_nat ib) = Ok (zrange li le) /\
    get_weight_list b (Z.of_nat ib) = Ok (map (fun _ => 1 / fofZ (le - li)) (zrange li le)).
Proof.
  intros Hne HE H.
  assert (HE' : edges_ok E) by (intros [li le] Hp; apply HE; exact Hp).
  destruct (edge_arrays_spec (F:=F) 0 E HE') as [ells [bpws [ws [E1 [E2 [E3 [E4 [E5 [E6 E7]]]]]]]]].
  unfold from_edges in H. rewrite E1 in H. cbn [bind] in H. apply bind_ok in H. destruct H as [lm [Hlm H]].
  pose proof (NmtBin_lmax _ _ _ _ _ _ H) as Hbl. cbn in Hbl.
  destruct (C02_band_membership _ _ _ _ _ _ H) as [lm' [Hl1 [Hl2 [M1 [M2 [M3 [M4 M5]]]]]]].
  assert (lm' = lm) as -> by (unfold is_lmax in Hl1; exact Hl1). clear Hl1.
  pose proof (C01_weights_normalised _ _ _ _ _ _ H) as W. cbn [weights_or_ones] in M1, M2.
  assert (Hall : forall l, In l ells -> (l <= lm)%Z).
  { apply amax_spec in Hlm. intros l Hl. destruct (lmax_of_is None ells) as [_ G]; [right; intros ->; destruct Hl|].
    cbn in G. rewrite Hlm. apply G. exact Hl. }
  assert (Hin : In lm ells).
  { apply amax_spec in Hlm. destruct (lmax_of_is None ells) as [G _]; [right; intros ->|]. 
    - destruct E as [|[li le] E]; [congruence|]. apply (E6 (li, le) li); [left; reflexivity|]. cbn.
      specialize (HE li le (or_introl eq_refl)). lia.
    - cbn in G. rewrite Hlm. exact G. }
  assert (Has : forall ib, assigned bpws ells ws lm ib = filter (fun t => (fst (fst t) =? ib)%Z) (combine (combine bpws ells) ws)).
  { intro ib. unfold assigned. apply filter_ext_in. intros [[bp l] w] Ht. cbn.
    apply in_combine_l in Ht. apply in_combine_r in Ht. specialize (Hall l Ht). 
    replace (l <=? lm)%Z with true by lia. rewrite andb_true_r. reflexivity. }
  assert (Hnb : get_n_bands b = Z.of_nat (length E)).
  { destruct M4 as [k [l [Hk [Hl _]]]]. apply nth_error_In in Hk. specialize (E4 _ Hk).
    (* the last band contains a multipole *)
    assert (Hlast : exists k' l', nth_error bpws k' = Some (Z.of_nat (length E) - 1)%Z /\ nth_error ells k' = Some l').
    { assert (HL : (0 < length E)%nat) by (destruct E; [congruence | simpl; lia]).
      destruct (nth_error E (length E - 1)) as [[li le]|] eqn:En.
      2:{ apply nth_error_None in En. lia. }
      specialize (E7 _ _ En). cbn [fst snd] in E7.
      assert (Ht : In ((0 + Z.of_nat (length E - 1))%Z, li, 1 / fofZ (le - li) : F)
                 (filter (fun t => (fst (fst t) =? 0 + Z.of_nat (length E - 1))%Z) (combine (combine bpws ells) ws))).
      { rewrite E7. apply in_map_iff. exists li. split; [reflexivity|]. apply in_zrange.
        apply nth_error_In in En. specialize (HE li le En). lia. }
      apply filter_In in Ht. destruct Ht as [Ht _]. apply in_combine_l in Ht. apply in_combine_nth in Ht.
      destruct Ht as [k' [Hk1 Hk2]]. exists k', li. split; [|exact Hk2]. rewrite Hk1. f_equal. lia. }
    destruct Hlast as [k' [l' [Hk1 Hk2]]].
    specialize (M3 k' _ l' Hk1 Hk2 (Hall _ (nth_error_In _ _ Hk2))). lia. }
  split; [exact Hnb|]. split; [|split].
  - destruct (E5 lm Hin) as [p [Hp Hr]]. exists p. split; [exact Hp|]. rewrite Hbl.
    specialize (E6 p (snd p - 1)%Z Hp). destruct p as [li le]. cbn in *. specialize (HE li le Hp).
    assert (In (le - 1)%Z ells) by (apply E6; lia). specialize (Hall _ H0). lia.
  - intros [li le] Hp. cbn. specialize (HE li le Hp). rewrite Hbl.
    assert (In (le - 1)%Z ells) by (apply (E6 (li, le)); cbn; [exact Hp | lia]). specialize (Hall _ H0). lia.
  - intros ib li le Hib. assert (Hr : (0 <= Z.of_nat ib < get_n_bands b)%Z).
    { rewrite Hnb. assert (nth_error E ib <> None) by congruence. apply nth_error_Some in H0. lia. }
    assert (Hp : (li < le)%Z) by (apply HE; eapply nth_error_In; exact Hib).
    specialize (E7 ib (li, le) Hib). cbn [fst snd] in E7. rewrite Z.add_0_l in E7.
    split.
    + rewrite (M1 _ Hr), Has, E7. unfold given_ells. rewrite map_map. cbn. rewrite map_id. reflexivity.
    + destruct (W _ Hr) as [w [Hw [_ [_ [Ew _]]]]]. rewrite Hw, Ew, Hbl. cbn [weights_or_ones]. cbv zeta.
      rewrite Has, E7. unfold given_ws. rewrite !map_map. cbn. f_equal. apply map_ext. intros _.
      rewrite (lsum_ext _ (fun _ => (1 / fofZ (le - li)) * 1)) by (intros; ring).
      rewrite lsum_mul_l, lsum_ones, length_zrange, <- fofZ_of_nat, Z2Nat.id by lia.
      field. split; try (apply fofZ_neq0; lia); try exact f1_neq_0.
Qed.

Theorem C04_edges_accepted (pi : F) (E : list (Z * Z)) is_Dell :
  E <> [] -> (forall li le, In (li, le) E -> (li < le)%Z) ->
  exists b : bins, from_edges pi (map fst E) (map snd E) is_Dell None = Ok b.
Proof.
  intros Hne HE.
  assert (HE' : edges_ok E) by (intros [li le] Hp; apply HE; exact Hp).
  destruct (edge_arrays_spec (F:=F) 0 E HE') as [ells [bpws [ws [E1 [E2 [E3 [E4 [E5 [E6 E7]]]]]]]]].
  unfold from_edges. rewrite E1. cbn [bind]. destruct (amax ells) as [lm|e|] eqn:Ea.
  2,3: exfalso; destruct ells; [|discriminate]; destruct E as [|[li le] E]; [congruence|];
       apply (E6 (li, le) li); [left; reflexivity|]; cbn; specialize (HE li le (or_introl eq_refl)); lia.
  cbn [bind]. set (fs := opt_f_ell pi is_Dell None ells).
  set (fs' := match fs with None => ones (length ells) | Some f => f end).
  assert (Lf : length fs' = length ells).
  { unfold fs', fs, opt_f_ell. destruct is_Dell; [apply map_length | apply repeat_length]. }
  assert (EN : NmtBin bpws ells (Some lm) (Some ws) fs = NmtBin bpws ells (Some lm) (Some ws) (Some fs')).
  { unfold fs'. destruct fs; reflexivity. }
  rewrite EN. clear EN. unfold NmtBin. cbn [bind].
  destruct (zip_rows_spec bpws ells ws fs') as [Z|[Z _]]; [|exfalso; apply Z; lia].
  destruct Z as [_ [_ [_ [rows [Z1 [Z2 [Z3 [Z4 Z5]]]]]]]]. rewrite Z1. cbn [bind].
  eexists. apply create_ok. split; [|reflexivity].
  intros x Hx. unfold raw_bands, tab in Hx. apply in_map_iff in Hx. destruct Hx as [ib [<- Hib]]. apply in_seq in Hib.
  unfold wsum. rewrite map_map. cbn. fold (map r_w (sel lm (Z.of_nat ib) rows)). 
  change (map (fun x => r_w x)) with (map (@r_w F)).
  rewrite sel_combine_w, Z2, Z3, Z4.
  assert (Hall : forall l, In l ells -> (l <= lm)%Z).
  { apply amax_spec in Ea. intros l Hl. destruct (lmax_of_is None ells) as [_ G]; [right; intros ->; destruct Hl|].
    cbn in G. rewrite Ea. apply G. exact Hl. }
  assert (Has : filter (fun t : Z * Z * F => (fst (fst t) =? Z.of_nat ib)%Z && (snd (fst t) <=? lm)%Z) (combine (combine bpws ells) ws)
    = filter (fun t => (fst (fst t) =? Z.of_nat ib)%Z) (combine (combine bpws ells) ws)).
  { apply filter_ext_in. intros [[bp l] w] Ht. cbn.
    apply in_combine_l in Ht. apply in_combine_r in Ht. specialize (Hall l Ht).
    replace (l <=? lm)%Z with true by lia. rewrite andb_true_r. reflexivity. }
  rewrite Has. clear Has.
  assert (Hib2 : (ib < length E)%nat).
  { destruct (nband_max_spec lm rows) as [N1 [_ N3]]. destruct N3 as [N3|[r [Hr [_ Hb]]]].
    - destruct E; [congruence | cbn [length]; lia].
    - assert (Hb' : In (r_bpw r) bpws) by (rewrite <- Z2; apply in_map; exact Hr). specialize (E4 _ Hb'). lia. }
  destruct (nth_error E ib) as [[li le]|] eqn:En; [|apply nth_error_None in En; lia].
  specialize (E7 ib (li, le) En). cbn [fst snd] in E7. rewrite Z.add_0_l in E7. rewrite E7, map_map. cbn.
  assert (Hp : (li < le)%Z) by (apply HE; eapply nth_error_In; exact En).
  rewrite (lsum_ext _ (fun _ => (1 / fofZ (le - li)) * 1)) by (intros; ring).
  rewrite lsum_mul_l, lsum_ones, length_zrange, <- fofZ_of_nat, Z2Nat.id by lia.
  replace (1 / fofZ (le - li) * fofZ (le - li) : F) with (1 : F) by (field; apply fofZ_neq0; lia).
  apply f0_lt_1.
Qed.

(** ** C05, C06: unbinning *)
Definition spectra (a : arr F) : list (list F) := match a with A1 v => [v] | A2 _ v => v | AN => [] end.
(** multipole [l] belongs to band [ib] (as reported by the API) *)
Definition in_band (b : bins) (ib l : Z) : Prop := exists L, get_ell_list b ib = Ok L /\ In l L.
(** all multipoles are valid array indices *)
Definition nonneg_ells (b : bins) : Prop := forall ib l, in_band b ib l -> (0 <= ib)%Z -> (0 <= l)%Z.
(** no multipole is listed in two bands; a multipole listed twice in a band has one f_ell *)
Definition disjoint_bands (b : bins) : Prop :=
  (forall i j l, (0 <= i)%Z -> (0 <= j)%Z -> in_band b i l -> in_band b j l -> i = j) /\
  (forall x e e', In x (b_bands b) -> In e x -> In e' x -> e_ell e = e_ell e' -> e_f e = e_f e').

Lemma in_band_nth (b : bins) i x e : nth_error (b_bands b) i = Some x -> In e x -> in_band b (Z.of_nat i) (e_ell e).
Proof.
  intros H He. exists (map e_ell x). split; [|apply in_map; exact He].
  unfold get_ell_list, get_band, get_n_bands.
  assert (i < length (b_bands b))%nat by (apply nth_error_Some; congruence).
  replace (Z.of_nat i <? _)%Z with true by lia. unfold rd. replace (0 <=? Z.of_nat i)%Z with true by lia.
  rewrite Nat2Z.id, H. reflexivity.
Qed.
Lemma ells_in_of (b : bins) : wf b -> nonneg_ells b -> ells_in b.
Proof.
  intros Hw Hn x e Hx He. split; [|eapply wf_ell; eassumption].
  apply In_nth_error in Hx. destruct Hx as [i Hi]. apply (Hn (Z.of_nat i)); [|lia]. eapply in_band_nth; eassumption.
Qed.
Lemma disjoint_of (b : bins) : disjoint_bands b -> disjoint b.
Proof.
  intros [H1 H2] i j x y e e' Hi Hj He He' E.
  assert (Ei : Z.of_nat i = Z.of_nat j).
  { apply (H1 _ _ (e_ell e)); try lia; [eapply in_band_nth; eassumption|]. rewrite E. eapply in_band_nth; eassumption. }
  assert (i = j) by lia. subst j. split; [reflexivity|]. rewrite Hi in Hj. injection Hj as <-.
  eapply H2; [eapply nth_error_In; exact Hi | exact He | exact He' | exact E].
Qed.

Theorem C05_bin_unbin bpws ells lmax ws fs (b : bins) a c :
  NmtBin bpws ells lmax ws fs = Ok b -> nonneg_ells b -> disjoint_bands b -> arr_wf a ->
  unbin_cell b a = Ok c -> bin_cell b c = Ok a.
Proof.
  intros H Hn Hd Ha Hc. apply NmtBin_wf in H. pose proof (ells_in_of b H Hn) as He. apply disjoint_of in Hd.
  unfold unbin_cell in Hc. apply bind_ok in Hc. destruct Hc as [[oned cls] [Hg Hc]].
  rewrite unbin_eq in Hc by exact He. cbn [bind] in Hc. injection Hc as <-.
  assert (Hlm : (0 <= b_lmax b + 1)%Z).
  { destruct (b_bands b) as [|x t] eqn:Eb; [pose proof (wf_pos b H) as W; unfold get_n_bands in W; rewrite Eb in W; simpl in W; lia|].
    destruct x as [|e x]; [pose proof (wf_sum b H []) as W; rewrite Eb in W; exfalso; apply (@f1_neq_0 F); symmetry; apply W; left; reflexivity|].
    assert (G := He (e :: x) e). rewrite Eb in G. specialize (G (or_introl eq_refl) (or_introl eq_refl)). lia. }
  assert (HL : Forall (fun cl => Z.of_nat (length cl) = (b_lmax b + 1)%Z) (map (unbin1 b) cls)).
  { apply Forall_forall. intros cl Hcl. apply in_map_iff in Hcl. destruct Hcl as [v [<- _]]. rewrite length_unbin1. lia. }
  assert (Hcls : Forall (fun cl => length cl = length (b_bands b)) cls /\ reshape oned (length (b_bands b)) cls = a /\ cls <> []).
  { destruct a as [v|k v|]; cbn in Hg; unfold get_n_bands in Hg.
    - destruct (Z.eqb_spec (Z.of_nat (length v)) (Z.of_nat (length (b_bands b)))); [|discriminate]. injection Hg as <- <-.
      split; [constructor; [lia | constructor]|]. split; [reflexivity | discriminate].
    - destruct v as [|v0 v]; [discriminate|].
      destruct (Z.eqb_spec (Z.of_nat k) (Z.of_nat (length (b_bands b)))); [|discriminate]. injection Hg as <- <-.
      assert (Ek : k = length (b_bands b)) by lia. subst k. split; [exact Ha|]. split; [reflexivity | discriminate].
    - discriminate. }
  destruct Hcls as [HF [Hre Hne]].
  unfold bin_cell.
  assert (Eg : shape_guard (b_lmax b + 1) (reshape oned (Z.to_nat (b_lmax b + 1)) (map (unbin1 b) cls)) = Ok (oned, map (unbin1 b) cls)).
  { destruct cls as [|c0 cls]; [congruence|]. unfold reshape. destruct oned.
    - cbn [shape_guard map nth]. rewrite length_unbin1. replace (_ =? _)%Z with true by lia.
      destruct a as [v|k v|]; cbn in Hg; [|destruct v; [discriminate|]; destruct (_ =? _)%Z; discriminate|discriminate].
      destruct (_ =? _)%Z; [|discriminate]. injection Hg as <- <-. reflexivity.
    - cbn [shape_guard map]. replace (_ =? _)%Z with true by lia. reflexivity. }
  rewrite Eg. cbn [bind]. rewrite bin_eq by assumption. cbn [bind]. rewrite map_map.
  rewrite (map_ext_in _ (fun cl => cl)).
  - rewrite map_id, Hre. reflexivity.
  - intros cl Hcl. apply bin_unbin1; try assumption. rewrite Forall_forall in HF. apply HF. exact Hcl.
Qed.

Theorem C06_unbin_values bpws ells lmax ws fs (b : bins) a c :
  NmtBin bpws ells lmax ws fs = Ok b -> nonneg_ells b -> disjoint_bands b ->
  unbin_cell b a = Ok c ->
  length (spectra c) = length (spectra a) /\
  forall i v o, nth_error (spectra a) i = Some v -> nth_error (spectra c) i = Some o ->
    Z.of_nat (length o) = (b_lmax b + 1)%Z /\
    (forall ib x e cb, nth_error (b_bands b) ib = Some x -> In e x -> nth_error v ib = Some cb ->
       nth_error o (Z.to_nat (e_ell e)) = Some (cb / e_f e)) /\
    (forall l, (0 <= l <= b_lmax b)%Z -> (forall ib, (0 <= ib)%Z -> ~ in_band b ib l) -> nth_error o (Z.to_nat l) = Some 0).
Proof.
  intros H Hn Hd Hc. apply NmtBin_wf in H. pose proof (ells_in_of b H Hn) as He. apply disjoint_of in Hd.
  unfold unbin_cell in Hc. apply bind_ok in Hc. destruct Hc as [[oned cls] [Hg Hc]].
  rewrite unbin_eq in Hc by exact He. cbn [bind] in Hc. injection Hc as <-.
  assert (Hlm : (0 <= b_lmax b + 1)%Z).
  { destruct (b_bands b) as [|x t] eqn:Eb; [pose proof (wf_pos b H) as W; unfold get_n_bands in W; rewrite Eb in W; simpl in W; lia|].
    destruct x as [|e x]; [pose proof (wf_sum b H []) as W; rewrite Eb in W; exfalso; apply (@f1_neq_0 F); symmetry; apply W; left; reflexivity|].
    assert (G := He (e :: x) e). rewrite Eb in G. specialize (G (or_introl eq_refl) (or_introl eq_refl)). lia. }
  assert (Es : spectra a = cls /\ spectra (reshape oned (Z.to_nat (b_lmax b + 1)) (map (unbin1 b) cls)) = map (unbin1 b) cls).
  { destruct a as [v|k v|]; cbn in Hg.
    - destruct (_ =? _)%Z; [|discriminate]. injection Hg as <- <-. split; reflexivity.
    - destruct v as [|v0 v]; [discriminate|]. destruct (_ =? _)%Z; [|discriminate]. injection Hg as <- <-. split; reflexivity.
    - discriminate. }
  destruct Es as [-> ->]. split; [apply map_length|]. intros i v o Hv Ho.
  rewrite nth_error_map', Hv in Ho. cbn in Ho. injection Ho as <-.
  split; [rewrite length_unbin1; lia|]. split.
  - intros ib x e cb Hx Hin Hcb. rewrite <- (unbin1_nth b v ib x e cb He Hd Hx Hin Hcb).
    apply nth_error_nth'. rewrite length_unbin1. specialize (He x e (nth_error_In _ _ Hx) Hin). lia.
  - intros l Hl Hno. rewrite <- (unbin1_zero b v l He); [|lia|].
    + apply nth_error_nth'. rewrite length_unbin1. lia.
    + intros x e Hx Hin E. apply In_nth_error in Hx. destruct Hx as [k Hk].
      apply (Hno (Z.of_nat k)); [lia|]. rewrite <- E. eapply in_band_nth; eassumption.
Qed.

(** the f_ell passed by the caller is the one used for its multipole (non-positive entries count as one) *)
Theorem C06_f_ell_stored bpws ells lmax ws fs (b : bins) ib x :
  NmtBin bpws ells lmax ws fs = Ok b -> nth_error (b_bands b) ib = Some x ->
  map e_f x = map (fun f => if f <=? 0 then 1 else f)
    (given_ws (assigned bpws ells (weights_or_ones fs ells) (b_lmax b) (Z.of_nat ib))).
Proof.
  intros H Hx. pose proof (NmtBin_lmax _ _ _ _ _ _ H) as Hlm.
  apply NmtBin_ok in H. destruct H as [rows [E1 [E2 [_ [E4 H]]]]]. rewrite ones_wo in E4.
  rewrite <- Hlm in H. assert (Hr : (0 <= Z.of_nat ib < get_n_bands b)%Z).
  { unfold get_n_bands. assert (N : nth_error (b_bands b) ib <> None) by congruence. apply nth_error_Some in N. lia. }
  pose proof (bands_nth rows _ b (Z.of_nat ib) H Hr) as B. unfold get_band in B.
  replace (Z.of_nat ib <? get_n_bands b)%Z with true in B by lia. apply rd_ok in B. destruct B as [_ B].
  rewrite Nat2Z.id, Hx in B. injection B as ->. rewrite <- E4, <- E1, <- E2. clear.
  unfold norm_band. rewrite map_map. cbn [e_f]. rewrite map_map. unfold ent. cbn [e_f].
  unfold given_ws, assigned. set (lm := b_lmax b). clearbody lm. induction rows as [|r rows IH]; [reflexivity|]. simpl.
  destruct (r_ell r <=? lm)%Z, (r_bpw r =? Z.of_nat ib)%Z; simpl; rewrite <- IH; reflexivity.
Qed.

(** is_Dell multiplies by l(l+1)/2pi; an explicit f_ell takes precedence over is_Dell *)
Theorem C06_is_Dell (pi : F) ini fin (b : bins) x e :
  0 < pi -> from_edges pi ini fin true None = Ok b -> In x (b_bands b) -> In e x -> (1 <= e_ell e)%Z ->
  e_f e = fofZ (e_ell e * (e_ell e + 1)) / (fofZ 2 * pi).
Proof.
  intros Hp H Hx He Hl. unfold from_edges in H. apply bind_ok in H. destruct H as [[[ells bpws] ws] [_ H]].
  apply bind_ok in H. destruct H as [lm [_ H]]. cbn [opt_f_ell] in H.
  apply NmtBin_ok in H. destruct H as [rows [E1 [E2 [_ [E4 H]]]]]. cbn [lmax_of] in H.
  assert (G : forall r, In r rows -> r_f r = dell pi (r_ell r)).
  { clear - E2 E4. revert ells E2 E4. induction rows as [|r rows IH]; intros ells E2 E4 r' Hr; [destruct Hr|].
    destruct ells as [|l ells]; [discriminate|]. cbn in E2, E4. injection E2 as E2a E2b. injection E4 as E4a E4b.
    destruct Hr as [<-|Hr]; [rewrite E4a, E2a; reflexivity | eapply IH; eauto]. }
  apply create_ok in H. destruct H as [_ ->]. cbn [b_bands] in Hx. apply in_map_iff in Hx. destruct Hx as [y [<- Hy]].
  unfold raw_bands, tab in Hy. apply in_map_iff in Hy. destruct Hy as [ib [<- _]].
  unfold norm_band in He. apply in_map_iff in He. destruct He as [e' [<- He]]. cbn [e_ell e_f] in *.
  apply in_map_iff in He. destruct He as [r [<- Hr]]. unfold ent in *. cbn [e_ell e_f] in *.
  assert (Hin : In r rows) by (unfold sel in Hr; apply filter_In in Hr; tauto).
  rewrite (G r Hin). rewrite fix_f_id by (apply dell_pos; assumption). reflexivity.
Qed.
Theorem C06_explicit_f_ell_wins (pi : F) lmax nlb ini fin is_Dell f :
  from_lmax_linear pi lmax nlb is_Dell (Some f) = from_lmax_linear pi lmax nlb false (Some f) /\
  from_edges pi ini fin is_Dell (Some f) = from_edges pi ini fin false (Some f).
Proof. split; reflexivity. Qed.

(** ** C07: binning *)
(** the value of band [x] for a spectrum: weighted average *)
Definition average (x : list (entry F)) (cl : Z -> F) : F :=
  lsum (map (fun e => e_w e * (e_f e * cl (e_ell e))) x).
Definition at_ell (cl : list F) (l : Z) : F := nth (Z.to_nat l) cl 0.

Theorem C07_bin_is_weighted_average bpws ells lmax ws fs (b : bins) (cl : list F) :
  NmtBin bpws ells lmax ws fs = Ok b -> nonneg_ells b -> Z.of_nat (length cl) = (b_lmax b + 1)%Z ->
  bin_cell b (A1 cl) = Ok (A1 (map (fun x => average x (at_ell cl)) (b_bands b))).
Proof.
  intros H Hn HL. apply NmtBin_wf in H. pose proof (ells_in_of b H Hn) as He.
  unfold bin_cell. cbn [shape_guard]. rewrite HL, Z.eqb_refl. cbn [bind].
  rewrite bin_eq; [|exact He|constructor; [exact HL | constructor]]. cbn.
  f_equal. f_equal. apply map_ext. intro x. apply lsum_ext. intros e _. unfold at_ell. ring.
Qed.

Theorem C07_bin_linear bpws ells lmax ws fs (b : bins) (c1 c2 : list F) al be o1 o2 :
  NmtBin bpws ells lmax ws fs = Ok b -> nonneg_ells b ->
  length c1 = length c2 -> bin_cell b (A1 c1) = Ok (A1 o1) -> bin_cell b (A1 c2) = Ok (A1 o2) ->
  bin_cell b (A1 (map (fun p => al * fst p + be * snd p) (combine c1 c2))) =
  Ok (A1 (map (fun p => al * fst p + be * snd p) (combine o1 o2))).
Proof.
  intros H Hn HL H1 H2.
  assert (HL1 : Z.of_nat (length c1) = (b_lmax b + 1)%Z).
  { unfold bin_cell in H1. apply bind_ok in H1. destruct H1 as [[? ?] [Hg _]]. cbn in Hg.
    destruct (Z.eqb_spec (Z.of_nat (length c1)) (b_lmax b + 1)); [assumption | discriminate]. }
  assert (HL2 : Z.of_nat (length c2) = (b_lmax b + 1)%Z) by lia.
  rewrite (C07_bin_is_weighted_average _ _ _ _ _ b c1 H Hn HL1) in H1. injection H1 as <-.
  rewrite (C07_bin_is_weighted_average _ _ _ _ _ b c2 H Hn HL2) in H2. injection H2 as <-.
  rewrite (C07_bin_is_weighted_average _ _ _ _ _ b _ H Hn).
  2:{ rewrite map_length, combine_length. lia. }
  f_equal. f_equal. clear H Hn.
  induction (b_bands b) as [|x L IH]; [reflexivity|]. cbn [map combine]. f_equal; [|exact IH].
  cbn [fst snd]. unfold average. rewrite <- !lsum_mul_l, <- lsum_add. apply lsum_ext. intros e _. unfold at_ell.
  set (k := Z.to_nat (e_ell e)).
  assert (E : nth k (map (fun p => al * fst p + be * snd p) (combine c1 c2)) 0 = al * nth k c1 0 + be * nth k c2 0).
  { clearbody k. clear -HL. revert c2 HL k. induction c1 as [|a c1 IHc]; intros [|a2 c2] HL k; simpl in HL; try discriminate.
    - destruct k; simpl; ring.
    - destruct k; simpl; [reflexivity|]. apply IHc. lia. }
  rewrite E. ring.
Qed.

(** a bandpower depends only on the multipoles of its band *)
Theorem C07_bin_local bpws ells lmax ws fs (b : bins) (c1 c2 : list F) o1 o2 ib :
  NmtBin bpws ells lmax ws fs = Ok b -> nonneg_ells b ->
  bin_cell b (A1 c1) = Ok (A1 o1) -> bin_cell b (A1 c2) = Ok (A1 o2) ->
  (forall l, in_band b (Z.of_nat ib) l -> nth_error c1 (Z.to_nat l) = nth_error c2 (Z.to_nat l)) ->
  nth_error o1 ib = nth_error o2 ib.
Proof.
  intros H Hn H1 H2 Hloc.
  assert (G : forall c o, bin_cell b (A1 c) = Ok (A1 o) -> Z.of_nat (length c) = (b_lmax b + 1)%Z).
  { intros c o Hc. unfold bin_cell in Hc. apply bind_ok in Hc. destruct Hc as [[? ?] [Hg _]]. cbn in Hg.
    destruct (Z.eqb_spec (Z.of_nat (length c)) (b_lmax b + 1)); [assumption | discriminate]. }
  rewrite (C07_bin_is_weighted_average _ _ _ _ _ b c1 H Hn (G _ _ H1)) in H1. injection H1 as <-.
  rewrite (C07_bin_is_weighted_average _ _ _ _ _ b c2 H Hn (G _ _ H2)) in H2. injection H2 as <-.
  rewrite !nth_error_map'. destruct (nth_error (b_bands b) ib) as [x|] eqn:Ex; [|reflexivity]. cbn. f_equal.
  apply lsum_ext. intros e He. f_equal. f_equal. unfold at_ell.
  specialize (Hloc (e_ell e) (in_band_nth b ib x e Ex He)).
  unfold nth_error in Hloc. fold (@nth_error F) in Hloc.
  destruct (nth_error c1 (Z.to_nat (e_ell e))) as [y|] eqn:E1.
  - rewrite (nth_error_nth _ _ _ E1), (nth_error_nth _ _ 0 (eq_sym Hloc)). reflexivity.
  - symmetry in Hloc. apply nth_error_None in E1. apply nth_error_None in Hloc. rewrite !nth_overflow by assumption. reflexivity.
Qed.

(** with non-negative weights and no f_ell a bandpower is an average *)
Theorem C07_bin_bounded bpws ells lmax ws (b : bins) (cl : list F) o ib lo hi :
  NmtBin bpws ells lmax ws None = Ok b -> nonneg_ells b ->
  (forall x, In x (weights_or_ones ws ells) -> 0 <= x) ->
  bin_cell b (A1 cl) = Ok (A1 o) ->
  (forall l, in_band b (Z.of_nat ib) l -> exists v, nth_error cl (Z.to_nat l) = Some v /\ lo <= v /\ v <= hi) ->
  forall v, nth_error o ib = Some v -> lo <= v /\ v <= hi.
Proof.
  intros H Hn Hw Hc Hb v Hv.
  assert (G : Z.of_nat (length cl) = (b_lmax b + 1)%Z).
  { unfold bin_cell in Hc. apply bind_ok in Hc. destruct Hc as [[? ?] [Hg _]]. cbn in Hg.
    destruct (Z.eqb_spec (Z.of_nat (length cl)) (b_lmax b + 1)); [assumption | discriminate]. }
  rewrite (C07_bin_is_weighted_average _ _ _ _ _ b cl H Hn G) in Hc. injection Hc as <-.
  rewrite nth_error_map' in Hv. destruct (nth_error (b_bands b) ib) as [x|] eqn:Ex; [|discriminate]. cbn in Hv. injection Hv as <-.
  assert (Hib : (0 <= Z.of_nat ib < get_n_bands b)%Z).
  { unfold get_n_bands. assert (nth_error (b_bands b) ib <> None) by congruence. apply nth_error_Some in H0. lia. }
  assert (Exb : get_band b (Z.of_nat ib) = Ok x).
  { unfold get_band. replace (_ <? _)%Z with true by lia. unfold rd. replace (0 <=? Z.of_nat ib)%Z with true by lia.
    rewrite Nat2Z.id, Ex. reflexivity. }
  destruct (C01_weights_normalised _ _ _ _ _ _ H _ Hib) as [w [Hgw [Hs [Hp [Ew Hnn]]]]].
  unfold get_weight_list in Hgw. rewrite Exb in Hgw. cbn [bind] in Hgw. injection Hgw as <-.
  assert (Hf1 : forall e, In e x -> e_f e = 1).
  { pose proof H as H'. apply NmtBin_ok in H'. destruct H' as [rows [_ [_ [_ [E4 Hcr]]]]].
    pose proof (bands_nth rows _ b _ Hcr Hib) as Hbn. rewrite Exb in Hbn. injection Hbn as ->.
    intros e He. unfold norm_band in He. apply in_map_iff in He. destruct He as [e' [<- He']]. cbn.
    apply in_map_iff in He'. destruct He' as [r [<- Hr]]. cbn. unfold sel in Hr. apply filter_In in Hr. destruct Hr as [Hr _].
    assert (Hone : In (r_f r) (ones (length ells))) by (rewrite <- E4; apply in_map; exact Hr).
    unfold ones in Hone. apply repeat_spec in Hone. rewrite Hone. apply fix_f_id, f0_lt_1. }
  unfold average. rewrite (lsum_ext _ (fun e => e_w e * at_ell cl (e_ell e))).
  2:{ intros e He. rewrite Hf1 by exact He. ring. }
  apply avg_bounds; [|exact Hs]. intros e He. split.
  - apply Hnn; [|apply in_map; exact He]. intros y Hy. apply Hw. unfold given_ws, assigned in Hy.
    apply in_map_iff in Hy. destruct Hy as [[t y'] [<- Ht]]. apply filter_In in Ht. destruct Ht as [Ht _].
    apply in_combine_r in Ht. exact Ht.
  - destruct (Hb (e_ell e) (in_band_nth b ib x e Ex He)) as [v [Hv [H1 H2]]].
    unfold at_ell. rewrite (nth_error_nth _ _ 0 Hv). auto.
Qed.

(** ** C08 *)
Theorem C08_effective_ells bpws ells lmax ws fs (b : bins) ib lo hi :
  NmtBin bpws ells lmax ws fs = Ok b -> (forall x, In x (weights_or_ones ws ells) -> 0 <= x) ->
  (forall l, in_band b (Z.of_nat ib) l -> (lo <= l <= hi)%Z) ->
  Z.of_nat (length (get_effective_ells b)) = get_n_bands b /\
  forall v, nth_error (get_effective_ells b) ib = Some v -> fofZ lo <= v /\ v <= fofZ hi.
Proof.
  intros H Hw Hb. split; [unfold get_effective_ells, get_n_bands; rewrite map_length; reflexivity|].
  intros v Hv. unfold get_effective_ells in Hv. rewrite nth_error_map' in Hv.
  destruct (nth_error (b_bands b) ib) as [x|] eqn:Ex; [|discriminate]. cbn in Hv. injection Hv as <-.
  assert (Hib : (0 <= Z.of_nat ib < get_n_bands b)%Z).
  { unfold get_n_bands. assert (nth_error (b_bands b) ib <> None) by congruence. apply nth_error_Some in H0. lia. }
  assert (Exb : get_band b (Z.of_nat ib) = Ok x).
  { unfold get_band. replace (_ <? _)%Z with true by lia. unfold rd. replace (0 <=? Z.of_nat ib)%Z with true by lia.
    rewrite Nat2Z.id, Ex. reflexivity. }
  destruct (C01_weights_normalised _ _ _ _ _ _ H _ Hib) as [w [Hgw [Hs [Hp [Ew Hnn]]]]].
  unfold get_weight_list in Hgw. rewrite Exb in Hgw. cbn [bind] in Hgw. injection Hgw as <-.
  unfold ell_eff. rewrite (lsum_ext _ (fun e => e_w e * fofZ (e_ell e))) by (intros; ring).
  apply avg_bounds; [|exact Hs]. intros e He. split.
  - apply Hnn; [|apply in_map; exact He]. intros y Hy. apply Hw. unfold given_ws, assigned in Hy.
    apply in_map_iff in Hy. destruct Hy as [[t y'] [<- Ht]]. apply filter_In in Ht. destruct Ht as [Ht _].
    apply in_combine_r in Ht. exact Ht.
  - specialize (Hb (e_ell e) (in_band_nth b ib x e Ex He)). split; apply fofZ_le; lia.
Qed.

(** ell_min/ell_max are the extremes when the caller lists multipoles in increasing order *)
Theorem C08_ell_min_max (b : bins) ib L :
  get_ell_list b ib = Ok L -> L <> [] -> (forall i j, (i <= j < length L)%nat -> (nth i L 0 <= nth j L 0)%Z) ->
  exists mn mx, get_ell_min b ib = Ok mn /\ get_ell_max b ib = Ok mx /\ In mn L /\ In mx L /\
    forall l, In l L -> (mn <= l <= mx)%Z.
Proof.
  intros H Hne Hs. unfold get_ell_min, get_ell_max. rewrite H. cbn [bind]. destruct L as [|a t]; [congruence|].
  assert (El : last t a = nth (length t) (a :: t) 0%Z).
  { clear. assert (G : forall (u : list Z) b c, last (b :: u) c = last u b).
    { induction u as [|d u IHu]; intros b c; [reflexivity|]. change (last (d :: u) c = last (d :: u) b).
      rewrite (IHu d c), (IHu d b). reflexivity. }
    revert a. induction t as [|b t IH]; intro a; [reflexivity|]. rewrite G, IH. reflexivity. }
  exists a, (last t a). split; [reflexivity|]. split; [reflexivity|]. split; [left; reflexivity|].
  rewrite El. split; [apply nth_In; simpl; lia|]. intros l Hl. apply In_nth with (d := 0%Z) in Hl.
  destruct Hl as [i [Hi <-]]. cbn [length] in *. split.
  - apply (Hs 0%nat i). lia.
  - apply Hs. lia.
Qed.

(** ** C09 *)
Definition shape_ok (n : Z) (a : arr F) : Prop :=
  match a with A1 v => Z.of_nat (length v) = n | A2 k v => Z.of_nat k = n /\ v <> [] | AN => False end.
Definition same_rank (a c : arr F) (n : Z) : Prop :=
  match a, c with
  | A1 _, A1 o => Z.of_nat (length o) = n
  | A2 _ v, A2 k o => Z.of_nat k = n /\ length o = length v /\ Forall (fun r => Z.of_nat (length r) = n) o
  | _, _ => False
  end.

Theorem C09_bin_cell_guard bpws ells lmax ws fs (b : bins) a :
  NmtBin bpws ells lmax ws fs = Ok b -> nonneg_ells b -> arr_wf a ->
  (shape_ok (b_lmax b + 1) a -> exists c, bin_cell b a = Ok c /\ same_rank a c (get_n_bands b)) /\
  (~ shape_ok (b_lmax b + 1) a -> exists e, bin_cell b a = Exn e).
Proof.
  intros H Hn Ha. apply NmtBin_wf in H. pose proof (ells_in_of b H Hn) as He. unfold bin_cell. split.
  - intro Hs. destruct a as [v|k v|]; cbn in *; [| |contradiction].
    + rewrite Hs, Z.eqb_refl. cbn [bind]. rewrite bin_eq; [|exact He|constructor; [exact Hs | constructor]].
      eexists. split; [reflexivity|]. cbn. unfold get_n_bands. rewrite map_length. reflexivity.
    + destruct Hs as [Hk Hv]. destruct v as [|v0 v]; [congruence|]. rewrite Hk, Z.eqb_refl. cbn [bind].
      rewrite bin_eq.
      * eexists. split; [reflexivity|]. cbn [bind reshape same_rank]. unfold get_n_bands. rewrite map_length. repeat split.
        apply Forall_forall. intros r Hr. apply in_map_iff in Hr. destruct Hr as [cl [<- _]]. rewrite map_length. reflexivity.
      * exact He.
      * eapply Forall_impl; [|exact Ha]. cbn. intros. lia.
  - intro Hs. destruct a as [v|k v|]; cbn in *.
    + destruct (Z.eqb_spec (Z.of_nat (length v)) (b_lmax b + 1)); [contradiction|]. eexists. reflexivity.
    + destruct v as [|v0 v]; [eexists; reflexivity|].
      destruct (Z.eqb_spec (Z.of_nat k) (b_lmax b + 1)); [exfalso; apply Hs; split; [assumption | discriminate]|]. eexists. reflexivity.
    + eexists. reflexivity.
Qed.

Theorem C09_unbin_cell_guard bpws ells lmax ws fs (b : bins) a :
  NmtBin bpws ells lmax ws fs = Ok b -> nonneg_ells b ->
  (shape_ok (get_n_bands b) a -> exists c, unbin_cell b a = Ok c /\ same_rank a c (b_lmax b + 1)) /\
  (~ shape_ok (get_n_bands b) a -> exists e, unbin_cell b a = Exn e).
Proof.
  intros H Hn. apply NmtBin_wf in H. pose proof (ells_in_of b H Hn) as He. unfold unbin_cell.
  assert (Hlm : (0 <= b_lmax b + 1)%Z).
  { destruct (b_bands b) as [|x t] eqn:Eb; [pose proof (wf_pos b H) as W; unfold get_n_bands in W; rewrite Eb in W; simpl in W; lia|].
    destruct x as [|e x]; [pose proof (wf_sum b H []) as W; rewrite Eb in W; exfalso; apply (@f1_neq_0 F); symmetry; apply W; left; reflexivity|].
    assert (G := He (e :: x) e). rewrite Eb in G. specialize (G (or_introl eq_refl) (or_introl eq_refl)). lia. }
  split.
  - intro Hs. destruct a as [v|k v|]; cbn in Hs |- *; [| |contradiction].
    + rewrite Hs, Z.eqb_refl. cbn [bind]. rewrite unbin_eq by assumption.
      eexists. split; [reflexivity|]. cbn. rewrite length_unbin1. lia.
    + destruct Hs as [Hk Hv]. destruct v as [|v0 v]; [congruence|]. rewrite Hk, Z.eqb_refl. cbn [bind].
      rewrite unbin_eq by assumption. eexists. split; [reflexivity|].
      cbn [bind reshape same_rank]. rewrite map_length. split; [lia|]. split; [reflexivity|].
      apply Forall_forall. intros r Hr. apply in_map_iff in Hr. destruct Hr as [cl [<- _]]. rewrite length_unbin1. lia.
  - intro Hs. destruct a as [v|k v|]; cbn in Hs |- *.
    + destruct (Z.eqb_spec (Z.of_nat (length v)) (get_n_bands b)); [contradiction|]. eexists. reflexivity.
    + destruct v as [|v0 v]; [eexists; reflexivity|].
      destruct (Z.eqb_spec (Z.of_nat k) (get_n_bands b)); [exfalso; apply Hs; split; [assumption | discriminate]|]. eexists. reflexivity.
    + eexists. reflexivity.
Qed.

Theorem C09_band_index_guard (b : bins) ib :
  (get_n_bands b <= ib)%Z -> get_ell_list b ib = Exn RuntimeError /\ get_weight_list b ib = Exn RuntimeError.
Proof.
  intro H. unfold get_ell_list, get_weight_list, get_band. replace (ib <? get_n_bands b)%Z with false by lia. auto.
Qed.

End Statements.

(** ** Findings (witnesses evaluated over the rationals) *)
(** C09: a negative band index is not rejected, the C code reads outside its arrays *)
Theorem C09_negative_index_refuted :
  exists b : bins Qc_field, from_lmax_linear (q 22 7) 12 4 false None = Ok b /\ get_ell_list b (-1) = UB.
Proof. apply ex_ok. vm_compute. reflexivity. Qed.

(** C09: a negative multipole is accepted by the constructor and then read out of bounds *)
Theorem C09_negative_multipole_refuted :
  exists b : bins Qc_field, NmtBin [0; 0]%Z [-1; 2]%Z None None None = Ok b /\
    bin_cell b (A1 [qz 1; qz 1; qz 1]) = UB.
Proof. apply ex_ok. vm_compute. reflexivity. Qed.

(** C04: a reversed last interval is silently dropped *)
Theorem C04_reversed_edge_refuted :
  exists b : bins Qc_field, from_edges (q 22 7) [2; 10]%Z [10; 5]%Z false None = Ok b /\ get_n_bands b = 1%Z.
Proof. apply ex_ok. vm_compute. reflexivity. Qed.

(** entries of a 1-d array as plain fractions *)
Definition show (a : arr Qc_field) := match a with A1 v => map out v | _ => [] end.
(** C05: overlapping bands are accepted; then binning does not undo unbinning *)
Theorem C05_overlap_refuted :
  exists b : bins Qc_field, from_edges (q 22 7) [2; 3]%Z [4; 5]%Z false None = Ok b /\
    exists c, unbin_cell b (A1 [qz 1; qz 2]) = Ok c /\ exists o, bin_cell b c = Ok o /\ o <> A1 [qz 1; qz 2].
Proof.
  assert (G : exists b : bins Qc_field, from_edges (q 22 7) [2; 3]%Z [4; 5]%Z false None = Ok b /\
    match unbin_cell b (A1 [qz 1; qz 2]) with
    | Ok c => match bin_cell b c with Ok o => show o <> show (A1 [qz 1; qz 2]) | _ => False end | _ => False end).
  { apply ex_ok. vm_compute. discriminate. }
  destruct G as [b [Hb G]]. exists b. split; [exact Hb|]. apply ex_ok.
  destruct (unbin_cell b (A1 [qz 1; qz 2])) as [c|e|]; try contradiction. apply ex_ok.
  destruct (bin_cell b c) as [o|e|]; try contradiction. congruence.
Qed.

(** C08: get_ell_min returns the first, not the smallest multipole *)
Theorem C08_ell_min_refuted :
  exists b : bins Qc_field, NmtBin [0; 0]%Z [5; 3]%Z None None None = Ok b /\
    get_ell_min b 0 = Ok 5%Z /\ get_ell_list b 0 = Ok [5; 3]%Z.
Proof. apply ex_ok. vm_compute. auto. Qed.

(** C07: a negative f_ell is silently replaced by one instead of multiplying the spectrum *)
Theorem C07_negative_f_ell_refuted :
  exists b : bins Qc_field, NmtBin [0]%Z [2]%Z None None (Some [qz (-3)]) = Ok b /\
    exists o, bin_cell b (A1 [qz 0; qz 0; qz 5]) = Ok o /\ show o = [out (qz 5)].
Proof.
  assert (G : exists b : bins Qc_field, NmtBin [0]%Z [2]%Z None None (Some [qz (-3)]) = Ok b /\
    match bin_cell b (A1 [qz 0; qz 0; qz 5]) with Ok o => show o = [out (qz 5)] | _ => False end).
  { apply ex_ok. vm_compute. reflexivity. }
  destruct G as [b [Hb G]]. exists b. split; [exact Hb|]. apply ex_ok. exact G.
Qed.

(** ** Non-vacuity *)
Definition ex_bins : res (bins Qc_field) :=
  NmtBin [0; 0; 1; -1; 1]%Z [2; 3; 4; 5; 7]%Z (Some 6%Z) (Some [qz 1; qz 3; qz 2; qz 1; qz 1]) (Some [qz 1; qz 2; qz 0; qz 1; qz 1]).
Example ex_bins_ok : exists b, ex_bins = Ok b /\ get_n_bands b = 2%Z /\
  get_ell_list b 0 = Ok [2; 3]%Z /\ get_ell_list b 1 = Ok [4]%Z /\
  match get_weight_list b 0 with Ok w => map out w = map out [q 1 4; q 3 4] | _ => False end.
Proof. apply ex_ok. vm_compute. auto. Qed.
(** the hypotheses of C05, C06, C07 and C09 hold for this scheme *)
Example ex_bins_meets : exists b : bins Qc_field, ex_bins = Ok b /\ nonneg_ells b /\ disjoint_bands b /\
  match unbin_cell b (A1 [qz 7; qz 9]) with
  | Ok c => match bin_cell b c with Ok o => show o = map out [qz 7; qz 9] | _ => False end | _ => False end.
Proof.
  assert (G : exists b : bins Qc_field, ex_bins = Ok b /\
     (map (map e_ell) (b_bands b) = [[2; 3]; [4]]%Z /\
      match unbin_cell b (A1 [qz 7; qz 9]) with
      | Ok c => match bin_cell b c with Ok o => show o = map out [qz 7; qz 9] | _ => False end | _ => False end)).
  { apply ex_ok. vm_compute. auto. }
  destruct G as [b [Hb [G1 G2]]]. exists b. split; [exact Hb|].
  assert (K : forall ib l, (0 <= ib)%Z -> in_band b ib l -> (ib = 0%Z /\ (l = 2%Z \/ l = 3%Z)) \/ (ib = 1%Z /\ l = 4%Z)).
  { intros ib l Hib [L [HL Hl]].
    destruct (b_bands b) as [|x [|y [|z t]]] eqn:Eb; try discriminate. injection G1 as Ex Ey.
    assert (En : get_n_bands b = 2%Z) by (unfold get_n_bands; rewrite Eb; reflexivity).
    assert (ib = 0 \/ ib = 1 \/ 2 <= ib)%Z as [->|[->|H2]] by lia.
    - unfold get_ell_list, get_band in HL. rewrite En, Eb in HL. cbn in HL. injection HL as <-. rewrite Ex in Hl. cbn in Hl. lia.
    - unfold get_ell_list, get_band in HL. rewrite En, Eb in HL. cbn in HL. injection HL as <-. rewrite Ey in Hl. cbn in Hl. lia.
    - rewrite (proj1 (C09_band_index_guard b ib ltac:(lia))) in HL. discriminate. }
  split; [|split; [split|exact G2]].
  - intros ib l H Hib. apply (K ib l Hib) in H. lia.
  - intros i j l Hi Hj H1 H2. apply (K i l Hi) in H1. apply (K j l Hj) in H2. lia.
  - intros x e e' Hx He He' E. destruct (b_bands b) as [|x0 [|y [|z t]]]; try discriminate. injection G1 as Ex Ey.
    destruct Hx as [<-|[<-|[]]].
    + destruct x0 as [|a0 [|a1 [|a2 t]]]; try discriminate. injection Ex as E0 E1.
      destruct He as [<-|[<-|[]]], He' as [<-|[<-|[]]]; congruence.
    + destruct y as [|a0 [|a1 t]]; try discriminate.
      destruct He as [<-|[]], He' as [<-|[]]; reflexivity.
Qed.
Example ex_lin : exists b : bins Qc_field, from_lmax_linear (q 22 7) 13 4 true None = Ok b /\ get_n_bands b = 3%Z /\
  get_ell_list b 2 = Ok [10; 11; 12; 13]%Z.
Proof. apply ex_ok. vm_compute. auto. Qed.
Example ex_edges : exists b : bins Qc_field, from_edges (q 22 7) [2; 9]%Z [5; 11]%Z false None = Ok b /\ get_n_bands b = 2%Z /\
  get_ell_list b 1 = Ok [9; 10]%Z /\ b_lmax b = 10%Z.
Proof. apply ex_ok. vm_compute. auto. Qed.
(** bad weights are rejected *)
Example ex_bad_weights : NmtBin [0; 1]%Z [2; 3]%Z (Some 3%Z) (Some [qz 1; qz 0]) (Some [qz 1; qz 1]) = Exn RuntimeError.
Proof. vm_compute. reflexivity. Qed.

Print Assumptions C01_weights_normalised.
Print Assumptions C01_bad_weights_rejected.
Print Assumptions C02_band_membership.
Print Assumptions C02_construction_memory_safe.
Print Assumptions C02_construction_outcome.
Print Assumptions C03_linear_is_constant.
Print Assumptions C03_linear_tiling.
Print Assumptions C03_too_short_rejected.
Print Assumptions C03_nside.
Print Assumptions C04_edges.
Print Assumptions C04_edges_accepted.
Print Assumptions C05_bin_unbin.
Print Assumptions C06_unbin_values.
Print Assumptions C07_bin_is_weighted_average.
Print Assumptions C07_bin_linear.
Print Assumptions C07_bin_local.
Print Assumptions C07_bin_bounded.
Print Assumptions C08_effective_ells.
Print Assumptions C08_ell_min_max.
Print Assumptions C09_bin_cell_guard.
Print Assumptions C09_unbin_cell_guard.
Print Assumptions C09_band_index_guard.
Print Assumptions C06_f_ell_stored.
Print Assumptions C06_is_Dell.
Print Assumptions C06_explicit_f_ell_wins.
