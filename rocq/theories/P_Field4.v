(** Properties C37 (pixels outside the mask, anisotropic weights), C39 (cached multipoles), C40 (compatibility),
    C66-C68 (purification). *)
From Verif Require Import Base M_Utils L_Utils M_Field L_Field L_Field2 P_Utils P_Field P_Field2 P_Field3.
Section PF4.
Context {F : ofield}.
Local Open Scope F_scope.
Add Field FfPFi4 : (fth F).
Notation mat := (list (list F)).
Variable fourpi : F.
Variable fsqrt : F -> F.
Variable eigh : mat -> list F * mat.
Variable np_inv : mat -> res mat.
Notation new := (field_new fourpi fsqrt eigh np_inv).

(** two arrays of the shape of the mask with the same values wherever the mask is not zero *)
Definition agree (mask x y : imap F) : Prop :=
  match mask, x, y with
  | I1 m, I1 x, I1 y => length x = length m /\ length y = length m /\ forall k, nth k m 0 <> 0 -> nth k x 0 = nth k y 0
  | I2 k m, I2 kx x, I2 ky y => kx = k /\ ky = k /\ length x = length m /\ length y = length m /\ forall i j, nth j (nth i m []) 0 <> 0 -> nth j (nth i x []) 0 = nth j (nth i y []) 0
  | _, _, _ => False
  end.
Lemma vmul_agree (m x y : list F) : length x = length m -> length y = length m -> (forall k, nth k m 0 <> 0 -> nth k x 0 = nth k y 0) -> zipw fmul m x = zipw fmul m y.
Proof.
  intros Lx Ly H. apply (list_eq_nth _ _ 0); [rewrite !length_zipw; lia|]. intros k Hk. rewrite length_zipw in Hk. rewrite !(nth_zipw fmul _ _ k 0 0 0) by lia.
  destruct (nth k m 0 =? 0) eqn:E; [apply feqb_eq in E; rewrite E; ring|]. apply feqb_neq in E. rewrite (H k E). reflexivity.
Qed.
Lemma agree_ibin mask x y : rect mask -> rect x -> rect y -> agree mask x y -> exists z, ibin fmul mask x = Ok z /\ ibin fmul mask y = Ok z.
Proof.
  destruct mask as [m|k m], x as [x|kx x], y as [y|ky y]; cbn [agree]; try contradiction.
  - intros _ _ _ (Lx & Ly & H). exists (I1 (zipw fmul m x)). cbn [ibin]. rewrite Lx, Ly, Nat.eqb_refl. split; [reflexivity|]. rewrite (vmul_agree m x y Lx Ly H). reflexivity.
  - cbn [rect]. intros Rm Rx Ry (-> & -> & Lx & Ly & H). exists (I2 k (zipw (zipw fmul) m x)). cbn [ibin]. rewrite Lx, Ly, !Nat.eqb_refl. cbn [andb]. split; [reflexivity|]. do 2 f_equal.
    apply (list_eq_nth _ _ []); [rewrite !length_zipw; lia|]. intros i Hi. rewrite length_zipw in Hi. rewrite !(nth_zipw (zipw fmul) _ _ i [] [] []) by lia. rewrite Forall_forall in *.
    assert (Lm : length (nth i m []) = k) by (apply Rm, nth_In; lia). apply vmul_agree; [| |intros j Hj; symmetry; apply H; exact Hj]; rewrite Lm; [apply Ry | apply Rx]; apply nth_In; lia.
Qed.
Lemma agree_all mask l1 : forall l2, rect mask -> Forall rect l1 -> Forall rect l2 -> Forall2 (agree mask) l1 l2 -> exists l, mapM (ibin fmul mask) l1 = Ok l /\ mapM (ibin fmul mask) l2 = Ok l.
Proof.
  induction l1 as [|x l1 IH]; intros l2 Rm R1 R2 H; inversion H; subst; [exists []; split; reflexivity|]. inversion R1; subst. inversion R2; subst.
  destruct (agree_ibin mask x y Rm H3 H6 H2) as (z & E1 & E2). destruct (IH l' Rm H5 H7 H4) as (l & E3 & E4). exists (z :: l). cbn [mapM]. rewrite E1, E2. cbn [bind]. rewrite E3, E4. split; reflexivity.
Qed.
Lemma Forall2_len {A B} (P : A -> B -> Prop) l l' : Forall2 P l l' -> length l = length l'.
Proof. induction 1; cbn [length]; congruence. Qed.
Theorem C37_outside_mask K p a im1 im2 : rect_args a -> Forall rect im2 -> a_mask22 a = None -> a_mask12 a = None -> a_moi a = false -> a_pe a = false -> a_pb a = false ->
  a_maps a = Some im1 -> Forall2 (agree (a_mask a)) im1 im2 -> new K p (set_maps a im2) = new K p a.
Proof.
  intros R Ra2 N22 N12 Mo Pe Pb Em AG. rewrite !new_staged. unfold staged, set_maps. rewrite head_set_data. destruct (head_of fourpi a) as [h|e|] eqn:Eh; cbn [bind]; [|reflexivity|reflexivity]. rewrite Em. cbn [a_maps set_data].
  assert (HM : reform_map (h_s h) (a_mask a) = Ok (h_mask h) /\ h_mask_a h = None).
  { clear - Eh N22 N12. unfold head_of in Eh. rewrite N22, N12 in Eh. cbn [weights is_some orb bind] in Eh. apply bind_ok in Eh as ([[s lm] ang] & E2 & Eh). apply bind_ok in Eh as (mk & E3 & Eh). cbn [bind] in Eh. cbv zeta in Eh. destruct (_ || _)%bool; [discriminate Eh|]. apply bind_ok in Eh as (beam & E5 & Eh). injection Eh as <-. split; [exact E3 | reflexivity]. }
  destruct HM as [HM NA]. destruct R as (R1 & _ & _ & R4 & R5). destruct (agree_all (a_mask a) im1 im2 R1 (R4 _ Em) Ra2 AG) as (im' & I1' & I2').
  destruct (ibin_reforms (h_s h) (a_mask a) (h_mask h) im1 im' R1 (R4 _ Em) I1' HM) as (m1 & E1 & V1). destruct (ibin_reforms (h_s h) (a_mask a) (h_mask h) im2 im' R1 Ra2 I2' HM) as (m2 & E2 & V2). rewrite V1 in V2. injection V2 as V2.
  set (a' := set_data a im2 (a_temp a) (a_moi a)). unfold body_of. rewrite <- (Forall2_len _ _ _ AG). cbn [a_spin set_data a' a_temp]. destruct (spin_of _ _) as [spin|e|]; cbn [bind]; [|reflexivity|reflexivity]. rewrite E1, E2. cbn [bind].
  change (pure a') with (pure a). unfold anis_ok. rewrite NA. cbn [is_some bind]. assert (Lm : length m2 = length m1) by (apply mapM_length in E1, E2; rewrite E1, E2; symmetry; apply (Forall2_len _ _ _ AG)). rewrite Lm. unfold pure. rewrite Pe, Pb. cbn [orb andb].
  cbn [a_temp set_data a']. destruct (temps_of (a_temp a) (length m1) (h_s h)) as [tm|e|]; cbn [bind]; [|reflexivity|reflexivity].
  assert (Mk : masked a' h m2 = masked a h m1) by (unfold masked; cbn [a_moi set_data a']; rewrite Mo, NA; cbn [apply_mask]; symmetry; exact V2).
  unfold L_Field2.clean. destruct tm as [t|].
  - rewrite Mk. change (masked_t a' h t) with (masked_t a h t). change (tol_of p a') with (tol_of p a). destruct (deproject _ _ _ _ _ _) as [[iM al]|e|]; cbn [bind]; [|reflexivity|reflexivity]. unfold alms_of. change (pure a') with (pure a). unfold pure. rewrite Pe, Pb. reflexivity.
  - cbn [bind]. rewrite Mk. unfold alms_of. change (pure a') with (pure a). unfold pure. rewrite Pe, Pb. reflexivity.
Qed.
Lemma reform_imul c s (x : imap F) v : rect x -> reform_map s x = Ok v -> reform_map s (imul c x) = Ok (map (fmul c) v).
Proof.
  destruct s as [n w | ny nx nf f1 f2 wts], x as [x | k x]; cbn [reform_map imul]; intros R H; try discriminate H.
  - rewrite map_length. destruct (_ =? _)%Z; [|discriminate H]. injection H as <-. reflexivity.
  - rewrite map_length. destruct (_ && _)%bool; [|discriminate H]. injection H as <-. f_equal. rewrite concat_map. f_equal. destruct f1, f2; rewrite ?map_rev, ?map_map; try reflexivity; rewrite ?map_rev; try (apply f_equal); try (apply map_ext; intro; rewrite ?map_rev; reflexivity); f_equal; apply map_ext; intro; rewrite map_rev; reflexivity.
Qed.
(** what the anisotropic weights do: the map stored is the product of the symmetric matrix with the pair of maps *)
Theorem C37_anisotropic K p a f im m22 m12 w11 w22 w12 m maps : rect_args a -> new K p a = Ok f -> a_moi a = false -> a_mask22 a = Some m22 -> a_mask12 a = Some m12 -> a_maps a = Some im -> get_maps f = Ok maps ->
  reform_map (f_info f) (a_mask a) = Ok w11 -> reform_map (f_info f) m22 = Ok w22 -> reform_map (f_info f) m12 = Ok w12 -> mapM (reform_map (f_info f)) im = Ok m ->
  length maps = 2%nat /\ forall q, (q < npix (f_info f))%nat ->
    mg maps 0 q = nth q w11 0 * mg m 0 q + nth q w12 0 * mg m 1 q /\ mg maps 1 q = nth q w12 0 * mg m 0 q + nth q w22 0 * mg m 1 q.
Proof.
  intros R H Mo E22 E12 Em Gm H11 H22 H12 Hm. assert (Pu : pure a = false /\ a_temp a = TNone).
  { rewrite new_staged in H. unfold staged in H. apply bind_ok in H as (h & Eh & H). rewrite Em in H. apply bind_ok in H as ([[spin m0] tm] & Eb & H). clear H. apply body_inv in Eb as (_ & _ & _ & Eu & _). unfold anis_ok in Eu.
    assert (SA : is_some (h_mask_a h) = true). { unfold head_of in Eh. rewrite E22, E12 in Eh. apply bind_ok in Eh as ([mask ma] & E1 & Eh). unfold weights in E1. cbn [is_some orb] in E1. apply bind_ok in E1 as (x1 & _ & E1). apply bind_ok in E1 as (x2 & _ & E1). apply bind_ok in E1 as (x3 & _ & E1). apply bind_ok in E1 as (x4 & _ & E1). apply bind_ok in E1 as (x5 & _ & E1). cbv zeta in E1. destruct (existsb _ _); [discriminate E1|]. injection E1 as <- <-.
      apply bind_ok in Eh as ([[s lm] ang] & E2 & Eh). apply bind_ok in Eh as (mk & E3 & Eh). apply bind_ok in Eh as (mask_a & E4 & Eh). apply bind_ok in E4 as (r & _ & E4). injection E4 as <-. cbv zeta in Eh. destruct (_ || _)%bool; [discriminate Eh|]. apply bind_ok in Eh as (beam & E5 & Eh). injection Eh as <-. reflexivity. }
    rewrite SA in Eu. destruct (spin =? 0)%Z; [discriminate Eu|]. destruct (pure a); [discriminate Eu|]. destruct (a_temp a); [auto | discriminate Eu | discriminate Eu]. }
  destruct Pu as [Pu Nt]. unfold pure in Pu. apply orb_false_elim in Pu as [Pe Pb].
  destruct (unpure_inv fourpi fsqrt eigh np_inv K p a f im R H Em Pe Pb) as (h & spin & m0 & tm & m' & mu & iM & als & alm & Eh & Eb & Ec & Ea & Ei & _ & _ & _ & _ & Fm & _ & _ & _). rewrite Ei in *.
  destruct (body_inv _ _ _ _ _ _ Eb) as (Es & Er & _ & Eu & Etm). rewrite Er in Hm. injection Hm as <-. rewrite Nt in Etm. cbn [temps_of] in Etm. injection Etm as <-. cbn [L_Field2.clean] in Ec. injection Ec as <- _ _ _.
  unfold get_maps in Gm. rewrite Fm in Gm. unfold keep in Gm. destruct (a_lite a); [discriminate Gm|]. cbn [stored] in Gm. injection Gm as <-.
  destruct (body_shapes a h im _ _ _ R Em Eb) as (Sm & _ & Nc). destruct R as (R1 & R2 & R3 & _). specialize (R2 _ E22). specialize (R3 _ E12).
  pose proof (length_reform _ _ _ R1 H11) as L11. pose proof (length_reform _ _ _ R2 H22) as L22. pose proof (length_reform _ _ _ R3 H12) as L12.
  (* the three stored weights *)
  assert (W : h_mask h = map (fmul (1 / fofZ 2)) (zipw fadd w11 w22) /\ h_mask_a h = Some [map (fmul (1 / fofZ 2)) (zipw fsub w11 w22); w12]).
  { unfold head_of in Eh. rewrite E22, E12 in Eh. apply bind_ok in Eh as ([mask ma] & E1 & Eh). unfold weights in E1. cbn [is_some orb] in E1. apply bind_ok in E1 as (x1 & X1 & E1). apply bind_ok in E1 as (x2 & X2 & E1). apply bind_ok in E1 as (x3 & _ & E1). apply bind_ok in E1 as (x4 & _ & E1). apply bind_ok in E1 as (x5 & _ & E1). cbv zeta in E1. destruct (existsb _ _); [discriminate E1|]. injection E1 as <- <-.
    apply bind_ok in Eh as ([[s lm] ang] & E2 & Eh). apply bind_ok in Eh as (mk & E3 & Eh). apply bind_ok in Eh as (mask_a & E4 & Eh). apply bind_ok in E4 as (r & E4 & E5). injection E5 as <-. cbv zeta in Eh. destruct (_ || _)%bool; [discriminate Eh|]. apply bind_ok in Eh as (beam & E5 & Eh). injection Eh as <-. cbn [h_s h_mask h_mask_a] in *.
    destruct (ibin_reform fadd s _ _ x1 w11 R1 R2 X1 H11) as (u1 & U1 & V1). rewrite H22 in U1. injection U1 as <-. destruct (ibin_reform fsub s _ _ x2 w11 R1 R2 X2 H11) as (u2 & U2 & V2). rewrite H22 in U2. injection U2 as <-.
    rewrite (reform_imul _ s x1 _ (rect_ibin _ _ _ _ R1 R2 X1) V1) in E3. injection E3 as <-. cbn [mapM] in E4. rewrite (reform_imul _ s x2 _ (rect_ibin _ _ _ _ R1 R2 X2) V2) in E4. rewrite H12 in E4. cbn [bind] in E4. injection E4 as <-. split; reflexivity. }
  destruct W as [W1 W2].
  assert (N2 : length im = 2%nat). { unfold anis_ok in Eu. rewrite W2 in Eu. cbn [is_some] in Eu. destruct Nc as [N1|N2]; [|exact N2]. unfold spin_of in Es. rewrite N1 in Es. cbn [Nat.eqb negb andb] in Es. destruct (a_spin a) as [sp|]; [|injection Es as <-; discriminate Eu]. destruct (sp =? 0)%Z eqn:X; cbn [negb andb orb] in Es; [injection Es as <-; rewrite X in Eu; discriminate Eu | discriminate Es]. }
  rewrite N2 in Sm. destruct m0 as [|q0 [|u0 [|]]]; destruct Sm as [Ls Fs]; try discriminate Ls. inversion Fs as [|? ? Lq Fs']; subst. inversion Fs' as [|? ? Lu _]; subst.
  unfold masked. rewrite Mo, W1, W2. cbn [apply_mask nth map]. rewrite !zipw_cons. split; [reflexivity|]. intros q Hq. unfold mg. cbn [nth].
  assert (T : fofZ 2 <> (0 : F)) by (apply fpos_neq, (fofZ_pos 2); lia).
  unfold vmul. split.
  all: repeat (rewrite (nth_zipw _ _ _ q 0 0 0) by (rewrite ?length_zipw, ?map_length, ?length_zipw; lia)).
  all: rewrite !(nth_map' (fmul (1 / fofZ 2)) _ (0 : F)) by (rewrite length_zipw; lia).
  all: repeat (rewrite (nth_zipw _ _ _ q 0 0 0) by lia).
  all: replace (fofZ 2 : F) with (1 + 1 : F) in * by (change 2%Z with (1 + 1)%Z; rewrite fofZ_add, fofZ_1; reflexivity); field; exact T.
Qed.

(** ** C39 *)
(** a sequence of getter calls on one field: [true] asks for the multipoles of the mask, [false] for the
    anisotropic ones *)
Definition call (K : calc F) (b : bool) (f : nfield F) : nfield F * res mat :=
  if b then let '(f, r) := get_mask_alms K f in (f, do x <- r; Ok [x]) else get_anisotropic_mask_alms K f.
Fixpoint calls (K : calc F) (l : list bool) (f : nfield F) : nfield F * list (res mat) :=
  match l with [] => (f, []) | b :: l => let '(f, r) := call K b f in let '(f, rs) := calls K l f in (f, r :: rs) end.
Lemma call_same K b c f : snd (call K c (fst (call K b f))) = snd (call K c f).
Proof.
  destruct f as [i g m ma lm lmm bm sp nm pe pb li ni nim nt alm mp tm at_ iM als am ama]. unfold call, get_mask_alms, get_anisotropic_mask_alms, set_alm_mask. cbn [f_alm_mask f_alm_mask_a f_mask_a f_lite f_info f_lmaxm f_niterm f_mask f_spin].
  destruct b.
  - destruct am as [am|]; [destruct c; reflexivity|]. destruct (sht K 0 i lmm nim [m]) as [r|e|] eqn:E1.
    + destruct li; cbn [fst snd]; destruct c; cbn [fst snd bind f_alm_mask f_alm_mask_a f_mask_a f_lite f_info f_lmaxm f_niterm f_mask f_spin]; rewrite ?E1. all: try reflexivity. destruct ma as [ma|]; [|reflexivity]. destruct ama; [reflexivity|]. destruct (sht K (2 * sp) i lmm nim ma); reflexivity.
    + cbn [fst snd]. destruct c; cbn [fst snd bind f_alm_mask f_alm_mask_a f_mask_a f_lite f_info f_lmaxm f_niterm f_mask f_spin]; rewrite ?E1; reflexivity.
    + cbn [fst snd]. destruct c; cbn [fst snd bind f_alm_mask f_alm_mask_a f_mask_a f_lite f_info f_lmaxm f_niterm f_mask f_spin]; rewrite ?E1; reflexivity.
  - destruct ma as [ma|]; [|destruct c; reflexivity]. destruct ama as [ama|]; [destruct c; reflexivity|]. destruct (sht K (2 * sp) i lmm nim ma) as [r|e|] eqn:E1.
    + destruct li; cbn [fst snd]; destruct c; cbn [fst snd bind f_alm_mask f_alm_mask_a f_mask_a f_lite f_info f_lmaxm f_niterm f_mask f_spin]; rewrite ?E1; try reflexivity. destruct am; [reflexivity|]. destruct (sht K 0 i lmm nim [m]); reflexivity.
    + cbn [fst snd]. destruct c; cbn [fst snd bind f_alm_mask f_alm_mask_a f_mask_a f_lite f_info f_lmaxm f_niterm f_mask f_spin]; rewrite ?E1; reflexivity.
    + cbn [fst snd]. destruct c; cbn [fst snd bind f_alm_mask f_alm_mask_a f_mask_a f_lite f_info f_lmaxm f_niterm f_mask f_spin]; rewrite ?E1; reflexivity.
Qed.
Theorem C39_any_order K l f : snd (calls K l f) = map (fun b => snd (call K b f)) l.
Proof.
  assert (G : forall l g, (forall c, snd (call K c g) = snd (call K c f)) -> snd (calls K l g) = map (fun b => snd (call K b f)) l).
  { clear l. induction l as [|b l IH]; intros g Hg; [reflexivity|]. cbn [calls map]. rewrite <- (Hg b). pose proof (fun c => eq_trans (call_same K b c g) (Hg c)) as N. destruct (call K b g) as [g' r] eqn:E. cbn [fst snd] in *. specialize (IH g' N). destruct (calls K l g') as [g'' rs]. cbn [snd] in *. rewrite IH. reflexivity. }
  apply G. intro; reflexivity.
Qed.
(** the multipoles of a field that is not lite do not change even if the calculator is changed after the first call *)
Theorem C39_survives_calculator_change K K' b f r : f_lite f = false -> snd (call K b f) = Ok r -> snd (call K' b (fst (call K b f))) = Ok r.
Proof.
  destruct f as [i g m ma lm lmm bm sp nm pe pb li ni nim nt alm mp tm at_ iM als am ama]. unfold call, get_mask_alms, get_anisotropic_mask_alms, set_alm_mask. cbn [f_alm_mask f_alm_mask_a f_mask_a f_lite f_info f_lmaxm f_niterm f_mask f_spin]. intros ->.
  destruct b.
  - destruct am as [am|]; [intro E; exact E|]. destruct (sht K 0 i lmm nim [m]) as [x|e|]; cbn [fst snd bind f_alm_mask f_alm_mask_a f_mask_a f_lite f_info f_lmaxm f_niterm f_mask f_spin]; intro E; try discriminate E; exact E.
  - destruct ma as [ma|]; [|intro E; exact E]. destruct ama as [ama|]; [intro E; exact E|]. destruct (sht K (2 * sp) i lmm nim ma) as [x|e|]; cbn [fst snd bind f_alm_mask f_alm_mask_a f_mask_a f_lite f_info f_lmaxm f_niterm f_mask f_spin]; intro E; try discriminate E; exact E.
Qed.
(** nothing else about the field changes *)
Theorem C39_nothing_else K l f : exists m a, fst (calls K l f) = set_alm_mask f m a.
Proof.
  revert f. induction l as [|b l IH]; intro f.
  - exists (f_alm_mask f), (f_alm_mask_a f). destruct f; reflexivity.
  - cbn [calls]. assert (G : exists m a, fst (call K b f) = set_alm_mask f m a).
    { destruct f as [i g m ma lm lmm bm sp nm pe pb li ni nim nt alm mp tm at_ iM als am ama]. unfold call, get_mask_alms, get_anisotropic_mask_alms. cbn [f_alm_mask f_alm_mask_a f_mask_a f_lite f_info f_lmaxm f_niterm f_mask f_spin].
      assert (I : exists m0 a0, NField i g m ma lm lmm bm sp nm pe pb li ni nim nt alm mp tm at_ iM als am ama = set_alm_mask (NField i g m ma lm lmm bm sp nm pe pb li ni nim nt alm mp tm at_ iM als am ama) m0 a0) by (exists am, ama; reflexivity).
      destruct b.
      - destruct am as [am|]; [exact I|]. destruct (sht K 0 i lmm nim [m]); [|exact I|exact I]. destruct li; cbn [fst]; [exact I | eexists _, _; reflexivity].
      - destruct ma as [ma|]; [|exact I]. destruct ama as [ama|]; [exact I|]. destruct (sht K (2 * sp) i lmm nim ma); [|exact I|exact I]. destruct li; cbn [fst]; [exact I | eexists _, _; reflexivity]. }
    destruct G as (m1 & a1 & G). destruct (call K b f) as [f' r]. cbn [fst] in G. subst f'. destruct (IH (set_alm_mask f m1 a1)) as (m2 & a2 & G2). destruct (calls K l (set_alm_mask f m1 a1)) as [f'' rs]. cbn [fst] in *. exists m2, a2. rewrite G2. reflexivity.
Qed.

(** ** C40 *)
Lemma leqb_eq (a b : list F) : leqb a b = true <-> a = b.
Proof.
  revert b. induction a as [|x a IH]; intros [|y b]; cbn [leqb]; split; try discriminate; try reflexivity.
  - intro H. apply andb_prop in H as [H1 H2]. apply feqb_eq in H1. apply IH in H2. congruence.
  - intro H. injection H as -> ->. rewrite (proj2 (IH b) eq_refl), (proj2 (feqb_eq y y) eq_refl). reflexivity.
Qed.
(** what is compared, independently of the code: maximum multipoles and (strict) the pixelisation *)
Definition pixels (f : nfield F) : (bool * Z * nat * nat * list F) :=
  match f_info f with Hpx n _ => (true, n, 0%nat, 0%nat, []) | Car ny nx _ _ _ _ => (false, 0%Z, ny, nx, f_angles f) end.
Theorem C40_meaning f g strict : is_compatible f g strict = true <-> f_lmax f = f_lmax g /\ f_lmaxm f = f_lmaxm g /\ (strict = true -> pixels f = pixels g).
Proof.
  unfold is_compatible. assert (P : info_eq (f_info f) (f_angles f) (f_info g) (f_angles g) = true <-> pixels f = pixels g).
  { unfold pixels. destruct (f_info f) as [n w|ny nx ? ? ? ?], (f_info g) as [n' w'|ny' nx' ? ? ? ?]; cbn [info_eq]; split; try discriminate.
    - intro H. apply Z.eqb_eq in H. congruence.
    - intro H. injection H as ->. apply Z.eqb_refl.
    - intro H. apply andb_prop in H as [H H4]. apply andb_prop in H as [H H3]. apply andb_prop in H as [H1 H2]. apply Nat.eqb_eq in H2, H3. apply leqb_eq in H4. congruence.
    - intro H. injection H as -> -> H. rewrite !Nat.eqb_refl, (proj2 (leqb_eq _ _) H). reflexivity. }
  destruct (Z.eqb_spec (f_lmaxm f) (f_lmaxm g)) as [E1|E1]; destruct (Z.eqb_spec (f_lmax f) (f_lmax g)) as [E2|E2]; destruct strict; cbn [andb negb]; try (destruct (info_eq _ _ _ _); cbn [negb]); split; try discriminate; try tauto.
Qed.
Theorem C40_reflexive (f : nfield F) strict : is_compatible f f strict = true.
Proof. apply C40_meaning. auto. Qed.
Theorem C40_symmetric (f g : nfield F) strict : is_compatible f g strict = is_compatible g f strict.
Proof. apply eq_true_iff_eq. rewrite !C40_meaning. intuition congruence. Qed.
Theorem C40_transitive (f g h : nfield F) strict : is_compatible f g strict = true -> is_compatible g h strict = true -> is_compatible f h strict = true.
Proof. rewrite !C40_meaning. intuition congruence. Qed.
Theorem C40_strict (f g : nfield F) strict : is_compatible f g true = true -> is_compatible f g strict = true.
Proof. rewrite !C40_meaning. intuition congruence. Qed.
End PF4.
