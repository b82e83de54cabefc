(** Property C88: the flat-sky Gaussian covariance for polarised maps. *)
From Verif Require Import Base M_Utils M_Bins M_FlatBins M_LinAlg M_Workspace M_Flat M_WspFlat M_Covar M_CovFlat P_FlatBins L_LinAlg L_Flat L_Flat2 L_Flat3 P_Flat L_FITS L_MCM L_WspFlat L_WspFlat2 P_WspFlat P_Workspace P_Covar2 L_FlatMean P_FlatMean L_FlatMeanSpin P_FlatMeanSpin L_CovFlat L_CovFlat2 L_CovFlat3 L_Wick L_CovPol P_CovFlat.
From Coq Require Import Permutation.
Open Scope nat_scope.

Section Statements.
Context {F : ofield}.
Local Open Scope F_scope.
Add Field FfPCP : (fth F).
Notation mat := (list (list F)).
Notation cplx := (cplx F).
Notation fsinfo := (fsinfo F).
Notation fbins := (fbins F).
Notation cuts := (cuts F).
Notation fwsp := (fwsp F).
Notation cfwsp := (cfwsp F).
Variables (pi : F) (fsqrt : F -> F) (trunc : F -> Z) (ph : nat -> nat -> cplx) (imul : Z -> Z -> res Z).
Notation new_field := (new_field pi fsqrt ph).
Notation workspace_spins := (workspace_spins pi fsqrt trunc ph).
Notation coupled_maps := (coupled_maps pi fsqrt ph).
Notation modes_in := (modes_in pi fsqrt).

(** what a user runs: four mask-only fields with spins, then compute_coupling_coefficients *)
Definition cov_workspace_spins (s : fsinfo) (wa wb wc wd : list F) (sa sb sc sd : Z) (b : fbins) (rows : list nat) : option cfwsp * res unit :=
  let f m sp := from_ok (FF s 0 false false [] (fun _ => 0) [] true) (new_field (fs_nx s) (fs_ny s) (fs_lx s) (fs_ly s) m None (Some sp) (fun _ => 1) false) in
  py_cov_compute pi fsqrt ph imul None (f wa sa) (f wb sb) b (Some (f wc sc)) (Some (f wd sd)) None rows.
(** constant spectra of maps of two spins: v for equal components (TT, EE, BB), zero for others (EB, BE) *)
Definition white_spectra (s1 s2 : Z) (v : F) (n : nat) : mat :=
  tab (n_maps s1 * n_maps s2) (fun r => repeat (if Nat.eqb (r / n_maps s2) (r mod n_maps s2) then v else 0) n).
(** W_a M W_b^T: the covariance matrix M of decoupled bandpowers turned into that of the coupled spectra, which it is to agree with *)
Definition recoupled (na nb : nat) (A B M : mat) (r k : nat) : F := sum na (fun r' => sum nb (fun k' => entry2 A r r' * entry2 M r' k' * entry2 B k k')).
(** covariance of two numbers over K realisations with weights pr *)
Definition covariance (K : nat) (pr : nat -> F) (f g : nat -> F) : F := sum K (fun k => pr k * (f k * g k)) - sum K (fun k => pr k * f k) * sum K (fun k => pr k * g k).

Lemma inv_apply n (A B : mat) (Z : nat -> F) r : square n A -> lu_invert A = Ok B -> (r < n)%nat -> sum n (fun r' => entry2 A r r' * sum n (fun q => entry2 B r' q * Z q)) = Z r.
Proof.
  clear. intros SA EB Hr. pose proof (lu_invert_spec n A SA) as S. rewrite EB in S. destruct S as [SB [N Hsol]]. set (v := tab n Z). assert (Lv : length v = n) by apply length_tab.
  destruct (lu_solve_ok n A v SA Lv N) as [x [Ex [Lx Mx]]]. rewrite (Hsol v Lv) in Ex. injection Ex as Ex.
  transitivity (nth r (matvec A x) 0); [|rewrite Mx; unfold v; rewrite nth_tab by exact Hr; reflexivity]. rewrite (nth_matvec n) by assumption. apply sum_ext. intros r' Hr'. f_equal. rewrite <- Ex. rewrite (nth_matvec n) by assumption. apply sum_ext. intros q Hq. unfold v. rewrite nth_tab by exact Hq. reflexivity.
Qed.
Lemma recoupled_inv na nb (A B IA IB X : mat) r k : square na A -> square nb B -> lu_invert A = Ok IA -> lu_invert B = Ok IB -> (r < na)%nat -> (k < nb)%nat ->
  recoupled na nb A B (mat_mul na na nb IA (mat_mul_t na nb nb X IB)) r k = entry2 X r k.
Proof.
  clear. intros SA SB EA EB Hr Hk. unfold recoupled. set (Y := fun r' k' => sum na (fun q => entry2 IA r' q * sum nb (fun p => entry2 IB k' p * entry2 X q p))).
  assert (EM : forall r' k', (r' < na)%nat -> (k' < nb)%nat -> entry2 (mat_mul na na nb IA (mat_mul_t na nb nb X IB)) r' k' = Y r' k').
  { intros r' k' Hr' Hk'. unfold mat_mul. unfold entry2 at 1. rewrite nth_tab by exact Hr'. rewrite nth_tab by exact Hk'. apply sum_ext. intros q Hq. f_equal. unfold mat_mul_t. unfold entry2 at 1. rewrite nth_tab by exact Hq. rewrite nth_tab by exact Hk'. apply sum_ext. intros p _. ring. }
  rewrite (sum_ext _ _ (fun r' => entry2 A r r' * sum na (fun q => entry2 IA r' q * entry2 X q k))).
  - apply (inv_apply na A IA (fun q => entry2 X q k) r SA EA Hr).
  - intros r' Hr'. transitivity (entry2 A r r' * sum nb (fun k' => entry2 B k k' * Y r' k')).
    + rewrite <- sum_mul_l. apply sum_ext. intros k' Hk'. rewrite EM by assumption. ring.
    + f_equal. unfold Y. rewrite (sum_ext _ _ (fun k' => sum na (fun q => entry2 IA r' q * (entry2 B k k' * sum nb (fun p => entry2 IB k' p * entry2 X q p))))) by (intros k' _; rewrite <- sum_mul_l; apply sum_ext; intros; ring).
      rewrite sum_swap. apply sum_ext. intros q Hq. rewrite sum_mul_l. f_equal. apply (inv_apply nb B IB (fun p => entry2 X q p) k SB EB Hk).
Qed.
Lemma nonsing_zero n (A : mat) (f : nat -> F) : square n A -> nonsingular n A -> (forall r, (r < n)%nat -> sum n (fun q => entry2 A r q * f q) = 0) -> forall q, (q < n)%nat -> f q = 0.
Proof.
  clear. intros SA N H q Hq. assert (E : tab n f = zeros n).
  { apply N; [apply length_tab|]. assert (LM : length (matvec A (tab n f)) = n) by (unfold matvec; rewrite map_length; apply SA). apply (nth_ext _ _ 0 0); [rewrite LM; unfold zeros; rewrite repeat_length; reflexivity|]. intros r Hr. rewrite LM in Hr. rewrite (nth_matvec n) by (try assumption; apply length_tab). unfold zeros. rewrite nth_repeat. rewrite <- (H r Hr). apply sum_ext. intros p Hp. rewrite nth_tab by exact Hp. reflexivity. }
  assert (E' : nth q (tab n f) 0 = nth q (zeros n) 0) by (rewrite E; reflexivity). rewrite nth_tab in E' by exact Hq. rewrite E'. unfold zeros. apply nth_repeat.
Qed.
Lemma recoupled_inj na nb (A B M : mat) (D : nat -> nat -> F) : square na A -> square nb B -> nonsingular na A -> nonsingular nb B ->
  (forall r k, (r < na)%nat -> (k < nb)%nat -> recoupled na nb A B M r k = sum na (fun r' => sum nb (fun k' => entry2 A r r' * D r' k' * entry2 B k k'))) -> forall r k, (r < na)%nat -> (k < nb)%nat -> entry2 M r k = D r k.
Proof.
  clear. intros SA SB NA NB H. assert (Z1 : forall k, (k < nb)%nat -> forall r, (r < na)%nat -> sum nb (fun k' => entry2 B k k' * (entry2 M r k' - D r k')) = 0).
  { intros k Hk. apply (nonsing_zero na A); try assumption. intros r Hr. specialize (H r k Hr Hk). unfold recoupled in H.
    transitivity (sum na (fun r' => sum nb (fun k' => entry2 A r r' * entry2 M r' k' * entry2 B k k')) - sum na (fun r' => sum nb (fun k' => entry2 A r r' * D r' k' * entry2 B k k'))); [|rewrite H; ring].
    rewrite <- sum_sub. apply sum_ext. intros r' _. rewrite <- sum_sub, <- sum_mul_l. apply sum_ext. intros k' _. ring. }
  intros r k Hr Hk. assert (Z2 : entry2 M r k - D r k = 0) by (apply (nonsing_zero nb B (fun k => entry2 M r k - D r k) SB NB); [intros k0 Hk0; apply Z1; assumption | exact Hk]).
  transitivity (entry2 M r k - D r k + D r k); [ring|]. rewrite Z2. ring.
Qed.

Section Run.
Variables (s : fsinfo) (wa wb wc wd : list F) (ba bb bc bd : F -> F) (sa sb sc sd : Z) (b : fbins) (c : cuts) (rows rows' rows'' : list nat) (ells : list F) (pac pad pbc pbd : F).
Variables (K : nat) (pr : nat -> F) (ta tb tc td : nat -> mat).
Notation na := (n_maps sa). Notation nb := (n_maps sb). Notation nc := (n_maps sc). Notation nd := (n_maps sd).
Notation n := (n_bands b).
Notation np := (fs_nx s * fs_ny s)%nat.
Hypothesis HM : exact_mul imul.
Hypothesis Hc : contiguous b.
Hypothesis HY : y_symmetric pi s c.
Hypothesis Hcut : forall m, In m (grid s) -> uncut pi s c m = true.
Hypothesis HR : conj_roots ph s.
Hypothesis HH : hom_roots ph s.
Hypothesis HS : sqrt_sign pi fsqrt s.
Hypothesis Hp : 0 < pi.
Hypothesis Hx : 0 < fs_lx s.
Hypothesis Hy : 0 < fs_ly s.
Hypothesis Nx : (0 < fs_nx s)%nat.
Hypothesis Ny : (0 < fs_ny s)%nat.
Hypothesis Hk1 : kxf pi s 1 <> 0.
Hypothesis HP : all_rows s rows.
Hypothesis HP' : all_rows s rows'.
Hypothesis HP'' : all_rows s rows''.
Hypothesis He : good_ells ells.
Hypothesis Hf : forall i j, (i < n)%nat -> (j < n)%nat -> (Z.of_nat (modes_in s b i) * Z.of_nat (modes_in s b j) <= int_max)%Z.
(** no band reaches the last row and column of modes of an even grid *)
Hypothesis HE : forall i m, In m (bmodes pi fsqrt s b i) -> ~ edge s m.
(** scalars (0) and spin-2 fields *)
Hypothesis Ga : good_spin sa.
Hypothesis Gb : good_spin sb.
Hypothesis Gc : good_spin sc.
Hypothesis Gd : good_spin sd.
(** K realisations with weights pr: Gaussian up to the fourth moments, every component white, different components uncorrelated *)
Hypothesis Hl : forall k, (k < K)%nat -> rect na np (ta k) /\ rect nb np (tb k) /\ rect nc np (tc k) /\ rect nd np (td k).
Hypothesis HG : forall x y z w, (x < na)%nat -> (y < nb)%nat -> (z < nc)%nat -> (w < nd)%nat -> gaussian4 s K pr (comp ta x) (comp tb y) (comp tc z) (comp td w).
Hypothesis Wac : white_pol s K pr sa sc ta tc (pix_var s pac).
Hypothesis Wad : white_pol s K pr sa sd ta td (pix_var s pad).
Hypothesis Wbc : white_pol s K pr sb sc tb tc (pix_var s pbc).
Hypothesis Wbd : white_pol s K pr sb sd tb td (pix_var s pbd).

Let prod i j := (ncell pi fsqrt s b i * ncell pi fsqrt s b j)%Z.
Let cw0 := tables pi fsqrt s b prod (mask_cl pi ph s wa wc wb wd) (mask_cl pi ph s wa wd wb wc).
Lemma cov_workspace_ok : cov_workspace_spins s wa wb wc wd sa sb sc sd b rows'' = (Some cw0, Ok tt).
Proof.
  clear - HM Hc Hx Hy HP'' Hf. unfold cov_workspace_spins. rewrite !mask_only_spin by assumption. cbn [from_ok]. unfold M_CovFlat.py_cov_compute. cbv zeta. cbn [ff_fs]. assert (SS : same_size s s = true) by (unfold same_size; rewrite !Nat.eqb_refl; reflexivity). rewrite SS. cbn [andb negb].
  rewrite (cov_init_ok pi fsqrt ph imul _ _ b _ _ b rows'' prod); cbn [ff_fs ff_mask]; try assumption; try reflexivity.
  - unfold same4. cbn [ff_fs]. rewrite SS. reflexivity.
  - intros i j Hi Hj. apply HM. specialize (Hf i j Hi Hj). unfold P_CovFlat.modes_in in Hf. unfold ncell, bmodes. lia.
Qed.
Lemma workspace_facts m1 m2 e1 e2 s1 s2 r w : all_rows s r -> workspace_spins s m1 m2 e1 e2 s1 s2 b c r = Ok w -> square (n_maps s1 * n_maps s2 * n) (fw_bnd w) /\ fw_ncls w = (n_maps s1 * n_maps s2)%nat /\ fw_nb w = n.
Proof.
  clear - Hc Hx Hy. intros Hr E. unfold P_FlatMeanSpin.workspace_spins in E. rewrite !mask_only_spin in E by assumption. cbn [bind] in E. rewrite (coupling_matrix_eq pi fsqrt trunc ph (FF s s1 false false m1 e1 [] true) (FF s s2 false false m2 e2 [] true) b c false r Hc Hr) in E. cbn [ff_fs] in E. rewrite same_fs_refl in E. cbn in E. injection E as <-.
  pose proof (ws_sq _ _ _ _ _ _ _ _ _ _ (wsp_of_spec pi fsqrt trunc ph (FF s s1 false false m1 e1 [] true) (FF s s2 false false m2 e2 [] true) b c false)) as S. split; [exact S|]. split; reflexivity.
Qed.
Lemma white_zero s1 s2 t1 t2 v : white_pol s K pr s1 s2 t1 t2 (pix_var s v) -> s1 <> s2 -> v = 0.
Proof.
  clear - Hx Hy Nx Ny. intros [W _] D. specialize (W D). unfold pix_var in W. pose proof (fpos_neq0 _ Hx) as N1. pose proof (fpos_neq0 _ Hy) as N2.
  assert (N3 : (fofnat (fs_nx s) : F) <> 0) by (apply fpos_neq0; destruct (fs_nx s); [lia | apply fofnat_pos]). assert (N4 : (fofnat (fs_ny s) : F) <> 0) by (apply fpos_neq0; destruct (fs_ny s); [lia | apply fofnat_pos]).
  transitivity (v * (fofnat (fs_nx s) * fofnat (fs_ny s)) / (fs_lx s * fs_ly s) * (fs_lx s * fs_ly s) / (fofnat (fs_nx s) * fofnat (fs_ny s))); [field; auto|]. rewrite W. field. auto.
Qed.
(** the code's factor in front of the true term *)
Definition lam (x z y w : nat) : F := if Nat.eqb x z || Nat.eqb y w then 1 else - fofZ 4.
Notation TW u v := (true_w pi fsqrt ph s b u v).
Notation RW := (rotw pi fsqrt s).
Lemma pair_true w1 w2 w3 w4 W s1 s2 x z y w i j : (x < n_maps s1)%nat -> (z < n_maps s1)%nat -> (y < n_maps s2)%nat -> (w < n_maps s2)%nat -> Nat.even (x + z + (y + w)) = true ->
  (forall m1 m2, In m1 (bmodes pi fsqrt s b i) -> In m2 (bmodes pi fsqrt s b j) -> W m1 m2 = RW s1 s2 x z y w m1 m2) ->
  pair_sum pi fsqrt s b (mask_cl pi ph s w1 w2 w3 w4) W i j = TW (map_product s w1 w2) (map_product s w3 w4) (RW s1 s2 x z y w) i j.
Proof.
  clear - HR HE. intros X1 X2 X3 X4 EV HW. rewrite <- (code_true_w pi fsqrt ph s HR b).
  - unfold pair_sum. apply lsum_ext. intros m1 H1. apply lsum_ext. intros m2 H2. rewrite HW by assumption. reflexivity.
  - intros m1 m2 H1 H2. rewrite (rotw_yflip pi fsqrt ph s b HE s1 s2 x z y w i j) by assumption. unfold sgn. rewrite Nat.even_add in EV. destruct (Nat.even (x + z)), (Nat.even (y + w)); try discriminate; ring.
Qed.
Definition even_or_mirror (u v : list F) (x z y w : nat) : Prop := Nat.even (x + z + (y + w)) = true \/ mirror_prod pi ph s u v.
Lemma xi_true w1 w2 w3 w4 s1 s2 x z y w i j sel : good_spin s1 -> good_spin s2 -> (x < n_maps s1)%nat -> (z < n_maps s1)%nat -> (y < n_maps s2)%nat -> (w < n_maps s2)%nat -> (i < n)%nat -> (j < n)%nat ->
  (forall W, sel (tab n (fun i => tab n (fun j => pair_sum pi fsqrt s b (mask_cl pi ph s wa wc wb wd) W i j * norm_of pi s (prod i j))), tab n (fun i => tab n (fun j => pair_sum pi fsqrt s b (mask_cl pi ph s wa wd wb wc) W i j * norm_of pi s (prod i j)))) = tab n (fun i => tab n (fun j => pair_sum pi fsqrt s b (mask_cl pi ph s w1 w2 w3 w4) W i j * norm_of pi s (prod i j)))) ->
  even_or_mirror (map_product s w1 w2) (map_product s w3 w4) x z y w ->
  xic cw0 sel s1 s2 x z y w i j = norm_of pi s (prod i j) * lam x z y w * TW (map_product s w1 w2) (map_product s w3 w4) (RW s1 s2 x z y w) i j.
Proof.
  clear - HR HE HS Hcut. intros G1 G2 X1 X2 X3 X4 Hi Hj Hsel EM. unfold xic, cw0, tables. cbn [cf_00 cf_02 cf_pp cf_mm]. rewrite !Hsel.
  assert (EE : forall W, entry2 (tab n (fun i => tab n (fun j => pair_sum pi fsqrt s b (mask_cl pi ph s w1 w2 w3 w4) W i j * norm_of pi s (prod i j)))) i j = pair_sum pi fsqrt s b (mask_cl pi ph s w1 w2 w3 w4) W i j * norm_of pi s (prod i j)) by (intro W; unfold entry2; rewrite nth_tab by exact Hi; rewrite nth_tab by exact Hj; reflexivity).
  rewrite !EE. clear EE Hsel. set (N := norm_of pi s (prod i j)). assert (IB : forall k m, In m (bmodes pi fsqrt s b k) -> In m (grid s)) by (intros k m H; apply filter_In in H; tauto).
  assert (OD : Nat.even (x + z + (y + w)) = false -> TW (map_product s w1 w2) (map_product s w3 w4) (RW s1 s2 x z y w) i j = 0).
  { intro O. destruct EM as [EM|EM]; [congruence|]. apply (true_odd pi fsqrt ph s b HE); [exact EM|]. intros m1 m2 H1 H2. rewrite (rotw_yflip pi fsqrt ph s b HE s1 s2 x z y w i j) by assumption. unfold sgn. rewrite Nat.even_add in O. destruct (Nat.even (x + z)), (Nat.even (y + w)); try discriminate; ring. }
  assert (PT := fun W Ev => pair_true w1 w2 w3 w4 W s1 s2 x z y w i j X1 X2 X3 X4 Ev). unfold xi_code, lam.
  destruct G1 as [-> | ->]; destruct G2 as [-> | ->]; change (n_maps 0) with 1%nat in *; change (n_maps 2) with 2%nat in *; cbn [Z.eqb].
  - assert (x = 0 /\ z = 0 /\ y = 0 /\ w = 0)%nat as [-> [-> [-> ->]]] by lia. rewrite (PT (fun _ _ => 1) eq_refl). { cbn [Nat.eqb orb]. ring. } intros m1 m2 _ _. unfold rotw. rewrite !(dm_zero pi fsqrt). ring.
  - assert (x = 0 /\ z = 0)%nat as [-> ->] by lia. destruct (Nat.eqb_spec y w) as [<-|D].
    + rewrite (PT (cdiff pi fsqrt s)). { cbn [Nat.eqb orb]. ring. } { rewrite !Nat.even_add. destruct (Nat.even y); reflexivity. } intros m1 m2 H1 H2. unfold rotw. rewrite (dm_zero pi fsqrt). rewrite (cdiff_dm pi fsqrt ph s b HE c Hcut HS m1 m2 y) by eauto. ring.
    + rewrite OD. { ring. } destruct y as [|[|y]], w as [|[|w]]; try lia; reflexivity.
  - assert (y = 0 /\ w = 0)%nat as [-> ->] by lia. destruct (Nat.eqb_spec x z) as [<-|D].
    + rewrite (PT (cdiff pi fsqrt s)). { cbn [orb]. ring. } { rewrite !Nat.even_add. destruct (Nat.even x); reflexivity. } intros m1 m2 H1 H2. unfold rotw. rewrite (dm_zero pi fsqrt). rewrite (cdiff_dm pi fsqrt ph s b HE c Hcut HS m1 m2 x) by eauto. ring.
    + rewrite OD. { ring. } destruct x as [|[|x]], z as [|[|z]]; try lia; reflexivity.
  - destruct (Nat.eqb_spec x z) as [<-|D]; [|destruct (Nat.eqb_spec y w) as [<-|D']].
    + cbn [orb]. destruct (Nat.eqb_spec y w) as [<-|D].
      * rewrite (PT (fun m1 m2 => cdiff pi fsqrt s m1 m2 * cdiff pi fsqrt s m1 m2)). { ring. } { rewrite !Nat.even_add. destruct (Nat.even x), (Nat.even y); reflexivity. } intros m1 m2 H1 H2. unfold rotw. rewrite <- (cdiff_dm pi fsqrt ph s b HE c Hcut HS m1 m2 x), <- (cdiff_dm pi fsqrt ph s b HE c Hcut HS m1 m2 y) by eauto. reflexivity.
      * rewrite OD. { ring. } destruct x as [|[|x]], y as [|[|y]], w as [|[|w]]; try lia; reflexivity.
    + cbn [orb]. rewrite OD. { ring. } destruct x as [|[|x]], y as [|[|y]], z as [|[|z]]; try lia; reflexivity.
    + cbn [orb]. set (S2 := fun m1 m2 => sdiff pi fsqrt s m1 m2 * sdiff pi fsqrt s m1 m2).
      assert (SG : pair_sum pi fsqrt s b (mask_cl pi ph s w1 w2 w3 w4) (fun m1 m2 => (if Nat.eqb x y then 1 else - (1)) * S2 m1 m2) i j = (if Nat.eqb x y then 1 else - (1)) * pair_sum pi fsqrt s b (mask_cl pi ph s w1 w2 w3 w4) S2 i j).
      { unfold pair_sum. rewrite <- lsum_mul_l. apply lsum_ext. intros m1 _. rewrite <- lsum_mul_l. apply lsum_ext. intros m2 _. ring. }
      rewrite (PT (fun m1 m2 => (if Nat.eqb x y then 1 else - (1)) * S2 m1 m2)) in SG.
      * rewrite SG. fold S2. destruct (Nat.eqb x y); ring.
      * destruct x as [|[|x]], y as [|[|y]], z as [|[|z]], w as [|[|w]]; try lia; reflexivity.
      * intros m1 m2 H1 H2. unfold rotw, S2. destruct (sdiff_dm pi fsqrt ph s b HE c Hcut HS m1 m2 (IB _ _ H1) (IB _ _ H2)) as [D1 D2]. destruct x as [|[|x]], y as [|[|y]], z as [|[|z]], w as [|[|w]]; try lia; cbn [Nat.eqb]; rewrite ?D1, ?D2; ring.
Qed.
Lemma decouple_runs (W : fwsp) cl N nn : fw_ncls W = N -> fw_nb W = nn -> (0 < N)%nat -> square (N * nn) (fw_bnd W) -> nonsingular (N * nn) (fw_bnd W) -> rect N nn cl -> exists v, py_decouple (Some W) cl None None = Ok v.
Proof.
  clear. intros CW BW HN SW NW Rc. unfold py_decouple, need. cbn [bind]. rewrite CW, BW. rewrite (check_shape_ok N nn cl HN Rc). cbn [bind]. set (z := zeros_like cl). assert (Rz : rect N nn z) by (apply rect_zeros; exact Rc).
  rewrite (fdecouple_flat W cl z z) by (rewrite ?CW, ?BW; assumption). rewrite CW, BW. set (y := flatten N nn _). assert (Ly : length y = (N * nn)%nat) by apply length_tab. destruct (lu_solve_ok (N * nn) (fw_bnd W) y SW Ly NW) as [u [Eu [Lu _]]]. rewrite Eu. cbn [bind].
  exists (tab N (fun i => tab nn (fun ib => nth (N * ib + i) u 0))). apply tabM_ok. intros i Hi. apply tabM_ok. intros ib Hib. apply rd_nat. rewrite Lu. nia.
Qed.
(** The calls succeed if the sizes fit into ints and the two coupling matrices are invertible. *)
Theorem C88_runs : (Z.of_nat (na * nb * n) * Z.of_nat (nc * nd * n) <= int_max)%Z -> exists Wa Wb cw ca cb,
  workspace_spins s wa wb ba bb sa sb b c rows = Ok Wa /\ workspace_spins s wc wd bc bd sc sd b c rows' = Ok Wb /\ cov_workspace_spins s wa wb wc wd sa sb sc sd b rows'' = (Some cw, Ok tt) /\
  (forall k, (k < K)%nat -> coupled_maps s wa wb ba bb sa sb b c (ta k) (tb k) = Ok (ca k) /\ coupled_maps s wc wd bc bd sc sd b c (tc k) (td k) = Ok (cb k)) /\
  (nonsingular (na * nb * n) (fw_bnd Wa) -> nonsingular (nc * nd * n) (fw_bnd Wb) -> exists M ra rb,
    gaussian_covariance_flat (Some cw) (Spins sa sb sc sd) ells (white_spectra sa sc pac (length ells)) (white_spectra sa sd pad (length ells)) (white_spectra sb sc pbc (length ells)) (white_spectra sb sd pbd (length ells)) (Some Wa) (Some (Some Wb)) = Ok M /\
    forall k, (k < K)%nat -> decoupled_maps pi fsqrt trunc ph s wa wb ba bb sa sb b c rows (ta k) (tb k) = Ok (ra k) /\ decoupled_maps pi fsqrt trunc ph s wc wd bc bd sc sd b c rows' (tc k) (td k) = Ok (rb k)).
Proof.
  intro Hsz. assert (HN : forall ib m, In m (modes pi fsqrt s b c ib) -> (2 * snd m)%nat <> fs_ny s). { intros ib m Hm Q. apply filter_In in Hm. destruct Hm as [Hm Hb]. apply andb_prop in Hb. destruct Hb as [_ Hb]. apply (HE ib m); [apply filter_In; split; assumption | right; exact Q]. }
  assert (GS : forall sp, good_spin sp -> (0 <= sp)%Z) by (intros sp [-> | ->]; lia).
  assert (WE : forall m1 m2 e1 e2 s1 s2 r, all_rows s r -> exists W, workspace_spins s m1 m2 e1 e2 s1 s2 b c r = Ok W). { intros m1 m2 e1 e2 s1 s2 r Hr. unfold P_FlatMeanSpin.workspace_spins. rewrite !mask_only_spin by assumption. cbn [bind]. rewrite (coupling_matrix_eq pi fsqrt trunc ph (FF s s1 false false m1 e1 [] true) (FF s s2 false false m2 e2 [] true) b c false r Hc Hr). cbn [ff_fs]. rewrite same_fs_refl. cbn. eexists. reflexivity. }
  destruct (WE wa wb ba bb sa sb rows HP) as [Wa EWa]. destruct (WE wc wd bc bd sc sd rows' HP') as [Wb EWb]. exists Wa, Wb, cw0.
  exists (fun k => tab (na * nb) (fun i => tab n (pseudo_spin pi fsqrt ph s wa wb sa sb b c (ta k) (tb k) i))), (fun k => tab (nc * nd) (fun i => tab n (pseudo_spin pi fsqrt ph s wc wd sc sd b c (tc k) (td k) i))).
  assert (EC : forall k, (k < K)%nat -> coupled_maps s wa wb ba bb sa sb b c (ta k) (tb k) = Ok (tab (na * nb) (fun i => tab n (pseudo_spin pi fsqrt ph s wa wb sa sb b c (ta k) (tb k) i))) /\ coupled_maps s wc wd bc bd sc sd b c (tc k) (td k) = Ok (tab (nc * nd) (fun i => tab n (pseudo_spin pi fsqrt ph s wc wd sc sd b c (tc k) (td k) i)))).
  { intros k Hk. destruct (Hl k Hk) as [L1 [L2 [L3 L4]]]. split; apply (coupled_maps_ok pi fsqrt trunc ph); auto. }
  split; [exact EWa|]. split; [exact EWb|]. split; [apply cov_workspace_ok|]. split; [exact EC|]. intros NA NB.
  destruct (workspace_facts _ _ _ _ _ _ _ _ HP EWa) as [Sa [Ca Ba]]. destruct (workspace_facts _ _ _ _ _ _ _ _ HP' EWb) as [Sb [Cb Bb]]. destruct (inv_exists _ _ Sa NA) as [IA EIA]. destruct (inv_exists _ _ Sb NB) as [IB EIB].
  pose proof (n_maps_pos sa). pose proof (n_maps_pos sb). pose proof (n_maps_pos sc). pose proof (n_maps_pos sd).
  set (X := tab (na * nb * n) (fun r => tab (nc * nd * n) (fun k => let i := (r / (na * nb))%nat in let j := (k / (nc * nd))%nat in let p := (r mod (na * nb))%nat in let q := (k mod (nc * nd))%nat in
    xic cw0 fst sa sb (p / nb) (q / nd) (p mod nb) (q mod nd) i j * (pac * pbd) + xic cw0 snd sa sb (p / nb) (q mod nd) (p mod nb) (q / nd) i j * (pad * pbc)))).
  exists (mat_mul (na * nb * n) (na * nb * n) (nc * nd * n) IA (mat_mul_t (na * nb * n) (nc * nd * n) (nc * nd * n) X IB)).
  exists (fun k => from_ok [] (decoupled_maps pi fsqrt trunc ph s wa wb ba bb sa sb b c rows (ta k) (tb k))), (fun k => from_ok [] (decoupled_maps pi fsqrt trunc ph s wc wd bc bd sc sd b c rows' (tc k) (td k))). split.
  - unfold gaussian_covariance_flat. cbv zeta. unfold need. cbn [bind sp_a sp_b sp_c sp_d]. change (@nm) with (@n_maps). rewrite Ca, Cb, !Nat.eqb_refl. cbn [negb]. unfold white_spectra. rewrite !length_tab, !Nat.eqb_refl. cbn [andb negb forallb].
    assert (HD : forall s1 s2 v, length (hd [] (tab (n_maps s1 * n_maps s2) (fun r => repeat (if Nat.eqb (r / n_maps s2) (r mod n_maps s2) then v else 0 : F) (length ells)))) = length ells).
    { intros s1 s2 v. pose proof (n_maps_pos s1). pose proof (n_maps_pos s2). destruct (n_maps s1 * n_maps s2)%nat as [|q] eqn:EQ; [nia|]. cbn. apply repeat_length. }
    rewrite !HD, !Nat.eqb_refl. cbn [andb negb bind]. change (cf_nb cw0) with n.
    assert (AL : alloc_out (Z.of_nat (na * nb * n) * Z.of_nat (nc * nd * n)) = Ok tt).
    { unfold alloc_out. set (q := (Z.of_nat (na * nb * n) * Z.of_nat (nc * nd * n))%Z) in *. assert (Q0 : (0 <= q)%Z) by (unfold q; lia). assert (W : wrap32 q = q) by (unfold wrap32; unfold int_max in Hsz; rewrite Z.mod_small by lia; lia). rewrite W, Z.eqb_refl. destruct (Z.ltb_spec q 0); [lia | reflexivity]. }
    rewrite AL. cbn [bind]. unfold fcovar. change (cf_nb cw0) with n. rewrite Ba, Bb, Ca, Cb. cbn [sp_a sp_b sp_c sp_d]. change (@nm) with (@n_maps). rewrite !Nat.eqb_refl. cbn [andb negb cl_ac cl_ad cl_bc cl_bd]. change (cf_bin cw0) with b.
    pose proof (fun s1 s2 (v : F) => const_pol_binned b ells s1 s2 v Hc He) as CB. unfold const_pol in CB. rewrite !CB. cbn [bind]. cbv zeta.
    rewrite (tabM_ok (na * nb * n) _ (fun r => nth r X [])).
    + cbn [bind]. rewrite EIB, EIA. cbn [bind]. do 3 f_equal. apply (nth_ext _ _ [] []); [unfold X; rewrite !length_tab; reflexivity|]. intros r Hr. rewrite length_tab in Hr. rewrite nth_tab by exact Hr. reflexivity.
    + intros r Hr. unfold X. rewrite nth_tab by exact Hr. apply tabM_ok. intros k Hk.
      assert (R1 := Nat.div_mod r (na * nb) ltac:(nia)). assert (R2 := Nat.mod_upper_bound r (na * nb) ltac:(nia)). assert (R3 := Nat.div_mod (r mod (na * nb)) nb ltac:(nia)). assert (R4 := Nat.mod_upper_bound (r mod (na * nb)) nb ltac:(nia)).
      assert (T1 := Nat.div_mod k (nc * nd) ltac:(nia)). assert (T2 := Nat.mod_upper_bound k (nc * nd) ltac:(nia)). assert (T3 := Nat.div_mod (k mod (nc * nd)) nd ltac:(nia)). assert (T4 := Nat.mod_upper_bound (k mod (nc * nd)) nd ltac:(nia)).
      pose proof (binned_pol cw0 sa sb sc sd n pac pad pbc pbd ((r mod (na * nb)) / nb) ((r mod (na * nb)) mod nb) ((k mod (nc * nd)) / nd) ((k mod (nc * nd)) mod nd) (r / (na * nb)) (k / (nc * nd)) Ga Gb Gc Gd (white_zero _ _ _ _ _ Wac) (white_zero _ _ _ _ _ Wad) (white_zero _ _ _ _ _ Wbc) (white_zero _ _ _ _ _ Wbd)) as BP.
      replace ((r / (na * nb)) * (na * nb) + ((r mod (na * nb)) / nb * nb + (r mod (na * nb)) mod nb))%nat with r in BP by (rewrite (Nat.mul_comm (_ / nb) nb), <- R3, (Nat.mul_comm (r / _)); exact R1).
      replace ((k / (nc * nd)) * (nc * nd) + ((k mod (nc * nd)) / nd * nd + (k mod (nc * nd)) mod nd))%nat with k in BP by (rewrite (Nat.mul_comm (_ / nd) nd), <- T3, (Nat.mul_comm (k / _)); exact T1).
      apply BP; try assumption; apply Nat.div_lt_upper_bound; nia.
  - intros k Hk. destruct (Hl k Hk) as [L1 [L2 [L3 L4]]]. destruct (EC k Hk) as [E1 E2].
    rewrite (decoupled_eq pi fsqrt trunc ph s wa wb ba bb sa sb b c Hc HR Hx Hy Hk1 (GS _ Ga) (GS _ Gb) rows _ _ HP L1 L2), (decoupled_eq pi fsqrt trunc ph s wc wd bc bd sc sd b c Hc HR Hx Hy Hk1 (GS _ Gc) (GS _ Gd) rows' _ _ HP' L3 L4).
    rewrite EWa, EWb. cbn [bind]. rewrite E1, E2. cbn [bind].
    destruct (decouple_runs Wa (tab (na * nb) (fun i => tab n (pseudo_spin pi fsqrt ph s wa wb sa sb b c (ta k) (tb k) i))) (na * nb) n Ca Ba ltac:(nia) Sa NA (rect_tab _ _ _)) as [va Eva]. destruct (decouple_runs Wb (tab (nc * nd) (fun i => tab n (pseudo_spin pi fsqrt ph s wc wd sc sd b c (tc k) (td k) i))) (nc * nd) n Cb Bb ltac:(nia) Sb NB (rect_tab _ _ _)) as [vb Evb]. rewrite Eva, Evb. split; reflexivity.
Qed.
(** results of the calls *)
Variables (Wa Wb : fwsp) (cw : cfwsp) (M : mat) (ca cb : nat -> mat).
Hypothesis Ewa : workspace_spins s wa wb ba bb sa sb b c rows = Ok Wa.
Hypothesis Ewb : workspace_spins s wc wd bc bd sc sd b c rows' = Ok Wb.
Hypothesis Ecw : cov_workspace_spins s wa wb wc wd sa sb sc sd b rows'' = (Some cw, Ok tt).
Hypothesis EMc : gaussian_covariance_flat (Some cw) (Spins sa sb sc sd) ells (white_spectra sa sc pac (length ells)) (white_spectra sa sd pad (length ells)) (white_spectra sb sc pbc (length ells)) (white_spectra sb sd pbd (length ells)) (Some Wa) (Some (Some Wb)) = Ok M.
Hypothesis Eca : forall k, (k < K)%nat -> coupled_maps s wa wb ba bb sa sb b c (ta k) (tb k) = Ok (ca k) /\ coupled_maps s wc wd bc bd sc sd b c (tc k) (td k) = Ok (cb k).
(** element of the code's covariance matrix, and of the covariance of the realisations, for the spectra (x,y) and (z,w) in the bands i and j *)
Definition from_code (x y z w i j : nat) : F := recoupled (na * nb * n) (nc * nd * n) (fw_bnd Wa) (fw_bnd Wb) M (i * (na * nb) + (x * nb + y)) (j * (nc * nd) + (z * nd + w)).
Definition from_maps (x y z w i j : nat) : F := covariance K pr (fun k => entry2 (ca k) (x * nb + y) i) (fun k => entry2 (cb k) (z * nd + w) j).
Lemma code_value x y z w i j : (x < na)%nat -> (y < nb)%nat -> (z < nc)%nat -> (w < nd)%nat -> (i < n)%nat -> (j < n)%nat ->
  from_code x y z w i j = xic cw0 fst sa sb x z y w i j * (pac * pbd) + xic cw0 snd sa sb x w y z i j * (pad * pbc).
Proof.
  clear Eca HG Hl HY HR HH HS Hk1 HE Hcut Hp. intros X1 X2 X3 X4 Hi Hj. rewrite cov_workspace_ok in Ecw. injection Ecw as <-.
  destruct (workspace_facts _ _ _ _ _ _ _ _ HP Ewa) as [Sa [Ca Ba]]. destruct (workspace_facts _ _ _ _ _ _ _ _ HP' Ewb) as [Sb [Cb Bb]].
  unfold gaussian_covariance_flat in EMc. cbv zeta in EMc. change (need (Some Wa)) with (Ok Wa) in EMc. change (need (Some Wb)) with (Ok Wb) in EMc. cbn [bind] in EMc. cbn [sp_a sp_b sp_c sp_d] in EMc.
  repeat match type of EMc with (if ?bb then _ else _) = _ => destruct bb; [discriminate EMc|] end.
  match type of EMc with bind (alloc_out ?z) _ = _ => destruct (alloc_out z) as [u|?|]; cbn [bind] in EMc; try discriminate EMc end. unfold fcovar in EMc.
  repeat match type of EMc with (if ?bb then _ else _) = _ => destruct bb; [discriminate EMc|] end. cbn [cl_ac cl_ad cl_bc cl_bd] in EMc. change (cf_bin cw0) with b in EMc. change (@white_spectra) with (@const_pol F) in EMc.
  rewrite !const_pol_binned in EMc by assumption. cbn [bind] in EMc. change (cf_nb cw0) with n in EMc. rewrite Ca, Cb in EMc. cbv zeta in EMc.
  match type of EMc with bind ?e _ = _ => destruct e as [X|?|] eqn:EX; cbn [bind] in EMc; try discriminate EMc end.
  destruct (lu_invert (fw_bnd Wb)) as [IB|?|] eqn:EIB; cbn [bind] in EMc; try discriminate EMc. destruct (lu_invert (fw_bnd Wa)) as [IA|?|] eqn:EIA; cbn [bind] in EMc; try discriminate EMc. injection EMc as EM0.
  assert (Hr : (i * (na * nb) + (x * nb + y) < na * nb * n)%nat) by nia. assert (Hk : (j * (nc * nd) + (z * nd + w) < nc * nd * n)%nat) by nia.
  unfold from_code. rewrite <- EM0. rewrite (recoupled_inv _ _ _ _ _ _ _ _ _ Sa Sb EIA EIB Hr Hk). destruct (tabM_inv _ _ _ EX) as [_ H1]. specialize (H1 _ [] Hr). destruct (tabM_inv _ _ _ H1) as [_ H2]. specialize (H2 _ 0 Hk). cbn beta in H2.
  rewrite (binned_pol cw0 sa sb sc sd n pac pad pbc pbd x y z w i j) in H2; try assumption; try (intro D; eapply white_zero; eassumption). injection H2 as H2. unfold entry2. rewrite <- H2. reflexivity.
Qed.
Lemma maps_value x y z w i j : (x < na)%nat -> (y < nb)%nat -> (z < nc)%nat -> (w < nd)%nat -> (i < n)%nat -> (j < n)%nat ->
  from_maps x y z w i j = norm_of pi s (prod i j) * (TW (map_product s wa wc) (map_product s wb wd) (RW sa sb x z y w) i j * (pac * pbd) + TW (map_product s wa wd) (map_product s wb wc) (RW sa sb x w y z) i j * (pad * pbc)).
Proof.
  clear Ewa Ewb Ecw EMc HM HP HP' HP'' Hf He. intros X1 X2 X3 X4 Hi Hj. unfold from_maps. change (@covariance) with (@cov F).
  assert (HN : forall ib m, In m (modes pi fsqrt s b c ib) -> (2 * snd m)%nat <> fs_ny s). { intros ib m Hm Q. apply filter_In in Hm. destruct Hm as [Hm Hb]. apply andb_prop in Hb. destruct Hb as [_ Hb]. apply (HE ib m); [apply filter_In; split; assumption | right; exact Q]. }
  assert (GS : forall sp, good_spin sp -> (0 <= sp)%Z) by (intros sp [-> | ->]; lia).
  unfold prod. rewrite <- (cov_pseudo_pol pi fsqrt ph s HR HH b HE c (fpos_neq0 _ Hp) Hx Hy Hcut K pr wa wb wc wd sa sb sc sd ta tb tc td pac pad pbc pbd Ga Gb Gc Gd Hl HG Wac Wad Wbc Wbd x y z w i j X2 X4).
  apply cov_ext; intros k Hk; destruct (Eca k Hk) as [E1 E2]; destruct (Hl k Hk) as [L1 [L2 [L3 L4]]].
  - rewrite (coupled_maps_ok pi fsqrt trunc ph s wa wb ba bb sa sb b c Hc HY HR Hx Hy Hk1 (GS _ Ga) (GS _ Gb) HN _ _ L1 L2) in E1. injection E1 as <-. unfold entry2. rewrite nth_tab by nia. rewrite nth_tab by exact Hi. reflexivity.
  - rewrite (coupled_maps_ok pi fsqrt trunc ph s wc wd bc bd sc sd b c Hc HY HR Hx Hy Hk1 (GS _ Gc) (GS _ Gd) HN _ _ L3 L4) in E2. injection E2 as <-. unfold entry2. rewrite nth_tab by nia. rewrite nth_tab by exact Hj. reflexivity.
Qed.
(** the code's element and the true one are the same sum of two terms, except for factors -4 *)
Lemma both_values x y z w i j : (x < na)%nat -> (y < nb)%nat -> (z < nc)%nat -> (w < nd)%nat -> (i < n)%nat -> (j < n)%nat ->
  even_or_mirror (map_product s wa wc) (map_product s wb wd) x z y w -> even_or_mirror (map_product s wa wd) (map_product s wb wc) x w y z ->
  exists t1 t2, from_maps x y z w i j = t1 + t2 /\ from_code x y z w i j = lam x z y w * t1 + lam x w y z * t2 /\
    t1 = norm_of pi s (prod i j) * (TW (map_product s wa wc) (map_product s wb wd) (RW sa sb x z y w) i j * (pac * pbd)) /\
    t2 = norm_of pi s (prod i j) * (TW (map_product s wa wd) (map_product s wb wc) (RW sa sb x w y z) i j * (pad * pbc)).
Proof.
  intros X1 X2 X3 X4 Hi Hj M1 M2. rewrite code_value, maps_value by assumption. eexists _, _. split; [|split; [|split; reflexivity]]; [ring|].
  assert (T1 : xic cw0 fst sa sb x z y w i j * (pac * pbd) = norm_of pi s (prod i j) * lam x z y w * TW (map_product s wa wc) (map_product s wb wd) (RW sa sb x z y w) i j * (pac * pbd)).
  { destruct (Z.eq_dec sa sc) as [E1|D]; [|rewrite (white_zero _ _ _ _ _ Wac D); ring]. destruct (Z.eq_dec sb sd) as [E2|D]; [|rewrite (white_zero _ _ _ _ _ Wbd D); ring]. f_equal. rewrite <- E1 in X3. rewrite <- E2 in X4. apply xi_true; try assumption. reflexivity. }
  assert (T2 : xic cw0 snd sa sb x w y z i j * (pad * pbc) = norm_of pi s (prod i j) * lam x w y z * TW (map_product s wa wd) (map_product s wb wc) (RW sa sb x w y z) i j * (pad * pbc)).
  { destruct (Z.eq_dec sa sd) as [E1|D]; [|rewrite (white_zero _ _ _ _ _ Wad D); ring]. destruct (Z.eq_dec sb sc) as [E2|D]; [|rewrite (white_zero _ _ _ _ _ Wbc D); ring]. f_equal. rewrite <- E1 in X4. rewrite <- E2 in X3. apply xi_true; try assumption. reflexivity. }
  rewrite T1, T2. ring.
Qed.
(** Exact: all elements with at least one scalar field, and those of four spin-2 fields other than (EE,BB) and the covariances of EB and BE.  Elements
    with an odd number of B (the covariance of TE and TB, of EE and EB) need masks that do not distinguish a direction from its mirror image. *)
Theorem C88_exact x y z w i j : (x < na)%nat -> (y < nb)%nat -> (z < nc)%nat -> (w < nd)%nat -> (i < n)%nat -> (j < n)%nat ->
  (sa = 0%Z \/ sb = 0%Z \/ sc = 0%Z \/ sd = 0%Z \/ ((x = z \/ y = w) /\ (x = w \/ y = z))) ->
  (Nat.even (x + y + z + w) = true \/ (mirror_prod pi ph s (map_product s wa wc) (map_product s wb wd) /\ mirror_prod pi ph s (map_product s wa wd) (map_product s wb wc))) ->
  from_code x y z w i j = from_maps x y z w i j.
Proof.
  intros X1 X2 X3 X4 Hi Hj HD HO. destruct (both_values x y z w i j X1 X2 X3 X4 Hi Hj) as [t1 [t2 [E1 [E2 [T1 T2]]]]].
  - destruct HO as [HO|[HO _]]; [left | right; exact HO]. replace (x + z + (y + w))%nat with (x + y + z + w)%nat by lia. exact HO.
  - destruct HO as [HO|[_ HO]]; [left | right; exact HO]. replace (x + w + (y + z))%nat with (x + y + z + w)%nat by lia. exact HO.
  - rewrite E1, E2. clear E1 E2. assert (L1 : lam x z y w * t1 = t1). 
    { unfold lam. destruct (Nat.eqb_spec x z) as [|D1]; [cbn [orb]; ring|]. destruct (Nat.eqb_spec y w) as [|D2]; [cbn [orb]; ring|]. assert (Z : pac * pbd = 0); [|rewrite T1, Z; ring].
      destruct (Z.eq_dec sa sc) as [Ea|D]; [|rewrite (white_zero _ _ _ _ _ Wac D); ring]. destruct (Z.eq_dec sb sd) as [Eb|D]; [|rewrite (white_zero _ _ _ _ _ Wbd D); ring]. exfalso. subst sc sd.
      destruct HD as [-> | [-> | [-> | [-> | [HD _]]]]]; try (change (n_maps 0) with 1%nat in *; lia). }
    assert (L2 : lam x w y z * t2 = t2).
    { unfold lam. destruct (Nat.eqb_spec x w) as [|D1]; [cbn [orb]; ring|]. destruct (Nat.eqb_spec y z) as [|D2]; [cbn [orb]; ring|]. assert (Z : pad * pbc = 0); [|rewrite T2, Z; ring].
      destruct (Z.eq_dec sa sd) as [Ea|D]; [|rewrite (white_zero _ _ _ _ _ Wad D); ring]. destruct (Z.eq_dec sb sc) as [Eb|D]; [|rewrite (white_zero _ _ _ _ _ Wbc D); ring]. exfalso. subst sc sd.
      destruct HD as [-> | [-> | [-> | [-> | [_ HD]]]]]; try (change (n_maps 0) with 1%nat in *; lia). }
    rewrite L1, L2. reflexivity.
Qed.
Section Spin2.
Hypothesis Ea : sa = 2%Z.
Hypothesis Eb : sb = 2%Z.
Hypothesis Ec : sc = 2%Z.
Hypothesis Ed : sd = 2%Z.
(** Refuted: the covariance between EE and BB comes out as -4 times the true one, for all masks. *)
Theorem C88_EE_BB_refuted x z i j : (x < 2)%nat -> (z < 2)%nat -> x <> z -> (i < n)%nat -> (j < n)%nat -> from_code x x z z i j = - (fofZ 4) * from_maps x x z z i j.
Proof.
  intros Hx' Hz D Hi Hj. destruct (both_values x x z z i j) as [t1 [t2 [E1 [E2 _]]]]; try (rewrite ?Ea, ?Eb, ?Ec, ?Ed; assumption).
  1,2: (left; rewrite !Nat.even_add; destruct (Nat.even x), (Nat.even z); reflexivity).
  rewrite E1, E2. unfold lam. rewrite (proj2 (Nat.eqb_neq _ _) D). cbn [orb]. ring.
Qed.
(** Refuted: the code exceeds the covariance of EB with EB, and that of EB with BE; together by 5 times the covariance of EE and BB. *)
Theorem C88_EB_refuted x y i j : (x < 2)%nat -> (y < 2)%nat -> x <> y -> (i < n)%nat -> (j < n)%nat ->
  (from_code x y x y i j - from_maps x y x y i j) + (from_code x y y x i j - from_maps x y y x i j) = fofZ 5 * from_maps x x y y i j.
Proof.
  intros Hx' Hz D Hi Hj. destruct (both_values x y x y i j) as [t1 [t2 [E1 [E2 [T1 T2]]]]]; try (rewrite ?Ea, ?Eb, ?Ec, ?Ed; assumption). 1,2: (left; rewrite !Nat.even_add; destruct (Nat.even x), (Nat.even y); reflexivity).
  destruct (both_values x y y x i j) as [u1 [u2 [F1 [F2 [U1 U2]]]]]; try (rewrite ?Ea, ?Eb, ?Ec, ?Ed; assumption). 1,2: (left; rewrite !Nat.even_add; destruct (Nat.even x), (Nat.even y); reflexivity).
  destruct (both_values x x y y i j) as [v1 [v2 [H1 [_ [V1 V2]]]]]; try (rewrite ?Ea, ?Eb, ?Ec, ?Ed; assumption). 1,2: (left; rewrite !Nat.even_add; destruct (Nat.even x), (Nat.even y); reflexivity).
  assert (RO : forall u v, TW u v (RW sa sb x y y x) i j = - TW u v (RW sa sb x y x y) i j).
  { intros u v. unfold true_w. transitivity (- (1) * lsum (map (fun m1 => lsum (map (fun m2 => RW sa sb x y x y m1 m2 * true_prod pi ph s u v (diff_mode s m1 m2)) (bmodes pi fsqrt s b j))) (bmodes pi fsqrt s b i))); [|ring].
    rewrite <- lsum_mul_l. apply lsum_ext. intros m1 M1. rewrite <- lsum_mul_l. apply lsum_ext. intros m2 M2. apply filter_In in M1, M2. unfold rotw. rewrite Ea, Eb. destruct (sdiff_dm pi fsqrt ph s b HE c Hcut HS m1 m2 (proj1 M1) (proj1 M2)) as [D1 D2].
    destruct x as [|[|x]], y as [|[|y]]; try lia; rewrite D1, D2; ring. }
  assert (ST : t2 = - v2) by (rewrite T2, V2, RO; ring). assert (SU : u1 = - v1) by (rewrite U1, V1, RO; ring).
  rewrite E1, E2, F1, F2, H1, ST, SU. unfold lam. rewrite !Nat.eqb_refl, (proj2 (Nat.eqb_neq _ _) D), (proj2 (Nat.eqb_neq _ _) (not_eq_sym D)). cbn [orb]. cbn. ring.
Qed.
(** Same mask and power everywhere, and bands with two modes that are not parallel and are coupled by the square of the mask: EE and BB are positively correlated, and the code says that they are anticorrelated. *)
Theorem C88_sign_refuted x z i j m1 m2 : (x < 2)%nat -> (z < 2)%nat -> x <> z -> (i < n)%nat -> (j < n)%nat -> wb = wa -> wc = wa -> wd = wa -> pad = pac -> pbc = pac -> pbd = pac -> pac <> 0 ->
  In m1 (grid s) -> In m2 (grid s) -> inb b i (kmod_of pi fsqrt s m1) = true -> inb b j (kmod_of pi fsqrt s m2) = true -> mix pi fsqrt s 2 m1 m2 x z <> 0 -> coeff pi ph s (map_product s wa wa) (diff_mode s m1 m2) <> c0 ->
  0 < from_maps x x z z i j /\ from_code x x z z i j < 0.
Proof.
  intros Hx' Hz D Hi Hj Q1 Q2 Q3 Q4 Q5 Q6 Hpos G1 G2 B1 B2 HMx HCo. assert (P : 0 < from_maps x x z z i j).
  2:{ split; [exact P|]. rewrite C88_EE_BB_refuted by assumption. assert (P4 : (0 : F) < fofZ 4) by (change (fofZ 4 : F) with (fofZ (Z.of_nat 4) : F); rewrite fofZ_of_nat; apply fofnat_pos).
      pose proof (fmul_pos _ _ P4 P) as P5. pose proof (flt_le_add _ _ _ _ P5 (fle_refl (- (fofZ 4 * from_maps x x z z i j)))) as P6. replace (- fofZ 4 * from_maps x x z z i j) with (0 + - (fofZ 4 * from_maps x x z z i j)) by ring. replace (fofZ 4 * from_maps x x z z i j + - (fofZ 4 * from_maps x x z z i j)) with (0 : F) in P6 by ring. exact P6. }
  destruct (both_values x x z z i j) as [t1 [t2 [E1 [_ [T1 T2]]]]]; try (rewrite ?Ea, ?Eb, ?Ec, ?Ed; assumption). 1,2: (left; rewrite !Nat.even_add; destruct (Nat.even x), (Nat.even z); reflexivity).
  rewrite Q1, Q2, Q3, Q6 in T1. rewrite Q1, Q2, Q3, Q4, Q5 in T2. rewrite Ea, Eb in T1, T2. assert (ET : t2 = t1) by (rewrite T1, T2; reflexivity). rewrite E1, ET.
  assert (I1 : In m1 (bmodes pi fsqrt s b i)) by (apply filter_In; split; assumption). assert (I2 : In m2 (bmodes pi fsqrt s b j)) by (apply filter_In; split; assumption).
  assert (DM : dm pi fsqrt s 2 m1 m2 x z <> 0) by (rewrite (mix_dm pi fsqrt trunc ph s 2 m1 m2 x z) by assumption; exact HMx).
  assert (SQP : forall a : F, a <> 0 -> 0 < a * a) by (intros a Ha; apply fle_neq_lt; [apply fsqr_nonneg | intro W; symmetry in W; apply fmul_eq_0 in W; tauto]).
  assert (TN : forall n1 n2, 0 <= RW 2 2 x z x z n1 n2 * true_prod pi ph s (map_product s wa wa) (map_product s wa wa) (diff_mode s n1 n2)) by (intros n1 n2; unfold rotw, true_prod, cdot; apply fmul_nonneg; [apply fsqr_nonneg | apply fadd_nonneg; apply fsqr_nonneg]).
  assert (TP : 0 < TW (map_product s wa wa) (map_product s wa wa) (RW 2 2 x z x z) i j).
  { unfold true_w. apply (lsum_pos _ _ m1 I1); [intros n1 _; apply lsum_nonneg; intros; apply TN|]. apply (lsum_pos _ _ m2 I2); [intros; apply TN|]. unfold rotw, true_prod. apply fmul_pos; [apply SQP; exact DM|]. unfold cdot. set (u := coeff pi ph s (map_product s wa wa) (diff_mode s m1 m2)) in *.
    apply fle_neq_lt; [apply fadd_nonneg; apply fsqr_nonneg|]. intro W. apply HCo. destruct (sq_sum_zero (fst u) (snd u)) as [U1 U2]; [rewrite <- W; apply fle_refl|]. destruct u as [u1 u2]. cbn [fst snd] in U1, U2. unfold c0. rewrite U1, U2. reflexivity. }
  assert (P4 : (0 : F) < fofZ 4) by (change (fofZ 4 : F) with (fofZ (Z.of_nat 4) : F); rewrite fofZ_of_nat; apply fofnat_pos).
  assert (NP : 0 < norm_of pi s (prod i j)).
  { unfold norm_of, prod, ncell. assert (L1 : (0 < length (bmodes pi fsqrt s b i))%nat) by (destruct (bmodes pi fsqrt s b i); [destruct I1 | cbn; lia]). assert (L2 : (0 < length (bmodes pi fsqrt s b j))%nat) by (destruct (bmodes pi fsqrt s b j); [destruct I2 | cbn; lia]).
    rewrite <- Nat2Z.inj_mul. destruct (length (bmodes pi fsqrt s b i) * length (bmodes pi fsqrt s b j))%nat as [|q] eqn:EQ; [nia|]. replace (0 <? Z.of_nat (S q))%Z with true by (symmetry; apply Z.ltb_lt; lia). rewrite fofZ_of_nat. apply fdiv_pos; [|apply fofnat_pos]. apply fdiv_pos; [|repeat apply fmul_pos; assumption].
    repeat apply fmul_pos; assumption. }
  assert (TT : 0 < t1) by (rewrite T1; apply fmul_pos; [exact NP|]; apply fmul_pos; [exact TP | apply SQP; exact Hpos]).
  apply fle_neq_lt; [apply fadd_nonneg; apply flt_le; exact TT|]. intro W. assert (t1 = 0); [|rewrite H in TT; exact (flt_irrefl _ TT)].
  assert (N2 : (fofZ 2 : F) <> 0) by (apply fofZ_neq0; lia). assert (W2 : fofZ 2 * t1 = 0) by (rewrite W; cbn; ring). apply fmul_eq_0 in W2. tauto.
Qed.
End Spin2.
(** ** The bandpowers themselves *)
Variables (ra rb : nat -> mat).
Hypothesis Era : forall k, (k < K)%nat -> decoupled_maps pi fsqrt trunc ph s wa wb ba bb sa sb b c rows (ta k) (tb k) = Ok (ra k) /\ decoupled_maps pi fsqrt trunc ph s wc wd bc bd sc sd b c rows' (tc k) (td k) = Ok (rb k).
Lemma decoupled_matrix m1 m2 e1 e2 s1 s2 r W q1 q2 cl v : good_spin s1 -> good_spin s2 -> all_rows s r -> rect (n_maps s1) np q1 -> rect (n_maps s2) np q2 -> workspace_spins s m1 m2 e1 e2 s1 s2 b c r = Ok W -> coupled_maps s m1 m2 e1 e2 s1 s2 b c q1 q2 = Ok cl ->
  decoupled_maps pi fsqrt trunc ph s m1 m2 e1 e2 s1 s2 b c r q1 q2 = Ok v -> forall p i, (p < n_maps s1 * n_maps s2)%nat -> (i < n)%nat ->
  entry2 cl p i = sum (n_maps s1 * n_maps s2 * n) (fun r' => entry2 (fw_bnd W) (i * (n_maps s1 * n_maps s2) + p) r' * entry2 v (r' mod (n_maps s1 * n_maps s2)) (r' / (n_maps s1 * n_maps s2))).
Proof.
  clear - Hc HY HR Hx Hy Hk1 HE Hcut. intros G1 G2 Hr R1 R2 EW EC ED p i Hp' Hi.
  assert (HN : forall ib m, In m (modes pi fsqrt s b c ib) -> (2 * snd m)%nat <> fs_ny s). { intros ib m Hm Q. apply filter_In in Hm. destruct Hm as [Hm Hb]. apply andb_prop in Hb. destruct Hb as [_ Hb]. apply (HE ib m); [apply filter_In; split; assumption | right; exact Q]. }
  assert (GS : forall sp, good_spin sp -> (0 <= sp)%Z) by (intros sp [-> | ->]; lia).
  rewrite (decoupled_eq pi fsqrt trunc ph s m1 m2 e1 e2 s1 s2 b c Hc HR Hx Hy Hk1 (GS _ G1) (GS _ G2) r q1 q2 Hr R1 R2) in ED. rewrite EW in ED. cbn [bind] in ED. rewrite EC in ED. cbn [bind] in ED.
  rewrite (coupled_maps_ok pi fsqrt trunc ph s m1 m2 e1 e2 s1 s2 b c Hc HY HR Hx Hy Hk1 (GS _ G1) (GS _ G2) HN _ _ R1 R2) in EC. injection EC as EC. assert (Rc : rect (n_maps s1 * n_maps s2) n cl) by (rewrite <- EC; apply rect_tab).
  destruct (workspace_facts _ _ _ _ _ _ _ _ Hr EW) as [SW [CW BW]]. pose proof (n_maps_pos s1). pose proof (n_maps_pos s2). set (N := (n_maps s1 * n_maps s2)%nat) in *. assert (HN0 : (0 < N)%nat) by (unfold N; nia).
  destruct (C63_no_bias W cl (zeros_like cl) (zeros_like cl)) as [E _]; rewrite ?CW, ?BW; try assumption; try (apply rect_zeros; exact Rc); try (intros; apply entry_zeros). rewrite E in ED.
  apply C63_decouple_solves in ED; rewrite ?CW, ?BW; try assumption; try (apply rect_zeros; exact Rc). destruct ED as [_ [_ ED]]. rewrite CW, BW in ED. rewrite (ED p i Hp' Hi), !entry_zeros. unfold apply_matrix.
  rewrite (Nat.mul_comm N n), sum_flat, sum_swap. transitivity (sum n (fun jb => sum N (fun j => entry2 (fw_bnd W) (i * N + p) (jb * N + j) * entry2 v j jb))); [ring|]. apply sum_ext. intros jb Hjb. apply sum_ext. intros j Hj. rewrite (Nat.mul_comm N jb). destruct (div_mod_flat N j jb Hj) as [-> ->]. reflexivity.
Qed.
(** If not all fields have spin 2 and the masks do not distinguish a direction from its mirror image, the covariance matrix is exactly that of the decoupled bandpowers. *)
Theorem C88_bandpowers x y z w i j : sa = 0%Z \/ sb = 0%Z \/ sc = 0%Z \/ sd = 0%Z -> mirror_prod pi ph s (map_product s wa wc) (map_product s wb wd) -> mirror_prod pi ph s (map_product s wa wd) (map_product s wb wc) ->
  (x < na)%nat -> (y < nb)%nat -> (z < nc)%nat -> (w < nd)%nat -> (i < n)%nat -> (j < n)%nat ->
  entry2 M (i * (na * nb) + (x * nb + y)) (j * (nc * nd) + (z * nd + w)) = covariance K pr (fun k => entry2 (ra k) (x * nb + y) i) (fun k => entry2 (rb k) (z * nd + w) j).
Proof.
  intros HZ M1 M2 X1 X2 X3 X4 Hi Hj. destruct (workspace_facts _ _ _ _ _ _ _ _ HP Ewa) as [Sa [Ca Ba]]. destruct (workspace_facts _ _ _ _ _ _ _ _ HP' Ewb) as [Sb [Cb Bb]].
  assert (NS : nonsingular (na * nb * n) (fw_bnd Wa) /\ nonsingular (nc * nd * n) (fw_bnd Wb)).
  { pose proof EMc as EM1. unfold gaussian_covariance_flat in EM1. cbv zeta in EM1. change (need (Some Wa)) with (Ok Wa) in EM1. change (need (Some Wb)) with (Ok Wb) in EM1. cbn [bind] in EM1. repeat match type of EM1 with (if ?bb then _ else _) = _ => destruct bb; [discriminate EM1|] end.
    match type of EM1 with bind (alloc_out ?z) _ = _ => destruct (alloc_out z) as [u|?|]; cbn [bind] in EM1; try discriminate EM1 end. unfold fcovar in EM1. repeat match type of EM1 with (if ?bb then _ else _) = _ => destruct bb; [discriminate EM1|] end.
    do 5 (match type of EM1 with bind ?e _ = _ => destruct e as [?|?|]; cbn [bind] in EM1; try discriminate EM1 end). pose proof (lu_invert_spec _ _ Sa) as IA. pose proof (lu_invert_spec _ _ Sb) as IB.
    destruct (lu_invert (fw_bnd Wb)) as [?|?|]; cbn [bind] in EM1; try discriminate EM1. destruct (lu_invert (fw_bnd Wa)) as [?|?|]; cbn [bind] in EM1; try discriminate EM1. tauto. }
  destruct NS as [NA NB]. pose proof (n_maps_pos sa). pose proof (n_maps_pos sb). pose proof (n_maps_pos sc). pose proof (n_maps_pos sd).
  set (D := fun r k => covariance K pr (fun q => entry2 (ra q) (r mod (na * nb)) (r / (na * nb))) (fun q => entry2 (rb q) (k mod (nc * nd)) (k / (nc * nd)))).
  rewrite (recoupled_inj (na * nb * n) (nc * nd * n) (fw_bnd Wa) (fw_bnd Wb) M D Sa Sb NA NB); [| | nia | nia].
  - unfold D. destruct (div_mod_flat (na * nb) (x * nb + y) i ltac:(nia)) as [-> ->]. destruct (div_mod_flat (nc * nd) (z * nd + w) j ltac:(nia)) as [-> ->]. reflexivity.
  - intros r k Hr Hk. assert (ER : exists i x y, r = (i * (na * nb) + (x * nb + y))%nat /\ (i < n)%nat /\ (x < na)%nat /\ (y < nb)%nat).
    { exists (r / (na * nb))%nat, ((r mod (na * nb)) / nb)%nat, ((r mod (na * nb)) mod nb)%nat. assert (R1 := Nat.div_mod r (na * nb) ltac:(nia)). assert (R2 := Nat.mod_upper_bound r (na * nb) ltac:(nia)). assert (R3 := Nat.div_mod (r mod (na * nb)) nb ltac:(nia)). assert (R4 := Nat.mod_upper_bound (r mod (na * nb)) nb ltac:(nia)).
      split; [rewrite (Nat.mul_comm (_ / nb) nb), <- R3, (Nat.mul_comm (r / _)); exact R1|]. split; [apply Nat.div_lt_upper_bound; nia|]. split; [apply Nat.div_lt_upper_bound; nia | exact R4]. }
    assert (EK : exists j z w, k = (j * (nc * nd) + (z * nd + w))%nat /\ (j < n)%nat /\ (z < nc)%nat /\ (w < nd)%nat).
    { exists (k / (nc * nd))%nat, ((k mod (nc * nd)) / nd)%nat, ((k mod (nc * nd)) mod nd)%nat. assert (R1 := Nat.div_mod k (nc * nd) ltac:(nia)). assert (R2 := Nat.mod_upper_bound k (nc * nd) ltac:(nia)). assert (R3 := Nat.div_mod (k mod (nc * nd)) nd ltac:(nia)). assert (R4 := Nat.mod_upper_bound (k mod (nc * nd)) nd ltac:(nia)).
      split; [rewrite (Nat.mul_comm (_ / nd) nd), <- R3, (Nat.mul_comm (k / _)); exact R1|]. split; [apply Nat.div_lt_upper_bound; nia|]. split; [apply Nat.div_lt_upper_bound; nia | exact R4]. }
    destruct ER as [i0 [x0 [y0 [Er [Hi0 [Hx0 Hy0]]]]]]. destruct EK as [j0 [z0 [w0 [Ek [Hj0 [Hz0 Hw0]]]]]].
    assert (EX := C88_exact x0 y0 z0 w0 i0 j0 Hx0 Hy0 Hz0 Hw0 Hi0 Hj0 ltac:(tauto) (or_intror (conj M1 M2))). unfold from_code in EX. rewrite <- Er, <- Ek in EX. rewrite EX. unfold from_maps. change (@covariance) with (@cov F).
    assert (Hp0 : (x0 * nb + y0 < na * nb)%nat) by nia. assert (Hq0 : (z0 * nd + w0 < nc * nd)%nat) by nia.
    rewrite (cov_ext K pr _ _ (fun q => sum (na * nb * n) (fun r' => entry2 (fw_bnd Wa) r r' * entry2 (ra q) (r' mod (na * nb)) (r' / (na * nb)))) (fun q => sum (nc * nd * n) (fun k' => entry2 (fw_bnd Wb) k k' * entry2 (rb q) (k' mod (nc * nd)) (k' / (nc * nd))))).
    + rewrite (cov_sum K pr (na * nb * n) (fun r' => entry2 (fw_bnd Wa) r r') (fun r' q => entry2 (ra q) (r' mod (na * nb)) (r' / (na * nb)))). apply sum_ext. intros r' _. rewrite cov_sym, (cov_sum K pr (nc * nd * n) (fun k' => entry2 (fw_bnd Wb) k k') (fun k' q => entry2 (rb q) (k' mod (nc * nd)) (k' / (nc * nd)))).
      rewrite <- sum_mul_l. apply sum_ext. intros k' _. unfold D. change (@covariance) with (@cov F). rewrite cov_sym. ring.
    + intros q Hq. destruct (Hl q Hq) as [L1 [L2 _]]. rewrite Er. apply (decoupled_matrix wa wb ba bb sa sb rows Wa (ta q) (tb q)); try assumption; [apply Eca | apply Era]; exact Hq.
    + intros q Hq. destruct (Hl q Hq) as [_ [_ [L3 L4]]]. rewrite Ek. apply (decoupled_matrix wc wd bc bd sc sd rows' Wb (tc q) (td q)); try assumption; [apply Eca | apply Era]; exact Hq.
Qed.
End Run.
(** Such ensembles exist for all map sizes, spins and amplitudes: independent variables in every pixel for T, Q and U. *)
Definition source (spin : Z) (x : nat) (A : F) (u : nat) : F := if Nat.eqb u (if (spin =? 0)%Z then 0 else S x) then A else 0.
Definition noise_maps (s : fsinfo) (spin : Z) (A : F) (k : nat) : mat := tab (n_maps spin) (fun x => emap s 3 (source spin x A) k).
Theorem C88_ensemble_exists (s : fsinfo) (sa sb sc sd : Z) (A1 A2 B1 B2 : F) : good_spin sa -> good_spin sb -> good_spin sc -> good_spin sd ->
  let K := (5 ^ nvar s 3)%nat in let pr := weight (nvar s 3) : nat -> F in
  (forall sp A k, rect (n_maps sp) (fs_nx s * fs_ny s) (noise_maps s sp A k)) /\
  (forall x y z w, (x < n_maps sa)%nat -> (y < n_maps sb)%nat -> (z < n_maps sc)%nat -> (w < n_maps sd)%nat -> gaussian4 s K pr (comp (noise_maps s sa A1) x) (comp (noise_maps s sb A2) y) (comp (noise_maps s sc B1) z) (comp (noise_maps s sd B2) w)) /\
  (forall s1 s2 X Y, good_spin s1 -> good_spin s2 -> white_pol s K pr s1 s2 (noise_maps s s1 X) (noise_maps s s2 Y) (if (s1 =? s2)%Z then X * Y else 0)).
Proof.
  clear pi fsqrt trunc ph imul. intros Ga Gb Gc Gd. cbv zeta. assert (CP : forall sp A x, (x < n_maps sp)%nat -> comp (noise_maps s sp A) x = (fun k => nth x (noise_maps s sp A k) [])) by reflexivity.
  assert (MX : forall sp A x k, (x < n_maps sp)%nat -> comp (noise_maps s sp A) x k = emap s 3 (source sp x A) k) by (intros sp A x k Hx; unfold comp, noise_maps; rewrite nth_tab by exact Hx; reflexivity).
  split; [|split].
  - intros sp A k. split; [apply length_tab|]. intros r Hr. unfold noise_maps, tab in Hr. apply in_map_iff in Hr. destruct Hr as [x [<- _]]. apply length_tab.
  - intros x y z w X1 X2 X3 X4 p p' q q' Hp Hp' Hq Hq'. pose proof (ens_gauss s 3 (source sa x A1) (source sb y A2) (source sc z B1) (source sd w B2) p p' q q' Hp Hp' Hq Hq') as E. unfold mean2 in *.
    rewrite (sum_ext _ _ (fun k => weight (nvar s 3) k * (pix s (emap s 3 (source sa x A1) k) p * pix s (emap s 3 (source sb y A2) k) p' * (pix s (emap s 3 (source sc z B1) k) q * pix s (emap s 3 (source sd w B2) k) q')))) by (intros k _; rewrite !MX by assumption; reflexivity).
    assert (M2 : forall s1 s2 C D x y p p', (x < n_maps s1)%nat -> (y < n_maps s2)%nat -> sum (5 ^ nvar s 3) (fun k => weight (nvar s 3) k * (pix s (comp (noise_maps s s1 C) x k) p * pix s (comp (noise_maps s s2 D) y k) p')) = sum (5 ^ nvar s 3) (fun k => weight (nvar s 3) k * (pix s (emap s 3 (source s1 x C) k) p * pix s (emap s 3 (source s2 y D) k) p'))) by (intros; apply sum_ext; intros k _; rewrite !MX by assumption; reflexivity).
    rewrite E, !M2 by assumption. reflexivity.
  - intros s1 s2 X Y G1 G2. split; [intro D; rewrite (proj2 (Z.eqb_neq _ _) D); reflexivity|]. intros x y Hx Hy p p' Hp Hp'. pose proof (ens_white s 3 (source s1 x X) (source s2 y Y) p p' Hp Hp') as E. unfold mean2 in *.
    rewrite (sum_ext _ _ (fun k => weight (nvar s 3) k * (pix s (emap s 3 (source s1 x X) k) p * pix s (emap s 3 (source s2 y Y) k) p'))) by (intros k _; rewrite !MX by assumption; reflexivity). rewrite E. destruct (same p p'); [|reflexivity].
    unfold gram, source. destruct G1 as [-> | ->], G2 as [-> | ->]; change (n_maps 0) with 1%nat in *; change (n_maps 2) with 2%nat in *; cbn [Z.eqb seq map lsum fold_right]; destruct x as [|[|x]], y as [|[|y]]; try lia; cbn; ring.
Qed.
End Statements.

(** ** Examples: a 4x4 map with two bands, a mirror-symmetric mask and a beam *)
Section Ex.
Notation Q := Qc_field.
Definition n34 (spin : Z) (k : nat) : list (list Q) := noise_maps s34 spin (qz 1) k.
(** spectrum of unit white noise: one times the area of a pixel *)
Definition pw34 : Q := q 1 48.
Definition e34 : list Q := map qz [0; 5; 10]%Z.
Lemma pix34 : pix_var s34 pw34 = qz 1. Proof. apply out_inj. vm_compute. reflexivity. Qed.
Lemma pix34_0 : pix_var s34 (qz 0) = qz 0. Proof. apply out_inj. vm_compute. reflexivity. Qed.
Lemma uncut34 m : In m (grid s34) -> uncut (qz 1) s34 free m = true. Proof. intros _. exact (no_cut_uncut (qz 1) s34 m). Qed.
Lemma noedges34 i m : In m (bmodes (qz 1) sq34 s34 b34 i) -> ~ edge s34 m.
Proof.
  intros Hm. apply filter_In in Hm. destruct Hm as [Hm Hb]. destruct (Nat.lt_ge_cases i 2) as [L|L]; [exact (noedge34 i m L Hm Hb)|]. intros _. exact (no_band34 i _ L Hb).
Qed.
Lemma mirror_sq34 : mirror_prod (qz 1) ph4 s34 (map_product s34 mmirror mmirror) (map_product s34 mmirror mmirror).
Proof.
  apply (C86_mirror_masks (qz 1) sq34 ph4 s34 _ _ roots34). left. intros x y Hx Hy. cbn [s34 fs_nx fs_ny] in Hx, Hy. destruct x as [|[|[|[|x]]]]; try lia; destruct y as [|[|[|[|y]]]]; try lia; split; apply out_inj; vm_compute; reflexivity.
Qed.
Lemma white34 s1 s2 : good_spin s1 -> good_spin s2 -> white_pol s34 (5 ^ nvar s34 3) (weight (nvar s34 3)) s1 s2 (n34 s1) (n34 s2) (pix_var s34 (if (s1 =? s2)%Z then pw34 else qz 0)).
Proof.
  intros G1 G2. destruct (C88_ensemble_exists s34 s1 s1 s2 s2 (qz 1 : Q) (qz 1) (qz 1) (qz 1) G1 G1 G2 G2) as [_ [_ W]]. specialize (W s1 s2 (qz 1) (qz 1) G1 G2). cbv zeta in W. unfold n34.
  replace (pix_var s34 (if (s1 =? s2)%Z then pw34 else qz 0)) with (if (s1 =? s2)%Z then fmul (qz 1) (qz 1) else f0 : Q); [exact W|]. destruct (s1 =? s2)%Z; [rewrite pix34 | rewrite pix34_0]; apply out_inj; vm_compute; reflexivity.
Qed.
Definition w34 (s1 s2 : Z) : fwsp Q := from_ok dummy (wsp34 mmirror mmirror s1 s2).
Definition cov34 (s1 s2 : Z) : res (list (list Q)) :=
  gaussian_covariance_flat (fst (cov_workspace_spins (qz 1) sq34 ph4 imul_strict s34 mmirror mmirror mmirror mmirror s1 s2 s1 s2 b34 [2; 0; 1; 3]%nat)) (Spins s1 s2 s1 s2) e34
    (white_spectra s1 s1 pw34 3) (white_spectra s1 s2 (if (s1 =? s2)%Z then pw34 else qz 0) 3) (white_spectra s2 s1 (if (s2 =? s1)%Z then pw34 else qz 0) 3) (white_spectra s2 s2 pw34 3) (Some (w34 s1 s2)) (Some (Some (w34 s1 s2))).
Definition coupled34 (s1 s2 : Z) (k : nat) : list (list Q) := from_ok [] (coupled_maps (qz 1) sq34 ph4 s34 mmirror mmirror beam34 one34 s1 s2 b34 free (n34 s1 k) (n34 s2 k)).
Definition decoupled34 (s1 s2 : Z) (k : nat) : list (list Q) := from_ok [] (decoupled_maps (qz 1) sq34 trq ph4 s34 mmirror mmirror beam34 one34 s1 s2 b34 free [2; 0; 1; 3]%nat (n34 s1 k) (n34 s2 k)).
(** two spin-2 fields: the covariance of EE (band 0) and BB (band 1) is positive, that of the code negative *)
Example ex_sign : exists M, cov34 2 2 = Ok M /\ forall i j, (i = 0 /\ j = 1)%nat ->
  flt f0 (covariance (5 ^ nvar s34 3) (weight (nvar s34 3)) (fun k => entry2 (coupled34 2 2 k) 0 i) (fun k => entry2 (coupled34 2 2 k) 3 j)) /\
  flt (recoupled 8 8 (fw_bnd (w34 2 2)) (fw_bnd (w34 2 2)) M (i * 4 + 0) (j * 4 + 3)) f0.
Proof.
  assert (G2 : good_spin 2) by (right; reflexivity). pose proof (white34 2 2 G2 G2) as W. cbn [Z.eqb Pos.eqb] in W. destruct (C88_ensemble_exists s34 2 2 2 2 (qz 1 : Q) (qz 1) (qz 1) (qz 1) G2 G2 G2 G2) as [R [GG _]]. cbv zeta in GG.
  pose proof (C88_runs (qz 1) sq34 trq ph4 imul_strict s34 mmirror mmirror mmirror mmirror beam34 one34 beam34 one34 2 2 2 2 b34 free [2; 0; 1; 3]%nat [2; 0; 1; 3]%nat [2; 0; 1; 3]%nat e34 pw34 pw34 pw34 pw34 (5 ^ nvar s34 3) (weight (nvar s34 3)) (n34 2) (n34 2) (n34 2) (n34 2)) as RUN.
  destruct RUN as [Wa [Wb [cw [ca [cb [E1 [E2 [E3 [E4 E5]]]]]]]]].
  1: exact strict_exact. 1: exact contiguous34. 1: exact ysym34. 1: exact roots34. 1-4: (vm_compute; lia || reflexivity). 1: exact kx34. 1-3: exact rows34. 1: (split; [cbn; lia | vm_compute; reflexivity]). 1: (intros; apply C57_small_maps; vm_compute; discriminate). 1: exact noedges34. 1-4: exact G2.
  1: exact (fun k _ => conj (R _ _ k) (conj (R _ _ k) (conj (R _ _ k) (R _ _ k)))). 1: exact GG. 1-4: exact W. 1: (vm_compute; discriminate).
  assert (EWa : Wa = w34 2 2) by (unfold w34, wsp34; rewrite E1; reflexivity). assert (EWb : Wb = w34 2 2) by (unfold w34, wsp34; rewrite E2; reflexivity).
  destruct E5 as [M [ra [rb [EM _]]]]; [rewrite EWa; exact w4_nonsingular | rewrite EWb; exact w4_nonsingular|].
  exists M. split. { unfold cov34. rewrite E3. cbn [fst Z.eqb Pos.eqb]. rewrite <- EWa at 1. rewrite <- EWb. exact EM. }
  intros i j [-> ->].
  pose proof (C88_sign_refuted (qz 1) sq34 trq ph4 imul_strict s34 mmirror mmirror mmirror mmirror beam34 one34 beam34 one34 2 2 2 2 b34 free [2; 0; 1; 3]%nat [2; 0; 1; 3]%nat [2; 0; 1; 3]%nat e34 pw34 pw34 pw34 pw34 (5 ^ nvar s34 3) (weight (nvar s34 3)) (n34 2) (n34 2) (n34 2) (n34 2)) as S.
  specialize (S strict_exact contiguous34 ysym34 uncut34 roots34 hom34 sign34). destruct (S eq_refl eq_refl eq_refl ltac:(vm_compute; lia) ltac:(vm_compute; lia) kx34 rows34 rows34 rows34 ltac:(split; [cbn; lia | vm_compute; reflexivity]) ltac:(intros; apply C57_small_maps; vm_compute; discriminate) noedges34 G2 G2 G2 G2 (fun k _ => conj (R _ _ k) (conj (R _ _ k) (conj (R _ _ k) (R _ _ k)))) GG W W W W
    Wa Wb cw M ca cb E1 E2 E3 EM E4 eq_refl eq_refl eq_refl eq_refl 0%nat 1%nat 0%nat 1%nat (1, 0)%nat (1, 1)%nat) as [P1 P2].
  1-3: lia. 1-2: (vm_compute; lia). 1-6: reflexivity. 1: (intro E; apply (f_equal out) in E; vm_compute in E; discriminate E). 1-2: (vm_compute; tauto). 1-2: (vm_compute; reflexivity). 1: (intro E; apply (f_equal out) in E; vm_compute in E; discriminate E). 1: (intro E; apply (f_equal (fun c => out (fst c))) in E; vm_compute in E; discriminate E).
  split.
  - unfold from_maps in P1. rewrite (cov_ext _ _ _ _ (fun k => entry2 (ca k) 0 0) (fun k => entry2 (cb k) 3 1)); [exact P1 | |]; intros k Hk; unfold coupled34; destruct (E4 k Hk) as [X1 X2]; [rewrite X1 | rewrite X2]; reflexivity.
  - unfold from_code in P2. rewrite EWa, EWb in P2. exact P2.
Qed.
(** a spin-0 and a spin-2 field: the matrix is that of the decoupled TE and TB *)
Lemma w02_nonsingular : nonsingular 4 (fw_bnd (w34 0 2)). Proof. apply nonsing34. vm_compute. reflexivity. Qed.
Example ex_exact_spins : exists M, cov34 0 2 = Ok M /\ forall y w i j, (y < 2)%nat -> (w < 2)%nat -> (i < 2)%nat -> (j < 2)%nat ->
  entry2 M (i * 2 + y) (j * 2 + w) = covariance (5 ^ nvar s34 3) (weight (nvar s34 3)) (fun k => entry2 (decoupled34 0 2 k) y i) (fun k => entry2 (decoupled34 0 2 k) w j).
Proof.
  assert (G0 : good_spin 0) by (left; reflexivity). assert (G2 : good_spin 2) by (right; reflexivity). pose proof (white34 0 0 G0 G0) as W0. pose proof (white34 0 2 G0 G2) as W1. pose proof (white34 2 0 G2 G0) as W2. pose proof (white34 2 2 G2 G2) as W3. cbn [Z.eqb Pos.eqb] in W0, W1, W2, W3.
  destruct (C88_ensemble_exists s34 0 2 0 2 (qz 1 : Q) (qz 1) (qz 1) (qz 1) G0 G2 G0 G2) as [R [GG _]]. cbv zeta in GG.
  pose proof (C88_runs (qz 1) sq34 trq ph4 imul_strict s34 mmirror mmirror mmirror mmirror beam34 one34 beam34 one34 0 2 0 2 b34 free [2; 0; 1; 3]%nat [2; 0; 1; 3]%nat [2; 0; 1; 3]%nat e34 pw34 (qz 0) (qz 0) pw34 (5 ^ nvar s34 3) (weight (nvar s34 3)) (n34 0) (n34 2) (n34 0) (n34 2)) as RUN.
  destruct RUN as [Wa [Wb [cw [ca [cb [E1 [E2 [E3 [E4 E5]]]]]]]]].
  1: exact strict_exact. 1: exact contiguous34. 1: exact ysym34. 1: exact roots34. 1-4: (vm_compute; lia || reflexivity). 1: exact kx34. 1-3: exact rows34. 1: (split; [cbn; lia | vm_compute; reflexivity]). 1: (intros; apply C57_small_maps; vm_compute; discriminate). 1: exact noedges34. 1-4: assumption.
  1: exact (fun k _ => conj (R _ _ k) (conj (R _ _ k) (conj (R _ _ k) (R _ _ k)))). 1: exact GG. 1: exact W0. 1: exact W1. 1: exact W2. 1: exact W3. 1: (vm_compute; discriminate).
  assert (EWa : Wa = w34 0 2) by (unfold w34, wsp34; rewrite E1; reflexivity). assert (EWb : Wb = w34 0 2) by (unfold w34, wsp34; rewrite E2; reflexivity).
  destruct E5 as [M [ra [rb [EM ER]]]]; [rewrite EWa; exact w02_nonsingular | rewrite EWb; exact w02_nonsingular|].
  exists M. split. { unfold cov34. rewrite E3. cbn [fst Z.eqb Pos.eqb]. rewrite <- EWa at 1. rewrite <- EWb. exact EM. }
  intros y w i j Hy Hw Hi Hj.
  pose proof (C88_bandpowers (qz 1) sq34 trq ph4 imul_strict s34 mmirror mmirror mmirror mmirror beam34 one34 beam34 one34 0 2 0 2 b34 free [2; 0; 1; 3]%nat [2; 0; 1; 3]%nat [2; 0; 1; 3]%nat e34 pw34 (qz 0) (qz 0) pw34 (5 ^ nvar s34 3) (weight (nvar s34 3)) (n34 0) (n34 2) (n34 0) (n34 2)) as S.
  specialize (S strict_exact contiguous34 ysym34 uncut34 roots34 hom34 sign34). rewrite (cov_ext _ _ _ _ (fun k => entry2 (ra k) (0 * 2 + y) i) (fun k => entry2 (rb k) (0 * 2 + w) j)).
  - apply (S eq_refl eq_refl eq_refl ltac:(vm_compute; lia) ltac:(vm_compute; lia) kx34 rows34 rows34 rows34 ltac:(split; [cbn; lia | vm_compute; reflexivity]) ltac:(intros; apply C57_small_maps; vm_compute; discriminate) noedges34 G0 G2 G0 G2 (fun k _ => conj (R _ _ k) (conj (R _ _ k) (conj (R _ _ k) (R _ _ k)))) GG W0 W1 W2 W3
    Wa Wb cw M ca cb E1 E2 E3 EM E4 ra rb ER 0%nat y 0%nat w i j); try assumption; try exact mirror_sq34; [left; reflexivity | vm_compute; lia | vm_compute; lia].
  - intros k Hk. unfold decoupled34. destruct (ER k Hk) as [X _]. rewrite X. reflexivity.
  - intros k Hk. unfold decoupled34. destruct (ER k Hk) as [_ X]. rewrite X. reflexivity.
Qed.
End Ex.

Print Assumptions C88_runs. Print Assumptions C88_exact. Print Assumptions C88_EE_BB_refuted. Print Assumptions C88_EB_refuted. Print Assumptions C88_sign_refuted. Print Assumptions C88_bandpowers. Print Assumptions C88_ensemble_exists.
