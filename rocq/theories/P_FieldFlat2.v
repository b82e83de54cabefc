(** Property C81: deprojection of templates from flat-sky fields. *)
From Verif Require Import Base FieldR M_Utils M_Bins M_FlatBins M_LinAlg M_Workspace M_Flat M_WspFlat M_Syn M_FieldFlat P_FlatBins P_Flat P_WspFlat L_LinAlg L_Flat L_Flat2 L_Flat3 L_WspFlat L_WspFlat2 L_FlatLin L_FlatMean L_Pure P_FlatMean P_FieldFlat L_BiasFlat P_BiasFlat P_FullFlat.
From Verif Require L_Field M_Field P_CovFlat.
Open Scope nat_scope.

Section PFieldFlat2.
Context {F : ofield}.
Local Open Scope F_scope.
Add Field FfPFF2 : (fth F).
Notation mat := (list (list F)).
Notation cplx := (cplx F).
Notation fsinfo := (fsinfo F).
Notation ffield := (ffield F).
Notation flat_args := (flat_args F).
Notation flat_field := (flat_field F).

(** sum over components and pixels of the product of two maps *)
Definition overlap (n np : nat) (x y : mat) : F := sum n (fun c => sum np (fun p => nth p (nth c x []) 0 * nth p (nth c y []) 0)).
Definition pixel_area (s : fsinfo) : F := fs_lx s * fs_ly s / fofnat (npix_fs s).
(** the matrix of scalar products of the templates *)
Definition products (s : fsinfo) (n : nat) (t : list mat) : mat := tab (length t) (fun i => tab (length t) (fun j => overlap n (npix_fs s) (nth i t []) (nth j t []) * pixel_area s)).
Lemma overlap_sym n np x y : overlap n np x y = overlap n np y x.
Proof. unfold overlap. apply sum_ext. intros c _. apply sum_ext. intros p _. ring. Qed.
Lemma maps_dot_overlap (s : fsinfo) n x y : maps_dot s n x y = overlap n (npix_fs s) x y * pixel_area s.
Proof. unfold maps_dot, overlap, map_dot, pixel_area. rewrite sum_mul_r. reflexivity. Qed.
Lemma temp_matrix_products (s : fsinfo) n t : temp_matrix s n t = products s n t.
Proof.
  unfold temp_matrix, products. apply tab_ext. intros i Hi. apply tab_ext. intros j Hj. rewrite maps_dot_overlap. destruct (Nat.le_gt_cases i j) as [L|L].
  - rewrite Nat.min_l, Nat.max_r by lia. reflexivity.
  - rewrite Nat.min_r, Nat.max_l by lia. rewrite overlap_sym. reflexivity.
Qed.
Lemma overlap_ip (s : fsinfo) n (x y : nat -> nat -> F) : L_Field.ip n (npix_fs s) (fun _ => pixel_area s) x y = sum n (fun c => sum (npix_fs s) (fun p => x c p * y c p)) * pixel_area s.
Proof. unfold L_Field.ip. rewrite <- sum_mul_r. apply sum_ext. intros c _. rewrite <- sum_mul_r. apply sum_ext. intros p _. ring. Qed.
Lemma area_pos (s : fsinfo) p : 0 < fs_lx s -> 0 < fs_ly s -> (p < npix_fs s)%nat -> 0 < pixel_area s.
Proof. intros A B Hp. unfold pixel_area. apply P_CovFlat.fdiv_pos; [apply fmul_pos; assumption | destruct (npix_fs s); [lia | apply fofnat_pos]]. Qed.

Variables (pi : F) (fsqrt : F -> F) (ph : nat -> nat -> cplx) (eigh : mat -> list F * mat).
Notation flat_new := (flat_new pi fsqrt ph eigh).
(** The eigen-decomposition is exact and every eigenvalue that is dropped (below the tolerance times the largest) is zero. *)
Definition exact_solver (tol : F) (M : mat) : Prop :=
  L_Field.eigen (length M) M (fst (eigh M)) (snd (eigh M)) /\
  forall k, (k < length M)%nat -> nth k (fst (eigh M)) 0 = 0 \/ (nth k (fst (eigh M)) 0 <? tol * maxl (fst (eigh M))) = false.
Lemma pinv_parts M tol P : exact_solver tol M -> pinv eigh M tol = Ok P -> exists w v wi, L_Field.eigen (length M) M w v /\ L_Field.inverted (length M) w wi /\ forall a b, (a < length M)%nat -> (b < length M)%nat -> M_Field.mg P a b = sum (length M) (fun k => M_Field.mg v a k * nth k wi 0 * M_Field.mg v b k).
Proof.
  intros [E G] H. unfold pinv in H. destruct (eigh M) as [w v]. cbn [fst snd] in *. set (g := fun i : nat => _) in H. destruct (tabM (length M) g) as [wi|x|] eqn:T; [|discriminate H|discriminate H]. cbn [bind] in H. injection H as <-.
  exists w, v, wi. split; [exact E|]. destruct (tabM_inv _ _ _ T) as [L V]. split.
  - split; [exact L|]. intros k Hk. destruct (G k Hk) as [Z|Z]; [left; exact Z|]. right. specialize (V k 0 Hk). unfold g in V. rewrite Z in V. destruct (nth k w 0 =? 0) eqn:E0; [discriminate V|]. injection V as <-. apply feqb_neq in E0. field. exact E0.
  - intros a b Ha Hb. unfold M_Field.mg at 1. rewrite nth_tab by exact Ha. rewrite nth_tab by exact Hb. apply sum_ext. intros k _. unfold entry2, M_Field.mg. ring.
Qed.
(** The part of the constructor after the maps and templates are masked, without purification. *)
Definition tail (s : fsinfo) (mask : list F) (spin : Z) (X : mat) (T : list mat) (beam : F -> F) (tol : F) (lite : bool) : res flat_field :=
  let n := nmap_of spin in
  do dep <- (if (0 <? length T)%nat then do iM <- pinv eigh (temp_matrix s n T) tol; Ok (Some iM) else Ok None);
  let al := match dep with Some iM => amplitudes s n iM T X | None => [] end in
  let Y := subtract s n al T X in
  do alms <- fs_map2alm pi fsqrt ph s spin Y;
  do at_ <- (if lite then Ok [] else mapM (fs_map2alm pi fsqrt ph s spin) T);
  Ok (FlatField (FF s spin false false mask beam alms false) (if lite then None else Some Y) (if (0 <? length T)%nat then if lite then None else Some T else None) (if (0 <? length T)%nat then if lite then None else Some at_ else None) dep lite).
Definition mk (s : fsinfo) (mask : list F) (masked : bool) (m : mat) : mat := if masked then m else map (product s mask) m.
Lemma alloc_tail s mask sp m ts beam tol masked lite : field_flat_alloc pi fsqrt ph eigh s mask sp m ts beam false false tol masked lite = tail s mask sp (mk s mask masked m) (map (mk s mask masked) ts) beam tol lite.
Proof. reflexivity. Qed.
(** what the constructor checks *)
Definition checked (a : flat_args) (m : mat) (sp : Z) (ts : list mat) : Prop :=
  (g_lx a <? 0) = false /\ (g_ly a <? 0) = false /\ spin_from (length m) (g_spin a) = Ok sp /\ shaped (nmap_of sp) (npix_fs (geometry a)) m /\ temps_from (g_temp a) (length m) (npix_fs (geometry a)) = Ok ts /\ (forall x, In x ts -> shaped (nmap_of sp) (npix_fs (geometry a)) x) /\ 0 < g_lx a /\ 0 < g_ly a.
Lemma temps_from_shaped (t : ftemp F) n np (ts : list mat) : temps_from t n np = Ok ts -> forall x, In x ts -> shaped n np x.
Proof.
  unfold temps_from. destruct t as [|t|]; [intro E; injection E as <-; intros x []| |discriminate]. destruct t as [|t0 tr]; [discriminate|]. destruct (forallb _ (t0 :: tr)) eqn:G; [|discriminate]. intro E. injection E as <-. rewrite forallb_forall in G.
  intros x Hx. specialize (G x Hx). apply andb_prop in G as [G1 G2]. apply Nat.eqb_eq in G1. rewrite forallb_forall in G2. split; [exact G1|]. intros r Hr. apply Nat.eqb_eq. exact (G2 r Hr).
Qed.
Lemma flat_iff (a : flat_args) m f : g_maps a = Some m -> g_pe a = false -> g_pb a = false ->
  (flat_new a = Ok f <-> exists sp ts, checked a m sp ts /\ tail (geometry a) (g_mask a) sp (mk (geometry a) (g_mask a) (g_masked a) m) (map (mk (geometry a) (g_mask a) (g_masked a)) ts) (g_beam a) (g_tol a) (g_lite a) = Ok f).
Proof.
  intros Em Pe Pb. unfold M_FieldFlat.flat_new. rewrite Em, Pe, Pb. cbn [orb andb]. change (g_nx a * g_ny a)%nat with (npix_fs (geometry a)). change (FS (g_nx a) (g_ny a) (g_lx a) (g_ly a)) with (geometry a). split.
  - intro E. destruct (g_lx a <? 0) eqn:G1; [discriminate E|]. destruct (g_ly a <? 0) eqn:G2; [discriminate E|]. cbn [orb] in E. destruct (spin_from _ _) as [sp|?|] eqn:Es; [|discriminate E|discriminate E]. cbn [bind] in E. destruct (forallb _ m) eqn:EL; [|discriminate E]. cbn [negb] in E. destruct (temps_from _ _ _) as [ts|?|] eqn:Et; [|discriminate E|discriminate E]. cbn [bind] in E.
    destruct (0 <? g_lx a) eqn:G3; [|discriminate E]. destruct (0 <? g_ly a) eqn:G4; [|discriminate E]. cbn [andb negb] in E. rewrite alloc_tail in E. exists sp, ts. split; [|exact E]. pose proof (spin_length _ _ _ Es) as Ln. rewrite forallb_forall in EL.
    repeat (split; [assumption|]). split; [split; [exact Ln | intros r Hr; apply Nat.eqb_eq; exact (EL r Hr)]|]. split; [assumption|]. split; [rewrite <- Ln; exact (temps_from_shaped _ _ _ _ Et)|]. split; assumption.
  - intros (sp & ts & (C1 & C2 & C3 & C4 & C5 & C6 & C7 & C8) & E). rewrite C1, C2. cbn [orb]. rewrite C3. cbn [bind]. replace (forallb _ m) with true; [|symmetry; apply forallb_forall; intros r Hr; apply Nat.eqb_eq; apply (proj2 C4); exact Hr]. cbn [negb]. rewrite C5. cbn [bind]. unfold flt in C7, C8. rewrite C7, C8. cbn [andb negb]. rewrite alloc_tail. exact E.
Qed.
Lemma length_products (s : fsinfo) n t : length (products s n t) = length t.
Proof. apply length_tab. Qed.
Lemma nth_products (s : fsinfo) n t i j : (i < length t)%nat -> (j < length t)%nat -> M_Field.mg (products s n t) i j = overlap n (npix_fs s) (nth i t []) (nth j t []) * pixel_area s.
Proof. intros Hi Hj. unfold M_Field.mg, products. rewrite (nth_tab (length t)) by exact Hi. rewrite nth_tab by exact Hj. reflexivity. Qed.
Lemma products_ip (s : fsinfo) n t i j : (i < length t)%nat -> (j < length t)%nat -> M_Field.mg (products s n t) i j = L_Field.ip n (npix_fs s) (fun _ => pixel_area s) (M_Field.mg (nth j t [])) (M_Field.mg (nth i t [])).
Proof. intros Hi Hj. rewrite nth_products by assumption. rewrite overlap_sym, overlap_ip. reflexivity. Qed.
Lemma amplitude_ip (s : fsinfo) n iM t X i : (i < length t)%nat -> nth i (amplitudes s n iM t X) 0 = sum (length t) (fun c => M_Field.mg iM i c * L_Field.ip n (npix_fs s) (fun _ => pixel_area s) (M_Field.mg (nth c t [])) (M_Field.mg X)).
Proof. intro Hi. unfold amplitudes. rewrite nth_tab by exact Hi. apply sum_ext. intros c _. rewrite maps_dot_overlap, overlap_ip. reflexivity. Qed.
(** the cleaned maps are orthogonal to the templates *)
Lemma clean_orthogonal (s : fsinfo) n tol T X iM : 0 < fs_lx s -> 0 < fs_ly s -> shaped n (npix_fs s) X -> exact_solver tol (products s n T) -> pinv eigh (temp_matrix s n T) tol = Ok iM ->
  forall t, In t T -> overlap n (npix_fs s) t (subtract s n (amplitudes s n iM T X) T X) = 0.
Proof.
  intros Hx Hy SX ES EP t Ht. rewrite temp_matrix_products in EP. destruct (pinv_parts _ _ _ ES EP) as (w & v & wi & E & I & V). rewrite length_products in *. apply (In_nth _ _ []) in Ht as (a & Ha & <-).
  destruct (Nat.eq_dec (npix_fs s) 0) as [Z|NZ]. { unfold overlap. rewrite Z. apply sum_zero. intros c _. reflexivity. }
  assert (AP : 0 < pixel_area s) by (apply (area_pos s 0); try assumption; lia).
  pose proof (L_Field.residual_zero (length T) n (npix_fs s) (fun _ => pixel_area s) (fun k => M_Field.mg (nth k T [])) (products s n T) w wi v iM (fun i j Hi Hj => products_ip s n T i j Hi Hj) E I V (M_Field.mg X) a (fun p _ => flt_le _ _ AP) Ha) as R. cbv beta in R.
  assert (G : overlap n (npix_fs s) (nth a T []) (subtract s n (amplitudes s n iM T X) T X) * pixel_area s = 0).
  { transitivity (L_Field.ip n (npix_fs s) (fun _ => pixel_area s) (M_Field.mg (nth a T [])) (fun c p => M_Field.mg X c p - sum (length T) (fun i => nth i (amplitudes s n iM T X) 0 * M_Field.mg (nth i T []) c p))).
    - rewrite overlap_ip. unfold overlap. f_equal. apply sum_ext. intros c Hc. apply sum_ext. intros p Hp. rewrite subtract_eq by exact SX. rewrite nth_tab by exact Hc. rewrite nth_tab by exact Hp. reflexivity.
    - rewrite L_Field.ip_sub_r. rewrite (L_Field.ip_lin_r n (npix_fs s) (fun _ => pixel_area s) (M_Field.mg (nth a T [])) (length T) (fun i => nth i (amplitudes s n iM T X) 0) (fun i => M_Field.mg (nth i T []))). etransitivity; [|exact R]. f_equal. apply sum_ext. intros b Hb. rewrite amplitude_ip by exact Hb. rewrite (products_ip s n T a b Ha Hb). rewrite (L_Field.ip_sym _ _ _ (M_Field.mg (nth a T []))). ring. }
  apply fmul_eq_0 in G. destruct G as [G|G]; [exact G|]. exfalso. exact (fpos_neq _ AP G).
Qed.
(** adding a combination of the templates does not change the cleaned maps *)
Lemma clean_invariant (s : fsinfo) n tol T X X' iM (b : nat -> F) : 0 < fs_lx s -> 0 < fs_ly s -> shaped n (npix_fs s) X -> shaped n (npix_fs s) X' ->
  (forall c p, (c < n)%nat -> (p < npix_fs s)%nat -> nth p (nth c X' []) 0 = nth p (nth c X []) 0 + sum (length T) (fun k => b k * nth p (nth c (nth k T []) []) 0)) ->
  exact_solver tol (products s n T) -> pinv eigh (temp_matrix s n T) tol = Ok iM -> subtract s n (amplitudes s n iM T X') T X' = subtract s n (amplitudes s n iM T X) T X.
Proof.
  intros Hx Hy SX SX' HX ES EP. rewrite temp_matrix_products in EP. destruct (pinv_parts _ _ _ ES EP) as (w & v & wi & E & I & V). rewrite length_products in *. rewrite !subtract_eq by assumption. apply tab_ext. intros c Hc. apply tab_ext. intros p Hp. rewrite (HX c p Hc Hp).
  assert (AP : 0 < pixel_area s) by (apply (area_pos s p); assumption).
  pose proof (L_Field.left_over_zero (length T) n (npix_fs s) (fun _ => pixel_area s) (fun k => M_Field.mg (nth k T [])) (products s n T) w wi v iM (fun i j Hi Hj => products_ip s n T i j Hi Hj) E I V b c p (fun _ _ => AP) Hc Hp) as R. cbv beta in R.
  assert (A : forall i, (i < length T)%nat -> nth i (amplitudes s n iM T X') 0 = nth i (amplitudes s n iM T X) 0 + sum (length T) (fun k => M_Field.mg iM i k * sum (length T) (fun j => M_Field.mg (products s n T) k j * b j))).
  { intros i Hi. rewrite !amplitude_ip by exact Hi. rewrite <- sum_add. apply sum_ext. intros k Hk. rewrite (L_Field.ip_ext _ _ _ (M_Field.mg (nth k T [])) (M_Field.mg X') (M_Field.mg (nth k T [])) (fun c p => M_Field.mg X c p - sum (length T) (fun j => - b j * M_Field.mg (nth j T []) c p))); [|reflexivity|].
    - rewrite L_Field.ip_sub_r. rewrite (L_Field.ip_lin_r n (npix_fs s) (fun _ => pixel_area s) (M_Field.mg (nth k T [])) (length T) (fun j => - b j) (fun j => M_Field.mg (nth j T []))). rewrite (sum_ext (length T) (fun j => M_Field.mg (products s n T) k j * b j) (fun j => (- (1)) * (- b j * L_Field.ip n (npix_fs s) (fun _ => pixel_area s) (M_Field.mg (nth k T [])) (M_Field.mg (nth j T []))))); [rewrite sum_mul_l; ring|]. intros j Hj. rewrite (products_ip s n T k j Hk Hj). rewrite L_Field.ip_sym. ring.
    - intros c0 p0 Hc0 Hp0. unfold M_Field.mg at 1 2. rewrite (HX c0 p0 Hc0 Hp0). rewrite (sum_ext (length T) (fun j => - b j * M_Field.mg (nth j T []) c0 p0) (fun j => (- (1)) * (b j * nth p0 (nth c0 (nth j T []) []) 0))) by (intros j _; unfold M_Field.mg; ring). rewrite sum_mul_l. ring. }
  rewrite (sum_ext (length T) (fun i => nth i (amplitudes s n iM T X') 0 * nth p (nth c (nth i T []) []) 0) (fun i => nth i (amplitudes s n iM T X) 0 * nth p (nth c (nth i T []) []) 0 + (b i * nth p (nth c (nth i T []) []) 0 - (b i - sum (length T) (fun k => M_Field.mg iM i k * sum (length T) (fun j => M_Field.mg (products s n T) k j * b j))) * M_Field.mg (nth i T []) c p))) by (intros i Hi; rewrite (A i Hi); change (M_Field.mg (nth i T []) c p) with (nth p (nth c (nth i T []) []) 0); ring).
  rewrite sum_add, sum_sub, R. ring.
Qed.
Lemma mk_shaped (s : fsinfo) mask masked n m : shaped n (npix_fs s) m -> shaped n (npix_fs s) (mk s mask masked m).
Proof. intro S. unfold mk. destruct masked; [exact S|]. apply shaped_product. apply S. Qed.
Theorem C81_orthogonal (a : flat_args) (f : flat_field) (m : mat) (T : list mat) : flat_new a = Ok f -> g_pe a = false -> g_pb a = false -> get_maps_flat f = Ok m -> get_templates_flat f = Ok T ->
  let s := ff_fs (f_base f) in let n := ff_nmaps (f_base f) in exact_solver (g_tol a) (products s n T) -> forall t, In t T -> overlap n (npix_fs s) t m = 0.
Proof.
  intros E Pe Pb Em ET s n ES t Ht. destruct (g_maps a) as [im|] eqn:EI.
  - apply (flat_iff a im f EI Pe Pb) in E as (sp & ts & (C1 & C2 & C3 & C4 & C5 & C6 & C7 & C8) & E). unfold tail in E. cbv zeta in E. set (X := mk _ _ _ im) in *. set (TT := map _ ts) in *. destruct (if (0 <? length TT)%nat then _ else _) as [dep|x|] eqn:ED in E; [|discriminate E|discriminate E]. cbn [bind] in E.
    destruct (fs_map2alm _ _ _ _ _ _) in E; [|discriminate E|discriminate E]. cbn [bind] in E. destruct (if g_lite a then _ else _) in E; [|discriminate E|discriminate E]. cbn [bind] in E. injection E as <-. subst s n. unfold get_maps_flat in Em. unfold get_templates_flat in ET. cbn [f_lite f_maps f_temp f_base ff_fs] in *. destruct (g_lite a); [discriminate Em|]. injection Em as <-.
    destruct (Nat.ltb_spec 0 (length TT)) as [L|L]; [|injection ET as <-; destruct Ht]. injection ET as <-. destruct (pinv _ _ _) as [iM|x|] eqn:EP in ED; [|discriminate ED|discriminate ED]. cbn [bind] in ED. injection ED as <-. unfold ff_nmaps in *. cbn [ff_spin] in *. fold (nmap_of sp) in *.
    apply (clean_orthogonal (geometry a) (nmap_of sp) (g_tol a) TT X iM); try assumption. apply mk_shaped. exact C4.
  - exfalso. unfold M_FieldFlat.flat_new in E. rewrite EI in E. destruct (_ || _)%bool in E; [discriminate E|]. destruct (g_spin a) as [sp|]; [|discriminate E]. cbn [bind] in E. destruct (_ && _)%bool in E; [discriminate E|]. cbn [negb] in E. destruct (match g_temp a with NoTemp => _ | _ => _ end) in E; [|discriminate E|discriminate E]. cbn [bind] in E. destruct (negb _) in E; [discriminate E|]. injection E as <-. discriminate Em.
Qed.
(** the same call with other maps, templates, masked_on_input and lite *)
Definition revised (a : flat_args) (m : mat) (t : ftemp F) (masked lite : bool) : flat_args :=
  FlatArgs (g_nx a) (g_ny a) (g_lx a) (g_ly a) (g_mask a) (Some m) (g_spin a) t (g_beam a) (g_pe a) (g_pb a) (g_tol a) masked lite.
(** maps multiplied by the mask *)
Definition masked_maps (a : flat_args) (m : mat) : mat := map (fun r => tab (g_nx a * g_ny a) (fun p => nth p r 0 * nth p (g_mask a) 0)) m.
(** templates as they are once masked *)
Definition masked_templates (a : flat_args) (ts : list mat) : list mat := if g_masked a then ts else map (masked_maps a) ts.
(** maps to which a combination of the templates is added *)
Definition contaminated (a : flat_args) (b : nat -> F) (ts : list mat) (m : mat) : mat :=
  tab (length m) (fun c => tab (g_nx a * g_ny a) (fun p => nth p (nth c m []) 0 + sum (length ts) (fun k => b k * nth p (nth c (nth k ts []) []) 0))).
Lemma shaped_tab2' n k (f : nat -> nat -> F) : shaped n k (tab n (fun c => tab k (f c))).
Proof. apply shaped_tab2. Qed.
Lemma mk_templates (a : flat_args) ts : map (mk (geometry a) (g_mask a) (g_masked a)) ts = masked_templates a ts.
Proof. unfold masked_templates, mk. destruct (g_masked a); [apply map_id | reflexivity]. Qed.
Lemma nth_mk (s : fsinfo) mask masked n m c p : length m = n -> (c < n)%nat -> (p < npix_fs s)%nat -> nth p (nth c (mk s mask masked m) []) 0 = nth p (nth c m []) 0 * (if masked then 1 else nth p mask 0).
Proof. intros L Hc Hp. unfold mk. destruct masked; [ring|]. rewrite (nth_product n) by assumption. reflexivity. Qed.
Lemma nmap_length (a : flat_args) m sp ts : checked a m sp ts -> length m = nmap_of sp.
Proof. intros (_ & _ & _ & [L _] & _). exact L. Qed.

Theorem C81_invariant (a : flat_args) (f : flat_field) (m : mat) (ts : list mat) (b : nat -> F) : flat_new a = Ok f -> g_pe a = false -> g_pb a = false -> g_maps a = Some m -> g_temp a = Temps ts ->
  exact_solver (g_tol a) (products (geometry a) (length m) (masked_templates a ts)) ->
  flat_new (revised a (contaminated a b ts m) (Temps ts) (g_masked a) (g_lite a)) = Ok f.
Proof.
  intros E Pe Pb Em Et ES. apply (flat_iff a m f Em Pe Pb) in E as (sp & ts' & C & E). pose proof (nmap_length _ _ _ _ C) as Ln. destruct C as (C1 & C2 & C3 & C4 & C5 & C6 & C7 & C8).
  assert (ts' = ts) as ->. { rewrite Et in C5. unfold temps_from in C5. destruct ts; [discriminate C5|]. destruct (forallb _ _) in C5; [|discriminate C5]. injection C5 as <-. reflexivity. }
  apply (flat_iff (revised a (contaminated a b ts m) (Temps ts) (g_masked a) (g_lite a)) (contaminated a b ts m) f eq_refl Pe Pb). exists sp, ts.
  assert (SC : shaped (nmap_of sp) (npix_fs (geometry a)) (contaminated a b ts m)) by (unfold contaminated; rewrite Ln; apply shaped_tab2'). split.
  - assert (LC : length (contaminated a b ts m) = length m) by apply length_tab. unfold checked. cbn [revised g_lx g_ly g_spin g_temp]. rewrite LC. rewrite Et in C5. exact (conj C1 (conj C2 (conj C3 (conj SC (conj C5 (conj C6 (conj C7 C8))))))).
  - cbn [revised g_mask g_masked g_beam g_tol g_lite]. change (geometry (revised a (contaminated a b ts m) (Temps ts) (g_masked a) (g_lite a))) with (geometry a). rewrite mk_templates in E |- *. revert E. unfold tail. cbv zeta. set (T := masked_templates a ts) in *.
    destruct (Nat.ltb_spec 0 (length T)) as [L|L].
    + destruct (pinv eigh _ _) as [iM|x|] eqn:EP; [|discriminate|discriminate]. cbn [bind]. rewrite Ln in ES. rewrite (clean_invariant (geometry a) (nmap_of sp) (g_tol a) T (mk (geometry a) (g_mask a) (g_masked a) m) (mk (geometry a) (g_mask a) (g_masked a) (contaminated a b ts m)) iM b); try assumption; [intro E; exact E|apply mk_shaped; exact C4|apply mk_shaped; exact SC|].
      intros c p Hc Hp. rewrite (nth_mk _ _ _ (nmap_of sp)) by (try apply SC; assumption). rewrite (nth_mk _ _ _ (nmap_of sp)) by (try apply C4; assumption). unfold contaminated. rewrite nth_tab by (rewrite Ln; exact Hc). rewrite nth_tab by exact Hp. unfold T. rewrite <- mk_templates, map_length.
      rewrite (sum_ext (length ts) (fun k => b k * nth p (nth c (nth k (map (mk (geometry a) (g_mask a) (g_masked a)) ts) []) []) 0) (fun k => b k * nth p (nth c (nth k ts []) []) 0 * (if g_masked a then 1 else nth p (g_mask a) 0))).
      * rewrite sum_mul_r. ring.
      * intros k Hk. rewrite (nth_indep _ [] (mk (geometry a) (g_mask a) (g_masked a) [])) by (rewrite map_length; exact Hk). rewrite map_nth. rewrite (nth_mk _ _ _ (nmap_of sp)); [ring| |exact Hc|exact Hp]. apply C6. apply nth_In. exact Hk.
    + exfalso. rewrite Et in C5. unfold T in L. rewrite <- mk_templates, map_length in L. destruct ts; [discriminate C5 | cbn [length] in L; lia].
Qed.
Lemma shaped_masked (a : flat_args) n m : length m = n -> shaped n (npix_fs (geometry a)) (masked_maps a m).
Proof. intro L. exact (shaped_product n (geometry a) (g_mask a) m L). Qed.
Lemma temps_from_intro (ts : list mat) n np : ts <> [] -> (forall x, In x ts -> shaped n np x) -> temps_from (Temps ts) n np = Ok ts.
Proof.
  intros N H. unfold temps_from. destruct ts as [|t ts]; [congruence|]. replace (forallb _ (t :: ts)) with true; [reflexivity|]. symmetry. apply forallb_forall. intros x Hx. destruct (H x Hx) as [L R]. rewrite L, Nat.eqb_refl. cbn [andb]. apply forallb_forall. intros r Hr. apply Nat.eqb_eq. exact (R r Hr).
Qed.
(** Giving maps and templates already multiplied by the mask, with masked_on_input=True, builds the same field. *)
Theorem C81_masked_input (a : flat_args) (f : flat_field) (m : mat) (ts : list mat) : flat_new a = Ok f -> g_pe a = false -> g_pb a = false -> g_maps a = Some m -> g_temp a = Temps ts -> g_masked a = false ->
  flat_new (revised a (masked_maps a m) (Temps (map (masked_maps a) ts)) true (g_lite a)) = Ok f.
Proof.
  intros E Pe Pb Em Et Mk. apply (flat_iff a m f Em Pe Pb) in E as (sp & ts' & C & E). pose proof (nmap_length _ _ _ _ C) as Ln. destruct C as (C1 & C2 & C3 & C4 & C5 & C6 & C7 & C8).
  assert (ts <> [] /\ ts' = ts) as [NE ->]. { rewrite Et in C5. unfold temps_from in C5. destruct ts; [discriminate C5|]. destruct (forallb _ _) in C5; [|discriminate C5]. injection C5 as <-. split; [discriminate | reflexivity]. }
  apply (flat_iff (revised a (masked_maps a m) (Temps (map (masked_maps a) ts)) true (g_lite a)) (masked_maps a m) f eq_refl Pe Pb). exists sp, (map (masked_maps a) ts). split.
  - assert (LC : length (masked_maps a m) = length m) by apply map_length. unfold checked. cbn [revised g_lx g_ly g_spin g_temp]. rewrite LC.
    assert (ST : forall x, In x (map (masked_maps a) ts) -> shaped (nmap_of sp) (npix_fs (geometry a)) x) by (intros x Hx; apply in_map_iff in Hx as (y & <- & Hy); apply shaped_masked; apply (C6 y Hy)).
    refine (conj C1 (conj C2 (conj C3 (conj (shaped_masked a _ m Ln) (conj _ (conj ST (conj C7 C8))))))). rewrite Ln. apply temps_from_intro; [|exact ST]. destruct ts; [congruence | discriminate].
  - cbn [revised g_mask g_masked g_beam g_tol g_lite]. rewrite Mk in E. unfold mk in E |- *. rewrite map_id. exact E.
Qed.
(** maps (or templates) of the same shape, equal wherever the mask does not vanish *)
Definition same_inside (a : flat_args) (m m' : mat) : Prop :=
  length m' = length m /\ (forall r, In r m' -> length r = (g_nx a * g_ny a)%nat) /\ forall c p, nth p (g_mask a) 0 <> 0 -> nth p (nth c m' []) 0 = nth p (nth c m []) 0.
Lemma times_same (a : flat_args) m m' : same_inside a m m' -> masked_maps a m' = masked_maps a m.
Proof.
  intros (L & _ & H). apply (shaped_eq (length m) (npix_fs (geometry a))); [apply shaped_masked; exact L | apply shaped_masked; reflexivity|]. intros c p Hc Hp. unfold masked_maps. change (map (fun r => tab (g_nx a * g_ny a) (fun p => nth p r 0 * nth p (g_mask a) 0))) with (map (product (geometry a) (g_mask a))). rewrite !(nth_product (length m)) by assumption || reflexivity.
  destruct (nth p (g_mask a) 0 =? 0) eqn:Z; [apply feqb_eq in Z; rewrite Z; ring|]. apply feqb_neq in Z. rewrite (H c p Z). reflexivity.
Qed.
(** Without purification, values outside the mask do not matter. *)
Theorem C81_outside_mask (a : flat_args) (f : flat_field) (m m' : mat) (ts ts' : list mat) : flat_new a = Ok f -> g_pe a = false -> g_pb a = false -> g_maps a = Some m -> g_temp a = Temps ts -> g_masked a = false ->
  same_inside a m m' -> Forall2 (same_inside a) ts ts' -> flat_new (revised a m' (Temps ts') false (g_lite a)) = Ok f.
Proof.
  intros E Pe Pb Em Et Mk Sm St. apply (flat_iff a m f Em Pe Pb) in E as (sp & ts0 & C & E). pose proof (nmap_length _ _ _ _ C) as Ln. destruct C as (C1 & C2 & C3 & C4 & C5 & C6 & C7 & C8).
  assert (ts <> [] /\ ts0 = ts) as [NE ->]. { rewrite Et in C5. unfold temps_from in C5. destruct ts; [discriminate C5|]. destruct (forallb _ _) in C5; [|discriminate C5]. injection C5 as <-. split; [discriminate | reflexivity]. }
  apply (flat_iff (revised a m' (Temps ts') false (g_lite a)) m' f eq_refl Pe Pb). exists sp, ts'. destruct Sm as (Lm & Rm & Hm). split.
  - unfold checked. cbn [revised g_lx g_ly g_spin g_temp]. rewrite Lm.
    assert (ST : forall x, In x ts' -> shaped (nmap_of sp) (npix_fs (geometry a)) x). { clear - St C6. induction St as [|x y l l' H HS IH]; [intros x []|]. intros z [<-|Hz]; [|apply IH; [intros u Hu; apply C6; right; exact Hu | exact Hz]]. destruct H as (L & R & _). split; [rewrite L; apply (C6 x); left; reflexivity | exact R]. }
    refine (conj C1 (conj C2 (conj C3 (conj (conj (eq_trans Lm Ln) Rm) (conj _ (conj ST (conj C7 C8))))))). rewrite Ln. apply temps_from_intro; [|exact ST]. destruct St; [congruence | discriminate].
  - cbn [revised g_mask g_masked g_beam g_tol g_lite]. rewrite Mk in E. change (geometry (revised a m' (Temps ts') false (g_lite a))) with (geometry a). change (mk (geometry a) (g_mask a) false) with (map (product (geometry a) (g_mask a))) in E |- *.
    assert (E1 : map (product (geometry a) (g_mask a)) m' = map (product (geometry a) (g_mask a)) m) by (apply (times_same a); exact (conj Lm (conj Rm Hm))). rewrite E1.
    assert (E2 : map (map (product (geometry a) (g_mask a))) ts' = map (map (product (geometry a) (g_mask a))) ts). { clear - St. induction St as [|x y l l' H HS IH]; [reflexivity|]. cbn [map]. f_equal; [exact (times_same a x y H) | exact IH]. } rewrite E2. exact E.
Qed.
(** lite=True keeps what is needed for power spectra and gives up the maps *)
Theorem C81_lite (a : flat_args) (f : flat_field) (m : mat) : flat_new a = Ok f -> g_maps a = Some m ->
  exists g, flat_new (revised a m (g_temp a) (g_masked a) true) = Ok g /\ f_base g = f_base f /\ get_maps_flat g = Exn ValueError /\ get_templates_flat g = Exn ValueError.
Proof.
  intros E Em. revert E. unfold M_FieldFlat.flat_new. cbn [revised g_nx g_ny g_lx g_ly g_mask g_maps g_spin g_temp g_beam g_pe g_pb g_tol g_masked g_lite]. rewrite Em.
  destruct (_ || _)%bool; [discriminate|]. destruct (spin_from _ _) as [sp|?|]; [|discriminate|discriminate]. cbn [bind]. destruct (_ && _)%bool; [discriminate|]. destruct (negb _); [discriminate|]. destruct (temps_from _ _ _) as [ts|?|]; [|discriminate|discriminate]. cbn [bind]. destruct (negb _); [discriminate|].
  unfold field_flat_alloc. cbv zeta. destruct (_ && _)%bool; [discriminate|]. destruct (if (0 <? _)%nat then _ else _) as [dep|?|]; [|discriminate|discriminate]. cbn [bind].
  destruct (g_pe a || g_pb a)%bool.
  - destruct (purify_flat _ _ _ _ _ _ _) as [[alms pm]|?|]; [|discriminate|discriminate]. cbn [bind]. destruct (if g_lite a then _ else _); [|discriminate|discriminate]. cbn [bind]. intro E. injection E as <-. eexists. split; [reflexivity|]. split; [reflexivity|]. split; reflexivity.
  - destruct (fs_map2alm _ _ _ _ _ _) as [alms|?|]; [|discriminate|discriminate]. cbn [bind]. destruct (if g_lite a then _ else _); [|discriminate|discriminate]. cbn [bind]. intro E. injection E as <-. eexists. split; [reflexivity|]. split; [reflexivity|]. split; reflexivity.
Qed.
(** Without templates and purification the field is the plain one of the power-spectrum functions. *)
Theorem C81_plain (a : flat_args) (f : flat_field) : flat_new a = Ok f -> g_pe a = false -> g_pb a = false -> g_temp a = NoTemp ->
  new_field pi fsqrt ph (g_nx a) (g_ny a) (g_lx a) (g_ly a) (g_mask a) (g_maps a) (g_spin a) (g_beam a) (g_masked a) = Ok (f_base f).
Proof.
  intros E Pe Pb Et. revert E. unfold M_FieldFlat.flat_new, new_field. rewrite Pe, Pb, Et. destruct (_ || _)%bool; [discriminate|]. destruct (g_maps a) as [m|].
  - unfold spin_from. destruct (negb (_ || _)%bool); [discriminate|]. destruct (match g_spin a with None => _ | Some _ => _ end) as [sp|?|]; [|discriminate|discriminate]. cbn [bind orb andb]. destruct (forallb _ m) eqn:SH; [|discriminate]. cbn [negb temps_from bind]. destruct (negb _); [discriminate|].
    intro E. rewrite alloc_tail in E. unfold tail in E. cbv zeta in E. cbn [map length Nat.ltb Nat.leb bind subtract seq fold_left] in E. unfold mk in E. unfold product in E. destruct (fs_map2alm _ _ _ _ _ _) as [alms|?|] eqn:EA in E; [|discriminate E|discriminate E]. cbn [bind] in E. destruct (if g_lite a then _ else _) in E; [|discriminate E|discriminate E]. cbn [bind] in E. injection E as <-. cbn [f_base]. cbv zeta. destruct (g_masked a); [rewrite EA; reflexivity|]. rewrite forallb_forall in SH. rewrite (map_ext_in (times_mask (g_mask a)) (fun r => tab (g_nx a * g_ny a) (fun i => nth i r 0 * nth i (g_mask a) 0))); [unfold npix_fs in EA; cbn [fs_nx fs_ny] in EA; rewrite EA; reflexivity|]. intros r Hr. unfold times_mask. rewrite (proj1 (Nat.eqb_eq _ _) (SH r Hr)). reflexivity.
  - destruct (g_spin a) as [sp|]; [|discriminate]. cbn [bind orb andb negb]. destruct (negb _); [discriminate|]. intro E. injection E as <-. reflexivity.
Qed.
(** ** Purified fields: independent templates *)
(** the eigen-decomposition is exact and every eigenvalue is kept *)
Definition all_kept (tol : F) (M : mat) : Prop :=
  L_Field.eigen (length M) M (fst (eigh M)) (snd (eigh M)) /\
  forall k, (k < length M)%nat -> nth k (fst (eigh M)) 0 <> 0 /\ (nth k (fst (eigh M)) 0 <? tol * maxl (fst (eigh M))) = false.
Lemma pinv_left M tol P : all_kept tol M -> pinv eigh M tol = Ok P -> forall i j, (i < length M)%nat -> (j < length M)%nat -> sum (length M) (fun k => M_Field.mg P i k * M_Field.mg M k j) = kron i j.
Proof.
  intros [E G] H i j Hi Hj. destruct (pinv_parts M tol P) as (w & v & wi & EV & IV & EP); [split; [exact E|]; intros k Hk; right; apply (G k Hk) | exact H |].
  assert (NZ : forall k, (k < length M)%nat -> nth k w 0 * nth k wi 0 = 1).
  { intros k Hk. destruct (proj2 IV k Hk) as [Z|Z]; [|exact Z]. exfalso. clear EP. destruct EV as (_ & R & C & D). destruct E as (_ & R' & C' & D'). set (w0 := fst (eigh M)) in *. set (v0 := snd (eigh M)) in *.
    (* the vector v_k is in the kernel of M, which has none *)
    assert (K : forall r, (r < length M)%nat -> sum (length M) (fun c => M_Field.mg M r c * M_Field.mg v c k) = 0).
    { intros r Hr. rewrite (sum_ext (length M) _ (fun c => sum (length M) (fun l => M_Field.mg v r l * nth l w 0 * (M_Field.mg v c l * M_Field.mg v c k)))) by (intros c Hc; rewrite (D r c Hr Hc), <- sum_mul_r; apply sum_ext; intros l _; ring). rewrite sum_swap. apply sum_zero. intros l Hl. rewrite sum_mul_l, (C l k Hl Hk). unfold kron. destruct (Nat.eqb_spec l k) as [->|]; [rewrite Z; ring | ring]. }
    assert (Y : forall l, (l < length M)%nat -> sum (length M) (fun c => M_Field.mg v0 c l * M_Field.mg v c k) = 0).
    { intros l Hl. assert (X : nth l w0 0 * sum (length M) (fun c => M_Field.mg v0 c l * M_Field.mg v c k) = 0).
      { transitivity (sum (length M) (fun r => M_Field.mg v0 r l * sum (length M) (fun c => M_Field.mg M r c * M_Field.mg v c k))); [|apply sum_zero; intros r Hr; rewrite (K r Hr); ring].
        rewrite (sum_ext (length M) (fun r => M_Field.mg v0 r l * sum (length M) (fun c => M_Field.mg M r c * M_Field.mg v c k)) (fun r => sum (length M) (fun c => M_Field.mg v0 r l * M_Field.mg M r c * M_Field.mg v c k))) by (intros r _; rewrite <- sum_mul_l; apply sum_ext; intros; ring). rewrite sum_swap. rewrite <- sum_mul_l. apply sum_ext. intros c Hc. rewrite sum_mul_r.
        rewrite (sum_ext (length M) (fun r => M_Field.mg v0 r l * M_Field.mg M r c) (fun r => sum (length M) (fun q => M_Field.mg v0 r l * M_Field.mg v0 r q * (nth q w0 0 * M_Field.mg v0 c q)))) by (intros r Hr; rewrite (D' r c Hr Hc), <- sum_mul_l; apply sum_ext; intros; ring). rewrite sum_swap.
        rewrite (sum_ext (length M) _ (fun q => kron q l * (nth q w0 0 * M_Field.mg v0 c q))) by (intros q Hq; rewrite sum_mul_r, (C' l q Hl Hq); unfold kron; rewrite Nat.eqb_sym; reflexivity). rewrite (sum_kron (length M) l (fun q => nth q w0 0 * M_Field.mg v0 c q)) by exact Hl. ring. }
      apply fmul_eq_0 in X as [X|X]; [exfalso; exact (proj1 (G l Hl) X) | exact X]. }
    assert (One : sum (length M) (fun c => M_Field.mg v c k * M_Field.mg v c k) = 1) by (rewrite (C k k Hk Hk); unfold kron; rewrite Nat.eqb_refl; reflexivity).
    assert (Zero : sum (length M) (fun c => M_Field.mg v c k * M_Field.mg v c k) = 0).
    { rewrite (sum_ext (length M) _ (fun c => M_Field.mg v c k * 0)); [rewrite sum_mul_r; ring|]. intros c Hc. f_equal.
      transitivity (sum (length M) (fun d => kron d c * M_Field.mg v d k)); [symmetry; exact (sum_kron (length M) c (fun d => M_Field.mg v d k) Hc)|].
      rewrite (sum_ext (length M) _ (fun d => sum (length M) (fun l => M_Field.mg v0 c l * (M_Field.mg v0 d l * M_Field.mg v d k)))) by (intros d Hd; rewrite <- (R' d c Hd Hc), <- sum_mul_r; apply sum_ext; intros; ring). rewrite sum_swap. apply sum_zero. intros l Hl. rewrite sum_mul_l, (Y l Hl). ring. }
    rewrite One in Zero. exact (fpos_neq _ f0_lt_1 Zero). }
  destruct EV as (_ & R & C & D).
  rewrite (sum_ext (length M) _ (fun k => sum (length M) (fun l => M_Field.mg v i l * nth l wi 0 * sum (length M) (fun q => M_Field.mg v k l * M_Field.mg v k q * (nth q w 0 * M_Field.mg v j q))))) by (intros k Hk; rewrite (EP i k Hi Hk), (D k j Hk Hj), <- sum_mul_r; apply sum_ext; intros l Hl; rewrite <- !sum_mul_l; apply sum_ext; intros q Hq; ring).
  rewrite sum_swap. rewrite <- (R i j Hi Hj). apply sum_ext. intros l Hl. rewrite sum_mul_l, sum_swap.
  rewrite (sum_ext (length M) _ (fun q => kron q l * (nth q w 0 * M_Field.mg v j q))) by (intros q Hq; rewrite sum_mul_r, (C l q Hl Hq); unfold kron; rewrite Nat.eqb_sym; reflexivity). rewrite (sum_kron (length M) l (fun q => nth q w 0 * M_Field.mg v j q)) by exact Hl. transitivity (nth l w 0 * nth l wi 0 * (M_Field.mg v i l * M_Field.mg v j l)); [ring|]. rewrite (NZ l Hl). ring.
Qed.
Lemma amplitude_shift (s : fsinfo) n T X X' iM (b : nat -> F) i : (i < length T)%nat ->
  (forall c p, (c < n)%nat -> (p < npix_fs s)%nat -> nth p (nth c X' []) 0 = nth p (nth c X []) 0 + sum (length T) (fun k => b k * nth p (nth c (nth k T []) []) 0)) ->
  nth i (amplitudes s n iM T X') 0 = nth i (amplitudes s n iM T X) 0 + sum (length T) (fun k => M_Field.mg iM i k * sum (length T) (fun j => M_Field.mg (products s n T) k j * b j)).
Proof.
  intros Hi HX. rewrite !amplitude_ip by exact Hi. rewrite <- sum_add. apply sum_ext. intros k Hk. rewrite (L_Field.ip_ext _ _ _ (M_Field.mg (nth k T [])) (M_Field.mg X') (M_Field.mg (nth k T [])) (fun c p => M_Field.mg X c p - sum (length T) (fun j => - b j * M_Field.mg (nth j T []) c p))); [|reflexivity|].
  - rewrite L_Field.ip_sub_r. rewrite (L_Field.ip_lin_r n (npix_fs s) (fun _ => pixel_area s) (M_Field.mg (nth k T [])) (length T) (fun j => - b j) (fun j => M_Field.mg (nth j T []))). rewrite (sum_ext (length T) (fun j => M_Field.mg (products s n T) k j * b j) (fun j => (- (1)) * (- b j * L_Field.ip n (npix_fs s) (fun _ => pixel_area s) (M_Field.mg (nth k T [])) (M_Field.mg (nth j T []))))); [rewrite sum_mul_l; ring|]. intros j Hj. rewrite (products_ip s n T k j Hk Hj). rewrite L_Field.ip_sym. ring.
  - intros c0 p0 Hc0 Hp0. unfold M_Field.mg at 1 2. rewrite (HX c0 p0 Hc0 Hp0). rewrite (sum_ext (length T) (fun j => - b j * M_Field.mg (nth j T []) c0 p0) (fun j => (- (1)) * (b j * nth p0 (nth c0 (nth j T []) []) 0))) by (intros j _; unfold M_Field.mg; ring). rewrite sum_mul_l. ring.
Qed.
Lemma subtract_shift (s : fsinfo) n T X X' (al al' : list F) (b : nat -> F) : shaped n (npix_fs s) X -> shaped n (npix_fs s) X' ->
  (forall c p, (c < n)%nat -> (p < npix_fs s)%nat -> nth p (nth c X' []) 0 = nth p (nth c X []) 0 + sum (length T) (fun k => b k * nth p (nth c (nth k T []) []) 0)) ->
  (forall i, (i < length T)%nat -> nth i al' 0 = nth i al 0 + b i) -> subtract s n al' T X' = subtract s n al T X.
Proof.
  intros S S' HX HA. rewrite !subtract_eq by assumption. apply tab_ext. intros c Hc. apply tab_ext. intros p Hp. rewrite (HX c p Hc Hp). rewrite (sum_ext (length T) (fun i => nth i al' 0 * nth p (nth c (nth i T []) []) 0) (fun i => nth i al 0 * nth p (nth c (nth i T []) []) 0 + b i * nth p (nth c (nth i T []) []) 0)) by (intros i Hi; rewrite (HA i Hi); ring). rewrite sum_add. ring.
Qed.
(** a pixel-wise factor applied to maps and templates *)
Lemma scaled_shift (s : fsinfo) n (h : mat -> mat) (g : nat -> F) (ts : list mat) m m' (b : nat -> F) :
  (forall x c p, length x = n -> (c < n)%nat -> (p < npix_fs s)%nat -> nth p (nth c (h x) []) 0 = nth p (nth c x []) 0 * g p) -> length m = n -> length m' = n -> (forall x, In x ts -> length x = n) ->
  (forall c p, (c < n)%nat -> (p < npix_fs s)%nat -> nth p (nth c m' []) 0 = nth p (nth c m []) 0 + sum (length ts) (fun k => b k * nth p (nth c (nth k ts []) []) 0)) ->
  forall c p, (c < n)%nat -> (p < npix_fs s)%nat -> nth p (nth c (h m') []) 0 = nth p (nth c (h m) []) 0 + sum (length (map h ts)) (fun k => b k * nth p (nth c (nth k (map h ts) []) []) 0).
Proof.
  intros Hh L L' LT HX c p Hc Hp. rewrite !Hh by assumption. rewrite (HX c p Hc Hp), map_length. rewrite (sum_ext (length ts) (fun k => b k * nth p (nth c (nth k (map h ts) []) []) 0) (fun k => b k * nth p (nth c (nth k ts []) []) 0 * g p)); [rewrite sum_mul_r; ring|].
  intros k Hk. rewrite (nth_indep _ [] (h [])) by (rewrite map_length; exact Hk). rewrite map_nth. rewrite Hh; [ring| |exact Hc|exact Hp]. apply LT. apply nth_In. exact Hk.
Qed.
Lemma nth_unmask (s : fsinfo) mask n m c p : length m = n -> (c < n)%nat -> (p < npix_fs s)%nat -> nth p (nth c (map (unmask s mask) m) []) 0 = nth p (nth c m []) 0 * (if 0 <? nth p mask 0 then 1 / nth p mask 0 else 0).
Proof.
  intros L Hc Hp. rewrite (nth_indep _ [] (unmask s mask [])) by (rewrite map_length; lia). rewrite map_nth. unfold unmask. rewrite nth_tab by exact Hp. destruct (0 <? nth p mask 0) eqn:E; [|ring]. field. exact (fpos_neq _ E).
Qed.
Theorem C81_invariant_purified (a : flat_args) (f : flat_field) (m : mat) (ts : list mat) (b : nat -> F) : flat_new a = Ok f -> g_maps a = Some m -> g_temp a = Temps ts ->
  all_kept (g_tol a) (products (geometry a) (length m) (masked_templates a ts)) ->
  flat_new (revised a (contaminated a b ts m) (Temps ts) (g_masked a) (g_lite a)) = Ok f.
Proof.
  intros E Em Et AK. unfold M_FieldFlat.flat_new in E |- *. cbn [revised g_nx g_ny g_lx g_ly g_mask g_maps g_spin g_temp g_beam g_pe g_pb g_tol g_masked g_lite]. rewrite Em, Et in E.
  assert (LC : length (contaminated a b ts m) = length m) by apply length_tab. rewrite LC. change (g_nx a * g_ny a)%nat with (npix_fs (geometry a)) in E |- *. change (FS (g_nx a) (g_ny a) (g_lx a) (g_ly a)) with (geometry a) in E |- *.
  destruct ((g_lx a <? 0) || _)%bool; [discriminate E|]. destruct (spin_from _ _) as [sp|?|] eqn:Es; [|discriminate E|discriminate E]. cbn [bind] in E |- *. destruct ((g_pe a || _) && _)%bool eqn:PC; [discriminate E|]. destruct (forallb _ m) eqn:EL in E; [|discriminate E]. cbn [negb] in E.
  replace (forallb _ (contaminated a b ts m)) with true; [|symmetry; apply forallb_forall; intros r Hr; apply Nat.eqb_eq; exact (proj2 (shaped_tab2' (length m) (npix_fs (geometry a)) _) r Hr)]. cbn [negb].
  destruct (temps_from _ _ _) as [ts'|?|] eqn:ET; [|discriminate E|discriminate E]. cbn [bind] in E |- *. destruct (0 <? g_lx a) eqn:G3; [|discriminate E]. destruct (0 <? g_ly a) eqn:G4; [|discriminate E]. cbn [andb negb] in E |- *.
  assert (ts' = ts) as ->. { unfold temps_from in ET. destruct ts; [discriminate ET|]. destruct (forallb _ _) in ET; [|discriminate ET]. injection ET as <-. reflexivity. }
  pose proof (spin_length _ _ _ Es) as Ln. pose proof (temps_from_shaped _ _ _ _ ET) as ST. rewrite Ln in ST, AK.
  assert (SM : shaped (nmap_of sp) (npix_fs (geometry a)) m) by (split; [exact Ln|]; rewrite forallb_forall in EL; intros r Hr; apply Nat.eqb_eq; exact (EL r Hr)).
  assert (SC : shaped (nmap_of sp) (npix_fs (geometry a)) (contaminated a b ts m)) by (unfold contaminated; rewrite Ln; apply shaped_tab2').
  assert (HX : forall c p, (c < nmap_of sp)%nat -> (p < npix_fs (geometry a))%nat -> nth p (nth c (contaminated a b ts m) []) 0 = nth p (nth c m []) 0 + sum (length ts) (fun k => b k * nth p (nth c (nth k ts []) []) 0)) by (intros c p Hc Hp; unfold contaminated; rewrite nth_tab by (rewrite Ln; exact Hc); rewrite nth_tab by exact Hp; reflexivity).
  assert (LT : forall x, In x ts -> length x = nmap_of sp) by (intros x Hx; apply (ST x Hx)).
  rewrite <- E. clear E. unfold field_flat_alloc. cbv zeta. fold (nmap_of sp). destruct (_ && _)%bool; [reflexivity|]. set (T := map (fun m => if g_masked a then m else _) ts).
  assert (ETm : T = masked_templates a ts) by (rewrite <- mk_templates; reflexivity). rewrite <- ETm in AK.
  set (mkc := if g_masked a then contaminated a b ts m else _). set (mkm := if g_masked a then m else _).
  assert (H1 : forall c p, (c < nmap_of sp)%nat -> (p < npix_fs (geometry a))%nat -> nth p (nth c mkc []) 0 = nth p (nth c mkm []) 0 + sum (length T) (fun k => b k * nth p (nth c (nth k T []) []) 0)).
  { apply (scaled_shift (geometry a) (nmap_of sp) (mk (geometry a) (g_mask a) (g_masked a)) (fun p => if g_masked a then 1 else nth p (g_mask a) 0) ts m (contaminated a b ts m) b); [|apply SM|apply SC|exact LT|exact HX]. intros x c p L Hc Hp. apply (nth_mk _ _ _ (nmap_of sp)); assumption. }
  assert (Sc : shaped (nmap_of sp) (npix_fs (geometry a)) mkc) by (apply (mk_shaped (geometry a) (g_mask a) (g_masked a)); exact SC).
  assert (Sm : shaped (nmap_of sp) (npix_fs (geometry a)) mkm) by (apply (mk_shaped (geometry a) (g_mask a) (g_masked a)); exact SM).
  destruct (Nat.ltb_spec 0 (length T)) as [L|L].
  2:{ exfalso. unfold T in L. rewrite map_length in L. destruct ts; [discriminate ET | cbn [length] in L; lia]. }
  destruct (pinv eigh _ _) as [iM|?|] eqn:EP; [|reflexivity|reflexivity]. cbn [bind].
  assert (HA : forall i, (i < length T)%nat -> nth i (amplitudes (geometry a) (nmap_of sp) iM T mkc) 0 = nth i (amplitudes (geometry a) (nmap_of sp) iM T mkm) 0 + b i).
  { intros i Hi. rewrite (amplitude_shift (geometry a) (nmap_of sp) T mkm mkc iM b i Hi H1). f_equal. rewrite temp_matrix_products in EP. pose proof (pinv_left _ _ _ AK EP) as PL. rewrite length_products in PL.
    rewrite (sum_ext (length T) _ (fun k => sum (length T) (fun j => M_Field.mg iM i k * M_Field.mg (products (geometry a) (nmap_of sp) T) k j * b j))) by (intros k _; rewrite <- sum_mul_l; apply sum_ext; intros; ring). rewrite sum_swap.
    rewrite (sum_ext (length T) _ (fun j => kron j i * b j)) by (intros j Hj; rewrite sum_mul_r, (PL i j Hi Hj); unfold kron; rewrite Nat.eqb_sym; reflexivity). exact (sum_kron (length T) i b Hi). }
  rewrite (subtract_shift (geometry a) (nmap_of sp) T mkm mkc _ _ b Sm Sc H1 HA).
  set (TU := map (fun m => if g_masked a then _ else m) ts). set (uc := if g_masked a then _ else contaminated a b ts m). set (um := if g_masked a then _ else m).
  rewrite (subtract_shift (geometry a) (nmap_of sp) TU um uc (amplitudes (geometry a) (nmap_of sp) iM T mkm) (amplitudes (geometry a) (nmap_of sp) iM T mkc) b); [reflexivity| | | |].
  - unfold um. destruct (g_masked a); [split; [rewrite map_length; exact Ln|]; intros r Hr; apply in_map_iff in Hr as (x & <- & _); apply length_tab | exact SM].
  - unfold uc. destruct (g_masked a); [split; [rewrite map_length; apply SC|]; intros r Hr; apply in_map_iff in Hr as (x & <- & _); apply length_tab | exact SC].
  - apply (scaled_shift (geometry a) (nmap_of sp) (fun m => if g_masked a then map (unmask (geometry a) (g_mask a)) m else m) (fun p => if g_masked a then if 0 <? nth p (g_mask a) 0 then 1 / nth p (g_mask a) 0 else 0 else 1) ts m (contaminated a b ts m) b); [|apply SM|apply SC|exact LT|exact HX]. intros x c p Lx Hc Hp. destruct (g_masked a); [apply (nth_unmask _ _ (nmap_of sp)); assumption | ring].
  - intros i Hi. apply HA. unfold T. unfold TU in Hi. rewrite map_length in Hi |- *. exact Hi.
Qed.
(** ** Templates that the mask hides *)
Lemma maxl_zero (w : list F) : (forall k, nth k w 0 = 0) -> maxl w = 0.
Proof.
  destruct w as [|x w]; [reflexivity|]. intro H. cbn [maxl]. pose proof (H 0%nat) as X. cbn [nth] in X. subst x. assert (H' : forall k, nth k w 0 = 0) by (intro k; exact (H (S k))). clear H. induction w as [|y w IH]; [reflexivity|]. cbn [fold_left]. pose proof (H' 0%nat) as Y. cbn [nth] in Y. subst y.
  destruct (0 <? 0); apply IH; intro k; exact (H' (S k)).
Qed.
Lemma flt_irr (x : F) : (x <? x) = false.
Proof. destruct (x <? x) eqn:E; [|reflexivity]. exfalso. exact (flt_irrefl x E). Qed.
(** A field that can be built without templates cannot be built with templates that vanish inside the mask: all eigenvalues are
    zero, none is below the threshold (zero) and the pseudo-inverse is infinite (NaN maps in the code). *)
Theorem C81_vanishing_template_refuted (a : flat_args) (f : flat_field) (m : mat) (ts : list mat) :
  flat_new (revised a m NoTemp (g_masked a) (g_lite a)) = Ok f -> g_maps a = Some m -> g_temp a = Temps ts -> ts <> [] ->
  (forall t, In t ts -> length t = length m /\ (forall r, In r t -> length r = (g_nx a * g_ny a)%nat)) ->
  (forall t r x, In t (masked_templates a ts) -> In r t -> In x r -> x = 0) ->
  (let M := products (geometry a) (length m) (masked_templates a ts) in L_Field.eigen (length M) M (fst (eigh M)) (snd (eigh M))) ->
  flat_new a = Exn ZeroDivisionError.
Proof.
  intros E Em Et NE SH Z EV. cbv zeta in EV. unfold M_FieldFlat.flat_new in E |- *. cbn [revised g_nx g_ny g_lx g_ly g_mask g_maps g_spin g_temp g_beam g_pe g_pb g_tol g_masked g_lite] in E. rewrite Em, Et. revert E.
  destruct ((g_lx a <? 0) || _)%bool; [discriminate|]. destruct (spin_from _ _) as [sp|?|] eqn:Es; [|discriminate|discriminate]. cbn [bind]. destruct ((g_pe a || _) && _)%bool eqn:PC; [discriminate|]. destruct (negb (forallb _ m)); [discriminate|]. rewrite (temps_from_intro ts (length m) (g_nx a * g_ny a) NE SH). cbn [temps_from bind]. destruct (negb ((0 <? g_lx a) && _)); [discriminate|]. intros _.
  change (FS (g_nx a) (g_ny a) (g_lx a) (g_ly a)) with (geometry a). unfold field_flat_alloc. cbv zeta. rewrite PC. pose proof (spin_length _ _ _ Es) as Ln. fold (nmap_of sp). rewrite Ln in EV.
  set (T := map (fun m => if g_masked a then m else _) ts). assert (ETm : T = masked_templates a ts) by (rewrite <- mk_templates; reflexivity). rewrite <- ETm in Z, EV. assert (LT : (0 < length T)%nat) by (unfold T; rewrite map_length; destruct ts; [congruence | cbn [length]; lia]).
  destruct (Nat.ltb_spec 0 (length T)) as [_|L]; [|lia]. rewrite temp_matrix_products. unfold pinv. rewrite length_products in EV |- *. destruct (eigh _) as [w v]. cbn [fst snd] in EV.
  assert (W : forall k, nth k w 0 = 0).
  { intro k. destruct EV as (Lw & R & C & D). destruct (Nat.lt_ge_cases k (length T)) as [Hk|Hk]; [|apply nth_overflow; lia].
    assert (P0 : forall i j, (i < length T)%nat -> (j < length T)%nat -> M_Field.mg (products (geometry a) (nmap_of sp) T) i j = 0).
    { intros i j Hi Hj. rewrite nth_products by assumption. replace (overlap _ _ _ _) with (0 : F); [ring|]. symmetry. apply sum_zero. intros c _. apply sum_zero. intros p _. replace (nth p (nth c (nth i T []) []) 0) with (0 : F); [ring|]. symmetry.
      destruct (Nat.lt_ge_cases p (length (nth c (nth i T []) []))) as [Hp|Hp]; [|apply nth_overflow; exact Hp]. destruct (Nat.lt_ge_cases c (length (nth i T []))) as [Hc|Hc]; [|rewrite (nth_overflow (nth i T []) [] Hc) in Hp; cbn [length] in Hp; lia].
      apply (Z (nth i T []) (nth c (nth i T []) [])); apply nth_In; assumption. }
    transitivity (sum (length T) (fun i => sum (length T) (fun j => M_Field.mg v i k * M_Field.mg (products (geometry a) (nmap_of sp) T) i j * M_Field.mg v j k))).
    - rewrite (sum_ext (length T) _ (fun i => M_Field.mg v i k * M_Field.mg v i k * nth k w 0)).
      + rewrite sum_mul_r, (C k k Hk Hk). unfold kron. rewrite Nat.eqb_refl. ring.
      + intros i Hi. rewrite (sum_ext (length T) _ (fun j => sum (length T) (fun l => M_Field.mg v i k * M_Field.mg v i l * nth l w 0 * (M_Field.mg v j l * M_Field.mg v j k)))) by (intros j Hj; rewrite (D i j Hi Hj), <- sum_mul_l, <- sum_mul_r; apply sum_ext; intros; ring). rewrite sum_swap.
        rewrite (sum_ext (length T) _ (fun l => kron l k * (M_Field.mg v i k * M_Field.mg v i l * nth l w 0))) by (intros l Hl; rewrite sum_mul_l, (C l k Hl Hk); ring). exact (sum_kron (length T) k (fun l => M_Field.mg v i k * M_Field.mg v i l * nth l w 0) Hk).
    - apply sum_zero. intros i Hi. apply sum_zero. intros j Hj. rewrite (P0 i j Hi Hj). ring. }
  rewrite (maxl_zero w W). destruct (length T) as [|n]; [lia|]. unfold tabM. cbn [seq mapM]. rewrite (W 0%nat). replace (g_tol a * 0) with (0 : F) by ring. rewrite flt_irr. replace ((0 : F) =? 0) with true by (symmetry; apply feqb_eq; reflexivity). reflexivity.
Qed.
End PFieldFlat2.

(** * Maps of 4 by 4 pixels *)
Section Ex.
Notation Q := Qc_field.
Ltac two i Hi := destruct i as [|[|i]]; [| |exfalso; revert Hi; vm_compute; lia].
Ltac ij2 := intros i j Hi Hj; two i Hi; two j Hj; apply out_inj; vm_compute; reflexivity.
(** two proportional templates, 3 and 4 times the same map: the matrix of their products has eigenvalues 25 and 0 *)
Definition u44 : list Q := map qz [1; 2; 0; 1; 3; 1; 0; 2; 1; 1; 0; 2; 1; 4; 1; 0]%Z.
Definition obs44 : list Q := map qz [2; -1; 3; 1; 0; 4; 1; -2; 5; 1; 1; 0; 3; 2; -1; 1]%Z.
Definition prop44 : list (list (list Q)) := [[map (fmul (qz 3)) u44]; [map (fmul (qz 4)) u44]].
Definition eig345 (m : list (list Q)) : list Q * list (list Q) := ([fadd (entry2 m 0 0) (entry2 m 1 1); qz 0], [[q 3 5; q (-4) 5]; [q 4 5; q 3 5]]).
Definition deg44 (lite : bool) : flat_args Q := FlatArgs 4 4 (qz 2) (qz 2) mask44 (Some [obs44]) None (Temps prop44) bm false false (q 1 1000) false lite.
Definition degf : res (flat_field Q) := flat_new (qz 1) sq8 ph4 eig345 (deg44 false).
Example ex_deprojection :
  is_ok degf = true /\ is_ok (get_maps_flat (from_ok no_field degf)) = true /\ get_templates_flat (from_ok no_field degf) = Ok (masked_templates (deg44 false) prop44) /\
  exact_solver eig345 (q 1 1000) (products s44 1 (masked_templates (deg44 false) prop44)) /\
  out (overlap 1 16 (nth 0 (masked_templates (deg44 false) prop44) []) (masked_maps (deg44 false) [obs44])) <> out (qz 0) /\
  map out (concat (contaminated (deg44 false) (fun k => nth k [qz 2; qz 5] (qz 0)) prop44 [obs44])) <> map out (obs44).
Proof.
  split; [vm_compute; reflexivity|]. split; [vm_compute; reflexivity|]. split; [unfold degf; vm_compute; reflexivity|]. split; [|split; vm_compute; discriminate].
  split; [split; [reflexivity|]; split; [ij2|]; split; ij2|]. intros k Hk. two k Hk; [right; vm_compute; reflexivity | left; apply out_inj; vm_compute; reflexivity].
Qed.
(** one template and purified spin-2 maps: every eigenvalue is kept *)
Definition pure44 (masked : bool) : flat_args Q := FlatArgs 4 4 (qz 2) (qz 2) mask44 (Some [obs44; map44 3]) None (Temps [[u44; map44 7]]) bm false true (q 1 1000) masked false.
Example ex_purified : is_ok (flat_new (qz 1) sq8 ph4 eig1 (pure44 false)) = true /\ is_ok (flat_new (qz 1) sq8 ph4 eig1 (pure44 true)) = true /\
  all_kept eig1 (q 1 1000) (products s44 2 (masked_templates (pure44 false) [[u44; map44 7]])) /\ all_kept eig1 (q 1 1000) (products s44 2 (masked_templates (pure44 true) [[u44; map44 7]])).
Proof.
  split; [vm_compute; reflexivity|]. split; [vm_compute; reflexivity|].
  split; (split; [split; [reflexivity|]; split; [|split]; intros i j Hi Hj; (destruct i as [|i]; [|exfalso; revert Hi; vm_compute; lia]); (destruct j as [|j]; [|exfalso; revert Hj; vm_compute; lia]); apply out_inj; vm_compute; reflexivity|]; intros k Hk; destruct k as [|k]; [|exfalso; revert Hk; vm_compute; lia]; split; [apply feqb_neq; vm_compute; reflexivity | vm_compute; reflexivity]).
Qed.
(** maps and templates that differ where the mask vanishes *)
Definition holed : list Q := map qz [0; 1; 1; 1; 0; 1; 2; 1; 1; 1; 1; 0; 1; 1; 1; 1]%Z.
Definition hole44 : flat_args Q := FlatArgs 4 4 (qz 2) (qz 2) holed (Some [obs44]) None (Temps [[u44]]) bm false false (q 1 1000) false false.
Definition elsewhere (l : list Q) : list Q := tab 16 (fun p => if feqb (nth p holed (qz 0)) (qz 0) then qz 77 else nth p l (qz 0)).
Example ex_outside : is_ok (flat_new (qz 1) sq8 ph4 eig1 hole44) = true /\ same_inside hole44 [obs44] [elsewhere (obs44)] /\ Forall2 (same_inside hole44) [[u44]] [[elsewhere u44]] /\ map out (elsewhere u44) <> map out u44.
Proof.
  assert (G : forall l : list Q, length l = 16%nat -> same_inside hole44 [l] [elsewhere l]).
  { intros l L. split; [reflexivity|]. split; [intros r [<-|[]]; apply length_tab|]. intros c p N. destruct c as [|c]; [|destruct c; reflexivity]. cbn [nth]. destruct (Nat.lt_ge_cases p 16) as [Hp|Hp]; [|change (nth p holed (qz 0) <> qz 0) in N; exfalso; apply N; apply nth_overflow; exact Hp]. unfold elsewhere. change (f0 : Q) with (qz 0 : Q). rewrite nth_tab by exact Hp. change (nth p holed (qz 0) <> qz 0) in N. destruct (feqb (nth p holed (qz 0)) (qz 0)) eqn:E; [apply feqb_eq in E; contradiction | reflexivity]. }
  split; [vm_compute; reflexivity|]. split; [apply G; reflexivity|]. split; [constructor; [apply G; reflexivity | constructor]|]. vm_compute. discriminate.
Qed.
(** a template that is not zero but vanishes inside the mask *)
Definition hidden44 : flat_args Q := FlatArgs 4 4 (qz 2) (qz 2) holed (Some [obs44]) None (Temps [[map qz [1; 0; 0; 0; 5; 0; 0; 0; 0; 0; 0; 2; 0; 0; 0; 0]%Z]]) bm false false (q 1 1000) false false.
Example ex_hidden : is_ok (flat_new (qz 1) sq8 ph4 eig1 (revised hidden44 [obs44] NoTemp false false)) = true /\ flat_new (qz 1) sq8 ph4 eig1 hidden44 = Exn ZeroDivisionError.
Proof. split; vm_compute; reflexivity. Qed.
(** A template much fainter than another one is not removed: two templates with no pixel in common, one of them a thousand
    times fainter than in the call that removes it; tol_pinv is 1/1000 (the default is 1E-10, for a ratio of 1E-5). *)
Definition unit44 (k : nat) (x : Q) : list Q := tab 16 (fun p => if Nat.eqb p k then x else qz 0).
Definition eigdiag (m : list (list Q)) : list Q * list (list Q) := ([entry2 m 0 0; entry2 m 1 1], [[qz 1; qz 0]; [qz 0; qz 1]]).
Definition faint44 (x : Q) : flat_args Q := FlatArgs 4 4 (qz 2) (qz 2) mask44 (Some [obs44]) None (Temps [[unit44 1 (qz 1)]; [unit44 5 x]]) bm false false (q 1 1000) false false.
Theorem C81_faint_template_refuted : exists x y : Q, flt (qz 0) x /\ flt (qz 0) y /\ forall z, z = x \/ z = y -> exists f m T, flat_new (qz 1) sq8 ph4 eigdiag (faint44 z) = Ok f /\ get_maps_flat f = Ok m /\ get_templates_flat f = Ok T /\
  (let M := products s44 1 T in L_Field.eigen 2 M (fst (eigdiag M)) (snd (eigdiag M))) /\ overlap 1 16 (nth 0 T []) m = qz 0 /\ (overlap 1 16 (nth 1 T []) m = qz 0 <-> z = x).
Proof.
  exists (qz 1), (q 1 1000). split; [vm_compute; reflexivity|]. split; [vm_compute; reflexivity|].
  assert (ok_from : forall A (d : A) (x : res A), is_ok x = true -> x = Ok (from_ok d x)) by (intros A d [x|x|] Hx; [reflexivity|discriminate Hx|discriminate Hx]).
  assert (Hne : q 1 1000 <> qz 1) by (apply feqb_neq; vm_compute; reflexivity).
  intros z [-> | ->].
  - set (r := flat_new (qz 1) sq8 ph4 eigdiag (faint44 (qz 1))). exists (from_ok no_field r), (from_ok [] (get_maps_flat (from_ok no_field r))), (from_ok [] (get_templates_flat (from_ok no_field r))). split; [apply ok_from; vm_compute; reflexivity|]. split; [apply ok_from; vm_compute; reflexivity|]. split; [apply ok_from; vm_compute; reflexivity|].
    split; [cbv zeta; split; [reflexivity|]; split; [ij2|]; split; ij2|]. split; [apply out_inj; vm_compute; reflexivity|]. split; [reflexivity|]. intros _. apply out_inj. vm_compute. reflexivity.
  - set (r := flat_new (qz 1) sq8 ph4 eigdiag (faint44 (q 1 1000))). exists (from_ok no_field r), (from_ok [] (get_maps_flat (from_ok no_field r))), (from_ok [] (get_templates_flat (from_ok no_field r))). split; [apply ok_from; vm_compute; reflexivity|]. split; [apply ok_from; vm_compute; reflexivity|]. split; [apply ok_from; vm_compute; reflexivity|].
    split; [cbv zeta; split; [reflexivity|]; split; [ij2|]; split; ij2|]. split; [apply out_inj; vm_compute; reflexivity|]. split; [|intro H; exfalso; exact (Hne H)]. intro H. exfalso. apply (f_equal out) in H. vm_compute in H. discriminate H.
Qed.
End Ex.
Print Assumptions C81_orthogonal.
Print Assumptions C81_invariant.
Print Assumptions C81_invariant_purified.
Print Assumptions C81_masked_input.
Print Assumptions C81_outside_mask.
Print Assumptions C81_lite.
Print Assumptions C81_plain.
Print Assumptions C81_vanishing_template_refuted.
Print Assumptions C81_faint_template_refuted.
