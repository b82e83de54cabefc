(** Covariance: rotations of a spin field, the full sky, and the sign of variances. *)
From Coq Require Import QArith Qcanon.
From Verif Require Import Base M_Bins M_LinAlg M_Workspace M_MCM M_Utils M_Field M_Cell M_Covar L_Bins L_Bins2 L_Bins3 P_Bins L_LinAlg L_Workspace P_Workspace L_MCM L_MCM2 L_MCM3 P_MCM P_MCM2 L_Covar L_Covar2 P_Covar P_Covar2.
Open Scope nat_scope.

Section PCovar5.
Context {F : ofield}.
Local Open Scope F_scope.
Add Field FfPCo5 : (fth F).
Notation mat := (list (list F)).
Notation el := L_Workspace.el.
Notation covargs := (covargs (F:=F)).

(** ** C71 *)
Section Rotation.
Variables u v : F.
(** components of the field rotated by the matrix (u -v; v u) *)
Definition comb (m : nat) (x0 x1 : F) : F := match m with O => u * x0 - v * x1 | _ => v * x0 + u * x1 end.
(** spectra with the second (first) field rotated, n the number of components of the second field *)
Definition rot2 (n1 k : nat) (A B : mat) : Prop := forall l i m, (l < k)%nat -> (i < n1)%nat -> (m < 2)%nat -> spc B 2 l i m = comb m (spc A 2 l i 0) (spc A 2 l i 1).
Definition rot1 (n2 k : nat) (A B : mat) : Prop := forall l i m, (l < k)%nat -> (i < 2)%nat -> (m < n2)%nat -> spc B n2 l i m = comb i (spc A n2 l 0 m) (spc A n2 l 1 m).
(** same workspaces, spins and shapes *)
Record same_call (g h : covargs) : Prop := { sc_cw : g_cw h = g_cw g; sc_s : g_s h = g_s g; sc_k : g_k h = g_k g; sc_wa : g_wa h = g_wa g; sc_wb : g_wb h = g_wb g }.
Record rotated_a (g h : covargs) : Prop := { ra_s : sp_a (g_s g) <> 0%Z; ra_same : same_call g h;
  ra_1 : rot1 (nm (sp_c (g_s g))) (g_k g) (cl_ac (g_c g)) (cl_ac (g_c h)); ra_2 : rot1 (nm (sp_d (g_s g))) (g_k g) (cl_ad (g_c g)) (cl_ad (g_c h));
  ra_3 : cl_bc (g_c h) = cl_bc (g_c g); ra_4 : cl_bd (g_c h) = cl_bd (g_c g) }.
Record rotated_b (g h : covargs) : Prop := { rb_s : sp_b (g_s g) <> 0%Z; rb_same : same_call g h;
  rb_1 : rot1 (nm (sp_c (g_s g))) (g_k g) (cl_bc (g_c g)) (cl_bc (g_c h)); rb_2 : rot1 (nm (sp_d (g_s g))) (g_k g) (cl_bd (g_c g)) (cl_bd (g_c h));
  rb_3 : cl_ac (g_c h) = cl_ac (g_c g); rb_4 : cl_ad (g_c h) = cl_ad (g_c g) }.
Record rotated_c (g h : covargs) : Prop := { rc_s : sp_c (g_s g) <> 0%Z; rc_same : same_call g h;
  rc_1 : rot2 (nm (sp_a (g_s g))) (g_k g) (cl_ac (g_c g)) (cl_ac (g_c h)); rc_2 : rot2 (nm (sp_b (g_s g))) (g_k g) (cl_bc (g_c g)) (cl_bc (g_c h));
  rc_3 : cl_ad (g_c h) = cl_ad (g_c g); rc_4 : cl_bd (g_c h) = cl_bd (g_c g) }.
Record rotated_d (g h : covargs) : Prop := { rd_s : sp_d (g_s g) <> 0%Z; rd_same : same_call g h;
  rd_1 : rot2 (nm (sp_a (g_s g))) (g_k g) (cl_ad (g_c g)) (cl_ad (g_c h)); rd_2 : rot2 (nm (sp_b (g_s g))) (g_k g) (cl_bd (g_c g)) (cl_bd (g_c h));
  rd_3 : cl_ac (g_c h) = cl_ac (g_c g); rd_4 : cl_bc (g_c h) = cl_bc (g_c g) }.
Lemma is12_idx (n p : nat) : is12 n -> (p < n)%nat -> (n = 1%nat /\ p = 0%nat) \/ (n = 2%nat /\ p = 0%nat) \/ (n = 2%nat /\ p = 1%nat).
Proof. intros [->| ->] H; lia. Qed.
Notation rotA2 n A B := (forall i m, (i < n)%nat -> (m < 2)%nat -> B i m = comb m (A i 0%nat) (A i 1%nat)).
Notation rotA1 n A B := (forall i m, (i < 2)%nat -> (m < n)%nat -> B i m = comb i (A 0%nat m) (A 1%nat m)).
Ltac prot R := unfold pairing, sympr, turn; cbn [Nat.eqb andb orb sgE Nat.sub comb]; rewrite ?R by lia; cbn [comb sgE]; rewrite !(Fdiv_def (fth F)); generalize (/ (fofZ 2 : F)); intro hh; ring.
(** rotating the second field of the second pair *)
Lemma pairing_rot_m n1 n3 n2 x0 x2 xp xm (A A' B B' C C' : nat -> nat -> F) i k j m : is12 n1 -> is12 n3 -> is12 n2 -> (i < n1)%nat -> (k < n3)%nat -> (j < n2)%nat -> (m < 2)%nat ->
  rotA2 n2 B C -> rotA2 n2 B' C' ->
  pairing n1 n3 n2 2 x0 x2 xp xm A A' C C' i k j m = comb m (pairing n1 n3 n2 2 x0 x2 xp xm A A' B B' i k j 0) (pairing n1 n3 n2 2 x0 x2 xp xm A A' B B' i k j 1).
Proof.
  intros H1 H3 H2 Hi Hk Hj Hm R R'. assert (M : m = 0%nat \/ m = 1%nat) by lia.
  destruct (is12_idx _ _ H1 Hi) as [[-> ->]|[[-> ->]|[-> ->]]]; destruct (is12_idx _ _ H3 Hk) as [[-> ->]|[[-> ->]|[-> ->]]]; destruct (is12_idx _ _ H2 Hj) as [[-> ->]|[[-> ->]|[-> ->]]]; destruct M as [-> | ->];
  unfold pairing, sympr, turn; cbn [Nat.eqb andb orb sgE Nat.sub comb]; rewrite ?R, ?R' by lia; cbn [comb]; rewrite !(Fdiv_def (fth F)); generalize (/ (fofZ 2 : F)); intro hh; ring.
Qed.
(** rotating the first field of the second pair *)
Lemma pairing_rot_j n1 n3 n4 x0 x2 xp xm (A A' B B' C C' : nat -> nat -> F) i k j m : is12 n1 -> is12 n3 -> is12 n4 -> (i < n1)%nat -> (k < n3)%nat -> (j < 2)%nat -> (m < n4)%nat ->
  rotA1 n4 B C -> rotA1 n4 B' C' ->
  pairing n1 n3 2 n4 x0 x2 xp xm A A' C C' i k j m = comb j (pairing n1 n3 2 n4 x0 x2 xp xm A A' B B' i k 0 m) (pairing n1 n3 2 n4 x0 x2 xp xm A A' B B' i k 1 m).
Proof.
  intros H1 H3 H2 Hi Hk Hm Hj R R'. assert (M : j = 0%nat \/ j = 1%nat) by lia.
  destruct (is12_idx _ _ H1 Hi) as [[-> ->]|[[-> ->]|[-> ->]]]; destruct (is12_idx _ _ H3 Hk) as [[-> ->]|[[-> ->]|[-> ->]]]; destruct (is12_idx _ _ H2 Hj) as [[-> ->]|[[-> ->]|[-> ->]]]; destruct M as [-> | ->];
  unfold pairing, sympr, turn; cbn [Nat.eqb andb orb sgE Nat.sub comb]; rewrite ?R, ?R' by lia; cbn [comb]; rewrite !(Fdiv_def (fth F)); generalize (/ (fofZ 2 : F)); intro hh; ring.
Qed.
(** rotating a field of the first pair *)
Lemma pairing_rot_k n1 n2 n4 x0 x2 xp xm (A A' B B' C C' : nat -> nat -> F) i k j m : is12 n1 -> is12 n2 -> is12 n4 -> (i < n1)%nat -> (k < 2)%nat -> (j < n2)%nat -> (m < n4)%nat ->
  rotA2 n1 A C -> rotA2 n1 A' C' ->
  pairing n1 2 n2 n4 x0 x2 xp xm C C' B B' i k j m = comb k (pairing n1 2 n2 n4 x0 x2 xp xm A A' B B' i 0 j m) (pairing n1 2 n2 n4 x0 x2 xp xm A A' B B' i 1 j m).
Proof.
  intros. rewrite !(pairing_swap n1 2 n2 n4). apply pairing_rot_m; assumption.
Qed.
Lemma pairing_rot_i n3 n2 n4 x0 x2 xp xm (A A' B B' C C' : nat -> nat -> F) i k j m : is12 n3 -> is12 n2 -> is12 n4 -> (i < 2)%nat -> (k < n3)%nat -> (j < n2)%nat -> (m < n4)%nat ->
  rotA1 n3 A C -> rotA1 n3 A' C' ->
  pairing 2 n3 n2 n4 x0 x2 xp xm C C' B B' i k j m = comb i (pairing 2 n3 n2 n4 x0 x2 xp xm A A' B B' 0 k j m) (pairing 2 n3 n2 n4 x0 x2 xp xm A A' B B' 1 k j m).
Proof.
  intros. rewrite !(pairing_swap 2 n3 n2 n4). apply pairing_rot_j; assumption.
Qed.
Lemma comb_add m x y x' y' : comb m x y + comb m x' y' = comb m (x + x') (y + y').
Proof. destruct m; cbn [comb]; ring. Qed.
Lemma nm2 s : s <> 0%Z -> nm s = 2%nat.
Proof. intro H. unfold nm. apply Z.eqb_neq in H. rewrite H. reflexivity. Qed.
Section Elem.
Variables g h : covargs.
Variables ia ib ic id la lb : nat.
Hypothesis C : comps g ia ib ic id.
Hypothesis G : good g.
Hypotheses (Hla : (la < nle (g_cw g))%nat) (Hlb : (lb < nle (g_cw g))%nat).
Notation E c a b := (elemv (g_cw g) (g_s g) c a b).
Lemma kk : (la < g_k g)%nat /\ (lb < g_k g)%nat.
Proof. pose proof (fi_k _ _ _ _ (gd_fits g G)). lia. Qed.
Ltac start Q := destruct Q as [Hs Hsame Q1 Q2 Q3 Q4]; destruct C as [Ca [Cb [Cc Cd]]]; destruct kk as [Ka Kb]; pose proof (nm2 _ Hs) as E2;
  unfold elemv; cbv zeta; rewrite !pairv_pairing, Q3, Q4, ?E2 in *.
Lemma elem_rot_a : rotated_a g h -> E (g_c h) ia ib ic id la lb = comb ia (E (g_c g) 0%nat ib ic id la lb) (E (g_c g) 1%nat ib ic id la lb).
Proof.
  intro Q. start Q. rewrite <- comb_add.
  f_equal; apply pairing_rot_i; try apply is12_nm; try assumption; intros i m Hi Hm; (apply Q1 || apply Q2); assumption.
Qed.
Lemma elem_rot_b : rotated_b g h -> E (g_c h) ia ib ic id la lb = comb ib (E (g_c g) ia 0%nat ic id la lb) (E (g_c g) ia 1%nat ic id la lb).
Proof.
  intro Q. start Q. rewrite <- comb_add.
  f_equal; apply pairing_rot_j; try apply is12_nm; try assumption; intros i m Hi Hm; (apply Q1 || apply Q2); assumption.
Qed.
Lemma elem_rot_c : rotated_c g h -> E (g_c h) ia ib ic id la lb = comb ic (E (g_c g) ia ib 0%nat id la lb) (E (g_c g) ia ib 1%nat id la lb).
Proof.
  intro Q. start Q. rewrite <- comb_add.
  f_equal; [apply pairing_rot_k | apply pairing_rot_m]; try apply is12_nm; try assumption; intros i m Hi Hm; (apply Q1 || apply Q2); assumption.
Qed.
Lemma elem_rot_d : rotated_d g h -> E (g_c h) ia ib ic id la lb = comb id (E (g_c g) ia ib ic 0%nat la lb) (E (g_c g) ia ib ic 1%nat la lb).
Proof.
  intro Q. start Q. rewrite <- comb_add.
  f_equal; [apply pairing_rot_m | apply pairing_rot_k]; try apply is12_nm; try assumption; intros i m Hi Hm; (apply Q1 || apply Q2); assumption.
Qed.
End Elem.
(** the combination of two elements, absent if one of them was never written *)
Definition ocomb (m : nat) (x y : option F) : option F := match x, y with Some a, Some b => Some (comb m a b) | _, _ => None end.
Lemma same_size (g h : covargs) : same_call g h -> coupled_size h = coupled_size g.
Proof. intros [E1 E2 E3 E4 E5]. unfold coupled_size. rewrite E1, E4, E5. reflexivity. Qed.
Lemma comb_mul m x y z : comb m x y * z = comb m (x * z) (y * z).
Proof. destruct m; cbn [comb]; ring. Qed.
Ltac rot_tac g h M M' ia ib ic id la lb G H S Eg Eh Hla Hlb C Q L :=
  let SC := fresh in assert (SC : same_call g h) by apply Q;
  let S' := fresh in pose proof S as S'; rewrite <- (same_size g h SC) in S';
  let C' := fresh in assert (C' : comps h ia ib ic id) by (unfold comps; rewrite (sc_s g h SC); exact C);
  let N := fresh in assert (N : nle (g_cw h) = nle (g_cw g)) by (rewrite (sc_cw g h SC); reflexivity);
  replace (row g) with (row h) by (unfold row; rewrite (sc_s g h SC); reflexivity); replace (col g) with (col h) by (unfold col; rewrite (sc_s g h SC); reflexivity);
  rewrite (coupled_at h ia ib ic id la lb H S' C' ltac:(rewrite N; exact Hla) ltac:(rewrite N; exact Hlb) M' Eh);
  replace (row h) with (row g) by (unfold row; rewrite (sc_s g h SC); reflexivity); replace (col h) with (col g) by (unfold col; rewrite (sc_s g h SC); reflexivity);
  rewrite (sc_wa g h SC), (sc_wb g h SC), (sc_cw g h SC), (sc_s g h SC), (L g h ia ib ic id la lb C G Hla Hlb Q).
Theorem C71_rotation_first (g h : covargs) M M' : good g -> good h -> (coupled_size g <= int_max)%Z -> rotated_a g h -> cov g true = Ok (Coupled M) -> cov h true = Ok (Coupled M') ->
  forall la ia ib lb ic id, (la < nle (g_cw g))%nat -> (lb < nle (g_cw g))%nat -> comps g ia ib ic id ->
  centry M' (row g la ia ib) (col g lb ic id) = ocomb ia (centry M (row g la 0 ib) (col g lb ic id)) (centry M (row g la 1 ib) (col g lb ic id)).
Proof.
  intros G H S Q Eg Eh la ia ib lb ic id Hla Hlb C. pose proof (nm2 _ (ra_s g h Q)) as E2. rot_tac g h M M' ia ib ic id la lb G H S Eg Eh Hla Hlb C Q elem_rot_a.
  destruct C as [Ca [Cb [Cc Cd]]].
  rewrite (coupled_at g 0 ib ic id la lb G S ltac:(unfold comps; lia) Hla Hlb M Eg), (coupled_at g 1 ib ic id la lb G S ltac:(unfold comps; lia) Hla Hlb M Eg).
  destruct (find_ell (w_bin (g_wa g)) (Z.of_nat la)), (find_ell (w_bin (g_wb g)) (Z.of_nat lb)); try reflexivity. cbn [ocomb]. rewrite comb_mul. reflexivity.
Qed.
Theorem C71_rotation_second (g h : covargs) M M' : good g -> good h -> (coupled_size g <= int_max)%Z -> rotated_b g h -> cov g true = Ok (Coupled M) -> cov h true = Ok (Coupled M') ->
  forall la ia ib lb ic id, (la < nle (g_cw g))%nat -> (lb < nle (g_cw g))%nat -> comps g ia ib ic id ->
  centry M' (row g la ia ib) (col g lb ic id) = ocomb ib (centry M (row g la ia 0) (col g lb ic id)) (centry M (row g la ia 1) (col g lb ic id)).
Proof.
  intros G H S Q Eg Eh la ia ib lb ic id Hla Hlb C. pose proof (nm2 _ (rb_s g h Q)) as E2. rot_tac g h M M' ia ib ic id la lb G H S Eg Eh Hla Hlb C Q elem_rot_b.
  destruct C as [Ca [Cb [Cc Cd]]].
  rewrite (coupled_at g ia 0 ic id la lb G S ltac:(unfold comps; lia) Hla Hlb M Eg), (coupled_at g ia 1 ic id la lb G S ltac:(unfold comps; lia) Hla Hlb M Eg).
  destruct (find_ell (w_bin (g_wa g)) (Z.of_nat la)), (find_ell (w_bin (g_wb g)) (Z.of_nat lb)); try reflexivity. cbn [ocomb]. rewrite comb_mul. reflexivity.
Qed.
Theorem C71_rotation_third (g h : covargs) M M' : good g -> good h -> (coupled_size g <= int_max)%Z -> rotated_c g h -> cov g true = Ok (Coupled M) -> cov h true = Ok (Coupled M') ->
  forall la ia ib lb ic id, (la < nle (g_cw g))%nat -> (lb < nle (g_cw g))%nat -> comps g ia ib ic id ->
  centry M' (row g la ia ib) (col g lb ic id) = ocomb ic (centry M (row g la ia ib) (col g lb 0 id)) (centry M (row g la ia ib) (col g lb 1 id)).
Proof.
  intros G H S Q Eg Eh la ia ib lb ic id Hla Hlb C. pose proof (nm2 _ (rc_s g h Q)) as E2. rot_tac g h M M' ia ib ic id la lb G H S Eg Eh Hla Hlb C Q elem_rot_c.
  destruct C as [Ca [Cb [Cc Cd]]].
  rewrite (coupled_at g ia ib 0 id la lb G S ltac:(unfold comps; lia) Hla Hlb M Eg), (coupled_at g ia ib 1 id la lb G S ltac:(unfold comps; lia) Hla Hlb M Eg).
  destruct (find_ell (w_bin (g_wa g)) (Z.of_nat la)), (find_ell (w_bin (g_wb g)) (Z.of_nat lb)); try reflexivity. cbn [ocomb]. rewrite comb_mul. reflexivity.
Qed.
Theorem C71_rotation_fourth (g h : covargs) M M' : good g -> good h -> (coupled_size g <= int_max)%Z -> rotated_d g h -> cov g true = Ok (Coupled M) -> cov h true = Ok (Coupled M') ->
  forall la ia ib lb ic id, (la < nle (g_cw g))%nat -> (lb < nle (g_cw g))%nat -> comps g ia ib ic id ->
  centry M' (row g la ia ib) (col g lb ic id) = ocomb id (centry M (row g la ia ib) (col g lb ic 0)) (centry M (row g la ia ib) (col g lb ic 1)).
Proof.
  intros G H S Q Eg Eh la ia ib lb ic id Hla Hlb C. pose proof (nm2 _ (rd_s g h Q)) as E2. rot_tac g h M M' ia ib ic id la lb G H S Eg Eh Hla Hlb C Q elem_rot_d.
  destruct C as [Ca [Cb [Cc Cd]]].
  rewrite (coupled_at g ia ib ic 0 la lb G S ltac:(unfold comps; lia) Hla Hlb M Eg), (coupled_at g ia ib ic 1 la lb G S ltac:(unfold comps; lia) Hla Hlb M Eg).
  destruct (find_ell (w_bin (g_wa g)) (Z.of_nat la)), (find_ell (w_bin (g_wb g)) (Z.of_nat lb)); try reflexivity. cbn [ocomb]. rewrite comb_mul. reflexivity.
Qed.
End Rotation.

(** ** C72 *)
Variables (fsqrt fexp flog : F -> F) (pi : F).
Variable w3j : Z -> Z -> Z -> Z -> Z -> F.
Notation built := (built fsqrt fexp flog pi w3j).
Notation laws := (laws fsqrt fexp flog w3j).
Notation wick := (wick fsqrt fexp flog pi w3j).
(** the product of the masks is one everywhere: 4 pi at l = 0 *)
Definition unit_sky (p : list F) : Prop := nth 0 p 0 = (1 + 1 + 1 + 1) * pi /\ forall n, (0 < n)%nat -> nth n p 0 = 0.
Lemma kern_unit p lmm f : pi <> 0 -> (0 <= lmm)%Z -> unit_sky p -> kern pi p lmm f = f 0%Z.
Proof.
  intros Hpi H [A B]. unfold kern. pose proof (four_pi pi Hpi) as D. rewrite (sum_single _ 0%nat); [|lia|].
  - rewrite A. change (2 * 0 + 1)%nat with 1%nat. replace (fofnat 1 : F) with (1 : F) by (cbn; ring). change (Z.of_nat 0) with 0%Z. set (d := (1 + 1 + 1 + 1) * pi) in *. clearbody d. field. exact D.
  - intros j Hj Nj. rewrite B by lia. set (d := (1 + 1 + 1 + 1) * pi) in *. clearbody d. field. exact D.
Qed.
Lemma diag2 (s s' l : Z) (x y : F) : laws -> (0 <= l)%Z -> Z.odd (s + s') = false -> x = eps (l - s) / fsqrt (fofZ (2 * l + 1)) -> y = eps (l - s') / fsqrt (fofZ (2 * l + 1)) ->
  x * y = 1 / fofZ (2 * l + 1).
Proof.
  intros L Hl O Hx Hy. pose proof (diag_value fsqrt fexp flog w3j s s' l x y L Hl Hx Hy) as E. unfold eps in E at 1. rewrite O in E.
  assert (P : (fofZ (2 * l + 1) : F) <> 0) by (apply fofZ_neq0; lia). rewrite <- E. field. exact P.
Qed.
Lemma kernels_unit p lmm la lb : laws -> pi <> 0 -> (0 <= lmm)%Z -> unit_sky p ->
  X00 fsqrt fexp flog pi p lmm la lb = (if Nat.eqb la lb then 1 / fofZ (2 * Z.of_nat la + 1) else 0) /\
  X02 fsqrt fexp flog pi w3j p lmm la lb = (if Nat.eqb la lb && (2 <=? la)%nat then 1 / fofZ (2 * Z.of_nat la + 1) else 0) /\
  Xpp pi w3j p lmm la lb = (if Nat.eqb la lb && (2 <=? la)%nat then 1 / fofZ (2 * Z.of_nat la + 1) else 0) /\
  Xmm pi w3j p lmm la lb = 0.
Proof.
  intros L Hpi H U. unfold X00, X02, Xpp, Xmm. cbv zeta. rewrite !kern_unit by assumption.
  destruct (Nat.eqb_spec la lb) as [<-|N].
  - rewrite Nat.min_id, Nat.max_id. cbn [andb].
    assert (Ev : Z.odd (0 + Z.of_nat la + Z.of_nat la) = false) by (replace (0 + Z.of_nat la + Z.of_nat la)%Z with (2 * Z.of_nat la)%Z by lia; rewrite Z.odd_mul; reflexivity).
    unfold even, odd. rewrite Ev. split; [apply (diag2 0 0); [exact L | lia | reflexivity | apply (J0_diag0 fsqrt fexp flog pi w3j); [exact L | lia] | apply (J0_diag0 fsqrt fexp flog pi w3j); [exact L | lia]]|].
    destruct (Nat.leb_spec 2 la) as [H2|H2].
    + pose proof (J3_diag1 fsqrt fexp flog w3j 2 (Z.of_nat la) L ltac:(lia)) as E3. pose proof (J0_diag0 fsqrt fexp flog pi w3j (Z.of_nat la) L ltac:(lia)) as E0.
      split; [apply (diag2 2 0); [exact L | lia | reflexivity | exact E3 | exact E0]|]. split; [|ring].
      rewrite <- (diag2 2 2 (Z.of_nat la) _ _ L ltac:(lia) eq_refl E3 E3). ring.
    + rewrite (J3_diag2 fsqrt fexp flog w3j 2 (Z.of_nat la) L ltac:(lia)). split; [|split]; ring.
  - cbn [andb]. assert (N' : Nat.min la lb <> Nat.max la lb) by lia. rewrite (J0_off fsqrt fexp flog w3j), (J3_off fsqrt fexp flog w3j) by exact N'. repeat split; ring.
Qed.
Lemma half_twice (x : F) : (x + x) / fofZ 2 = x.
Proof. pose proof (nz_fofZ2 fsqrt fexp flog pi) as T. replace (fofZ 2 : F) with (1 + 1 : F) in * by (cbn; ring). replace (x + x) with (x * (1 + 1)) by ring. revert T. generalize (1 + 1 : F) as t. intros t T. field. exact T. Qed.
Theorem C72_full_sky (g : covargs) p1 p2 lmm s0 M : laws -> good g -> (coupled_size g <= int_max)%Z -> built (g_cw g) p1 p2 (cw_lmax (g_cw g)) lmm s0 -> unit_sky p1 -> unit_sky p2 ->
  once (w_bin (g_wa g)) -> once (w_bin (g_wb g)) -> cov g true = Ok (Coupled M) ->
  forall ea eb ia ib ic id, in_bins (g_wa g) ea -> in_bins (g_wb g) eb -> comps g ia ib ic id ->
  (g_s g = Spins 0 0 0 0 \/ (2 <= el ea)%nat) ->
  let c := g_c g in let la := el ea in let nc := nm (sp_c (g_s g)) in let nd := nm (sp_d (g_s g)) in
  centry M (row g (el ea) ia ib) (col g (el eb) ic id) = Some (e_f ea * e_f eb *
    if Nat.eqb (el ea) (el eb) then (spc (cl_ac c) nc la ia ic * spc (cl_bd c) nd la ib id + spc (cl_ad c) nd la ia id * spc (cl_bc c) nc la ib ic) / fofZ (2 * Z.of_nat la + 1) else 0).
Proof.
  intros L G S B U1 U2 Oa Ob E ea eb ia ib ic id Ia Ib C Hs c la nc nd.
  rewrite (C52_coupled_value fsqrt fexp flog pi w3j g p1 p2 lmm s0 G S B Oa Ob M E ea eb ia ib ic id Ia Ib C). f_equal. f_equal.
  destruct B as [Hpi [HL _]].
  destruct (kernels_unit p1 lmm (el ea) (el eb) L Hpi ltac:(lia) U1) as [A0 [A2 [Ap Am]]]. destruct (kernels_unit p2 lmm (el ea) (el eb) L Hpi ltac:(lia) U2) as [B0 [B2 [Bp Bm]]].
  unfold P_Covar.wick. cbv zeta. rewrite A0, A2, Ap, Am, B0, B2, Bp, Bm. clear A0 A2 Ap Am B0 B2 Bp Bm. fold la nc nd c.
  assert (W : forall n1 n3 n2 n4 (A A' B B' : nat -> nat -> F) i k j m, (n1 = 1 /\ n2 = 1 /\ n3 = 1 /\ n4 = 1)%nat \/ (2 <= la)%nat ->
    pairing n1 n3 n2 n4 (if Nat.eqb la (el eb) then 1 / fofZ (2 * Z.of_nat la + 1) else 0) (if Nat.eqb la (el eb) && (2 <=? la)%nat then 1 / fofZ (2 * Z.of_nat la + 1) else 0)
      (if Nat.eqb la (el eb) && (2 <=? la)%nat then 1 / fofZ (2 * Z.of_nat la + 1) else 0) 0 A A' B B' i k j m
    = (if Nat.eqb la (el eb) then 1 / fofZ (2 * Z.of_nat la + 1) else 0) * sympr A A' B B' i k j m).
  { intros n1 n3 n2 n4 A A' B B' i k j m [[-> [-> [-> ->]]]|H2]; [reflexivity|]. replace (2 <=? la)%nat with true by (symmetry; apply Nat.leb_le; exact H2). rewrite andb_true_r.
    unfold pairing. cbv zeta. destruct (Nat.eqb n1 2 && Nat.eqb n3 2)%bool, (Nat.eqb n2 2 && Nat.eqb n4 2)%bool; cbn [andb orb]; ring. }
  assert (HH : forall n1 n3 n2 n4, In (n1, n3, n2, n4) [(nm (sp_a (g_s g)), nc, nm (sp_b (g_s g)), nd); (nm (sp_a (g_s g)), nd, nm (sp_b (g_s g)), nc)] -> (n1 = 1 /\ n2 = 1 /\ n3 = 1 /\ n4 = 1)%nat \/ (2 <= la)%nat).
  { intros n1 n3 n2 n4 I. destruct Hs as [Hs|Hs]; [left | right; exact Hs]. unfold nc, nd in I. rewrite Hs in I. destruct I as [I|[I|[]]]; injection I as <- <- <- <-; repeat split; reflexivity. }
  rewrite !W by (apply HH; cbn; auto).
  destruct (Nat.eqb_spec la (el eb)) as [<-|N]; [|ring]. unfold sympr. rewrite !half_twice. rewrite !(Fdiv_def (fth F)). ring.
Qed.
(** below l = 2 four spin fields have no covariance *)
Theorem C72_full_sky_low (g : covargs) p1 p2 lmm s0 M : laws -> good g -> (coupled_size g <= int_max)%Z -> built (g_cw g) p1 p2 (cw_lmax (g_cw g)) lmm s0 -> unit_sky p1 -> unit_sky p2 ->
  once (w_bin (g_wa g)) -> once (w_bin (g_wb g)) -> cov g true = Ok (Coupled M) ->
  forall ea eb ia ib ic id, in_bins (g_wa g) ea -> in_bins (g_wb g) eb -> comps g ia ib ic id ->
  sp_a (g_s g) <> 0%Z -> sp_b (g_s g) <> 0%Z -> sp_c (g_s g) <> 0%Z -> sp_d (g_s g) <> 0%Z -> (el ea < 2)%nat ->
  centry M (row g (el ea) ia ib) (col g (el eb) ic id) = Some 0.
Proof.
  intros L G S B U1 U2 Oa Ob E ea eb ia ib ic id Ia Ib C Ha Hb Hc Hd H2.
  rewrite (C52_coupled_value fsqrt fexp flog pi w3j g p1 p2 lmm s0 G S B Oa Ob M E ea eb ia ib ic id Ia Ib C). f_equal.
  destruct B as [Hpi [HL _]].
  destruct (kernels_unit p1 lmm (el ea) (el eb) L Hpi ltac:(lia) U1) as [A0 [A2 [Ap Am]]]. destruct (kernels_unit p2 lmm (el ea) (el eb) L Hpi ltac:(lia) U2) as [B0 [B2 [Bp Bm]]].
  unfold P_Covar.wick. cbv zeta. rewrite A2, Ap, Am, B2, Bp, Bm. replace (2 <=? el ea)%nat with false by (symmetry; apply Nat.leb_gt; exact H2). rewrite andb_false_r.
  unfold pairing. cbv zeta. rewrite !nm2 by assumption. cbn [Nat.eqb andb]. ring.
Qed.

(** ** C73: variances *)
Lemma kern_nonneg p lmm f : 0 < pi -> (forall n, 0 <= nth n p 0) -> (forall l, 0 <= f l) -> 0 <= kern pi p lmm f.
Proof.
  intros Hpi Hp Hf. unfold kern. apply sum_nonneg. intros n _. apply fmul_nonneg; [|apply Hf]. apply fdiv_nonneg.
  - apply fmul_nonneg; [apply Hp | apply fofnat_nonneg].
  - apply fmul_pos; [|exact Hpi]. replace (1 + 1 + 1 + 1 : F) with (fofZ 4 : F) by (cbn; ring). apply fofZ_pos. lia.
Qed.
Lemma par_nonneg x y l1 : 0 <= even (F:=F) x y l1 /\ 0 <= odd (F:=F) x y l1.
Proof. unfold even, odd. destruct (Z.odd _); split; try apply fle_refl; apply f0_le_1. Qed.
(** the four fields are the same field *)
Record auto (g : covargs) : Prop := {
  au_s : sp_b (g_s g) = sp_a (g_s g) /\ sp_c (g_s g) = sp_a (g_s g) /\ sp_d (g_s g) = sp_a (g_s g);
  au_c : cl_ad (g_c g) = cl_ac (g_c g) /\ cl_bc (g_c g) = cl_ac (g_c g) /\ cl_bd (g_c g) = cl_ac (g_c g);
  au_w : g_wb g = g_wa g;
  au_sym : forall l i j, (l < g_k g)%nat -> (i < nm (sp_a (g_s g)))%nat -> (j < nm (sp_a (g_s g)))%nat -> spc (cl_ac (g_c g)) (nm (sp_a (g_s g))) l i j = spc (cl_ac (g_c g)) (nm (sp_a (g_s g))) l j i }.
(** variances of the auto-spectra of a component (TT, EE, BB) are non-negative *)
Theorem C73_variance_nonneg (g : covargs) p lmm s0 M : 0 < pi -> (forall n, 0 <= nth n p 0) -> good g -> (coupled_size g <= int_max)%Z -> auto g -> built (g_cw g) p p (cw_lmax (g_cw g)) lmm s0 ->
  once (w_bin (g_wa g)) -> cov g true = Ok (Coupled M) ->
  forall ea i, in_bins (g_wa g) ea -> (i < nm (sp_a (g_s g)))%nat ->
  exists x, centry M (row g (el ea) i i) (col g (el ea) i i) = Some x /\ 0 <= x.
Proof.
  intros Hpi Hp G S A B Oa E ea i Ia Hi. destruct A as [[Eb [Ec Ed]] [C1 [C2 C3]] Ew Sy].
  pose proof (C52_coupled_value fsqrt fexp flog pi w3j g p p lmm s0 G S B Oa ltac:(rewrite Ew; exact Oa) M E ea ea i i i i Ia ltac:(unfold in_bins; rewrite Ew; exact Ia) ltac:(unfold comps; rewrite Eb, Ec, Ed; auto)) as V.
  eexists. split; [exact V|]. apply fmul_nonneg; [apply fsqr_nonneg|].
  assert (Lk : (el ea < g_k g)%nat).
  { pose proof (fi_k _ _ _ _ (gd_fits g G)). assert (el ea < nle (g_cw g))%nat; [|lia]. apply in_concat in Ia. destruct Ia as [x [Hx He]]. pose proof (wf_ells _ _ _ _ (gd_a g G) x ea Hx He). pose proof (wf_lmax _ _ _ _ (gd_a g G)). unfold L_Workspace.el, nle. lia. }
  unfold P_Covar.wick. cbv zeta. rewrite Eb, Ec, Ed, C1, C2, C3. set (n := nm (sp_a (g_s g))) in *. set (Cl := spc (cl_ac (g_c g)) n (el ea)) in *.
  assert (N0 : 0 <= X00 fsqrt fexp flog pi p lmm (el ea) (el ea)) by (apply kern_nonneg; [exact Hpi | exact Hp | intro; apply fsqr_nonneg]).
  assert (Np : 0 <= Xpp pi w3j p lmm (el ea) (el ea)) by (apply kern_nonneg; [exact Hpi | exact Hp | intro; apply fmul_nonneg; [apply par_nonneg | apply fsqr_nonneg]]).
  assert (T : forall k, 0 <= k -> 0 <= k * sympr Cl Cl Cl Cl i i i i + k * sympr Cl Cl Cl Cl i i i i).
  { intros k Hk. unfold sympr. rewrite half_twice. replace (0 : F) with (0 + 0 : F) by ring. apply fle_add; apply fmul_nonneg; try exact Hk; apply fsqr_nonneg. }
  assert (Z0 : n = 2%nat -> turn Cl i i = 0).
  { intro N2. unfold turn. pose proof (Sy (el ea) (1 - i)%nat i Lk ltac:(lia) ltac:(lia)) as Q. fold Cl in Q. destruct i as [|[|i]]; [| |lia]; cbn [Nat.sub sgE] in *; rewrite Q; ring. }
  clearbody Cl. destruct (is12_nm (sp_a (g_s g))) as [N|N]; fold n in N; rewrite N in *; unfold pairing; cbv zeta; cbn [Nat.eqb andb orb].
  - apply T; assumption.
  - specialize (Z0 eq_refl).
    assert (Z1 : sympr (turn Cl) (turn Cl) (turn Cl) (turn Cl) i i i i = 0) by (unfold sympr; rewrite !Z0; rewrite (Fdiv_def (fth F)); ring).
    rewrite Z1. match goal with |- 0 <= ?x - ?y * 0 + _ => replace (x - y * 0) with x by ring end. apply T; assumption.
Qed.
(** a field with E modes only: no variance of BB, but a covariance of EE and BB *)
Theorem C73_ee_bb (g : covargs) p lmm s0 M : good g -> (coupled_size g <= int_max)%Z -> auto g -> built (g_cw g) p p (cw_lmax (g_cw g)) lmm s0 -> sp_a (g_s g) <> 0%Z ->
  (forall l i j, (l < g_k g)%nat -> (i < 2)%nat -> (j < 2)%nat -> (i <> 0 \/ j <> 0)%nat -> spc (cl_ac (g_c g)) 2 l i j = 0) ->
  once (w_bin (g_wa g)) -> cov g true = Ok (Coupled M) -> forall ea eb, in_bins (g_wa g) ea -> in_bins (g_wa g) eb ->
  let C e := entry2 (cl_ac (g_c g)) 0 (el e) in
  centry M (row g (el ea) 0 0) (col g (el eb) 1 1) = Some (- (e_f ea * e_f eb * (Xmm pi w3j p lmm (el ea) (el eb) * (C ea * C eb) + Xmm pi w3j p lmm (el ea) (el eb) * (C ea * C eb)))) /\
  centry M (row g (el ea) 1 1) (col g (el eb) 1 1) = Some 0.
Proof.
  intros G S A B Hs E0 Oa E ea eb Ia Ib C. destruct A as [[Eb [Ec Ed]] [C1 [C2 C3]] Ew Sy]. pose proof (nm2 _ Hs) as N2.
  assert (Lk : forall e, in_bins (g_wa g) e -> (el e < g_k g)%nat).
  { intros e Ie. pose proof (fi_k _ _ _ _ (gd_fits g G)). assert (el e < nle (g_cw g))%nat; [|lia]. apply in_concat in Ie. destruct Ie as [x [Hx He]]. pose proof (wf_ells _ _ _ _ (gd_a g G) x e Hx He). pose proof (wf_lmax _ _ _ _ (gd_a g G)). unfold L_Workspace.el, nle. lia. }
  pose proof (Lk ea Ia) as Ka. pose proof (Lk eb Ib) as Kb.
  assert (V : forall i k, (i < 2)%nat -> (k < 2)%nat -> centry M (row g (el ea) i i) (col g (el eb) k k) = Some (e_f ea * e_f eb * wick (g_s g) (g_c g) p p lmm i i k k (el ea) (el eb))).
  { intros i k Hi Hk. apply (C52_coupled_value fsqrt fexp flog pi w3j g p p lmm s0 G S B Oa ltac:(rewrite Ew; exact Oa) M E ea eb i i k k Ia ltac:(unfold in_bins; rewrite Ew; exact Ib)).
    unfold comps. rewrite Eb, Ec, Ed, N2. auto. }
  rewrite !V by lia. clear V. unfold P_Covar.wick. cbv zeta. rewrite Eb, Ec, Ed, C1, C2, C3, N2. unfold pairing. cbv zeta. cbn [Nat.eqb andb].
  replace (C ea) with (spc (cl_ac (g_c g)) 2 (el ea) 0 0) by reflexivity. replace (C eb) with (spc (cl_ac (g_c g)) 2 (el eb) 0 0) by reflexivity.
  unfold sympr, turn. cbn [Nat.sub sgE]. rewrite ?(E0 (el ea) 0%nat 1%nat), ?(E0 (el ea) 1%nat 0%nat), ?(E0 (el ea) 1%nat 1%nat), ?(E0 (el eb) 0%nat 1%nat), ?(E0 (el eb) 1%nat 0%nat), ?(E0 (el eb) 1%nat 1%nat) by (try assumption; lia).
  pose proof (half_twice (spc (cl_ac (g_c g)) 2 (el ea) 0 0 * spc (cl_ac (g_c g)) 2 (el eb) 0 0)) as H2. revert H2. rewrite !(Fdiv_def (fth F)).
  generalize (/ (fofZ 2 : F)) as h. generalize (spc (cl_ac (g_c g)) 2 (el ea) 0 0) as x. generalize (spc (cl_ac (g_c g)) 2 (el eb) 0 0) as y. intros y x h H2.
  split; f_equal; [|ring]. rewrite <- H2. ring.
Qed.
End PCovar5.
