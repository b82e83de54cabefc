(** Properties C69 and C70: purification treats E and B alike; the weights of its three terms. *)
From Coq Require Import QArith Qcanon.
From Verif Require Import Base M_Utils L_Utils M_Field L_Field L_Field2 P_Utils P_Field P_Field2 P_Field3 P_Field5 P_Field6 P_Field7.
Local Open Scope nat_scope.
Section PPu.
Context {F : ofield}.
Local Open Scope F_scope.
Add Field FfPPu : (fth F).
Notation mat := (list (list F)).
Variable fsqrt : F -> F.

(** ** C69 *)
(** (Q, U) becomes (-U, Q): polarisation turned by 45 degrees; on coefficients (E, B) becomes (-B, E) *)
Definition neg (v : list F) : list F := map fopp v.
Definition rot (m : mat) : mat := [neg (nth 1 m []); nth 0 m []].
(** transforms of spin fields commute with multiplication of Q + iU by i; scalar transforms with the sign *)
Definition turns (K : calc F) : Prop := forall s lmax,
  (forall spin m, (0 < spin)%Z -> length m = 2%nat -> c_m2a K spin s lmax (rot m) = rot (c_m2a K spin s lmax m) /\ c_a2m K spin s lmax (rot m) = rot (c_a2m K spin s lmax m)) /\
  (forall v, c_m2a K 0 s lmax [neg v] = map neg (c_m2a K 0 s lmax [v])) /\ (forall m, c_a2m K 0 s lmax (map neg m) = map neg (c_a2m K 0 s lmax m)) /\
  (forall m, c_m2a K 0 s lmax (map neg m) = map neg (c_m2a K 0 s lmax m)).
Lemma neg_chunks n k v : chunks n k (neg v) = map neg (chunks n k v).
Proof. revert v. induction n as [|n IH]; intro v; [reflexivity|]. cbn [chunks map]. rewrite <- IH. unfold neg. rewrite firstn_map, skipn_map. reflexivity. Qed.
Lemma neg_concat l : neg (concat l) = concat (map neg l).
Proof. apply concat_map. Qed.
Lemma neg_repeat n : neg (repeat 0 n) = repeat 0 n.
Proof. induction n as [|n IH]; [reflexivity|]. cbn [repeat]. unfold neg in *. cbn [map]. rewrite IH. f_equal. ring. Qed.
Lemma length_neg v : length (neg v) = length v.
Proof. apply map_length. Qed.
Lemma pad_neg s v : pad_map s (neg v) = (do r <- pad_map s v; Ok (neg r)).
Proof.
  destruct s as [n w | ny nx nf f1 f2 wts]; cbn [pad_map bind]; [reflexivity|]. rewrite length_neg. destruct (negb _); [reflexivity|]. destruct (_ <? _)%nat; [reflexivity|]. cbn [bind]. f_equal. rewrite neg_concat, neg_chunks, !map_map. f_equal. apply map_ext. intro r. unfold neg at 2. rewrite map_app. fold (neg r). fold (neg (repeat 0 (nf - nx))). rewrite neg_repeat. reflexivity.
Qed.
Lemma unpad_neg s v : unpad_map s (neg v) = (do r <- unpad_map s v; Ok (neg r)).
Proof.
  destruct s as [n w | ny nx nf f1 f2 wts]; cbn [unpad_map bind]; [reflexivity|]. rewrite length_neg. destruct (negb _); [reflexivity|]. cbn [bind]. f_equal. rewrite neg_concat, neg_chunks, !map_map. f_equal. apply map_ext. intro r. unfold neg. apply firstn_map.
Qed.
Lemma two_comp (m : mat) : length m = 2%nat -> exists a b, m = [a; b].
Proof. destruct m as [|a [|b [|]]]; try discriminate. intros _. exists a, b. reflexivity. Qed.
Lemma pads_rot s m r : length m = 2%nat -> mapM (pad_map s) m = Ok r -> mapM (pad_map s) (rot m) = Ok (rot r).
Proof.
  intros L H. destruct (two_comp m L) as (a & b & ->). cbn [mapM] in H. apply bind_ok in H as (x & Ex & H). apply bind_ok in H as (y & Ey & H). injection H as <-. apply bind_ok in Ey as (z & Ez & Ey). injection Ey as <-. unfold rot. cbn [nth mapM]. rewrite pad_neg, Ez, Ex. reflexivity.
Qed.
Lemma unpads_rot s m r : length m = 2%nat -> mapM (unpad_map s) m = Ok r -> mapM (unpad_map s) (rot m) = Ok (rot r).
Proof.
  intros L H. destruct (two_comp m L) as (a & b & ->). cbn [mapM] in H. apply bind_ok in H as (x & Ex & H). apply bind_ok in H as (y & Ey & H). injection H as <-. apply bind_ok in Ey as (z & Ez & Ey). injection Ey as <-. unfold rot. cbn [nth mapM]. rewrite unpad_neg, Ez, Ex. reflexivity.
Qed.
Lemma zip_neg a : forall b, zipw fsub (neg a) (neg b) = neg (zipw fsub a b).
Proof. induction a as [|x a IH]; intros [|y b]; try reflexivity. unfold neg in *. cbn [map]. rewrite !zipw_cons. cbn [map]. rewrite <- IH. f_equal. ring. Qed.
Lemma msub_rot (a b : mat) : length a = 2%nat -> length b = 2%nat -> msub (rot a) (rot b) = rot (msub a b).
Proof. intros La Lb. destruct (two_comp a La) as (x & y & ->). destruct (two_comp b Lb) as (z & t & ->). unfold rot, msub. cbn [nth]. unfold zipw at 1 3. cbn [combine map fst snd nth]. rewrite zip_neg. reflexivity. Qed.
Lemma msub_neg (a b : mat) : msub (map neg a) (map neg b) = map neg (msub a b).
Proof. revert b. induction a as [|x a IH]; intros [|y b]; try reflexivity. unfold msub in *. cbn [map]. rewrite !zipw_cons. cbn [map]. rewrite IH, zip_neg. reflexivity. Qed.
Lemma len_msub (a b : mat) : length a = 2%nat -> length b = 2%nat -> length (msub a b) = 2%nat.
Proof. intros La Lb. unfold msub. rewrite length_zipw, La, Lb. reflexivity. Qed.
Lemma refine_rot (m2a a2m : mat -> mat) n m alm : (forall x, length x = 2%nat -> m2a (rot x) = rot (m2a x) /\ a2m (rot x) = rot (a2m x)) -> (forall x, length (m2a x) = length x) -> (forall x, length (a2m x) = length x) -> length m = 2%nat -> length alm = 2%nat ->
  refine m2a a2m n (rot m) (rot alm) = rot (refine m2a a2m n m alm).
Proof.
  intros H Lm La L. revert alm. induction n as [|n IH]; intros alm LA; [reflexivity|]. cbn [refine]. rewrite (proj2 (H alm LA)), msub_rot by (rewrite ?La; assumption). rewrite (proj1 (H _ (len_msub _ _ (eq_trans (La alm) LA) L))). rewrite msub_rot.
  - apply IH. apply len_msub; [exact LA|]. rewrite Lm. apply len_msub; [rewrite La; exact LA | exact L].
  - exact LA.
  - rewrite Lm. apply len_msub; [rewrite La; exact LA | exact L].
Qed.
Lemma sht_rot K spin s lmax n m r : turns K -> alm_shape K -> map_shape K -> (0 < spin)%Z -> length m = 2%nat -> sht K spin s lmax n m = Ok r -> sht K spin s lmax n (rot m) = Ok (rot r).
Proof.
  intros T HK HA Sp L H. unfold sht in *. apply bind_ok in H as (pm & Ep & H). rewrite (pads_rot s m pm L Ep). cbn [bind]. destruct (_ && _)%bool; [discriminate H|]. injection H as <-. f_equal. pose proof (mapM_length _ _ _ Ep) as Lp. rewrite L in Lp.
  rewrite (proj1 (proj1 (T s lmax) spin pm Sp Lp)). apply refine_rot; [intros x Hx; exact (proj1 (T s lmax) spin x Sp Hx) | intro x; exact (proj1 (HK spin s lmax x)) | intro x; apply HA | exact Lp | rewrite (proj1 (HK spin s lmax pm)); exact Lp].
Qed.
Lemma refine_neg (m2a a2m : mat -> mat) n m alm : (forall x, m2a (map neg x) = map neg (m2a x)) -> (forall x, a2m (map neg x) = map neg (a2m x)) -> refine m2a a2m n (map neg m) (map neg alm) = map neg (refine m2a a2m n m alm).
Proof. intros H1 H2. revert alm. induction n as [|n IH]; intro alm; [reflexivity|]. cbn [refine]. rewrite H2, msub_neg, H1, msub_neg. apply IH. Qed.
Lemma sht_neg K s lmax n v r : turns K -> sht K 0 s lmax n [v] = Ok r -> sht K 0 s lmax n [neg v] = Ok (map neg r).
Proof.
  intros T H. unfold sht in *. cbn [mapM] in *. rewrite pad_neg. destruct (pad_map s v) as [w|e|]; cbn [bind] in *; try discriminate H. destruct (_ && _)%bool; [discriminate H|]. injection H as <-. f_equal. destruct (T s lmax) as (_ & T1 & T2 & T3). rewrite T1. change [neg w] with (map neg [w]). apply refine_neg; assumption.
Qed.
Lemma isht_rot K spin s lmax a r : turns K -> map_shape K -> (0 < spin)%Z -> length a = 2%nat -> isht K spin s lmax a = Ok r -> isht K spin s lmax (rot a) = Ok (rot r).
Proof.
  intros T HA Sp L H. unfold isht in *. destruct (_ && _)%bool; [discriminate H|]. unfold alm2map in *. rewrite (proj2 (proj1 (T s lmax) spin a Sp L)). apply unpads_rot; [rewrite HA; exact L | exact H].
Qed.
Lemma vmul_neg w : forall u, vmul w (neg u) = neg (vmul w u).
Proof. induction w as [|x w IH]; intros [|y u]; try reflexivity. unfold vmul, neg in *. cbn [map]. rewrite !zipw_cons. cbn [map]. rewrite IH. f_equal. ring. Qed.
Lemma mask_rot mask u : length u = 2%nat -> map (vmul mask) (rot u) = rot (map (vmul mask) u).
Proof. intro L. destruct (two_comp u L) as (a & b & ->). unfold rot. cbn [nth map]. rewrite vmul_neg. reflexivity. Qed.
Lemma add_neg a : forall b, zipw fadd (neg a) b = neg (zipw fsub a b).
Proof. induction a as [|x a IH]; intros [|y b]; try reflexivity. unfold neg in *. cbn [map]. rewrite !zipw_cons. cbn [map]. rewrite IH. f_equal. ring. Qed.
Lemma sub_neg a : forall b, zipw fsub a (neg b) = zipw fadd a b.
Proof. induction a as [|x a IH]; intros [|y b]; try reflexivity. unfold neg in *. cbn [map]. rewrite !zipw_cons. rewrite IH. f_equal. ring. Qed.
Lemma prod_rot w u : length u = 2%nat -> spin_prod w (rot u) = rot (spin_prod w u).
Proof.
  intro L. destruct (two_comp u L) as (a & b & ->). unfold rot, spin_prod. cbn [nth]. rewrite !vmul_neg, sub_neg, add_neg. reflexivity.
Qed.
Lemma almxfl_neg lmax (a fl : list F) : almxfl lmax (neg a) fl = neg (almxfl lmax a fl).
Proof. unfold almxfl. generalize (ells lmax). induction a as [|x a IH]; intros [|y l]; try reflexivity. unfold neg in *. cbn [map]. rewrite !zipw_cons. cbn [map]. rewrite IH. f_equal. ring. Qed.
Lemma vadd_neg (a b : list F) : vadd (neg a) (neg b) = (do r <- vadd a b; Ok (neg r)).
Proof.
  unfold vadd. rewrite !length_neg. destruct (Nat.eqb _ _); [|reflexivity]. cbn [bind]. f_equal. revert b. induction a as [|x a IH]; intros [|y b]; try reflexivity. unfold neg in *. cbn [map]. rewrite !zipw_cons. cbn [map]. rewrite IH. f_equal. ring.
Qed.
Lemma add_pure_rot pe pb lmax (fl : list F) alms palm r : add_pure pe pb lmax fl alms palm = Ok r -> add_pure pb pe lmax fl (rot alms) (rot palm) = Ok (rot r).
Proof.
  unfold add_pure. cbv zeta. intro H. apply bind_ok in H as (e & Ee & H). apply bind_ok in H as (b & Eb & H). injection H as <-. unfold rot. cbn [nth].
  assert (X : (if pb then vadd (neg (nth 1 alms [])) (almxfl lmax (neg (nth 1 palm [])) (firstn (Z.to_nat (lmax + 1)) fl)) else Ok (neg (nth 1 alms []))) = Ok (neg b)) by (destruct pb; [rewrite almxfl_neg, vadd_neg, Eb; reflexivity | injection Eb as <-; reflexivity]).
  rewrite X. cbn [bind]. rewrite Ee. reflexivity.
Qed.
Lemma add_pure_two pe pb lmax (fl : list F) alms palm r : add_pure pe pb lmax fl alms palm = Ok r -> length r = 2%nat.
Proof. unfold add_pure. cbv zeta. intro H. apply bind_ok in H as (e & Ee & H). apply bind_ok in H as (b & Eb & H). injection H as <-. reflexivity. Qed.
Theorem C69_rotation K s lmax lmaxm n mask am pe pb u alm maps : turns K -> alm_shape K -> map_shape K -> length u = 2%nat ->
  purify fsqrt K s lmax lmaxm n mask am pe pb u = Ok (alm, maps) -> purify fsqrt K s lmax lmaxm n mask am pb pe (rot u) = Ok (rot alm, rot maps).
Proof.
  intros T HK HA L H. unfold purify in *. apply bind_ok in H as (a0 & E0 & H). cbv zeta in *. apply bind_ok in H as (w1 & W1 & H). apply bind_ok in H as (p1 & P1 & H). apply bind_ok in H as (a1 & A1 & H). apply bind_ok in H as (w2 & W2 & H). apply bind_ok in H as (p2 & P2 & H). apply bind_ok in H as (a2 & A2 & H). apply bind_ok in H as (m2 & M2 & H). injection H as <- <-.
  rewrite (mask_rot mask u L). rewrite (sht_rot K 2 s lmaxm n _ a0 T HK HA ltac:(lia) ltac:(rewrite map_length; exact L) E0). cbn [bind]. rewrite W1. cbn [bind]. rewrite (prod_rot w1 u L). rewrite (sht_rot K 1 s lmax n (spin_prod w1 u) p1 T HK HA ltac:(lia) eq_refl P1). cbn [bind]. rewrite (add_pure_rot _ _ _ _ _ _ _ A1). cbn [bind]. rewrite W2. cbn [bind]. rewrite (prod_rot w2 u L).
  assert (P2' : mapM (fun m => do a <- sht K 0 s lmax n [m]; Ok (nth 0 a [])) (rot (spin_prod w2 u)) = Ok (rot p2)).
  { unfold spin_prod in P2. cbn [mapM] in P2. apply bind_ok in P2 as (x & Ex & P2). apply bind_ok in P2 as (y & Ey & P2). injection P2 as <-. apply bind_ok in Ey as (z & Ez & Ey). injection Ey as <-. apply bind_ok in Ex as (x1 & X1 & Ex). injection Ex as <-. apply bind_ok in Ez as (z1 & Z1 & Ez). injection Ez as <-.
    unfold rot, spin_prod. cbn [nth mapM]. rewrite (sht_neg _ _ _ _ _ _ T Z1), X1. cbn [bind]. do 2 f_equal. clear. destruct z1; reflexivity. }
  rewrite P2'. cbn [bind]. rewrite (add_pure_rot _ _ _ _ _ _ _ A2). cbn [bind]. rewrite (isht_rot K 2 s lmax a2 m2 T HA ltac:(lia) (add_pure_two _ _ _ _ _ _ _ A2) M2). reflexivity.
Qed.

(** ** C70 *)
(** coefficients multiplied by a function of the multipole *)
Definition scale (lmax : Z) (f : Z -> F) (alm : list F) : list F := zipw (fun a l => a * f l) alm (ells lmax).
Definition root (l : Z) : F := fsqrt (fofZ (l * (l + 1))).
Definition root4 (l : Z) : F := fsqrt (fofZ ((l - 1) * l * (l + 1) * (l + 2))).
Lemma ells_range lmax i : (i < length (ells lmax))%nat -> (0 <= nth i (ells lmax) 0%Z <= lmax)%Z.
Proof.
  intro H. assert (IN : In (nth i (ells lmax) 0%Z) (ells lmax)) by (apply nth_In; exact H). unfold ells in IN at 2. apply in_flat_map in IN as (m & Hm & IN). apply in_seq in Hm. apply in_flat_map in IN as (l & Hl & IN). apply in_seq in Hl. cbn [In] in IN. lia.
Qed.
Lemma nth_fls lmax (f : Z -> F) l : (0 <= l <= lmax)%Z -> nth (Z.to_nat l) (fls lmax f) 0 = f l.
Proof.
  intro H. unfold fls. rewrite (nth_indep _ 0 (f (Z.of_nat 0))) by (rewrite map_length, seq_length; lia). rewrite (map_nth (fun l => f (Z.of_nat l))). rewrite seq_nth by lia. f_equal. lia.
Qed.
Lemma firstn_fls lmax (f : Z -> F) : firstn (Z.to_nat (lmax + 1)) (fls lmax f) = fls lmax f.
Proof. apply firstn_all2. unfold fls. rewrite map_length, seq_length. lia. Qed.
Lemma almxfl_scale lmax (f : Z -> F) alm : almxfl lmax alm (fls lmax f) = scale lmax f alm.
Proof.
  apply (list_eq_nth _ _ 0); unfold almxfl, scale; rewrite !length_zipw; [reflexivity|]. intros i Hi. rewrite !(nth_zipw _ _ _ i 0 0%Z 0) by lia. rewrite nth_fls by (apply ells_range; lia). reflexivity.
Qed.
Lemma nth_scale lmax (f : Z -> F) alm i : (i < length alm)%nat -> (i < n_alm lmax)%nat -> nth i (scale lmax f alm) 0 = nth i alm 0 * f (nth i (ells lmax) 0%Z).
Proof. intros H1 H2. unfold scale. rewrite (nth_zipw _ _ _ i 0 0%Z 0); [reflexivity | exact H1 | exact H2]. Qed.
Lemma scale_scale lmax (f g h : Z -> F) alm : (forall l, (0 <= l <= lmax)%Z -> f l * g l = h l) -> scale lmax g (scale lmax f alm) = scale lmax h alm.
Proof.
  intro H. apply (list_eq_nth _ _ 0); unfold scale; rewrite !length_zipw; [lia|]. intros i Hi. rewrite (nth_zipw _ _ _ i 0 0%Z 0) by (rewrite ?length_zipw; lia). rewrite !(nth_zipw _ _ _ i 0 0%Z 0) by lia. rewrite <- H by (apply ells_range; lia). ring.
Qed.
(** a square root on the non-negative integers *)
Definition is_root : Prop := (forall a b, (0 <= a)%Z -> (0 <= b)%Z -> fsqrt (fofZ (a * b)) = fsqrt (fofZ a) * fsqrt (fofZ b)) /\ (forall a, (0 < a)%Z -> fsqrt (fofZ a) <> 0) /\ fsqrt 0 = 0.
(** The B multipoles of a field with purified B: with the spin-1 and spin-2 maps of the first and second derivatives of
    the mask, l (l+1) ... times the purified multipole is the expansion of the second derivative of mask times
    harmonic function (binomial coefficients 1, 2, 1), each term analysed at its own spin *)
Theorem C70_weights K s lmax n mask am pe u alm m w1 w2 A2 A1 A0 : is_root -> alm_shape K -> map_shape K -> length u = 2%nat -> purify fsqrt K s lmax lmax n mask am pe true u = Ok (alm, m) ->
  isht K 1 s lmax [scale lmax (fun l => - root l) am; map (fun _ => 0) (scale lmax (fun _ => 0) am)] = Ok w1 -> isht K 2 s lmax [scale lmax root4 am; map (fun _ => 0) (scale lmax (fun _ => 0) am)] = Ok w2 ->
  sht K 2 s lmax n (map (vmul mask) u) = Ok A2 -> sht K 1 s lmax n (spin_prod w1 u) = Ok A1 -> sht K 0 s lmax n [nth 1 (spin_prod w2 u) []] = Ok A0 ->
  forall i, (i < n_alm lmax)%nat -> let l := nth i (ells lmax) 0%Z in
    (2 <= l)%Z -> root4 l * mg alm 1 i = root4 l * mg A2 1 i + fofZ 2 * root l * mg A1 1 i + mg A0 0 i.
Proof.
  intros (SM & SP & S0) HK HA L H W1 W2 E2 E1 E0 i Hi l Hl. unfold purify in H. rewrite E2 in H. cbv zeta in H. cbn [bind] in H.
  assert (WA : almxfl lmax am (fls lmax (fl1 fsqrt)) = scale lmax (fun l => - root l) am). { rewrite almxfl_scale. apply (list_eq_nth _ _ 0); unfold scale; rewrite !length_zipw; [reflexivity|]. intros j Hj. rewrite !(nth_zipw _ _ _ j 0 0%Z 0) by lia. unfold fl1, root. rewrite (Z.mul_comm (_ + 1)). reflexivity. }
  assert (ZZ : map (fun x => x * 0) (scale lmax (fun l => - root l) am) = map (fun _ => 0) (scale lmax (fun _ => 0) am)).
  { assert (G : forall (g : F -> F) v, (forall x, g x = 0) -> map g v = repeat 0 (length v)) by (intros g v Hg; induction v as [|x v IH]; [reflexivity|]; cbn [map length repeat]; rewrite Hg, IH; reflexivity).
    rewrite !G by (intro; ring). f_equal. unfold scale. rewrite !length_zipw. reflexivity. }
  rewrite WA, ZZ, W1 in H. cbn [bind] in H. rewrite E1 in H. cbn [bind] in H. apply bind_ok in H as (a1 & AA1 & H).
  assert (W2A : almxfl lmax (scale lmax (fun l => - root l) am) (fls lmax (fl3 fsqrt)) = scale lmax root4 am).
  { rewrite almxfl_scale. apply scale_scale. intros k Hk. unfold fl3, from2, root, root4. destruct (Z.ltb_spec k 2) as [Q|Q].
    - assert (K0 : k = 0%Z \/ k = 1%Z) by lia. replace ((k - 1) * k * (k + 1) * (k + 2))%Z with 0%Z by nia. change (fofZ 0 : F) with (0 : F). rewrite S0. ring.
    - replace ((k - 1) * k * (k + 1) * (k + 2))%Z with ((k * (k + 1)) * ((k + 2) * (k - 1)))%Z by ring. rewrite (SM (k * (k + 1)) ((k + 2) * (k - 1)))%Z by nia. ring. }
  rewrite W2A, W2 in H. cbn [bind] in H. apply bind_ok in H as (p2 & P2 & H). apply bind_ok in H as (a2 & AA2 & H). apply bind_ok in H as (m2 & M2 & H). injection H as <- <-.
  cbn [spin_prod nth] in E0. unfold spin_prod in P2. cbn [mapM] in P2. apply bind_ok in P2 as (x & Ex & P2). apply bind_ok in P2 as (y & Ey & P2). injection P2 as <-. rewrite E0 in Ey. cbn [bind] in Ey. injection Ey as <-.
  pose proof (sht_shaped _ _ _ _ _ _ _ HK HA E2) as S2. rewrite map_length, L in S2. pose proof (sht_shaped _ _ _ _ _ _ _ HK HA E1) as S1. cbn [spin_prod length] in S1. pose proof (sht_shaped _ _ _ _ _ _ _ HK HA E0) as S0'. cbn [length] in S0'.
  assert (B1 : forall (alms palm : mat) (fl : list F) r, add_pure pe true lmax fl alms palm = Ok r -> vadd (nth 1 alms []) (almxfl lmax (nth 1 palm []) (firstn (Z.to_nat (lmax + 1)) fl)) = Ok (nth 1 r [])).
  { intros alms palm fl r Hr. unfold add_pure in Hr. cbv zeta in Hr. apply bind_ok in Hr as (e & _ & Hr). apply bind_ok in Hr as (b & Eb & Hr). injection Hr as <-. exact Eb. }
  apply B1 in AA1, AA2. rewrite firstn_fls, almxfl_scale in AA1, AA2.
  assert (V : forall (a b r : list F), vadd a b = Ok r -> (i < length a)%nat -> (i < length b)%nat -> nth i r 0 = nth i a 0 + nth i b 0 /\ length r = length a).
  { intros a b r Hr Ha Hb. unfold vadd in Hr. destruct (Nat.eqb_spec (length a) (length b)); [|discriminate Hr]. injection Hr as <-. split; [apply nth_zipw; assumption | rewrite length_zipw; lia]. }
  assert (L21 : length (nth 1 A2 []) = n_alm lmax) by (apply (shaped_nth 2 _ A2 1 [] S2); lia). assert (L11 : length (nth 1 A1 []) = n_alm lmax) by (apply (shaped_nth 2 _ A1 1 [] S1); lia). assert (L00 : length (nth 0 A0 []) = n_alm lmax) by (apply (shaped_nth 1 _ A0 0 [] S0'); lia).
  cbn [nth] in AA2. destruct (V _ _ _ AA1) as [V1 LV1]; [lia | unfold scale; rewrite length_zipw; unfold n_alm in *; lia |]. destruct (V _ _ _ AA2) as [V2 _]; [lia | unfold scale; rewrite length_zipw; unfold n_alm in *; lia |].
  unfold mg. rewrite V2, V1. rewrite !nth_scale by lia. fold l. unfold fl2, fl4, from2. destruct (Z.ltb_spec l 2) as [Q|Q]; [lia|]. unfold root, root4.
  replace ((l + 2) * (l + 1) * l * (l - 1))%Z with ((l * (l + 1)) * ((l + 2) * (l - 1)))%Z by ring. replace ((l - 1) * l * (l + 1) * (l + 2))%Z with ((l * (l + 1)) * ((l + 2) * (l - 1)))%Z by ring. rewrite (SM (l * (l + 1)) ((l + 2) * (l - 1)))%Z by nia.
  assert (N1 : fsqrt (fofZ (l * (l + 1))) <> 0) by (apply SP; nia). assert (N2 : fsqrt (fofZ ((l + 2) * (l - 1))) <> 0) by (apply SP; nia). revert N1 N2. generalize (fsqrt (fofZ (l * (l + 1)))) (fsqrt (fofZ ((l + 2) * (l - 1)))). intros a b N1 N2. field. split; assumption.
Qed.
End PPu.

(** *** Examples *)
Lemma nth_neg (v : list Q) i : nth i (neg v) (qz 0) = fopp (nth i v (qz 0)).
Proof. unfold neg. assert (E : qz 0 = fopp (qz 0)) by (apply out_inj; vm_compute; reflexivity). rewrite E at 1. apply map_nth. Qed.
Lemma tab_neg n g : tab n (fun i => fopp (g i) : Q) = neg (tab n g).
Proof. unfold neg, tab. rewrite map_map. reflexivity. Qed.
Lemma toy_turns d : turns (toy d).
Proof.
  assert (N1 : forall n e (v : list Q), tab n (fun i => nth (i + e) (neg v) (qz 0)) = neg (tab n (fun i => nth (i + e) v (qz 0)))) by (intros n e v; rewrite <- tab_neg; apply tab_ext; intros i _; apply nth_neg).
  assert (N2 : forall n (v : list Q), tab n (fun i => nth i (neg v) (qz 0)) = neg (tab n (fun i => nth i v (qz 0)))) by (intros n v; rewrite <- tab_neg; apply tab_ext; intros i _; apply nth_neg).
  intros s lmax. repeat split.
  - destruct (two_comp m H0) as (a & b & ->). unfold rot. cbn [toy c_m2a nth map]. rewrite N1. reflexivity.
  - destruct (two_comp m H0) as (a & b & ->). unfold rot. cbn [toy c_a2m nth map]. rewrite N2. reflexivity.
  - intro v. cbn [toy c_m2a map]. rewrite N1. reflexivity.
  - intro m. cbn [toy c_a2m]. rewrite !map_map. apply map_ext. intro v. apply N2.
  - intro m. cbn [toy c_m2a]. rewrite !map_map. apply map_ext. intro v. apply N1.
Qed.
Lemma exsqrt_root : is_root exsqrt.
Proof.
  unfold is_root, exsqrt. split; [|split; [|reflexivity]].
  - intros a b _ _. apply fofZ_mul.
  - intros a H E. assert (P := fofZ_pos (F := Q) a H). rewrite E in P. vm_compute in P. discriminate P.
Qed.
Definition exu : mat := match exmap 2 1, exmap 3 2 with I1 a, I1 b => [a; b] | _, _ => [] end.
Definition exs : minfo Q := Hpx 2 (q 1 4).
(** B purified, and the turned map with E purified; the three terms of C70 for a coefficient with l = 2 *)
Example ex_turned :
  match purify exsqrt (toy 1) exs 2 2 1 exmask (firstn 12 exmask) false true exu, purify exsqrt (toy 1) exs 2 2 1 exmask (firstn 12 exmask) true false (rot exu) with
  | Ok (a, _), Ok (b, _) => outs b = outs (rot a) /\ outs a <> outs (rot a) | _, _ => False end.
Proof. vm_compute. split; [reflexivity | discriminate]. Qed.
Example ex_terms : exists alm m w1 w2 A2 A1 A0, purify exsqrt (toy 1) exs 2 2 0 exmask (firstn 12 exmask) false true exu = Ok (alm, m) /\
  isht (toy 1) 1 exs 2 [scale 2 (fun l => fopp (root exsqrt l)) (firstn 12 exmask); map (fun _ => qz 0) (scale 2 (fun _ => qz 0) (firstn 12 exmask))] = Ok w1 /\
  isht (toy 1) 2 exs 2 [scale 2 (root4 exsqrt) (firstn 12 exmask); map (fun _ => qz 0) (scale 2 (fun _ => qz 0) (firstn 12 exmask))] = Ok w2 /\
  sht (toy 1) 2 exs 2 0 (map (vmul exmask) exu) = Ok A2 /\ sht (toy 1) 1 exs 2 0 (spin_prod w1 exu) = Ok A1 /\ sht (toy 1) 0 exs 2 0 [nth 1 (spin_prod w2 exu) []] = Ok A0 /\
  nth 8 (ells 2) 0%Z = 2%Z /\ map out [mg alm 1 8; mg A2 1 8; mg A1 1 8; mg A0 0 8] <> map out [mg A2 1 8; mg A2 1 8; qz 0; qz 0].
Proof.
  do 7 eexists. split; [refine (from_ok_eq ([], []) _ _); vm_compute; reflexivity|]. do 5 (split; [apply (from_ok_eq []); vm_compute; reflexivity|]). split; [reflexivity|]. vm_compute. discriminate.
Qed.
Print Assumptions C69_rotation. Print Assumptions C70_weights.
