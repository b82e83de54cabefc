(** Concrete cases for the theorems of P_Apod.v and P_Apod3.v: HEALPix maps of 12 pixels with rounded coordinates and
    crude rational stand-ins for the functions of libm that satisfy the laws the theorems ask for. *)
From Coq Require Import String QArith Qcanon.
From Verif Require Import Base M_Utils L_Utils M_Field M_Apod L_Apod P_Apod P_Apod2 M_ApodPar P_Apod3.
Open Scope Z_scope.

Definition truncQ (x : Qc_field) : Z := Z.quot (Qnum (this x)) (Zpos (Qden (this x))).
Definition piQ : Qc_field := q 22 7.
Definition toy : libm Qc_field := @Libm Qc_field piQ (fun _ => f0) (fun x => f1 - fofZ 2 * (x / piQ * (x / piQ)))%F (fun x => x) (fun x => piQ / fofZ 2 * (f1 - x))%F (fun x => x) (fun _ => f1) truncQ.
Definition toy_centre (nside ip : Z) : centre Qc_field :=
  let xy := nth (Z.to_nat ip) [(q 1 2, q 1 2); (q (-1) 2, q 1 2); (q (-1) 2, q (-1) 2); (q 1 2, q (-1) 2);
                               (qz 1, qz 0); (qz 0, qz 1); (qz (-1), qz 0); (qz 0, qz (-1));
                               (q 1 2, q 1 2); (q (-1) 2, q 1 2); (q (-1) 2, q (-1) 2); (q 1 2, q (-1) 2)] (qz 0, qz 0) in
  @Centre Qc_field (fst xy) (snd xy) (if ip <? 4 then q 2 3 else if ip <? 8 then qz 0 else q (-2) 3)
    (if (ip <? 4)%Z then piQ / fofZ 4 + fofZ ip * piQ / fofZ 2 else if (ip <? 8)%Z then fofZ (ip - 4) * piQ / fofZ 2 else piQ / fofZ 4 + fofZ (ip - 8) * piQ / fofZ 2)%F.
Definition toyK : calc Qc_field := @Calc Qc_field true (fun _ _ _ m => m) (fun _ _ _ a => a).
Definition one_hole : list Qc_field := tab 12 (fun p => if Nat.eqb p 5 then qz 0 else qz 1).

Section W.
Local Open Scope F_scope.
Add Field FfPAp6 : (fth Qc_field).
Lemma piQ_pos : 0 < piQ. Proof. vm_compute. reflexivity. Qed.
Lemma two_neq : (fofZ 2 : Qc_field) <> 0. Proof. intros E. apply (f_equal out) in E. vm_compute in E. discriminate E. Qed.
Lemma toy_c2 (x : Qc_field) : window toy true x = x * x.
Proof.
  unfold window, toy. cbn [m_cos m_pi]. assert (P := fpos_neq _ piQ_pos). assert (T := two_neq). generalize dependent (fofZ 2 : Qc_field). generalize dependent piQ. intros p Hp t Ht. field. split; assumption.
Qed.
Lemma toy_c1 (x : Qc_field) : window toy false x = x.
Proof.
  unfold window, toy. cbn [m_sin m_pi]. assert (P := fpos_neq _ piQ_pos). assert (T := two_neq). generalize dependent (fofZ 2 : Qc_field). generalize dependent piQ. intros p Hp t Ht. field. split; assumption.
Qed.
Lemma toy_laws : win_laws toy.
Proof.
  constructor.
  - intros x A B. cbn [m_sqrt toy]. split; [exact A | apply flt_le; exact B].
  - intros x A _. exact A.
  - intros [] x A B; rewrite ?toy_c1, ?toy_c2; [|split; assumption]. split; [apply fsqr_nonneg|].
    assert (H : x * x <= x * 1) by (apply fle_mul_l; assumption). eapply fle_trans; [exact H|]. assert (E : x * 1 = x) by ring. rewrite E. exact B.
  - intros [] x A B; rewrite ?toy_c1, ?toy_c2; [apply fmul_pos; exact A | exact A].
Qed.
End W.
Definition hole_c2 : list Qc_field := from_ok [] (mask_apodization toy toy_centre toyK one_hole (qz 100) (Some C2)).
Example hole_c2_ok : mask_apodization toy toy_centre toyK one_hole (qz 100) (Some (ty true)) = Ok hole_c2.
Proof. apply from_ok_eq. vm_compute. reflexivity. Qed.
Example hole_c2_values : map out hole_c2 = map out [q 6561 10000; q 6561 10000; qz 1; qz 1; qz 1; qz 0; qz 1; qz 1; q 6561 10000; q 6561 10000; qz 1; qz 1].
Proof. vm_compute. reflexivity. Qed.
(** the hypotheses of C58_bounds hold *)
Example bounds_case : length hole_c2 = 12%nat /\ forall p, (p < 12)%nat -> (nth p one_hole f0 <= f0 -> nth p hole_c2 f0 = nth p one_hole f0)%F /\ (f0 < nth p one_hole f0 -> f0 <= nth p hole_c2 f0 /\ nth p hole_c2 f0 <= nth p one_hole f0)%F.
Proof. apply (C58_bounds toy toy_centre toyK one_hole (qz 100) true hole_c2 toy_laws); [vm_compute; reflexivity | exact hole_c2_ok]. Qed.
Lemma nside_one (nside : Z) : Z.of_nat 12 = (12 * nside * nside)%Z -> (1 <= nside)%Z -> nside = 1%Z.
Proof. intros. nia. Qed.
(** the hole is pixel 5 *)
Lemma hole_only (q : nat) : (q < length one_hole)%nat -> (nth q one_hole f0 <= f0)%F -> q = 5%nat.
Proof. intros H. do 12 (destruct q as [|q]; [intros Hq; first [reflexivity | exfalso; vm_compute in Hq; discriminate Hq]|]). exfalso. change (length one_hole) with 12%nat in H. lia. Qed.
(** pixel 0 is near the hole and keeps a positive value, pixel 2 is too far to be changed *)
Example positive_case : (f0 < nth 0 hole_c2 f0)%F.
Proof.
  apply (C58_positive toy toy_centre toyK one_hole (qz 100) true hole_c2 0 toy_laws); [vm_compute; reflexivity | exact hole_c2_ok | change (length one_hole) with 12%nat; lia | vm_compute; reflexivity |].
  intros nside p HN H1 Hp Mp. apply (nside_one nside HN) in H1. subst nside. rewrite (hole_only p Hp Mp). vm_compute. reflexivity.
Qed.
Example far_case : nth 2 hole_c2 f0 = nth 2 one_hole f0.
Proof.
  apply (C58_far toy toy_centre toyK one_hole (qz 100) true hole_c2 2); [vm_compute; reflexivity | vm_compute; reflexivity | exact hole_c2_ok | change (length one_hole) with 12%nat; lia |].
  intros nside p HN H1 Hp Mp. apply (nside_one nside HN) in H1. subst nside. rewrite (hole_only p Hp Mp). vm_compute. reflexivity.
Qed.
(** the pixels found by a disc query do not depend on the size of the list *)
Lemma query_cap {F : ofield} (M : libm F) (nside : Z) (c ph r : F) (cap1 cap2 : Z) (d1 d2 : list Z) :
  query_disc M nside c ph r cap1 = Ok d1 -> query_disc M nside c ph r cap2 = Ok d2 -> d1 = d2.
Proof.
  assert (IR : forall iz dphi l1 l2, in_ring M nside iz ph dphi cap1 = Ok l1 -> in_ring M nside iz ph dphi cap2 = Ok l2 -> l1 = l2).
  { intros iz dphi l1 l2. unfold in_ring. destruct (ring_geom nside iz) as [[i1 i2] ks]. cbv zeta. destruct (fabs (dphi - m_pi M) <? dec 1 1000000)%F.
    - destruct (cap1 <? _); [discriminate|]. destruct (cap2 <? _); [discriminate|]. congruence.
    - match goal with |- (if ?b then _ else _) = _ -> _ => destruct b end; (destruct (cap1 <? _); [discriminate|]; destruct (cap2 <? _); [discriminate|]; congruence). }
  unfold query_disc. match goal with |- (if ?b then _ else _) = _ -> _ => destruct b; [discriminate|] end. cbv zeta.
  match goal with |- foldM _ _ ?L = _ -> _ => generalize L end. generalize (@nil Z) at 1 2. intros acc L. revert acc.
  induction L as [|iz L IH]; intros acc; cbn [foldM]; [congruence|].
  match goal with |- bind ?e1 _ = _ -> bind ?e2 _ = _ -> _ => assert (ST : forall a1 a2, e1 = Ok a1 -> e2 = Ok a2 -> a1 = a2) end.
  { intros a1 a2. assert (ADD : forall dphi, (do l <- in_ring M nside iz ph dphi cap1; (if cap1 <? Z.of_nat (length acc + length l) then Exn RuntimeError else Ok (acc ++ l))) = Ok a1 ->
        (do l <- in_ring M nside iz ph dphi cap2; (if cap2 <? Z.of_nat (length acc + length l) then Exn RuntimeError else Ok (acc ++ l))) = Ok a2 -> a1 = a2).
    { intros dphi H1 H2. apply bind_ok in H1 as (l1 & E1 & H1). apply bind_ok in H2 as (l2 & E2 & H2). rewrite (IR iz dphi l1 l2 E1 E2) in *.
      destruct (cap1 <? _); [discriminate|]. destruct (cap2 <? _); [discriminate|]. congruence. }
    destruct (c =? f1)%F.
    - match goal with |- (if ?b then _ else _) = _ -> _ => destruct b; [congruence|] end. apply ADD.
    - match goal with |- (if ?b then _ else _) = _ -> _ => destruct b; [apply ADD|] end.
      match goal with |- (if ?b then _ else _) = _ -> _ => destruct b; [congruence|] end. apply ADD. }
  intros H1 H2. apply bind_ok in H1 as (a1 & E1 & H1). apply bind_ok in H2 as (a2 & E2 & H2). rewrite <- (ST a1 a2 E1 E2) in H2. apply (IH a1 H1 H2).
Qed.
Lemma toy_complete : complete toy toy_centre (Z.of_nat 1) (qz 100) 0.
Proof.
  intros cap disc p Q Hp D. assert (Q2 : query_disc toy (Z.of_nat 1) (v_z (toy_centre (Z.of_nat 1) (Z.of_nat 0))) (v_phi (toy_centre (Z.of_nat 1) (Z.of_nat 0))) (dec 6 5 * radians toy (qz 100))%F 12 = Ok [0;1;2;3;4;5;6;7;10]) by (vm_compute; reflexivity).
  rewrite (query_cap toy _ _ _ _ _ _ _ _ Q Q2). change (Z.of_nat 1) with 1%Z in Hp. clear Q Q2.
  do 12 (destruct p as [|p]; [first [vm_compute; tauto | exfalso; vm_compute in D; discriminate D]|]). lia.
Qed.
Lemma hole_near : (dist2 toy_centre (Z.of_nat 1) 0 5 < thr toy (qz 100))%F /\ (f0 < dist2 toy_centre (Z.of_nat 1) 0 5)%F /\ (- f1 <= m_cos toy (radians toy (qz 100)))%F /\ (f0 < nth 0 one_hole f0)%F /\ (nth 5 one_hole f0 <= f0)%F /\ (f0 < qz 100)%F.
Proof. repeat split; vm_compute; reflexivity. Qed.
Example nearest_case : nth 0 hole_c2 f0 = (nth 0 one_hole f0 * window toy true (m_sqrt toy (dist2 toy_centre (Z.of_nat 1) 0 5 / thr toy (qz 100))))%F.
Proof.
  destruct hole_near as (H1 & H2 & H3 & H4 & H5 & H6).
  assert (L0 : (0 < length one_hole)%nat) by (change (length one_hole) with 12%nat; lia). assert (L5 : (5 < length one_hole)%nat) by (change (length one_hole) with 12%nat; lia).
  refine (C58_nearest toy toy_centre toyK one_hole (qz 100) true hole_c2 0 5 1 H6 H3 hole_c2_ok eq_refl toy_complete L0 L5 H4 H5 _ H2 H1).
  intros r Hr Mr. rewrite (hole_only r Hr Mr). apply fle_refl.
Qed.
(** a zero scale, a negative one, a map of a size that is not a HEALPix one *)
Lemma one_hole_size : size_ok one_hole.
Proof. exists 0%nat. split; [lia | reflexivity]. Qed.
Example zero_scale_case : mask_apodization toy toy_centre toyK one_hole f0 (Some (ty true)) = Ok one_hole.
Proof. apply C59_zero_scale. exact one_hole_size. Qed.
Example negative_scale_case : mask_apodization toy toy_centre toyK one_hole (qz (-1)) (Some Smooth) = Exn RuntimeError.
Proof. apply C59_negative_scale; [exact one_hole_size | vm_compute; reflexivity]. Qed.
Example wrong_size_case : mask_apodization toy toy_centre toyK [qz 1; qz 1] (qz 1) (Some C1) = Exn RuntimeError.
Proof. apply C59_wrong_size. intros [k [_ E]]. cbn [length] in E. assert (0 < 2 ^ Z.of_nat k)%Z by (apply Z.pow_pos_nonneg; lia). nia. Qed.
(** the discs of the Smooth method *)
Example smooth_case : exists o, nmt_apodize_mask toy toy_centre 1 one_hole (qz 40) (Some Smooth) = Ok o /\ map out o = map out (tab 12 (fun p => if Nat.eqb p 7 then qz 1 else qz 0)).
Proof. apply ex_ok. vm_compute. reflexivity. Qed.
(** every schedule gives the same apodised mask *)
Definition hole_smooth : list Qc_field := from_ok [] (nmt_apodize_mask toy toy_centre 1 one_hole (qz 40) (Some Smooth)).
Lemma hole_smooth_ok : nmt_apodize_mask toy toy_centre 1 one_hole (qz 40) (Some Smooth) = Ok hole_smooth.
Proof. apply from_ok_eq. vm_compute. reflexivity. Qed.
Lemma one_hole_len : Z.of_nat (length one_hole) = (12 * 1 * 1)%Z.
Proof. reflexivity. Qed.
Example schedule_case (r : res (list Qc_field)) : par_apodize toy toy_centre 1 one_hole (qz 40) (Some Smooth) r <-> r = Ok hole_smooth.
Proof. exact (proj1 (C60_curved toy toy_centre 1 one_hole (qz 40) (Some Smooth) one_hole_len) hole_smooth hole_smooth_ok r). Qed.
