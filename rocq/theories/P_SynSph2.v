(** Concrete cases of C93, and a case where a stronger claim fails. *)
From Coq Require Import QArith Qround Qcanon.
From Verif Require Import Base M_Utils L_Utils M_Field L_Field L_Field2 P_Utils P_Field P_Field2 P_Field3 P_Field4 P_Field5 P_Field6 P_Field7 M_Cell M_SynSph P_SynSph.
Local Open Scope nat_scope.
Lemma info_rect {F : ofield} fourpi fsqrt eigh np_inv K p (a : fargs F) f k rows fth fph nxf wts lm ang : field_new fourpi fsqrt eigh np_inv K p a = Ok f -> a_mask22 a = None -> a_mask12 a = None -> a_mask a = I2 k rows -> a_wcs a = Wcs fth fph nxf wts lm ang ->
  f_info f = Car (length rows) k nxf fth fph wts.
Proof.
  intros H E1 E2 E3 E4. rewrite new_staged in H. unfold staged in H. apply bind_ok in H as (h & Eh & H). assert (Q : h_s h = Car (length rows) k nxf fth fph wts).
  { unfold head_of in Eh. rewrite E1, E2, E3, E4 in Eh. cbn [weights is_some orb bind map_info] in Eh. apply bind_ok in Eh as (mk & _ & Eh). cbn [bind] in Eh. cbv zeta in Eh. destruct (_ || _)%bool in Eh; [discriminate Eh|]. apply bind_ok in Eh as (bm & _ & Eh). injection Eh as <-. reflexivity. }
  rewrite <- Q. destruct (a_maps a) as [im|].
  - apply bind_ok in H as ([[spin maps] tm] & Eb & H). apply bind_ok in H as ([[[m mu] iM] als] & Ec & H). unfold alms_of in H. destruct (L_Field2.pure a).
    + apply bind_ok in H as (am & Ea & H). apply bind_ok in H as ([alm pm] & Ep & H). apply bind_ok in H as (at1 & _ & H). injection H as <-. reflexivity.
    + apply bind_ok in H as (alm & Ea & H). apply bind_ok in H as (at1 & _ & H). injection H as <-. reflexivity.
  - destruct (a_spin a); [|discriminate H]. destruct (_ && _)%bool; [discriminate H|]. injection H as <-. reflexivity.
Qed.
Lemma outs_inj (x y : mat) : outs x = outs y -> x = y.
Proof.
  assert (V : forall a b : list Q, map out a = map out b -> a = b) by (induction a as [|u a IH]; intros [|v b] H; try discriminate H; [reflexivity|]; cbn [map] in H; injection H as H1 H2; rewrite (out_inj u v), (IH b) by assumption; reflexivity).
  revert y. induction x as [|u x IH]; intros [|v y] H; try discriminate H; [reflexivity|]. unfold outs in H. cbn [map] in H. injection H as H1 H2. rewrite (V _ _ H1), (IH y) by exact H2. reflexivity.
Qed.

(** ** A concrete case: a rectangular map of 3 by 4 pixels with both axes reversed, one scalar field with a beam *)
Definition qfloor (x : Q) : Z := Qround.Qfloor (out x).
Definition qround (x : Q) : Z := qfloor (fadd x (q 1 2)).
Definition wts3 (n : nat) : list Q := repeat (qz 1) n.
Definition exsky : sky Q := Rect (qz (-90)) (qz 90) (qz 0) (qz (-90)).
Definition excl : mat := [[qz 4; qz 2]].
Definition exbeam : mat := [[qz 1; q 1 2]].
(** two outcomes: the squares of the coefficients have the right means *)
Definition exdraw (w : bool) : mat := [[if w then qz 2 else qz (-2); qz 0; if w then qz 2 else qz 0; qz 0; qz 1; qz (-1)]].
Definition exmean (f : bool -> Q) : Q := fmul (q 1 2) (fadd (f true) (f false)).
Definition exsyn (w : bool) : res (list (imap Q)) := synfast (q 22 7) qround qfloor wts3 (fun _ _ => exdraw w) (toy 0) exsky excl [0%Z] (Some exbeam) None.
Definition exones : imap Q := I2 4 (repeat (repeat (qz 1) 4) 3).
Definition exfield (w : bool) : fargs Q := FArgs exones None None (Some (from_ok [] (exsyn w))) (Some 0%Z) TNone BNone false false (Some 2%Z) (Some 2%Z) None (Wcs true true 4 (wts3 3) 2 []) (Some 1%Z) (Some 1%Z) false false.
Definition newp := field_new (fmul (qz 4) (q 22 7)) exsqrt exeigh exinv.
Definition exres (w : bool) : nfield Q := from_ok dummy (newp (toy 0) expar (exfield w)).
Definition excell (w : bool) : mat := from_ok [] (compute_coupled_cell true (of_map (exres w)) (of_map (exres w))).
Definition exs : minfo Q := Car 3 4 4 true true (wts3 3).
Add Field QfC93 : (fth Qc_field).
Example C93_case : average exmean /\ sky_info (q 22 7) qround qfloor wts3 exsky = Ok (exs, 2%Z) /\ last_ell excl 2 = 1%Z /\ (forall w, shaped 1 (n_alm 1) (exdraw w)) /\ drawn exmean 1 1 excl exdraw /\
  (forall w, exsyn w = Ok (from_ok [] (exsyn w))) /\ (forall w, field_for (exfield w) [0%Z] 0 (from_ok [] (exsyn w)) /\ newp (toy 0) expar (exfield w) = Ok (exres w) /\ f_info (exres w) = exs /\ f_lmax (exres w) = 1%Z) /\
  (forall w, let B := smoothed 1 (exdraw w) [0%Z] (Some exbeam) 0 in c_m2a (toy 0) 0 exs 1 (c_a2m (toy 0) 0 exs 1 B) = B) /\ (forall w, compute_coupled_cell true (of_map (exres w)) (of_map (exres w)) = Ok (excell w)) /\
  out (exmean (fun w => mg (excell w) 0 1)) = (1 # 2)%Q /\ map (fun w => match exsyn w with Ok [I2 4 rows] => map (map out) rows | _ => [] end) [true] = [[[0; 0; 0; 0]; [0; 0; -(1 # 2); 1 # 2]; [0; 1; 0; 2]]]%Q.
Proof.
  assert (EI : sky_info (q 22 7) qround qfloor wts3 exsky = Ok (exs, 2%Z)).
  { pose proof (from_ok_eq (Hpx 0 (qz 0), 0%Z) (sky_info (q 22 7) qround qfloor wts3 exsky)) as H. specialize (H ltac:(vm_compute; reflexivity)). rewrite H. set (r := from_ok _ _) in *. assert (R : r = (fst r, 2%Z)) by (transitivity (fst r, snd r); [apply surjective_pairing | f_equal; vm_compute; reflexivity]). rewrite R in H |- *. f_equal. }
  assert (ES : forall w, exsyn w = Ok (from_ok [] (exsyn w))) by (intros []; apply from_ok_eq; vm_compute; reflexivity).
  assert (EN : forall w, newp (toy 0) expar (exfield w) = Ok (exres w)) by (intros []; unfold exres; apply from_ok_eq; vm_compute; reflexivity).
  split; [|split; [|split; [|split; [|split; [|split; [|split; [|split; [|split; [|split]]]]]]]]].
  - split; [|split]; unfold exmean; intros; [rewrite !H; reflexivity | ring | ring].
  - exact EI.
  - reflexivity.
  - intros []; split; try reflexivity; repeat constructor.
  - intros i j k Hi Hj Hk. assert (i = 0)%nat as -> by lia. assert (j = 0)%nat as -> by lia. change (n_alm 1) with 6%nat in Hk. do 6 (destruct k as [|k]; [apply out_inj; vm_compute; reflexivity|]). lia.
  - exact ES.
  - intro w. split; [|split; [|split]].
    + unfold field_for. split; [|split].
      * assert (FR : Forall rect (from_ok [] (exsyn w))) by (pose proof (ES w) as X; revert X; generalize (from_ok [] (exsyn w)); intros l X; unfold exsyn in X; eapply synfast_rect; exact X). split; [repeat constructor|]. split; [intros y Hy; discriminate Hy|]. split; [intros y Hy; discriminate Hy|]. split; [intros y Hy; rewrite <- (f_equal (fun o => match o with Some v => v | None => [] end) Hy : from_ok [] (exsyn w) = y); exact FR | intros y Hy; discriminate Hy].
      * repeat constructor.
      * split; [reflexivity|]. split; [reflexivity|]. split; [|repeat split].
        change (Some (from_ok [] (exsyn w)) = Some (firstn 1 (from_ok [] (exsyn w)))). assert (L1 : length (from_ok [] (exsyn w)) = 1%nat) by (destruct w; vm_compute; reflexivity). revert L1. generalize (from_ok [] (exsyn w)). intros [|l0 [|l1 ll]] L1; try discriminate L1. reflexivity.
    + apply EN.
    + apply (info_rect (fmul (qz 4) (q 22 7)) exsqrt exeigh exinv (toy 0) expar (exfield w) (exres w) 4 (repeat (repeat (qz 1) 4) 3) true true 4 (wts3 3) 2%Z [] (EN w)); reflexivity.
    + destruct w; vm_compute; reflexivity.
  - intros []; cbv zeta; apply outs_inj; vm_compute; reflexivity.
  - intros []; unfold excell; apply from_ok_eq; vm_compute; reflexivity.
  - vm_compute. reflexivity.
  - vm_compute. reflexivity.
Qed.
(** only the length of the first beam is checked: a shorter beam of a later field is accepted, and taken to vanish beyond its end (see [C93_maps]); the same beams
    in the other order are refused *)
Definition exmany : mat := [[qz 4; qz 2]; [qz 0; qz 0]; [qz 4; qz 2]].
Lemma is_ve {A} (x : res A) : match x with Exn ValueError => true | _ => false end = true -> x = Exn ValueError.
Proof. destruct x as [|[]|]; intro H; try discriminate H; reflexivity. Qed.
Theorem C93_short_beam_refuted : exists K x cls spins b maps, synfast (q 22 7) qround qfloor wts3 (fun _ _ => exdraw true ++ exdraw true) K x cls spins (Some b) None = Ok maps /\
  (exists s lm, sky_info (q 22 7) qround qfloor wts3 x = Ok (s, lm) /\ (Z.of_nat (length (nth 1 b [])) <= last_ell cls lm)%Z) /\ synfast (q 22 7) qround qfloor wts3 (fun _ _ => exdraw true ++ exdraw true) K x cls spins (Some (rev b)) None = Exn ValueError.
Proof.
  exists (toy 0), (Healpix 2), exmany, [0%Z; 0%Z], [[qz 1; qz 1]; [qz 1]]. eexists. split; [apply (from_ok_eq []); vm_compute; reflexivity|]. split.
  - eexists _, 5%Z. split; [reflexivity | vm_compute; discriminate].
  - apply is_ve. vm_compute. reflexivity.
Qed.
Print Assumptions C93_short_beam_refuted. Print Assumptions C93_case.
