(** Concrete catalogues. *)
From Coq Require Import QArith Qcanon.
From Verif Require Import Base M_Utils L_Utils M_Field L_Field M_Cell L_Cell P_Field5 P_Field7 P_Cell P_Catalog P_Catalog2.
Local Open Scope nat_scope.
Notation Q := Qc_field.
Notation mat := (list (list Q)).
(** adjoint synthesis with given harmonics *)
Definition cat (Y : Z -> Z -> nat -> nat -> nat -> Q -> Q -> Q) (s lmax : Z) (vals : mat) (th ph : list Q) : mat :=
  tab (length vals) (fun e => tab (n_alm lmax) (fun i => sum (length vals) (fun c => sum (length th) (fun p => fmul (mg vals c p) (Y s lmax e c i (nth p th (qz 0)) (nth p ph (qz 0))))))).
Lemma cat_synthesis Y : synthesis (cat Y) Y.
Proof.
  intros s lmax nc n vals th ph [Lv Fv] Lt Lp. unfold cat. rewrite Lv, Lt. split.
  - split; [apply length_tab|]. apply Forall_forall. intros r Hr. apply (In_nth _ _ []) in Hr as (i & Hi & <-). rewrite length_tab in Hi. rewrite nth_tab by exact Hi. apply length_tab.
  - intros e i He Hi. unfold mg at 1. rewrite nth_tab by exact He. rewrite nth_tab by exact Hi. reflexivity.
Qed.
(** harmonics up to l = 1 for "pi = 1": constant at m = 0, a rational point of the circle at m = 1 *)
Definition near (th : Q) : bool := fleb th (q 1 2).
Definition Y0 (_ _ : Z) (_ _ i : nat) (th _ : Q) : Q :=
  match i with 0 => q 1 2 | 2 => q 1 2 | 4 => if near th then q 3 10 else q 1 2 | 5 => if near th then q 2 5 else qz 0 | _ => qz 0 end.
Definition p1 : mat := [[q 1 4; q 3 4; qz 1]; [qz 0; q 1 2; qz 1]].
Definition w1 : list Q := [qz 1; qz 2; q 1 2].
Definition v1 : mat := [[qz 3; qz (-1); qz 2]].
Definition gd : gfield Q := GField 0 0 0 None None None (qz 0) (qz 0) false [] None.
Notation catalog Y pi := (catalog_new (pi : Q) (cat Y)).
Notation clustering Y pi := (clustering_new (pi : Q) (cat Y)).
Definition cat1 := from_ok gd (catalog Y0 (qz 1) true p1 w1 (Some v1) 1 None None BNone false false).
Definition cell1 := from_ok [] (compute_coupled_cell true cat1 cat1).
Example ex_add0 l : l <= 1 -> addition (qz 1) Y0 0 1 1 l.
Proof.
  intros Hl e c e' c' th ph He Hc He' Hc'. assert (e = 0) by lia. assert (c = 0) by lia. assert (e' = 0) by lia. assert (c' = 0) by lia. subst. unfold pair, P_Catalog.Ys, Y0. destruct (near th); destruct l as [|[|l]]; try lia; apply out_inj; vm_compute; reflexivity.
Qed.
(** the hypotheses of C41_noise, C41_scaling, C42_pairs for three sources; the spectrum at l = 1 with and without the self pairs *)
Example ex_cat1 : catalog Y0 (qz 1) true p1 w1 (Some v1) 1 None None BNone false false = Ok cat1 /\ compute_coupled_cell true cat1 cat1 = Ok cell1 /\
  (out (g_Nw cat1), out (g_Nf cat1), outs cell1, outs (from_ok [] (compute_coupled_cell false cat1 cat1))) = ((21 # 16)%Q, (7 # 2)%Q, [[ -5 # 2; -21 # 10]%Q], [[1; 7 # 5]%Q]).
Proof. split; [apply from_ok_eq; vm_compute; reflexivity|]. split; [apply from_ok_eq; vm_compute; reflexivity|]. vm_compute. reflexivity. Qed.
(** spin 2, for "pi = 3/16": harmonics vanish at l = 0 and turn with the source at l = 1 *)
Definition Y2 (_ _ : Z) (e c i : nat) (th _ : Q) : Q :=
  let '(x, y) := if near th then (q 3 5, q 4 5) else (qz 1, qz 0) in
  let '(x, y) := match e, c with 0, 0 => (x, y) | 0, _ => (fopp y, x) | _, 0 => (y, fopp x) | _, _ => (x, y) end in
  match i with 4 => x | 5 => y | _ => qz 0 end.
Definition p2 : mat := [[q 1 8; q 1 6]; [qz 0; q 1 4]].
Definition w2 : list Q := [qz 1; qz 2].
Definition v2 : mat := [[qz 1; qz 1]; [qz 0; qz 2]].
Definition cat2 := from_ok gd (catalog Y2 (q 3 16) true p2 w2 (Some v2) 1 None None BNone false false).
Definition cell2 := from_ok [] (compute_coupled_cell true cat2 cat2).
Example ex_add2 : addition (q 3 16) Y2 2 2 1 1.
Proof.
  intros e c e' c' th ph He Hc He' Hc'. unfold pair, P_Catalog.Ys, Y2. destruct (near th); destruct e as [|[|e]]; try lia; destruct c as [|[|c]]; try lia; destruct e' as [|[|e']]; try lia; destruct c' as [|[|c']]; try lia; apply out_inj; vm_compute; reflexivity.
Qed.
Example ex_low e c e' c' th ph th' ph' : pair Y2 2 1 0 e c e' c' th ph th' ph' = qz 0.
Proof.
  unfold pair, spectrum, re, im. change (sum 0 _) with (qz 0). unfold P_Catalog.Ys. rewrite !nth_tab by (vm_compute; lia). change (2 * L_Cell.pos 1 0 0)%nat with 0%nat.
  assert (E : forall e c th ph, Y2 2 (Z.of_nat 1) e c 0 th ph = qz 0). { intros a b t p. unfold Y2. destruct (near t); destruct a, b; reflexivity. }
  rewrite !E. apply out_inj. vm_compute. reflexivity.
Qed.
(** C42_low_multipoles_refuted: -Nf at l = 0 *)
Example ex_cat2 : catalog Y2 (q 3 16) true p2 w2 (Some v2) 1 None None BNone false false = Ok cat2 /\ compute_coupled_cell true cat2 cat2 = Ok cell2 /\ g_spin cat2 = 2%Z /\
  (out (g_Nf cat2), outs cell2) = ((14)%Q, [[ -14; 8 # 3]; [0; 0]; [0; 0]; [ -14; 8 # 3]]%Q).
Proof. split; [apply from_ok_eq; vm_compute; reflexivity|]. split; [apply from_ok_eq; vm_compute; reflexivity|]. split; [vm_compute; reflexivity|]. vm_compute. reflexivity. Qed.
(** clustering: three sources, two randoms *)
Definition wr1 : list Q := [qz 3; qz 4].
Definition clu1 := from_ok gd (clustering Y0 (qz 1) true p1 w1 [[q 1 8; qz 1]; [qz 0; qz 0]] wr1 1 false).
Definition cellc := from_ok [] (compute_coupled_cell true clu1 clu1).
Example ex_clu1 : clustering Y0 (qz 1) true p1 w1 [[q 1 8; qz 1]; [qz 0; qz 0]] wr1 1 false = Ok clu1 /\ compute_coupled_cell true clu1 clu1 = Ok cellc /\ (forall th ph, Y0 0 1 0 0 0 th ph = q 1 2) /\
  (out (g_Nw clu1), out (g_Nf clu1), outs cellc) = ((25 # 16)%Q, (23 # 8)%Q, [[ -23 # 8; -341 # 120]]%Q) /\ map out (match g_alm clu1 with Some [r] => r | _ => [] end) = [0; 0; 0; 0; 1 # 10; -1 # 5]%Q.
Proof. split; [apply from_ok_eq; vm_compute; reflexivity|]. split; [apply from_ok_eq; vm_compute; reflexivity|]. split; [reflexivity|]. split; vm_compute; reflexivity. Qed.
(** rejected: wrong shape, colatitude beyond pi; a field without maps has no spectrum; compute_full_master *)
Definition is_ve {A} (x : res A) : bool := match x with Exn ValueError => true | _ => false end.
Definition is_ae {A} (x : res A) : bool := match x with Exn AttributeError => true | _ => false end.
Definition master f1 f2 := compute_full_master exsqrt (fun _ : unit => Ok tt) (fun _ m => Ok m) (toy 0) expar true f1 f2 (Some tt) None None None.
Example ex_rejected :
  is_ve (catalog Y0 (qz 1) true [nth 0 p1 []] w1 (Some v1) 1 None None BNone false false) = true /\
  is_ve (catalog Y0 (qz 1) true [nth 1 p1 []; map (fmul (qz 2)) (nth 0 p1 [])] w1 (Some v1) 1 None None BNone false false) = false /\
  is_ve (catalog Y0 (qz 1) true [map (fmul (qz 2)) (nth 0 p1 []); nth 1 p1 []] w1 (Some v1) 1 None None BNone false false) = true /\
  is_ve (catalog Y0 (qz 1) true p1 w1 None 1 None None BNone false false) = true /\
  is_ve (compute_coupled_cell true (from_ok gd (catalog Y0 (qz 1) true p1 w1 None 1 None (Some 2%Z) BNone false false)) cat1) = true /\
  is_ve (master cat1 cat1) = true /\ is_ae (master clu1 clu1) = true.
Proof. repeat split; vm_compute; reflexivity. Qed.
Print Assumptions C41_noise. Print Assumptions C41_scaling. Print Assumptions C41_weighted. Print Assumptions C41_degrees. Print Assumptions C41_clustering_noise. Print Assumptions C41_monopole. Print Assumptions C41_clustering_scaling.
Print Assumptions C41_full_master_refuted. Print Assumptions C41_full_master_lite_refuted. Print Assumptions C42_pairs. Print Assumptions C42_low_multipoles_refuted. Print Assumptions C42_same_object. Print Assumptions C42_maps. Print Assumptions C42_clustering.
Print Assumptions C43_order. Print Assumptions C43_exchange. Print Assumptions C43_bilinear.
