(** Concrete cases of the properties of fields, and cases where stronger claims fail. *)
From Coq Require Import QArith Qcanon.
From Verif Require Import Base M_Utils L_Utils M_Field L_Field L_Field2 P_Utils P_Field P_Field2 P_Field3 P_Field4 P_Field5 P_Field6.
Local Open Scope nat_scope.
Notation Q := Qc_field.
Notation mat := (list (list Q)).
(** transforms for the examples: the coefficients are the values of the first pixels (after moving them by [d]) *)
Definition toy (d : nat) : calc Q :=
  Calc false (fun _ _ lmax m => map (fun v => tab (n_alm lmax) (fun i => nth (i + d) v (qz 0))) m) (fun _ s _ a => map (fun v => tab (full s) (fun q => nth q v (qz 0))) a).
Definition exmask : list Q := tab 48 (fun i => if Nat.eqb i 5 then qz 0 else if Nat.eqb i 7 then q 1 2 else qz 1).
Definition exmap (a b : Z) : imap Q := I1 (tab 48 (fun i => qz ((a * Z.of_nat i + b) mod 7)%Z)).
Definition ext1 : imap Q := I1 (tab 48 (fun i => qz (Z.of_nat i mod 3))).
Definition ext2 : imap Q := I1 (tab 48 (fun i => fmul (q 3 4) (qz (Z.of_nat i mod 3)))).
Definition exeigh (M : mat) : list Q * mat :=
  match M with [_] => ([mg M 0 0], [[qz 1]]) | _ => ([qz 0; fadd (mg M 0 0) (mg M 1 1)], [[q (-3) 5; q 4 5]; [q 4 5; q 3 5]]) end.
Definition exinv (M : mat) : res mat := Exn ValueError.
Definition exsqrt (x : Q) : Q := x.
Definition expar : params Q := Params "ducc"%string 3 3 (Fin (q 1 10000000000)).
Definition exargs (im : list (imap Q)) (t : temp_arg Q) (pe pb moi lite : bool) : fargs Q :=
  FArgs (I1 exmask) None None (Some im) None t BNone pe pb (Some 1%Z) (Some 1%Z) None NoWcs (Some 2%Z) (Some 2%Z) moi lite.
Notation new := (field_new (qz 12) exsqrt exeigh exinv).
Definition oks {A} (x : res A) : bool := match x with Ok _ => true | _ => false end.
Definition outs (m : mat) := map (map out) m.
Definition exa := exargs [exmap 2 1] (TArr [[ext1]; [ext2]]) false false false false.
Lemma exa_rect : rect_args exa.
Proof. repeat split; try discriminate; intros x H; injection H as <-; repeat constructor. Qed.
Lemma num_check (x y : Q) : out x = out y -> x = y.
Proof. apply out_inj. Qed.
Ltac two i H := destruct i as [|[|i]]; [| | exfalso; lia].
Definition dummy : nfield Q := NField (Hpx 0 (qz 0)) [] [] None 0 0 [] 0 0 false false false 0 0 0 None None None None None None None None.
Definition exf := from_ok dummy (new (toy 0) expar exa).
Definition extm := from_ok [] (get_templates exf).
Definition exmp := from_ok [] (get_maps exf).
Definition exM := from_ok [] (gram (f_info exf) extm).
Ltac ij2 := intros i j Hi Hj; two i Hi; two j Hj; apply out_inj; vm_compute; reflexivity.
(** two templates, the second a multiple of the first: the hypotheses of C35 and C36 *)
Example ex_clean : new (toy 0) expar exa = Ok exf /\ get_templates exf = Ok extm /\ get_maps exf = Ok exmp /\ gram (f_info exf) extm = Ok exM /\ length extm = 2 /\
  solver_ok exeigh exinv 2 (opt (a_tol exa) (tol_pinv_default expar)) exM /\ (forall k, k < npix (f_info exf) -> flt f0 (pw (f_info exf) k)) /\ map (fun r => out (nth 7 r (qz 0))) exmp = [ -130 # 301 ]%Q.
Proof.
  split; [apply from_ok_eq; vm_compute; reflexivity|]. split; [apply from_ok_eq; vm_compute; reflexivity|]. split; [apply from_ok_eq; vm_compute; reflexivity|]. split; [apply from_ok_eq; vm_compute; reflexivity|]. split; [vm_compute; reflexivity|].
  split; [|split; [|vm_compute; reflexivity]].
  - unfold solver_ok. assert (T : tol_le0 (opt (a_tol exa) (tol_pinv_default expar)) = false) by (vm_compute; reflexivity). rewrite T. split.
    + split; [vm_compute; reflexivity|]. split; [|split]; ij2.
    + intros k Hk. two k Hk; [left; apply out_inj; vm_compute; reflexivity | right; vm_compute; reflexivity].
  - intros k _. vm_compute. reflexivity.
Qed.

Definition maps_of (x : res (nfield Q)) := match x with Ok f => match f_maps f with Some a => outs a | None => [] end | _ => [] end.
Definition alm_of (x : res (nfield Q)) := match x with Ok f => match f_alm f with Some a => outs a | None => [] end | _ => [] end.
(** adding three times the first template and minus twice the second changes the input but not the field *)
Example ex_amplitude : maps_of (new (toy 0) expar (set_maps exa (add_temps [qz 3; qz (-2)] [[ext1]; [ext2]] [exmap 2 1]))) = outs exmp.
Proof. vm_compute. reflexivity. Qed.
(** feeding the cleaned maps back *)
Example ex_idempotent : maps_of (new (toy 0) expar (set_data exa (map I1 exmp) (TArr (map (map I1) extm)) true)) = outs exmp.
Proof. vm_compute. reflexivity. Qed.
(** maps and templates multiplied by the mask beforehand; two maps that differ only in the masked pixel *)
Definition pre (x : imap Q) : imap Q := from_ok (I1 []) (ibin fmul (I1 exmask) x).
Example ex_premultiplied : mapM (ibin fmul (I1 exmask)) [exmap 2 1] = Ok [pre (exmap 2 1)] /\ premultiplied (I1 exmask) (TArr [[ext1]; [ext2]]) (TArr [[pre ext1]; [pre ext2]]) /\
  maps_of (new (toy 0) expar (set_data exa [pre (exmap 2 1)] (TArr [[pre ext1]; [pre ext2]]) true)) = outs exmp.
Proof. split; [reflexivity|]. split; [reflexivity|]. vm_compute. reflexivity. Qed.
Definition exother : imap Q := I1 (tab 48 (fun i => if Nat.eqb i 5 then qz 1000 else nth i (match exmap 2 1 with I1 v => v | _ => [] end) (qz 0))).
Example ex_outside : agree (I1 exmask) (exmap 2 1) exother /\ exother <> exmap 2 1 /\ maps_of (new (toy 0) expar (set_maps exa [exother])) = outs exmp.
Proof.
  split; [|split].
  - split; [reflexivity|]. split; [reflexivity|]. intros k Hk. destruct (Nat.eq_dec k 5) as [->|N]; [exfalso; apply Hk; apply out_inj; vm_compute; reflexivity|].
    unfold exother, exmap. destruct (Nat.ltb_spec k 48) as [L|L]; [|rewrite !nth_overflow by (rewrite length_tab; exact L); reflexivity]. rewrite !nth_tab by exact L. destruct (Nat.eqb_spec k 5); [contradiction|reflexivity].
  - intro E. assert (E5 : out (nth 5 (match exother with I1 v => v | _ => [] end) (qz 0)) = out (nth 5 (match exmap 2 1 with I1 v => v | _ => [] end) (qz 0))) by (rewrite E; reflexivity). vm_compute in E5. discriminate E5.
  - vm_compute. reflexivity.
Qed.
(** an anisotropic mask: [[1, 1/4], [1/4, 1/2]] everywhere *)
Definition exani (pe : bool) (t : temp_arg Q) : fargs Q :=
  FArgs (I1 (repeat (qz 1) 48)) (Some (I1 (repeat (q 1 2) 48))) (Some (I1 (repeat (q 1 4) 48))) (Some [exmap 2 1; exmap 3 2]) None t BNone pe false (Some 1%Z) (Some 1%Z) None NoWcs (Some 2%Z) (Some 2%Z) false false.
Example ex_anisotropic : map (fun r => nth 3 r 0%Q) (maps_of (new (toy 0) expar (exani false TNone))) = [ 1 ; 2 ]%Q.
Proof. vm_compute. reflexivity. Qed.
(** pure and anisotropic together are refused, and so are other wrong combinations *)
Example ex_refused : new (toy 0) expar (exani true TNone) = Exn NotImplementedError /\ new (toy 0) expar (exani false (TArr [[ext1; ext2]])) = Exn NotImplementedError /\
  new (toy 0) expar (exargs [exmap 2 1] TNone true false false false) = Exn ValueError /\ new (toy 0) expar (exargs [exmap 2 1; ext1; ext2] TNone false false false false) = Exn ValueError.
Proof. repeat split; vm_compute; reflexivity. Qed.

(** *** where stronger claims fail *)
(** C35 without the condition on small eigenvalues: templates e0 and 1e-6 e1 with tolerance 1e-10 *)
Definition one_hot (i : nat) (x : Q) : imap Q := I1 (tab 48 (fun j => if Nat.eqb j i then x else qz 0)).
Definition diag_eigh (M : mat) : list Q * mat := (tab (length M) (fun i => mg M i i), tab (length M) (fun i => tab (length M) (fun j => if Nat.eqb i j then qz 1 else qz 0))).
Notation newd := (field_new (qz 12) exsqrt diag_eigh exinv).
Definition exsmall := exargs [exmap 2 1] (TArr [[one_hot 0 (qz 1)]; [one_hot 1 (q 1 1000000)]]) false false false false.
Theorem C35_small_template_refuted : exists f t maps x, newd (toy 0) expar exsmall = Ok f /\ get_templates f = Ok t /\ get_maps f = Ok maps /\ dot_map (f_info f) (nth 1 t []) maps = Ok x /\ x <> qz 0 /\
  (forall M, gram (f_info f) t = Ok M -> forall i j, i < 2 -> j < 2 -> mg M i j = sum 2 (fun k => mg (snd (diag_eigh M)) i k * nth k (fst (diag_eigh M)) (qz 0) * mg (snd (diag_eigh M)) j k)%F /\ (i <> j -> mg M i j = qz 0)).
Proof.
  eexists. eexists. eexists. eexists. split; [apply (from_ok_eq dummy); vm_compute; reflexivity|]. split; [apply (from_ok_eq []); vm_compute; reflexivity|]. split; [apply (from_ok_eq []); vm_compute; reflexivity|]. split; [apply (from_ok_eq (qz 0)); vm_compute; reflexivity|]. split.
  - intro E. apply (f_equal out) in E. vm_compute in E. discriminate E.
  - intros M H. assert (HM : M = from_ok [] (Ok M)) by reflexivity. rewrite <- H in HM. rewrite HM. intros i j Hi Hj. two i Hi; two j Hj; (split; [apply out_inj; vm_compute; reflexivity|]); intro N; try (exfalso; lia); apply out_inj; vm_compute; reflexivity.
Qed.
(** a template that vanishes wherever the mask does not: no usable field *)
Lemma is_zd {A} (x : res A) : match x with Exn ZeroDivisionError => true | _ => false end = true -> x = Exn ZeroDivisionError.
Proof. destruct x as [|[]|]; intro H; try discriminate H; reflexivity. Qed.
Theorem C35_vanishing_template_refuted : new (toy 0) expar (exargs [exmap 2 1] (TArr [[one_hot 5 (qz 1)]]) false false false false) = Exn ZeroDivisionError.
Proof. apply is_zd. vm_compute. reflexivity. Qed.
(** with purification the values of masked pixels matter wherever the derivatives of the mask do not vanish
    (here coefficient 0 is pixel 2 of the mask or of the product of maps with derivatives of the mask) *)
Definition expure (m : list (imap Q)) (mask : list Q) (moi : bool) : fargs Q :=
  FArgs (I1 mask) None None (Some m) None TNone BNone true true (Some 0%Z) (Some 0%Z) None NoWcs (Some 2%Z) (Some 2%Z) moi false.
Definition spread : list Q := tab 48 (fun i => if Nat.eqb i 5 then qz 0 else qz 1).
Theorem C37_purified_outside_mask_refuted : agree (I1 spread) (exmap 2 1) exother /\ (exists f, new (toy 1) expar (expure [exmap 2 1; exmap 3 2] spread false) = Ok f) /\ (exists f, new (toy 1) expar (expure [exother; exmap 3 2] spread false) = Ok f) /\
  alm_of (new (toy 1) expar (expure [exmap 2 1; exmap 3 2] spread false)) <> alm_of (new (toy 1) expar (expure [exother; exmap 3 2] spread false)).
Proof.
  split; [|split; [|split]].
  - split; [reflexivity|]. split; [reflexivity|]. intros k Hk. destruct (Nat.eq_dec k 5) as [->|N]; [exfalso; apply Hk; apply out_inj; vm_compute; reflexivity|].
    unfold exother, exmap. destruct (Nat.ltb_spec k 48) as [L|L]; [|rewrite !nth_overflow by (rewrite length_tab; exact L); reflexivity]. rewrite !nth_tab by exact L. destruct (Nat.eqb_spec k 5); [contradiction|reflexivity].
  - eexists; apply (from_ok_eq dummy); vm_compute; reflexivity.
  - eexists; apply (from_ok_eq dummy); vm_compute; reflexivity.
  - vm_compute. discriminate.
Qed.

(** a negative mask: maps given unmasked and maps given already multiplied by the mask lead to different purified fields *)
Definition negmask : list Q := repeat (qz (-1)) 48.
Theorem C37_negative_mask_refuted : exists f g, new (toy 0) expar (expure [exmap 2 1; exmap 3 2] negmask false) = Ok f /\ new (toy 0) expar (expure [imul (qz (-1)) (exmap 2 1); imul (qz (-1)) (exmap 3 2)] negmask true) = Ok g /\ get_alms f <> get_alms g.
Proof.
  eexists. eexists. split; [apply (from_ok_eq dummy); vm_compute; reflexivity|]. split; [apply (from_ok_eq dummy); vm_compute; reflexivity|].
  intro E. apply (f_equal (fun x => outs (from_ok [] x))) in E. vm_compute in E. discriminate E.
Qed.
(** a memory-saving field recomputes: if the calculator is changed between two calls the second answer differs *)
Theorem C39_lite_recomputes_refuted : exists f x y, new (toy 0) expar (exargs [exmap 2 1] TNone false false false true) = Ok f /\ snd (get_mask_alms (toy 0) f) = Ok x /\ snd (get_mask_alms (toy 1) (fst (get_mask_alms (toy 0) f))) = Ok y /\ x <> y.
Proof.
  eexists. eexists. eexists. split; [apply (from_ok_eq dummy); vm_compute; reflexivity|]. split; [apply (from_ok_eq []); vm_compute; reflexivity|]. split; [apply (from_ok_eq []); vm_compute; reflexivity|].
  intro E. apply (f_equal (map out)) in E. vm_compute in E. discriminate E.
Qed.
(** the same two calls on an ordinary field *)
Example ex_cached : exists f x, new (toy 0) expar (exargs [exmap 2 1] TNone false false false false) = Ok f /\ snd (get_mask_alms (toy 0) f) = Ok x /\ map out (from_ok [] (snd (get_mask_alms (toy 1) (fst (get_mask_alms (toy 0) f))))) = map out x /\ f_alm_mask f = None.
Proof.
  eexists. eexists. split; [apply (from_ok_eq dummy); vm_compute; reflexivity|]. split; [apply (from_ok_eq []); vm_compute; reflexivity|]. split; vm_compute; reflexivity.
Qed.
(** the toy transforms have the shapes asked for in C38, C66, C67 and C68 *)
Lemma toy_shapes d : alm_shape (toy d) /\ map_shape (toy d) /\ pix_shape (toy d) /\ zero_to_zero (toy d).
Proof.
  split; [|split; [|split]].
  - intros spin s lmax m. split; [apply map_length|]. apply Forall_map. apply Forall_forall. intros v _. apply length_tab.
  - intros spin s lmax m. apply map_length.
  - intros spin s lmax m. split; [apply map_length|]. apply Forall_map. apply Forall_forall. intros v _. apply length_tab.
  - assert (Z : forall n e (v : list Q), zeros v -> zeros (tab n (fun i => nth (i + e) v (qz 0)))).
    { intros n e v Z. apply Forall_forall. intros x Hx. unfold tab in Hx. apply in_map_iff in Hx as (i & <- & _). destruct (nth_in_or_default (i + e) v (qz 0)) as [H|H]; [|rewrite H; apply out_inj; vm_compute; reflexivity]. unfold zeros in Z. rewrite Forall_forall in Z. exact (Z _ H). }
    intros spin s lmax m Hm. unfold all_zero in *. split; apply Forall_map; rewrite Forall_forall in *; intros v Hv; [apply Z; exact (Hm v Hv)|]. pose proof (Z (full s) 0 v (Hm v Hv)) as H. erewrite tab_ext; [exact H|]. intros i _. cbv beta. rewrite Nat.add_0_r. reflexivity.
Qed.
(** purifying B only: E is as without purification and B is not *)
Definition expol (pe pb : bool) := set_pure (expure [exmap 2 1; exmap 3 2] exmask false) pe pb.
Example ex_other : match alm_of (new (toy 1) expar (expol false true)), alm_of (new (toy 1) expar (expol false false)) with [e1; b1], [e0; b0] => e1 = e0 /\ b1 <> b0 | _, _ => False end /\ oks (new (toy 1) expar (expol true false)) = true.
Proof. vm_compute. split; [split; [reflexivity | discriminate] | reflexivity]. Qed.
(** the same request with lmax_mask = 3 instead of 2 *)
Definition exbig : fargs Q :=
  FArgs (I1 exmask) None None (Some [exmap 2 1; exmap 3 2]) None TNone BNone false true (Some 0%Z) (Some 0%Z) None NoWcs (Some 2%Z) (Some 3%Z) false false.
Example ex_big : oks (new (toy 1) expar exbig) = false /\ oks (new (toy 1) expar (set_pure exbig false false)) = true /\ oks (head_of (qz 12) exbig) = true.
Proof. vm_compute. auto. Qed.
(** a mask whose only non-zero coefficient is the first (with these transforms, a mask that is zero in pixels 1 to 11) *)
Definition unimask : list Q := tab 48 (fun i => if (Nat.leb 1 i && Nat.leb i 11)%bool then qz 0 else qz 1).
Example ex_uniform : oks (new (toy 0) expar (expure [exmap 2 1; exmap 3 2] unimask false)) = true /\
  match new (toy 0) expar (expure [exmap 2 1; exmap 3 2] unimask false) with Ok f => match snd (get_mask_alms (toy 0) f) with Ok am => map out am = (1 :: repeat 0 11)%Q | _ => False end | _ => False end /\ map out [exsqrt (qz 0)] = [ 0 ]%Q /\ map Z.to_nat (ells 2) = [0; 0; 1; 1; 2; 2; 1; 1; 2; 2; 2; 2].
Proof. vm_compute. auto. Qed.
(** compatible and incompatible fields *)
Definition exwide : fargs Q := FArgs (I1 exmask) None None (Some [exmap 2 1]) None TNone BNone false false (Some 1%Z) (Some 1%Z) None NoWcs (Some 3%Z) (Some 2%Z) false false.
Example ex_compatible : match new (toy 0) expar exa, new (toy 0) expar (exani false TNone), new (toy 0) expar exwide with Ok f, Ok g, Ok h => is_compatible f g true = true /\ is_compatible f h false = false | _, _, _ => False end.
Proof. vm_compute. auto. Qed.
(** arguments accepted by the constructor: scalar field with templates, polarised field with anisotropic mask, purified field *)
Example ex_accepts : oks (new (toy 0) expar exa) = true /\ oks (new (toy 0) expar (exani false TNone)) = true /\ oks (new (toy 0) expar (expol true true)) = true.
Proof. vm_compute. auto. Qed.

Print Assumptions C35_orthogonal. Print Assumptions C35_small_template_refuted. Print Assumptions C35_vanishing_template_refuted.
Print Assumptions C36_template_amplitude. Print Assumptions C36_idempotent.
Print Assumptions C37_premultiplied. Print Assumptions C37_outside_mask. Print Assumptions C37_anisotropic. Print Assumptions C37_purified_outside_mask_refuted. Print Assumptions C37_negative_mask_refuted.
Print Assumptions C38_necessary. Print Assumptions C38_sufficient. Print Assumptions C38_consistent. Print Assumptions C38_lite.
Print Assumptions C39_any_order. Print Assumptions C39_survives_calculator_change. Print Assumptions C39_nothing_else. Print Assumptions C39_lite_recomputes_refuted.
Print Assumptions C40_meaning. Print Assumptions C40_reflexive. Print Assumptions C40_symmetric. Print Assumptions C40_transitive. Print Assumptions C40_strict.
Print Assumptions C66_other_component. Print Assumptions C67_different_lmax. Print Assumptions C68_uniform_mask.
