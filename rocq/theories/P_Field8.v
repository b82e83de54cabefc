(** Further parts of C35 (dependent templates do not stop the constructor) and C39 (what the mask multipoles are). *)
From Coq Require Import QArith Qcanon.
From Verif Require Import Base M_Utils L_Utils M_Field L_Field L_Field2 P_Utils P_Field P_Field2 P_Field3 P_Field5 P_Field6 P_Field7.
Section PF8.
Context {F : ofield}.
Local Open Scope F_scope.
Add Field FfPFi8 : (fth F).
Notation mat := (list (list F)).
Variable fourpi : F.
Variable fsqrt : F -> F.
Variable eigh : mat -> list F * mat.
Variable np_inv : mat -> res mat.
Notation new := (field_new fourpi fsqrt eigh np_inv).

(** a positive tolerance and one positive eigenvalue are enough for the pseudo-inverse to exist, however many
    eigenvalues vanish *)
Theorem C35_usable M t : 0 < t -> 0 < maxl (fst (eigh M)) -> exists P, pinvh eigh np_inv M (Fin t) = Ok P.
Proof.
  intros Ht Hw. unfold pinvh, tol_le0. destruct (t <=? 0) eqn:E; [unfold flt, fltb in Ht; rewrite E in Ht; discriminate Ht|]. destruct (eigh M) as [w v]. cbn [fst] in Hw.
  assert (G : exists wi, mapM (fun x => if good (Fin t) (maxl w) x then (if x =? 0 then Exn ZeroDivisionError else Ok (1 / x)) else Ok 0) w = Ok wi).
  { generalize (maxl w) Hw. clear - Ht. intros k Hk. induction w as [|x w [wi IH]]; [eexists; reflexivity|]. cbn [mapM]. rewrite IH. unfold good at 1. destruct (t * k <=? x) eqn:E; [|cbn [bind]; eexists; reflexivity].
    destruct (x =? 0) eqn:X; [|cbn [bind]; eexists; reflexivity]. exfalso. apply feqb_eq in X. subst x. pose proof (fmul_pos _ _ Ht Hk) as P. unfold flt, fltb in P. rewrite E in P. discriminate P. }
  destruct G as [wi ->]. cbn [bind]. eexists; reflexivity.
Qed.
(** the mask multipoles of a new field are the scalar transform of its mask up to lmax_mask with n_iter_mask
    iterations, whether or not the constructor has computed them *)
Theorem C39_value K p a f : new K p a = Ok f ->
  snd (get_mask_alms K f) = (do r <- sht K 0 (f_info f) (f_lmaxm f) (opt (a_niterm a) (n_iter_mask_default p)) [f_mask f]; Ok (nth 0 r [])) /\
  snd (get_anisotropic_mask_alms K f) = (do ma <- get_anisotropic_mask f; sht K (2 * f_spin f) (f_info f) (f_lmaxm f) (opt (a_niterm a) (n_iter_mask_default p)) ma).
Proof.
  intro H. rewrite new_staged in H. unfold staged in H. apply bind_ok in H as (h & Eh & H).
  assert (G : exists spin nt alm maps temp alm_temp iM als am, f = field_of p a h spin nt alm maps temp alm_temp iM als am /\ (am = None \/ exists r, am = Some (nth 0 r []) /\ sht K 0 (h_s h) (h_lmaxm h) (opt (a_niterm a) (n_iter_mask_default p)) [h_mask h] = Ok r)).
  { destruct (a_maps a) as [im|].
    - apply bind_ok in H as ([[spin maps] tm] & Eb & H). apply bind_ok in H as ([[[m mu] iM] als] & Ec & H). unfold alms_of in H. destruct (L_Field2.pure a).
      + apply bind_ok in H as (am & Ea & H). apply bind_ok in H as ([alm pm] & Ep & H). apply bind_ok in H as (at1 & _ & H). injection H as <-. do 9 eexists. split; [reflexivity|]. unfold keep. destruct (a_lite a); [left; reflexivity | right; eexists; split; [reflexivity | exact Ea]].
      + apply bind_ok in H as (alm & Ea & H). apply bind_ok in H as (at1 & _ & H). injection H as <-. do 9 eexists. split; [reflexivity|]. left; reflexivity.
    - destruct (a_spin a); [|discriminate H]. destruct (_ && _)%bool; [discriminate H|]. injection H as <-. do 9 eexists. split; [reflexivity|]. left; reflexivity. }
  destruct G as (spin & nt & alm & maps & temp & alm_temp & iM & als & am & -> & Ham). unfold get_mask_alms, get_anisotropic_mask_alms, get_anisotropic_mask, stored. cbn [field_of f_alm_mask f_alm_mask_a f_mask_a f_info f_lmaxm f_niterm f_mask f_lite f_spin]. split.
  - destruct Ham as [-> | (r & -> & E)].
    + destruct (sht K 0 (h_s h) (h_lmaxm h) _ [h_mask h]) as [r|e|]; reflexivity.
    + rewrite E. reflexivity.
  - destruct (h_mask_a h) as [ma|]; [|reflexivity]. cbn [bind]. destruct (sht K (2 * spin) (h_s h) (h_lmaxm h) _ ma) as [r|e|]; reflexivity.
Qed.
End PF8.
(** a singular matrix; an anisotropic mask *)
Example ex_usable : match exeigh [[qz 16; qz 12]; [qz 12; qz 9]] with (w, _) => map out w = [ 0; 25 ]%Q end /\ oks (pinvh exeigh exinv [[qz 16; qz 12]; [qz 12; qz 9]] (Fin (q 1 10000000000))) = true.
Proof. vm_compute. split; reflexivity. Qed.
Example ex_aniso_alms : match new (toy 0) expar (exani false TNone) with Ok f => match snd (get_anisotropic_mask_alms (toy 0) f) with Ok r => map (map out) r = [repeat (1 # 4) 12; repeat (1 # 4) 12]%Q | _ => False end | _ => False end.
Proof. vm_compute. reflexivity. Qed.
Print Assumptions C35_usable. Print Assumptions C39_value.
