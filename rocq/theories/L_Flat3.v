(** Lemmas: Hermitian symmetry of the Fourier coefficients of real maps and of the E/B coefficients. *)
From Verif Require Import Base M_Utils M_Bins M_FlatBins M_Flat L_Flat L_Flat2.
From Coq Require Import Permutation.
Open Scope nat_scope.

Section LFlat3.
Context {F : ofield}.
Local Open Scope F_scope.
Add Field FfFl3 : (fth F).
Notation cplx := (cplx F).
Notation fsinfo := (fsinfo F).

Lemma csum_ext n (f g : nat -> cplx) : (forall i, (i < n)%nat -> f i = g i) -> csum n f = csum n g.
Proof. intro H. unfold csum. f_equal; apply sum_ext; intros i Hi; rewrite H by exact Hi; reflexivity. Qed.
Lemma conj_csum n (f : nat -> cplx) : conjc (csum n f) = csum n (fun i => conjc (f i)).
Proof. apply cplx_eq; cbn; [reflexivity|]. symmetry. apply sum_opp. Qed.
Lemma conj_mul (x y : cplx) : conjc (cmul x y) = cmul (conjc x) (conjc y).
Proof. apply cplx_eq; cbn; ring. Qed.
Lemma conj_add (x y : cplx) : conjc (cadd x y) = cadd (conjc x) (conjc y).
Proof. apply cplx_eq; cbn; ring. Qed.
Lemma conj_sub (x y : cplx) : conjc (csub x y) = csub (conjc x) (conjc y).
Proof. apply cplx_eq; cbn; ring. Qed.
Lemma conj_scal a (x : cplx) : conjc (cscal a x) = cscal a (conjc x).
Proof. apply cplx_eq; cbn; ring. Qed.
Lemma mod_opp_mul n i x : (0 < n)%nat -> (i < n)%nat -> ((opp_row n i * x) mod n = opp_row n ((i * x) mod n))%nat.
Proof.
  intros Hn Hi. unfold opp_row. rewrite Nat.mul_mod_idemp_l by lia. apply Nat2Z.inj. rewrite !Nat2Z.inj_mod, Nat2Z.inj_mul, !Nat2Z.inj_sub by (try lia; apply Nat.lt_le_incl, Nat.mod_upper_bound; lia).
  rewrite Nat2Z.inj_mod, Nat2Z.inj_mul. rewrite Zminus_mod_idemp_r.
  replace ((Z.of_nat n - Z.of_nat i) * Z.of_nat x)%Z with ((Z.of_nat n - Z.of_nat i * Z.of_nat x) + (Z.of_nat x - 1) * Z.of_nat n)%Z by ring. apply Z.mod_add. lia.
Qed.

Lemma opp_right nx ix : (ix < nx)%nat -> (nx < 2 * ix)%nat -> (nx - ix)%nat = opp_row nx ix.
Proof. intros. unfold opp_row. rewrite Nat.mod_small; lia. Qed.
Lemma half_index (s : fsinfo) i iy : (i < nhalf s)%nat -> (iy < fs_ny s)%nat -> (i + nhalf s * iy < fs_ny s * nhalf s)%nat /\ ((i + nhalf s * iy) mod nhalf s = i)%nat /\ ((i + nhalf s * iy) / nhalf s = iy)%nat.
Proof.
  intros H1 H2. split; [nia|]. split; [symmetry; apply (Nat.mod_unique _ _ iy); lia | symmetry; apply (Nat.div_unique _ _ _ i); lia].
Qed.
Lemma half_bound (s : fsinfo) ix : (2 * ix <= fs_nx s)%nat -> (ix < nhalf s)%nat.
Proof. intro H. unfold nhalf. apply Nat.le_lt_trans with (fs_nx s / 2)%nat; [apply Nat.div_le_lower_bound; lia | lia]. Qed.
Section DFT.
Variables (pi : F) (fsqrt : F -> F) (ph : nat -> nat -> cplx).
(** the roots of unity come in conjugate pairs *)
Definition conj_roots (s : fsinfo) : Prop :=
  (forall j, (j < fs_nx s)%nat -> ph (fs_nx s) (opp_row (fs_nx s) j) = conjc (ph (fs_nx s) j)) /\ (forall j, (j < fs_ny s)%nat -> ph (fs_ny s) (opp_row (fs_ny s) j) = conjc (ph (fs_ny s) j)).
Lemma dft_conj (s : fsinfo) m ix iy : conj_roots s -> (ix < fs_nx s)%nat -> (iy < fs_ny s)%nat ->
  dft_at ph s m (opp_row (fs_nx s) ix) (opp_row (fs_ny s) iy) = conjc (dft_at ph s m ix iy).
Proof.
  intros [H1 H2] Hx Hy. unfold dft_at. rewrite conj_csum. apply csum_ext. intros y Hyy. rewrite conj_csum. apply csum_ext. intros x Hxx.
  rewrite conj_scal, conj_mul, !mod_opp_mul, H1, H2 by (try apply Nat.mod_upper_bound; lia). reflexivity.
Qed.
Definition coeff (s : fsinfo) (m : list F) (p : nat * nat) : cplx := cscal (norm_m2a pi s) (dft_at ph s m (fst p) (snd p)).
Lemma coeff_conj (s : fsinfo) m ix iy : conj_roots s -> (ix < fs_nx s)%nat -> (iy < fs_ny s)%nat -> coeff s m (opp_row (fs_nx s) ix, opp_row (fs_ny s) iy) = conjc (coeff s m (ix, iy)).
Proof. intros. unfold coeff. cbn [fst snd]. rewrite dft_conj by assumption. rewrite conj_scal. reflexivity. Qed.
Lemma nth_map2alm0 (s : fsinfo) m ix iy : (ix < nhalf s)%nat -> (iy < fs_ny s)%nat -> nth (ix + nhalf s * iy) (map2alm0 pi ph s m) c0 = coeff s m (ix, iy).
Proof. intros H1 H2. destruct (half_index s ix iy H1 H2) as [A [B C]]. unfold map2alm0. rewrite nth_tab by exact A. rewrite B, C. reflexivity. Qed.
Lemma plane_map (s : fsinfo) m p : conj_roots s -> In p (grid s) -> plane s (map2alm0 pi ph s m) p = coeff s m p.
Proof.
  intros HR Hp. apply in_grid in Hp. destruct p as [ix iy]. cbn [fst snd] in Hp. destruct Hp as [Hx Hy]. unfold plane. cbn [fst snd]. destruct (Nat.leb_spec (2 * ix) (fs_nx s)) as [L|L].
  - apply nth_map2alm0; [apply half_bound; exact L | exact Hy].
  - assert (HH : (fs_nx s - ix < nhalf s)%nat) by (apply half_bound; lia). assert (HO : (opp_row (fs_ny s) iy < fs_ny s)%nat) by (apply opp_row_lt; lia). rewrite nth_map2alm0 by assumption. rewrite (opp_right (fs_nx s) ix) by lia. rewrite coeff_conj by assumption. apply conj_conj.
Qed.
(** ** E and B *)
Definition full_eb (s : fsinfo) (spin : Z) (q u : list F) (p : nat * nat) : cplx * cplx := eb_of spin (rot_at pi fsqrt s spin (fst p) (snd p)) (coeff s q p) (coeff s u p).
Lemma rotn_opp (c sn : F) n : rotn n (- c) (- sn) = let e := if Nat.even n then 1 else - (1) in (e * fst (rotn n c sn), e * snd (rotn n c sn)).
Proof.
  induction n as [|n IH]; [cbn; f_equal; ring|]. cbn [rotn]. rewrite IH. destruct (rotn n c sn) as [x y]. rewrite Nat.even_succ, <- Nat.negb_even. cbn [fst snd].
  destruct (Nat.even n); cbn [negb fst snd]; f_equal; ring.
Qed.
Lemma ipow_conj z : conjc (ipow (F:=F) z) = cscal (if Z.even z then 1 else - (1)) (ipow z).
Proof.
  assert (H : (0 <= z mod 4 < 4)%Z) by (apply Z.mod_pos_bound; lia).
  assert (E : Z.even z = Z.even (z mod 4)). { rewrite (Z.div_mod z 4) at 1 by lia. rewrite Z.even_add, Z.even_mul. cbn. destruct (Z.even (z mod 4)); reflexivity. }
  rewrite E. unfold ipow. assert (C : (z mod 4 = 0 \/ z mod 4 = 1 \/ z mod 4 = 2 \/ z mod 4 = 3)%Z) by lia. destruct C as [->|[->|[->| ->]]]; cbn; apply cplx_eq; cbn; ring.
Qed.
Lemma sig_conj spin z : conjc (sig (F:=F) spin z) = cscal (if Z.even z then 1 else - (1)) (sig spin z).
Proof. unfold sig. rewrite conj_scal, ipow_conj. apply cplx_eq; cbn; ring. Qed.
Lemma even_nat z : (0 <= z)%Z -> Nat.even (Z.to_nat z) = Z.even z.
Proof. intro H. rewrite <- (Z2Nat.id z) at 2 by exact H. destruct (Z.even (Z.of_nat (Z.to_nat z))) eqn:E.
  - apply Z.even_spec in E. destruct E as [k E]. apply Nat.even_spec. exists (Z.to_nat k). lia.
  - rewrite <- Z.negb_odd in E. apply Bool.negb_false_iff in E. apply Z.odd_spec in E. destruct E as [k E]. rewrite <- Nat.negb_odd. apply Bool.negb_false_iff. apply Nat.odd_spec. exists (Z.to_nat k). lia.
Qed.
Lemma freq_right n i : (i < n)%nat -> (n < 2 * i)%nat -> freq n (n - i) = (- freq n i)%Z.
Proof. intros. unfold freq. destruct (Nat.leb_spec (2 * (n - i)) n), (Nat.leb_spec (2 * i) n); lia. Qed.
Lemma cphi_opp (kx ky : F) : kx * kx + ky * ky <=? 0 = false -> cphi fsqrt (- kx) (- ky) = (- fst (cphi fsqrt kx ky), - snd (cphi fsqrt kx ky)).
Proof.
  intro H. unfold cphi. cbv zeta. replace (- kx * - kx + - ky * - ky) with (kx * kx + ky * ky) by ring. rewrite H. cbn [fst snd]. f_equal; ring.
Qed.
Definition nyquist (s : fsinfo) (p : nat * nat) : Prop := (fs_nx s < 2 * fst p)%nat /\ (2 * snd p = fs_ny s)%nat.
Lemma rot_conj (s : fsinfo) spin ix iy : (0 <= spin)%Z -> (ix < fs_nx s)%nat -> (iy < fs_ny s)%nat -> (fs_nx s < 2 * ix)%nat -> (2 * iy)%nat <> fs_ny s -> kxf pi s ix <> 0 ->
  let r := rot_at pi fsqrt s spin ix iy in let e := if Z.even spin then 1 else - (1) in rot_at pi fsqrt s spin (fs_nx s - ix) (opp_row (fs_ny s) iy) = (e * fst r, e * snd r).
Proof.
  intros Hs Hx Hy Hr Hny Hk. cbv zeta. unfold rot_at.
  assert (E1 : kxf pi s (fs_nx s - ix) = - kxf pi s ix) by (unfold kxf; rewrite freq_right by assumption; rewrite fofZ_opp; ring).
  assert (E2 : kyf pi s (opp_row (fs_ny s) iy) = - kyf pi s iy). { unfold kyf. destruct (freq_opp (fs_ny s) iy Hy) as [E|E]; [rewrite E, fofZ_opp; ring|].
    assert (iy = 0)%nat as ->. { unfold opp_row in E. destruct (Nat.eq_dec iy 0) as [Z|Z]; [exact Z|]. rewrite Nat.mod_small in E by lia. lia. }
    rewrite E. unfold freq. cbn [Nat.mul Nat.leb]. cbn. ring. }
  rewrite E1, E2, cphi_opp.
  - destruct (cphi fsqrt (kxf pi s ix) (kyf pi s iy)) as [c sn]. cbn [fst snd]. rewrite rotn_opp. cbv zeta. rewrite even_nat by exact Hs. reflexivity.
  - destruct (kxf pi s ix * kxf pi s ix + kyf pi s iy * kyf pi s iy <=? 0) eqn:E; [|reflexivity]. exfalso. apply Hk.
    pose proof (fsqr_nonneg (kxf pi s ix)) as P1. pose proof (fsqr_nonneg (kyf pi s iy)) as P2.
    assert (Z : kxf pi s ix * kxf pi s ix = 0). { apply fle_antisym; [|exact P1]. eapply fle_trans; [|exact E]. replace (kxf pi s ix * kxf pi s ix) with (kxf pi s ix * kxf pi s ix + 0) at 1 by ring. apply fle_add; [apply fle_refl | exact P2]. }
    destruct (feqb (kxf pi s ix) 0) eqn:Q; [apply feqb_eq; exact Q|]. exfalso. assert (N : kxf pi s ix <> 0) by (intro W; apply feqb_eq in W; congruence).
    apply N. transitivity (kxf pi s ix * kxf pi s ix / kxf pi s ix); [field; exact N|]. rewrite Z. field. exact N.
Qed.
Lemma eb_conj spin (r : F * F) (q u : cplx) : let e := if Z.even spin then 1 else - (1) in
  eb_of spin (e * fst r, e * snd r) (conjc q) (conjc u) = (conjc (fst (eb_of spin r q u)), conjc (snd (eb_of spin r q u))).
Proof.
  cbv zeta. destruct r as [c sn]. unfold eb_of. cbn [fst snd]. rewrite !conj_mul, sig_conj, conj_sub, conj_add, !conj_scal.
  f_equal; apply cplx_eq; unfold cmul, cscal, csub, cadd; cbn [fst snd]; destruct (Z.even spin); ring.
Qed.
Lemma length_map2alm0 (s : fsinfo) m : length (map2alm0 pi ph s m) = (fs_ny s * nhalf s)%nat.
Proof. apply length_tab. Qed.
Lemma map2alm_spin (s : fsinfo) spin q u : spin <> 0%Z ->
  exists e b, fs_map2alm pi fsqrt ph s spin [q; u] = Ok [e; b] /\ length e = (fs_ny s * nhalf s)%nat /\ length b = (fs_ny s * nhalf s)%nat /\
    forall ix iy, (ix < nhalf s)%nat -> (iy < fs_ny s)%nat -> (nth (ix + nhalf s * iy) e c0, nth (ix + nhalf s * iy) b c0) = full_eb s spin q u (ix, iy).
Proof.
  intro Hs. unfold fs_map2alm. destruct (Z.eqb_spec spin 0) as [E|_]; [contradiction|]. change (rd [q; u] 0%Z) with (Ok q). change (rd [q; u] 1%Z) with (Ok u). cbn [bind]. unfold qu2eb.
  rewrite (rot_rows_all pi fsqrt eb_of s spin (rows_of s) _ (fs_ny s * nhalf s)) by (cbn [fst snd]; rewrite ?length_map2alm0; auto). cbn [bind]. eexists _, _. split; [reflexivity|]. rewrite !length_tab. split; [reflexivity|]. split; [reflexivity|].
  intros ix iy Hx Hy. destruct (half_index s ix iy Hx Hy) as [A [B C]]. rewrite !nth_tab by exact A. cbn [fst snd]. unfold at_index. rewrite B, C, !nth_map2alm0 by assumption. unfold full_eb. cbn [fst snd].
  destruct (eb_of _ _ _ _). reflexivity.
Qed.
Lemma plane_eb (s : fsinfo) spin q u e b p : conj_roots s -> (0 < spin)%Z -> In p (grid s) -> ~ nyquist s p -> kxf pi s 1 <> 0 ->
  (forall ix iy, (ix < nhalf s)%nat -> (iy < fs_ny s)%nat -> (nth (ix + nhalf s * iy) e c0, nth (ix + nhalf s * iy) b c0) = full_eb s spin q u (ix, iy)) ->
  (plane s e p, plane s b p) = full_eb s spin q u p.
Proof.
  intros HR Hs Hp HN Hk H. apply in_grid in Hp. destruct p as [ix iy]. cbn [fst snd] in Hp. destruct Hp as [Hx Hy]. unfold nyquist in HN. cbn [fst snd] in HN. unfold plane. cbn [fst snd]. destruct (Nat.leb_spec (2 * ix) (fs_nx s)) as [L|L].
  - apply H; [apply half_bound; exact L | exact Hy].
  - assert (HH : (fs_nx s - ix < nhalf s)%nat) by (apply half_bound; lia). assert (HO : (opp_row (fs_ny s) iy < fs_ny s)%nat) by (apply opp_row_lt; lia). specialize (H _ _ HH HO).
    assert (K1 := f_equal fst H). assert (K2 := f_equal snd H). cbn [fst snd] in K1, K2. rewrite K1, K2. clear K1 K2 H. unfold full_eb. cbn [fst snd].
    assert (Hkx : kxf pi s ix <> 0).
    { intro Z. apply Hk. unfold kxf in *. unfold freq in Z. destruct (Nat.leb_spec (2 * ix) (fs_nx s)); [lia|]. 
      assert (NZ : fofZ (- (Z.of_nat (fs_nx s) - Z.of_nat ix)) <> (0 : F)) by (apply fofZ_neq0; lia).
      assert (D : dkx pi s = 0). { transitivity (fofZ (- (Z.of_nat (fs_nx s) - Z.of_nat ix)) * dkx pi s / fofZ (- (Z.of_nat (fs_nx s) - Z.of_nat ix))); [field; exact NZ|]. rewrite Z. field. exact NZ. }
      rewrite D. ring. }
    assert (RC := rot_conj s spin ix iy ltac:(lia) Hx Hy L ltac:(lia) Hkx). cbv zeta in RC. rewrite RC. clear RC. rewrite (opp_right (fs_nx s) ix) by lia. rewrite !coeff_conj by assumption.
    pose proof (eb_conj spin (rot_at pi fsqrt s spin ix iy) (coeff s q (ix, iy)) (coeff s u (ix, iy))) as EC. cbv zeta in EC. rewrite EC. cbn [fst snd]. rewrite !conj_conj. destruct (eb_of _ _ _ _). reflexivity.
Qed.
End DFT.
End LFlat3.
