(** Properties of flat-sky fields: purification (C64, C80). *)
From Verif Require Import Base FieldR M_Utils M_Bins M_FlatBins M_LinAlg M_Workspace M_Flat M_WspFlat M_Syn M_FieldFlat P_FlatBins L_LinAlg L_Flat L_Flat2 L_Flat3 L_FITS L_MCM L_WspFlat L_WspFlat2 L_FlatMean L_Conv L_Pure L_Pure2 L_Pure3 P_Flat P_FlatMean.
From Coq Require Import Permutation Reals Lra.
Open Scope nat_scope.

Section PFieldFlat.
Context {F : ofield}.
Local Open Scope F_scope.
Add Field FfPFF : (fth F).
Notation mat := (list (list F)).
Notation cplx := (cplx F).
Notation fsinfo := (fsinfo F).
Notation flat_args := (flat_args F).
Notation flat_field := (flat_field F).
Variables (pi : F) (fsqrt : F -> F) (ph : nat -> nat -> cplx) (eigh : mat -> list F * mat).

(** the roots of unity used by the Fourier transform *)
Definition exact_roots (s : fsinfo) : Prop := conj_roots ph s /\ hom_roots ph s /\ full_roots ph s.
Lemma root_0 s : full_roots ph s -> (0 < fs_nx s)%nat -> (0 < fs_ny s)%nat -> ph (fs_nx s) 0%nat = (1, 0) /\ ph (fs_ny s) 0%nat = (1, 0).
Proof.
  intros [H1 H2] Nx Ny. assert (G : forall n, (0 < n)%nat -> csum n (fun j => ph n ((j * 0) mod n)) = (fofnat n, 0) -> ph n 0%nat = (1, 0)).
  { clear. intros n Hn E. rewrite (csum_ext n _ (fun _ => ph n 0%nat)) in E by (intros j _; rewrite Nat.mul_0_r, Nat.mod_0_l by lia; reflexivity).
    assert (S : forall x : F, sum n (fun _ => x) = fofnat n * x). { clear. intro x. induction n as [|n IH]; [cbn; ring|]. cbn [sum]. rewrite IH. cbn [fofnat]. ring. }
    unfold csum in E. cbn [fst snd] in E. rewrite !S in E. pose proof (n_neq0 n Hn : (fofnat n : F) <> 0) as N. assert (A := f_equal fst E). assert (B := f_equal snd E). cbn [fst snd] in A, B.
    apply cplx_eq; cbn [fst snd]; [transitivity (fofnat n * fst (ph n 0%nat) / fofnat n); [field; exact N | rewrite A; field; exact N] | transitivity (fofnat n * snd (ph n 0%nat) / fofnat n); [field; exact N | rewrite B; field; exact N]]. }
  split; apply G; try assumption; [exact (H1 0%nat Nx) | exact (H2 0%nat Ny)].
Qed.
Definition geometry (a : flat_args) : fsinfo := FS (g_nx a) (g_ny a) (g_lx a) (g_ly a).
(** a field of two unmasked maps, without templates *)
Definition plain_spin2 (a : flat_args) (q u : list F) : Prop :=
  g_maps a = Some [q; u] /\ (g_spin a = None \/ g_spin a = Some 2%Z) /\ g_temp a = NoTemp /\ g_masked a = false /\
  length q = (g_nx a * g_ny a)%nat /\ length u = (g_nx a * g_ny a)%nat /\ (0 < g_nx a)%nat /\ (0 < g_ny a)%nat /\ 0 < g_lx a /\ 0 < g_ly a.
Lemma new_pure (a : flat_args) q u : plain_spin2 a q u -> (g_pe a || g_pb a)%bool = true ->
  flat_new pi fsqrt ph eigh a = do (alms, pmaps) <- purify_flat pi fsqrt ph (geometry a) (g_pe a, g_pb a) (g_mask a) (map2alm0 pi ph (geometry a) (g_mask a)) [q; u];
    Ok (FlatField (FF (geometry a) 2 (g_pe a) (g_pb a) (g_mask a) (g_beam a) alms false) (if g_lite a then None else Some pmaps) None None None (g_lite a)).
Proof.
  intros [Em [Es [Et [Ek [Lq [Lu [Nx [Ny [Px Py]]]]]]]]] Hp. unfold flat_new. rewrite Em, Et.
  assert (X : forall x : F, 0 < x -> (x <? 0) = false) by (intros x P; destruct (x <? 0) eqn:E; [exfalso; apply (flt_irrefl (0 : F)); apply (flt_trans _ x); assumption | reflexivity]).
  rewrite (X _ Px), (X _ Py). cbn [orb]. replace (spin_from (length [q; u]) (g_spin a)) with (Ok 2%Z) by (destruct Es as [-> | ->]; reflexivity). cbn [bind]. rewrite Hp. cbn [andb negb Z.eqb Pos.eqb].
  cbn [forallb]. rewrite Lq, Lu, Nat.eqb_refl. cbn [andb negb]. cbn [temps_from bind]. rewrite (Px : (0 <? g_lx a) = true), (Py : (0 <? g_ly a) = true). cbn [andb negb].
  unfold field_flat_alloc. cbn [Z.eqb Pos.eqb]. rewrite Hp. cbn [andb negb]. rewrite Ek. cbn [map length Nat.ltb Nat.leb bind seq fold_left subtract]. fold (geometry a).
  destruct (purify_flat pi fsqrt ph (geometry a) (g_pe a, g_pb a) (g_mask a) (map2alm0 pi ph (geometry a) (g_mask a)) [q; u]) as [[al pm]|e|]; cbn [bind]; [|reflexivity|reflexivity]. destruct (g_lite a); reflexivity.
Qed.
(** ** C80: purification removes the leakage *)
(** Maps and mask have no modes beyond (bx,by) and (cx,cy), the pixels are square: if the maps have no B modes (no E modes), neither has the purified field. *)
Theorem C80_no_leakage (a : flat_args) (q u : list F) (bx by_ cx cy : Z) :
  let s := geometry a in exact_roots s -> real_sqrt fsqrt -> pi <> 0 -> plain_spin2 a q u -> (g_pe a || g_pb a)%bool = true ->
  fs_lx s / fofnat (fs_nx s) = fs_ly s / fofnat (fs_ny s) ->
  (0 <= bx)%Z -> (0 <= by_)%Z -> (0 <= cx)%Z -> (0 <= cy)%Z -> (2 * (bx + cx) < Z.of_nat (fs_nx s))%Z -> (2 * (by_ + cy) < Z.of_nat (fs_ny s))%Z ->
  band_limited pi ph s bx by_ q -> band_limited pi ph s bx by_ u -> band_limited pi ph s cx cy (g_mask a) ->
  exists f e b e0 b0, flat_new pi fsqrt ph eigh a = Ok f /\ ff_alms (f_base f) = [e; b] /\ length e = n_modes s /\ length b = n_modes s /\ fs_map2alm pi fsqrt ph s 2 [q; u] = Ok [e0; b0] /\
    (g_pb a = true -> (forall i, (0 < i < n_modes s)%nat -> nth i b0 c0 = c0) -> forall i, (0 < i < n_modes s)%nat -> nth i b c0 = c0) /\
    (g_pe a = true -> (forall i, (0 < i < n_modes s)%nat -> nth i e0 c0 = c0) -> forall i, (0 < i < n_modes s)%nat -> nth i e c0 = c0).
Proof.
  intros s [HR [HH HF]] HSQ Hpi HA Hp HP P1 P2 P3 P4 L1 L2 BQ BU BM. pose proof HA as HA'. destruct HA' as [_ [_ [_ [_ [_ [_ [Nx [Ny [Px Py]]]]]]]]].
  change (0 < fs_nx s)%nat in Nx. change (0 < fs_ny s)%nat in Ny. change (0 < fs_lx s) in Px. change (0 < fs_ly s) in Py.
  destruct (purify_spec pi fsqrt ph s HSQ Hpi (fpos_neq _ Px) (fpos_neq _ Py) HR HH HF Nx Ny (g_mask a)) with (flags := (g_pe a, g_pb a)) (q := q) (u := u) as [e [b [pm [EP [Le [Lb HB]]]]]].
  { intros m Hm E. apply (limited_edge pi ph s Nx Ny cx cy); try assumption; lia. }
  destruct (map2alm_spin pi fsqrt ph s 2 q u) as [e0 [b0 [E0 _]]]; [lia|].
  rewrite (new_pure a q u HA Hp). fold s. rewrite EP. cbn [bind]. eexists _, e, b, e0, b0. split; [reflexivity|]. split; [reflexivity|]. split; [exact Le|]. split; [exact Lb|]. split; [exact E0|].
  assert (IX : forall i, (0 < i < n_modes s)%nat -> exists ix iy, (ix < nhalf s)%nat /\ (iy < fs_ny s)%nat /\ i = (ix + nhalf s * iy)%nat /\ (ix, iy) <> (0, 0)%nat /\ In (ix, iy) (grid s)).
  { intros i Hi. unfold n_modes in Hi. pose proof (nhalf_pos s) as NH. exists (i mod nhalf s)%nat, (i / nhalf s)%nat. pose proof (Nat.div_mod i (nhalf s) ltac:(lia)) as D. pose proof (Nat.mod_upper_bound i (nhalf s) ltac:(lia)) as M.
    assert (iy : (i / nhalf s < fs_ny s)%nat) by (apply Nat.div_lt_upper_bound; lia). repeat split; try assumption; try lia.
    - intro E. injection E as A B. rewrite A, B in D. lia.
    - apply in_grid. cbn [fst snd]. split; [apply (half_lt s Nx Ny); exact M | exact iy]. }
  assert (LQ : forall t, band_limited pi ph s bx by_ t -> forall m, In m (grid s) -> edge s m -> coeff pi ph s t m = c0) by (intros t B m Hm E; apply (limited_edge pi ph s Nx Ny bx by_ t m); try assumption; lia).
  split; intros HF' HZ i Hi; destruct (IX i Hi) as [ix [iy [Ix [Iy [-> [NZ Hl]]]]]]; destruct (HB ix iy Ix Iy NZ) as [HE HBB]; cbn [fst snd] in HE, HBB; rewrite HF' in *.
  - rewrite HBB. apply (pure_zero pi fsqrt ph s HSQ Px Py Nx Ny HP (g_mask a) q u bx by_ cx cy); try assumption; [apply fpos_neq; apply (kp_pos pi fsqrt s HSQ Hpi Nx Ny); assumption|].
    apply (extend pi fsqrt ph s HR Nx Ny (eq_b pi s)); [left; reflexivity | apply LQ; exact BQ | apply LQ; exact BU|]. intros [jx jy] Hm Hj. cbn [fst] in Hj. apply in_grid in Hm. cbn [fst snd] in Hm.
    destruct (eb_square pi fsqrt ph s HSQ Px Py Nx Ny HP q u e0 b0 jx jy E0 Hj ltac:(tauto)) as [<- _]. destruct (pair_dec (jx, jy) (0, 0)%nat) as [E|N].
    + rewrite E. unfold kp2, kpx, kpy. cbn [fst snd]. rewrite !fq0. unfold c0. apply cplx_eq; cbn; ring.
    + rewrite HZ; [unfold c0; apply cplx_eq; cbn; ring|]. destruct (half_index s jx jy Hj ltac:(tauto)) as [A _]. unfold n_modes. split; [|exact A]. pose proof (nhalf_pos s). assert (jx <> 0 \/ jy <> 0)%nat by (destruct (Nat.eq_dec jx 0), (Nat.eq_dec jy 0); subst; auto; exfalso; apply N; reflexivity). nia.
  - rewrite HE. apply (pure_zero pi fsqrt ph s HSQ Px Py Nx Ny HP (g_mask a) q u bx by_ cx cy); try assumption; [apply fpos_neq; apply (kp_pos pi fsqrt s HSQ Hpi Nx Ny); assumption|].
    apply (extend pi fsqrt ph s HR Nx Ny (eq_e pi s)); [right; reflexivity | apply LQ; exact BQ | apply LQ; exact BU|]. intros [jx jy] Hm Hj. cbn [fst] in Hj. apply in_grid in Hm. cbn [fst snd] in Hm.
    destruct (eb_square pi fsqrt ph s HSQ Px Py Nx Ny HP q u e0 b0 jx jy E0 Hj ltac:(tauto)) as [_ <-]. destruct (pair_dec (jx, jy) (0, 0)%nat) as [E|N].
    + rewrite E. unfold kp2, kpx, kpy. cbn [fst snd]. rewrite !fq0. unfold c0. apply cplx_eq; cbn; ring.
    + rewrite HZ; [unfold c0; apply cplx_eq; cbn; ring|]. destruct (half_index s jx jy Hj ltac:(tauto)) as [A _]. unfold n_modes. split; [|exact A]. pose proof (nhalf_pos s). assert (jx <> 0 \/ jy <> 0)%nat by (destruct (Nat.eq_dec jx 0), (Nat.eq_dec jy 0); subst; auto; exfalso; apply N; reflexivity). nia.
Qed.
(** ** Spectra of the purified field *)
Lemma zero_band (s : fsinfo) (bn : fbins F) (c : cuts F) (x y : list cplx) cl i : real_sqrt fsqrt -> contiguous bn -> length x = n_modes s -> length y = n_modes s -> (forall i, (0 < i < n_modes s)%nat -> nth i x c0 = c0 \/ nth i y c0 = c0) ->
  alm2cl1 pi fsqrt s bn c x y = Ok cl -> 0 < low bn i -> nth i cl 0 = 0.
Proof.
  intros HSQ Hc Lx Ly HZ E Hi. unfold alm2cl1 in E. rewrite (all_updates_eq pi fsqrt s bn c x y Hc Lx Ly) in E. cbn [bind] in E.
  rewrite (alm2cl_order pi fsqrt s bn c x y _ _ Hc Lx Ly (all_updates_eq pi fsqrt s bn c x y Hc Lx Ly) (Permutation_refl _)) in E. assert (Ec : cl = tab (n_bands bn) (fun i => average pi s (modes pi fsqrt s bn c i) (fun m => cdot (read_at s x m) (read_at s y m)))) by congruence.
  rewrite Ec. destruct (Nat.lt_ge_cases i (n_bands bn)) as [L|L]; [|apply nth_overflow; rewrite length_tab; exact L]. rewrite nth_tab by exact L. unfold average. destruct (Nat.eqb_spec (length (modes pi fsqrt s bn c i)) 0) as [|N]; [reflexivity|].
  assert (S : lsum (map (fun m => cdot (read_at s x m) (read_at s y m)) (modes pi fsqrt s bn c i)) / fofnat (length (modes pi fsqrt s bn c i)) = 0); [|rewrite S; ring].
  rewrite lsum_zero; [field; apply n_neq0; lia|].
  intros m Hm. apply filter_In in Hm. destruct Hm as [Hm Hb]. apply andb_prop in Hb. destruct Hb as [_ Hb]. assert (NZ : m <> (0, 0)%nat).
  { intros ->. unfold inb in Hb. apply andb_prop in Hb. destruct Hb as [Hb _]. unfold kmod_of, kmodf in Hb. cbn [fst snd] in Hb. apply (fle_not_lt (low bn i) 0); [|exact Hi]. unfold fle.
    replace (fsqrt (kxf pi s 0 * kxf pi s 0 + kyf pi s 0 * kyf pi s 0)) with (0 : F) in Hb; [exact Hb|]. replace (kxf pi s 0 * kxf pi s 0 + kyf pi s 0 * kyf pi s 0) with (0 : F) by (unfold kxf, kyf; rewrite !fq0; change (fofZ 0 : F) with (0 : F); ring).
    destruct (HSQ 0 (fle_refl 0)) as [_ S]. apply fmul_eq_0 in S. symmetry. tauto. }
  apply in_grid in Hm. destruct m as [mx my]. cbn [fst snd] in Hm. unfold read_at. cbn [fst snd].
  assert (HI : (0 < ix_here (fs_nx s) mx + nhalf s * my < n_modes s)%nat).
  { pose proof (ix_here_le (fs_nx s) mx ltac:(tauto)) as H1. change (fs_nx s / 2 + 1)%nat with (nhalf s) in H1. unfold n_modes. split; [|nia]. pose proof (nhalf_pos s). unfold ix_here. destruct (Nat.eq_dec mx 0) as [->|]; [|destruct (Nat.leb_spec (2 * mx) (fs_nx s)); lia]. destruct (Nat.eq_dec my 0) as [->|]; [exfalso; apply NZ; reflexivity | nia]. }
  destruct (HZ _ HI) as [-> | ->]; unfold cdot, c0; cbn [fst snd]; ring.
Qed.
Lemma same_fs_refl (s : fsinfo) : same_fs s s = true.
Proof. unfold same_fs. rewrite !Nat.eqb_refl. assert (X : forall x : F, (x =? x) = true) by (intro x; apply feqb_eq; reflexivity). rewrite !X. reflexivity. Qed.
(** Purified maps without B modes: all spectra of the field that involve B vanish in the bands above k=0, with itself and with any field [g] of the same geometry. *)
Theorem C80_bandpowers (a : flat_args) (q u : list F) (bx by_ cx cy : Z) (g : ffield F) (bn : fbins F) (c : cuts F) :
  let s := geometry a in exact_roots s -> real_sqrt fsqrt -> pi <> 0 -> plain_spin2 a q u -> g_pb a = true ->
  fs_lx s / fofnat (fs_nx s) = fs_ly s / fofnat (fs_ny s) ->
  (0 <= bx)%Z -> (0 <= by_)%Z -> (0 <= cx)%Z -> (0 <= cy)%Z -> (2 * (bx + cx) < Z.of_nat (fs_nx s))%Z -> (2 * (by_ + cy) < Z.of_nat (fs_ny s))%Z ->
  band_limited pi ph s bx by_ q -> band_limited pi ph s bx by_ u -> band_limited pi ph s cx cy (g_mask a) ->
  (forall e0 b0, fs_map2alm pi fsqrt ph s 2 [q; u] = Ok [e0; b0] -> forall i, (0 < i < n_modes s)%nat -> nth i b0 c0 = c0) ->
  contiguous bn -> ff_fs g = s -> ff_mask_only g = false -> (forall x, In x (ff_alms g) -> length x = n_modes s) ->
  exists f, flat_new pi fsqrt ph eigh a = Ok f /\
    (exists cl, py_coupled_cell pi fsqrt (f_base f) g bn c = Ok cl /\ length cl = (2 * length (ff_alms g))%nat /\
      forall j i, (j < length (ff_alms g))%nat -> 0 < low bn i -> nth i (nth (length (ff_alms g) + j) cl []) 0 = 0) /\
    (exists cl, py_coupled_cell pi fsqrt (f_base f) (f_base f) bn c = Ok cl /\ length cl = 4%nat /\ forall j i, (1 <= j)%nat -> 0 < low bn i -> nth i (nth j cl []) 0 = 0).
Proof.
  intros s HX HSQ Hpi HA Hp HP P1 P2 P3 P4 L1 L2 BQ BU BM HB Hc Gs Gm GL.
  destruct (C80_no_leakage a q u bx by_ cx cy HX HSQ Hpi HA) as [f [e [b [e0 [b0 [Ef [Ea [Le [Lb [E0 [HZ _]]]]]]]]]]]; try assumption; [rewrite Hp; apply Bool.orb_true_r|].
  specialize (HZ Hp (HB _ _ E0)). exists f. split; [exact Ef|].
  assert (Fb : ff_fs (f_base f) = s /\ ff_mask_only (f_base f) = false).
  { rewrite (new_pure a q u HA) in Ef by (rewrite Hp; apply Bool.orb_true_r). destruct (purify_flat _ _ _ _ _ _ _ _) as [[al pm]|x|]; [|discriminate|discriminate]. cbn [bind] in Ef. injection Ef as <-. split; reflexivity. }
  destruct Fb as [Fs Fm]. fold s in Le, Lb, HZ.
  assert (CL : forall x y, length x = n_modes s -> length y = n_modes s -> exists cl, alm2cl1 pi fsqrt s bn c x y = Ok cl).
  { intros x y Hx Hy. unfold alm2cl1. rewrite (all_updates_eq pi fsqrt s bn c x y Hc Hx Hy). cbn [bind]. rewrite (alm2cl_order pi fsqrt s bn c x y _ _ Hc Hx Hy (all_updates_eq pi fsqrt s bn c x y Hc Hx Hy) (Permutation_refl _)). eexists. reflexivity. }
  assert (ROW : forall x l, length x = n_modes s -> (forall y, In y l -> length y = n_modes s) -> exists r, mapM (fun a2 => alm2cl1 pi fsqrt s bn c x a2) l = Ok r /\ length r = length l /\ forall j, (j < length l)%nat -> alm2cl1 pi fsqrt s bn c x (nth j l []) = Ok (nth j r [])).
  { intros x l Hx. induction l as [|y l IH]; intro Hl; [exists []; split; [reflexivity|]; split; [reflexivity|]; cbn; intros; lia|]. destruct (CL x y Hx (Hl y (or_introl eq_refl))) as [v Ev]. destruct IH as [r [Er [Lr Hr]]]; [intros z Hz; apply Hl; right; exact Hz|].
    exists (v :: r). cbn [mapM]. rewrite Ev. cbn [bind]. rewrite Er. cbn [bind]. split; [reflexivity|]. split; [cbn; lia|]. intros [|j] Hj; [exact Ev | apply Hr; cbn in Hj; lia]. }
  assert (TWO : forall l, (forall y, In y l -> length y = n_modes s) -> exists r1 r2, fs_alm2cl pi fsqrt s bn c [e; b] l = Ok (r1 ++ r2) /\ length r1 = length l /\ length r2 = length l /\ (forall j, (j < length l)%nat -> alm2cl1 pi fsqrt s bn c e (nth j l []) = Ok (nth j r1 [])) /\ (forall j, (j < length l)%nat -> alm2cl1 pi fsqrt s bn c b (nth j l []) = Ok (nth j r2 []))).
  { intros l Hl. destruct (ROW e l Le Hl) as [r1 [E1 [M1 H1]]]. destruct (ROW b l Lb Hl) as [r2 [E2 [M2 H2]]]. exists r1, r2. unfold fs_alm2cl. cbn [mapM]. rewrite E1. cbn [bind]. rewrite E2. cbn [bind concat]. rewrite app_nil_r. repeat split; assumption. }
  unfold py_coupled_cell. rewrite Fs, Fm, Gs, Gm, Ea, !Nat.eqb_refl, same_fs_refl. cbn [andb orb negb]. split.
  - destruct (TWO (ff_alms g) GL) as [r1 [r2 [E [M1 [M2 [_ H2]]]]]]. exists (r1 ++ r2). split; [exact E|]. split; [rewrite app_length; lia|]. intros j i Hj Hi. rewrite app_nth2 by lia. replace (length (ff_alms g) + j - length r1)%nat with j by lia.
    apply (zero_band s bn c b (nth j (ff_alms g) [])); try assumption; [apply GL; apply nth_In; exact Hj | intros k Hk; left; apply HZ; exact Hk | apply H2; exact Hj].
  - destruct (TWO [e; b]) as [r1 [r2 [E [M1 [M2 [H1 H2]]]]]]; [intros y [<-|[<-|[]]]; assumption|]. exists (r1 ++ r2). split; [exact E|]. cbn [length] in *. split; [rewrite app_length; lia|]. intros j i Hj Hi.
    destruct (Nat.lt_ge_cases j 4) as [J|J]; [|rewrite (nth_overflow (r1 ++ r2)) by (rewrite app_length; lia); destruct i; reflexivity].
    destruct (Nat.eq_dec j 1) as [->|]; [rewrite app_nth1 by lia; apply (zero_band s bn c e b); try assumption; [intros k Hk; right; apply HZ; exact Hk | apply (H1 1%nat); lia]|].
    rewrite app_nth2 by lia. rewrite M1. assert (LN : length (nth (j - 2) [e; b] []) = n_modes s) by (destruct (j - 2)%nat as [|[|?]] eqn:?; [exact Le | exact Lb | lia]).
    apply (zero_band s bn c b (nth (j - 2) [e; b] [])); try assumption; [intros k Hk; left; apply HZ; exact Hk | apply H2; lia].
Qed.
(** ** Components that are not purified *)
Lemma purify_kept (s : fsinfo) flags mask walm maps e b pm : purify_flat pi fsqrt ph s flags mask walm maps = Ok ([e; b], pm) ->
  exists a, fs_map2alm pi fsqrt ph s 2 (map (product s mask) maps) = Ok a /\ (fst flags = false -> e = nth 0 a []) /\ (snd flags = false -> b = nth 1 a []).
Proof.
  unfold purify_flat. intro E. destruct (fs_map2alm pi fsqrt ph s 2 (map (product s mask) maps)) as [a|x|]; [|discriminate|discriminate]. cbn [bind] in E. exists a. split; [reflexivity|].
  destruct (field_maps pi fsqrt ph s 1 _) as [w1|x|]; [|discriminate|discriminate]. cbn [bind] in E. destruct (fs_map2alm pi fsqrt ph s 1 _) as [p1|x|]; [|discriminate|discriminate]. cbn [bind] in E.
  destruct (field_maps pi fsqrt ph s 2 (walm_x_lpower pi fsqrt s walm 2)) as [w2|x|]; [|discriminate|discriminate]. cbn [bind] in E. cbv zeta in E.
  destruct (field_maps pi fsqrt ph s 2 _) as [o|x|]; [|discriminate|discriminate]. cbn [bind] in E. injection E as E1 E2 _. unfold add_term in E1, E2. cbn [nth] in E1, E2. subst e b. split; intro Z; rewrite Z; reflexivity.
Qed.
Lemma subtract_product (s : fsinfo) (mask : list F) (al : list F) (t : list mat) (q u : list F) : length q = npix_fs s -> length u = npix_fs s -> (forall m, In m t -> length m = 2%nat) ->
  map (product s mask) (subtract s 2 al t [q; u]) = subtract s 2 al (map (map (product s mask)) t) (map (product s mask) [q; u]).
Proof.
  intros Lq Lu HT. unfold subtract. rewrite map_length. assert (HS : forall i, In i (seq 0 (length t)) -> (i < length t)%nat) by (intros i Hi; apply in_seq in Hi; lia). revert q u Lq Lu HS. generalize (seq 0 (length t)). intro l. induction l as [|i l IH]; intros q u Lq Lu HS; [reflexivity|].
  cbn [fold_left]. set (new := fun (m : mat) (tt : list mat) => tab 2 (fun c => tab (npix_fs s) (fun p => nth p (nth c m []) 0 - nth i al 0 * nth p (nth c (nth i tt []) []) 0))).
  change (tab 2 (fun c => tab (npix_fs s) (fun p => nth p (nth c [q; u] []) 0 - nth i al 0 * nth p (nth c (nth i t []) []) 0))) with (new [q; u] t).
  change (tab 2 (fun c => tab (npix_fs s) (fun p => nth p (nth c (map (product s mask) [q; u]) []) 0 - nth i al 0 * nth p (nth c (nth i (map (map (product s mask)) t) []) []) 0))) with (new (map (product s mask) [q; u]) (map (map (product s mask)) t)).
  assert (E : new (map (product s mask) [q; u]) (map (map (product s mask)) t) = map (product s mask) (new [q; u] t)).
  { assert (Hi := HS i (or_introl eq_refl)). assert (L2 := HT (nth i t []) (nth_In _ _ Hi)). unfold new. rewrite (nth_indep (map (map (product s mask)) t) [] (map (product s mask) [])) by (rewrite map_length; exact Hi). rewrite map_nth.
    destruct (nth i t []) as [|t0 [|t1 [|? ?]]]; try discriminate L2. cbn [map]. match goal with |- tab 2 ?f = map ?h (tab 2 ?g) => change ([f 0%nat; f 1%nat] = [h (g 0%nat); h (g 1%nat)]) end. f_equal; [|f_equal]; unfold product; apply tab_ext; intros p Hp; cbn [nth]; rewrite !nth_tab by exact Hp; ring. }
  rewrite E. change (new [q; u] t) with [nth 0 (new [q; u] t) []; nth 1 (new [q; u] t) []]. apply IH; [unfold new; cbn [nth tab]; apply length_tab | unfold new; cbn [nth tab]; apply length_tab | intros j Hj; apply HS; right; exact Hj].
Qed.
Definition without_purification (a : flat_args) : flat_args :=
  FlatArgs (g_nx a) (g_ny a) (g_lx a) (g_ly a) (g_mask a) (g_maps a) (g_spin a) (g_temp a) (g_beam a) false false (g_tol a) (g_masked a) (g_lite a).
(** Purifying one component leaves the other as in the field without purification, for any templates, if the maps were not multiplied by the mask before. *)
Theorem C80_other_component (a : flat_args) (f : flat_field) : g_masked a = false -> flat_new pi fsqrt ph eigh a = Ok f -> (g_pe a || g_pb a)%bool = true -> g_maps a <> None ->
  exists f', flat_new pi fsqrt ph eigh (without_purification a) = Ok f' /\ f_iM f' = f_iM f /\ 
    (g_pe a = false -> nth 0 (ff_alms (f_base f)) [] = nth 0 (ff_alms (f_base f')) []) /\ (g_pb a = false -> nth 1 (ff_alms (f_base f)) [] = nth 1 (ff_alms (f_base f')) []).
Proof.
  intros Ek Ef Hp Hm. unfold flat_new in *. unfold without_purification. cbn [g_nx g_ny g_lx g_ly g_mask g_maps g_spin g_temp g_beam g_pe g_pb g_tol g_masked g_lite].
  destruct (((g_lx a <? 0) || (g_ly a <? 0))%bool); [discriminate|]. destruct (g_maps a) as [ms|]; [|congruence]. destruct (spin_from (length ms) (g_spin a)) as [sp|x|] eqn:Esp; [|discriminate|discriminate]. cbn [bind] in *.
  rewrite Hp in Ef. cbn [andb orb negb] in *. destruct (Z.eqb_spec sp 2) as [->|]; [|discriminate Ef]. cbn [negb] in *. destruct (negb (forallb (fun m => Nat.eqb (length m) (g_nx a * g_ny a)) ms)) eqn:EL; [discriminate|].
  destruct (temps_from (g_temp a) (length ms) (g_nx a * g_ny a)) as [ts|x|] eqn:ET; [|discriminate|discriminate]. cbn [bind] in *. destruct (negb ((0 <? g_lx a) && (0 <? g_ly a))); [discriminate|].
  assert (LM : exists q u, ms = [q; u]).
  { unfold spin_from in Esp. destruct ms as [|q [|u [|? ?]]]; cbn [length Nat.eqb orb negb andb] in Esp; try discriminate Esp; [|eauto]. destruct (g_spin a) as [x|]; [|discriminate Esp]. destruct (Z.eqb_spec x 0); cbn [andb orb negb] in Esp; [congruence | discriminate]. }
  destruct LM as [q [u ->]]. cbn [length] in ET. apply Bool.negb_false_iff in EL. cbn [forallb] in EL. apply andb_prop in EL. destruct EL as [Lq EL]. apply andb_prop in EL. destruct EL as [Lu _]. apply Nat.eqb_eq in Lq, Lu.
  set (s := FS (g_nx a) (g_ny a) (g_lx a) (g_ly a)) in *. change (g_nx a * g_ny a)%nat with (npix_fs s) in *.
  assert (HT : forall m, In m ts -> length m = 2%nat).
  { intros m Hin. unfold temps_from in ET. destruct (g_temp a) as [|[|t0 tr]|]; try discriminate ET; [injection ET as <-; contradiction|]. destruct (forallb _ _) eqn:G; [|discriminate ET]. injection ET as <-. rewrite forallb_forall in G. specialize (G m Hin). apply andb_prop in G. destruct G as [G _]. apply Nat.eqb_eq in G. exact G. }
  unfold field_flat_alloc in *. rewrite Hp in Ef. rewrite Ek in *. cbn [Z.eqb Pos.eqb andb orb negb] in *. rewrite ?map_id in Ef. rewrite map_length in Ef |- *.
  set (dep := if (0 <? length ts)%nat then do iM <- pinv eigh (temp_matrix s 2 (map (map (product s (g_mask a))) ts)) (g_tol a); Ok (Some iM) else Ok None) in *.
  destruct dep as [d|x|]; [|discriminate|discriminate]. cbn [bind] in *.
  set (al := match d with Some iM => amplitudes s 2 iM (map (map (product s (g_mask a))) ts) (map (product s (g_mask a)) [q; u]) | None => [] end) in *. clearbody al.
  destruct (purify_flat pi fsqrt ph s (g_pe a, g_pb a) (g_mask a) (map2alm0 pi ph s (g_mask a)) (subtract s 2 al ts [q; u])) as [[als pm]|x|] eqn:EP; [|discriminate|discriminate]. cbn [bind] in Ef.
  assert (A2 : exists e b, als = [e; b]).
  { unfold purify_flat in EP. destruct (fs_map2alm _ _ _ _ _ _); [|discriminate|discriminate]. cbn [bind] in EP. destruct (field_maps _ _ _ _ _ _); [|discriminate|discriminate]. cbn [bind] in EP. destruct (fs_map2alm _ _ _ _ _ _); [|discriminate|discriminate]. cbn [bind] in EP. destruct (field_maps _ _ _ _ _ _); [|discriminate|discriminate]. cbn [bind] in EP. cbv zeta in EP. destruct (field_maps _ _ _ _ _ _); [|discriminate|discriminate]. cbn [bind] in EP. injection EP as <- _. unfold add_term. eauto. }
  destruct A2 as [e [b ->]]. destruct (purify_kept _ _ _ _ _ _ _ _ EP) as [al' [E' [K1 K2]]]. cbn [fst snd] in K1, K2. rewrite (subtract_product s (g_mask a) al ts q u Lq Lu HT) in E'. change (fun m : mat => map (product s (g_mask a)) m) with (map (product s (g_mask a))). rewrite E'. cbn [bind].
  assert (AT : exists at_, (if g_lite a then Ok [] else mapM (fs_map2alm pi fsqrt ph s 2) (map (map (product s (g_mask a))) ts)) = Ok at_).
  { destruct (g_lite a); [eauto|]. clear Ef ET EP E' K1 K2. induction ts as [|m ts IH]; [exists []; reflexivity|]. destruct IH as [r Er]; [intros; apply HT; right; assumption|]. pose proof (HT m (or_introl eq_refl)) as L2. destruct m as [|x [|y [|? ?]]]; try discriminate L2.
    destruct (map2alm_spin pi fsqrt ph s 2 (product s (g_mask a) x) (product s (g_mask a) y)) as [? [? [E _]]]; [lia|]. cbn [map mapM]. rewrite E. cbn [bind]. rewrite Er. cbn [bind]. eauto. }
  destruct AT as [at_ EA]. rewrite EA. cbn [bind]. eexists. split; [reflexivity|]. cbn [f_base f_iM ff_alms].
  destruct (if g_lite a then Ok [] else _) as [at2|x|] in Ef; [|discriminate|discriminate]. cbn [bind] in Ef. injection Ef as <-. cbn [f_base f_iM ff_alms nth]. split; [reflexivity|]. split; assumption.
Qed.
(** ** Leakage *)
Lemma root_ratio (a b c d : F) : real_sqrt fsqrt -> 0 < a -> 0 < b -> 0 < c -> 0 < d -> b / fsqrt (a * a + b * b) = d / fsqrt (c * c + d * d) -> b * c = d * a.
Proof.
  intros HSQ Pa Pb Pc Pd E. assert (P : forall x y : F, 0 < x -> 0 < y -> fsqrt (x * x + y * y) <> 0 /\ fsqrt (x * x + y * y) * fsqrt (x * x + y * y) = x * x + y * y).
  { intros x y Px Py. destruct (HSQ (x * x + y * y)) as [_ S]; [apply fadd_nonneg; apply fsqr_nonneg|]. split; [|exact S]. intro Z. rewrite Z in S. assert (0 < x * x + y * y) as P. { apply (flt_le_trans 0 (x * x)); [apply fmul_pos; exact Px|]. replace (x * x) with (x * x + 0) at 1 by ring. apply fle_add_l. apply fsqr_nonneg. } apply (fpos_neq _ P). rewrite <- S. ring. }
  destruct (P a b Pa Pb) as [N1 S1]. destruct (P c d Pc Pd) as [N2 S2]. set (A := fsqrt (a * a + b * b)) in *. set (C := fsqrt (c * c + d * d)) in *. clearbody A C.
  assert (E' : b * C = d * A) by (transitivity (b / A * (A * C)); [field; exact N1 | rewrite E; field; exact N2]).
  assert (E2 : b * b * (c * c + d * d) = d * d * (a * a + b * b)) by (rewrite <- S1, <- S2; transitivity ((b * C) * (b * C)); [ring | rewrite E'; ring]).
  apply sqrt_unique; [apply flt_le; apply fmul_pos; assumption | apply flt_le; apply fmul_pos; assumption|]. transitivity (b * b * (c * c + d * d) - b * b * (d * d)); [ring | rewrite E2; ring].
Qed.
Section Wit.
Variables (nx ny : nat) (lx ly : F).
Let s : fsinfo := FS nx ny lx ly.
Hypothesis (HX : exact_roots s) (HSQ : real_sqrt fsqrt) (Hpi : 0 < pi) (Hnx : (3 <= nx)%nat) (Hny : (3 <= ny)%nat) (Hlx : 0 < lx) (Hly : 0 < ly).
Lemma N0x : (0 < fs_nx s)%nat. Proof. cbn; lia. Qed.
Lemma N0y : (0 < fs_ny s)%nat. Proof. cbn; lia. Qed.
Lemma root_1 : ph (fs_nx s) 0%nat = (1, 0) /\ ph (fs_ny s) 0%nat = (1, 0).
Proof. apply root_0; [exact (proj2 (proj2 HX)) | exact N0x | exact N0y]. Qed.
Lemma wave_unit p m : In p (grid s) -> In m (grid s) -> fst (wave ph s m p) * fst (wave ph s m p) + snd (wave ph s m p) * snd (wave ph s m p) = 1.
Proof.
  intros Hp Hm. destruct HX as [HR [HH HF]]. apply in_grid in Hp, Hm. destruct root_1 as [R1 R2].
  assert (U : forall n j, (0 < n)%nat -> ph n 0%nat = (1, 0) -> (forall i k, (i < n)%nat -> (k < n)%nat -> ph n (diff n i k) = cmul (ph n i) (conjc (ph n k))) -> let w := ph n (j mod n)%nat in fst w * fst w + snd w * snd w = 1).
  { intros n j Hn H1 Hh w. unfold w. pose proof (Nat.mod_upper_bound j n ltac:(lia)) as B. pose proof (Hh _ _ B B) as E. unfold diff in E. rewrite Nat.leb_refl, Nat.sub_diag, H1 in E. injection E as E _. rewrite E. unfold conjc. cbn [fst snd]. ring. }
  unfold wave. pose proof (U (fs_nx s) (fst m * fst p)%nat N0x R1 (proj1 HH)) as U1. pose proof (U (fs_ny s) (snd m * snd p)%nat N0y R2 (proj2 HH)) as U2. cbv zeta in U1, U2.
  set (w1 := ph (fs_nx s) ((fst m * fst p) mod fs_nx s)) in *. set (w2 := ph (fs_ny s) ((snd m * snd p) mod fs_ny s)) in *. clearbody w1 w2. cbn [cmul fst snd].
  transitivity ((fst w1 * fst w1 + snd w1 * snd w1) * (fst w2 * fst w2 + snd w2 * snd w2)); [unfold cmul; cbn [fst snd]; ring | rewrite U1, U2; ring].
Qed.
Lemma mask_nonneg : length (wmask ph s) = (nx * ny)%nat /\ forall x, In x (wmask ph s) -> 0 <= x.
Proof.
  split; [unfold wmask, cos_map; apply length_tab|]. intros x Hx. unfold wmask, cos_map, tab in Hx. apply in_map_iff in Hx. destruct Hx as [i [<- Hi]]. apply in_seq in Hi. unfold npix_fs in Hi. cbn [fs_nx fs_ny s] in Hi.
  assert (G : In (i mod nx, i / nx)%nat (grid s)) by (apply in_grid; cbn [fst snd fs_nx fs_ny s]; split; [apply Nat.mod_upper_bound; lia | apply Nat.div_lt_upper_bound; lia]).
  assert (G1 : In (0, 1)%nat (grid s)) by (apply in_grid; cbn; lia). pose proof (wave_unit _ _ G G1) as U. change (fs_nx s) with nx. set (w := fst (wave ph s (0, 1)%nat (i mod nx, i / nx)%nat)) in *. set (v := snd (wave ph s (0, 1)%nat (i mod nx, i / nx)%nat)) in *. clearbody w v.
  destruct (fle_lt_dec 0 (1 + w)) as [L|L]; [replace (fofZ 2 + fofZ 2 * w) with ((1 + w) + (1 + w)) by (change (fofZ 2 : F) with ((1 : F) + 1); ring); apply fadd_nonneg; exact L|]. exfalso.
  assert (P : 0 < - (1 + w)) by (apply flt_sub_0 in L; replace (- (1 + w)) with (0 - (1 + w)) by ring; exact L). assert (P2 : 0 < - (1 + w) * (1 - w)).
  { apply fmul_pos; [exact P|]. replace (1 - w) with (1 + 1 + - (1 + w)) by ring. apply (flt_le_trans 0 (- (1 + w))); [exact P|]. replace (- (1 + w)) with (0 + - (1 + w)) at 1 by ring. apply fle_add_r. apply fadd_nonneg; apply f0_le_1. }
  assert (Z : - (1 + w) * (1 - w) = - (v * v)) by (transitivity (w * w - (w * w + v * v)); [rewrite U; ring | ring]). rewrite Z in P2. apply (flt_irrefl (0 : F)). apply (flt_le_trans 0 (- (v * v))); [exact P2|]. apply fle_sub_0. replace (0 - - (v * v)) with (v * v) by ring. apply fsqr_nonneg.
Qed.
Let K : F := fsqrt (fofZ 2 * pi / lx * (fofZ 2 * pi / lx) + fofZ 2 * pi / ly * (fofZ 2 * pi / ly)).
Lemma two_pos : @flt F 0 (fofZ 2).
Proof. change (fofZ 2 : F) with ((1 : F) + 1). apply (flt_le_trans 0 1); [apply f0_lt_1|]. replace (1 : F) with (0 + 1 : F) at 1 by ring. apply fle_add_r. apply f0_le_1. Qed.
Lemma step_pos (l : F) : 0 < l -> 0 < fofZ 2 * pi / l.
Proof. intro P. replace (fofZ 2 * pi / l) with (fofZ 2 * pi * / l) by (field; apply fpos_neq; exact P). apply fmul_pos; [apply fmul_pos; [exact two_pos | exact Hpi] | apply finv_pos; exact P]. Qed.
Lemma n_pos n : (0 < n)%nat -> @flt F 0 (fofnat n).
Proof. intro H. destruct n; [lia | apply fofnat_pos]. Qed.
Lemma sqrt_pos (x : F) : 0 < x -> 0 < fsqrt x /\ fsqrt x * fsqrt x = x.
Proof. intro P. destruct (HSQ x (flt_le _ _ P)) as [S1 S2]. split; [|exact S2]. apply fle_neq_lt; [exact S1|]. intro Z. rewrite <- Z in S2. apply (fpos_neq _ P). rewrite <- S2. ring. Qed.
Lemma sq_pos (a b : F) : 0 < a -> 0 <= b -> 0 < a * a + b * b.
Proof. intros Pa Pb. apply (flt_le_trans 0 (a * a)); [apply fmul_pos; exact Pa|]. replace (a * a) with (a * a + 0) at 1 by ring. apply fle_add_l. apply fsqr_nonneg. Qed.
Lemma dir_11 : dir pi fsqrt s (1, 1)%nat = (fofZ 2 * pi / lx / K, fofZ 2 * pi / ly / K) /\ 0 < K.
Proof.
  pose proof (step_pos lx Hlx) as Px. pose proof (step_pos ly Hly) as Py. pose proof (sq_pos _ _ Px (flt_le _ _ Py)) as P. destruct (sqrt_pos _ P) as [PK _]. fold K in PK. split; [|exact PK].
  unfold dir, kxf, kyf, dkx, dky. cbn [fst snd fs_nx fs_ny fs_lx fs_ly s]. rewrite !fq1 by assumption. change (fofZ 1 : F) with (1 : F).
  set (x := fofZ 2 * pi / lx) in *. set (y := fofZ 2 * pi / ly) in *. unfold cphi. cbv zeta. replace (1 * x * (1 * x) + 1 * y * (1 * y)) with (x * x + y * y) by ring.
  destruct (x * x + y * y <=? 0) eqn:E; [exfalso; apply (flt_not_le _ _) in P; apply P; exact E|]. fold K. f_equal; field; apply fpos_neq; exact PK.
Qed.
Lemma dir_01 : dir pi fsqrt s (0, 1)%nat = (0, 1).
Proof.
  pose proof (step_pos ly Hly) as Py. unfold dir, kxf, kyf, dkx, dky. cbn [fst snd fs_nx fs_ny fs_lx fs_ly s]. rewrite fq0, fq1 by assumption. change (fofZ 1 : F) with (1 : F). change (fofZ 0 : F) with (0 : F).
  set (y := fofZ 2 * pi / ly) in *. unfold cphi. cbv zeta. set (x := fofZ 2 * pi / lx). replace (0 * x * (0 * x) + 1 * y * (1 * y)) with (y * y) by ring. assert (P : 0 < y * y) by (apply fmul_pos; exact Py).
  destruct (y * y <=? 0) eqn:E; [exfalso; apply (flt_not_le _ _) in P; apply P; exact E|]. destruct (sqrt_pos _ P) as [S1 S2]. assert (E1 : fsqrt (y * y) = y) by (apply sqrt_unique; [apply flt_le; exact S1 | apply flt_le; exact Py | exact S2]). rewrite E1. f_equal; field; apply fpos_neq; exact Py.
Qed.
(** unmasked maps without B modes *)
Lemma no_b e0 b0 : fs_map2alm pi fsqrt ph s 2 [qmap ph s; umap s] = Ok [e0; b0] -> forall i, (i < n_modes s)%nat -> nth i b0 c0 = c0.
Proof.
  intros E i Hi. destruct HX as [HR [HH HF]]. destruct (map2alm_spin pi fsqrt ph s 2 (qmap ph s) (umap s)) as [e' [b' [E' [_ [_ H]]]]]; [lia|]. rewrite E in E'. injection E' as <- <-.
  pose proof (nhalf_pos s) as NH. unfold n_modes in Hi. pose proof (Nat.div_mod i (nhalf s) ltac:(lia)) as D. pose proof (Nat.mod_upper_bound i (nhalf s) ltac:(lia)) as M. assert (Iy : (i / nhalf s < fs_ny s)%nat) by (apply Nat.div_lt_upper_bound; lia).
  set (ix := (i mod nhalf s)%nat) in *. set (iy := (i / nhalf s)%nat) in *. clearbody ix iy. replace i with (ix + nhalf s * iy)%nat by lia. specialize (H ix iy M Iy). unfold full_eb, eb_of, rot_at in H. cbn [fst snd] in H.
  assert (Hl : In (ix, iy) (grid s)) by (apply in_grid; cbn [fst snd]; split; [apply (half_lt s N0x N0y); exact M | exact Iy]).
  change (cphi fsqrt (kxf pi s ix) (kyf pi s iy)) with (dir pi fsqrt s (ix, iy)) in H.
  rewrite (coeff_u pi fsqrt ph s N0x N0y Hnx Hny) in H. rewrite (coeff_q pi fsqrt ph s (fpos_neq _ Hpi) HR HH HF N0x N0y root_1 Hnx Hny _ Hl) in H.
  change (Z.to_nat 2) with 2%nat in H. assert (S : iy = 0%nat -> snd (dir pi fsqrt s (ix, iy)) = 0).
  { intros ->. unfold dir, cphi. cbn [fst snd]. replace (kyf pi s 0) with (0 : F) by (unfold kyf; rewrite fq0; change (fofZ 0 : F) with (0 : F); ring). cbv zeta. destruct (_ <=? 0); cbn [snd]; ring. }
  destruct (dir pi fsqrt s (ix, iy)) as [c sn]. cbn [snd] in S. cbn [rotn fst snd] in H. change (sig 2 2 : cplx) with ((- (1) * - (1), - (1) * 0) : cplx) in H. apply (f_equal snd) in H. cbn [snd] in H. rewrite H. clear H E.
  destruct (pair_dec (ix, iy) (1, 0)%nat) as [E1|N1]; [injection E1 as _ Z; rewrite (S Z); unfold c0; apply cplx_eq; cbn [cmul cscal cadd csub fst snd]; ring|].
  destruct (pair_dec (ix, iy) (fs_nx s - 1, 0)%nat) as [E1|N2]; [injection E1 as _ Z; rewrite (S Z)|]; unfold c0; apply cplx_eq; cbn [cmul cscal cadd csub fst snd]; ring.
Qed.
Lemma in_11 : (1 < nhalf s)%nat /\ (1 < fs_ny s)%nat.
Proof. unfold nhalf. cbn [fs_nx fs_ny s]. split; [|lia]. pose proof (Nat.div_le_mono 2 nx 2 ltac:(lia) ltac:(lia)) as H. change (2 / 2)%nat with 1%nat in H. lia. Qed.
Lemma area_neq : area pi s <> 0.
Proof. pose proof (step_pos lx Hlx). pose proof two_pos as P2. apply fpos_neq. unfold area. cbn [fs_lx fs_ly s]. replace (lx * ly / (fofZ 2 * pi)) with (lx * ly * / (fofZ 2 * pi)) by (field; split; apply fpos_neq; assumption). apply fmul_pos; [apply fmul_pos; assumption | apply finv_pos; apply fmul_pos; assumption]. Qed.
(** the B coefficient of the masked maps at (1,1) *)
Lemma leak flags : exists e b pm, purify_flat pi fsqrt ph s flags (wmask ph s) (map2alm0 pi ph s (wmask ph s)) [qmap ph s; umap s] = Ok ([e; b], pm) /\
  nth (1 + nhalf s * 1) b c0 = (area pi s * (fofZ 2 * (dcos pi fsqrt s (1, 1)%nat) * (dsin pi fsqrt s (1, 1)%nat - if snd flags then rat pi fsqrt s (1, 1)%nat (0, 1)%nat else 0)), 0).
Proof.
  destruct HX as [HR [HH HF]]. assert (Nx : fs_lx s <> 0) by (apply fpos_neq; exact Hlx). assert (Ny : fs_ly s <> 0) by (apply fpos_neq; exact Hly). assert (Np := fpos_neq _ Hpi).
  destruct (purify_spec pi fsqrt ph s HSQ Np Nx Ny HR HH HF N0x N0y (wmask ph s)) with (flags := flags) (q := qmap ph s) (u := umap s) as [e [b [pm [EP [_ [_ HB]]]]]].
  { intros m Hm E. apply (limited_edge pi ph s N0x N0y 0 1); try assumption; [cbn [fs_nx s]; lia | cbn [fs_ny s]; lia | apply (mask_limited pi fsqrt ph s Np HR HH HF N0x N0y root_1 Hnx Hny)]. }
  exists e, b, pm. split; [exact EP|]. destruct in_11 as [I1 I2]. destruct (HB 1%nat 1%nat I1 I2) as [_ HBB]; [discriminate|]. cbv zeta in HBB. rewrite HBB.
  pose proof (meet pi fsqrt ph s Np Nx Ny HR HH HF N0x N0y root_1 Hnx Hny (fun q' => if snd flags then beta pi fsqrt s (1, 1)%nat q' else fofZ 2 * (dcos pi fsqrt s (1, 1)%nat * dsin pi fsqrt s (1, 1)%nat)) (fun q' => if snd flags then alpha pi fsqrt s (1, 1)%nat q' else dcos pi fsqrt s (1, 1)%nat * dcos pi fsqrt s (1, 1)%nat - dsin pi fsqrt s (1, 1)%nat * dsin pi fsqrt s (1, 1)%nat)) as M.
  cbv zeta in M. rewrite M. f_equal. destruct (snd flags); [|ring]. unfold beta. replace (dcos pi fsqrt s (0, 1)%nat) with (0 : F) by (unfold dcos; rewrite dir_01; reflexivity). replace (dsin pi fsqrt s (0, 1)%nat) with (1 : F) by (unfold dsin; rewrite dir_01; reflexivity). ring.
Qed.
(** at (1,1) both directions contribute; the purified coefficient vanishes only for square pixels *)
Lemma leak_factor : dcos pi fsqrt s (1, 1)%nat <> 0 /\ dsin pi fsqrt s (1, 1)%nat <> 0 /\ (dsin pi fsqrt s (1, 1)%nat = rat pi fsqrt s (1, 1)%nat (0, 1)%nat -> lx * fofnat ny = ly * fofnat nx).
Proof.
  destruct dir_11 as [D PK]. pose proof (step_pos lx Hlx) as Px. pose proof (step_pos ly Hly) as Py. pose proof (step_pos _ (n_pos nx ltac:(lia))) as Qx. pose proof (step_pos _ (n_pos ny ltac:(lia))) as Qy.
  assert (NK := fpos_neq _ PK). unfold dcos, dsin. rewrite D. cbn [fst snd]. assert (DV : forall x, 0 < x -> x / K <> 0) by (intros x P Z; apply (fpos_neq _ P); transitivity (x / K * K); [field; exact NK | rewrite Z; ring]).
  split; [apply DV; exact Px|]. split; [apply DV; exact Py|]. intro E. unfold rat, kp, kp2, kpx, kpy in E. cbn [fst snd fs_nx fs_ny s] in E. rewrite fq0, !fq1 in E by assumption. change (fofZ 1 : F) with (1 : F) in E. change (fofZ 0 : F) with (0 : F) in E.
  set (x := fofZ 2 * pi / fofnat nx) in *. set (y := fofZ 2 * pi / fofnat ny) in *. replace (0 * x * (0 * x) + 1 * y * (1 * y)) with (y * y) in E by ring. replace (1 * x * (1 * x) + 1 * y * (1 * y)) with (x * x + y * y) in E by ring.
  assert (SY : fsqrt (y * y) = y) by (destruct (sqrt_pos (y * y)) as [S1 S2]; [apply fmul_pos; exact Qy|]; apply sqrt_unique; [apply flt_le; exact S1 | apply flt_le; exact Qy | exact S2]). rewrite SY in E. unfold K in E.
  pose proof (root_ratio _ _ _ _ HSQ Px Py Qx Qy E) as R. unfold x, y in R. pose proof (fpos_neq _ Hlx). pose proof (fpos_neq _ Hly). pose proof (fpos_neq _ (n_pos nx ltac:(lia))) as Nnx. pose proof (fpos_neq _ (n_pos ny ltac:(lia))) as Nny. pose proof (fpos_neq _ Hpi) as Np. pose proof (fpos_neq _ two_pos) as N2.
  transitivity (fofZ 2 * pi / ly * (fofZ 2 * pi / fofnat nx) * (lx * ly * fofnat nx * fofnat ny) / (fofZ 2 * fofZ 2 * pi * pi)); [field; auto 10 | rewrite R; field; auto 10].
Qed.
(** Every geometry has a mask, with no negative value, and maps, free of B modes, both without any mode above the first, with the following two properties. *)
Definition leaky (mask q u : list F) : Prop :=
  length mask = (nx * ny)%nat /\ (forall x, In x mask -> 0 <= x) /\ length q = (nx * ny)%nat /\ length u = (nx * ny)%nat /\
  band_limited pi ph s 0 1 mask /\ band_limited pi ph s 1 0 q /\ band_limited pi ph s 1 0 u /\
  exists e0 b0, fs_map2alm pi fsqrt ph s 2 [q; u] = Ok [e0; b0] /\ forall i, (i < n_modes s)%nat -> nth i b0 c0 = c0.
Lemma leaky_maps : leaky (wmask ph s) (qmap ph s) (umap s).
Proof.
  destruct HX as [HR [HH HF]]. assert (Np := fpos_neq _ Hpi). destruct mask_nonneg as [M1 M2]. unfold leaky. split; [exact M1|]. split; [exact M2|]. split; [unfold qmap, cos_map; apply length_tab|]. split; [unfold umap; apply length_tab|].
  split; [apply (mask_limited pi fsqrt ph s Np HR HH HF N0x N0y root_1 Hnx Hny)|]. split; [apply (q_limited pi fsqrt ph s Np HR HH HF N0x N0y root_1 Hnx Hny)|]. split; [apply (u_limited pi fsqrt ph s N0x N0y Hnx Hny)|].
  destruct (map2alm_spin pi fsqrt ph s 2 (qmap ph s) (umap s)) as [e [b [E _]]]; [lia|]. exists e, b. split; [exact E | exact (no_b e b E)].
Qed.
(** the field made of these maps *)
Definition leaky_field (a : flat_args) (mask q u : list F) : Prop := geometry a = s /\ g_mask a = mask /\ plain_spin2 a q u.
(** C80: without purification of B the field has B modes, whatever the size of the pixels. *)
Theorem C80_needed : exists mask q u, leaky mask q u /\ forall a, leaky_field a mask q u -> g_pb a = false -> exists f i, flat_new pi fsqrt ph eigh a = Ok f /\ (0 < i < n_modes s)%nat /\ nth i (nth 1 (ff_alms (f_base f)) []) c0 <> c0.
Proof.
  exists (wmask ph s), (qmap ph s), (umap s). split; [exact leaky_maps|]. intros a [Eg [Em HA]] Hb. destruct (leak (g_pe a, false)) as [e [b [pm [EP EB]]]]. cbn [snd] in EB. destruct leak_factor as [NC [NS _]]. pose proof area_neq as NA. pose proof two_pos as P2.
  assert (NZ : nth (1 + nhalf s * 1) b c0 <> c0).
  { rewrite EB. unfold c0. intro Z. apply (f_equal fst) in Z. cbn [fst] in Z. apply fmul_eq_0 in Z. destruct Z as [Z|Z]; [contradiction|]. apply fmul_eq_0 in Z. destruct Z as [Z|Z]; [apply fmul_eq_0 in Z; destruct Z as [Z|Z]; [apply (fpos_neq _ P2); exact Z | contradiction]|]. apply NS. transitivity (dsin pi fsqrt s (1, 1)%nat - 0); [ring | exact Z]. }
  assert (HI : (0 < 1 + nhalf s * 1 < n_modes s)%nat) by (destruct in_11 as [I1 I2]; unfold n_modes; nia).
  destruct (g_pe a) eqn:Pe.
  - rewrite (new_pure a _ _ HA) by (rewrite Pe; reflexivity). rewrite Eg, Em, Pe, Hb, EP. cbn [bind]. eexists _, (1 + nhalf s * 1)%nat. split; [reflexivity|]. split; [exact HI|]. cbn [f_base ff_alms nth]. exact NZ.
  - destruct (purify_kept _ _ _ _ _ _ _ _ EP) as [al [E' [_ K2]]]. specialize (K2 eq_refl).
    set (a' := FlatArgs (g_nx a) (g_ny a) (g_lx a) (g_ly a) (g_mask a) (g_maps a) (g_spin a) (g_temp a) (g_beam a) true false (g_tol a) (g_masked a) (g_lite a)).
    assert (HA' : plain_spin2 a' (qmap ph s) (umap s)) by exact HA. destruct (leak (true, false)) as [e' [b' [pm' [EP' EB']]]].
    assert (En : exists f, flat_new pi fsqrt ph eigh a' = Ok f /\ nth 1 (ff_alms (f_base f)) [] = b').
    { rewrite (new_pure a' _ _ HA') by reflexivity. change (geometry a') with (geometry a). change (g_mask a') with (g_mask a). change (g_pe a', g_pb a') with (true, false). rewrite Eg, Em, EP'. cbn [bind]. eexists. split; reflexivity. }
    destruct En as [f [Ef Eb]]. assert (EW : without_purification a' = a) by (destruct a; cbn in Pe, Hb |- *; unfold without_purification; cbn; subst; reflexivity).
    destruct (C80_other_component a' f) as [f' [Ef' [_ [_ KB]]]]; [destruct HA as [_ [_ [_ [Ek _]]]]; exact Ek | exact Ef | reflexivity | destruct HA as [Emm _]; change (g_maps a') with (g_maps a); rewrite Emm; discriminate|].
    rewrite EW in Ef'. exists f', (1 + nhalf s * 1)%nat. split; [exact Ef'|]. split; [exact HI|]. rewrite <- (KB eq_refl), Eb, EB'. rewrite EB in NZ. exact NZ.
Qed.
(** C64: purification measures wavenumbers in units of inverse pixels of each axis: if the pixels are not square, the purified field has B modes although the maps have none. *)
Theorem C64_purification_refuted : lx / fofnat nx <> ly / fofnat ny -> exists mask q u, leaky mask q u /\ forall a, leaky_field a mask q u -> g_pb a = true -> exists f i, flat_new pi fsqrt ph eigh a = Ok f /\ (0 < i < n_modes s)%nat /\ nth i (nth 1 (ff_alms (f_base f)) []) c0 <> c0.
Proof.
  intro NS. exists (wmask ph s), (qmap ph s), (umap s). split; [exact leaky_maps|]. intros a [Eg [Em HA]] Hb. destruct (leak (g_pe a, true)) as [e [b [pm [EP EB]]]]. cbn [snd] in EB. destruct leak_factor as [NC [_ SQ]]. pose proof area_neq as NA. pose proof two_pos as P2.
  rewrite (new_pure a _ _ HA) by (rewrite Hb; apply Bool.orb_true_r). rewrite Eg, Em, Hb, EP. cbn [bind]. eexists _, (1 + nhalf s * 1)%nat. split; [reflexivity|]. split; [destruct in_11 as [I1 I2]; unfold n_modes; nia|]. cbn [f_base ff_alms nth]. rewrite EB. unfold c0. intro Z.
  apply (f_equal fst) in Z. cbn [fst] in Z. apply fmul_eq_0 in Z. destruct Z as [Z|Z]; [contradiction|]. apply fmul_eq_0 in Z. destruct Z as [Z|Z]; [apply fmul_eq_0 in Z; destruct Z as [Z|Z]; [apply (fpos_neq _ P2); exact Z | contradiction]|].
  apply NS. assert (E : lx * fofnat ny = ly * fofnat nx). { apply SQ. transitivity (dsin pi fsqrt s (1, 1)%nat - rat pi fsqrt s (1, 1)%nat (0, 1)%nat + rat pi fsqrt s (1, 1)%nat (0, 1)%nat); [ring | rewrite Z; ring]. }
  pose proof (fpos_neq _ (n_pos nx ltac:(lia))) as Nnx. pose proof (fpos_neq _ (n_pos ny ltac:(lia))) as Nny. transitivity (lx * fofnat ny / (fofnat nx * fofnat ny)); [field; auto | rewrite E; field; auto].
Qed.
End Wit.
End PFieldFlat.

(** Over the real numbers the roots of unity and the square root meet the hypotheses for every geometry. *)
Open Scope R_scope.
Lemma phR_neq1 n d : (0 < d < n)%nat -> phR n d <> ((1, 0) : cplx R_field).
Proof.
  intros Hd E. injection E as E _. set (x := 2 * PI * INR d / INR n) in E. assert (Hn : 0 < INR n) by (apply (lt_INR 0); lia). assert (Hd0 : 0 < INR d) by (apply (lt_INR 0); lia). assert (Hdn : INR d < INR n) by (apply lt_INR; lia). pose proof PI_RGT_0 as P.
  assert (Y : x = 2 * (PI * INR d / INR n)) by (unfold x; field; lra). set (y := PI * INR d / INR n) in *. assert (0 < y) by (unfold y; apply Rdiv_lt_0_compat; [apply Rmult_lt_0_compat; assumption | exact Hn]).
  assert (y < PI). { unfold y. apply (Rmult_lt_reg_r (INR n)); [exact Hn|]. unfold Rdiv. rewrite Rmult_assoc, Rinv_l by lra. rewrite Rmult_1_r. apply Rmult_lt_compat_l; assumption. }
  pose proof (sin_gt_0 y ltac:(assumption) ltac:(assumption)) as S. change (cos x = 1) in E. rewrite Y, cos_2a_sin in E. assert (0 < sin y * sin y) by (apply Rmult_lt_0_compat; assumption). lra.
Qed.
Theorem C80_real_roots (s : fsinfo R_field) : (0 < fs_nx s)%nat -> (0 < fs_ny s)%nat -> exact_roots (F := R_field) phR s.
Proof.
  intros Nx Ny. pose proof (C62_real_roots s) as HR. pose proof (C77_real_roots s) as HH. split; [exact HR|]. split; [exact HH|].
  assert (Z : forall n, (0 < n)%nat -> phR n 0 = ((1, 0) : cplx R_field)). { intros n Hn. assert (INR n <> 0) by (apply not_0_INR; lia). unfold phR. replace (2 * PI * INR 0 / INR n) with 0 by (cbn; field; assumption). rewrite cos_0, sin_0. apply cplx_eq; cbn [fst snd]; [reflexivity | change (- 0 = 0); ring]. }
  split; intros d Hd; apply (roots_sum (F := R_field) phR); try exact Hd; try (apply Z; assumption); try (exact (proj1 HR)); try (exact (proj2 HR)); try (exact (proj1 HH)); try (exact (proj2 HH)); intros j Hj; apply phR_neq1; exact Hj.
Qed.
Theorem C80_real_sqrt : real_sqrt (F := R_field) sqrt.
Proof. intros x Hx. apply (R_le 0 x) in Hx. split; [apply (R_le 0 (sqrt x)); apply R_sqrt.sqrt_pos | apply sqrt_sqrt; exact Hx]. Qed.
(** A case that meets the hypotheses of all theorems: a square map with at least three pixels on a side.  Purification removes the B modes of the masked maps. *)
Example C80_ex (n : nat) (bn : fbins R_field) (c : cuts R_field) eigh : (3 <= n)%nat -> contiguous bn -> exists mask q u,
  let args pb := FlatArgs (F := R_field) n n 1 1 mask (Some [q; u]) None NoTemp (fun _ => 1) false pb 0 false false in
  (exists f i, flat_new (F := R_field) PI sqrt phR eigh (args false) = Ok f /\ nth i (nth 1 (ff_alms (f_base f)) []) c0 <> c0) /\
  (exists f cl, flat_new (F := R_field) PI sqrt phR eigh (args true) = Ok f /\ py_coupled_cell (F := R_field) PI sqrt (f_base f) (f_base f) bn c = Ok cl /\ length cl = 4%nat /\
     forall j i, (1 <= j)%nat -> flt (F := R_field) 0 (low bn i) -> nth i (nth j cl []) (0 : R_field) = 0).
Proof.
  intros Hn Hc. set (s := FS (F := R_field) n n 1 1). assert (HX : exact_roots (F := R_field) phR s) by (apply C80_real_roots; cbn; lia). pose proof C80_real_sqrt as HSQ. assert (Hpi : (0 < PI)%R) by apply PI_RGT_0. assert (H1 : flt (F := R_field) 0 1) by (apply (R_lt 0 1); apply Rlt_0_1).
  destruct (C80_needed (F := R_field) PI sqrt phR eigh n n 1 1 HX HSQ (proj2 (R_lt 0 PI) Hpi) Hn Hn H1 H1) as [mask [q [u [HL HN]]]]. exists mask, q, u. cbv zeta.
  assert (LF : forall pb, leaky_field (F := R_field) n n 1 1 (FlatArgs (F := R_field) n n 1 1 mask (Some [q; u]) None NoTemp (fun _ => 1) false pb 0 false false) mask q u).
  { intro pb. destruct HL as [_ [_ [Lq [Lu _]]]]. split; [reflexivity|]. split; [reflexivity|]. unfold plain_spin2. cbn [g_maps g_spin g_temp g_masked g_nx g_ny g_lx g_ly]. repeat split; try assumption; try (left; reflexivity); lia. }
  split.
  - destruct (HN _ (LF false) eq_refl) as [f [i [E [_ N]]]]. exists f, i. split; assumption.
  - destruct HL as [_ [_ [_ [_ [BM [BQ [BU [e0 [b0 [E0 HB]]]]]]]]]]. set (a := FlatArgs (F := R_field) n n 1 1 mask (Some [q; u]) None NoTemp (fun _ => 1) false true 0 false false).
    destruct (LF true) as [_ [_ HA]].
    assert (NPI : (PI : R_field) <> 0) by (intro Z; change (PI = 0%R) in Z; lra).
    destruct (C80_bandpowers (F := R_field) PI sqrt phR eigh a q u 1 0 0 1 (FF s 0 false false [] (fun _ => 0) [] false) bn c) as [f [Ef [_ [cl [Ecl HZ]]]]]; try assumption; try reflexivity; try lia; try (cbn; lia).
    + intros e b E i Hi. change (geometry a) with s in E. assert (E2 : Ok [e0; b0] = Ok [e; b]) by (rewrite <- E0; exact E). injection E2 as <- <-. apply HB. exact (proj2 Hi).
    + exists f, cl. split; [exact Ef|]. split; [exact Ecl | exact HZ].
Qed.
Print Assumptions C80_no_leakage. Print Assumptions C80_bandpowers. Print Assumptions C80_other_component. Print Assumptions C80_needed. Print Assumptions C64_purification_refuted. Print Assumptions C80_real_roots. Print Assumptions C80_real_sqrt.
