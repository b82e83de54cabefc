(** Transforms, masking and purification act linearly on maps. *)
From Verif Require Import Base M_Utils L_Utils M_Field L_Field L_Field2 P_Utils P_Field5 P_Field6.
Section Lin.
Context {F : ofield}.
Local Open Scope F_scope.
Add Field FfLin : (fth F).
Notation mat := (list (list F)).
Variable fsqrt : F -> F.

(** combination of N arrays of shape nc x np *)
Definition lc (nc np N : nat) (co : nat -> F) (xs : nat -> mat) : mat := tab nc (fun c => tab np (fun p => sum N (fun k => co k * mg (xs k) c p))).
Lemma shaped_tab2 nc np (g : nat -> nat -> F) : shaped nc np (tab nc (fun c => tab np (g c))).
Proof. split; [apply length_tab|]. apply Forall_forall. intros r Hr. apply (In_nth _ _ []) in Hr as (i & Hi & <-). rewrite length_tab in Hi. rewrite nth_tab by exact Hi. apply length_tab. Qed.
Lemma lc_shaped nc np N co xs : shaped nc np (lc nc np N co xs).
Proof. apply shaped_tab2. Qed.
Lemma mg_lc nc np N co xs c p : (c < nc)%nat -> (p < np)%nat -> mg (lc nc np N co xs) c p = sum N (fun k => co k * mg (xs k) c p).
Proof. intros Hc Hp. exact (mg_tab nc np (fun c p => sum N (fun k => co k * mg (xs k) c p)) c p Hc Hp). Qed.
Lemma mg_out nc np (x : mat) c p : shaped nc np x -> ~ ((c < nc)%nat /\ (p < np)%nat) -> mg x c p = 0.
Proof.
  intros S H. unfold mg. destruct (Nat.lt_ge_cases c nc) as [Hc|Hc].
  - apply nth_overflow. rewrite (shaped_nth nc np x c [] S Hc). lia.
  - rewrite (nth_overflow x) by (rewrite (proj1 S); exact Hc). destruct p; reflexivity.
Qed.
Lemma mg_lc_all nc np N co xs c p : (forall k, (k < N)%nat -> shaped nc np (xs k)) -> mg (lc nc np N co xs) c p = sum N (fun k => co k * mg (xs k) c p).
Proof.
  intro H. destruct (Nat.lt_ge_cases c nc) as [Hc|Hc]; [destruct (Nat.lt_ge_cases p np) as [Hp|Hp]; [apply mg_lc; assumption|]|].
  - rewrite (mg_out nc np) by (try apply lc_shaped; lia). symmetry. apply sum_zero. intros k Hk. rewrite (mg_out nc np) by (auto; lia). ring.
  - rewrite (mg_out nc np) by (try apply lc_shaped; lia). symmetry. apply sum_zero. intros k Hk. rewrite (mg_out nc np) by (auto; lia). ring.
Qed.
Lemma lc_ext nc np N co (xs ys : nat -> mat) : (forall k c p, (k < N)%nat -> (c < nc)%nat -> (p < np)%nat -> mg (xs k) c p = mg (ys k) c p) -> lc nc np N co xs = lc nc np N co ys.
Proof. intro H. apply (mat_eq_mg nc np); try apply lc_shaped. intros c p Hc Hp. rewrite !mg_lc by assumption. apply sum_ext. intros k Hk. rewrite H by assumption. reflexivity. Qed.
(** an array function that is linear on arrays of shape nc x np *)
Definition lin_map (A : mat -> mat) (nc np na : nat) : Prop :=
  (forall x, shaped nc np x -> shaped nc na (A x)) /\ (forall N co xs, (forall k, (k < N)%nat -> shaped nc np (xs k)) -> A (lc nc np N co xs) = lc nc na N co (fun k => A (xs k))).
(** the external transforms are linear *)
Definition linear (K : calc F) : Prop := forall spin s lmax nc, lin_map (c_m2a K spin s lmax) nc (full s) (n_alm lmax) /\ lin_map (c_a2m K spin s lmax) nc (n_alm lmax) (full s).

Lemma msub_mg nc np (x y : mat) c p : shaped nc np x -> shaped nc np y -> (c < nc)%nat -> (p < np)%nat -> mg (msub x y) c p = mg x c p - mg y c p.
Proof.
  intros Sx Sy Hc Hp. unfold msub, mg. rewrite (nth_zipw _ x y c [] [] []) by (rewrite ?(proj1 Sx), ?(proj1 Sy); exact Hc). apply nth_zipw; rewrite (shaped_nth nc np) by assumption; exact Hp.
Qed.
Lemma msub_lc nc np N co (xs ys : nat -> mat) : (forall k, (k < N)%nat -> shaped nc np (xs k)) -> (forall k, (k < N)%nat -> shaped nc np (ys k)) -> msub (lc nc np N co xs) (lc nc np N co ys) = lc nc np N co (fun k => msub (xs k) (ys k)).
Proof.
  intros Hx Hy. apply (mat_eq_mg nc np); [apply msub_shaped; apply lc_shaped | apply lc_shaped|]. intros c p Hc Hp. rewrite (msub_mg nc np) by (try apply lc_shaped; assumption). rewrite !mg_lc by assumption. rewrite <- sum_sub. apply sum_ext. intros k Hk. rewrite (msub_mg nc np) by auto. ring.
Qed.
Lemma refine_shaped' (m2a a2m : mat -> mat) nc np na n m alm : (forall x, shaped nc np x -> shaped nc na (m2a x)) -> (forall x, shaped nc na x -> shaped nc np (a2m x)) -> shaped nc np m -> shaped nc na alm -> shaped nc na (refine m2a a2m n m alm).
Proof. intros H1 H2 Hm. revert alm. induction n as [|n IH]; intros alm Ha; cbn [refine]; [exact Ha|]. apply IH, msub_shaped; [exact Ha|]. apply H1, msub_shaped; [apply H2, Ha | exact Hm]. Qed.
Lemma refine_lc (m2a a2m : mat -> mat) nc np na n N co (ms alms : nat -> mat) : lin_map m2a nc np na -> lin_map a2m nc na np -> (forall k, (k < N)%nat -> shaped nc np (ms k)) -> (forall k, (k < N)%nat -> shaped nc na (alms k)) ->
  refine m2a a2m n (lc nc np N co ms) (lc nc na N co alms) = lc nc na N co (fun k => refine m2a a2m n (ms k) (alms k)).
Proof.
  intros [A1 A2] [B1 B2] Hm. revert alms. induction n as [|n IH]; intros alms Ha; cbn [refine]; [reflexivity|].
  rewrite B2 by exact Ha. rewrite msub_lc by (auto). rewrite A2 by (intros k Hk; apply msub_shaped; auto). rewrite msub_lc by (try exact Ha; intros k Hk; apply A1, msub_shaped; auto).
  apply IH. intros k Hk. apply msub_shaped; [auto|]. apply A1, msub_shaped; auto.
Qed.

(** padding and its inverse pick pixels *)
Definition padded (nc : nat) (s : minfo F) (x : mat) : mat :=
  tab nc (fun c => tab (full s) (fun q => match s with Hpx _ _ => mg x c q | Car _ nx nf _ _ _ => if (q mod nf <? nx)%nat then mg x c (q / nf * nx + q mod nf) else 0 end)).
Definition unpadded (nc : nat) (s : minfo F) (y : mat) : mat :=
  tab nc (fun c => tab (npix s) (fun p => match s with Hpx _ _ => mg y c p | Car _ nx nf _ _ _ => mg y c (p / nx * nf + p mod nx) end)).
Lemma mapM_nth' {A B} (g : A -> res B) l r d e i : mapM g l = Ok r -> (i < length l)%nat -> g (nth i l d) = Ok (nth i r e).
Proof. intros H Hi. destruct (mapM_inv g l r H i (nth i l d)) as (b & E & E'); [apply nth_error_nth'; exact Hi|]. rewrite E. f_equal. symmetry. apply nth_error_nth. exact E'. Qed.
Lemma pad_geom_of nc s (x y : mat) : (0 < nc)%nat -> shaped nc (npix s) x -> mapM (pad_map s) x = Ok y -> pad_geom s.
Proof.
  intros Hn [L S] H. destruct s as [n w|ny nx nf f1 f2 wts]; [exact I|]. cbn [pad_geom]. assert (H0 : (0 < length x)%nat) by lia. pose proof (mapM_nth' _ _ _ [] [] 0%nat H H0) as H1. cbn [pad_map] in H1. destruct (negb _); [discriminate H1|]. destruct (Nat.ltb_spec nf nx); [discriminate H1 | assumption].
Qed.
Lemma pads_eq nc s (x y : mat) : shaped nc (npix s) x -> mapM (pad_map s) x = Ok y -> y = padded nc s x.
Proof.
  intros [L S] H. pose proof (mapM_length _ _ _ H) as Ly. apply (list_eq_nth _ _ []); [unfold padded; rewrite length_tab; congruence|]. intros c Hc. rewrite Ly in Hc. pose proof (mapM_nth' _ _ _ [] [] c H Hc) as Hr. unfold padded. rewrite nth_tab by lia.
  assert (Lc : length (nth c x []) = npix s) by (apply (shaped_nth nc (npix s)); [split; assumption | lia]).
  destruct s as [n w|ny nx nf f1 f2 wts].
  - cbn [pad_map] in Hr. injection Hr as Hr. rewrite <- Hr. apply (list_eq_nth _ _ 0); [rewrite length_tab; exact Lc|]. intros p Hp. rewrite nth_tab by (cbn [full]; rewrite Lc in Hp; exact Hp). reflexivity.
  - apply C48_values in Hr as [Lr Hr]. apply (list_eq_nth _ _ 0); [rewrite length_tab; exact Lr|]. intros q Hq. rewrite Lr in Hq. rewrite nth_tab by exact Hq. assert (Nf : nf <> 0%nat) by lia.
    rewrite (Nat.div_mod q nf Nf) at 1. rewrite (Nat.mul_comm nf). rewrite Hr by (try (apply Nat.div_lt_upper_bound; lia); apply Nat.mod_upper_bound; exact Nf). reflexivity.
Qed.
Lemma pads_ok nc s (x : mat) : shaped nc (npix s) x -> pad_geom s -> mapM (pad_map s) x = Ok (padded nc s x).
Proof.
  intros Sx G. assert (E : exists y, mapM (pad_map s) x = Ok y) by (apply mapM_all; intros v Hv; apply pad_ok; [destruct Sx as [_ Sx]; rewrite Forall_forall in Sx; apply Sx, Hv | exact G]).
  destruct E as (y & E). rewrite E. f_equal. apply pads_eq; assumption.
Qed.
Lemma padded_lc nc s N co (xs : nat -> mat) : pad_geom s -> padded nc s (lc nc (npix s) N co xs) = lc nc (full s) N co (fun k => padded nc s (xs k)).
Proof.
  intro G. apply (mat_eq_mg nc (full s)); try apply shaped_tab2. intros c q Hc Hq. rewrite mg_lc by assumption. unfold padded. rewrite mg_tab by assumption.
  rewrite (sum_ext N _ (fun k => co k * match s with Hpx _ _ => mg (xs k) c q | Car _ nx nf _ _ _ => if (q mod nf <? nx)%nat then mg (xs k) c (q / nf * nx + q mod nf) else 0 end)) by (intros k Hk; rewrite mg_tab by assumption; reflexivity).
  destruct s as [n w|ny nx nf f1 f2 wts]; [apply mg_lc; assumption|]. cbn [full npix] in *. destruct (Nat.ltb_spec (q mod nf) nx) as [H|H]; [|symmetry; apply sum_zero; intros; ring].
  apply mg_lc; [exact Hc|]. assert (q / nf < ny)%nat by (apply Nat.div_lt_upper_bound; lia). nia.
Qed.
Lemma unpads_ok nc s (y : mat) : shaped nc (full s) y -> pad_geom s -> mapM (unpad_map s) y = Ok (unpadded nc s y).
Proof.
  intros [L S] G. destruct s as [n w|ny nx nf f1 f2 wts].
  - cbn [full] in S. rewrite (mapM_ok _ (fun v => v)) by reflexivity. rewrite map_id. f_equal. symmetry. apply (mat_eq_mg nc (npix (Hpx n w))); [apply shaped_tab2 | split; assumption|]. intros c p Hc Hp. unfold unpadded. apply mg_tab; assumption.
  - cbn [full pad_geom] in *. rewrite (mapM_ok _ (fun v => concat (map (firstn nx) (chunks ny nf v)))).
    2:{ intros v Hv. rewrite Forall_forall in S. cbn [unpad_map]. rewrite (S v Hv), Nat.eqb_refl. reflexivity. }
    f_equal. assert (S' : shaped nc (npix (Car ny nx nf f1 f2 wts)) (map (fun v => concat (map (firstn nx) (chunks ny nf v))) y)).
    { eapply shaped_map; [|split; [exact L | exact S]]. intros v Hv. apply length_concat. eapply shaped_map; [|apply (chunks_shaped ny nf); exact Hv]. intros l Hl. rewrite firstn_length, Hl. lia. }
    apply (mat_eq_mg nc (npix (Car ny nx nf f1 f2 wts))); [exact S' | apply shaped_tab2|]. intros c p Hc Hp. unfold unpadded. rewrite mg_tab by assumption. unfold mg. rewrite (nth_indep _ [] (concat (map (firstn nx) (chunks ny nf [])))) by (rewrite map_length; lia).
    rewrite (map_nth (fun v => concat (map (firstn nx) (chunks ny nf v)))). set (v := nth c y []). assert (Lv : length v = (ny * nf)%nat) by (unfold v; apply (shaped_nth nc); [split; assumption | exact Hc]).
    cbn [npix] in Hp. assert (Nx : nx <> 0%nat) by lia. set (i := (p / nx)%nat). set (j := (p mod nx)%nat). assert (Ep : p = (i * nx + j)%nat) by (unfold i, j; rewrite Nat.mul_comm; apply Nat.div_mod; exact Nx). assert (Hj : (j < nx)%nat) by (apply Nat.mod_upper_bound; exact Nx). assert (Hi : (i < ny)%nat) by (apply Nat.div_lt_upper_bound; lia).
    rewrite Ep at 1. pose proof (chunks_shaped ny nf v Lv) as Sh. rewrite (nth_concat ny nx); [|eapply shaped_map; [|exact Sh]; intros l Hl; rewrite firstn_length, Hl; lia | exact Hi | exact Hj].
    rewrite (nth_indep _ [] (firstn nx [])) by (rewrite map_length, (proj1 Sh); exact Hi). rewrite (map_nth (firstn nx)). rewrite <- (nth_chunks ny nf) by (assumption || lia).
    assert (Fn : forall (l : list F) m, (j < m)%nat -> nth j (firstn m l) 0 = nth j l 0). { clear. revert j. intro j. revert j. induction j as [|j IH]; intros [|a l] [|m] Hm; try reflexivity; try lia. cbn [firstn nth]. apply IH. lia. }
    apply Fn. exact Hj.
Qed.
Lemma unpadded_lc nc s N co (ys : nat -> mat) : pad_geom s -> unpadded nc s (lc nc (full s) N co ys) = lc nc (npix s) N co (fun k => unpadded nc s (ys k)).
Proof.
  intro G. apply (mat_eq_mg nc (npix s)); try apply shaped_tab2. intros c p Hc Hp. rewrite mg_lc by assumption. unfold unpadded. rewrite mg_tab by assumption.
  rewrite (sum_ext N _ (fun k => co k * match s with Hpx _ _ => mg (ys k) c p | Car _ nx nf _ _ _ => mg (ys k) c (p / nx * nf + p mod nx) end)) by (intros k Hk; rewrite mg_tab by assumption; reflexivity).
  destruct s as [n w|ny nx nf f1 f2 wts]; [apply mg_lc; assumption|]. cbn [full npix pad_geom] in *. assert (Nx : nx <> 0%nat) by lia. apply mg_lc; [exact Hc|]. assert (p / nx < ny)%nat by (apply Nat.div_lt_upper_bound; lia). pose proof (Nat.mod_upper_bound p nx Nx). nia.
Qed.
Lemma padded_shaped nc s x : shaped nc (full s) (padded nc s x).
Proof. apply shaped_tab2. Qed.
Lemma sht_eq K spin s lmax n nc (x y : mat) : shaped nc (npix s) x -> sht K spin s lmax n x = Ok y -> y = refine (c_m2a K spin s lmax) (c_a2m K spin s lmax) (Z.to_nat n) (padded nc s x) (c_m2a K spin s lmax (padded nc s x)).
Proof. intros Sx H. unfold sht in H. apply bind_ok in H as (m & Em & H). apply (pads_eq nc) in Em; [|exact Sx]. subst m. destruct (_ && _)%bool; [discriminate H|]. congruence. Qed.
Lemma sht_shape K spin s lmax n nc (x y : mat) : linear K -> shaped nc (npix s) x -> sht K spin s lmax n x = Ok y -> shaped nc (n_alm lmax) y.
Proof.
  intros LK Sx H. rewrite (sht_eq _ _ _ _ _ nc _ _ Sx H). destruct (LK spin s lmax nc) as [[A1 _] [B1 _]]. apply (refine_shaped' _ _ nc (full s)); auto using padded_shaped.
Qed.
(** *** sht and isht of combinations *)
Lemma sht_lc K spin s lmax n nc N co (xs ys : nat -> mat) : linear K -> (0 < N)%nat -> (forall k, (k < N)%nat -> shaped nc (npix s) (xs k)) -> (forall k, (k < N)%nat -> sht K spin s lmax n (xs k) = Ok (ys k)) ->
  sht K spin s lmax n (lc nc (npix s) N co xs) = Ok (lc nc (n_alm lmax) N co ys).
Proof.
  intros LK HN Sx H. destruct (LK spin s lmax nc) as [A B].
  assert (Eys : lc nc (n_alm lmax) N co ys = lc nc (n_alm lmax) N co (fun k => refine (c_m2a K spin s lmax) (c_a2m K spin s lmax) (Z.to_nat n) (padded nc s (xs k)) (c_m2a K spin s lmax (padded nc s (xs k))))).
  { apply lc_ext. intros k c p Hk _ _. rewrite (sht_eq _ _ _ _ _ nc _ _ (Sx k Hk) (H k Hk)). reflexivity. }
  unfold sht. specialize (H 0%nat HN). unfold sht in H. apply bind_ok in H as (m & Em & H). destruct (c_healpy K && is_car s)%bool; [discriminate H|]. destruct nc as [|nc].
  - unfold lc. cbn [tab seq map mapM bind]. f_equal. assert (S0 : shaped 0 (full s) ([] : mat)) by (split; [reflexivity | constructor]). pose proof (refine_shaped' (c_m2a K spin s lmax) (c_a2m K spin s lmax) 0 (full s) (n_alm lmax) (Z.to_nat n) [] (c_m2a K spin s lmax []) (proj1 A) (proj1 B) S0 (proj1 A [] S0)) as [R _]. apply length_zero_iff_nil in R. exact R.
  - pose proof (pad_geom_of (S nc) s _ _ ltac:(lia) (Sx 0%nat HN) Em) as G. rewrite (pads_ok (S nc)) by (try apply lc_shaped; exact G). cbn [bind]. f_equal. rewrite Eys, padded_lc by exact G.
    rewrite (proj2 A) by (intros; apply padded_shaped). apply refine_lc; [exact A | exact B | intros; apply padded_shaped | intros; apply (proj1 A), padded_shaped].
Qed.
Lemma isht_eq K spin s lmax nc (a m : mat) : linear K -> pad_geom s -> shaped nc (n_alm lmax) a -> isht K spin s lmax a = Ok m -> m = unpadded nc s (c_a2m K spin s lmax a).
Proof. intros LK G Sa H. unfold isht in H. destruct (_ && _)%bool; [discriminate H|]. unfold alm2map in H. rewrite (unpads_ok nc) in H; [congruence | apply (proj1 (proj2 (LK spin s lmax nc))), Sa | exact G]. Qed.
Lemma isht_lc K spin s lmax nc N co (xs ys : nat -> mat) : linear K -> pad_geom s -> (0 < N)%nat -> (forall k, (k < N)%nat -> shaped nc (n_alm lmax) (xs k)) -> (forall k, (k < N)%nat -> isht K spin s lmax (xs k) = Ok (ys k)) ->
  isht K spin s lmax (lc nc (n_alm lmax) N co xs) = Ok (lc nc (npix s) N co ys).
Proof.
  intros LK G HN Sx H. destruct (LK spin s lmax nc) as [_ [B1 B2]]. assert (Eys : lc nc (npix s) N co ys = lc nc (npix s) N co (fun k => unpadded nc s (c_a2m K spin s lmax (xs k)))).
  { apply lc_ext. intros k c p Hk _ _. rewrite (isht_eq _ _ _ _ nc _ _ LK G (Sx k Hk) (H k Hk)). reflexivity. }
  rewrite Eys. specialize (H 0%nat HN). unfold isht in *. destruct (_ && _)%bool; [discriminate H|]. unfold alm2map. rewrite B2 by exact Sx. rewrite (unpads_ok nc) by (try apply lc_shaped; exact G). f_equal. apply unpadded_lc. exact G.
Qed.
Lemma isht_shape K spin s lmax nc (a m : mat) : linear K -> pad_geom s -> shaped nc (n_alm lmax) a -> isht K spin s lmax a = Ok m -> shaped nc (npix s) m.
Proof. intros LK G Sa H. rewrite (isht_eq _ _ _ _ nc _ _ LK G Sa H). apply shaped_tab2. Qed.

(** *** masking, spin products, purification *)
Lemma vmul_lc nc np N co mask (xs : nat -> mat) : length mask = np -> (forall k, (k < N)%nat -> shaped nc np (xs k)) -> map (vmul mask) (lc nc np N co xs) = lc nc np N co (fun k => map (vmul mask) (xs k)).
Proof.
  intros L S. apply (mat_eq_mg nc np); [apply shaped_vmul; [exact L | apply lc_shaped] | apply lc_shaped|]. intros c p Hc Hp. rewrite (mg_vmul nc np) by (try apply lc_shaped; assumption). rewrite !mg_lc by assumption. rewrite <- sum_mul_l. apply sum_ext. intros k Hk. rewrite (mg_vmul nc np) by auto. ring.
Qed.
Lemma spin_prod_eq np (w u : mat) : shaped 2 np w -> shaped 2 np u -> spin_prod w u = tab 2 (fun c => tab np (fun p => if Nat.eqb c 0 then mg w 0 p * mg u 0 p + mg w 1 p * mg u 1 p else mg w 0 p * mg u 1 p - mg w 1 p * mg u 0 p)).
Proof.
  intros Sw Su. unfold spin_prod. cbv zeta. pose proof (shaped_nth 2 np w 0 [] Sw ltac:(lia)) as L0. pose proof (shaped_nth 2 np w 1 [] Sw ltac:(lia)) as L1. pose proof (shaped_nth 2 np u 0 [] Su ltac:(lia)) as M0. pose proof (shaped_nth 2 np u 1 [] Su ltac:(lia)) as M1.
  unfold tab at 1. cbn [seq map Nat.eqb]. f_equal; [|f_equal].
  - apply (list_eq_nth _ _ 0); [rewrite length_zipw, !length_vmul, length_tab; lia|]. intros p Hp. rewrite length_zipw, !length_vmul in Hp. rewrite nth_tab by lia. rewrite (nth_zipw fadd _ _ p 0 0 0) by (rewrite length_vmul; lia). unfold vmul. rewrite !(nth_zipw fmul _ _ p 0 0 0) by lia. reflexivity.
  - apply (list_eq_nth _ _ 0); [rewrite length_zipw, !length_vmul, length_tab; lia|]. intros p Hp. rewrite length_zipw, !length_vmul in Hp. rewrite nth_tab by lia. rewrite (nth_zipw fsub _ _ p 0 0 0) by (rewrite length_vmul; lia). unfold vmul. rewrite !(nth_zipw fmul _ _ p 0 0 0) by lia. reflexivity.
Qed.
Lemma spin_prod_shaped np (w u : mat) : shaped 2 np w -> shaped 2 np u -> shaped 2 np (spin_prod w u).
Proof. intros Sw Su. rewrite (spin_prod_eq np) by assumption. apply shaped_tab2. Qed.
Lemma spin_prod_lc np N co w (xs : nat -> mat) : shaped 2 np w -> (forall k, (k < N)%nat -> shaped 2 np (xs k)) -> spin_prod w (lc 2 np N co xs) = lc 2 np N co (fun k => spin_prod w (xs k)).
Proof.
  intros Sw S. rewrite (spin_prod_eq np) by (try apply lc_shaped; exact Sw). apply (mat_eq_mg 2 np); try apply shaped_tab2. intros c p Hc Hp. rewrite mg_tab by assumption. rewrite !mg_lc by (assumption || lia).
  rewrite (sum_ext N (fun k => co k * mg (spin_prod w (xs k)) c p) (fun k => if Nat.eqb c 0 then mg w 0 p * (co k * mg (xs k) 0 p) + mg w 1 p * (co k * mg (xs k) 1 p) else mg w 0 p * (co k * mg (xs k) 1 p) - mg w 1 p * (co k * mg (xs k) 0 p))).
  - destruct (Nat.eqb c 0); rewrite <- !sum_mul_l; [rewrite <- sum_add | rewrite <- sum_sub]; reflexivity.
  - intros k Hk. rewrite (spin_prod_eq np) by auto. rewrite mg_tab by assumption. destruct (Nat.eqb c 0); ring.
Qed.
Lemma almxfl_nth lmax (a fl : list F) i : length a = n_alm lmax -> (i < n_alm lmax)%nat -> nth i (almxfl lmax a fl) 0 = nth i a 0 * nth (Z.to_nat (nth i (ells lmax) 0%Z)) fl 0.
Proof. intros L Hi. unfold almxfl. apply (nth_zipw (fun a l => a * nth (Z.to_nat l) fl 0) a (ells lmax) i 0 0%Z 0); [lia | exact Hi]. Qed.
Lemma length_almxfl lmax (a fl : list F) : length a = n_alm lmax -> length (almxfl lmax a fl) = n_alm lmax.
Proof. intro L. unfold almxfl. rewrite length_zipw, L. apply Nat.min_id. Qed.
Lemma add_pure_eq pe pb lmax (fl : list F) (alms palm : mat) : shaped 2 (n_alm lmax) alms -> shaped 2 (n_alm lmax) palm ->
  add_pure pe pb lmax fl alms palm = Ok (tab 2 (fun c => tab (n_alm lmax) (fun i => mg alms c i + (if (if Nat.eqb c 0 then pe else pb) then mg palm c i * nth (Z.to_nat (nth i (ells lmax) 0%Z)) (firstn (Z.to_nat (lmax + 1)) fl) 0 else 0)))).
Proof.
  intros Sa Sp. unfold add_pure. cbv zeta. set (f' := firstn _ fl).
  assert (R : forall c (b : bool), (c < 2)%nat -> (if b then vadd (nth c alms []) (almxfl lmax (nth c palm []) f') else Ok (nth c alms [])) = Ok (tab (n_alm lmax) (fun i => mg alms c i + (if b then mg palm c i * nth (Z.to_nat (nth i (ells lmax) 0%Z)) f' 0 else 0)))).
  { intros c b Hc. pose proof (shaped_nth 2 _ alms c [] Sa Hc) as La. pose proof (shaped_nth 2 _ palm c [] Sp Hc) as Lp. destruct b.
    - unfold vadd. rewrite La, length_almxfl, Nat.eqb_refl by exact Lp. f_equal. apply (list_eq_nth _ _ 0); [rewrite length_zipw, La, length_almxfl, length_tab by exact Lp; apply Nat.min_id|]. intros i Hi. rewrite length_zipw, La, length_almxfl, Nat.min_id in Hi by exact Lp. rewrite nth_tab by exact Hi.
      rewrite (nth_zipw fadd _ _ i 0 0 0) by (rewrite ?La, ?length_almxfl by exact Lp; exact Hi). rewrite almxfl_nth by assumption. reflexivity.
    - f_equal. apply (list_eq_nth _ _ 0); [rewrite La, length_tab; reflexivity|]. intros i Hi. rewrite La in Hi. rewrite nth_tab by exact Hi. unfold mg. ring. }
  rewrite (R 0%nat pe) by lia. cbn [bind]. rewrite (R 1%nat pb) by lia. cbn [bind]. reflexivity.
Qed.
Lemma add_pure_shape pe pb lmax (fl : list F) (alms palm r : mat) : shaped 2 (n_alm lmax) alms -> shaped 2 (n_alm lmax) palm -> add_pure pe pb lmax fl alms palm = Ok r -> shaped 2 (n_alm lmax) r.
Proof. intros Sa Sp H. rewrite add_pure_eq in H by assumption. injection H as <-. apply shaped_tab2. Qed.
Lemma add_pure_lc pe pb lmax (fl : list F) N co (alms palm rs : nat -> mat) : (forall k, (k < N)%nat -> shaped 2 (n_alm lmax) (alms k)) -> (forall k, (k < N)%nat -> shaped 2 (n_alm lmax) (palm k)) -> (forall k, (k < N)%nat -> add_pure pe pb lmax fl (alms k) (palm k) = Ok (rs k)) ->
  add_pure pe pb lmax fl (lc 2 (n_alm lmax) N co alms) (lc 2 (n_alm lmax) N co palm) = Ok (lc 2 (n_alm lmax) N co rs).
Proof.
  intros Sa Sp H. rewrite add_pure_eq by apply lc_shaped. f_equal. apply (mat_eq_mg 2 (n_alm lmax)); try apply shaped_tab2. intros c i Hc Hi. rewrite mg_tab by assumption. rewrite !mg_lc by assumption. set (b := if Nat.eqb c 0 then pe else pb). set (g := nth (Z.to_nat _) _ 0).
  rewrite (sum_ext N (fun k => co k * mg (rs k) c i) (fun k => co k * mg (alms k) c i + (if b then co k * mg (palm k) c i * g else 0))).
  - rewrite sum_add. f_equal. destruct b; [rewrite sum_mul_r; reflexivity | symmetry; apply sum_zero; reflexivity].
  - intros k Hk. specialize (H k Hk). rewrite add_pure_eq in H by auto. injection H as <-. rewrite mg_tab by assumption. fold b g. destruct b; ring.
Qed.
End Lin.
