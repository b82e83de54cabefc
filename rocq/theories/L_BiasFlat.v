(** Lemmas about flat-sky fields with templates: closed forms of cleaned fields and of the deprojection bias. *)
From Verif Require Import Base M_Utils M_Bins M_FlatBins M_LinAlg M_Workspace M_Flat M_WspFlat M_Syn M_FieldFlat M_BiasFlat P_FlatBins L_LinAlg L_Flat L_Flat2 L_Flat3 L_Utils L_WspFlat L_WspFlat2 L_FlatLin L_Pure P_FieldFlat.
From Coq Require Import Permutation.
Open Scope nat_scope.

Section LBF.
Context {F : ofield}.
Local Open Scope F_scope.
Add Field FfLBF : (fth F).
Notation mat := (list (list F)).
Notation cplx := (cplx F).
Notation fsinfo := (fsinfo F).
Notation ffield := (ffield F).
Notation fbins := (fbins F).
Notation cuts := (cuts F).
Notation flat_args := (flat_args F).
Notation flat_field := (flat_field F).
(** coefficients of x = y - sum al a * T a *)
Definition co_minus (al : nat -> F) (i : nat) : F := match i with O => 1 | S a => 0 - al a end.
Definition term_minus {A} (y : A) (T : nat -> A) (i : nat) : A := match i with O => y | S a => T a end.
Lemma rlin_minus n al x (y : F) T : rlin (S n) (co_minus al) x (term_minus y T) <-> x = y - sum n (fun a => al a * T a).
Proof.
  unfold rlin. rewrite sum_S_l. cbn [co_minus term_minus]. rewrite (sum_ext n (fun k => (0 - al k) * T k) (fun k => 0 - al k * T k)) by (intros; ring). rewrite sum_sub, (sum_zero n (fun _ => 0)) by reflexivity. split; intros ->; ring.
Qed.
(** ** Cleaned maps *)
Definition shaped (n k : nat) (m : mat) : Prop := length m = n /\ forall r, In r m -> length r = k.
Lemma shaped_row n k m c : shaped n k m -> (c < n)%nat -> length (nth c m []) = k.
Proof. intros [L H] Hc. apply H. apply nth_In. lia. Qed.
Lemma shaped_over n k m c p : shaped n k m -> (n <= c)%nat \/ (k <= p)%nat -> nth p (nth c m []) 0 = 0.
Proof.
  intros S H. destruct (Nat.lt_ge_cases c n) as [L|L]; [|rewrite (nth_overflow m) by (destruct S; lia); destruct p; reflexivity]. apply nth_overflow. rewrite (shaped_row n k m c S L). lia.
Qed.
Lemma shaped_tab2 n k (f : nat -> nat -> F) : shaped n k (tab n (fun c => tab k (f c))).
Proof. split; [apply length_tab|]. intros r Hr. unfold tab in Hr. apply in_map_iff in Hr as [i [<- _]]. apply length_tab. Qed.
Lemma shaped_eq n k (m m' : mat) : shaped n k m -> shaped n k m' -> (forall c p, (c < n)%nat -> (p < k)%nat -> nth p (nth c m []) 0 = nth p (nth c m' []) 0) -> m = m'.
Proof.
  intros S S' H. apply (list_eq_nth _ _ []); [destruct S, S'; congruence|]. intros c Hc. assert (Hc' : (c < n)%nat) by (destruct S; lia). apply (list_eq_nth _ _ 0); [rewrite (shaped_row n k m c S Hc'), (shaped_row n k m' c S' Hc'); reflexivity|]. intros p Hp. rewrite (shaped_row n k m c S Hc') in Hp. apply H; assumption.
Qed.
Lemma shaped_product n (s : fsinfo) mask m : length m = n -> shaped n (npix_fs s) (map (product s mask) m).
Proof. intro L. split; [rewrite map_length; exact L|]. intros r Hr. apply in_map_iff in Hr as [x [<- _]]. apply length_tab. Qed.
Lemma nth_product n (s : fsinfo) mask m c p : length m = n -> (c < n)%nat -> (p < npix_fs s)%nat -> nth p (nth c (map (product s mask) m) []) 0 = nth p (nth c m []) 0 * nth p mask 0.
Proof. intros L Hc Hp. rewrite (nth_indep _ [] (product s mask [])) by (rewrite map_length; lia). rewrite map_nth. unfold product. rewrite nth_tab by exact Hp. reflexivity. Qed.
Lemma subtract_eq (s : fsinfo) n al t m : shaped n (npix_fs s) m -> subtract s n al t m = tab n (fun c => tab (npix_fs s) (fun p => nth p (nth c m []) 0 - sum (length t) (fun i => nth i al 0 * nth p (nth c (nth i t []) []) 0))).
Proof.
  intro S. unfold subtract. generalize (length t) as k. intro k. induction k as [|k IH].
  - cbn [seq fold_left]. apply (shaped_eq n (npix_fs s)); [exact S | apply shaped_tab2|]. intros c p Hc Hp. rewrite !nth_tab by assumption. cbn [sum]. ring.
  - rewrite seq_S, fold_left_app, IH. cbn [fold_left plus]. apply tab_ext. intros c Hc. apply tab_ext. intros p Hp. rewrite !nth_tab by assumption. cbn [sum]. ring.
Qed.
Lemma subtract_shaped (s : fsinfo) n al t m : shaped n (npix_fs s) m -> shaped n (npix_fs s) (subtract s n al t m).
Proof. intro S. rewrite subtract_eq by exact S. apply shaped_tab2. Qed.
Lemma subtract_mlin (s : fsinfo) n al t m : shaped n (npix_fs s) m -> (forall x, In x t -> shaped n (npix_fs s) x) -> mlin (S (length t)) (co_minus (fun i => nth i al 0)) (subtract s n al t m) (term_minus m (fun i => nth i t [])).
Proof.
  intros Sm St c p. rewrite subtract_eq by exact Sm. assert (X : forall k, (k < S (length t))%nat -> shaped n (npix_fs s) (term_minus m (fun i => nth i t []) k)) by (intros [|k] Hk; [exact Sm | apply St; apply nth_In; lia]).
  destruct (Nat.lt_ge_cases c n) as [Hc|Hc]; [destruct (Nat.lt_ge_cases p (npix_fs s)) as [Hp|Hp]|].
  - rewrite !nth_tab by assumption. eapply rlin_ext; [reflexivity | | apply rlin_minus; reflexivity]. intros [|k] _; reflexivity.
  - eapply rlin_ext; [| |apply rlin_0]; [symmetry; apply (shaped_over n (npix_fs s)); [apply shaped_tab2 | right; exact Hp] | intros k Hk; symmetry; apply (shaped_over n (npix_fs s)); [apply X; exact Hk | right; exact Hp]].
  - eapply rlin_ext; [| |apply rlin_0]; [symmetry; apply (shaped_over n (npix_fs s)); [apply shaped_tab2 | left; exact Hc] | intros k Hk; symmetry; apply (shaped_over n (npix_fs s)); [apply X; exact Hk | left; exact Hc]].
Qed.
Lemma subtract_masked (s : fsinfo) n mask al t m : shaped n (npix_fs s) m -> (forall x, In x t -> shaped n (npix_fs s) x) -> map (product s mask) (subtract s n al t m) = subtract s n al (map (map (product s mask)) t) (map (product s mask) m).
Proof.
  intros Sm St. apply (shaped_eq n (npix_fs s)); [apply shaped_product; apply (subtract_shaped s n al t m Sm) | apply subtract_shaped; apply shaped_product; apply Sm|]. intros c p Hc Hp.
  rewrite (nth_product n) by (try assumption; apply (subtract_shaped s n al t m Sm)). rewrite (subtract_eq s n al t m Sm), (subtract_eq s n al _ (map (product s mask) m)) by (apply shaped_product; apply Sm). rewrite !nth_tab by assumption. rewrite (nth_product n) by (try assumption; apply Sm). rewrite map_length.
  rewrite (sum_ext (length t) (fun i => nth i al 0 * nth p (nth c (nth i (map (map (product s mask)) t) []) []) 0) (fun i => nth i al 0 * nth p (nth c (nth i t []) []) 0 * nth p mask 0)).
  - rewrite sum_mul_r. ring.
  - intros i Hi. rewrite (nth_indep _ [] (map (product s mask) [])) by (rewrite map_length; exact Hi). rewrite map_nth. rewrite (nth_product n) by (try assumption; apply (St (nth i t [])); apply nth_In; exact Hi). ring.
Qed.
Lemma maps_dot_masked (s : fsinfo) n mask (t m : mat) : length t = n -> length m = n -> maps_dot s n (map (product s mask) t) m = maps_dot s n t (map (product s mask) m).
Proof.
  intros Lt Lm. unfold maps_dot. apply sum_ext. intros c Hc. unfold map_dot. f_equal. apply sum_ext. intros p Hp. rewrite !(nth_product n) by assumption. ring.
Qed.
Lemma maps_dot_lin N co (s : fsinfo) n (t m : mat) (ms : nat -> mat) : mlin N co m ms -> rlin N co (maps_dot s n m t) (fun k => maps_dot s n (ms k) t).
Proof.
  intro H. unfold maps_dot. apply (rlin_sum N co n _ (fun c k => map_dot s (nth c (ms k) []) (nth c t []))). intros c _. unfold map_dot.
  assert (R : rlin N co (sum (npix_fs s) (fun i => nth i (nth c m []) 0 * nth i (nth c t []) 0)) (fun k => sum (npix_fs s) (fun i => nth i (nth c (ms k) []) 0 * nth i (nth c t []) 0))).
  { apply (rlin_sum N co (npix_fs s) _ (fun i k => nth i (nth c (ms k) []) 0 * nth i (nth c t []) 0)). intros i _. pose proof (rlin_mul N co (nth i (nth c t []) 0) _ _ (H c i)) as R. revert R. apply rlin_ext; [ring | intros; ring]. }
  apply (rlin_mul N co (fs_lx s * fs_ly s / fofnat (npix_fs s))) in R. revert R. apply rlin_ext; [ring | intros; ring].
Qed.
Lemma maps_dot_sym (s : fsinfo) n (t m : mat) : maps_dot s n t m = maps_dot s n m t.
Proof. unfold maps_dot. apply sum_ext. intros c _. unfold map_dot. f_equal. apply sum_ext. intros p _. ring. Qed.
Variables (pi : F) (fsqrt : F -> F).

(** ** Spectra *)
Definition pband (s : fsinfo) (b : fbins) (c : cuts) (x y : list cplx) (ib : nat) : F :=
  average pi s (modes pi fsqrt s b c ib) (fun m => cdot (read_at s x m) (read_at s y m)).
Definition full (s : fsinfo) (a : list (list cplx)) : Prop := forall x, In x a -> length x = (fs_ny s * nhalf s)%nat.
Definition spectra (s : fsinfo) (b : fbins) (c : cuts) (A B : list (list cplx)) : mat :=
  tab (length A * length B) (fun ic => tab (n_bands b) (fun ib => pband s b c (nth (ic / length B) A []) (nth (ic mod length B) B []) ib)).
Lemma spectra_ok (s : fsinfo) b c A B : contiguous b -> full s A -> full s B -> fs_alm2cl pi fsqrt s b c A B = Ok (spectra s b c A B).
Proof.
  intros Hc HA HB. unfold fs_alm2cl. assert (E : forall a1 a2, In a1 A -> In a2 B -> alm2cl1 pi fsqrt s b c a1 a2 = Ok (tab (n_bands b) (pband s b c a1 a2))).
  { intros a1 a2 I1 I2. unfold alm2cl1. rewrite (all_updates_eq pi fsqrt s b c a1 a2 Hc (HA _ I1) (HB _ I2)). cbn [bind]. exact (alm2cl_order pi fsqrt s b c a1 a2 _ _ Hc (HA _ I1) (HB _ I2) (all_updates_eq pi fsqrt s b c a1 a2 Hc (HA _ I1) (HB _ I2)) (Permutation_refl _)). }
  rewrite (mapM_ok _ (fun a1 => map (fun a2 => tab (n_bands b) (pband s b c a1 a2)) B)) by (intros a1 I1; apply mapM_ok; intros a2 I2; apply E; assumption). cbn [bind]. f_equal. unfold spectra.
  assert (S : L_Utils.shaped (length A) (length B) (map (fun a1 => map (fun a2 => tab (n_bands b) (pband s b c a1 a2)) B) A)).
  { split; [apply map_length|]. apply Forall_forall. intros r Hr. apply in_map_iff in Hr as [a1 [<- _]]. apply map_length. }
  apply (list_eq_nth _ _ []); [rewrite (length_concat _ _ _ S), length_tab; reflexivity|]. intros i Hi. rewrite (length_concat _ _ _ S) in Hi. rewrite nth_tab by exact Hi.
  assert (NB : length B <> 0%nat) by (intro Z; rewrite Z in Hi; lia). pose proof (Nat.div_mod i (length B) NB) as D. pose proof (Nat.mod_upper_bound i (length B) NB) as M. assert (Q : (i / length B < length A)%nat) by (apply Nat.div_lt_upper_bound; lia).
  rewrite D at 1. rewrite (Nat.mul_comm (length B)). rewrite (nth_concat (length A) (length B)) by assumption.
  rewrite (nth_indep _ [] (map (fun a2 => tab (n_bands b) (pband s b c [] a2)) B)) by (rewrite map_length; exact Q). rewrite (map_nth (fun a1 => map (fun a2 => tab (n_bands b) (pband s b c a1 a2)) B)).
  rewrite (nth_indep _ [] (tab (n_bands b) (pband s b c (nth (i / length B) A []) []))) by (rewrite map_length; exact M). rewrite (map_nth (fun a2 => tab (n_bands b) (pband s b c (nth (i / length B) A []) a2))). reflexivity.
Qed.
Lemma nth_spectra (s : fsinfo) b c A B i j ib : (i < length A)%nat -> (j < length B)%nat -> (ib < n_bands b)%nat -> nth ib (nth (i * length B + j) (spectra s b c A B) []) 0 = pband s b c (nth i A []) (nth j B []) ib.
Proof.
  intros Hi Hj Hb. unfold spectra. rewrite nth_tab by nia. rewrite nth_tab by exact Hb. rewrite (proj1 (div_mod_flat _ j i Hj)), (proj2 (div_mod_flat _ j i Hj)). reflexivity.
Qed.
Lemma average_rlin N co (s : fsinfo) l (g : nat * nat -> F) (gs : nat -> nat * nat -> F) : (forall m, In m l -> rlin N co (g m) (fun k => gs k m)) -> rlin N co (average pi s l g) (fun k => average pi s l (gs k)).
Proof.
  intro H. unfold average. destruct (Nat.eqb_spec (length l) 0) as [|NL]; [apply rlin_0|]. apply rlin_mul.
  assert (X : rlin N co (lsum (map g l)) (fun k => lsum (map (gs k) l))).
  { clear -H. induction l as [|m l IH]; [apply rlin_0|]. cbn [map lsum fold_right]. apply rlin_add; [apply H; left; reflexivity | apply IH; intros m' I; apply H; right; exact I]. }
  apply (rlin_mul N co (1 / fofnat (length l))) in X. revert X. apply rlin_ext; [|intros k _]; field; apply n_neq0; lia.
Qed.
Lemma pband_l N co (s : fsinfo) b c x xs y ib : wlin N co x xs -> rlin N co (pband s b c x y ib) (fun k => pband s b c (xs k) y ib).
Proof.
  intro H. unfold pband. apply (average_rlin N co s _ _ (fun k m => cdot (read_at s (xs k) m) (read_at s y m))). intros m _. unfold read_at, cdot. destruct (H (ix_here (fs_nx s) (fst m) + nhalf s * snd m)%nat) as [A B].
  apply (rlin_mul N co (fst (nth (ix_here (fs_nx s) (fst m) + nhalf s * snd m) y c0))) in A. apply (rlin_mul N co (snd (nth (ix_here (fs_nx s) (fst m) + nhalf s * snd m) y c0))) in B. pose proof (rlin_add N co _ _ _ _ A B) as R. revert R. apply rlin_ext; [ring | intros; ring].
Qed.
Lemma pband_sym (s : fsinfo) b c x y ib : pband s b c x y ib = pband s b c y x ib.
Proof. unfold pband, average. destruct (Nat.eqb _ _); [reflexivity|]. do 3 f_equal. apply map_ext. intro m. unfold cdot. ring. Qed.
Lemma pband_r N co (s : fsinfo) b c x y ys ib : wlin N co y ys -> rlin N co (pband s b c x y ib) (fun k => pband s b c x (ys k) ib).
Proof. intro H. apply (pband_l N co s b c y ys x ib) in H. revert H. apply rlin_ext; [apply pband_sym | intros; apply pband_sym]. Qed.
Section Algebra.
Variable P : list cplx -> list cplx -> F.
Hypothesis Pl : forall N co x xs y, wlin N co x xs -> rlin N co (P x y) (fun k => P (xs k) y).
Hypothesis Pr : forall N co x y ys, wlin N co y ys -> rlin N co (P x y) (fun k => P x (ys k)).
Lemma P_minus_l n al x y T z : wlin (S n) (co_minus al) x (term_minus y T) -> P x z = P y z - sum n (fun a => al a * P (T a) z).
Proof. intro H. apply (Pl _ _ _ _ z) in H. apply (rlin_minus n al (P x z) (P y z) (fun a => P (T a) z)). revert H. apply rlin_ext; [reflexivity | intros [|k] _; reflexivity]. Qed.
Lemma P_minus_r n al x y T z : wlin (S n) (co_minus al) x (term_minus y T) -> P z x = P z y - sum n (fun a => al a * P z (T a)).
Proof. intro H. apply (Pr _ _ z) in H. apply (rlin_minus n al (P z x) (P z y) (fun a => P z (T a))). revert H. apply rlin_ext; [reflexivity | intros [|k] _; reflexivity]. Qed.
Lemma half N n (pr : nat -> F) (iM : nat -> nat -> F) (Q : nat -> nat -> F) (S : nat -> nat -> F) (Z : nat -> nat -> F) :
  (forall a b, (a < n)%nat -> (b < n)%nat -> Z a b = sum N (fun k => pr k * Q k b * S k a)) ->
  sum N (fun k => pr k * sum n (fun a => sum n (fun b => iM a b * Q k b) * S k a)) = sum n (fun a => sum n (fun b => iM a b * Z a b)).
Proof.
  intro H. rewrite (sum_ext N _ (fun k => sum n (fun a => sum n (fun b => iM a b * (pr k * Q k b * S k a))))).
  - rewrite sum_swap. apply sum_ext. intros a Ha. rewrite sum_swap. apply sum_ext. intros b Hb. rewrite sum_mul_l, (H a b Ha Hb). reflexivity.
  - intros k _. rewrite <- sum_mul_l. apply sum_ext. intros a _. rewrite <- sum_mul_r, <- sum_mul_l. apply sum_ext. intros b _. ring.
Qed.
Lemma bias_algebra N n1 n2 (pr : nat -> F) (x1 y1 x2 y2 T1 T2 Z1 Z2 : nat -> list cplx) (M1 M2 : nat -> nat -> F) (P1 P2 pd : nat -> nat -> F) :
  (forall k, (k < N)%nat -> wlin (S n1) (co_minus (fun a => sum n1 (fun b => M1 a b * P1 k b))) (x1 k) (term_minus (y1 k) T1)) ->
  (forall k, (k < N)%nat -> wlin (S n2) (co_minus (fun a => sum n2 (fun b => M2 a b * P2 k b))) (x2 k) (term_minus (y2 k) T2)) ->
  (forall b, (b < n1)%nat -> wlin N (fun k => pr k * P1 k b) (Z1 b) y2) ->
  (forall b, (b < n2)%nat -> wlin N (fun k => pr k * P2 k b) (Z2 b) y1) ->
  (forall b d, (b < n1)%nat -> (d < n2)%nat -> pd b d = sum N (fun k => pr k * P1 k b * P2 k d)) ->
  sum N (fun k => pr k * P (x1 k) (x2 k)) = sum N (fun k => pr k * P (y1 k) (y2 k)) +
    (- sum n2 (fun i => sum n2 (fun j => P (Z2 j) (T2 i) * M2 i j)) - sum n1 (fun i => sum n1 (fun j => P (T1 i) (Z1 j) * M1 i j))
     + sum n1 (fun i => sum n2 (fun p => sum n1 (fun j => sum n2 (fun q => P (T1 i) (T2 p) * pd j q * M1 i j * M2 p q))))).
Proof.
  intros H1 H2 HZ1 HZ2 Hpd. set (a1 := fun k a => sum n1 (fun b => M1 a b * P1 k b)) in *. set (a2 := fun k a => sum n2 (fun b => M2 a b * P2 k b)) in *.
  rewrite (sum_ext N (fun k => pr k * P (x1 k) (x2 k)) (fun k => pr k * P (y1 k) (y2 k) - pr k * sum n2 (fun c => a2 k c * P (y1 k) (T2 c)) - pr k * sum n1 (fun a => a1 k a * P (T1 a) (y2 k)) + pr k * sum n1 (fun a => a1 k a * sum n2 (fun c => a2 k c * P (T1 a) (T2 c))))).
  - rewrite sum_add, !sum_sub. unfold a1, a2.
    rewrite (half N n1 pr M1 P1 (fun k a => P (T1 a) (y2 k)) (fun a b => P (T1 a) (Z1 b))) by (intros a b Ha Hb; apply Pr; apply HZ1; exact Hb).
    rewrite (half N n2 pr M2 P2 (fun k a => P (y1 k) (T2 a)) (fun a b => P (Z2 b) (T2 a))) by (intros a b Ha Hb; apply (Pl _ _ _ y1); apply HZ2; exact Hb).
    rewrite (half N n1 pr M1 P1 (fun k a => sum n2 (fun c => sum n2 (fun b => M2 c b * P2 k b) * P (T1 a) (T2 c))) (fun a b => sum n2 (fun p => sum n2 (fun q => M2 p q * pd b q * P (T1 a) (T2 p))))).
    + rewrite (sum_ext n1 (fun i => sum n2 (fun p => sum n1 (fun j => sum n2 (fun q => P (T1 i) (T2 p) * pd j q * M1 i j * M2 p q)))) (fun a => sum n1 (fun b => M1 a b * sum n2 (fun p => sum n2 (fun q => M2 p q * pd b q * P (T1 a) (T2 p)))))).
      * rewrite (sum_ext n2 (fun i => sum n2 (fun j => P (Z2 j) (T2 i) * M2 i j)) (fun i => sum n2 (fun j => M2 i j * P (Z2 j) (T2 i)))) by (intros i _; apply sum_ext; intros; ring).
        rewrite (sum_ext n1 (fun i => sum n1 (fun j => P (T1 i) (Z1 j) * M1 i j)) (fun i => sum n1 (fun j => M1 i j * P (T1 i) (Z1 j)))) by (intros i _; apply sum_ext; intros; ring). ring.
      * intros i _. rewrite sum_swap. apply sum_ext. intros j _. rewrite <- sum_mul_l. apply sum_ext. intros r _. rewrite <- sum_mul_l. apply sum_ext. intros s _. ring.
    + intros a b Ha Hb. rewrite (sum_ext N _ (fun k => sum n2 (fun c => sum n2 (fun d => M2 c d * (pr k * P1 k b * P2 k d) * P (T1 a) (T2 c))))).
      * rewrite (sum_swap N n2). apply sum_ext. intros c Hc. rewrite (sum_swap N n2). apply sum_ext. intros d Hd. rewrite (Hpd b d Hb Hd). rewrite <- sum_mul_l, <- sum_mul_r. reflexivity.
      * intros k _. rewrite <- sum_mul_l. apply sum_ext. intros c _. rewrite <- sum_mul_r, <- sum_mul_l. apply sum_ext. intros d _. ring.
  - intros k Hk. rewrite (P_minus_l n1 (a1 k) (x1 k) (y1 k) T1 (x2 k)) by (apply H1; exact Hk). rewrite (P_minus_r n2 (a2 k) (x2 k) (y2 k) T2 (y1 k)) by (apply H2; exact Hk).
    rewrite (sum_ext n1 (fun k0 => a1 k k0 * P (T1 k0) (x2 k)) (fun a => a1 k a * P (T1 a) (y2 k) - a1 k a * sum n2 (fun c => a2 k c * P (T1 a) (T2 c)))) by (intros a _; rewrite (P_minus_r n2 (a2 k) (x2 k) (y2 k) T2 (T1 a)) by (apply H2; exact Hk); ring).
    rewrite sum_sub. ring.
Qed.
End Algebra.
Variables (ph : nat -> nat -> cplx) (eigh : mat -> list F * mat).
(** ** What a field with templates holds *)
Definition core (a : flat_args) (sp : Z) : ffield := FF (geometry a) sp (g_pe a) (g_pb a) (g_mask a) (g_beam a) [] false.
Notation harm := (harm pi fsqrt ph).
Lemma flat_facts (a : flat_args) f m : flat_new pi fsqrt ph eigh a = Ok f -> g_maps a = Some m -> g_masked a = false -> g_lite a = false ->
  exists sp ts X, let s := geometry a in let n := nmap_of sp in let wp := map (product s (g_mask a)) in
    spin_from (length m) (g_spin a) = Ok sp /\ ((g_pe a || g_pb a)%bool = true -> sp = 2%Z) /\ shaped n (npix_fs s) m /\ temps_from (g_temp a) (length m) (npix_fs s) = Ok ts /\ (forall x, In x ts -> shaped n (npix_fs s) x) /\
    0 < fs_lx s /\ 0 < fs_ly s /\ f_base f = FF s sp (g_pe a) (g_pb a) (g_mask a) (g_beam a) X false /\ f_lite f = false /\
    temps_of f = map wp ts /\ atemps_of f = map (harm (core a sp)) ts /\ X = harm (core a sp) (subtract s n (amplitudes s n (iM_of f) (map wp ts) (wp m)) ts m) /\
    (ts <> [] -> pinv eigh (temp_matrix s n (map wp ts)) (g_tol a) = Ok (iM_of f)) /\ (ts = [] -> iM_of f = []).
Proof.
  intros Ef Em Ek El. unfold flat_new in Ef. rewrite Em, Ek, El in Ef. destruct ((g_lx a <? 0) || (g_ly a <? 0))%bool; [discriminate|]. destruct (spin_from (length m) (g_spin a)) as [sp|x|] eqn:Esp; [|discriminate|discriminate]. cbn [bind] in Ef.
  destruct ((g_pe a || g_pb a) && negb (sp =? 2)%Z)%bool eqn:Ep; [discriminate|]. destruct (negb (forallb _ m)) eqn:EL; [discriminate|]. destruct (temps_from (g_temp a) (length m) (g_nx a * g_ny a)) as [ts|x|] eqn:ET; [|discriminate|discriminate]. cbn [bind] in Ef.
  destruct (negb ((0 <? g_lx a) && (0 <? g_ly a))) eqn:EP; [discriminate|]. apply Bool.negb_false_iff in EP, EL. apply andb_prop in EP. destruct EP as [Px Py].
  assert (Lm : length m = nmap_of sp).
  { unfold spin_from in Esp. unfold nmap_of. destruct m as [|q [|u [|? ?]]]; cbn [length Nat.eqb orb negb andb] in Esp; try discriminate Esp; (destruct (g_spin a) as [y|]; [|injection Esp as <-; reflexivity]);
    (destruct (Z.eqb_spec y 0) as [E0|Ny]; cbn [andb orb negb] in Esp; try discriminate Esp); injection Esp as Esp; subst sp; destruct (Z.eqb_spec y 0); try contradiction; reflexivity. }
  assert (Sm : shaped (nmap_of sp) (npix_fs (geometry a)) m). { split; [exact Lm|]. intros r Hr. rewrite forallb_forall in EL. apply Nat.eqb_eq. exact (EL r Hr). }
  assert (St : forall x, In x ts -> shaped (nmap_of sp) (npix_fs (geometry a)) x). { intros x Hin. unfold temps_from in ET. destruct (g_temp a) as [|[|t0 tr]|]; try discriminate ET; [injection ET as <-; contradiction|]. match type of ET with (if ?c then _ else _) = _ => destruct c eqn:G end; [|discriminate ET]. injection ET as <-. rewrite forallb_forall in G. specialize (G x Hin). apply andb_prop in G. destruct G as [G1 G2]. apply Nat.eqb_eq in G1. split; [congruence|]. intros r Hr. rewrite forallb_forall in G2. apply Nat.eqb_eq. exact (G2 r Hr). }
  assert (PS : pure_spin (core a sp)). { intro H. cbn [core ff_pe ff_pb] in H. rewrite H in Ep. cbn [andb] in Ep. apply Bool.negb_false_iff in Ep. apply Z.eqb_eq in Ep. exact Ep. }
  unfold field_flat_alloc in Ef. rewrite Ep in Ef. cbv zeta in Ef. rewrite ?map_id in Ef. fold (geometry a) in Ef. fold (nmap_of sp) in Ef. change (fun m : mat => map (product (geometry a) (g_mask a)) m) with (map (product (geometry a) (g_mask a))) in Ef.
  set (s := geometry a) in *. set (n := nmap_of sp) in *. set (wp := map (product s (g_mask a))) in *. rewrite map_length in Ef.
  set (dep := if (0 <? length ts)%nat then _ else _) in Ef. destruct dep as [d|x|] eqn:Ed; [|discriminate|discriminate]. subst dep. cbn [bind] in Ef.
  set (al := match d with Some iM => _ | None => _ end) in Ef.
  assert (EA : al = match ts with [] => [] | _ => amplitudes s n (match d with Some iM => iM | None => [] end) (map wp ts) (wp m) end /\ (ts <> [] -> exists iM, d = Some iM /\ pinv eigh (temp_matrix s n (map wp ts)) (g_tol a) = Ok iM) /\ (ts = [] -> d = None)).
  { destruct ts as [|t0 tr]; [cbn [length Nat.ltb Nat.leb] in Ed; injection Ed as <-; split; [reflexivity|]; split; [congruence | reflexivity]|]. cbn [length Nat.ltb Nat.leb] in Ed. destruct (pinv _ _ _) as [iM|x|]; [|discriminate|discriminate]. cbn [bind] in Ed. injection Ed as <-. split; [reflexivity|]. split; [eauto | discriminate]. }
  destruct EA as [EA [Ed1 Ed2]]. clear Ed. clearbody al.
  assert (EA' : subtract s n al ts m = subtract s n (amplitudes s n (match d with Some iM => iM | None => [] end) (map wp ts) (wp m)) ts m) by (rewrite EA; destruct ts; reflexivity).
  assert (Ss : length (subtract s n al ts m) = nmap_of sp) by (apply (subtract_shaped s n al ts m Sm)).
  exists sp, ts, (harm (core a sp) (subtract s n al ts m)). cbv zeta. fold wp. fold n.
  split; [first [reflexivity | exact Esp]|]. split; [exact PS|]. split; [exact Sm|]. split; [first [reflexivity | exact ET]|]. split; [exact St|]. split; [exact Px|]. split; [exact Py|].
  { destruct (g_pe a || g_pb a)%bool eqn:Eb.
    + destruct (harm_ok pi fsqrt ph (core a sp) (subtract s n al ts m) PS Ss) as [Hh _]. unfold purify_generic in Hh. cbn [core ff_pe ff_pb ff_fs ff_mask ff_spin] in Hh. rewrite Eb in Hh. fold s in Hh. destruct (purify_flat pi fsqrt ph s _ _ _ (subtract s n al ts m)) as [[x pm]|x|] eqn:E1 in Ef, Hh; [|discriminate|discriminate]. cbn [bind] in Ef, Hh. injection Hh as Hh.
      rewrite (mapM_ok _ (harm (core a sp))) in Ef. 2:{ intros t It. destruct (harm_ok pi fsqrt ph (core a sp) t PS (proj1 (St t It))) as [Ht _]. unfold purify_generic in Ht. cbn [core ff_pe ff_pb ff_fs ff_mask ff_spin] in Ht. rewrite Eb in Ht. exact Ht. }
      cbn [bind] in Ef. injection Ef as <-. cbn [f_base f_lite]. rewrite Hh. unfold temps_of, atemps_of, iM_of. cbn [f_temp f_atemp f_iM f_lite f_base]. rewrite <- EA'.
      repeat (split; [reflexivity|]). split; [destruct ts; reflexivity|]. split; [destruct ts; reflexivity|]. split; [reflexivity|]. split; [intro Hn; destruct (Ed1 Hn) as [iM [-> E]]; exact E | intro Hn; rewrite (Ed2 Hn); reflexivity].
    + destruct (harm_ok pi fsqrt ph (core a sp) (subtract s n al ts m) PS Ss) as [Hh _]. unfold purify_generic in Hh. cbn [core ff_pe ff_pb ff_fs ff_mask ff_spin] in Hh. rewrite Eb in Hh. fold s in Hh. rewrite (subtract_masked s n (g_mask a) al ts m Sm St) in Hh. fold wp in Hh. rewrite Hh in Ef. cbn [bind] in Ef.
      rewrite (mapM_ok _ (fun t => analysed pi fsqrt ph s sp t)) in Ef. 2:{ intros t It. apply analysed_ok. apply in_map_iff in It as [t' [<- It]]. unfold wp. rewrite map_length. apply (St t' It). }
      cbn [bind] in Ef. injection Ef as <-. cbn [f_base f_lite]. unfold temps_of, atemps_of, iM_of. cbn [f_temp f_atemp f_iM f_lite f_base]. rewrite <- EA'. apply Bool.orb_false_iff in Eb. destruct Eb as [Eb1 Eb2].
      split; [unfold core; rewrite Eb1, Eb2; reflexivity|]. split; [reflexivity|]. split; [destruct ts; reflexivity|]. split; [|split; [reflexivity|]; split; [intro Hn; destruct (Ed1 Hn) as [iM [-> E]]; exact E | intro Hn; rewrite (Ed2 Hn); reflexivity]].
      destruct ts as [|t0 tr]; [reflexivity|]. cbn [length Nat.ltb Nat.leb]. rewrite map_map. apply map_ext. intro t. unfold harm. cbn [core ff_pe ff_pb ff_fs ff_mask ff_spin]. rewrite Eb1, Eb2. reflexivity. }
Qed.
Lemma field_maps_shape (s : fsinfo) sp a : length a = nmap_of sp -> full s a -> exists z, field_maps pi fsqrt ph s sp a = Ok z /\ shaped (nmap_of sp) (npix_fs s) z.
Proof.
  intros L H. unfold nmap_of in *. destruct (Z.eqb_spec sp 0) as [E|E].
  - destruct a as [|x [|? ?]]; try discriminate L. exists [alm2map0 pi ph s x]. unfold field_maps. destruct (Z.eqb_spec sp 0); [|contradiction]. split; [reflexivity|]. split; [reflexivity|]. intros r [<-|[]]. apply length_tab.
  - destruct a as [|x [|y [|? ?]]]; try discriminate L. destruct (field_maps_two pi fsqrt ph s sp x y E) as [q [u [E' [Lq Lu]]]]; [apply H; left; reflexivity | apply H; right; left; reflexivity|]. exists [q; u]. split; [exact E'|]. split; [reflexivity|]. intros r [<-|[<-|[]]]; assumption.
Qed.
Lemma filtered_full (s : fsinfo) n1 n2 C a : length (filtered pi fsqrt s n1 n2 C a) = n1 /\ full s (filtered pi fsqrt s n1 n2 C a).
Proof. unfold filtered. split; [apply length_tab|]. intros x Hx. unfold tab in Hx. apply in_map_iff in Hx as [i [<- _]]. apply length_tab. Qed.
End LBF.
