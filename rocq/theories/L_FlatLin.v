(** Linearity of the flat-sky analysis of maps, with and without purification. *)
From Verif Require Import Base M_Utils M_Bins M_FlatBins M_LinAlg M_Workspace M_Flat M_WspFlat M_Syn M_FieldFlat M_BiasFlat L_Flat L_Flat3 L_Pure.
From Coq Require Import Permutation.
Open Scope nat_scope.

Section FlatLin.
Context {F : ofield}.
Local Open Scope F_scope.
Add Field FfLFl : (fth F).
Notation mat := (list (list F)).
Notation cplx := (cplx F).
Notation fsinfo := (fsinfo F).
Notation ffield := (ffield F).

(** linear combinations of N terms *)
Section Comb.
Variables (N : nat) (co : nat -> F).
Definition rlin (x : F) (xs : nat -> F) : Prop := x = sum N (fun k => co k * xs k).
Definition clin (x : cplx) (xs : nat -> cplx) : Prop := rlin (fst x) (fun k => fst (xs k)) /\ rlin (snd x) (fun k => snd (xs k)).
Lemma rlin_ext x xs y ys : x = y -> (forall k, (k < N)%nat -> xs k = ys k) -> rlin x xs -> rlin y ys.
Proof. intros <- H R. unfold rlin in *. rewrite R. apply sum_ext. intros k Hk. rewrite (H k Hk). reflexivity. Qed.
Lemma rlin_0 : rlin 0 (fun _ => 0).
Proof. unfold rlin. rewrite sum_zero; [reflexivity|]. intros. ring. Qed.
Lemma rlin_add x xs y ys : rlin x xs -> rlin y ys -> rlin (x + y) (fun k => xs k + ys k).
Proof. unfold rlin. intros -> ->. rewrite <- sum_add. apply sum_ext. intros. ring. Qed.
Lemma rlin_mul a x xs : rlin x xs -> rlin (a * x) (fun k => a * xs k).
Proof. unfold rlin. intros ->. rewrite <- sum_mul_l. apply sum_ext. intros. ring. Qed.
Lemma rlin_sub x xs y ys : rlin x xs -> rlin y ys -> rlin (x - y) (fun k => xs k - ys k).
Proof. unfold rlin. intros -> ->. rewrite <- sum_sub. apply sum_ext. intros. ring. Qed.
Lemma rlin_sum n x (xs : nat -> nat -> F) : (forall i, (i < n)%nat -> rlin (x i) (xs i)) -> rlin (sum n x) (fun k => sum n (fun i => xs i k)).
Proof.
  intro H. unfold rlin. rewrite (sum_ext n x (fun i => sum N (fun k => co k * xs i k))) by (intros i Hi; exact (H i Hi)). rewrite sum_swap. apply sum_ext. intros k _. rewrite sum_mul_l. reflexivity.
Qed.
Lemma clin_0 : clin c0 (fun _ => c0).
Proof. split; apply rlin_0. Qed.
Lemma clin_ext x xs y ys : x = y -> (forall k, (k < N)%nat -> xs k = ys k) -> clin x xs -> clin y ys.
Proof. intros <- H [A B]. split; [eapply rlin_ext; [reflexivity| |exact A] | eapply rlin_ext; [reflexivity| |exact B]]; intros k Hk; cbn beta; rewrite (H k Hk); reflexivity. Qed.
Lemma clin_add x xs y ys : clin x xs -> clin y ys -> clin (cadd x y) (fun k => cadd (xs k) (ys k)).
Proof. intros [A B] [C D]. split; cbn [cadd fst snd]; apply rlin_add; assumption. Qed.
Lemma clin_sub x xs y ys : clin x xs -> clin y ys -> clin (csub x y) (fun k => csub (xs k) (ys k)).
Proof. intros [A B] [C D]. split; cbn [csub fst snd]; apply rlin_sub; assumption. Qed.
Lemma clin_scal a x xs : clin x xs -> clin (cscal a x) (fun k => cscal a (xs k)).
Proof. intros [A B]. split; cbn [cscal fst snd]; apply rlin_mul; assumption. Qed.
Lemma clin_scal_r c x xs : rlin x xs -> clin (cscal x c) (fun k => cscal (xs k) c).
Proof. intro A. split; cbn [cscal fst snd]; [apply (rlin_mul (fst c)) in A | apply (rlin_mul (snd c)) in A]; revert A; apply rlin_ext; try intros; ring. Qed.
Lemma clin_mul c x xs : clin x xs -> clin (cmul c x) (fun k => cmul c (xs k)).
Proof. intros [A B]. split; cbn [cmul fst snd]; [apply rlin_sub | apply rlin_add]; apply rlin_mul; assumption. Qed.
Lemma clin_csum n x (xs : nat -> nat -> cplx) : (forall i, (i < n)%nat -> clin (x i) (xs i)) -> clin (csum n x) (fun k => csum n (fun i => xs i k)).
Proof. intro H. split; cbn [csum fst snd]; [apply (rlin_sum n (fun i => fst (x i)) (fun i k => fst (xs i k))) | apply (rlin_sum n (fun i => snd (x i)) (fun i k => snd (xs i k)))]; intros i Hi; apply (H i Hi). Qed.
(** vectors, entry by entry *)
Definition vlin (m : list F) (ms : nat -> list F) : Prop := forall p, rlin (nth p m 0) (fun k => nth p (ms k) 0).
Definition wlin (a : list cplx) (xs : nat -> list cplx) : Prop := forall i, clin (nth i a c0) (fun k => nth i (xs k) c0).
Lemma vlin_tab n f (fs : nat -> nat -> F) : (forall p, (p < n)%nat -> rlin (f p) (fun k => fs k p)) -> vlin (tab n f) (fun k => tab n (fs k)).
Proof.
  intros H p. destruct (Nat.lt_ge_cases p n) as [L|L].
  - eapply rlin_ext; [| |exact (H p L)]; [rewrite nth_tab by exact L; reflexivity | intros k _; rewrite nth_tab by exact L; reflexivity].
  - eapply rlin_ext; [| |exact rlin_0]; [rewrite nth_overflow by (rewrite length_tab; exact L); reflexivity | intros k _; rewrite nth_overflow by (rewrite length_tab; exact L); reflexivity].
Qed.
Lemma wlin_tab n f (fs : nat -> nat -> cplx) : (forall p, (p < n)%nat -> clin (f p) (fun k => fs k p)) -> wlin (tab n f) (fun k => tab n (fs k)).
Proof.
  intros H p. destruct (Nat.lt_ge_cases p n) as [L|L].
  - eapply clin_ext; [| |exact (H p L)]; [rewrite nth_tab by exact L; reflexivity | intros k _; rewrite nth_tab by exact L; reflexivity].
  - eapply clin_ext; [| |exact clin_0]; [rewrite nth_overflow by (rewrite length_tab; exact L); reflexivity | intros k _; rewrite nth_overflow by (rewrite length_tab; exact L); reflexivity].
Qed.
End Comb.

Variables (pi : F) (fsqrt : F -> F) (ph : nat -> nat -> cplx).
Section Ops.
Variables (N : nat) (co : nat -> F).
Notation rlin := (rlin N co). Notation clin := (clin N co). Notation vlin := (vlin N co). Notation wlin := (wlin N co).
Lemma lin_map2alm0 (s : fsinfo) m ms : vlin m ms -> wlin (map2alm0 pi ph s m) (fun k => map2alm0 pi ph s (ms k)).
Proof.
  intro H. unfold map2alm0. apply (wlin_tab N co (fs_ny s * nhalf s) _ (fun k i => cscal (norm_m2a pi s) (dft_at ph s (ms k) (i mod nhalf s) (i / nhalf s)))). intros i _. apply clin_scal. unfold dft_at.
  apply (clin_csum N co (fs_ny s) _ (fun y k => csum (fs_nx s) (fun x => cscal (nth (x + fs_nx s * y) (ms k) 0) _))). intros y _. apply (clin_csum N co (fs_nx s) _ (fun x k => cscal (nth (x + fs_nx s * y) (ms k) 0) _)). intros x _. apply clin_scal_r. apply H.
Qed.
Lemma lin_eb spin r q u qs us : clin q qs -> clin u us -> clin (fst (eb_of spin r q u)) (fun k => fst (eb_of spin r (qs k) (us k))) /\ clin (snd (eb_of spin r q u)) (fun k => snd (eb_of spin r (qs k) (us k))).
Proof. intros A B. unfold eb_of. cbn [fst snd]. split; apply clin_mul; [apply clin_sub | apply clin_add]; apply clin_scal; assumption. Qed.
Lemma lin_product (s : fsinfo) mask m ms : vlin m ms -> vlin (product s mask m) (fun k => product s mask (ms k)).
Proof.
  intro H. unfold product. apply (vlin_tab N co (npix_fs s) _ (fun k i => nth i (ms k) 0 * nth i mask 0)). intros p _. pose proof (rlin_mul N co (nth p mask 0) _ _ (H p)) as R. revert R. apply rlin_ext; [ring | intros; ring].
Qed.
Lemma lin_neg m ms : vlin m ms -> vlin (map (fun x => - (1) * x) m) (fun k => map (fun x => - (1) * x) (ms k)).
Proof.
  intros H p. assert (X : forall l : list F, nth p (map (fun x => - (1) * x) l) 0 = - (1) * nth p l 0).
  { intro l. destruct (Nat.lt_ge_cases p (length l)) as [L|L]; [rewrite (nth_indep _ 0 (- (1) * 0)) by (rewrite map_length; exact L); apply (map_nth (fun x => - (1) * x)) | rewrite !nth_overflow by (rewrite ?map_length; exact L); ring]. }
  eapply rlin_ext; [symmetry; apply X | intros k _; symmetry; apply X | apply rlin_mul; apply H].
Qed.
End Ops.
(** total versions *)
Definition analysed (s : fsinfo) (spin : Z) (m : mat) : list (list cplx) :=
  if (spin =? 0)%Z then [map2alm0 pi ph s (nth 0 m [])]
  else let a := map2alm0 pi ph s (nth 0 m []) in let b := map2alm0 pi ph s (nth 1 m []) in
       let f i := at_index pi fsqrt eb_of s spin i (nth i a c0) (nth i b c0) in
       [tab (fs_ny s * nhalf s) (fun i => fst (f i)); tab (fs_ny s * nhalf s) (fun i => snd (f i))].
Lemma analysed_ok (s : fsinfo) spin m : length m = nmap_of spin -> fs_map2alm pi fsqrt ph s spin m = Ok (analysed s spin m).
Proof.
  unfold nmap_of, fs_map2alm, analysed. destruct (spin =? 0)%Z; intro L.
  - destruct m as [|q [|? ?]]; try discriminate L. reflexivity.
  - destruct m as [|q [|u [|? ?]]]; try discriminate L. change (rd [q; u] 0%Z) with (Ok q). change (rd [q; u] 1%Z) with (Ok u). cbn [bind]. unfold qu2eb.
    rewrite (rot_rows_all pi fsqrt eb_of s spin (rows_of s) _ (fs_ny s * nhalf s)) by (cbn [fst snd]; rewrite ?length_map2alm0; auto). reflexivity.
Qed.
Lemma analysed_shape (s : fsinfo) spin m : length (analysed s spin m) = nmap_of spin /\ forall x, In x (analysed s spin m) -> length x = (fs_ny s * nhalf s)%nat.
Proof. unfold analysed, nmap_of. destruct (spin =? 0)%Z; (split; [reflexivity|]); intros x Hx; cbn [In] in Hx; repeat destruct Hx as [<-|Hx]; try contradiction; rewrite ?length_map2alm0, ?length_tab; reflexivity. Qed.
Definition mlin N co (m : mat) (ms : nat -> mat) : Prop := forall c, vlin N co (nth c m []) (fun k => nth c (ms k) []).
Definition alin N co (a : list (list cplx)) (xs : nat -> list (list cplx)) : Prop := forall c, wlin N co (nth c a []) (fun k => nth c (xs k) []).
Lemma nil_lin N co : wlin N co [] (fun _ => []).
Proof. intro i. eapply clin_ext; [| |apply clin_0]; [destruct i; reflexivity | intros; destruct i; reflexivity]. Qed.
Lemma lin_analysed N co (s : fsinfo) spin m ms : mlin N co m ms -> alin N co (analysed s spin m) (fun k => analysed s spin (ms k)).
Proof.
  intros H c. unfold analysed. destruct (spin =? 0)%Z.
  - destruct c as [|[|c]]; cbn [nth]; try apply nil_lin. apply lin_map2alm0. apply H.
  - assert (A : wlin N co (map2alm0 pi ph s (nth 0 m [])) (fun k => map2alm0 pi ph s (nth 0 (ms k) []))) by (apply lin_map2alm0; apply H). assert (B : wlin N co (map2alm0 pi ph s (nth 1 m [])) (fun k => map2alm0 pi ph s (nth 1 (ms k) []))) by (apply lin_map2alm0; apply H).
    destruct c as [|[|[|c]]]; cbn [nth]; try apply nil_lin.
    + apply (wlin_tab N co (fs_ny s * nhalf s) _ (fun k i => fst (at_index pi fsqrt eb_of s spin i (nth i (map2alm0 pi ph s (nth 0 (ms k) [])) c0) (nth i (map2alm0 pi ph s (nth 1 (ms k) [])) c0)))). intros i _. unfold at_index. apply (lin_eb N co spin _ _ _ (fun k => nth i (map2alm0 pi ph s (nth 0 (ms k) [])) c0) (fun k => nth i (map2alm0 pi ph s (nth 1 (ms k) [])) c0)); [apply A | apply B].
    + apply (wlin_tab N co (fs_ny s * nhalf s) _ (fun k i => snd (at_index pi fsqrt eb_of s spin i (nth i (map2alm0 pi ph s (nth 0 (ms k) [])) c0) (nth i (map2alm0 pi ph s (nth 1 (ms k) [])) c0)))). intros i _. unfold at_index. apply (lin_eb N co spin _ _ _ (fun k => nth i (map2alm0 pi ph s (nth 0 (ms k) [])) c0) (fun k => nth i (map2alm0 pi ph s (nth 1 (ms k) [])) c0)); [apply A | apply B].
Qed.
Lemma lin_map (f : list F -> list F) N co m (ms : nat -> mat) : (forall p, nth p (f []) 0 = 0) -> (forall x xs, vlin N co x xs -> vlin N co (f x) (fun k => f (xs k))) -> mlin N co m ms -> mlin N co (map f m) (fun k => map f (ms k)).
Proof.
  intros E0 Hf H c p. assert (X : forall l : mat, nth p (nth c (map f l) []) 0 = nth p (f (nth c l [])) 0).
  { intro l. destruct (Nat.lt_ge_cases c (length l)) as [L|L]; [rewrite (nth_indep _ [] (f [])) by (rewrite map_length; exact L); rewrite map_nth; reflexivity|]. rewrite (nth_overflow (map f l)) by (rewrite map_length; exact L). rewrite (nth_overflow l) by exact L. rewrite E0. destruct p; reflexivity. }
  apply (rlin_ext N co (nth p (f (nth c m [])) 0) (fun k => nth p (f (nth c (ms k) [])) 0)); [symmetry; apply X | intros k _; symmetry; apply X | exact (Hf _ _ (H c) p)].
Qed.
Lemma product_nil (s : fsinfo) mask p : nth p (product s mask []) 0 = 0.
Proof. unfold product. destruct (Nat.lt_ge_cases p (npix_fs s)) as [L|L]; [rewrite nth_tab by exact L; destruct p; cbn; ring | apply nth_overflow; rewrite length_tab; exact L]. Qed.
Lemma lin_masked N co (s : fsinfo) mask m ms : mlin N co m ms -> mlin N co (map (product s mask) m) (fun k => map (product s mask) (ms k)).
Proof. apply lin_map; [apply product_nil | apply lin_product]. Qed.
(** purification *)
Lemma field_maps_two (s : fsinfo) spin e b : spin <> 0%Z -> length e = (fs_ny s * nhalf s)%nat -> length b = (fs_ny s * nhalf s)%nat -> exists q u, field_maps pi fsqrt ph s spin [e; b] = Ok [q; u] /\ length q = npix_fs s /\ length u = npix_fs s.
Proof.
  intros Hs L1 L2. unfold field_maps. destruct (Z.eqb_spec spin 0) as [E|_]; [contradiction|]. change (rd [e; b] 0%Z) with (Ok e). change (rd [e; b] 1%Z) with (Ok b). cbn [bind]. unfold eb2qu.
  rewrite (rot_rows_all pi fsqrt qu_of s spin (rows_of s) _ (fs_ny s * nhalf s)) by (cbn [fst snd]; auto). cbn [bind]. eexists _, _. split; [reflexivity|]. split; apply length_tab.
Qed.
Definition purified (s : fsinfo) (flags : bool * bool) (mask : list F) (walm : list cplx) (m : mat) : list (list cplx) :=
  let a := analysed s 2 (map (product s mask) m) in
  let w1 := from_ok [] (field_maps pi fsqrt ph s 1 (walm_x_lpower pi fsqrt s walm 1)) in
  let a1 := add_term s flags (fun i => 0 <? k_pix pi fsqrt s i) (fun i => fofZ 2 / k_pix pi fsqrt s i) a (analysed s 1 (spin_product s w1 m)) in
  let w2 := from_ok [] (field_maps pi fsqrt ph s 2 (walm_x_lpower pi fsqrt s walm 2)) in
  add_term s flags (fun i => 0 <? k2_pix pi s i) (fun i => 1 / k2_pix pi s i) a1 (map (fun x => map2alm0 pi ph s (map (fun y => - (1) * y) x)) (spin_product s w2 m)).
Definition two_full (s : fsinfo) (a : list (list cplx)) : Prop := exists x y, a = [x; y] /\ length x = (fs_ny s * nhalf s)%nat /\ length y = (fs_ny s * nhalf s)%nat.
Lemma add_term_full (s : fsinfo) flags on c a p : two_full s a -> two_full s (add_term s flags on c a p).
Proof. intros [x [y [-> [A B]]]]. unfold add_term. eexists _, _. split; [reflexivity|]. split; [destruct (fst flags) | destruct (snd flags)]; rewrite ?length_tab; try reflexivity; assumption. Qed.
Lemma analysed_full (s : fsinfo) spin m : spin <> 0%Z -> two_full s (analysed s spin m).
Proof. intro H. unfold analysed. destruct (Z.eqb_spec spin 0); [contradiction|]. eexists _, _. split; [reflexivity|]. split; apply length_tab. Qed.
Lemma purified_ok (s : fsinfo) flags mask walm m : length m = 2%nat -> (exists pm, purify_flat pi fsqrt ph s flags mask walm m = Ok (purified s flags mask walm m, pm)) /\ two_full s (purified s flags mask walm m).
Proof.
  intro L. assert (T : two_full s (purified s flags mask walm m)) by (unfold purified; cbv zeta; do 2 apply add_term_full; apply analysed_full; lia). split; [|exact T].
  unfold purify_flat. rewrite analysed_ok by (rewrite map_length; exact L). cbn [bind].
  destruct (field_maps_two s 1 (tab (fs_ny s * nhalf s) (fun i => cscal (- power (k_pix pi fsqrt s i) 1) (nth i walm c0))) (tab (fs_ny s * nhalf s) (fun _ => c0))) as [q1 [u1 [E1 _]]]; [lia | apply length_tab | apply length_tab|].
  destruct (field_maps_two s 2 (tab (fs_ny s * nhalf s) (fun i => cscal (- power (k_pix pi fsqrt s i) 2) (nth i walm c0))) (tab (fs_ny s * nhalf s) (fun _ => c0))) as [q2 [u2 [E2 _]]]; [lia | apply length_tab | apply length_tab|].
  change (field_maps pi fsqrt ph s 1 (walm_x_lpower pi fsqrt s walm 1) = Ok [q1; u1]) in E1. change (field_maps pi fsqrt ph s 2 (walm_x_lpower pi fsqrt s walm 2) = Ok [q2; u2]) in E2.
  rewrite E1. cbn [bind]. rewrite analysed_ok by reflexivity. cbn [bind]. rewrite E2. cbn [bind].
  unfold purified in *. cbv zeta in *. rewrite E1, E2 in *. cbn [from_ok] in *. destruct T as [x [y [E [Lx Ly]]]]. rewrite E. destruct (field_maps_two s 2 x y) as [q [u [E' _]]]; [lia | exact Lx | exact Ly|]. rewrite E'. cbn [bind]. eexists. reflexivity.
Qed.
Lemma lin_spin_product N co (s : fsinfo) w m ms : mlin N co m ms -> mlin N co (spin_product s w m) (fun k => spin_product s w (ms k)).
Proof.
  intros H c. assert (Z : vlin N co [] (fun _ => [])) by (intro p; eapply rlin_ext; [| |apply rlin_0]; [destruct p; reflexivity | intros; destruct p; reflexivity]).
  unfold spin_product. destruct c as [|[|[|c]]]; cbn [nth]; try exact Z.
  - apply (vlin_tab N co (npix_fs s) _ (fun k i => nth i (nth 0 w []) 0 * nth i (nth 0 (ms k) []) 0 + nth i (nth 1 w []) 0 * nth i (nth 1 (ms k) []) 0)). intros p _. apply rlin_add; apply rlin_mul; apply H.
  - apply (vlin_tab N co (npix_fs s) _ (fun k i => nth i (nth 0 w []) 0 * nth i (nth 1 (ms k) []) 0 - nth i (nth 1 w []) 0 * nth i (nth 0 (ms k) []) 0)). intros p _. apply rlin_sub; apply rlin_mul; apply H.
Qed.
Lemma lin_add_term N co (s : fsinfo) flags on c a xs p ps : alin N co a xs -> alin N co p ps -> alin N co (add_term s flags on c a p) (fun k => add_term s flags on c (xs k) (ps k)).
Proof.
  intros A P j. assert (G : forall (flag : bool) j, wlin N co (if flag then tab (fs_ny s * nhalf s) (fun i => let x := nth i (nth j a []) c0 in if on i then cadd x (cscal (c i) (nth i (nth j p []) c0)) else x) else nth j a [])
      (fun k => if flag then tab (fs_ny s * nhalf s) (fun i => let x := nth i (nth j (xs k) []) c0 in if on i then cadd x (cscal (c i) (nth i (nth j (ps k) []) c0)) else x) else nth j (xs k) [])).
  { intros [|] i; [|apply A]. 
    apply (wlin_tab N co (fs_ny s * nhalf s) _ (fun k q => let x := nth q (nth i (xs k) []) c0 in if on q then cadd x (cscal (c q) (nth q (nth i (ps k) []) c0)) else x)). intros q _. cbv zeta. destruct (on q); [|apply A]. apply clin_add; [apply A | apply clin_scal; apply P]. }
  unfold add_term. destruct j as [|[|[|j]]]; cbn [nth]; try apply nil_lin; [apply (G (fst flags) 0%nat) | apply (G (snd flags) 1%nat)].
Qed.
Lemma lin_purified N co (s : fsinfo) flags mask walm m ms : mlin N co m ms -> alin N co (purified s flags mask walm m) (fun k => purified s flags mask walm (ms k)).
Proof.
  intro H. unfold purified. cbv zeta. apply lin_add_term; [apply lin_add_term; [apply lin_analysed; apply lin_masked; exact H | apply lin_analysed; apply lin_spin_product; exact H]|].
  intro j. set (w2 := from_ok [] _). assert (S : mlin N co (spin_product s w2 m) (fun k => spin_product s w2 (ms k))) by (apply lin_spin_product; exact H).
  assert (G : forall i, (i < 2)%nat -> wlin N co (map2alm0 pi ph s (map (fun y => - (1) * y) (nth i (spin_product s w2 m) []))) (fun k => map2alm0 pi ph s (map (fun y => - (1) * y) (nth i (spin_product s w2 (ms k)) [])))) by (intros i _; apply lin_map2alm0; apply lin_neg; apply S).
  destruct j as [|[|[|j]]]; [apply (G 0%nat); lia | apply (G 1%nat); lia | apply nil_lin | apply nil_lin].
Qed.
(** what purify_generic_flat computes *)
Definition harm (f : ffield) (m : mat) : list (list cplx) :=
  if (ff_pe f || ff_pb f)%bool then purified (ff_fs f) (ff_pe f, ff_pb f) (ff_mask f) (map2alm0 pi ph (ff_fs f) (ff_mask f)) m else analysed (ff_fs f) (ff_spin f) (map (product (ff_fs f) (ff_mask f)) m).
Definition pure_spin (f : ffield) : Prop := (ff_pe f || ff_pb f)%bool = true -> ff_spin f = 2%Z.
Lemma harm_ok (f : ffield) m : pure_spin f -> length m = ff_nmaps f -> purify_generic pi fsqrt ph f m = Ok (harm f m) /\ length (harm f m) = ff_nmaps f /\ forall x, In x (harm f m) -> length x = (fs_ny (ff_fs f) * nhalf (ff_fs f))%nat.
Proof.
  intros P L. unfold purify_generic, harm, ff_nmaps in *. destruct (ff_pe f || ff_pb f)%bool eqn:E.
  - rewrite (P E) in *. cbn in L. destruct (purified_ok (ff_fs f) (ff_pe f, ff_pb f) (ff_mask f) (map2alm0 pi ph (ff_fs f) (ff_mask f)) m L) as [[pm ->] [x [y [-> [Lx Ly]]]]]. cbn [bind]. split; [reflexivity|]. split; [reflexivity|]. intros z [<-|[<-|[]]]; assumption.
  - change (length m = nmap_of (ff_spin f)) in L. rewrite analysed_ok by (rewrite map_length; exact L). split; [reflexivity|]. apply analysed_shape.
Qed.
Lemma lin_harm N co (f : ffield) m ms : mlin N co m ms -> alin N co (harm f m) (fun k => harm f (ms k)).
Proof. intro H. unfold harm. destruct (ff_pe f || ff_pb f)%bool; [apply lin_purified; exact H | apply lin_analysed; apply lin_masked; exact H]. Qed.
End FlatLin.
