(** Lemmas for the flat-sky transforms: complex numbers, the rotation loop, Fourier modes. *)
From Verif Require Import Base M_Utils M_FlatBins M_Flat.
From Coq Require Import Permutation.
Open Scope nat_scope.

Section LFlat.
Context {F : ofield}.
Local Open Scope F_scope.
Add Field FfFl : (fth F).
Notation cplx := (cplx F).
Notation fsinfo := (fsinfo F).

Lemma cplx_eq (x y : cplx) : fst x = fst y -> snd x = snd y -> x = y.
Proof. destruct x, y. cbn. congruence. Qed.
Lemma cdot_conj (x y : cplx) : cdot (conjc x) (conjc y) = cdot x y.
Proof. unfold cdot, conjc. cbn. ring. Qed.
Lemma conj_conj (x : cplx) : conjc (conjc x) = x.
Proof. apply cplx_eq; unfold conjc; cbn; ring. Qed.

(** ** A loop that treats every position once, and reads and writes only that position *)
Section Loop.
Context {A : Type}.
Variable (d : A).
Variable g : nat -> A -> A -> A * A.
Definition lstep (st : list A * list A) (i : nat) : res (list A * list A) :=
  do a <- rd (fst st) (Z.of_nat i); do b <- rd (snd st) (Z.of_nat i);
  let (x, y) := g i a b in Ok (upd (fst st) i x, upd (snd st) i y).
Definition hit (l : list nat) (i : nat) : bool := existsb (Nat.eqb i) l.
Definition after1 (l : list nat) (st : list A * list A) (i : nat) : A := if hit l i then fst (g i (nth i (fst st) d) (nth i (snd st) d)) else nth i (fst st) d.
Definition after2 (l : list nat) (st : list A * list A) (i : nat) : A := if hit l i then snd (g i (nth i (fst st) d) (nth i (snd st) d)) else nth i (snd st) d.
Lemma hit_in l i : hit l i = true <-> In i l.
Proof. unfold hit. rewrite existsb_exists. split; [intros [x [H E]]; apply Nat.eqb_eq in E; subst; exact H | intro H; exists i; split; [exact H | apply Nat.eqb_refl]]. Qed.
Lemma loop_once l : NoDup l -> forall st n, length (fst st) = n -> length (snd st) = n -> (forall i, In i l -> (i < n)%nat) ->
  foldM lstep st l = Ok (tab n (after1 l st), tab n (after2 l st)).
Proof.
  intro ND. induction ND as [|i l N ND IH]; intros [a b] n HA HB HL; cbn [fst snd] in *.
  - cbn. f_equal. f_equal; apply (list_eq_nth _ _ d); rewrite ?length_tab; auto; intros i Hi; rewrite nth_tab by lia; reflexivity.
  - assert (Hi : (i < n)%nat) by (apply HL; cbn; auto). cbn [foldM]. unfold lstep at 1. cbn [fst snd]. rewrite (rd_nat a i d), (rd_nat b i d) by lia. cbn [bind].
    destruct (g i (nth i a d) (nth i b d)) as [x y] eqn:G. cbn [bind].
    rewrite (IH (upd a i x, upd b i y) n) by (cbn [fst snd]; rewrite ?length_upd; auto; intros; apply HL; cbn; auto). f_equal. f_equal; apply tab_ext; intros j Hj; unfold after1, after2; cbn [fst snd].
    + rewrite !nth_upd by lia. unfold hit at 2. cbn [existsb]. fold (hit l j). destruct (Nat.eqb_spec j i) as [->|E].
      * assert (H : hit l i = false) by (destruct (hit l i) eqn:H; [exfalso; apply N; apply hit_in; exact H | reflexivity]). rewrite H. cbn [orb]. rewrite G. reflexivity.
      * cbn [orb]. reflexivity.
    + rewrite !nth_upd by lia. unfold hit at 2. cbn [existsb]. fold (hit l j). destruct (Nat.eqb_spec j i) as [->|E].
      * assert (H : hit l i = false) by (destruct (hit l i) eqn:H; [exfalso; apply N; apply hit_in; exact H | reflexivity]). rewrite H. cbn [orb]. rewrite G. reflexivity.
      * cbn [orb]. reflexivity.
Qed.
End Loop.
Lemma foldM_map {A B S : Type} (h : A -> B) (f : S -> B -> res S) l : forall s, foldM f s (map h l) = foldM (fun s a => f s (h a)) s l.
Proof. induction l as [|a l IH]; intro s; [reflexivity|]. cbn. destruct (f s (h a)); cbn; [apply IH | reflexivity | reflexivity]. Qed.
Lemma foldM_ext_all {A S : Type} (f g : S -> A -> res S) l : (forall s a, f s a = g s a) -> forall s, foldM f s l = foldM g s l.
Proof. intro H. induction l as [|a l IH]; intro s; [reflexivity|]. cbn. rewrite H. destruct (g s a); cbn; [apply IH | reflexivity | reflexivity]. Qed.
Lemma foldM_rows {S : Type} (n : nat) (f : S -> nat -> res S) order : forall s,
  foldM (fun s iy => foldM (fun s ix => f s (ix + n * iy)%nat) s (seq 0 n)) s order = foldM f s (flat_map (fun iy => map (fun ix => ix + n * iy)%nat (seq 0 n)) order).
Proof.
  induction order as [|iy t IH]; intro s; [reflexivity|]. cbn [foldM flat_map]. rewrite foldM_app, foldM_map. destruct (foldM _ s (seq 0 n)); cbn; [apply IH | reflexivity | reflexivity].
Qed.
Definition cells (n : nat) (order : list nat) : list nat := flat_map (fun iy => map (fun ix => ix + n * iy)%nat (seq 0 n)) order.
Lemma in_cells n order i : (0 < n)%nat -> In i (cells n order) <-> In (i / n)%nat order.
Proof.
  intro Hn. unfold cells. rewrite in_flat_map. split.
  - intros [iy [H1 H2]]. apply in_map_iff in H2. destruct H2 as [ix [<- H2]]. apply in_seq in H2. replace ((ix + n * iy) / n)%nat with iy; [exact H1|]. apply Nat.div_unique with ix; lia.
  - intro H. exists (i / n)%nat. split; [exact H|]. apply in_map_iff. exists (i mod n)%nat. split; [pose proof (Nat.div_mod i n); lia|]. apply in_seq. pose proof (Nat.mod_upper_bound i n). lia.
Qed.
Lemma NoDup_cells n order : (0 < n)%nat -> NoDup order -> NoDup (cells n order).
Proof.
  intros Hn H. induction H as [|iy t N ND IH]; [constructor|]. unfold cells. cbn [flat_map]. fold (cells n t).
  assert (L : NoDup (map (fun ix => ix + n * iy)%nat (seq 0 n))) by (apply FinFun.Injective_map_NoDup; [intros x y E; lia | apply seq_NoDup]).
  revert IH. assert (D : forall i, In i (map (fun ix => ix + n * iy)%nat (seq 0 n)) -> ~ In i (cells n t)).
  { intros i H1 H2. apply in_cells in H2; [|exact Hn]. apply in_map_iff in H1. destruct H1 as [ix [<- H1]]. apply in_seq in H1.
    replace ((ix + n * iy) / n)%nat with iy in H2 by (apply Nat.div_unique with ix; lia). contradiction. }
  intro IH. induction (map (fun ix => ix + n * iy)%nat (seq 0 n)) as [|x l IHl]; [exact IH|]. cbn. inversion L; subst. constructor; [|apply IHl; [assumption | intros i Hi; apply D; right; exact Hi]].
  rewrite in_app_iff. intros [Hx|Hx]; [contradiction|]. apply (D x); [left; reflexivity | exact Hx].
Qed.

(** ** The rotation *)
Section Rot.
Variables (pi : F) (fsqrt : F -> F).
(** [fsqrt] is exact for the squared wavenumbers of the grid *)
Definition ksq (s : fsinfo) (ix iy : nat) : F := kxf pi s ix * kxf pi s ix + kyf pi s iy * kyf pi s iy.
Definition sqrt_on (s : fsinfo) : Prop := forall ix iy, (ix < nhalf s)%nat -> (iy < fs_ny s)%nat -> fsqrt (ksq s ix iy) * fsqrt (ksq s ix iy) = ksq s ix iy.
Lemma nhalf_pos (s : fsinfo) : (0 < nhalf s)%nat.
Proof. unfold nhalf. lia. Qed.
Definition at_index (f : Z -> F * F -> cplx -> cplx -> cplx * cplx) (s : fsinfo) (spin : Z) (i : nat) : cplx -> cplx -> cplx * cplx :=
  f spin (rot_at pi fsqrt s spin (i mod nhalf s) (i / nhalf s)).
Lemma rot_rows_eq f (s : fsinfo) spin order st n : NoDup order -> (forall iy, In iy order -> (iy < fs_ny s)%nat) ->
  n = (fs_ny s * nhalf s)%nat -> length (fst st) = n -> length (snd st) = n ->
  rot_rows pi fsqrt f s spin order st = Ok (tab n (after1 c0 (at_index f s spin) (cells (nhalf s) order) st), tab n (after2 c0 (at_index f s spin) (cells (nhalf s) order) st)).
Proof.
  intros ND HO Hn H1 H2. pose proof (nhalf_pos s) as Hp. unfold rot_rows.
  transitivity (foldM (lstep (at_index f s spin)) st (cells (nhalf s) order)).
  - unfold cells. rewrite <- foldM_rows. apply foldM_ext_all. intros s1 iy. 
    assert (E : forall l, (forall ix, In ix l -> (ix < nhalf s)%nat) -> forall s1, foldM (fun st0 ix => rot_step pi fsqrt f s spin iy ix st0) s1 l = foldM (fun s0 ix => lstep (at_index f s spin) s0 (ix + nhalf s * iy)%nat) s1 l).
    { induction l as [|ix l IH]; intros HL s2; [reflexivity|]. cbn [foldM]. 
      assert (Q : rot_step pi fsqrt f s spin iy ix s2 = lstep (at_index f s spin) s2 (ix + nhalf s * iy)%nat).
      { unfold rot_step, lstep, at_index. replace ((ix + nhalf s * iy) mod nhalf s)%nat with ix by (apply (Nat.mod_unique _ _ iy); [apply HL; cbn; auto | lia]).
        replace ((ix + nhalf s * iy) / nhalf s)%nat with iy by (apply (Nat.div_unique _ _ _ ix); [apply HL; cbn; auto | lia]). reflexivity. }
      rewrite Q. destruct (lstep _ s2 _); cbn; [apply IH; intros; apply HL; cbn; auto | reflexivity | reflexivity]. }
    apply E. intros ix H. apply in_seq in H. lia.
  - apply (loop_once c0 (at_index f s spin)); [apply NoDup_cells; assumption | exact H1 | exact H2|]. intros i Hi. apply in_cells in Hi; [|exact Hp]. apply HO in Hi. subst n.
    pose proof (Nat.div_mod i (nhalf s)). pose proof (Nat.mod_upper_bound i (nhalf s)). nia.
Qed.
(** all rows, in any order *)
Lemma rot_rows_all f (s : fsinfo) spin order st n : Permutation order (rows_of s) -> n = (fs_ny s * nhalf s)%nat -> length (fst st) = n -> length (snd st) = n ->
  rot_rows pi fsqrt f s spin order st = Ok (tab n (fun i => fst (at_index f s spin i (nth i (fst st) c0) (nth i (snd st) c0))), tab n (fun i => snd (at_index f s spin i (nth i (fst st) c0) (nth i (snd st) c0)))).
Proof.
  intros P Hn H1 H2. rewrite (rot_rows_eq f s spin order st n); [|apply (Permutation_NoDup (Permutation_sym P)); apply seq_NoDup |
    intros iy H; apply (Permutation_in _ P) in H; apply in_seq in H; lia | exact Hn | exact H1 | exact H2].
  assert (HT : forall i, (i < n)%nat -> hit (cells (nhalf s) order) i = true).
  { intros i Hi. apply hit_in. apply in_cells; [apply nhalf_pos|]. apply (Permutation_in _ (Permutation_sym P)). apply in_seq. split; [lia|]. rewrite Nat.add_0_l. apply Nat.div_lt_upper_bound; [pose proof (nhalf_pos s); lia | rewrite Nat.mul_comm; lia]. }
  f_equal. f_equal; apply tab_ext; intros i Hi; unfold after1, after2; rewrite HT by exact Hi; reflexivity.
Qed.
Lemma rotn_unit (c sn : F) : c * c + sn * sn = 1 -> forall n, let r := rotn n c sn in fst r * fst r + snd r * snd r = 1.
Proof.
  intros H. induction n as [|n IH]; cbn [rotn]; cbv zeta; [cbn; ring|]. destruct (rotn n c sn) as [x y]. cbn [fst snd] in *.
  transitivity ((x * x + y * y) * (c * c + sn * sn)); [ring|]. rewrite IH, H. ring.
Qed.
Lemma cphi_unit (kx ky : F) : fsqrt (kx * kx + ky * ky) * fsqrt (kx * kx + ky * ky) = kx * kx + ky * ky -> let r := cphi fsqrt kx ky in fst r * fst r + snd r * snd r = 1.
Proof.
  intro Q. unfold cphi. cbv zeta. set (k2 := kx * kx + ky * ky) in *. destruct (k2 <=? 0) eqn:E; [cbn; ring|]. cbn [fst snd].
  assert (P : 0 < k2) by (apply flt_not_le; intro W; unfold fle in W; congruence).
  assert (NZ : fsqrt k2 <> 0) by (intro Z; rewrite Z in Q; apply (fpos_neq _ P); rewrite <- Q; ring).
  transitivity (k2 / (fsqrt k2 * fsqrt k2)); [unfold k2; field; unfold k2 in NZ; exact NZ|]. rewrite Q. field. intro Z. apply (fpos_neq _ P). exact Z.
Qed.
Lemma rot_unit (s : fsinfo) spin ix iy : sqrt_on s -> (ix < nhalf s)%nat -> (iy < fs_ny s)%nat -> let r := rot_at pi fsqrt s spin ix iy in fst r * fst r + snd r * snd r = 1.
Proof.
  intros HS Hx Hy. unfold rot_at. pose proof (cphi_unit (kxf pi s ix) (kyf pi s iy) (HS ix iy Hx Hy)) as U. destruct (cphi fsqrt (kxf pi s ix) (kyf pi s iy)) as [c sn]. cbn [fst snd] in U. apply rotn_unit. exact U.
Qed.
Lemma ipow_cases z : In (ipow (F:=F) z) [(1, 0); (0, 1); (- (1), 0); (0, - (1))].
Proof. unfold ipow. destruct (z mod 4)%Z as [|[p|[p|p|]|]|p]; cbn; auto. Qed.
Lemma ipow_inv z : cmul (ipow z) (ipow (- z)) = ((1, 0) : cplx).
Proof.
  unfold ipow. assert (H : (0 <= z mod 4 < 4)%Z) by (apply Z.mod_pos_bound; lia).
  assert (E : ((- z) mod 4 = (4 - z mod 4) mod 4)%Z). { rewrite <- (Z.mod_add (-z) (z / 4 + 1) 4) by lia. f_equal. pose proof (Z.div_mod z 4). lia. }
  rewrite E. assert (C : (z mod 4 = 0 \/ z mod 4 = 1 \/ z mod 4 = 2 \/ z mod 4 = 3)%Z) by lia. destruct C as [->|[->|[->| ->]]]; cbn; apply cplx_eq; cbn; ring.
Qed.
Lemma sig_inv spin : cmul (sig spin (- spin)) (sig spin spin) = ((1, 0) : cplx).
Proof.
  unfold sig. pose proof (ipow_inv spin) as H. destruct (ipow (F:=F) spin) as [a b], (ipow (F:=F) (- spin)) as [c d]. unfold cmul, cscal in *. cbn [fst snd] in *.
  apply cplx_eq; cbn [fst snd]; injection H as H1 H2; destruct (spin =? 0)%Z.
  - transitivity (a * c - b * d); [ring | exact H1].
  - transitivity (a * c - b * d); [ring | exact H1].
  - transitivity (a * d + b * c); [ring | exact H2].
  - transitivity (a * d + b * c); [ring | exact H2].
Qed.
Lemma sig_norm spin z : let g := sig (F:=F) spin z in fst g * fst g + snd g * snd g = 1.
Proof.
  unfold sig. pose proof (ipow_cases z) as H. destruct (ipow (F:=F) z) as [a b]. unfold cscal. cbn [fst snd]. destruct (spin =? 0)%Z; cbn in H; destruct H as [H|[H|[H|[H|[]]]]]; injection H as <- <-; ring.
Qed.
(** the rotation back undoes the rotation *)
Lemma qu_eb spin (r : F * F) (q u : cplx) : fst r * fst r + snd r * snd r = 1 -> let (e, b) := eb_of spin r q u in qu_of spin r e b = (q, u).
Proof.
  intro H. destruct r as [c s]. cbn [fst snd] in H. pose proof (sig_inv spin) as G. unfold eb_of, qu_of. cbn [fst snd].
  destruct (sig (F:=F) spin spin) as [g1 g2], (sig (F:=F) spin (- spin)) as [h1 h2], q as [q1 q2], u as [u1 u2]. unfold cmul, cadd, csub, cscal in *. cbn [fst snd] in *. injection G as G1 G2.
  f_equal; apply cplx_eq; cbn [fst snd].
  - transitivity ((c * c + s * s) * ((h1 * g1 - h2 * g2) * q1 - (h1 * g2 + h2 * g1) * q2)); [ring|]. rewrite H, G1, G2. ring.
  - transitivity ((c * c + s * s) * ((h1 * g1 - h2 * g2) * q2 + (h1 * g2 + h2 * g1) * q1)); [ring|]. rewrite H, G1, G2. ring.
  - transitivity ((c * c + s * s) * ((h1 * g1 - h2 * g2) * u1 - (h1 * g2 + h2 * g1) * u2)); [ring|]. rewrite H, G1, G2. ring.
  - transitivity ((c * c + s * s) * ((h1 * g1 - h2 * g2) * u2 + (h1 * g2 + h2 * g1) * u1)); [ring|]. rewrite H, G1, G2. ring.
Qed.
Lemma eb_qu spin (r : F * F) (e b : cplx) : fst r * fst r + snd r * snd r = 1 -> let (q, u) := qu_of spin r e b in eb_of spin r q u = (e, b).
Proof.
  intro H. destruct r as [c s]. cbn [fst snd] in H. pose proof (sig_inv spin) as G. unfold eb_of, qu_of. cbn [fst snd].
  destruct (sig (F:=F) spin spin) as [g1 g2], (sig (F:=F) spin (- spin)) as [h1 h2], e as [q1 q2], b as [u1 u2]. unfold cmul, cadd, csub, cscal in *. cbn [fst snd] in *. injection G as G1 G2.
  f_equal; apply cplx_eq; cbn [fst snd].
  - transitivity ((c * c + s * s) * ((h1 * g1 - h2 * g2) * q1 - (h1 * g2 + h2 * g1) * q2)); [ring|]. rewrite H, G1, G2. ring.
  - transitivity ((c * c + s * s) * ((h1 * g1 - h2 * g2) * q2 + (h1 * g2 + h2 * g1) * q1)); [ring|]. rewrite H, G1, G2. ring.
  - transitivity ((c * c + s * s) * ((h1 * g1 - h2 * g2) * u1 - (h1 * g2 + h2 * g1) * u2)); [ring|]. rewrite H, G1, G2. ring.
  - transitivity ((c * c + s * s) * ((h1 * g1 - h2 * g2) * u2 + (h1 * g2 + h2 * g1) * u1)); [ring|]. rewrite H, G1, G2. ring.
Qed.
Lemma eb_power spin (r : F * F) (q u q' u' : cplx) : fst r * fst r + snd r * snd r = 1 ->
  let (e, b) := eb_of spin r q u in let (e', b') := eb_of spin r q' u' in cdot e e' + cdot b b' = cdot q q' + cdot u u'.
Proof.
  intro H. destruct r as [c s]. cbn [fst snd] in H. pose proof (sig_norm spin spin) as G. unfold eb_of. cbn [fst snd].
  destruct (sig (F:=F) spin spin) as [g1 g2], q as [q1 q2], u as [u1 u2], q' as [p1 p2], u' as [w1 w2]. unfold cdot, cmul, cadd, csub, cscal in *. cbn [fst snd] in *.
  transitivity ((g1 * g1 + g2 * g2) * ((c * c + s * s) * (q1 * p1 + q2 * p2 + (u1 * w1 + u2 * w2)))); [ring|]. rewrite G, H. ring.
Qed.
End Rot.
End LFlat.
