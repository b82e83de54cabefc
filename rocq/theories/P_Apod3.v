(** C60: mask apodisation does not depend on the number of threads or on how their steps interleave. *)
From Coq Require Import Permutation.
From Verif Require Import L_OMP.
From Verif Require Import Base M_Utils L_Utils M_Field M_OMP M_Apod L_Apod M_ApodPar L_ApodPar.
Open Scope Z_scope.

Lemma range0 (n : nat) : range 0 (Z.of_nat n - 1) = map Z.of_nat (seq 0 n).
Proof. unfold range. replace (Z.to_nat (Z.of_nat n - 1 - 0 + 1)) with n by lia. apply map_ext. intros k. lia. Qed.
Lemma NoDup_range (lo hi : Z) : NoDup (range lo hi).
Proof.
  unfold range. generalize (seq_NoDup (Z.to_nat (hi - lo + 1)) 0). generalize (seq 0 (Z.to_nat (hi - lo + 1))). intros l H.
  apply FinFun.Injective_map_NoDup; [|exact H]. intros a b E. lia.
Qed.
Lemma range_rows (nx ny : nat) : range 0 (Z.of_nat nx * Z.of_nat ny - 1) = flat_map (fun iy => map (fun ix => ix + Z.of_nat nx * iy) (range 0 (Z.of_nat nx - 1))) (range 0 (Z.of_nat ny - 1)).
Proof.
  replace (Z.of_nat nx * Z.of_nat ny - 1) with (Z.of_nat (nx * ny) - 1) by lia. rewrite !range0.
  assert (SH : forall n m : nat, map Z.of_nat (seq m n) = map (fun ix => ix + Z.of_nat m) (map Z.of_nat (seq 0 n))).
  { intros n m. replace (seq m n) with (map (fun i => (m + i)%nat) (seq 0 n)).
    - rewrite !map_map. apply map_ext. intros i. lia.
    - clear. revert m. induction n as [|n IH]; intros m; [reflexivity|]. cbn [seq map]. rewrite Nat.add_0_r. f_equal. rewrite <- seq_shift, map_map, <- (IH (S m)). apply map_ext. intros i. lia. }
  induction ny as [|ny IH]; [rewrite Nat.mul_0_r; reflexivity|].
  replace (nx * S ny)%nat with (nx * ny + nx)%nat by lia. rewrite seq_app, seq_S, !map_app, flat_map_app, IH. f_equal. cbn [map flat_map]. rewrite app_nil_r.
  cbn [Nat.add]. rewrite (SH nx (nx * ny)%nat). apply map_ext. intros i. lia.
Qed.
Lemma mapM_all {A B} (f : A -> res B) (l : list A) (r : list B) : mapM f l = Ok r -> forall a, In a l -> exists b, f a = Ok b.
Proof. intros H a I. apply In_nth_error in I. destruct I as [n Hn]. destruct (mapM_inv f l r H n a Hn) as [b [Hb _]]. exists b. exact Hb. Qed.
Lemma mapM_app {A B} (f : A -> res B) (l1 l2 : list A) : mapM f (l1 ++ l2) = do a <- mapM f l1; do b <- mapM f l2; Ok (a ++ b).
Proof.
  induction l1 as [|a l1 IH]; cbn [mapM app bind]; [destruct (mapM f l2); reflexivity|]. destruct (f a); cbn [bind]; try reflexivity.
  rewrite IH. destruct (mapM f l1); cbn [bind]; try reflexivity. destruct (mapM f l2); reflexivity.
Qed.

Section P.
Context {F : ofield}.
Local Open Scope F_scope.
Add Field FfPAp3 : (fth F).

Definition okd (r : res (list (Z * F))) : list (Z * F) := match r with Ok l => l | _ => [] end.
Lemma mapM_okd (fac : Z -> res (list (Z * F))) (L : list Z) : (forall it, In it L -> exists l, fac it = Ok l) -> mapM fac L = Ok (map (fun it => okd (fac it)) L).
Proof. intros H. apply mapM_ok. intros it I. destruct (H it I) as [l E]. rewrite E. reflexivity. Qed.

(** how a parallel loop and the sequential function it implements compare *)
Definition agrees (par : res (list F) -> Prop) (s : res (list F)) : Prop :=
  (forall o, s = Ok o -> forall r, par r <-> r = Ok o) /\ (forall o, par (Ok o) -> s = Ok o).

Lemma par_for_spec (ops : Z -> res (list (aop F))) (fac : Z -> res (list (Z * F))) (L : list Z) (out : list F) (s : res (list F)) :
  (forall it, In it L -> ops it = do l <- fac it; Ok (prog l)) ->
  ((forall it, In it L -> exists l, fac it = Ok l) -> NoDup (map fst (flat_map (fun it => okd (fac it)) L)) \/ Forall (fun p => snd p = 0) (flat_map (fun it => okd (fac it)) L)) ->
  ((forall it, In it L -> exists l, fac it = Ok l) -> s = Ok (tab (length out) (fun i => seqval (flat_map (fun it => okd (fac it)) L) (Z.of_nat i) (nth i out 0)))) ->
  (forall o, s = Ok o -> forall it, In it L -> exists l, fac it = Ok l) ->
  agrees (par_for ops L out) s.
Proof.
  intros H1 H2 H3 H4.
  assert (K : (forall it, In it L -> exists l, fac it = Ok l) -> forall it, In it L -> ops it = Ok (prog (okd (fac it)))).
  { intros A it I. rewrite (H1 it I). destruct (A it I) as [l E]. rewrite E. reflexivity. }
  split.
  - intros o Eo r. pose proof (H4 o Eo) as A. rewrite (par_for_det ops (fun it => okd (fac it)) L out (K A) (H2 A) r). rewrite (H3 A) in Eo. injection Eo as <-. reflexivity.
  - intros o Hp. assert (A : forall it, In it L -> exists l, fac it = Ok l).
    { destruct Hp as [parts [HP HR]]. destruct (mapM (fun p => do l <- mapM ops p; Ok (concat l)) parts) as [ts| |] eqn:E; [|discriminate HR|discriminate HR].
      intros it I. apply (Permutation_in _ (Permutation_sym HP)) in I. apply in_concat in I. destruct I as [p [Ip I]].
      destruct (mapM_all _ _ _ E p Ip) as [b Eb]. apply bind_ok in Eb. destruct Eb as [l [El _]].
      destruct (mapM_all _ _ _ El it I) as [c Ec]. rewrite H1 in Ec.
      - apply bind_ok in Ec. destruct Ec as [l' [El' _]]. exists l'. exact El'.
      - eapply Permutation_in; [exact HP|]. apply in_concat. exists p. split; assumption. }
    rewrite (H3 A). symmetry. apply (par_for_det ops (fun it => okd (fac it)) L out (K A) (H2 A) (Ok o)). exact Hp.
Qed.

(** *** iterations that only touch their own element *)
Definition own (sc : Z -> list (Z * F)) : Prop := forall i, sc i = [] \/ exists f, sc i = [(i, f)].
Lemma own_nodup (sc : Z -> list (Z * F)) (L : list Z) : own sc -> NoDup L -> NoDup (map fst (flat_map sc L)).
Proof.
  intros O. assert (S : forall L i, In i (map fst (flat_map sc L)) -> In i L).
  { clear L. intros L i I. apply in_map_iff in I. destruct I as [[j f] [E I]]. cbn in E. subst j. apply in_flat_map in I. destruct I as [k [Ik I]].
    destruct (O k) as [E|[g E]]; rewrite E in I; [destruct I|]. destruct I as [I|[]]. injection I as -> _. exact Ik. }
  induction L as [|a L IH]; intros ND; [constructor|]. inversion ND; subst. cbn [flat_map]. rewrite map_app. destruct (O a) as [E|[g E]]; rewrite E; [apply IH; assumption|].
  cbn. constructor; [|apply IH; assumption]. intros C. apply S in C. contradiction.
Qed.
Lemma seqval_app (a b : list (Z * F)) (i : Z) (x : F) : seqval (a ++ b) i x = seqval b i (seqval a i x).
Proof. unfold seqval. apply fold_left_app. Qed.
Lemma own_val (sc : Z -> list (Z * F)) (L : list Z) (i : Z) (x : F) : own sc -> NoDup L -> In i L -> seqval (flat_map sc L) i x = seqval (sc i) i x.
Proof.
  intros O ND I. assert (ND' := own_nodup sc L O ND). destruct (O i) as [E|[f E]]; rewrite E.
  - apply seqval_notin. intros C. apply in_map_iff in C. destruct C as [[j g] [Ej C]]. cbn in Ej. subst j. apply in_flat_map in C. destruct C as [k [Ik C]].
    destruct (O k) as [E'|[h E']]; rewrite E' in C; [destruct C|]. destruct C as [C|[]]. injection C as -> ->. rewrite E in E'. discriminate.
  - rewrite (seqval_once _ i f); [|exact ND'|apply in_flat_map; exists i; split; [exact I | rewrite E; left; reflexivity]].
    unfold seqval. cbn. rewrite Z.eqb_refl. reflexivity.
Qed.
Lemma pixel_seq (fac : Z -> res (list (Z * F))) (pix : Z -> res F) (mask : list F) (n : nat) : length mask = n ->
  (forall ip, (0 <= ip < Z.of_nat n)%Z -> pix ip = do l <- fac ip; do m <- rd mask ip; Ok (seqval l ip m)) -> own (fun i => okd (fac i)) ->
  let L := range 0 (Z.of_nat n - 1) in
  ((forall it, In it L -> exists l, fac it = Ok l) -> mapM pix L = Ok (tab (length mask) (fun i => seqval (flat_map (fun it => okd (fac it)) L) (Z.of_nat i) (nth i mask 0)))) /\
  (forall o, mapM pix L = Ok o -> forall it, In it L -> exists l, fac it = Ok l).
Proof.
  intros HL HP O L. split.
  - intros A. rewrite (mapM_ok pix (fun ip => seqval (okd (fac ip)) ip (nth (Z.to_nat ip) mask 0))).
    + f_equal. unfold L. rewrite range0, map_map, HL. apply map_ext_in. intros i Hi. apply in_seq in Hi. rewrite Nat2Z.id. symmetry. rewrite <- range0. apply (own_val (fun it => okd (fac it))); [exact O | apply NoDup_range|]. apply in_range. lia.
    + intros ip I. destruct (A ip I) as [l E]. unfold L in I. apply in_range in I. rewrite HP by lia. rewrite E. cbn [bind okd]. rewrite (rd_nth mask ip 0) by lia. reflexivity.
  - intros o Eo it I. destruct (mapM_all _ _ _ Eo it I) as [b Eb]. unfold L in I. apply in_range in I. rewrite HP in Eb by lia. apply bind_ok in Eb. destruct Eb as [l [El _]]. exists l. exact El.
Qed.

(** *** iterations that set elements to zero *)
Lemma zero_fold {A} (c : A -> bool) (g : A -> Z) (mask : list F) (l : list A) (out : list F) : length out = length mask ->
  foldM (fun out p => if c p then zero_at out (g p) else Ok out) out l =
  do ls <- mapM (fun p => if c p then do _ <- rd mask (g p); Ok [(g p, 0)] else Ok []) l;
  Ok (tab (length mask) (fun i => seqval (concat ls) (Z.of_nat i) (nth i out 0))).
Proof.
  revert out. induction l as [|p l IH]; intros out HL; cbn [foldM mapM bind].
  - f_equal. cbn [concat]. unfold seqval. cbn [fold_left]. rewrite <- HL. apply (list_eq_nth _ _ 0); [rewrite length_tab; reflexivity|]. intros i Hi. rewrite nth_tab by exact Hi. reflexivity.
  - destruct (c p) eqn:C.
    2:{ cbn [bind]. rewrite (IH out HL). destruct (mapM _ l) as [ls| |]; reflexivity. }
    unfold zero_at. destruct (Z_lt_dec (g p) 0) as [H0|H0]; [rewrite !rd_ub by lia; reflexivity|].
    destruct (Z_lt_dec (g p) (Z.of_nat (length mask))) as [H1|H1]; [|rewrite !rd_ub by lia; reflexivity].
    rewrite (rd_nth out (g p) 0), (rd_nth mask (g p) 0) by lia. cbn [bind].
    rewrite IH by (rewrite length_upd; exact HL). destruct (mapM _ l) as [ls| |]; cbn [bind]; try reflexivity. f_equal. apply tab_ext. intros i Hi. cbn [concat app].
    unfold seqval at 2. cbn [fold_left fst snd]. fold (seqval (concat ls) (Z.of_nat i)). f_equal. rewrite nth_upd by lia.
    destruct (g p =? Z.of_nat i)%Z eqn:E.
    + apply Z.eqb_eq in E. rewrite E, Nat2Z.id, Nat.eqb_refl. reflexivity.
    + apply Z.eqb_neq in E. replace (Nat.eqb i (Z.to_nat (g p))) with false; [reflexivity|]. symmetry. apply Nat.eqb_neq. lia.
Qed.
Lemma zero_loop (step : list F -> Z -> res (list F)) (fac : Z -> res (list (Z * F))) (mask : list F) (L : list Z) :
  (forall out it, length out = length mask -> In it L -> step out it = do l <- fac it; Ok (tab (length mask) (fun i => seqval l (Z.of_nat i) (nth i out 0)))) ->
  forall out, length out = length mask -> foldM step out L = do ls <- mapM fac L; Ok (tab (length mask) (fun i => seqval (concat ls) (Z.of_nat i) (nth i out 0))).
Proof.
  induction L as [|a L IH]; intros H out HL; cbn [foldM mapM bind].
  - f_equal. cbn [concat]. unfold seqval. cbn [fold_left]. rewrite <- HL. apply (list_eq_nth _ _ 0); [rewrite length_tab; reflexivity|]. intros i Hi. rewrite nth_tab by exact Hi. reflexivity.
  - rewrite (H out a HL (or_introl eq_refl)). destruct (fac a) as [l| |]; cbn [bind]; try reflexivity.
    rewrite IH; [|intros o it Ho I; apply H; [exact Ho | right; exact I] | apply length_tab].
    destruct (mapM fac L) as [ls| |]; cbn [bind]; try reflexivity. f_equal. apply tab_ext. intros i Hi. rewrite nth_tab by exact Hi. cbn [concat]. rewrite seqval_app. reflexivity.
Qed.
Lemma zero_loop_spec (step : list F -> Z -> res (list F)) (fac : Z -> res (list (Z * F))) (mask : list F) (L : list Z) :
  (forall out it, length out = length mask -> In it L -> step out it = do l <- fac it; Ok (tab (length mask) (fun i => seqval l (Z.of_nat i) (nth i out 0)))) ->
  ((forall it, In it L -> exists l, fac it = Ok l) -> foldM step mask L = Ok (tab (length mask) (fun i => seqval (flat_map (fun it => okd (fac it)) L) (Z.of_nat i) (nth i mask 0)))) /\
  (forall o, foldM step mask L = Ok o -> forall it, In it L -> exists l, fac it = Ok l).
Proof.
  intros H. split.
  - intros A. rewrite (zero_loop step fac mask L H mask eq_refl), (mapM_okd fac L A). cbn [bind]. rewrite flat_map_concat_map. reflexivity.
  - intros o Eo it I. rewrite (zero_loop step fac mask L H mask eq_refl) in Eo. apply bind_ok in Eo. destruct Eo as [ls [El _]]. apply (mapM_all _ _ _ El it I).
Qed.
Lemma zero_ops_spec {A} (c : A -> bool) (g : A -> Z) (mask : list F) (l : list A) :
  (do ls <- mapM (fun p => if c p then do _ <- rd mask (g p); Ok (scale (F := F) (g p) 0) else Ok []) l; Ok (concat ls)) =
  do l <- (do ls <- mapM (fun p => if c p then do _ <- rd mask (g p); Ok [(g p, 0)] else Ok []) l; Ok (concat ls)); Ok (prog l).
Proof.
  induction l as [|p l IH]; [reflexivity|]. cbn [mapM].
  assert (D : (exists x, (if c p then do _ <- rd mask (g p); Ok [(g p, 0)] else Ok []) = Ok x /\ (if c p then do _ <- rd mask (g p); Ok (scale (F := F) (g p) 0) else Ok []) = Ok (prog x)) \/
     (c p = true /\ rd mask (g p) = UB)).
  { destruct (c p); [|left; exists []; split; reflexivity]. destruct (rd mask (g p)) as [x|e|] eqn:E; [left; exists [(g p, 0)]; split; reflexivity| |right; auto].
    unfold rd in E. destruct (0 <=? g p)%Z; [destruct (nth_error mask _)|]; discriminate. }
  destruct D as [[x [E1 E2]]|[E1 E2]].
  - rewrite E1, E2. cbn [bind]. set (p1 := mapM (fun p => if c p then do _ <- rd mask (g p); Ok (scale (F := F) (g p) 0) else Ok []) l) in *.
    set (p2 := mapM (fun p => if c p then do _ <- rd mask (g p); Ok [(g p, 0)] else Ok []) l) in *. clearbody p1 p2.
    destruct p1 as [a| |], p2 as [b| |]; cbn [bind] in *; try discriminate; try congruence.
    injection IH as E. cbn [concat]. rewrite E. unfold prog. rewrite flat_map_app. reflexivity.
  - rewrite E1, E2. reflexivity.
Qed.
Lemma zero_fac_zero {A} (c : A -> bool) (g : A -> Z) (mask : list F) (l : list A) (ls : list (list (Z * F))) :
  mapM (fun p => if c p then do _ <- rd mask (g p); Ok [(g p, 0)] else Ok []) l = Ok ls -> Forall (fun p => snd p = 0) (concat ls).
Proof.
  revert ls. induction l as [|p l IH]; intros ls; cbn [mapM]; [intros E; injection E as <-; constructor|].
  destruct (if c p then do _ <- rd mask (g p); Ok [(g p, 0)] else Ok []) as [x| |] eqn:E; cbn [bind]; try discriminate.
  destruct (mapM _ l) as [xs| |]; cbn [bind]; try discriminate. intros E'. injection E' as <-. cbn [concat]. apply Forall_app. split; [|apply IH; reflexivity].
  destruct (c p); [apply bind_ok in E; destruct E as [y [_ E]]|]; injection E as <-; repeat constructor.
Qed.

(** *** curved sky *)
Variable M : libm F.
Variable centre_of : Z -> Z -> centre F.
Definition cx_fac (nside : Z) (mask : list F) (aporad : F) (c2 : bool) (len ip : Z) : res (list (Z * F)) :=
  do m <- rd mask ip;
  if 0 <? m then
    let c := centre_of nside ip in
    do disc <- query_disc M nside (v_z c) (v_phi c) (dec 6 5 * aporad) (len / 2);
    do d <- x2dist centre_of nside mask ip disc;
    let thr := 1 - m_cos M aporad in
    Ok (if d <? thr then [(ip, if d <=? 0 then 0 else window M c2 (m_sqrt M (d * (1 / thr))))] else [])
  else Ok [].
Lemma cx_agrees (nside : Z) (mask : list F) (aposize : F) (c2 : bool) : Z.of_nat (length mask) = (12 * nside * nside)%Z ->
  agrees (par_CX M centre_of nside mask aposize c2) (apodize_CX M centre_of nside mask aposize c2).
Proof.
  intros HL. unfold par_CX, apodize_CX. destruct (list_size M nside (dec 6 5 * radians M aposize)) as [len|e|]; cbn [bind]; [|split; discriminate|split; discriminate].
  set (R := radians M aposize). rewrite <- HL.
  assert (OW : own (fun i => okd (cx_fac nside mask R c2 len i))).
  { intros i. unfold cx_fac. destruct (rd mask i) as [m| |]; [|left; reflexivity|left; reflexivity]. cbn [bind]. destruct (0 <? m); [|left; reflexivity].
    cbv zeta. destruct (query_disc _ _ _ _ _ _) as [disc| |]; [|left; reflexivity|left; reflexivity]. cbn [bind]. destruct (x2dist _ _ _ _ _) as [d| |]; [|left; reflexivity|left; reflexivity].
    cbn [bind okd]. destruct (d <? _); [right; eexists; reflexivity | left; reflexivity]. }
  destruct (pixel_seq (cx_fac nside mask R c2 len) (apodized_pixel M centre_of nside mask R c2 len) mask (length mask) eq_refl) as [P1 P2].
  - intros ip _. unfold apodized_pixel, cx_fac. destruct (rd mask ip) as [m| |] eqn:Em; try reflexivity. cbn [bind]. destruct (0 <? m); [|reflexivity].
    cbv zeta. destruct (query_disc _ _ _ _ _ _) as [disc| |]; try reflexivity. cbn [bind]. destruct (x2dist _ _ _ _ _) as [d| |]; try reflexivity. cbn [bind].
    destruct (d <? _); [|reflexivity]. unfold seqval. cbn [fold_left fst snd]. rewrite Z.eqb_refl. reflexivity.
  - exact OW.
  - apply (par_for_spec _ (cx_fac nside mask R c2 len)); [|intros _; left; apply (own_nodup (fun i => okd (cx_fac nside mask R c2 len i))); [exact OW | apply NoDup_range] | exact P1 | exact P2].
    intros ip _. unfold cx_ops, cx_fac. destruct (rd mask ip) as [m| |] eqn:Em; try reflexivity. cbn [bind]. destruct (0 <? m); [|reflexivity].
    cbv zeta. destruct (query_disc _ _ _ _ _ _) as [disc| |]; try reflexivity. cbn [bind]. destruct (x2dist _ _ _ _ _) as [d| |]; try reflexivity. cbn [bind].
    destruct (d <? _); reflexivity.
Qed.
Definition smooth_fac (nside : Z) (mask : list F) (aporad : F) (len ip : Z) : res (list (Z * F)) :=
  do m <- rd mask ip;
  if m <=? 0 then do disc <- smooth_disc M centre_of nside aporad len ip; do ls <- mapM (fun j => if true then do _ <- rd mask j; Ok [(j, 0)] else Ok []) disc; Ok (concat ls) else Ok [].
Lemma seqval_nil (n : nat) (out : list F) : length out = n -> tab n (fun i => seqval [] (Z.of_nat i) (nth i out 0)) = out.
Proof. intros H. apply (list_eq_nth _ _ 0); [rewrite length_tab; auto|]. intros i Hi. rewrite length_tab in Hi. rewrite nth_tab by exact Hi. reflexivity. Qed.
Lemma smooth_step (nside : Z) (mask : list F) (aporad : F) (len : Z) (out : list F) (ip : Z) : length out = length mask ->
  (do m <- rd mask ip; if m <=? 0 then do disc <- smooth_disc M centre_of nside aporad len ip; foldM zero_at out disc else Ok out) =
  do l <- smooth_fac nside mask aporad len ip; Ok (tab (length mask) (fun i => seqval l (Z.of_nat i) (nth i out 0))).
Proof.
  intros HL. unfold smooth_fac. destruct (rd mask ip) as [m| |]; try reflexivity. cbn [bind].
  destruct (m <=? 0); [|cbn [bind]; f_equal; symmetry; apply seqval_nil; exact HL].
  destruct (smooth_disc _ _ _ _ _ _) as [disc| |]; try reflexivity. cbn [bind].
  pose proof (zero_fold (fun _ => true) (fun j => j) mask disc out HL) as E. cbv beta iota in E. change (foldM (fun out p => zero_at out p) out disc) with (foldM zero_at out disc) in E. rewrite E.
  destruct (mapM _ disc); reflexivity.
Qed.
Lemma smooth_agrees (nside : Z) (mask : list F) (aposize : F) :
  agrees (par_smooth M centre_of nside mask aposize) (apodize_smooth M centre_of nside mask aposize).
Proof.
  unfold par_smooth, apodize_smooth. destruct (list_size M nside (dec 5 2 * radians M aposize)) as [len|e|]; cbn [bind]; [|split; discriminate|split; discriminate].
  set (R := radians M aposize). destruct (zero_loop_spec (fun out ip => do m <- rd mask ip; if m <=? 0 then do disc <- smooth_disc M centre_of nside R len ip; foldM zero_at out disc else Ok out)
     (smooth_fac nside mask R len) mask (range 0 (12 * nside * nside - 1))) as [P1 P2].
  { intros out it HL _. apply smooth_step. exact HL. }
  apply (par_for_spec _ (smooth_fac nside mask R len)); [| |exact P1 | exact P2].
  - intros ip _. unfold smooth_ops, smooth_fac. destruct (rd mask ip) as [m| |]; try reflexivity. cbn [bind]. destruct (m <=? 0); [|reflexivity].
    destruct (smooth_disc _ _ _ _ _ _) as [disc| |]; try reflexivity. cbn [bind]. apply (zero_ops_spec (fun _ => true) (fun j => j)).
  - intros _. right. apply Forall_flat_map. apply Forall_forall. intros ip _. unfold smooth_fac. destruct (rd mask ip) as [m| |]; try constructor. cbn [bind]. destruct (m <=? 0); [|constructor].
    destruct (smooth_disc _ _ _ _ _ _) as [disc| |]; try constructor. cbn [bind]. destruct (mapM _ disc) as [ls| |] eqn:E; try constructor. cbn [bind okd].
    apply (zero_fac_zero (fun _ => true) (fun j => j) mask disc ls). exact E.
Qed.

(** Curved sky: whatever the number of threads, the share of the iterations each one gets and the interleaving of their
    loads and stores, the parallel loops return the sequential result; if the sequential function fails no execution returns a map *)
Theorem C60_curved (nside : Z) (mask : list F) (aposize : F) (t : option apo) : Z.of_nat (length mask) = (12 * nside * nside)%Z ->
  (forall out, nmt_apodize_mask M centre_of nside mask aposize t = Ok out -> forall r, par_apodize M centre_of nside mask aposize t r <-> r = Ok out) /\
  (forall out, par_apodize M centre_of nside mask aposize t (Ok out) -> nmt_apodize_mask M centre_of nside mask aposize t = Ok out).
Proof.
  intros HL. unfold par_apodize, nmt_apodize_mask. destruct (aposize <? 0); [split; discriminate|].
  destruct (aposize =? 0); [split; [intros o E r; injection E as <-; tauto | intros o E; symmetry; exact E]|].
  destruct t as [[| |]|]; [apply cx_agrees; exact HL | apply cx_agrees; exact HL | apply smooth_agrees | split; discriminate].
Qed.

(** *** flat sky *)
Lemma flat_range (nx ny : nat) (sc : Z -> list (Z * F)) :
  flat_map (fun iy => flat_map (fun ix => sc (ix + Z.of_nat nx * iy)%Z) (range 0 (Z.of_nat nx - 1))) (range 0 (Z.of_nat ny - 1)) = flat_map sc (range 0 (Z.of_nat nx * Z.of_nat ny - 1)).
Proof.
  rewrite range_rows, flat_map_flat_map. apply flat_map_ext. intros iy. induction (range 0 (Z.of_nat nx - 1)) as [|a l IH]; [reflexivity|]. cbn [flat_map map]. rewrite IH. reflexivity.
Qed.
Definition row (fac : Z -> res (list (Z * F))) (nx iy : Z) : res (list (Z * F)) := do l <- mapM (fun ix => fac (ix + nx * iy)%Z) (range 0 (nx - 1)); Ok (concat l).
Lemma row_all (fac : Z -> res (list (Z * F))) (nx ny : nat) :
  (forall iy, In iy (range 0 (Z.of_nat ny - 1)) -> exists l, row fac (Z.of_nat nx) iy = Ok l) <-> (forall i, In i (range 0 (Z.of_nat nx * Z.of_nat ny - 1)) -> exists l, fac i = Ok l).
Proof.
  split.
  - intros H i I. rewrite range_rows in I. apply in_flat_map in I. destruct I as [iy [Iy I]]. apply in_map_iff in I. destruct I as [ix [<- Ix]].
    destruct (H iy Iy) as [l E]. unfold row in E. apply bind_ok in E. destruct E as [ls [E _]]. apply (mapM_all _ _ _ E ix Ix).
  - intros H iy Iy. unfold row. rewrite (mapM_ok (fun ix => fac (ix + Z.of_nat nx * iy)%Z) (fun ix => okd (fac (ix + Z.of_nat nx * iy)%Z))).
    + cbn [bind]. eexists. reflexivity.
    + intros ix Ix. destruct (H (ix + Z.of_nat nx * iy)%Z) as [l E]; [|rewrite E; reflexivity].
      rewrite range_rows. apply in_flat_map. exists iy. split; [exact Iy|]. apply in_map_iff. exists ix. split; [reflexivity | exact Ix].
Qed.
Lemma row_okd (fac : Z -> res (list (Z * F))) (nx ny : nat) : (forall iy, In iy (range 0 (Z.of_nat ny - 1)) -> exists l, row fac (Z.of_nat nx) iy = Ok l) ->
  flat_map (fun iy => okd (row fac (Z.of_nat nx) iy)) (range 0 (Z.of_nat ny - 1)) = flat_map (fun i => okd (fac i)) (range 0 (Z.of_nat nx * Z.of_nat ny - 1)).
Proof.
  intros H. rewrite <- (flat_range nx ny (fun i => okd (fac i))). pose proof (proj1 (row_all fac nx ny) H) as A.
  rewrite !flat_map_concat_map. f_equal. apply map_ext_in. intros iy Iy. unfold row.
  rewrite (mapM_ok (fun ix => fac (ix + Z.of_nat nx * iy)%Z) (fun ix => okd (fac (ix + Z.of_nat nx * iy)%Z))).
  - cbn [bind okd]. rewrite flat_map_concat_map. reflexivity.
  - intros ix Ix. destruct (A (ix + Z.of_nat nx * iy)%Z) as [l E]; [|rewrite E; reflexivity].
    rewrite range_rows. apply in_flat_map. exists iy. split; [exact Iy|]. apply in_map_iff. exists ix. split; [reflexivity | exact Ix].
Qed.
Lemma rows_spec (ops : Z -> res (list (aop F))) (fac : Z -> res (list (Z * F))) (nx ny : nat) (out : list F) (s : res (list F)) :
  (forall ix iy, (0 <= ix < Z.of_nat nx)%Z -> (0 <= iy < Z.of_nat ny)%Z -> ops (ix + Z.of_nat nx * iy)%Z = do l <- fac (ix + Z.of_nat nx * iy)%Z; Ok (prog l)) ->
  (NoDup (map fst (flat_map (fun it => okd (fac it)) (range 0 (Z.of_nat nx * Z.of_nat ny - 1)))) \/ Forall (fun p => snd p = 0) (flat_map (fun it => okd (fac it)) (range 0 (Z.of_nat nx * Z.of_nat ny - 1)))) ->
  ((forall it, In it (range 0 (Z.of_nat nx * Z.of_nat ny - 1)) -> exists l, fac it = Ok l) -> s = Ok (tab (length out) (fun i => seqval (flat_map (fun it => okd (fac it)) (range 0 (Z.of_nat nx * Z.of_nat ny - 1))) (Z.of_nat i) (nth i out 0)))) ->
  (forall o, s = Ok o -> forall it, In it (range 0 (Z.of_nat nx * Z.of_nat ny - 1)) -> exists l, fac it = Ok l) ->
  agrees (par_for (fun iy => do l <- mapM (fun ix => ops (ix + Z.of_nat nx * iy)%Z) (range 0 (Z.of_nat nx - 1)); Ok (concat l)) (range 0 (Z.of_nat ny - 1)) out) s.
Proof.
  intros H1 H2 H3 H4. apply (par_for_spec _ (row fac (Z.of_nat nx))).
  - intros iy Iy. apply in_range in Iy. unfold row.
    assert (G : forall l, (forall ix, In ix l -> (0 <= ix < Z.of_nat nx)%Z) -> (do l <- mapM (fun ix => ops (ix + Z.of_nat nx * iy)%Z) l; Ok (concat l)) = do l <- (do l <- mapM (fun ix => fac (ix + Z.of_nat nx * iy)%Z) l; Ok (concat l)); Ok (prog l)).
    { induction l as [|a l IH]; intros HI; [reflexivity|]. cbn [mapM]. rewrite H1 by (lia || (apply HI; left; reflexivity)). destruct (fac _) as [x| |]; try reflexivity. cbn [bind].
      specialize (IH (fun ix I => HI ix (or_intror I))). destruct (mapM (fun ix => ops _) l) as [p1| |], (mapM (fun ix => fac _) l) as [p2| |]; cbn [bind] in *; try discriminate; try congruence.
      injection IH as E. cbn [concat]. rewrite E. unfold prog. rewrite flat_map_app. reflexivity. }
    apply G. intros ix Ix. apply in_range in Ix. lia.
  - intros A. rewrite (row_okd fac nx ny A). exact H2.
  - intros A. rewrite (row_okd fac nx ny A). apply H3. apply (row_all fac nx ny). exact A.
  - intros o Eo. apply (row_all fac nx ny). apply (H4 o Eo).
Qed.
Lemma index_split (nx : nat) (ix iy : Z) : (0 <= ix < Z.of_nat nx)%Z -> ((ix + Z.of_nat nx * iy) mod Z.of_nat nx = ix /\ (ix + Z.of_nat nx * iy) / Z.of_nat nx = iy)%Z.
Proof. intros H. rewrite Z.mul_comm. split; [rewrite Z.mod_add by lia; apply Z.mod_small; lia | rewrite Z.div_add by lia; rewrite Z.div_small by lia; lia]. Qed.

Definition flat_ops1 (nx ny npx npy : Z) (dx dy aporad : F) (mask : list F) (c2 : bool) (i : Z) : res (list (aop F)) :=
  do m <- rd mask i;
  if 0 <? m then do r <- flat_rmin M nx ny npx npy dx dy mask (i mod nx)%Z (i / nx)%Z;
    Ok (if r <? aporad then scale i (if r <? 0 then 0 else window M c2 (r * (1 / aporad))) else []) else Ok [].
Definition flat_fac (nx ny npx npy : Z) (dx dy aporad : F) (mask : list F) (c2 : bool) (i : Z) : res (list (Z * F)) :=
  do m <- rd mask i;
  if 0 <? m then do r <- flat_rmin M nx ny npx npy dx dy mask (i mod nx)%Z (i / nx)%Z;
    Ok (if r <? aporad then [(i, if r <? 0 then 0 else window M c2 (r * (1 / aporad)))] else []) else Ok [].
Lemma par_for_ext (o1 o2 : Z -> res (list (aop F))) (L : list Z) (out : list F) (r : res (list F)) : (forall it, In it L -> o1 it = o2 it) -> par_for o1 L out r <-> par_for o2 L out r.
Proof.
  assert (G : forall o1 o2, (forall it, In it L -> o1 it = o2 it) -> par_for o1 L out r -> par_for o2 L out r).
  { clear. intros o1 o2 H [parts [HP HR]]. exists parts. split; [exact HP|].
    replace (mapM (fun p => do l <- mapM o2 p; Ok (concat l)) parts) with (mapM (fun p => do l <- mapM o1 p; Ok (concat l)) parts); [exact HR|].
    assert (E : forall p, In p parts -> mapM o1 p = mapM o2 p).
    { intros p Ip. assert (S : forall it, In it p -> In it L) by (intros it I; eapply Permutation_in; [exact HP|]; apply in_concat; exists p; split; assumption).
      clear -S H. induction p as [|a p IH]; [reflexivity|]. cbn [mapM]. rewrite (H a) by (apply S; left; reflexivity). rewrite IH; [reflexivity|]. intros it I. apply S. right. exact I. }
    clear -E. induction parts as [|p parts IH]; [reflexivity|]. cbn [mapM]. rewrite (E p) by (left; reflexivity). rewrite IH; [reflexivity|]. intros q I. apply E. right. exact I. }
  intros H. split; apply G; [exact H|]. intros it I. symmetry. apply H. exact I.
Qed.
Lemma agrees_ext (p1 p2 : res (list F) -> Prop) (s : res (list F)) : (forall r, p1 r <-> p2 r) -> agrees p2 s -> agrees p1 s.
Proof. intros H [A B]. split; [intros o E r; rewrite H; apply A; exact E | intros o E; apply B, H; exact E]. Qed.
Lemma mapM_ext_in {A B} (f g : A -> res B) (l : list A) : (forall a, In a l -> f a = g a) -> mapM f l = mapM g l.
Proof. induction l as [|a l IH]; intros H; [reflexivity|]. cbn [mapM]. rewrite (H a) by (left; reflexivity). rewrite IH; [reflexivity|]. intros b I. apply H. right. exact I. Qed.

Lemma flat_cx_agrees (nx ny : nat) (lx ly : F) (mask : list F) (aposize : F) (c2 : bool) : length mask = (nx * ny)%nat ->
  agrees (par_flat_CX M (Z.of_nat nx) (Z.of_nat ny) lx ly mask aposize c2) (apodize_flat_CX M (Z.of_nat nx) (Z.of_nat ny) lx ly mask aposize c2).
Proof.
  intros HL. unfold par_flat_CX, apodize_flat_CX. cbv zeta. set (R := radians M aposize). set (d := flat_step (Z.of_nat nx) lx).
  destruct (to_int M (dec 6 5 * R / d)) as [np|e|]; cbn [bind]; [|split; discriminate|split; discriminate].
  assert (OW : own (fun i => okd (flat_fac (Z.of_nat nx) (Z.of_nat ny) np np d d R mask c2 i))).
  { intros i. unfold flat_fac. destruct (rd mask i) as [m| |]; [|left; reflexivity|left; reflexivity]. cbn [bind]. destruct (0 <? m); [|left; reflexivity].
    destruct (flat_rmin _ _ _ _ _ _ _ _ _ _) as [r| |]; [|left; reflexivity|left; reflexivity]. cbn [bind okd]. destruct (r <? R); [right; eexists; reflexivity | left; reflexivity]. }
  replace (Z.of_nat nx * Z.of_nat ny - 1)%Z with (Z.of_nat (nx * ny) - 1)%Z by lia.
  destruct (pixel_seq (flat_fac (Z.of_nat nx) (Z.of_nat ny) np np d d R mask c2) (flat_pixel M (Z.of_nat nx) (Z.of_nat ny) np np d d R mask c2) mask (nx * ny) HL) as [P1 P2].
  - intros ip _. unfold flat_pixel, flat_fac. destruct (rd mask ip) as [m| |] eqn:Em; try reflexivity. cbn [bind]. destruct (0 <? m); [|reflexivity].
    destruct (flat_rmin _ _ _ _ _ _ _ _ _ _) as [r| |]; try reflexivity. cbn [bind].
    destruct (r <? R); [|reflexivity]. unfold seqval. cbn [fold_left fst snd]. rewrite Z.eqb_refl. reflexivity.
  - exact OW.
  - eapply agrees_ext.
    + intros r. apply par_for_ext. intros iy Iy. unfold flat_cx_ops.
      rewrite (mapM_ext_in _ (fun ix => flat_ops1 (Z.of_nat nx) (Z.of_nat ny) np np d d R mask c2 (ix + Z.of_nat nx * iy)%Z)); [reflexivity|].
      intros ix Ix. apply in_range in Ix. destruct (index_split nx ix iy) as [E1 E2]; [lia|]. unfold flat_ops1. rewrite E1, E2. reflexivity.
    + replace (Z.of_nat (nx * ny) - 1)%Z with (Z.of_nat nx * Z.of_nat ny - 1)%Z in * by lia.
      apply (rows_spec _ (flat_fac (Z.of_nat nx) (Z.of_nat ny) np np d d R mask c2)); [|left; apply (own_nodup (fun i => okd (flat_fac (Z.of_nat nx) (Z.of_nat ny) np np d d R mask c2 i))); [exact OW | apply NoDup_range] | exact P1 | exact P2].
      intros ix iy _ _. unfold flat_ops1, flat_fac. generalize (ix + Z.of_nat nx * iy)%Z. intros i.
      destruct (rd mask i) as [m| |]; try reflexivity. cbn [bind]. destruct (0 <? m); [|reflexivity].
      destruct (flat_rmin _ _ _ _ _ _ _ _ _ _) as [r| |]; try reflexivity. cbn [bind]. destruct (r <? R); reflexivity.
Qed.

Section Smooth.
Variables (nx ny : nat) (np : Z) (d xthr : F) (mask : list F).
Let dist (p : Z * Z) : bool := let '(iyy, ixx) := p in rarr M d d np np iyy ixx <=? xthr.
Let dest (i : Z) (p : Z * Z) : Z := let '(iyy, ixx) := p in (i mod Z.of_nat nx + ixx - np + Z.of_nat nx * (i / Z.of_nat nx + iyy - np))%Z.
Definition fs_ops1 (i : Z) : res (list (aop F)) :=
  do m <- rd mask i;
  if m <=? 0 then do ls <- mapM (fun p => if dist p then do _ <- rd mask (dest i p); Ok (scale (F := F) (dest i p) 0) else Ok []) (patch (Z.of_nat nx) (Z.of_nat ny) np np (i mod Z.of_nat nx) (i / Z.of_nat nx)); Ok (concat ls)
  else Ok [].
Definition fs_fac (i : Z) : res (list (Z * F)) :=
  do m <- rd mask i;
  if m <=? 0 then do ls <- mapM (fun p => if dist p then do _ <- rd mask (dest i p); Ok [(dest i p, 0)] else Ok []) (patch (Z.of_nat nx) (Z.of_nat ny) np np (i mod Z.of_nat nx) (i / Z.of_nat nx)); Ok (concat ls)
  else Ok [].
Lemma foldM_ext_in {A S} (f g : S -> A -> res S) (s : S) (l : list A) : (forall s a, In a l -> f s a = g s a) -> foldM f s l = foldM g s l.
Proof. revert s. induction l as [|a l IH]; intros s H; [reflexivity|]. cbn [foldM]. rewrite (H s a) by (left; reflexivity). destruct (g s a); cbn [bind]; try reflexivity. apply IH. intros s' b I. apply H. right. exact I. Qed.
Lemma flat_smooth_agrees :
  agrees (par_flat_smooth_mask M (Z.of_nat nx) (Z.of_nat ny) np np d d xthr mask) (smooth_flat_mask M (Z.of_nat nx) (Z.of_nat ny) np np d d xthr mask).
Proof.
  unfold smooth_flat_mask. destruct (zero_loop_spec (fun out index => do m <- rd mask index; if m <=? 0 then
      foldM (fun out p => if dist p then zero_at out (dest index p) else Ok out) out (patch (Z.of_nat nx) (Z.of_nat ny) np np (index mod Z.of_nat nx) (index / Z.of_nat nx)) else Ok out)
     fs_fac mask (range 0 (Z.of_nat nx * Z.of_nat ny - 1))) as [P1 P2].
  { intros out i HL _. unfold fs_fac. destruct (rd mask i) as [m| |]; try reflexivity. cbn [bind].
    destruct (m <=? 0); [|cbn [bind]; f_equal; symmetry; apply seqval_nil; exact HL].
    rewrite (zero_fold dist (dest i) mask _ out HL). destruct (mapM _ _); reflexivity. }
  assert (ES : forall (L : list Z) (out : list F), foldM (fun (out : list F) index => do m <- rd mask index; if m <=? 0 then
      foldM (fun out p => if dist p then zero_at out (dest index p) else Ok out) out (patch (Z.of_nat nx) (Z.of_nat ny) np np (index mod Z.of_nat nx) (index / Z.of_nat nx)) else Ok out) out L =
    foldM (fun (out : list F) index => do m <- rd mask index; if m <=? 0 then let ix := (index mod Z.of_nat nx)%Z in let iy := (index / Z.of_nat nx)%Z in
      foldM (fun out p => let '(iyy, ixx) := p in if rarr M d d np np iyy ixx <=? xthr then zero_at out (ix + ixx - np + Z.of_nat nx * (iy + iyy - np))%Z else Ok out)
            out (patch (Z.of_nat nx) (Z.of_nat ny) np np ix iy) else Ok out) out L).
  { intros L out. apply foldM_ext_in. intros s i _. destruct (rd mask i); try reflexivity. cbn [bind]. destruct (_ <=? 0); [|reflexivity]. cbv zeta.
    apply foldM_ext_in. intros s' [iyy ixx] _. reflexivity. }
  rewrite ES in P1. setoid_rewrite ES in P2.
  eapply agrees_ext.
  - intros r. unfold par_flat_smooth_mask. apply par_for_ext. intros iy Iy. unfold flat_smooth_ops.
    rewrite (mapM_ext_in _ (fun ix => fs_ops1 (ix + Z.of_nat nx * iy)%Z)); [reflexivity|].
    intros ix Ix. apply in_range in Ix. destruct (index_split nx ix iy) as [E1 E2]; [lia|]. unfold fs_ops1, dest. rewrite E1, E2. destruct (rd mask _); try reflexivity. cbn [bind].
    destruct (_ <=? 0); [|reflexivity]. f_equal. apply mapM_ext_in. intros [iyy ixx] _. reflexivity.
  - apply (rows_spec _ fs_fac); [| |exact P1 | exact P2].
    + intros ix iy _ _. unfold fs_ops1, fs_fac. destruct (rd mask _) as [m| |]; try reflexivity. cbn [bind]. destruct (m <=? 0); [|reflexivity]. apply zero_ops_spec.
    + right. apply Forall_flat_map. apply Forall_forall. intros i _. unfold fs_fac. destruct (rd mask i) as [m| |]; try constructor. cbn [bind]. destruct (m <=? 0); [|constructor].
      destruct (mapM _ _) as [ls| |] eqn:E; try constructor. cbn [bind okd]. exact (zero_fac_zero dist (dest i) mask _ ls E).
Qed.
End Smooth.

Variable gauss : Z -> Z -> F -> F -> F -> list F -> list F.
(** Flat sky: the same; here the rows are shared out and threads may write the same element at the same time *)
Theorem C60_flat (nx ny : nat) (lx ly : F) (mask : list F) (aposize : F) (t : option apo) : length mask = (nx * ny)%nat ->
  (forall out, nmt_apodize_mask_flat M gauss (Z.of_nat nx) (Z.of_nat ny) lx ly mask aposize t = Ok out -> forall r, par_apodize_flat M gauss (Z.of_nat nx) (Z.of_nat ny) lx ly mask aposize t r <-> r = Ok out) /\
  (forall out, par_apodize_flat M gauss (Z.of_nat nx) (Z.of_nat ny) lx ly mask aposize t (Ok out) -> nmt_apodize_mask_flat M gauss (Z.of_nat nx) (Z.of_nat ny) lx ly mask aposize t = Ok out).
Proof.
  intros HL. unfold par_apodize_flat, nmt_apodize_mask_flat. destruct (aposize <? 0); [split; discriminate|].
  destruct (aposize =? 0); [split; [intros o E r; injection E as <-; tauto | intros o E; symmetry; exact E]|].
  destruct t as [[| |]|]; [apply flat_cx_agrees; exact HL | apply flat_cx_agrees; exact HL | | split; discriminate].
  unfold par_flat_smooth, apodize_flat_smooth. cbv zeta. set (X := dec 5 2 * radians M aposize). set (d := flat_step (Z.of_nat nx) lx).
  destruct (to_int M (dec 6 5 * X / d)) as [np|e|]; cbn [bind]; [|split; discriminate|split; discriminate].
  destruct (flat_smooth_agrees nx ny np d X mask) as [A B]. split.
  - intros out E r. apply bind_ok in E. destruct E as [m [Em E]]. injection E as <-. pose proof (A m Em) as AM. split.
    + intros [r1 [H1 ->]]. apply AM in H1. subst r1. reflexivity.
    + intros ->. exists (Ok m). split; [apply AM; reflexivity | reflexivity].
  - intros out [r1 [H1 E]]. destruct r1 as [m| |]; try discriminate. rewrite (B m H1). cbn [bind] in *. symmetry. exact E.
Qed.
End P.
Print Assumptions C60_curved.
Print Assumptions C60_flat.
