(** Purification acts linearly on maps. *)
From Verif Require Import Base M_Utils L_Utils M_Field L_Field L_Field2 P_Utils P_Field5 P_Field6 L_Lin.
Section Lin2.
Context {F : ofield}.
Local Open Scope F_scope.
Add Field FfLin2 : (fth F).
Notation mat := (list (list F)).
Variable fsqrt : F -> F.
Definition oget {A} (d : A) (r : res A) : A := match r with Ok a => a | _ => d end.
Lemma oget_ok {A} (d : A) r a : r = Ok a -> r = Ok (oget d r).
Proof. intros ->. reflexivity. Qed.
Lemma add_pure_len pe pb lmax (fl : list F) n (alms palm r : mat) : (pe || pb)%bool = true -> shaped 2 n alms -> shaped 2 (n_alm lmax) palm -> add_pure pe pb lmax fl alms palm = Ok r -> n = n_alm lmax.
Proof.
  intros P Sa Sp H. unfold add_pure in H. cbv zeta in H. apply bind_ok in H as (e & He & H). apply bind_ok in H as (b & Hb & _).
  assert (V : forall c r, (c < 2)%nat -> vadd (nth c alms []) (almxfl lmax (nth c palm []) (firstn (Z.to_nat (lmax + 1)) fl)) = Ok r -> n = n_alm lmax).
  { intros c r0 Hc V. unfold vadd in V. rewrite (shaped_nth 2 n alms c [] Sa Hc), length_almxfl in V by (apply (shaped_nth 2); assumption). destruct (Nat.eqb_spec n (n_alm lmax)); [assumption | discriminate V]. }
  destruct pe; [eapply (V 0%nat); [lia | exact He]|]. destruct pb; [eapply (V 1%nat); [lia | exact Hb] | discriminate P].
Qed.
Lemma row_sht K s lmax n (m a : list F) (r : mat) : linear K -> length m = npix s -> sht K 0 s lmax n [m] = Ok r -> length (nth 0 r []) = n_alm lmax.
Proof. intros LK L H. apply (shaped_nth 1); [|lia]. eapply sht_shape; [exact LK | | exact H]. split; [reflexivity|]. constructor; [exact L | constructor]. Qed.
Definition rows_sht (K : calc F) s lmax n (u : mat) : res mat := mapM (fun m => do a <- sht K 0 s lmax n [m]; Ok (nth 0 a [])) u.
Lemma rows_sht_shape K s lmax n (u r : mat) nc : linear K -> shaped nc (npix s) u -> rows_sht K s lmax n u = Ok r -> shaped nc (n_alm lmax) r.
Proof.
  intros LK [L S] H. split; [rewrite (mapM_length _ _ _ H); exact L|]. apply Forall_forall. intros v Hv. apply (In_nth _ _ []) in Hv as (i & Hi & <-). rewrite (mapM_length _ _ _ H) in Hi. pose proof (mapM_nth' _ _ _ [] [] i H Hi) as E. cbv beta in E. apply bind_ok in E as (a & Ea & E). injection E as <-.
  apply (row_sht K s lmax n (nth i u []) [] a LK); [|exact Ea]. rewrite Forall_forall in S. apply S, nth_In, Hi.
Qed.
Lemma rows_sht_lc K s lmax n nc N co (xs ys : nat -> mat) : linear K -> (0 < N)%nat -> (forall k, (k < N)%nat -> shaped nc (npix s) (xs k)) -> (forall k, (k < N)%nat -> rows_sht K s lmax n (xs k) = Ok (ys k)) ->
  rows_sht K s lmax n (lc nc (npix s) N co xs) = Ok (lc nc (n_alm lmax) N co ys).
Proof.
  intros LK HN Sx H. assert (R : forall c, (c < nc)%nat -> sht K 0 s lmax n [nth c (lc nc (npix s) N co xs) []] = Ok [nth c (lc nc (n_alm lmax) N co ys) []]).
  { intros c Hc. assert (E1 : [nth c (lc nc (npix s) N co xs) []] = lc 1 (npix s) N co (fun k => [nth c (xs k) []])).
    { unfold lc at 1. rewrite nth_tab by exact Hc. reflexivity. }
    assert (E2 : [nth c (lc nc (n_alm lmax) N co ys) []] = lc 1 (n_alm lmax) N co (fun k => [nth c (ys k) []])) by (unfold lc at 1; rewrite nth_tab by exact Hc; reflexivity).
    rewrite E1, E2. apply sht_lc; [exact LK | exact HN | |].
    - intros k Hk. split; [reflexivity|]. constructor; [|constructor]. apply (shaped_nth nc); auto.
    - intros k Hk. assert (Hc' : (c < length (xs k))%nat) by (rewrite (proj1 (Sx k Hk)); exact Hc). pose proof (mapM_nth' _ _ _ [] [] c (H k Hk) Hc') as E. cbv beta in E. apply bind_ok in E as (a & Ea & E). injection E as E. rewrite Ea. f_equal.
      assert (La : length a = 1%nat) by (eapply (sht_shape K 0 s lmax n 1); [exact LK | | exact Ea]; split; [reflexivity|]; constructor; [|constructor]; apply (shaped_nth nc); auto).
      destruct a as [|v [|? ?]]; try discriminate La. cbn [nth] in E. congruence. }
  unfold rows_sht. assert (Er : forall z, In z (lc nc (npix s) N co xs) -> exists b, (do a <- sht K 0 s lmax n [z]; Ok (nth 0 a [])) = Ok b).
  { intros z Hz. apply (In_nth _ _ []) in Hz as (c & Hc & <-). unfold lc in Hc. rewrite length_tab in Hc. rewrite R by exact Hc. eexists. reflexivity. }
  apply mapM_all in Er as (r & Er). rewrite Er. f_equal. apply (list_eq_nth _ _ []); [rewrite (mapM_length _ _ _ Er); unfold lc; rewrite !length_tab; reflexivity|]. intros c Hc. rewrite (mapM_length _ _ _ Er) in Hc. pose proof (mapM_nth' _ _ _ [] [] c Er Hc) as E. unfold lc in Hc. rewrite length_tab in Hc. cbv beta in E. rewrite R in E by exact Hc. cbn [bind nth] in E. congruence.
Qed.
Lemma purify_lc K s lmax lmaxm n mask am pe pb N co (xs ys : nat -> mat) : linear K -> (0 < N)%nat -> (pe || pb)%bool = true -> length mask = npix s -> length am = n_alm lmaxm ->
  (forall k, (k < N)%nat -> shaped 2 (npix s) (xs k)) -> (forall k, (k < N)%nat -> exists m, purify fsqrt K s lmax lmaxm n mask am pe pb (xs k) = Ok (ys k, m)) ->
  (exists m, purify fsqrt K s lmax lmaxm n mask am pe pb (lc 2 (npix s) N co xs) = Ok (lc 2 (n_alm lmax) N co ys, m)) /\ forall k, (k < N)%nat -> shaped 2 (n_alm lmax) (ys k).
Proof.
  intros LK HN P Lm La Sx H.
  set (walm := almxfl lmaxm am (fls lmaxm (fl1 fsqrt))). set (zero := map (fun x => x * 0) walm). set (walm2 := almxfl lmaxm walm (fls lmaxm (fl3 fsqrt))).
  set (A := fun k => oget [] (sht K 2 s lmaxm n (map (vmul mask) (xs k)))). set (w1 := oget [] (isht K 1 s lmaxm [walm; zero])). set (p1 := fun k => oget [] (sht K 1 s lmax n (spin_prod w1 (xs k)))).
  set (A1 := fun k => oget [] (add_pure pe pb lmax (fls lmaxm (fl2 fsqrt)) (A k) (p1 k))). set (w2 := oget [] (isht K 2 s lmaxm [walm2; zero])). set (p2 := fun k => oget [] (rows_sht K s lmax n (spin_prod w2 (xs k)))).
  set (M := fun k => oget [] (isht K 2 s lmax (ys k))).
  assert (X : forall k, (k < N)%nat -> sht K 2 s lmaxm n (map (vmul mask) (xs k)) = Ok (A k) /\ isht K 1 s lmaxm [walm; zero] = Ok w1 /\ sht K 1 s lmax n (spin_prod w1 (xs k)) = Ok (p1 k) /\ add_pure pe pb lmax (fls lmaxm (fl2 fsqrt)) (A k) (p1 k) = Ok (A1 k) /\ isht K 2 s lmaxm [walm2; zero] = Ok w2 /\ rows_sht K s lmax n (spin_prod w2 (xs k)) = Ok (p2 k) /\ add_pure pe pb lmax (fls lmaxm (fl4 fsqrt)) (A1 k) (p2 k) = Ok (ys k) /\ isht K 2 s lmax (ys k) = Ok (M k)).
  { intros k Hk. destruct (H k Hk) as (m & E). unfold purify in E. apply bind_ok in E as (a & Ea & E). cbv zeta in E. fold walm in E. fold zero in E. fold walm2 in E.
    apply bind_ok in E as (w1' & E1 & E). apply bind_ok in E as (p1' & E2 & E). apply bind_ok in E as (a1 & E3 & E). apply bind_ok in E as (w2' & E4 & E). apply bind_ok in E as (p2' & E5 & E). apply bind_ok in E as (a2 & E6 & E). apply bind_ok in E as (m' & E7 & E). injection E as Ey _. rewrite Ey in E6, E7.
    assert (Aa : A k = a) by (unfold A; rewrite Ea; reflexivity). assert (Aw : w1 = w1') by (unfold w1; rewrite E1; reflexivity). assert (Ap : p1 k = p1') by (unfold p1; rewrite Aw, E2; reflexivity). assert (Aa1 : A1 k = a1) by (unfold A1; rewrite Aa, Ap, E3; reflexivity). assert (Aw2 : w2 = w2') by (unfold w2; rewrite E4; reflexivity). assert (Ap2 : p2 k = p2') by (unfold p2, rows_sht; rewrite Aw2, E5; reflexivity).
    rewrite Aa, Aw, Ap, Aa1, Aw2, Ap2. repeat split; try assumption. unfold M. rewrite E7. reflexivity. }
  assert (G : pad_geom s). { destruct (X 0%nat HN) as [E _]. unfold sht in E. apply bind_ok in E as (m & Em & _). eapply (pad_geom_of 2); [lia | | exact Em]. apply shaped_vmul; auto. }
  assert (Lw : length walm = n_alm lmaxm) by (apply length_almxfl; exact La). assert (Lw2 : length walm2 = n_alm lmaxm) by (apply length_almxfl; exact Lw). assert (Lz : length zero = n_alm lmaxm) by (unfold zero; rewrite map_length; exact Lw).
  assert (S2 : forall a b : list F, length a = n_alm lmaxm -> length b = n_alm lmaxm -> shaped 2 (n_alm lmaxm) [a; b]) by (intros a b Ha Hb; split; [reflexivity | constructor; [exact Ha | constructor; [exact Hb | constructor]]]).
  assert (Sw1 : shaped 2 (npix s) w1) by (destruct (X 0%nat HN) as (_ & E & _); eapply isht_shape; [exact LK | exact G | | exact E]; auto).
  assert (Sw2 : shaped 2 (npix s) w2) by (destruct (X 0%nat HN) as (_ & _ & _ & _ & E & _); eapply isht_shape; [exact LK | exact G | | exact E]; auto).
  assert (SA : forall k, (k < N)%nat -> shaped 2 (n_alm lmaxm) (A k)) by (intros k Hk; destruct (X k Hk) as (E & _); eapply sht_shape; [exact LK | | exact E]; apply shaped_vmul; auto).
  assert (Sp1 : forall k, (k < N)%nat -> shaped 2 (n_alm lmax) (p1 k)) by (intros k Hk; destruct (X k Hk) as (_ & _ & E & _); eapply sht_shape; [exact LK | | exact E]; apply spin_prod_shaped; auto).
  assert (Sp2 : forall k, (k < N)%nat -> shaped 2 (n_alm lmax) (p2 k)) by (intros k Hk; destruct (X k Hk) as (_ & _ & _ & _ & _ & E & _); eapply rows_sht_shape; [exact LK | | exact E]; apply spin_prod_shaped; auto).
  assert (En : n_alm lmaxm = n_alm lmax) by (destruct (X 0%nat HN) as (_ & _ & _ & E & _); eapply add_pure_len; [exact P | apply (SA 0%nat HN) | apply (Sp1 0%nat HN) | exact E]).
  assert (SA' : forall k, (k < N)%nat -> shaped 2 (n_alm lmax) (A k)) by (intros k Hk; rewrite <- En; auto).
  assert (SA1 : forall k, (k < N)%nat -> shaped 2 (n_alm lmax) (A1 k)) by (intros k Hk; destruct (X k Hk) as (_ & _ & _ & E & _); eapply add_pure_shape; [apply (SA' k Hk) | apply (Sp1 k Hk) | exact E]).
  assert (Sy : forall k, (k < N)%nat -> shaped 2 (n_alm lmax) (ys k)) by (intros k Hk; destruct (X k Hk) as (_ & _ & _ & _ & _ & _ & E & _); eapply add_pure_shape; [apply (SA1 k Hk) | apply (Sp2 k Hk) | exact E]).
  split; [|exact Sy]. exists (lc 2 (npix s) N co M). unfold purify. cbv zeta. fold walm. fold zero. fold walm2. rewrite vmul_lc by auto.
  rewrite (sht_lc K 2 s lmaxm n 2 N co _ A LK HN); [|intros; apply shaped_vmul; auto | intros k Hk; apply (X k Hk)]. cbn [bind]. rewrite (proj1 (proj2 (X 0%nat HN))). cbn [bind].
  rewrite spin_prod_lc by auto. rewrite (sht_lc K 1 s lmax n 2 N co _ p1 LK HN); [|intros; apply spin_prod_shaped; auto | intros k Hk; apply (X k Hk)]. cbn [bind]. rewrite En.
  rewrite (add_pure_lc pe pb lmax _ N co A p1 A1) by (try assumption; intros k Hk; apply (X k Hk)). cbn [bind]. rewrite (proj1 (proj2 (proj2 (proj2 (proj2 (X 0%nat HN)))))). cbn [bind].
  rewrite spin_prod_lc by auto. fold (rows_sht K s lmax n (lc 2 (npix s) N co (fun k => spin_prod w2 (xs k)))). rewrite (rows_sht_lc K s lmax n 2 N co _ p2 LK HN); [|intros; apply spin_prod_shaped; auto | intros k Hk; apply (X k Hk)]. cbn [bind].
  rewrite (add_pure_lc pe pb lmax _ N co A1 p2 ys) by (try assumption; intros k Hk; apply (X k Hk)). cbn [bind].
  rewrite (isht_lc K 2 s lmax 2 N co ys M LK G HN Sy) by (intros k Hk; apply (X k Hk)). reflexivity.
Qed.
End Lin2.
