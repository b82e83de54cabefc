(** Property C84: flat-sky workspaces survive a round trip through a FITS file. *)
From Verif Require Import Base M_Utils M_Bins M_FlatBins M_LinAlg M_Workspace M_Flat M_WspFlat M_Covar M_CovFlat M_FITS2 L_LinAlg L_WspFlat L_WspFlat2 P_FlatBins P_Flat P_WspFlat L_CovFlat L_FITS3.
Open Scope nat_scope.

Section C84.
Context {F : ofield}.
Local Open Scope F_scope.
Notation mat := (list (list F)).
Notation cplx := (cplx F).
Notation fsinfo := (fsinfo F).
Notation fbins := (fbins F).
Notation cuts := (cuts F).
Notation ffield := (ffield F).
Notation fwsp := (fwsp F).
Notation fwmem := (fwmem F).
Variables (pi : F) (fsqrt : F -> F) (trunc : F -> Z) (ph : nat -> nat -> cplx).
Variable lu_dec : mat -> mat * list Z.
Variable lu_back : mat -> list Z -> list F -> res (list F).
(** the factors have the size of the matrix, and solving with them is solving with the matrix *)
Definition lu_laws : Prop := forall n (A : mat), square n A ->
  rect n n (fst (lu_dec A)) /\ length (snd (lu_dec A)) = n /\ forall v, length v = n -> lu_back (fst (lu_dec A)) (snd (lu_dec A)) v = lu_solve A v.
Notation mem := (mem_of pi fsqrt trunc lu_dec).
Notation computed := (coupling_matrix pi fsqrt trunc ph).

Lemma shapes f1 f2 b c teb rows w : computed f1 f2 b c teb rows = Ok w -> length (fb_l0 b) = length (fb_lf b) ->
  rect (fw_ncls w * fw_nb w) (fw_ncls w * n_ell pi fsqrt trunc (fw_fs w)) (fw_unb w) /\ square (fw_ncls w * fw_nb w) (fw_bnd w) /\ length (fw_cells w) = fw_nb w /\ length (fb_lf (fw_bin w)) = fw_nb w /\ (0 < fw_ncls w)%nat.
Proof.
  intros E L. unfold coupling_matrix in E. destruct (negb _); [discriminate|]. destruct (teb && _)%bool; [discriminate|]. destruct (grid_bands _ _ _ _) as [g| |]; cbn [bind] in E; try discriminate. injection E as <-. unfold fw_nb. cbn [fw_ncls fw_bin fw_fs fw_unb fw_bnd fw_cells].
  split; [apply rect_tab|]. split; [|rewrite length_tab; repeat split; [congruence|destruct teb; [lia|]; unfold ff_nmaps; destruct (_ =? 0)%Z; destruct (_ =? 0)%Z; lia]].
  split; [apply length_tab|]. intros r Hr. apply (rect_tab _ _ _) in Hr. exact Hr.
Qed.
Lemma mem_good f1 f2 b c teb rows w flags : lu_laws -> computed f1 f2 b c teb rows = Ok w -> length (fb_l0 b) = length (fb_lf b) -> good_mem (mem flags teb w).
Proof.
  intros HL E L. destruct (shapes _ _ _ _ _ _ _ E L) as [S1 [S2 [S3 [S4 _]]]]. destruct (HL _ _ S2) as [L1 [L2 _]]. destruct flags as [[[a1 a2] a3] a4]. unfold mem_of.
  constructor; unfold mw_nb, mw_ne; cbn [mw_ncls mw_bin mw_fs mem_fs m_ellmin mw_unb mw_bnd mw_gsl mw_perm mw_cells]; rewrite ?Nat2Z.id, ?length_tab; assumption || (split; [exact (proj1 S2)|exact (proj2 S2)]).
Qed.

Variables (rnd : F -> F) (junk : nat -> F).
(** A workspace that is written to a file and read back (into any NmtWorkspaceFlat object) has the same number of spectra, matrices, LU factors, mode counts,
    band edges, number of rings and flags; the numbers stored as keywords come back as the numbers that their 15 digits stand for. *)
Theorem C84_round_trip f1 f2 b c teb rows w flags p : lu_laws -> length (fb_l0 b) = length (fb_lf b) -> computed f1 f2 b c teb rows = Ok w ->
  let m := mem flags teb w in
  exists f m', pf_write rnd (Some m) = Ok f /\ pf_read junk p (Some f) = (Some m', Ok tt) /\
   mw_ncls m' = mw_ncls m /\ mw_teb m' = mw_teb m /\ mw_pe1 m' = mw_pe1 m /\ mw_pe2 m' = mw_pe2 m /\ mw_pb1 m' = mw_pb1 m /\ mw_pb2 m' = mw_pb2 m /\
   mw_cells m' = mw_cells m /\ mw_unb m' = mw_unb m /\ mw_bnd m' = mw_bnd m /\ mw_gsl m' = mw_gsl m /\ mw_perm m' = mw_perm m /\ mw_bin m' = mw_bin m /\
   m_nx (mw_fs m') = m_nx (mw_fs m) /\ m_ny (mw_fs m') = m_ny (mw_fs m) /\ m_npix (mw_fs m') = m_npix (mw_fs m) /\ m_ellmin (mw_fs m') = m_ellmin (mw_fs m) /\
   mw_lmax m' = rnd (mw_lmax m) /\ mn_x (mw_cut m') = rnd (mn_x (mw_cut m)) /\ mx_x (mw_cut m') = rnd (mx_x (mw_cut m)) /\ mn_y (mw_cut m') = rnd (mn_y (mw_cut m)) /\ mx_y (mw_cut m') = rnd (mx_y (mw_cut m)) /\
   m_lx (mw_fs m') = rnd (m_lx (mw_fs m)) /\ m_ly (mw_fs m') = rnd (m_ly (mw_fs m)) /\ m_pixsize (mw_fs m') = rnd (m_pixsize (mw_fs m)) /\ m_dell (mw_fs m') = rnd (m_dell (mw_fs m)) /\ m_idell (mw_fs m') = rnd (m_idell (mw_fs m)).
Proof.
  intros HL L E. cbv zeta. pose proof (mem_good _ _ _ _ _ _ _ flags HL E L) as G. exists (file_of rnd (mem flags teb w)), (rounded rnd (mem flags teb w)).
  split; [exact (write_ok rnd _ G)|]. split; [unfold pf_read; rewrite (read_ok rnd junk _ G); reflexivity|]. repeat split.
Qed.
(** The workspace in the file and the workspace that was written decouple spectra in exactly the same way, whatever the rounding of the keywords ... *)
Theorem C84_decouple_same f1 f2 b c teb rows w flags p f m' cl bias noise : lu_laws -> length (fb_l0 b) = length (fb_lf b) -> computed f1 f2 b c teb rows = Ok w ->
  pf_write rnd (Some (mem flags teb w)) = Ok f -> pf_read junk p (Some f) = (Some m', Ok tt) ->
  pf_decouple lu_back (Some m') cl bias noise = py_decouple (Some w) cl bias noise.
Proof.
  intros HL L E W R. pose proof (mem_good _ _ _ _ _ _ _ flags HL E L) as G. unfold pf_write in W. rewrite (write_ok rnd _ G) in W. injection W as <-. unfold pf_read in R. rewrite (read_ok rnd junk _ G) in R. injection R as <-.
  destruct (shapes _ _ _ _ _ _ _ E L) as [_ [S2 _]]. destruct (HL _ _ S2) as [L1 [L2 L3]].
  unfold pf_decouple, py_decouple, needm, need, rounded, mw_nb. destruct flags as [[[a1 a2] a3] a4]. unfold mem_of. cbn [bind mw_ncls mw_bin]. rewrite Nat2Z.id. fold (fw_nb w).
  assert (D : forall rn rb, mem_decouple lu_back (rounded rnd (mem (a1, a2, a3, a4) teb w)) cl rn rb = fdecouple w cl rn rb).
  { intros rn rb. unfold mem_decouple, fdecouple, mem_of, rounded, mw_nb. cbn [mw_ncls mw_bin mw_gsl mw_perm]. rewrite Nat2Z.id. fold (fw_nb w).
    match goal with |- (do v <- ?t; _) = _ => destruct t as [v| |] eqn:Ev end; cbn [bind]; try reflexivity. rewrite (proj1 L1), L2, !Nat.eqb_refl. cbn [andb negb].
    rewrite L3; [reflexivity|]. exact (proj1 (tabM_inv _ _ _ Ev)). }
  unfold rounded, mem_of in D. cbn [mw_ncls mw_teb mw_lmax mw_cut mw_pe1 mw_pe2 mw_pb1 mw_pb2 mw_fs mw_cells mw_unb mw_bnd mw_gsl mw_perm mw_bin] in D.
  destruct (check_shape (fw_ncls w) (fw_nb w) cl) as [[]| |]; cbn [bind]; try reflexivity.
  destruct bias as [xb|]; cbn [bind].
  - destruct (check_shape (fw_ncls w) (fw_nb w) xb) as [[]| |]; cbn [bind]; try reflexivity. destruct noise as [xn|]; cbn [bind]; [destruct (check_shape (fw_ncls w) (fw_nb w) xn) as [[]| |]; cbn [bind]; try reflexivity|]; apply D.
  - destruct noise as [xn|]; cbn [bind]; [destruct (check_shape (fw_ncls w) (fw_nb w) xn) as [[]| |]; cbn [bind]; try reflexivity|]; apply D.
Qed.
(** ... and couple spectra in the same way if the sides of the map and the inverse width of the rings are not changed by the rounding. *)
Theorem C84_couple_same f1 f2 b c teb rows w flags p f m' ells cls o : lu_laws -> length (fb_l0 b) = length (fb_lf b) -> computed f1 f2 b c teb rows = Ok w ->
  pf_write rnd (Some (mem flags teb w)) = Ok f -> pf_read junk p (Some f) = (Some m', Ok tt) ->
  rnd (fs_lx (ff_fs f1)) = fs_lx (ff_fs f1) -> rnd (fs_ly (ff_fs f1)) = fs_ly (ff_fs f1) -> rnd (1 / dell pi (ff_fs f1)) = 1 / dell pi (ff_fs f1) ->
  pf_couple pi fsqrt trunc (Some m') ells cls o = py_couple pi fsqrt trunc (Some w) ells cls o.
Proof.
  intros HL L E W R X Y I. pose proof (mem_good _ _ _ _ _ _ _ flags HL E L) as G. unfold pf_write in W. rewrite (write_ok rnd _ G) in W. injection W as <-. unfold pf_read in R. rewrite (read_ok rnd junk _ G) in R. injection R as <-.
  destruct (shapes _ _ _ _ _ _ _ E L) as [S1 _].
  assert (Es : fw_fs w = ff_fs f1). { unfold coupling_matrix in E. destruct (negb _); [discriminate|]. destruct (teb && _)%bool; [discriminate|]. destruct (grid_bands _ _ _ _) as [g| |]; cbn [bind] in E; try discriminate. injection E as <-. reflexivity. }
  rewrite <- Es in X, Y, I. clear Es E G HL. destruct flags as [[[a1 a2] a3] a4].
  unfold pf_couple, py_couple, needm, need, mem_of. cbn [bind rounded mw_ncls]. rewrite Nat2Z.id. destruct (check_shape _ _ cls) as [[]| |]; cbn [bind]; try reflexivity.
  unfold mem_couple_fast, couple_fast, mw_ne, mw_nb. cbn [mw_ncls mw_fs mw_bin mw_unb rounded rounded_fs mem_fs m_ellmin]. rewrite length_tab, Nat2Z.id. fold (fw_nb w).
  assert (P : mem_plane (rounded_fs rnd (mem_fs pi fsqrt trunc (fw_fs w))) = fw_fs w). { unfold mem_plane, rounded_fs, mem_fs. cbn [m_nx m_ny m_lx m_ly]. rewrite !Nat2Z.id, X, Y. destruct (fw_fs w). reflexivity. }
  assert (Q : forall cl ir, mem_mean pi fsqrt trunc (rounded_fs rnd (mem_fs pi fsqrt trunc (fw_fs w))) ells cl o ir = ring_mean pi fsqrt trunc (fw_fs w) ells cl o ir).
  { intros cl ir. unfold mem_mean, ring_mean, ring_sums, ring_cells, mem_ring. rewrite P. cbn [rounded_fs mem_fs m_idell]. rewrite I. reflexivity. }
  change (FSM _ _ _ _ _ _ _ _ _) with (rounded_fs rnd (mem_fs pi fsqrt trunc (fw_fs w))).
  assert (V : tabM (fw_ncls w * n_ell pi fsqrt trunc (fw_fs w)) (fun q => do cl <- rd cls (Z.of_nat (q mod fw_ncls w)); mem_mean pi fsqrt trunc (rounded_fs rnd (mem_fs pi fsqrt trunc (fw_fs w))) ells cl o (q / fw_ncls w)) =
              tabM (fw_ncls w * n_ell pi fsqrt trunc (fw_fs w)) (fun q => do cl <- rd cls (Z.of_nat (q mod fw_ncls w)); ring_mean pi fsqrt trunc (fw_fs w) ells cl o (q / fw_ncls w))).
  { apply L_CovFlat.tabM_cong. intros i _. destruct (rd cls _); cbn [bind]; [apply Q | reflexivity | reflexivity]. }
  rewrite V. match goal with |- (do v <- ?t; _) = _ => destruct t as [v| |] eqn:Ev end; cbn [bind]; try reflexivity.
  apply L_CovFlat.tabM_cong. intros i Hi. apply L_CovFlat.tabM_cong. intros ib Hb. assert (B : (ib * fw_ncls w + i < length (fw_unb w))%nat) by (rewrite (proj1 S1); nia).
  rewrite (rd_nat _ _ [] B). cbn [bind]. apply sumM_ok. intros k Hk. rewrite (rd_nat _ _ 0); [reflexivity|]. rewrite (proj2 S1); [exact Hk | apply nth_In; exact B].
Qed.
(** What has been read can be written again, and the file is the same, if rounding twice is rounding once. *)
Theorem C84_second_generation f1 f2 b c teb rows w flags p f m' : lu_laws -> length (fb_l0 b) = length (fb_lf b) -> computed f1 f2 b c teb rows = Ok w -> (forall x, rnd (rnd x) = rnd x) ->
  pf_write rnd (Some (mem flags teb w)) = Ok f -> pf_read junk p (Some f) = (Some m', Ok tt) -> pf_write rnd (Some m') = Ok f.
Proof.
  intros HL L E I W R. pose proof (mem_good _ _ _ _ _ _ _ flags HL E L) as G. unfold pf_write in W. rewrite (write_ok rnd _ G) in W. injection W as <-. unfold pf_read in R. rewrite (read_ok rnd junk _ G) in R. injection R as <-.
  assert (G' : good_mem (rounded rnd (mem flags teb w))) by (destruct G as [G1 G2 G3 G4 G5 G6]; constructor; assumption). unfold pf_write. rewrite (write_ok rnd _ G'). unfold file_of, rounded, rounded_fs, fsinfo_out, kd, mw_nb, mw_ne. cbn. rewrite !I. reflexivity.
Qed.
(** Failures: nothing to write, no file, or a file that lacks one of the seven units; the previous contents of the object are gone after a failed read. *)
Definition units : list (bool * string) := [(false, "WSP_PRIMARY"); (true, "FS_INFO"); (true, "N_CELLS"); (false, "MCM_BINNED"); (false, "MCM_BINNED_GSL"); (false, "MCM_PERM"); (true, "BINS_SUMMARY")]%string.
Theorem C84_failures (p p' : option fwmem) (f : option (file2 F)) r : pf_read junk p f = (p', r) ->
  pf_write rnd (@None fwmem) = Exn RuntimeError /\ (f = None -> r = Exn RuntimeError) /\ (r <> Ok tt -> p' = None) /\
  (r = Ok tt -> exists f', f = Some f' /\ forall t n, In (t, n) units -> exists u, In u f' /\ u_table u = t /\ u_name u = n).
Proof.
  intro H. split; [reflexivity|]. unfold pf_read in H. split; [intros ->; injection H as _ <-; reflexivity|]. split; [intro N; destruct (match f with Some f => _ | None => _ end) in H; injection H as <- <-; [congruence | reflexivity | reflexivity]|].
  intros ->. destruct f as [f|]; [|discriminate]. exists f. split; [reflexivity|]. destruct (workspace_flat_read junk f) as [m| |] eqn:E; try discriminate. clear H.
  assert (M : forall t n u, mov f t n = Ok u -> exists u, In u f /\ u_table u = t /\ u_name u = n).
  { intros t n u Hm. unfold mov in Hm. destruct (find _ f) as [x|] eqn:Ef; [|discriminate]. apply find_some in Ef. destruct Ef as [I B]. apply andb_prop in B. destruct B as [B1 B2]. exists x. split; [exact I|]. split; [apply Bool.eqb_prop; exact B1 | apply String.eqb_eq; exact B2]. }
  assert (B : forall A B (x : res A) (k : A -> res B) y, bind x k = Ok y -> exists z, x = Ok z /\ k z = Ok y) by (intros A B [z| |] k y Hz; cbn in Hz; try discriminate; exists z; split; [reflexivity | exact Hz]).
  unfold workspace_flat_read in E. apply B in E. destruct E as [u1 [M1 E]]. do 11 (apply B in E; destruct E as [? [_ E]]). destruct (u_axes u1) as [n2 n1]. apply B in E. destruct E as [? [_ E]].
  apply B in E. destruct E as [s [E2 E]]. apply B in E. destruct E as [nc [E3 E]]. apply B in E. destruct E as [[BG pq] [E4 E]]. apply B in E. destruct E as [fb [E5 _]].
  apply B in E2. destruct E2 as [u2 [M2 _]]. apply B in E3. destruct E3 as [u3 [M3 _]]. apply B in E5. destruct E5 as [u7 [M7 _]].
  apply B in E4. destruct E4 as [u4 [M4 E4]]. apply B in E4. destruct E4 as [? [_ E4]]. apply B in E4. destruct E4 as [u5 [M5 E4]]. destruct (negb _); [discriminate|]. apply B in E4. destruct E4 as [? [_ E4]]. apply B in E4. destruct E4 as [u6 [M6 _]].
  intros t n Hin. cbn in Hin. repeat (destruct Hin as [Hin|Hin]; [injection Hin as <- <-; eapply M; eassumption|]). destruct Hin.
Qed.
Lemma seven_units (m : fwmem) f : good_mem m -> pf_write rnd (Some m) = Ok f -> length f = 7%nat.
Proof. intros G W. unfold pf_write in W. rewrite (write_ok rnd _ G) in W. injection W as <-. reflexivity. Qed.
End C84.

(** ** Examples *)
Section Ex84.
Notation Q := Qc_field.
Definition lud (A : list (list Q)) : list (list Q) * list Z := (A, map Z.of_nat (seq 0 (length A))).
Definition lub (A : list (list Q)) (_ : list Z) (v : list Q) : res (list Q) := lu_solve A v.
Lemma lud_laws : lu_laws lud lub.
Proof. intros n A [L R]. split; [split; [exact L | exact R]|]. split; [cbn; rewrite map_length, seq_length; exact L|]. reflexivity. Qed.
(** decimal rounding of positive numbers to 15 significant digits *)
Definition p10 (n : nat) : Z := (10 ^ Z.of_nat n)%Z.
Definition round_at (x : Q) (e : nat) : Z := ((2 * QArith_base.Qnum (out x) * p10 e + Z.pos (QArith_base.Qden (out x))) / (2 * Z.pos (QArith_base.Qden (out x))))%Z.
Fixpoint rnd_from (x : Q) (e fuel : nat) : Q :=
  match fuel with O => x | S k => if (round_at x e <? p10 14)%Z then rnd_from x (S e) k else q (round_at x e) (Z.to_pos (p10 e)) end.
Definition rnd15 (x : Q) : Q := if (qz 0 <? x)%F then rnd_from x 0 40 else if (x <? qz 0)%F then (- rnd_from (- x) 0 40)%F else x.
(** square roots of squares of fractions *)
Definition sqq (x : Q) : Q := q (Z.sqrt (QArith_base.Qnum (out x))) (Z.to_pos (Z.sqrt (Z.pos (QArith_base.Qden (out x))))).
(** a strip of four pixels, 1.000000000000006 rad long; 2 pi is replaced by 355/113 *)
Definition strip : fsinfo Q := FS 4 1 (q 1000000000000006 1000000000000000) (q 1000000000000006 1000000000000000).
Definition pq : Q := q 355 226.
Definition fstrip : ffield Q := FF strip 0 false false (repeat (qz 1) 4) (fun _ => qz 1) [] false.
Definition band1 : fbins Q := FBins [qz 1] [qz 7].
Definition wstrip : res (fwsp Q) := coupling_matrix pq sqq trq ph4 fstrip fstrip band1 free false [0]%nat.
Definition after (rnd : Q -> Q) : res (fwmem Q) :=
  do w <- wstrip; do f <- pf_write rnd (Some (mem_of pq sqq trq lud (0, 0, 0, 0)%Z false w)); match pf_read (fun _ => qz 0) None (Some f) with (Some m, Ok _) => Ok m | _ => UB end.
Definition lq : list Q := [qz 0; qz 2; qz 4; qz 8].
Definition cq1 : list (list Q) := [[qz 0; qz 0; qz 1; qz 1]].
Definition close (x y : Q) : Prop := (- (x * q 1 100000000000000) <? y - x)%F = true /\ (y - x <? x * q 1 100000000000000)%F = true.
(** The keywords keep 15 digits.  A mode on the lower edge of a ring is moved to the ring below when the rounded side of the map and the rounded inverse
    width of the rings are used, although the columns of the coupling matrix were computed with the mode in the upper ring:
    after a round trip couple_cell returns something else (0.667 instead of 0.381 here). *)
Theorem C84_couple_rounding_refuted : exists (fl : ffield Q) (w : fwsp Q) (f : file2 Q) (m' : fwmem Q) (ells : list Q) (cls v v' : list (list Q)),
  coupling_matrix pq sqq trq ph4 fl fl band1 free false [0]%nat = Ok w /\ pf_write rnd15 (Some (mem_of pq sqq trq lud (0, 0, 0, 0)%Z false w)) = Ok f /\ pf_read (fun _ => qz 0) None (Some f) = (Some m', Ok tt) /\
  (forall x, In x [m_lx (mem_fs pq sqq trq (ff_fs fl)); m_ly (mem_fs pq sqq trq (ff_fs fl)); m_pixsize (mem_fs pq sqq trq (ff_fs fl)); m_dell (mem_fs pq sqq trq (ff_fs fl)); m_idell (mem_fs pq sqq trq (ff_fs fl))] -> close x (rnd15 x)) /\
  py_couple pq sqq trq (Some w) ells cls [0]%nat = Ok v /\ pf_couple pq sqq trq (Some m') ells cls [0]%nat = Ok v' /\
  (q 28 100 <? nth 0 (nth 0 v' []) (qz 0) - nth 0 (nth 0 v []) (qz 0))%F = true.
Proof.
  set (w := from_ok dummy wstrip). assert (E : coupling_matrix pq sqq trq ph4 fstrip fstrip band1 free false [0]%nat = Ok w) by (apply (from_ok_eq dummy wstrip); vm_compute; reflexivity).
  assert (G : good_mem (mem_of pq sqq trq lud (0, 0, 0, 0)%Z false w)) by (eapply mem_good; [exact lud_laws | exact E | reflexivity]).
  exists fstrip, w, (file_of rnd15 (mem_of pq sqq trq lud (0, 0, 0, 0)%Z false w)), (rounded rnd15 (mem_of pq sqq trq lud (0, 0, 0, 0)%Z false w)), lq, cq1,
    (from_ok [] (py_couple pq sqq trq (Some w) lq cq1 [0]%nat)), (from_ok [] (pf_couple pq sqq trq (Some (rounded rnd15 (mem_of pq sqq trq lud (0, 0, 0, 0)%Z false w))) lq cq1 [0]%nat)).
  split; [exact E|]. split; [exact (write_ok rnd15 _ G)|]. split; [unfold pf_read; rewrite (read_ok rnd15 _ _ G); reflexivity|].
  split; [cbn [In]; intros x Hx; repeat (destruct Hx as [<-|Hx]; [split; vm_compute; reflexivity|]); destruct Hx|].
  split; [apply from_ok_eq; vm_compute; reflexivity|]. split; [apply from_ok_eq; vm_compute; reflexivity|]. vm_compute. reflexivity.
Qed.
(** the strip meets the hypotheses of the theorems above; without rounding couple_cell is unchanged, with it decouple_cell is *)
Example ex_round_trip : exists w m0 m1, wstrip = Ok w /\ lu_laws lud lub /\ length (fb_l0 band1) = length (fb_lf band1) /\ after (fun x => x) = Ok m0 /\ after rnd15 = Ok m1 /\
  m_lx (mw_fs m1) = q 100000000000001 100000000000000 /\ m_lx (mw_fs m0) = q 1000000000000006 1000000000000000 /\
  (match pf_couple pq sqq trq (Some m0) lq cq1 [0]%nat, py_couple pq sqq trq (Some w) lq cq1 [0]%nat with Ok a, Ok b => map (map out) a = map (map out) b | _, _ => False end) /\
  match pf_decouple lub (Some m1) [[qz 5]] None (Some [[qz 2]]), py_decouple (Some w) [[qz 5]] None (Some [[qz 2]]) with Ok a, Ok b => map (map out) a = map (map out) b /\ a <> [] | _, _ => False end.
Proof.
  exists (from_ok dummy wstrip), (from_ok (mem_of pq sqq trq lud (0, 0, 0, 0)%Z false dummy) (after (fun x => x))), (from_ok (mem_of pq sqq trq lud (0, 0, 0, 0)%Z false dummy) (after rnd15)).
  split; [apply from_ok_eq; vm_compute; reflexivity|]. split; [exact lud_laws|]. split; [reflexivity|]. split; [apply from_ok_eq; vm_compute; reflexivity|]. split; [apply from_ok_eq; vm_compute; reflexivity|].
  split; [apply out_inj; vm_compute; reflexivity|]. split; [apply out_inj; vm_compute; reflexivity|]. split; [vm_compute; reflexivity|]. vm_compute. split; [reflexivity | discriminate].
Qed.
(** a spin-1 map correlated with a scalar map *)
Example ex_spin : exists w f m, wsp44 1 mask44 bring = Ok w /\ pf_write rnd15 (Some (mem_of (qz 1) sq8 trq lud (0, 0, 0, 0)%Z false w)) = Ok f /\ length f = 7%nat /\
  pf_read (fun _ => qz 0) None (Some f) = (Some m, Ok tt) /\ (forall x, In x [m_lx (mw_fs m); m_ly (mw_fs m)] -> x = qz 2) /\ mw_ncls m = 2%Z /\ length (mw_bnd m) = 4%nat.
Proof.
  assert (E : wsp44 1 mask44 bring = Ok (from_ok dummy (wsp44 1 mask44 bring))) by (apply from_ok_eq; vm_compute; reflexivity).
  destruct (fun H => C84_round_trip (qz 1) sq8 trq ph4 lud lub rnd15 (fun _ => qz 0) (field44 0 mask44) (field44 1 mask44) bring free false [2; 0; 1; 3]%nat (from_ok dummy (wsp44 1 mask44 bring)) (0, 0, 0, 0)%Z None H eq_refl E) as [f [m [W [R H]]]]; [exact lud_laws|]. exists (from_ok dummy (wsp44 1 mask44 bring)), f, m.
  split; [exact E|]. split; [exact W|]. split; [eapply seven_units; [eapply mem_good; [exact lud_laws | exact E | reflexivity] | exact W]|].
  split; [exact R|]. destruct H as [N [_ [_ [_ [_ [_ [_ [_ [Bd [_ [_ [_ [_ [_ [_ [_ [_ [_ [_ [_ [_ [Lx [Ly _]]]]]]]]]]]]]]]]]]]]]]].
  split; [intros x [<-|[<-|[]]]; [rewrite Lx | rewrite Ly]; apply out_inj; vm_compute; reflexivity|]. rewrite N, Bd. split; [vm_compute; reflexivity | vm_compute; reflexivity].
Qed.
(** The sizes of the units are not compared with each other: a file whose list of bands is longer than its matrices is read without an error, and decoupling then aborts the process (GSL). *)
Definition mem1 (l0 lf : list Q) : fwmem Q := FWM 1 0 (qz 7) free 0 0 0 0 (mem_fs pq sqq trq strip) [3%Z] [[qz 1; qz 1]] [[qz 1]] [[qz 1]] [0%Z] (FBins l0 lf).
Definition long_bins (f : file2 Q) : file2 Q := firstn 6 f ++ [table "BINS_SUMMARY" [] 2 [FD [qz 1; qz 7]; FD [qz 7; qz 9]]].
Theorem C84_sizes_not_checked_refuted : exists (f : file2 Q) (m m' : fwmem Q), pf_write rnd15 (Some m) = Ok f /\ pf_read (fun _ => qz 0) None (Some (long_bins f)) = (Some m', Ok tt) /\
  length (fb_l0 (mw_bin m')) = 2%nat /\ length (mw_bnd m') = 1%nat /\ mw_ncls m' = 1%Z /\ pf_decouple lub (Some m') [[qz 1; qz 2]] None None = UB.
Proof.
  exists (from_ok [] (pf_write rnd15 (Some (mem1 [qz 1] [qz 7])))), (mem1 [qz 1] [qz 7]).
  set (g := workspace_flat_read (fun _ => qz 0) (long_bins (from_ok [] (pf_write rnd15 (Some (mem1 [qz 1] [qz 7])))))). exists (from_ok (mem1 [] []) g).
  split; [apply from_ok_eq; vm_compute; reflexivity|]. split. { unfold pf_read. fold g. assert (E : g = Ok (from_ok (mem1 [] []) g)) by (apply from_ok_eq; vm_compute; reflexivity). rewrite E at 1. reflexivity. }
  repeat split; vm_compute; reflexivity.
Qed.
End Ex84.
Print Assumptions C84_round_trip. Print Assumptions C84_decouple_same. Print Assumptions C84_couple_same. Print Assumptions C84_second_generation. Print Assumptions C84_failures.
Print Assumptions C84_couple_rounding_refuted. Print Assumptions C84_sizes_not_checked_refuted.
