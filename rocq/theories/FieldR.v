(** Coq's real numbers as an ordered field; used only where square roots or exponentials are needed
    to exhibit a concrete case.  This is the only file that uses the axioms of Coq.Reals. *)
From Coq Require Import Reals Lra.
From Verif Require Import Field.

Definition R_leb (x y : R) : bool := if Rle_dec x y then true else false.
Lemma R_leb_le x y : R_leb x y = true <-> (x <= y)%R.
Proof. unfold R_leb. destruct (Rle_dec x y); split; intros; try discriminate; auto; contradiction. Qed.
Definition R_field : ofield.
Proof.
  refine (OField R 0%R 1%R Rplus Rmult Rminus Ropp Rdiv Rinv R_leb RealField.Rfield _ _ _ _ _).
  - intros x y. rewrite !R_leb_le. lra.
  - intros x y. rewrite !R_leb_le. lra.
  - intros x y z. rewrite !R_leb_le. lra.
  - intros x y z. rewrite !R_leb_le. lra.
  - intros x y. rewrite !R_leb_le. apply Rmult_le_pos.
Defined.
Lemma R_le (x y : R_field) : (x <= y)%F <-> (x <= y)%R.
Proof. unfold fle. apply R_leb_le. Qed.
Lemma R_lt (x y : R_field) : (x < y)%F <-> (x < y)%R.
Proof. rewrite flt_not_le, R_le. split; intro H; [apply Rnot_le_lt; exact H | apply Rlt_not_le; exact H]. Qed.
