(** Model of NmtFieldFlat.get_ell_sampling: pymaster/field.py:795-803, namaster.i:875-881, with the multipoles of
    nmt_flatsky_info_alloc (nmt_field_flat.c:59-61). *)
From Verif Require Import Base M_Flat.
Section EllFlat.
Context {F : ofield}.
Local Open Scope F_scope.
Variables (pi : F) (fsqrt : F -> F) (trunc : F -> Z).
(** the assertion of namaster.i:878 holds: both sizes are fs->n_ell *)
Definition get_ell_sampling (s : fsinfo F) : list F := tab (n_ell pi fsqrt trunc s) (fun i => fofnat i * dell pi s + 1 / fofZ 2 * dell pi s).
End EllFlat.
