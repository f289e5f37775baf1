(** What the energy loss of a meson should be, without reference to the model's functions. *)
From Coq Require Import Reals.
From Verif Require Import VectorModel RkModel RkSpec.
Open Scope R_scope.

(** The fractions of the energy that a particle of energy [e] and mass [m] may lose: at least one
    thousandth, and what is left is not less than the mass. *)
Definition possible_loss (m e z : R) : Prop := 1 / 1000 <= z /\ m <= e * (1 - z).

(** The second four-momentum points along the first momentum, or is zero. *)
Definition along (p : vec) (q : vec) : Prop := exists k, 0 <= k /\ q = vscale k p.
