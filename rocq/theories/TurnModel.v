(** The way the interactions turn a vector made around the x axis to a direction.
    Sources: ElasticScattering.cxx, DISFromSpline.cxx and HNLDecay.cxx in projects/interactions/private. *)
From Coq Require Import Reals.
From Verif Require Import VectorModel RkModel RandomModel.
Open Scope R_scope.

(** ElasticScattering.cxx:183-189, 201-202; DISFromSpline.cxx:550-560; HNLDecay.cxx:942-955:
    from the x axis to the direction of [p], then by a random angle around it. *)
Definition turn (o : abs_overload) (p : vec) (u : R) (a : p4) : p4 :=
  let dir := direction p in
  let phi := uniform 0 (2 * PI) u in
  p4_rotate (rot_axis dir phi) (p4_rotate (rotation_between o x_axis dir) a).
