(** Model of the whole list of crossings of a line with a cone. Source: projects/geometry/private/Cone.cxx. *)
From Coq Require Import Reals List Bool.
From Verif Require Import VectorModel GeometryModel SolidModel WedgeModel FrusModel.
Import ListNotations.
Open Scope R_scope.

(** Cone.cxx:106-108: the hits with the surfaces in the order in which they are recorded, of a cone without tip. *)
Definition frustum_surface (c : cone) (p d : vec) : list hit := outer_hits c p d ++ inner_hits c p d ++ top_hits c p d ++ bottom_hits c p d.

(** Cone.cxx:368-388, the result of [ComputeIntersections] for a cone without tip and without cut in azimuth: all hits, sorted, those
    closer than the precision to the last one kept dropped. *)
Definition frustum_hits (sort : forall A : Type, (A -> R) -> list A -> list A) (c : cone) (p d : vec) : list hit :=
  dedup None (sort hit h_distance (frustum_surface c p d)).

(** Cone.cxx:390-444: the same with a cut in azimuth; these lines are those of Cylinder.cxx:166-221. *)
Definition cut_frustum_hits (sort : forall A : Type, (A -> R) -> list A -> list A) (c : cone) (start delta : R) (p d : vec) : list hit :=
  cut_hits sort start delta p d (frustum_surface c p d).
