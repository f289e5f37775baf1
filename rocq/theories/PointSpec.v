(** Specification of the densities at a point. *)
From Coq Require Import Reals List Bool ZArith.
From Verif Require Import TraversalModel TraversalSpec VectorModel DepthModel DepthSpec.
Import ListNotations.
Open Scope R_scope.

(** The point [x] belongs to the sector closed at its far end. *)
Definition inside_oc (s : sector ext) (x : ext) : Prop :=
  exists iv, In iv (ivs s) /\ elt (fst iv) x /\ ele x (snd iv).

(** No sector begins or ends at [x]. *)
Definition clear_of (ss : list (sector ext)) (x : ext) : Prop :=
  forall s iv, In s ss -> In iv (ivs s) -> fst iv <> x /\ snd iv <> x.
