(** The flattening of GDML volumes: specification. *)
From Coq Require Import Reals ZArith List Bool Ascii String.
From Verif Require Import VectorModel QuatModel QuatSpec VolModel InstSpec.
Import ListNotations.
Open Scope R_scope.

(** A piece of the detector: a solid of a material, with the map from the coordinates of the world to those of
    the solid. *)
Record piece := mkpiece { pc_volume : list ascii; pc_solid : list ascii; pc_material : list ascii; pc_density : R; pc_local : vec -> vec }.

(** The coordinates in a child of those in its parent: shifted, then turned about the fixed axes x, y, z
    (Geant4: a passive rotation). *)
Definition into_child (c : physvol) (p : vec) : vec :=
  let q := vsub p (pv_position c) in
  match pv_angles c with None => q | Some (x, y, z) => rodrigues axis_z z (rodrigues axis_y y (rodrigues axis_x x q)) end.

Section Expand.
Variable w : world.

(** Which volume a reference means. *)
Definition means (raw : list ascii) (v : volume) : Prop :=
  match w_alias w raw with Some n => w_volume w n = Some v | None => w_volume w raw = Some v end.

(** The piece of the volume itself: none for an assembly. *)
Definition own (v : volume) (f : vec -> vec) (l : list piece) : Prop :=
  if v_assembly v then l = []
  else w_has_solid w (v_solid v) = true /\ w_imported w (v_material v) = true /\
       exists rho, w_density w (v_material v) = Some rho /\ l = [mkpiece (v_name v) (v_solid v) (v_material v) rho f].

(** All pieces in a volume, each before those inside it. *)
Inductive expands : list ascii -> (vec -> vec) -> list piece -> Prop :=
| expands_one : forall raw v f a l, means raw v -> own v f a -> expands_all (v_children v) f l -> expands raw f (a ++ l)
with expands_all : list physvol -> (vec -> vec) -> list piece -> Prop :=
| expands_nil : forall f, expands_all [] f []
| expands_cons : forall c cs f a l, expands (pv_ref c) (fun p => into_child c (f p)) a -> expands_all cs f l ->
    expands_all (c :: cs) f (a ++ l).
End Expand.

(** A sector that is this piece. *)
Definition is_piece (s : sector) (x : piece) : Prop :=
  s_solid s = Some (pc_solid x) /\ s_material s = pc_material x /\ s_density s = pc_density x /\
  (forall p, global_to_local (s_place s) p = pc_local x p) /\
  (s_name s = pc_volume x \/ exists ds, s_name s = pc_volume x ++ ["_"%char] ++ ds /\ ds <> [] /\ Forall decimal_digit ds).

(** The levels of these sectors are [z], [z] + 1, ... *)
Fixpoint ranked (z : Z) (l : list sector) : Prop :=
  match l with [] => True | s :: r => s_level s = z /\ ranked (z + 1) r end.
