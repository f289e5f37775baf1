(** Shapes, lines and what a list of boundary crossings says, independently of the code. *)
From Coq Require Import Reals List Bool Permutation Sorted.
From Verif Require Import VectorModel QuatModel QuatSpec GeometryModel.
Import ListNotations.
Open Scope R_scope.

(** Point of the line through [p] along [d]. *)
Definition on_line (p d : vec) (t : R) : vec := vadd p (vscale t d).

(** Points of a closed box around the origin, and of a spherical shell without its outer surface (a ball when
    there is no inner radius). *)
Definition in_box (wx wy wz : R) (q : vec) : Prop :=
  2 * Rabs (vx q) <= wx /\ 2 * Rabs (vy q) <= wy /\ 2 * Rabs (vz q) <= wz.
Definition in_shell (radius inner : R) (q : vec) : Prop := vmag q < radius /\ (0 < inner -> inner <= vmag q).

(** Set operations. *)
Definition set_op (op : bool_op) (a b : Prop) : Prop :=
  match op with Union => a \/ b | Intersection => a /\ b | Subtraction => a /\ ~ b end.

(** Points of a shape, in its own coordinates and after placing it. *)
Fixpoint in_local (s : shape) (q : vec) : Prop :=
  match s with
  | SBox _ wx wy wz => in_box wx wy wz q
  | SSphere _ radius inner => in_shell radius inner q
  | SBool _ op l r => set_op op (in_local l (global_to_local (shape_placement l) q)) (in_local r (global_to_local (shape_placement r) q))
  end.
Definition in_shape (s : shape) (q : vec) : Prop := in_local s (global_to_local (shape_placement s) q).

(** Near [t], within [e], the line crosses no boundary of the boxes and spheres that
    make up the shape. *)
Fixpoint settled_local (s : shape) (p d : vec) (t e : R) : Prop :=
  match s with
  | SBool _ _ l r =>
      settled_local l (global_to_local (shape_placement l) p) (global_to_local_dir (shape_placement l) d) t e /\
      settled_local r (global_to_local (shape_placement r) p) (global_to_local_dir (shape_placement r) d) t e
  | _ => forall u, Rabs (u - t) < e -> (in_local s (on_line p d u) <-> in_local s (on_line p d t))
  end.
Definition settled (s : shape) (p d : vec) (t e : R) : Prop :=
  settled_local s (global_to_local (shape_placement s) p) (global_to_local_dir (shape_placement s) d) t e.

(** Shapes with sizes and placements that make sense: no negative widths, shells thicker
    than [precision], unit quaternions, and an identity flag only on identities. *)
Definition well_placed (pl : placement) : Prop :=
  unit (p_quat pl) /\ (p_identity pl = true -> forall v, global_to_local pl v = v /\ global_to_local_dir pl v = v /\ local_to_global pl v = v).
Fixpoint well_formed (s : shape) : Prop :=
  well_placed (shape_placement s) /\
  match s with
  | SBox _ wx wy wz => 0 <= wx /\ 0 <= wy /\ 0 <= wz
  | SSphere _ radius inner => 0 < radius /\ inner <= radius - precision
  | SBool _ _ l r => well_formed l /\ well_formed r
  end.

(** Whether one is inside at [t], according to the crossings before [t]. *)
Definition state (l : list hit) (t : R) : bool :=
  fold_left (fun s h => if Rlt_dec (h_distance h) t then h_entering h else s) l false.

(** Crossings in order of distance. *)
Definition ordered : list hit -> Prop := StronglySorted (fun a b => h_distance a <= h_distance b).

(** ... with no two at the same distance. *)
Definition strict : list hit -> Prop := StronglySorted (fun a b => h_distance a < h_distance b).

(** Entering and exiting take turns, starting with [b]; [closed] lists end outside. *)
Fixpoint alternating (b : bool) (l : list hit) : Prop :=
  match l with
  | [] => True
  | h :: r => h_entering h = b /\ alternating (negb b) r
  end.
Definition closed (l : list hit) : Prop := Nat.Even (length l).

(** Every crossing gives the point of the line at its distance. *)
Definition positioned (p d : vec) (l : list hit) : Prop :=
  forall h, In h l -> h_position h = on_line p d (h_distance h).

(** Parameters that a crossing at distance [x] does not blur. *)
Definition apart (x t : R) : Prop := x <> t /\ (0 < t < precision -> precision <= Rabs (x - t)).

(** The crossings [l] delimit the part of the line that [inside] describes; distances
    within [precision] in front of the origin are not resolved. Every crossing is real:
    close to it there are points inside and points outside. *)
Record delimits (inside : R -> Prop) (l : list hit) : Prop := {
  dl_ordered : ordered l;
  dl_alternating : alternating true l;
  dl_closed : closed l;
  dl_state : forall t, (forall h, In h l -> apart (h_distance h) t) -> (inside t <-> state l t = true);
  dl_real : forall h, In h l -> exists u v, Rabs (u - h_distance h) < precision /\ Rabs (v - h_distance h) < precision /\ inside u /\ ~ inside v
}.

(** Sorting routines: any arrangement in order, and those that keep the order of equal
    elements. *)
Definition sorts (sort : forall A : Type, (A -> R) -> list A -> list A) : Prop :=
  forall A key l, Permutation (sort A key l) l /\ StronglySorted (fun a b => key a <= key b) (sort A key l).
Definition stable (sort : forall A : Type, (A -> R) -> list A -> list A) : Prop :=
  forall A key l x, filter (fun a => if Req_EM_T (key a) x then true else false) (sort A key l) =
                    filter (fun a => if Req_EM_T (key a) x then true else false) l.

(** Squared distance of the line from the origin (for a unit direction), and lines whose
    chord in a sphere of radius [r] is at least [precision] long, or that miss it. *)
Definition perp2 (p d : vec) : R := vdot (vcross p d) (vcross p d).
Definition resolved (r : R) (p d : vec) : Prop := r * r <= perp2 p d \/ precision * precision <= 4 * (r * r - perp2 p d).

(** Points of a bounding box. *)
Definition in_aabb (b : aabb) (q : vec) : Prop :=
  vx (b_min b) <= vx q <= vx (b_max b) /\ vy (b_min b) <= vy q <= vy (b_max b) /\ vz (b_min b) <= vz q <= vz (b_max b).
