(** What sector registration and sector queries should do, without the hierarchy. *)
From Coq Require Import Reals ZArith String List Bool Permutation.
From Verif Require Import TraversalModel VectorModel QuatModel QuatSpec GeometryModel GeometrySpec SectorModel.
Import ListNotations.
Open Scope R_scope.

(** The sector of the greatest level among those that contain the point. *)
Definition highest {A} (sectors : list (sector A)) (p : vec) (r : option (sector A)) : Prop :=
  match r with
  | Some s => In s sectors /\ geo_inside (s_geo s) p = true /\
      forall s', In s' sectors -> geo_inside (s_geo s') p = true -> (s_level s' <= s_level s)%Z
  | None => forall s', In s' sectors -> geo_inside (s_geo s') p = false
  end.

(** The hits of all sectors, one after the other. *)
Definition all_hits {A} (sectors : list (sector A)) (p d : vec) : list labelled := flat_map (fun s => sector_hits s p d) sectors.

(** Bounding boxes that can be trusted for a point, and for a line. Geometries without a
    finite box contain every point. *)
Definition sound_at (big : R) (g : geo) (p : vec) : Prop :=
  match world_box big g with
  | None => geo_inside g p = true
  | Some b => geo_inside g p = true -> aabb_valid b = true -> in_aabb b p
  end.
Definition sound_along (g : geo) (p d : vec) : Prop :=
  well_placed (g_placement g) /\
  forall b, g_box g = Some b -> g_compute g (global_to_local (g_placement g) p) (global_to_local_dir (g_placement g) d) <> [] ->
    exists t, in_aabb b (on_line (global_to_local (g_placement g) p) (global_to_local_dir (g_placement g) d) t).

(** A plan only rearranges. *)
Definition rearranges (plan : list (nat * aabb) -> option (list (nat * aabb) * nat)) : Prop :=
  forall l l' m, plan l = Some (l', m) -> Permutation l' l.

(** Calls, and what happens to a detector. *)
Inductive call (A : Type) := AddSector (s : sector A) | SetSectors (l : list (sector A)) | ClearSectors | Query.
Arguments AddSector {A}. Arguments SetSectors {A}. Arguments ClearSectors {A}. Arguments Query {A}.
Definition step {A} (big : R) plan (m : detector A) (c : call A) : detector A :=
  match c with
  | AddSector s => fst (add_sector m s)
  | SetSectors l => fst (set_sectors m l)
  | ClearSectors => clear_sectors m
  | Query => fresh big plan m
  end.
Definition fails {A} (m : detector A) (c : call A) : bool :=
  match c with SetSectors l => snd (set_sectors m l) | _ => false end.

(** Detectors reached by calls among which no SetSectors failed; AddSector may fail. *)
Inductive reached {A} (big : R) plan : detector A -> Prop :=
| reached_empty : reached big plan empty_detector
| reached_step m c : reached big plan m -> fails m c = false -> reached big plan (step big plan m c).

(** No two sectors share a level or a name, and lookups find them. *)
Record registered {A} (m : detector A) : Prop := {
  rg_levels : NoDup (map s_level (d_sectors m));
  rg_names : NoDup (map s_name (d_sectors m));
  rg_by_level : forall k s, get_sector m k = Ok s <-> In s (d_sectors m) /\ s_level s = k;
  rg_by_name : forall k s, get_sector_named m k = Ok s <-> In s (d_sectors m) /\ s_name s = k;
  rg_defined : (forall k, get_sector m k <> UB) /\ (forall k, get_sector_named m k <> UB)
}.

(** Shapes without intersections of shapes. *)
Fixpoint no_intersection (s : shape) : Prop :=
  match s with SBool _ op l r => op <> Intersection /\ no_intersection l /\ no_intersection r | _ => True end.
