(** Model of sector registration and of the bounding volume hierarchy of DetectorModel.
    Sources: projects/detector/private/DetectorModel.cxx:213-286, 1379-1748,
    projects/detector/public/SIREN/detector/DetectorModel.h:66-107. *)
From Coq Require Import Reals ZArith String List Bool.
From Verif Require Import TraversalModel VectorModel QuatModel GeometryModel.
Import ListNotations.
Open Scope R_scope.

(** Geometry.h:67-221: what the queries use of a geometry. [g_box] is [GetBoundingBox], [None] if
    one of its components is not finite. *)
Record geo := mkgeo { g_placement : placement; g_compute : vec -> vec -> list hit; g_box : option aabb }.

(** DetectorModel.h:40-56, [DetectorSector]; [s_rest] is the material and the density. *)
Record sector (A : Type) := mksector { s_name : string; s_level : Z; s_geo : geo; s_rest : A }.
Arguments mksector {A}. Arguments s_name {A}. Arguments s_level {A}. Arguments s_geo {A}. Arguments s_rest {A}.

(** DetectorModel.h:79-85, [BVHNode], as a tree: both children of an inner node exist. *)
Inductive bvh := Leaf (bounds : aabb) (index : nat) | Node (bounds : aabb) (l r : bvh).

(** DetectorModel.h:85-97: the lists of sectors outside the tree, and the tree. *)
Record cache := mkcache { c_infinite : list nat; c_invalid : list nat; c_tree : option bvh }.

(** DetectorModel.h:72-98: the members used here. The maps hold the last assignment to
    each key. *)
Record detector (A : Type) := mkdetector {
  d_sectors : list (sector A); d_levels : list (Z * nat); d_names : list (string * nat); d_cache : cache; d_dirty : bool }.
Arguments mkdetector {A}. Arguments d_sectors {A}. Arguments d_levels {A}. Arguments d_names {A}. Arguments d_cache {A}. Arguments d_dirty {A}.

(** DetectorModel.h:104, a new detector before [LoadDefaultSectors]. *)
Definition empty_detector {A} : detector A := mkdetector [] [] [] (mkcache [] [] None) true.

(** std::map::find, as used by GetSector (DetectorModel.cxx:262 and 272). *)
Definition find_level (k : Z) (m : list (Z * nat)) : option nat := option_map snd (find (fun e => Z.eqb (fst e) k) m).
(** DetectorModel.cxx:272. *)
Definition find_name (k : string) (m : list (string * nat)) : option nat := option_map snd (find (fun e => String.eqb (fst e) k) m).
(** std::map::count, as used at DetectorModel.cxx:218, 222, 248 and 252. *)
Definition has_level (k : Z) (m : list (Z * nat)) : bool := existsb (fun e => Z.eqb (fst e) k) m.
(** DetectorModel.cxx:222, 252. *)
Definition has_name (k : string) (m : list (string * nat)) : bool := existsb (fun e => String.eqb (fst e) k) m.

(** ** Registration *)

(** DetectorModel.cxx:247-259, [AddSector]: the detector afterwards, and whether it threw. *)
Definition add_sector {A} (m : detector A) (s : sector A) : detector A * bool :=
  if has_level (s_level s) (d_levels m) then (m, true)
  else if has_name (s_name s) (d_names m) then (m, true)
  else (mkdetector (d_sectors m ++ [s]) ((s_level s, List.length (d_sectors m)) :: d_levels m)
                   ((s_name s, List.length (d_sectors m)) :: d_names m) (d_cache m) true, false).

(** DetectorModel.cxx:217-226: the loop of [SetSectors]; the maps so far, and whether it
    threw. *)
Fixpoint set_loop {A} (i : nat) (l : list (sector A)) (lv : list (Z * nat)) (nm : list (string * nat)) : list (Z * nat) * list (string * nat) * bool :=
  match l with
  | [] => (lv, nm, false)
  | s :: r =>
      if has_level (s_level s) lv then (lv, nm, true)
      else if has_name (s_name s) nm then (lv, nm, true)
      else set_loop (S i) r ((s_level s, i) :: lv) ((s_name s, i) :: nm)
  end.

(** DetectorModel.cxx:213-229, [SetSectors]: the detector afterwards, and whether it threw. *)
Definition set_sectors {A} (m : detector A) (l : list (sector A)) : detector A * bool :=
  let '(lv, nm, threw) := set_loop 0 l [] [] in
  (mkdetector l lv nm (d_cache m) (if threw then d_dirty m else true), threw).

(** DetectorModel.cxx:281-286, [ClearSectors]. *)
Definition clear_sectors {A} (m : detector A) : detector A := mkdetector [] [] [] (d_cache m) true.

(** DetectorModel.cxx:261-269, [GetSector] by level: an unknown level ends in map::at. *)
Definition get_sector {A} (m : detector A) (level : Z) : outcome (sector A) :=
  match find_level level (d_levels m) with
  | None => Throw
  | Some i => match nth_error (d_sectors m) i with Some s => Ok s | None => UB end
  end.

(** DetectorModel.cxx:271-279, [GetSector] by name. *)
Definition get_sector_named {A} (m : detector A) (name : string) : outcome (sector A) :=
  match find_name name (d_names m) with
  | None => Throw
  | Some i => match nth_error (d_sectors m) i with Some s => Ok s | None => UB end
  end.

(** ** Building the hierarchy *)
Section Build.
(** The largest double (AABB.h:21). *)
Variable big : R.
(** [plan] stands for the choice of axis and split by surface area (DetectorModel.cxx:
    1534-1594): how to arrange the sectors of a node and how many go to the left. [None]
    is the degenerate case of coinciding centroids. *)
Variable plan : list (nat * aabb) -> option (list (nat * aabb) * nat).

(** Geometry.cxx:170-215, [GetWorldBoundingBox]. *)
Definition world_box (g : geo) : option aabb := option_map (world_bounds big (g_placement g)) (g_box g).

(** Box.cxx:111-119, Sphere.cxx:301-306 and BooleanGeometry.cxx:252-298, [GetBoundingBox], in
    local coordinates. *)
Definition local_bounds (s : shape) : aabb :=
  match s with
  | SBox _ wx wy wz => box_bounds wx wy wz
  | SSphere _ radius _ => sphere_bounds radius
  | SBool _ op l r => bool_bounds big op (Some (shape_bounds big l)) (Some (shape_bounds big r))
  end.

(** Geometry.h:67-221: what the queries use of a box, sphere or combination. *)
Definition shape_geo (sort : forall A : Type, (A -> R) -> list A -> list A) (s : shape) : geo :=
  mkgeo (shape_placement s) (shape_compute sort s) (Some (local_bounds s)).

(** DetectorModel.cxx:1517-1522: the bounds of a node. *)
Definition node_bounds (l : list (nat * aabb)) : aabb := fold_left (fun b e => expand_box b (snd e)) l (empty_aabb big).

(** DetectorModel.cxx:1511-1628, [BuildBVHRecursive]; [fuel] bounds the depth, which the
    number of sectors does. A plan is clamped as at lines 1613-1614. *)
Fixpoint build (fuel : nat) (l : list (nat * aabb)) : option bvh :=
  match fuel with
  | O => None
  | S k =>
      match l with
      | [] => None
      | [(i, b)] => Some (Leaf (node_bounds l) i)
      | _ =>
          let n := List.length l in
          let '(l', mid) := match plan l with
                            | None => (l, Nat.div n 2)
                            | Some (l', m) => (l', Nat.min (Nat.max m 1) (n - 1))
                            end in
          match build k (firstn mid l'), build k (skipn mid l') with
          | Some a, Some c => Some (Node (node_bounds l) a c)
          | _, _ => None
          end
      end
  end.

(** DetectorModel.cxx:1477-1502: the three kinds of sectors, in order. *)
Fixpoint classify {A} (i : nat) (l : list (sector A)) : list nat * list nat * list (nat * aabb) :=
  match l with
  | [] => ([], [], [])
  | s :: r =>
      let '(inf, inv, fin) := classify (S i) r in
      match world_box (s_geo s) with
      | None => (i :: inf, inv, fin)
      | Some b => if aabb_valid b then (inf, inv, (i, b) :: fin) else (inf, i :: inv, fin)
      end
  end.

(** DetectorModel.cxx:1471-1509, [RebuildBVH]. *)
Definition rebuild {A} (m : detector A) : detector A :=
  let '(inf, inv, fin) := classify 0 (d_sectors m) in
  mkdetector (d_sectors m) (d_levels m) (d_names m) (mkcache inf inv (build (List.length fin) fin)) false.

(** DetectorModel.cxx:1423-1428 and 1655-1660: rebuilding when needed. *)
Definition fresh {A} (m : detector A) : detector A := if d_dirty m then rebuild m else m.

(** ** Containing sector *)

(** DetectorModel.cxx:1430-1431: the best level and sector so far; [imin] is the least
    integer. *)
Definition best (A : Type) := (Z * option (sector A))%type.

(** DetectorModel.cxx:1438-1443 ([at_least] is [true]) and 1450-1454, 1408-1411. *)
Definition consider {A} (at_least : bool) (inside : bool) (s : sector A) (b : best A) : best A :=
  if (if at_least then Z.leb (fst b) (s_level s) else Z.ltb (fst b) (s_level s)) && inside then (s_level s, Some s) else b.

(** Geometry.cxx:137-140: [IsInside] of a sector's geometry. *)
Definition geo_inside (g : geo) (p : vec) : bool := is_inside_default (g_compute g) (g_placement g) p.

(** DetectorModel.cxx:1437-1444 and 1451-1457: the loops over sectors outside the tree. *)
Fixpoint scan {A} (at_least ask : bool) (sectors : list (sector A)) (p : vec) (l : list nat) (b : best A) : outcome (best A) :=
  match l with
  | [] => Ok b
  | i :: r =>
      match nth_error sectors i with
      | None => UB
      | Some s => scan at_least ask sectors p r (consider at_least (if ask then geo_inside (s_geo s) p else true) s b)
      end
  end.

(** DetectorModel.cxx:1393-1420, [FindContainingSectorBVH]. *)
Fixpoint find_tree {A} (sectors : list (sector A)) (p : vec) (t : bvh) (b : best A) : outcome (best A) :=
  match t with
  | Leaf bounds i =>
      if aabb_contains bounds p then
        match nth_error sectors i with
        | None => UB
        | Some s => Ok (consider false (geo_inside (s_geo s) p) s b)
        end
      else Ok b
  | Node bounds l r =>
      if aabb_contains bounds p then
        match find_tree sectors p l b with
        | Ok b' => find_tree sectors p r b'
        | e => e
        end
      else Ok b
  end.

(** DetectorModel.cxx:1379-1381 and 1422-1465, [GetContainingSector] of a point. [None] is
    the default sector. *)
Definition containing {A} (imin : Z) (m0 : detector A) (p : vec) : outcome (option (sector A)) :=
  let m := fresh m0 in
  match scan true false (d_sectors m) p (c_infinite (d_cache m)) (imin, None) with
  | Ok b1 =>
      match scan false true (d_sectors m) p (c_invalid (d_cache m)) b1 with
      | Ok b2 =>
          match match c_tree (d_cache m) with None => Ok b2 | Some t => find_tree (d_sectors m) p t b2 end with
          | Ok b3 => Ok (snd b3)
          | Throw => Throw
          | UB => UB
          end
      | Throw => Throw
      | UB => UB
      end
  | Throw => Throw
  | UB => UB
  end.

(** ** Intersections *)

(** Geometry.h:80-100 and DetectorModel.cxx:1639-1642: a hit with the level of its
    sector; the material is left out. *)
Definition labelled := (hit * Z)%type.
(** DetectorModel.cxx:1639-1642. *)
Definition label {A} (s : sector A) (l : list hit) : list labelled := map (fun h => (h, s_level s)) l.

(** DetectorModel.cxx:1631-1643, [AppendSectorIntersections]. *)
Definition sector_hits {A} (s : sector A) (p d : vec) : list labelled :=
  label s (intersections (g_compute (s_geo s)) (g_placement (s_geo s)) p d).

(** DetectorModel.cxx:1703-1722: a leaf; Geometry.cxx:230-236, [Intersections] from local
    coordinates. The box of a sector in the tree is finite. *)
Definition leaf_hits {A} (s : sector A) (p d : vec) : list labelled :=
  let g := s_geo s in
  let lp := global_to_local (g_placement g) p in
  let ld := global_to_local_dir (g_placement g) d in
  if match g_box g with None => true | Some b => ray_aabb lp ld b end then
    label s (map (fun h => mkhit (h_distance h) (h_entering h) (local_to_global (g_placement g) (h_position h))) (g_compute g lp ld))
  else [].

(** DetectorModel.cxx:1685-1687: the nodes of the stack and of the heap. *)
Definition pending := (list bvh * list bvh)%type.

(** DetectorModel.cxx:1725-1732, [push]; the stack holds 64 nodes. *)
Definition push (t : bvh) (w : pending) : pending :=
  if Nat.ltb (List.length (fst w)) 64 then (t :: fst w, snd w) else (fst w, t :: snd w).

(** DetectorModel.cxx:1691-1698: taking the next node. *)
Definition pop (w : pending) : option (bvh * pending) :=
  match snd w with
  | t :: h => Some (t, (fst w, h))
  | [] => match fst w with t :: s => Some (t, (s, [])) | [] => None end
  end.

(** DetectorModel.cxx:1690-1736, the traversal; [UB] when out of [fuel]. *)
Fixpoint traverse {A} (fuel : nat) (sectors : list (sector A)) (p d : vec) (w : pending) (acc : list labelled) : outcome (list labelled) :=
  match pop w with
  | None => Ok acc
  | Some (t, w') =>
      match fuel with
      | O => UB
      | S k =>
          match t with
          | Leaf b i =>
              if ray_aabb p d b then
                match nth_error sectors i with
                | None => UB
                | Some s => traverse k sectors p d w' (acc ++ leaf_hits s p d)
                end
              else traverse k sectors p d w' acc
          | Node b l r =>
              if ray_aabb p d b then traverse k sectors p d (push r (push l w')) acc
              else traverse k sectors p d w' acc
          end
      end
  end.

(** Number of nodes of the hierarchy: enough fuel for DetectorModel.cxx:1690. *)
Fixpoint nodes (t : bvh) : nat := match t with Leaf _ _ => 1 | Node _ l r => S (nodes l + nodes r) end.

(** DetectorModel.cxx:1676-1681: the sectors outside the tree. *)
Fixpoint append_all {A} (sectors : list (sector A)) (p d : vec) (l : list nat) (acc : list labelled) : outcome (list labelled) :=
  match l with
  | [] => Ok acc
  | i :: r => match nth_error sectors i with None => UB | Some s => append_all sectors p d r (acc ++ sector_hits s p d) end
  end.

(** DetectorModel.cxx:1653-1748, [GetIntersections], before [SortIntersections] arranges
    the result (modelled in TraversalModel). *)
Definition get_intersections {A} (m0 : detector A) (p d : vec) : outcome (list labelled) :=
  let m := fresh m0 in
  match append_all (d_sectors m) p d (c_infinite (d_cache m)) [] with
  | Ok a1 =>
      match append_all (d_sectors m) p d (c_invalid (d_cache m)) a1 with
      | Ok a2 => match c_tree (d_cache m) with None => Ok a2 | Some t => traverse (nodes t) (d_sectors m) p d ([t], []) a2 end
      | e => e
      end
  | e => e
  end.
End Build.
