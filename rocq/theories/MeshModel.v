(** Model of [TriangularMesh]: the test of a ray against a triangle, the tree of boxes, its
    construction and its traversal, the merging of crossings and the test for a closed mesh.
    Source: projects/geometry/private/GeometryMesh.cxx. *)
From Coq Require Import Reals List Bool ZArith.
From Verif Require Import TraversalModel VectorModel.
Import ListNotations.
Open Scope R_scope.

(** ** A ray and a triangle *)
(** An index into [double\[3\]], GeometryMesh.cxx:36. *)
Inductive axis := AX | AY | AZ.
(** [dir\[k\]], GeometryMesh.cxx:55. *)
Definition coord (k : axis) (v : vec) : R := match k with AX => vx v | AY => vy v | AZ => vz v end.
(** [(k + 1) % 3], GeometryMesh.cxx:52. *)
Definition next (k : axis) : axis := match k with AX => AY | AY => AZ | AZ => AX end.

(** GeometryMesh.h:34, [Triangle]. *)
Record triangle := mktri { ta : vec; tb : vec; tc : vec }.

(** GeometryMesh.cxx:33-38, [WoopRay]. *)
Record wray := mkwray { w_org : vec; w_kx : axis; w_ky : axis; w_kz : axis; w_sx : R; w_sy : R; w_sz : R }.

(** GeometryMesh.cxx:49-51: the axis along which the direction is largest. *)
Definition main_axis (d : vec) : axis :=
  let k := if Rlt_dec (Rabs (vx d)) (Rabs (vy d)) then AY else AX in
  if Rlt_dec (match k with AX => Rabs (vx d) | _ => Rabs (vy d) end) (Rabs (vz d)) then AZ else k.

(** GeometryMesh.cxx:40-64, [PrepareRay]. A direction of length zero, for which the code divides
    by zero, is not considered. *)
Definition prepare_ray (o d : vec) : wray :=
  let kz := main_axis d in
  let kx := next kz in
  let ky := next (next kz) in
  let '(kx, ky) := if Rlt_dec (coord kz d) 0 then (ky, kx) else (kx, ky) in
  mkwray o kx ky kz (coord kx d / coord kz d) (coord ky d / coord kz d) (1 / coord kz d).

(** GeometryMesh.cxx:66-70, [TriHit]: the distance and whether the front was hit. *)
Record hit := mkhit { h_t : R; h_front : bool }.

(** [a < 0.0 || b < 0.0 || c < 0.0], GeometryMesh.cxx:101. *)
Definition any_negative (a b c : R) : bool :=
  (if Rlt_dec a 0 then true else false) || (if Rlt_dec b 0 then true else false) || (if Rlt_dec c 0 then true else false).

(** GeometryMesh.cxx:80-117, [WoopIntersect]. *)
Definition woop (r : wray) (t : triangle) : option hit :=
  let A := vsub (ta t) (w_org r) in
  let B := vsub (tb t) (w_org r) in
  let C := vsub (tc t) (w_org r) in
  let x V := coord (w_kx r) V - w_sx r * coord (w_kz r) V in
  let y V := coord (w_ky r) V - w_sy r * coord (w_kz r) V in
  let U := x C * y B - y C * x B in
  let V := x A * y C - y A * x C in
  let W := x B * y A - y B * x A in
  if any_negative U V W && any_negative (- U) (- V) (- W) then None
  else
    let det := U + V + W in
    if Req_EM_T det 0 then None
    else
      let T := U * (w_sz r * coord (w_kz r) A) + V * (w_sz r * coord (w_kz r) B) + W * (w_sz r * coord (w_kz r) C) in
      Some (mkhit (T / det) (if Rlt_dec 0 det then true else false)).

(** ** A ray and a box *)
(** [bounds\[6\]], GeometryMesh.h:82. *)
Record box := mkbox { b_lo : vec; b_hi : vec }.

(** [1e308], GeometryMesh.cxx:128-129. *)
Definition huge : R := 10 ^ 308.

(** GeometryMesh.cxx:388-392. *)
Definition inverse_of (x : R) : R := if Req_EM_T x 0 then 0 else 1 / x.
(** GeometryMesh.cxx:388-392, the three of them. *)
Definition inverse_dir (d : vec) : vec := mkv (inverse_of (vx d)) (inverse_of (vy d)) (inverse_of (vz d)).

(** GeometryMesh.cxx:131-134. *)
Definition slab (lo hi o i : R) : R * R :=
  let t1 := (lo - o) * i in let t2 := (hi - o) * i in (Rmin t1 t2, Rmax t1 t2).

(** GeometryMesh.cxx:127. *)
Definition beside (lo hi o : R) : bool := (if Rlt_dec o lo then true else false) || (if Rlt_dec hi o then true else false).

(** GeometryMesh.cxx:125-135. *)
Definition slab_first (lo hi o i : R) : option (R * R) :=
  if Req_EM_T i 0 then (if beside lo hi o then None else Some (- huge, huge)) else Some (slab lo hi o i).

(** GeometryMesh.cxx:137-144 and 146-153. *)
Definition slab_next (lo hi o i : R) (s : option (R * R)) : option (R * R) :=
  match s with
  | None => None
  | Some (tmin, tmax) =>
      if Req_EM_T i 0 then (if beside lo hi o then None else Some (tmin, tmax))
      else let '(a, b) := slab lo hi o i in Some (Rmax tmin a, Rmin tmax b)
  end.

(** GeometryMesh.cxx:120-156, [RayAABBIntersect]. *)
Definition ray_box (b : box) (o i : vec) : bool :=
  match slab_next (vz (b_lo b)) (vz (b_hi b)) (vz o) (vz i)
          (slab_next (vy (b_lo b)) (vy (b_hi b)) (vy o) (vy i)
            (slab_first (vx (b_lo b)) (vx (b_hi b)) (vx o) (vx i))) with
  | None => false
  | Some (tmin, tmax) => if Rle_dec tmin tmax then true else false
  end.

(** ** The tree *)
(** GeometryMesh.h:81-86, [BVHNode]. The axis of the split, which is not used again, is left out. *)
Record node := mknode { n_box : box; n_offset : nat; n_count : nat }.

(** [BVHNode{}], GeometryMesh.cxx:295. *)
Definition blank : node := mknode (mkbox (mkv 0 0 0) (mkv 0 0 0)) 0 0.

(** The two numbers of GeometryMesh.cxx:310 and 328-329; simplified: 1e30f is a float near to 1e30. *)
Definition big : R := 10 ^ 30.

(** What an index out of range is taken for; GeometryMesh.cxx:312. *)
Definition flat : triangle := mktri (mkv 0 0 0) (mkv 0 0 0) (mkv 0 0 0).

Section Mesh.
(** Conversion of a [double] to a [float], GeometryMesh.cxx:275-279. *)
Variable fl : R -> R.
(** [std::nth_element] by a key, GeometryMesh.cxx:353-359: some order of the same indices. *)
Variable pick : (nat -> R) -> list nat -> nat -> list nat.
(** [std::sort] by distance, GeometryMesh.cxx:446-449. *)
Variable order : list hit -> list hit.
(** [triangles_], GeometryMesh.h:78. *)
Variable tris : list triangle.

(** [triangles_\[i\]], GeometryMesh.cxx:273 and 421. *)
Definition tri_at (i : nat) : triangle := nth i tris flat.

(** GeometryMesh.cxx:275. *)
Definition least (k : axis) (t : triangle) : R := fl (Rmin (coord k (ta t)) (Rmin (coord k (tb t)) (coord k (tc t)))).
(** GeometryMesh.cxx:276. *)
Definition greatest (k : axis) (t : triangle) : R := fl (Rmax (coord k (ta t)) (Rmax (coord k (tb t)) (coord k (tc t)))).
(** GeometryMesh.cxx:279. *)
Definition centroid (k : axis) (i : nat) : R :=
  let t := tri_at i in fl ((coord k (ta t) + coord k (tb t) + coord k (tc t)) / 3).

(** GeometryMesh.cxx:310-318, 328-336: smallest and largest of some numbers. *)
Definition low (f : nat -> R) (l : list nat) : R := fold_left (fun b i => Rmin b (f i)) l big.
(** GeometryMesh.cxx:310-318, 328-336, the largest. *)
Definition high (f : nat -> R) (l : list nat) : R := fold_left (fun b i => Rmax b (f i)) l (- big).

(** GeometryMesh.cxx:310-318. *)
Definition box_of (l : list nat) : box :=
  let lo k := low (fun i => least k (tri_at i)) l in
  let hi k := high (fun i => greatest k (tri_at i)) l in
  mkbox (mkv (lo AX) (lo AY) (lo AZ)) (mkv (hi AX) (hi AY) (hi AZ)).

(** [cmax\[axis\] - cmin\[axis\]], GeometryMesh.cxx:339-344; simplified: without rounding. *)
Definition extent (k : axis) (l : list nat) : R := high (centroid k) l - low (centroid k) l.

(** GeometryMesh.cxx:338-341. *)
Definition long_axis (l : list nat) : axis :=
  let '(k, e) := if Rlt_dec (extent AX l) (extent AY l) then (AY, extent AY l) else (AX, extent AX l) in
  if Rlt_dec e (extent AZ l) then AZ else k.

(** GeometryMesh.cxx:256-374, the variables of [BuildBVH]: nodes, indices and tasks. *)
Record building := mkbuilding { nodes : list node; indices : list nat; tasks : list (nat * nat * nat) }.

(** [bvh_nodes_\[i\] = x], for instance GeometryMesh.cxx:307 and 318. *)
Fixpoint put {A} (l : list A) (i : nat) (x : A) : list A :=
  match l, i with
  | [], _ => []
  | _ :: l, O => x :: l
  | a :: l, S i => a :: put l i x
  end.

(** GeometryMesh.cxx:304-373: one task. [capacity] is what was reserved; were it exceeded, the
    reference [node] would be invalid when it is written to. *)
Definition build_step (capacity : nat) (i b e : nat) (s : building) : outcome building :=
  let count := (e - b)%nat in
  let seg := firstn count (skipn b (indices s)) in
  let bb := box_of seg in
  if Nat.leb count 8 then Ok (mkbuilding (put (nodes s) i (mknode bb b count)) (indices s) (tasks s))
  else
    let k := long_axis seg in
    if Rlt_dec (extent k seg) (1 / 10 ^ 10) then
      Ok (mkbuilding (put (nodes s) i (mknode bb b (Nat.min count (Z.to_nat 65535)))) (indices s) (tasks s))
    else
      let half := Nat.div count 2 in
      let seg' := pick (centroid k) seg half in
      let left := length (nodes s) in
      if Nat.ltb capacity (left + 2) then UB
      else Ok (mkbuilding (put (nodes s ++ [blank; blank]) i (mknode bb (left + 1) 0))
                 (firstn b (indices s) ++ seg' ++ skipn e (indices s))
                 ((left, b, b + half)%nat :: ((left + 1)%nat, (b + half)%nat, e) :: tasks s)).

(** GeometryMesh.cxx:300-373: the loop. *)
Fixpoint build_loop (fuel capacity : nat) (s : building) : outcome building :=
  match tasks s with
  | [] => Ok s
  | (i, b, e) :: rest =>
      match fuel with
      | O => UB
      | S fuel =>
          match build_step capacity i b e (mkbuilding (nodes s) (indices s) rest) with
          | Ok s' => build_loop fuel capacity s'
          | Throw => Throw
          | UB => UB
          end
      end
  end.

(** GeometryMesh.cxx:256-374, [BuildBVH]. *)
Definition build : outcome building :=
  let n := length tris in
  match n with
  | O => Ok (mkbuilding [] [] [])
  | _ => build_loop (2 * n) (2 * n) (mkbuilding [blank] (seq 0 n) [(0, 0, n)%nat])
  end.

(** ** Finding the crossings *)
(** GeometryMesh.cxx:419-432: the triangles of a leaf. *)
Fixpoint leaf_hits (r : wray) (idx : list nat) (offset count : nat) : outcome (list hit) :=
  match count with
  | O => Ok []
  | S count =>
      match nth_error idx offset with
      | None => UB
      | Some ti =>
          match leaf_hits r idx (S offset) count with
          | Ok hs => Ok (match woop r (tri_at ti) with Some h => h :: hs | None => hs end)
          | Throw => Throw
          | UB => UB
          end
      end
  end.

(** GeometryMesh.cxx:403-443: the loop. The array [node_stack] is [stack], last element first. *)
Fixpoint search (fuel : nat) (ns : list node) (idx : list nat) (r : wray) (inv : vec) (stack heap : list nat) (acc : list hit) : outcome (list hit) :=
  match heap, stack with
  | [], [] => Ok acc
  | _, _ =>
      match fuel with
      | O => UB
      | S fuel =>
          let '(i, stack, heap) := match heap with i :: heap => (i, stack, heap) | [] => (hd O stack, tl stack, []) end in
          match nth_error ns i with
          | None => UB
          | Some nd =>
              if negb (ray_box (n_box nd) (w_org r) inv) then search fuel ns idx r inv stack heap acc
              else if Nat.ltb 0 (n_count nd) then
                match leaf_hits r idx (n_offset nd) (n_count nd) with
                | Ok hs => search fuel ns idx r inv stack heap (acc ++ hs)
                | Throw => Throw
                | UB => UB
                end
              else if Nat.ltb (length stack + 1) 63 then
                if Nat.ltb 64 (length stack + 2) then UB
                else search fuel ns idx r inv ((n_offset nd - 1)%nat :: n_offset nd :: stack) heap acc
              else search fuel ns idx r inv stack ((n_offset nd - 1)%nat :: n_offset nd :: heap) acc
          end
      end
  end.

(** GeometryMesh.cxx:380-443: the crossings before sorting. *)
Definition raw_hits (s : building) (o d : vec) : outcome (list hit) :=
  match tris, nodes s with
  | [], _ | _, [] => Ok []
  | _, _ => search (length (nodes s)) (nodes s) (indices s) (prepare_ray o d) (inverse_dir d) [O] [] []
  end.

(** GeometryMesh.cxx:460-465: whether a crossing counts as the one before. *)
Definition coincide (prev curr : R) : bool :=
  if Rlt_dec (Rabs (curr - prev)) (Rmax 1 (Rmax (Rabs prev) (Rabs curr)) * (1 / 10 ^ 12)) then true else false.

(** GeometryMesh.cxx:458-467. *)
Fixpoint merge_from (prev : hit) (l : list hit) : list hit :=
  match l with
  | [] => [prev]
  | h :: l => if coincide (h_t prev) (h_t h) then merge_from prev l else prev :: merge_from h l
  end.
(** GeometryMesh.cxx:455-469. *)
Definition merge (l : list hit) : list hit := match l with [] => [] | h :: l => merge_from h l end.

(** GeometryMesh.cxx:380-472, [ComputeIntersections]. The positions are those at the distances. *)
Definition crossings_of (s : building) (o d : vec) : outcome (list hit) :=
  match raw_hits s o d with
  | Ok l => Ok (merge (order l))
  | Throw => Throw
  | UB => UB
  end.
End Mesh.

(** ** Closed meshes *)
(** [std::round], GeometryMesh.cxx:515. *)
Definition round_away (x : R) : Z := if Rle_dec 0 x then Int_part (x + 1 / 2) else (- Int_part (- x + 1 / 2))%Z.

(** GeometryMesh.cxx:503-518, [VertexKey]; numbers too large for the integers are not considered. *)
Definition key_of (v : vec) : Z * Z * Z := (round_away (vx v * 10 ^ 10), round_away (vy v * 10 ^ 10), round_away (vz v * 10 ^ 10)).

(** Equality of keys, GeometryMesh.cxx:505-509. *)
Definition key_eqb (a b : Z * Z * Z) : bool :=
  let '(x, y, z) := a in let '(x', y', z') := b in Z.eqb x x' && Z.eqb y y' && Z.eqb z z'.

(** [vertex_map], GeometryMesh.cxx:512: keys in the order of their numbers. [vertex_id] is
    GeometryMesh.cxx:513-524, [getVertexId]. *)
Fixpoint index_of (k : Z * Z * Z) (l : list (Z * Z * Z)) : option nat :=
  match l with
  | [] => None
  | a :: l => if key_eqb k a then Some O else option_map S (index_of k l)
  end.
(** GeometryMesh.cxx:513-524, [getVertexId]. *)
Definition vertex_id (m : list (Z * Z * Z)) (v : vec) : list (Z * Z * Z) * nat :=
  match index_of (key_of v) m with
  | Some i => (m, i)
  | None => (m ++ [key_of v], length m)
  end.

(** [edge_count\[ek\]++], GeometryMesh.cxx:551. *)
Fixpoint increment (e : nat * nat) (m : list (nat * nat * nat)) : list (nat * nat * nat) :=
  match m with
  | [] => [(e, 1%nat)]
  | (f, n) :: m => if Nat.eqb (fst e) (fst f) && Nat.eqb (snd e) (snd f) then (f, S n) :: m else (f, n) :: increment e m
  end.

(** [EdgeKey], GeometryMesh.cxx:550. *)
Definition edge_key (a b : nat) : nat * nat := (Nat.min a b, Nat.max a b).

(** GeometryMesh.cxx:536-553: one triangle. *)
Definition count_triangle (s : list (Z * Z * Z) * list (nat * nat * nat)) (t : triangle) : list (Z * Z * Z) * list (nat * nat * nat) :=
  let '(vm, ec) := s in
  let '(vm, i) := vertex_id vm (ta t) in
  let '(vm, j) := vertex_id vm (tb t) in
  let '(vm, k) := vertex_id vm (tc t) in
  if Nat.eqb i j || Nat.eqb j k || Nat.eqb k i then (vm, ec)
  else (vm, increment (edge_key k i) (increment (edge_key j k) (increment (edge_key i j) ec))).

(** GeometryMesh.cxx:555-560. *)
Definition boundary_edges (ec : list (nat * nat * nat)) : nat := length (filter (fun p => Nat.eqb (snd p) 1) ec).
(** GeometryMesh.cxx:555-560, [nonmanifold_edges]. *)
Definition crowded_edges (ec : list (nat * nat * nat)) : nat := length (filter (fun p => Nat.ltb 2 (snd p)) ec).

(** GeometryMesh.cxx:496-574, [ValidateClosed]: the messages. *)
Inductive defect := NoTriangles | Edges (boundary nonmanifold : nat).
(** GeometryMesh.cxx:496-574, [ValidateClosed]. *)
Definition validate (tris : list triangle) : option defect :=
  match tris with
  | [] => Some NoTriangles
  | _ =>
      let '(_, ec) := fold_left count_triangle tris ([], []) in
      let b := boundary_edges ec in let c := crowded_edges ec in
      if Nat.ltb 0 b || Nat.ltb 0 c then Some (Edges b c) else None
  end.
