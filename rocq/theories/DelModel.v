(** Model of the Delaunay indexer, the simplex operators and the interpolator built on them.
    Source: projects/math/public/SIREN/math/Interpolation.h.  Numbers are real.
    The triangulation itself (IDelaBella2) is a parameter. *)
From Coq Require Import Reals List Bool Arith.
From Verif Require Import TraversalModel QuadModel TransModel.
Import ListNotations.
Open Scope R_scope.

(** Interpolation.h:1287-1290, [Point]. *)
Record point := mkpoint { px : R; py : R; pi : nat }.
(** Interpolation.h:1301-1304, [Tri]. *)
Record tri := mktri { p0 : point; p1 : point; p2 : point }.

(** Interpolation.h:1267-1273, [GetBox]. *)
Definition box_of (t : tri) : box :=
  let x_min := Rmin (px (p0 t)) (Rmin (px (p1 t)) (px (p2 t))) in
  let x_max := Rmax (px (p0 t)) (Rmax (px (p1 t)) (px (p2 t))) in
  let y_min := Rmin (py (p0 t)) (Rmin (py (p1 t)) (py (p2 t))) in
  let y_max := Rmax (py (p0 t)) (Rmax (py (p1 t)) (py (p2 t))) in
  mkbox x_min y_min (x_max - x_min) (y_max - y_min).

(** Interpolation.h:1313-1322, [PointInTriangle].  The two denominators are opposite numbers.  If
    they are zero then [s] and [t] are infinite or not numbers, and one of the three comparisons of
    line 1321 fails: with [s] and [t] both plus infinity, [1 - s - t] is minus infinity. *)
Definition point_in_triangle (x y : R) (r : tri) : bool :=
  let v0 := p0 r in let v1 := p1 r in let v2 := p2 r in
  let ds := - py v1 * px v2 + py v0 * (- px v1 + px v2) + px v0 * (py v1 - py v2) + px v1 * py v2 in
  let dt := py v0 * (px v1 - px v2) + py v1 * px v2 - px v1 * py v2 + px v0 * (- py v1 + py v2) in
  if Req_EM_T ds 0 then false
  else if Req_EM_T dt 0 then false
  else
    let s := (y * (px v0 - px v2) + py v0 * px v2 - px v0 * py v2 + x * (- py v0 + py v2)) / ds in
    let t := (y * (px v0 - px v1) + py v0 * px v1 - px v0 * py v1 + x * (- py v0 + py v1)) / dt in
    lt 0 s && lt 0 t && lt 0 (1 - s - t).

(** Interpolation.h:1310-1311: the members, with the box kept by the tree.  A value of the tree is a
    pointer to a member of [all_tris], here its position. *)
Record indexer := mkindexer { tris : list tri; tree : node nat; bounds : box }.

(** Interpolation.h:1341, 1343: [std::min_element] of a list that is not empty. *)
Definition least (a : R) (l : list R) : R := fold_left Rmin l a.
(** Interpolation.h:1342, 1344: [std::max_element] of a list that is not empty. *)
Definition greatest (a : R) (l : list R) : R := fold_left Rmax l a.
(** Interpolation.h:1341-1348: the bounding box of the points [a :: l]. *)
Definition bounding (a : R * R) (l : list (R * R)) : box :=
  let min_x := least (fst a) (map fst l) in let max_x := greatest (fst a) (map fst l) in
  let min_y := least (snd a) (map snd l) in let max_y := greatest (snd a) (map snd l) in
  let width_x := max_x - min_x in let width_y := max_y - min_y in
  mkbox (min_x - width_x * (1 / 10000)) (min_y - width_y * (1 / 10000)) (width_x * (1 + 2 / 10000)) (width_y * (1 + 2 / 10000)).

(** Interpolation.h:1357-1361, 1373-1375: the vertex of a given number. *)
Definition vertex (pts : list (R * R)) (i : nat) : option point :=
  match nth_error pts i with None => None | Some q => Some (mkpoint (fst q) (snd q) i) end.
(** Interpolation.h:1373-1376: one triangle of the triangulation. *)
Definition tri_of (pts : list (R * R)) (n : nat * nat * nat) : option tri :=
  let '(i, j, k) := n in
  match vertex pts i, vertex pts j, vertex pts k with Some a, Some b, Some c => Some (mktri a b c) | _, _, _ => None end.
(** Interpolation.h:1372-1378: the loop over the triangulation. *)
Fixpoint collect (pts : list (R * R)) (l : list (nat * nat * nat)) : option (list tri) :=
  match l with
  | [] => Some []
  | n :: t => match tri_of pts n, collect pts t with Some r, Some rs => Some (r :: rs) | _, _ => None end
  end.

(** The triangle a pointer of the tree refers to (Interpolation.h:1381); the default is never used
    for positions below the length. *)
Definition pointed (l : list tri) (i : nat) : tri := nth i l (mktri (mkpoint 0 0 0) (mkpoint 0 0 0) (mkpoint 0 0 0)).
(** Interpolation.h:1274-1279, [GetBox] of a pointer. *)
Definition pointed_box (l : list tri) (i : nat) : box := box_of (pointed l i).

Section Indexer.
(** Interpolation.h:1364, 1369-1370, 1377: the numbers of the vertices of each triangle, in the order
    of the list that is returned; [None] if [verts <= 0]. *)
Variable triangulate : list (R * R) -> option (list (nat * nat * nat)).

(** Interpolation.h:1339-1385, the constructor.  The two vectors have the same length and are given
    as a list of pairs.  Reading the least of no numbers, a vertex that does not exist, and a failed
    assertion of the tree are [UB]. *)
Definition build (pts : list (R * R)) : outcome indexer :=
  match pts with
  | [] => UB
  | a :: l =>
      match triangulate pts with
      | None => Throw
      | Some ns =>
          match collect pts ns with
          | None => UB
          | Some ts =>
              match run (pointed_box ts) Nat.eqb (bounding a l) empty (map Add (seq 0 (length ts))) with
              | None => UB
              | Some n => Ok (mkindexer ts n (bounding a l))
              end
          end
      end
  end.

(** Interpolation.h:1387-1402, [operator()]; the null pointer is [None], a failed assertion of the
    tree is [UB]. *)
Definition lookup (ix : indexer) (x y : R) : outcome (option tri) :=
  match query (pointed_box (tris ix)) (tree ix) (bounds ix) (mkbox x y 0 0) with
  | None => UB
  | Some l =>
      match find (point_in_triangle x y) (map (pointed (tris ix)) l) with
      | Some t => Ok (Some t)
      | None => Ok (find (point_in_triangle x y) (tris ix))
      end
  end.

(** Interpolation.h:823-832, [SimplexLinearInterpolationOperator]; [None] is a division by zero. *)
Definition simplex (x y : R) (t : tri) (z1 z2 z3 : R) : option R :=
  let v1 := p0 t in let v2 := p1 t in let v3 := p2 t in
  let denominator := (py v2 - py v3) * (px v1 - px v3) + (px v3 - px v2) * (py v1 - py v3) in
  if Req_EM_T denominator 0 then None
  else
    let w1 := ((py v2 - py v3) * (x - px v3) + (px v3 - px v2) * (y - py v3)) / denominator in
    let w2 := ((py v3 - py v1) * (x - px v3) + (px v1 - px v3) * (y - py v3)) / denominator in
    let w3 := 1 - w1 - w2 in
    Some (w1 * z1 + w2 * z2 + w3 * z3).
(** Interpolation.h:840-844, [DropSimplexLinearInterpolationOperator]; the second value passed on is [z1]. *)
Definition drop_simplex (x y : R) (t : tri) (z1 z2 z3 : R) : option R :=
  if Req_EM_T z1 0 then Some 0
  else if Req_EM_T z2 0 then Some 0
  else if Req_EM_T z3 0 then Some 0
  else simplex x y t z1 z1 z3.
(** Interpolation.h:823, 840: the call, by class. *)
Definition simplex_by (o : operator) : R -> R -> tri -> R -> R -> R -> option R :=
  match o with Plain => simplex | Drop => drop_simplex end.

(** Interpolation.h:1466-1477: the members of [LinearDelaunayInterpolator2D] used after construction. *)
Record interpolator := mkinterp { t_z : list R; ix : indexer; op : operator; z_transform : transform }.

(** Interpolation.h:1484-1488: the transforms of one node. *)
Definition transformed (tx ty tz : transform) (n : R * R * R) : option (R * R * R) :=
  let '(x, y, z) := n in
  match apply tx x, apply ty y, apply tz z with Some a, Some b, Some c => Some (a, b, c) | _, _, _ => None end.
(** Interpolation.h:1484-1488: the loop over the nodes. *)
Fixpoint transform_all (tx ty tz : transform) (l : list (R * R * R)) : option (list (R * R * R)) :=
  match l with
  | [] => Some []
  | n :: t => match transformed tx ty tz n, transform_all tx ty tz t with Some a, Some r => Some (a :: r) | _, _ => None end
  end.

(** Interpolation.h:1479-1490, the constructor: an indexer of the data as given is built first (1480)
    and then replaced by one of the transformed data (1489).  The three vectors have the same length.
    The logarithm of a number that is not positive is not followed further ([UB]). *)
Definition construct (tx ty tz : transform) (o : operator) (l : list (R * R * R)) : outcome interpolator :=
  match build (map fst l) with
  | Throw => Throw
  | UB => UB
  | Ok _ =>
      match transform_all tx ty tz l with
      | None => UB
      | Some tl =>
          match build (map fst tl) with
          | Throw => Throw
          | UB => UB
          | Ok i => Ok (mkinterp (map snd tl) i o tz)
          end
      end
  end.

(** Interpolation.h:1492-1502, [operator()].  Reading outside [t_z] is [UB], and so is a division by
    zero. *)
Definition evaluate (f : interpolator) (x y : R) : outcome R :=
  match lookup (ix f) x y with
  | Throw => Throw
  | UB => UB
  | Ok None => Throw
  | Ok (Some t) =>
      match nth_error (t_z f) (pi (p0 t)), nth_error (t_z f) (pi (p1 t)), nth_error (t_z f) (pi (p2 t)) with
      | Some z0, Some z1, Some z2 =>
          match simplex_by (op f) x y t z0 z1 z2 with None => UB | Some r => Ok (invert (z_transform f) r) end
      | _, _, _ => UB
      end
  end.
End Indexer.
