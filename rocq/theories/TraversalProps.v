(** Property theorems about intersection sorting and sector traversal
    (C25, C26, C27, C35). Each closes with [exact]; examples show that the
    hypotheses are met by concrete non-trivial cases. *)
From Coq Require Import List Bool ZArith Permutation Sorting.Sorted.
From Verif Require Import TraversalModel TraversalSpec TraversalProofs TraversalLemmas.
Import ListNotations.
Open Scope Z_scope.

(** C25: the comparator decides exactly the documented visiting order... *)
Theorem C25_comparator_decides_order :
  forall (T : Type) (ltb : T -> T -> bool), strict_total ltb ->
  forall a b : ix T,
    comp ltb a b = true <-> visited_before (fun x y => ltb x y = true) a b.
Proof. exact comparator_decides_order. Qed.
Print Assumptions C25_comparator_decides_order.

(** ... which is a strict weak order (in fact: incomparable crossings are equal
    in distance, level and direction), so [std::sort] is well defined. *)
Theorem C25_comparator_strict_weak_order :
  forall (T : Type) (ltb : T -> T -> bool), strict_total ltb ->
  (forall a, comp ltb a a = false) /\
  (forall a b c, comp ltb a b = true -> comp ltb b c = true -> comp ltb a c = true) /\
  (forall a b, comp ltb a b = false -> comp ltb b a = false -> a = b).
Proof. exact comparator_strict_weak_order. Qed.
Print Assumptions C25_comparator_strict_weak_order.

(** Sorting yields the sorted version, and there is only one, whatever the
    order in which the intersections were found and whatever sorting algorithm
    is used. *)
Theorem C25_sort_unique :
  forall (T : Type) (ltb : T -> T -> bool), strict_total ltb ->
  forall l, sorted_version (fun a b => comp ltb a b = true) l (sort_intersections ltb l) /\
    forall l1 l2, Permutation l1 l ->
      sorted_version (fun a b => comp ltb a b = true) l1 l2 -> l2 = sort_intersections ltb l.
Proof. exact sort_unique. Qed.
Print Assumptions C25_sort_unique.

Example C25_case :
  sort_intersections Z.ltb
    [mkix 3 1 true; mkix 5 2 false; mkix 3 7 true; mkix 5 9 false; mkix 3 4 false; mkix 5 2 true]
  = [mkix 3 4 false; mkix 3 7 true; mkix 3 1 true; mkix 5 2 false; mkix 5 9 false; mkix 5 2 true].
Proof. vm_compute. reflexivity. Qed.

(** C26: forward traversal of the sorted crossings of any sectors with distinct
    levels, enclosed by one sector, never fails; its callbacks cover
    consecutive segments from one end of the enclosing interval to the other,
    and at every interior point of a segment the segment's level is the highest
    level of a sector containing the point. *)
Theorem C26_forward_tiling :
  forall (T : Type) (ltb : T -> T -> bool), strict_total ltb ->
  let lt := fun x y => ltb x y = true in
  forall (ss : list (sector T)) (u : sector T) (a b : T) (found : list (ix T)),
  good_sectors lt ss -> enclosed_by lt u ss -> ivs u = [(a, b)] ->
  Permutation found (crossings ss) ->
  exists cs, all_callbacks (sort_intersections ltb found) false = Ok cs /\
    tiles lt a (map (covered ltb) cs) b /\
    Forall (fun g => let '(h, x, y) := g in
      forall z, lt x z -> lt z y -> top_level (inside lt) ss z h) (map (covered ltb) cs).
Proof. exact forward_tiling. Qed.
Print Assumptions C26_forward_tiling.

(** The same for traversal in the reverse direction. *)
Theorem C26_reverse_tiling :
  forall (T : Type) (ltb : T -> T -> bool), strict_total ltb ->
  let lt := fun x y => ltb x y = true in
  let gt := fun x y => ltb y x = true in
  forall (ss : list (sector T)) (u : sector T) (a b : T) (found : list (ix T)),
  good_sectors lt ss -> enclosed_by lt u ss -> ivs u = [(a, b)] ->
  Permutation found (crossings ss) ->
  exists cs, all_callbacks (sort_intersections ltb found) true = Ok cs /\
    tiles gt b (map (covered (fun x y => ltb y x)) cs) a /\
    Forall (fun g => let '(h, x, y) := g in
      forall z, lt y z -> lt z x -> top_level (inside lt) ss z h)
      (map (covered (fun x y => ltb y x)) cs).
Proof. exact reverse_tiling. Qed.
Print Assumptions C26_reverse_tiling.

(** Every callback function sees exactly those callbacks, in that order, until
    it asks to stop. *)
Theorem C26_any_callback :
  forall (T S : Type) (cb : S -> ix T -> ix T -> T -> S * bool) (s : S) (l : list (ix T)) (reverse : bool) cs,
  all_callbacks l reverse = Ok cs ->
  sector_loop cb s l reverse = Ok (feed cb s cs).
Proof. exact any_callback. Qed.
Print Assumptions C26_any_callback.

(** The containing-sector query on an intersection list finds the highest level
    among the half-open sectors containing the point, and nothing outside. *)
Theorem C26_containing_sector :
  forall (T : Type) (ltb : T -> T -> bool), strict_total ltb ->
  let lt := fun x y => ltb x y = true in
  forall (ss : list (sector T)) (u : sector T) (a b : T) (found : list (ix T)) (x : T),
  good_sectors lt ss -> enclosed_by lt u ss -> ivs u = [(a, b)] ->
  Permutation found (crossings ss) ->
  (leT lt a x -> lt x b ->
    exists h, containing_sector ltb (sort_intersections ltb found) x = Ok (Some h) /\
      top_level (inside_ho lt) ss x h) /\
  (lt x a \/ leT lt b x ->
    containing_sector ltb (sort_intersections ltb found) x = Ok None).
Proof. exact containing_sector_correct. Qed.
Print Assumptions C26_containing_sector.

(** A detector meeting the hypotheses: universe [-100,100], a hollow sector in
    two pieces, two overlapping sectors sharing a boundary with it. *)
Definition ex_ss : list (sector Z) :=
  [mksector 5 [(0, 10); (20, 30)]; mksector (-1) [(-100, 100)];
   mksector 7 [(10, 25)]; mksector 2 [(5, 40)]].

Example C26_case :
  good_sectors (fun x y => Z.ltb x y = true) ex_ss /\
  enclosed_by (fun x y => Z.ltb x y = true) (mksector (-1) [(-100, 100)]) ex_ss /\
  (exists cs, all_callbacks (sort_intersections Z.ltb (crossings ex_ss)) false = Ok cs /\
     map (covered Z.ltb) cs =
       [(-1, -100, 0); (5, 0, 10); (2, 10, 10); (7, 10, 25); (5, 25, 30); (2, 30, 40); (-1, 40, 100)]) /\
  containing_sector Z.ltb (sort_intersections Z.ltb (crossings ex_ss)) 27 = Ok (Some 5).
Proof. exact C26_case_proof. Qed.

(** Without an enclosing sector the claim is false: traversal stops at the
    first gap, so a second, disjoint sector is never visited. *)
Theorem C26_without_enclosing_sector_refuted :
  exists ss : list (sector Z),
    good_sectors (fun x y => Z.ltb x y = true) ss /\
    exists cs, all_callbacks (sort_intersections Z.ltb (crossings ss)) false = Ok cs /\
      exists s x, In s ss /\ inside (fun x y => Z.ltb x y = true) s x /\
        forall h lo hi, In (h, lo, hi) (map (covered Z.ltb) cs) -> ~ (lo <= x <= hi).
Proof. exact without_enclosing_sector. Qed.
Print Assumptions C26_without_enclosing_sector_refuted.

(** C27: a ray that merely touches a sector, i.e. enters and leaves it at the
    same distance inside an enclosing sector, makes the traversal throw,
    although the same sectors are fine for every non-touching ray. *)
Theorem C27_touching_ray_refuted :
  exists (ss : list (sector Z)) (u : sector Z),
    NoDup (map level ss) /\ enclosed_by (fun x y => Z.ltb x y = true) u ss /\
    (forall s iv, In s ss -> In iv (ivs s) -> fst iv <= snd iv) /\
    all_callbacks (sort_intersections Z.ltb (crossings ss)) false = Throw.
Proof. exact touching_ray. Qed.
Print Assumptions C27_touching_ray_refuted.

(** The traversal throws or is undefined only on such degenerate input:
    with non-degenerate intervals it always completes, in both directions and
    for every callback (this is the part of C27 that holds). *)
Theorem C27_no_throw_partial :
  forall (T S : Type) (ltb : T -> T -> bool), strict_total ltb ->
  let lt := fun x y => ltb x y = true in
  forall (ss : list (sector T)) (u : sector T) (found : list (ix T))
         (cb : S -> ix T -> ix T -> T -> S * bool) (s : S) (reverse : bool),
  good_sectors lt ss -> enclosed_by lt u ss -> Permutation found (crossings ss) ->
  exists s', sector_loop cb s (sort_intersections ltb found) reverse = Ok s'.
Proof. exact no_throw. Qed.
Print Assumptions C27_no_throw_partial.

(** C35: the outer bounds are absent exactly when no real sector is crossed, and
    otherwise are an entry and an exit of real sectors between which every
    real sector lies. *)
Theorem C35_outer_bounds :
  forall (T : Type) (ltb : T -> T -> bool), strict_total ltb ->
  let lt := fun x y => ltb x y = true in
  forall (minh : Z) (ss : list (sector T)) (found : list (ix T)),
  good_sectors lt ss -> Permutation found (crossings ss) ->
  ((forall s, In s ss -> ivs s <> [] -> level s <= minh) /\
     outer_bounds minh (sort_intersections ltb found) = []) \/
  (exists f g, outer_bounds minh (sort_intersections ltb found) = [f; g] /\
     In f found /\ In g found /\ minh < hier f /\ minh < hier g /\
     entering f = true /\ entering g = false /\
     forall s iv, In s ss -> minh < level s -> In iv (ivs s) ->
       leT lt (dist f) (fst iv) /\ leT lt (snd iv) (dist g)).
Proof. exact outer_bounds_correct. Qed.
Print Assumptions C35_outer_bounds.

Example C35_case :
  outer_bounds (-1) (sort_intersections Z.ltb (crossings ex_ss)) = [mkix 0 5 true; mkix 40 2 false].
Proof. vm_compute. reflexivity. Qed.
