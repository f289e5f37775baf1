(** Model of the ray traversal core of [DetectorModel]:
    sorting of intersections, [SectorLoop], [GetOuterBounds] and the
    intersection-list overload of [GetContainingSector].

    Distances are elements of an arbitrary type [T] with a boolean strict
    order [ltb] standing for [operator<] on NaN-free doubles (so that the
    infinite default universe, whose intersections lie at -inf/+inf, is
    covered).  Theorems add the hypothesis that [ltb] is a strict total order. *)
From Coq Require Import List Bool ZArith.
Import ListNotations.
Open Scope Z_scope.

(** Result of a C++ call: normal return, an exception, or undefined
    behaviour (decrementing the begin iterator of a map).
    Modelling device, no direct counterpart in the sources; used for
    projects/detector/private/DetectorModel.cxx:1829-1913. *)
Inductive outcome (A : Type) : Type :=
| Ok (a : A)
| Throw
| UB.
Arguments Ok {A} a.
Arguments Throw {A}.
Arguments UB {A}.

Section Traversal.
Context {T : Type}.
(** DetectorModel.cxx:1762, comparison of distances. *)
Variable ltb : T -> T -> bool.

(** [operator==] on NaN-free doubles, as used in
    projects/detector/private/DetectorModel.cxx:1762. *)
Definition teqb (x y : T) : bool := negb (ltb x y) && negb (ltb y x).

(** [Geometry::Intersection], projects/geometry/public/SIREN/geometry/Geometry.h:80-100.
    Simplified: [matID] and [position] are dropped, they play no role in
    ordering or traversal. *)
Record ix : Type := mkix { dist : T; hier : Z; entering : bool }.

(** The comparator of [SortIntersections],
    projects/detector/private/DetectorModel.cxx:1757-1780. *)
Definition comp (a b : ix) : bool :=
  let a_enter := entering a in
  let b_enter := entering b in
  if ltb (dist a) (dist b) then true
  else if teqb (dist a) (dist b) then
    let low_high := Z.ltb (hier a) (hier b) in
    let high_low := Z.ltb (hier b) (hier a) in
    if a_enter then (if b_enter then high_low else false)
    else (if b_enter then true else low_high)
  else false.

(** [std::sort] with [comp], projects/detector/private/DetectorModel.cxx:1781.
    Modelled as insertion sort; [std::sort] may return any sorted permutation,
    the theorems therefore quantify over every sorted permutation and only use
    this function for computation. *)
Fixpoint insert_sorted (x : ix) (l : list ix) : list ix :=
  match l with
  | [] => [x]
  | y :: r => if comp y x then y :: insert_sorted x r else x :: y :: r
  end.

(** [SortIntersections], projects/detector/private/DetectorModel.cxx:1751-1782;
    see [insert_sorted] for the simplification. *)
Definition sort_intersections (l : list ix) : list ix :=
  fold_right insert_sorted [] l.

(** The sector stack [std::map<int, const_iterator>] of
    projects/detector/private/DetectorModel.cxx:1834, as an association list
    with increasing keys. *)
Definition stack := list (Z * ix).

(** [stack.insert({k, it})]: an existing key is kept,
    projects/detector/private/DetectorModel.cxx:1861,1870. *)
Fixpoint stack_insert (k : Z) (e : ix) (s : stack) : stack :=
  match s with
  | [] => [(k, e)]
  | (k', e') :: r =>
      if Z.ltb k k' then (k, e) :: s
      else if Z.eqb k k' then s
      else (k', e') :: stack_insert k e r
  end.

(** [stack.erase(k)], projects/detector/private/DetectorModel.cxx:1884. *)
Fixpoint stack_erase (k : Z) (s : stack) : stack :=
  match s with
  | [] => []
  | (k', e') :: r => if Z.eqb k k' then r else (k', e') :: stack_erase k r
  end.

(** [--stack.lower_bound(k)], projects/detector/private/DetectorModel.cxx:1894:
    the last element whose key is smaller than [k]; [None] when there is none
    (decrementing [begin()] is undefined behaviour). *)
Fixpoint stack_below (k : Z) (s : stack) : option ix :=
  match s with
  | [] => None
  | (k', e') :: r =>
      if Z.ltb k' k then
        match stack_below k r with Some e => Some e | None => Some e' end
      else None
  end.

Section Loop.
(** The callback: takes the entry of the current sector, the intersection that
    ends the segment and the last point, returns its new captured state and
    whether to stop. *)
Context {S : Type}.
(** DetectorModel.cxx:1873, 1887. *)
Variable cb : S -> ix -> ix -> T -> S * bool.

(** Body of the loop of [SectorLoop],
    projects/detector/private/DetectorModel.cxx:1863-1912, over the
    intersections still to be visited in visiting order. *)
Fixpoint loop (reverse : bool) (s : S) (stk : stack) (cur : ix) (last : T)
    (rest : list ix) : outcome S :=
  match rest with
  | [] => Ok s
  | e :: rest' =>
    if xorb (entering e) reverse then
      let stk1 := stack_insert (hier e) e stk in
      if Z.ltb (hier cur) (hier e) then
        let '(s1, done) := cb s cur e last in
        if done then Ok s1 else loop reverse s1 stk1 e (dist e) rest'
      else loop reverse s stk1 cur last rest'
    else
      if Z.leb (hier e) (hier cur) then
        let stk1 := stack_erase (hier e) stk in
        if Z.eqb (hier e) (hier cur) then
          let '(s1, done) := cb s cur e last in
          if done then Ok s1
          else match stk1 with
               | [] => Ok s1
               | _ :: _ =>
                 match stack_below (hier e) stk1 with
                 | Some c => loop reverse s1 stk1 c (dist e) rest'
                 | None => UB
                 end
               end
        else loop reverse s stk1 cur last rest'
      else Throw
  end.

(** [SectorLoop], projects/detector/private/DetectorModel.cxx:1829-1913.  The
    index arithmetic (start index, increment) is replaced by visiting the list
    or its reverse; lists longer than [INT_MAX] are not modelled. *)
Definition sector_loop (s : S) (l : list ix) (reverse : bool) : outcome S :=
  match (if reverse then rev l else l) with
  | [] => Ok s
  | c :: rest => loop reverse s [(hier c, c)] c (dist c) rest
  end.
End Loop.

(** [GetOuterBounds], projects/detector/private/DetectorModel.cxx:1784-1804,
    first loop (1790-1796): index and value of the first intersection whose
    hierarchy exceeds [min_hierarchy] (the universe's level, INT_MIN). *)
Fixpoint first_above (minh : Z) (i : nat) (l : list ix) : option (nat * ix) :=
  match l with
  | [] => None
  | e :: r => if Z.ltb minh (hier e) then Some (i, e) else first_above minh (S i) r
  end.

(** Second loop, projects/detector/private/DetectorModel.cxx:1797-1802: scan
    from the back down to (excluding) index [lo]. The list given is the
    reversed intersection list, [i] the index of its head. *)
Fixpoint last_above (minh : Z) (lo : nat) (i : nat) (rl : list ix) : option ix :=
  match rl with
  | [] => None
  | e :: r =>
      if Nat.ltb lo i then
        if Z.ltb minh (hier e) then Some e else last_above minh lo (Nat.pred i) r
      else None
  end.

(** [GetOuterBounds], projects/detector/private/DetectorModel.cxx:1784-1804;
    [minh] stands for [std::numeric_limits<int>::min()]. *)
Definition outer_bounds (minh : Z) (l : list ix) : list ix :=
  let '(r1, min_index) :=
    match first_above minh 0 l with
    | Some (i, e) => ([e], i)
    | None => ([], 0%nat)
    end in
  match last_above minh min_index (Nat.pred (length l)) (rev l) with
  | Some e => r1 ++ [e]
  | None => r1
  end.

(** Callback of [GetContainingSector(intersections, p0)],
    projects/detector/private/DetectorModel.cxx:1368-1378.  [x] is the position
    of the point on the ray, i.e. minus [offset]; [offset + d < 0] is written
    [d < x].  ([dot] is always +1 there because it is computed from a squared
    length, so the loop runs forward.) *)
Definition containing_cb (x : T) (_ : option Z) (cur e : ix) (_ : T) : option Z * bool :=
  if (ltb (dist cur) x && ltb x (dist e)) || teqb (dist cur) x
  then (Some (hier cur), true) else (None, false).

(** [GetContainingSector(intersections, p0)],
    projects/detector/private/DetectorModel.cxx:1354-1383.  [None] is the
    default-constructed sector returned when no segment contains the point. *)
Definition containing_sector (l : list ix) (x : T) : outcome (option Z) :=
  sector_loop (containing_cb x) None l false.

End Traversal.
Arguments ix T : clear implicits.
