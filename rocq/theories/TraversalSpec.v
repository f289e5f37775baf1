(** Specification vocabulary for ray traversal: sectors as families of
    intervals on a line.  Independent of the traversal code: only the shape
    of an intersection record is shared. *)
From Coq Require Import List Bool ZArith Permutation Sorting.Sorted.
From Verif Require Import TraversalModel.
Import ListNotations.
Open Scope Z_scope.

(** NaN-free comparison: a strict total order. *)
Record strict_total {T : Type} (ltb : T -> T -> bool) : Prop := {
  st_irrefl : forall x, ltb x x = false;
  st_trans : forall x y z, ltb x y = true -> ltb y z = true -> ltb x z = true;
  st_total : forall x y, ltb x y = false -> ltb y x = false -> x = y
}.

(** The order in which boundary crossings are to be visited: by distance; at
    one distance exits before entries, exits from the lowest level up,
    entries from the highest level down. *)
Definition visited_before {T : Type} (lt : T -> T -> Prop) (a b : ix T) : Prop :=
  lt (dist a) (dist b) \/
  (dist a = dist b /\
    ((entering a = false /\ entering b = true) \/
     (entering a = false /\ entering b = false /\ hier a < hier b) \/
     (entering a = true /\ entering b = true /\ hier b < hier a))).

(** What [std::sort] guarantees for a strict weak order [before]: a permutation
    in which no element comes after one it should precede. *)
Definition sorted_version {A : Type} (before : A -> A -> Prop) (l l' : list A) : Prop :=
  Permutation l l' /\ StronglySorted (fun a b => ~ before b a) l'.

Section Spec.
Context {T : Type}.
Variable lt : T -> T -> Prop.

Definition leT (x y : T) : Prop := ~ lt y x.

(** A sector seen along a ray: its level and the intervals it occupies. *)
Record sector : Type := mksector { level : Z; ivs : list (T * T) }.

(** Non-degenerate intervals, listed from left to right, possibly touching. *)
Definition good_intervals (s : sector) : Prop :=
  Forall (fun iv => lt (fst iv) (snd iv)) (ivs s) /\
  ForallOrdPairs (fun i j => leT (snd i) (fst j)) (ivs s).

(** A detector along a ray: every sector well formed, levels distinct. *)
Definition good_sectors (ss : list sector) : Prop :=
  Forall good_intervals ss /\ NoDup (map level ss).

(** The point [x] is strictly inside the sector. *)
Definition inside (s : sector) (x : T) : Prop :=
  exists iv, In iv (ivs s) /\ lt (fst iv) x /\ lt x (snd iv).

(** The point [x] belongs to the half-open sector (entry point included). *)
Definition inside_ho (s : sector) (x : T) : Prop :=
  exists iv, In iv (ivs s) /\ leT (fst iv) x /\ lt x (snd iv).

(** [h] is the greatest level of the sectors satisfying [P] at [x]. *)
Definition top_level (P : sector -> T -> Prop) (ss : list sector) (x : T) (h : Z) : Prop :=
  (exists s, In s ss /\ level s = h /\ P s x) /\
  (forall s, In s ss -> P s x -> level s <= h).

(** The boundary crossings of a list of sectors: one entering and one exiting
    intersection per interval. *)
Definition crossings (ss : list sector) : list (ix T) :=
  flat_map (fun s => flat_map (fun iv => [mkix (fst iv) (level s) true; mkix (snd iv) (level s) false]) (ivs s)) ss.

(** One sector encloses every other one: its single interval covers theirs. *)
Definition enclosed_by (u : sector) (ss : list sector) : Prop :=
  In u ss /\
  exists a b, ivs u = [(a, b)] /\
    forall s iv, In s ss -> In iv (ivs s) -> leT a (fst iv) /\ leT (snd iv) b.

(** Consecutive segments joining [a] to [b] without gap or overlap. A segment
    is (level, start, end). *)
Fixpoint tiles (a : T) (segs : list (Z * T * T)) (b : T) : Prop :=
  match segs with
  | [] => a = b
  | (_, x, y) :: r => x = a /\ leT x y /\ tiles y r b
  end.

(** What one callback of the traversal covers: it is told the entry [cur] of
    the current sector, the intersection [e] ending the segment and the last
    point reached; every caller integrates from the later of [cur] and the last
    point up to [e]. *)
Definition covered (ltb : T -> T -> bool) (c : ix T * ix T * T) : Z * T * T :=
  let '(cur, e, last) := c in
  (hier cur, (if ltb (dist cur) last then last else dist cur), dist e).

(** All callbacks of a complete traversal, in order. *)
Definition all_callbacks (l : list (ix T)) (reverse : bool)
  : outcome (list (ix T * ix T * T)) :=
  sector_loop (fun acc cur e last => (acc ++ [(cur, e, last)], false)) [] l reverse.

(** Feeding a list of callbacks to a callback function until it asks to stop. *)
Fixpoint feed {S : Type} (cb : S -> ix T -> ix T -> T -> S * bool) (s : S)
    (cs : list (ix T * ix T * T)) : S :=
  match cs with
  | [] => s
  | (cur, e, last) :: r =>
      let '(s', done) := cb s cur e last in if done then s' else feed cb s' r
  end.

(** The same ray seen from the other end, with [neg] reversing distances:
    entries become exits. *)
Definition mirror (neg : T -> T) (l : list (ix T)) : list (ix T) :=
  map (fun e => mkix (neg (dist e)) (hier e) (negb (entering e))) (rev l).

End Spec.
Arguments sector T : clear implicits.
