(** Model of tabulated functions: one-dimensional interpolation and trapezoid integration.
    Sources: projects/utilities/public/SIREN/utilities/{Interpolator,Integration}.h.
    Doubles are real numbers. *)
From Coq Require Import Reals List ZArith Bool.
From Verif Require Import TraversalModel.
Import ListNotations.
Open Scope R_scope.

(** [std::lower_bound] on an ascending range, as used at Interpolator.h:127 and
    Integration.h:259: the position of the first element not less than [v]. *)
Fixpoint lower_bound (l : list R) (v : R) : nat :=
  match l with
  | [] => 0
  | a :: t => if Rlt_dec a v then S (lower_bound t v) else 0
  end.

(** [std::upper_bound] on an ascending range, as used at Integration.h:258: the position of
    the first element greater than [v]. *)
Fixpoint upper_bound (l : list R) (v : R) : nat :=
  match l with
  | [] => 0
  | a :: t => if Rlt_dec v a then 0 else S (upper_bound t v)
  end.

(** ** The table, by ascending abscissa *)

(** Interpolator.h:383-389 and 408-412: [x] is the [std::set] of the abscissae and [function]
    maps the rank of an abscissa to its value; a later entry for the same abscissa replaces
    an earlier one.  Here the two are kept together as a list of pairs sorted by abscissa. *)
Fixpoint assign (p : R * R) (l : list (R * R)) : list (R * R) :=
  match l with
  | [] => [p]
  | q :: t =>
      if Rlt_dec (fst p) (fst q) then p :: l
      else if Rlt_dec (fst q) (fst p) then q :: assign p t
      else p :: t
  end.

(** Interpolator.h:383-389, 408-412: all entries of the table assigned in order. *)
Definition by_abscissa (table : list (R * R)) : list (R * R) :=
  fold_left (fun l p => assign p l) table [].

(** ** Finding the bin *)

(** Interpolator.h:160, [points.front()] (and 95); the set is not empty. *)
Definition front (xs : list R) : R := nth 0 xs 0.
(** Interpolator.h:161, [points.back()] (and 96). *)
Definition back (xs : list R) : R := last xs 0.
(** Interpolator.h:162, the member [range] (and 97). *)
Definition extent (xs : list R) : R := back xs - front xs.
(** Interpolator.h:163, the member [delta] of [IndexFinderRegular]. *)
Definition mean_step (xs : list R) : R := extent xs / INR (List.length xs - 1).

(** Interpolator.h:178-186, [IndexFinderRegular::operator()]: the bin, its lower edge and its
    width.  The conversion of the floor to [int] is exact here (no overflow). *)
Definition find_regular (xs : list R) (v : R) : nat * R * R :=
  let n := List.length xs in
  let i := Int_part ((v - front xs) / extent xs * INR (n - 1)) in
  let i' := if (i <? 0)%Z then O
            else if (Z.of_nat n - 1 <=? i)%Z then (n - 2)%nat else Z.to_nat i in
  (i', front xs + INR i' * mean_step xs, mean_step xs).

(** Interpolator.h:121-136 with 98-101, [IndexFinderIrregular::operator()].  [index] is
    unsigned: when the lower bound is the first element, subtracting one wraps around to the
    largest value, [index < 0] is never true, and the last bin is chosen. *)
Definition find_irregular (xs : list R) (v : R) : nat * R * R :=
  let n := List.length xs in
  let i := match lower_bound xs v with
           | O => (n - 2)%nat
           | S k => if (n - 1 <=? k)%nat then (n - 2)%nat else k
           end in
  (i, nth i xs 0, nth (S i) xs 0 - nth i xs 0).

(** Interpolator.h:229-238, [MaxDist], for finite entries: the largest deviation of a step
    from [avg]. *)
Fixpoint max_dist (xs : list R) (avg : R) : R :=
  match xs with
  | a :: ((b :: _) as t) => Rmax (Rabs (Rabs (b - a) - avg)) (max_dist t avg)
  | _ => 0
  end.

(** Interpolator.h:252, 261: the deviation relative to the mean step. *)
Definition relative_max_dist (xs : list R) : R := max_dist xs (mean_step xs) / mean_step xs.

(** Interpolator.h:246-248 and 252-257: the logarithms of the abscissae.  When an abscissa is
    zero or negative a logarithm is infinite or not a number, the relative deviation is not a
    number and every comparison with it is false: [None]. *)
Definition log_points (xs : list R) : option (list R) :=
  if forallb (fun x => if Rlt_dec 0 x then true else false) xs then Some (map ln xs) else None.

(** Interpolator.h:254 and 262: the tolerance 1e-4. *)
Definition tolerance : R := / 10000.

(** Interpolator.h:192-204, the members of [Indexer1D] used in a look-up: [is_log],
    [is_regular] and [points] (the abscissae, or their logarithms). *)
Record indexer := mkindexer { is_log : bool; is_regular : bool; points : list R }.

(** Interpolator.h:240-285, [Indexer1D::AddTable], on the ascending abscissae. *)
Definition add_points (xs : list R) : indexer :=
  let irregular_linear := mkindexer false false xs in
  let linear := if Rlt_dec (relative_max_dist xs) tolerance then mkindexer false true xs
                else irregular_linear in
  match log_points xs with
  | None => linear
  | Some ls =>
      if Rlt_dec (relative_max_dist ls) tolerance then mkindexer true true ls
      else if Rlt_dec (relative_max_dist xs) tolerance then mkindexer false true xs
      else if Rlt_dec (relative_max_dist ls) (relative_max_dist xs) then mkindexer true false ls
      else irregular_linear
  end.

(** Interpolator.h:309-314: the look-up by [regular_index] or [irregular_index]. *)
Definition find_bin (ix : indexer) (v : R) : nat * R * R :=
  if is_regular ix then find_regular (points ix) v else find_irregular (points ix) v.

(** ** The interpolator *)

(** Interpolator.h:341-347, the members of [Interpolator1D].  [mask] is the storage of
    [zero_mask]: [AddTable] reserves it and writes into it without changing the size of the
    vector, which stays zero (402-403).  [Some] is the storage as long as the object is the
    one that was filled (or was moved from it); a copy of a vector of size zero has no
    storage: [None]. *)
Record interp := mkinterp { index_of : indexer; func : list R; mask : option (list bool) }.

(** Interpolator.h:403: the test [t <= 0]. *)
Definition is_zero (f : R) : bool := if Rle_dec f 0 then true else false.
(** Interpolator.h:404: the logarithm of a positive value, other values unchanged. *)
Definition log_value (f : R) : R := if Rlt_dec 0 f then ln f else f.

(** Interpolator.h:381-414, [Interpolator1D::AddTable] on a fresh object, the table given as
    pairs of abscissa and value; the assertions at 391-393 (at least two distinct abscissae)
    are hypotheses of the theorems.  The mask is written in the order of the table (403), the
    values in the order of the abscissae (408-412). *)
Definition add_table (table : list (R * R)) : interp :=
  let sorted := by_abscissa table in
  let ix := add_points (map fst sorted) in
  if is_log ix then
    mkinterp ix (map (fun p => log_value (snd p)) sorted) (Some (map (fun p => is_zero (snd p)) table))
  else mkinterp ix (map snd sorted) None.

(** Interpolator.h:341-347: the implicit copy constructor (used by every [clone] of a
    distribution that holds an interpolator, e.g. TabulatedFluxDistribution.cxx). *)
Definition copy_interp (it : interp) : interp := mkinterp (index_of it) (func it) None.

(** Interpolator.h:431-451: the value in a bin from the stored values at its two ends. *)
Definition bin_value (log za zb : bool) (fa fb v xa delta : R) : R :=
  if log then
    if za then
      if zb then fa + (fb - fa) * exp (v - xa - delta)
      else fa + (exp fb - fa) * exp (v - xa - delta)
    else
      if zb then exp fa + (fb - exp fa) * exp (v - xa - delta)
      else exp (fa + (fb - fa) * (v - xa) / delta)
  else fa + (fb - fa) * (v - xa) / delta.

(** Interpolator.h:451-453: a negative result is replaced by zero. *)
Definition clip (r : R) : R := if Rlt_dec r 0 then 0 else r.

(** Interpolator.h:416-456 with 303-308, [Interpolator1D::operator()].  [Throw] is
    [function.at] failing; [UB] is reading a mask without storage.  In logarithmic mode an
    argument that is not positive has no finite logarithm; this is not modelled further and
    also answered by [UB]. *)
Definition evaluate1 (it : interp) (x : R) : outcome R :=
  let ix := index_of it in
  if is_log ix then
    if Rlt_dec 0 x then
      let v := ln x in
      let '(i0, xa, delta) := find_bin ix v in
      let i := if (List.length (points ix) - 1 <=? i0)%nat then (List.length (points ix) - 2)%nat else i0 in
      match nth_error (func it) i, nth_error (func it) (S i) with
      | Some fa, Some fb =>
          match mask it with
          | None => UB
          | Some m =>
              match nth_error m i, nth_error m (S i) with
              | Some za, Some zb => Ok (clip (bin_value true za zb fa fb v xa delta))
              | _, _ => UB
              end
          end
      | _, _ => Throw
      end
    else UB
  else
    let '(i0, xa, delta) := find_bin ix x in
    let i := if (List.length (points ix) - 1 <=? i0)%nat then (List.length (points ix) - 2)%nat else i0 in
    match nth_error (func it) i, nth_error (func it) (S i) with
    | Some fa, Some fb => Ok (clip (bin_value false false false fa fb x xa delta))
    | _, _ => Throw
    end.

(** ** Trapezoid integration *)

(** Integration.h:227-232: the loop over the intervals. *)
Fixpoint trapezoid_loop (x y : list R) : R :=
  match x, y with
  | a :: ((b :: _) as xt), fa :: ((fb :: _) as yt) => (b - a) * (1/2 * (fb + fa)) + trapezoid_loop xt yt
  | _, _ => 0
  end.

(** Integration.h:222-234, [trapezoidIntegrate(x, y)]. *)
Definition trapezoid (x y : list R) : outcome R :=
  if Nat.eqb (List.length x) (List.length y) then Ok (trapezoid_loop x y) else Throw.

(** Integration.h:263-265, the local function [lerp]. *)
Definition lerp (x y : list R) (i : nat) (t : R) : R :=
  nth (i - 1) y 0 + (nth i y 0 - nth (i - 1) y 0) * (t - nth (i - 1) x 0) / (nth i x 0 - nth (i - 1) x 0).

(** Integration.h:280-282: the loop over the interior intervals, [k] of them from [i] on. *)
Fixpoint interior (x y : list R) (i k : nat) : R :=
  match k with
  | O => 0
  | S k' => 1/2 * (nth (i - 1) y 0 + nth i y 0) * (nth i x 0 - nth (i - 1) x 0) + interior x y (S i) k'
  end.

(** Integration.h:248-292, [trapezoidIntegrate(x, y, xmin, xmax)]. *)
Definition trapezoid_between (x y : list R) (xmin xmax : R) : outcome R :=
  if negb (Nat.eqb (List.length x) (List.length y)) then Throw
  else
    let n := List.length x in
    if (n <? 2)%nat then Ok 0
    else
      let istart := Nat.max 1 (upper_bound x xmin) in
      let iend := Nat.min (n - 1) (lower_bound x xmax) in
      if (iend <? istart)%nat then Ok 0
      else if Nat.eqb istart iend then
        let y_l := if Rle_dec xmin (nth (istart - 1) x 0) then nth (istart - 1) y 0 else lerp x y istart xmin in
        let y_r := if Rge_dec xmax (nth istart x 0) then nth istart y 0 else lerp x y istart xmax in
        let left := Rmax (nth (istart - 1) x 0) xmin in
        let right := Rmin (nth istart x 0) xmax in
        Ok (1/2 * (y_l + y_r) * (right - left))
      else
        let y_left := if Rle_dec xmin (nth (istart - 1) x 0) then nth (istart - 1) y 0 else lerp x y istart xmin in
        let left_edge := Rmax (nth (istart - 1) x 0) xmin in
        let first := 1/2 * (y_left + nth istart y 0) * (nth istart x 0 - left_edge) in
        let y_right := if Rge_dec xmax (nth iend x 0) then nth iend y 0 else lerp x y iend xmax in
        let right_edge := Rmin (nth iend x 0) xmax in
        Ok (first + interior x y (S istart) (iend - istart - 1)
            + 1/2 * (nth (iend - 1) y 0 + y_right) * (right_edge - nth (iend - 1) x 0)).
