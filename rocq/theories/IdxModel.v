(** Model of the one- and two-dimensional indexers.
    Source: projects/math/public/SIREN/math/Interpolation.h.  Numbers are real, vectors are lists
    shorter than 2^31. *)
From Coq Require Import Reals List ZArith Bool.
From Verif Require Import TraversalModel TransModel.
Import ListNotations.
Open Scope R_scope.

(** [std::sort] of Interpolation.h:447, 518, 630: insertion into an ascending list. *)
Fixpoint insert (a : R) (l : list R) : list R :=
  match l with
  | [] => [a]
  | b :: t => if Rle_dec a b then a :: l else b :: insert a t
  end.
(** [std::sort] of Interpolation.h:447, 518, 630. *)
Fixpoint sort (l : list R) : list R := match l with [] => [] | a :: t => insert a (sort t) end.

(** Interpolation.h:450, 453, 521, 524: [==] of two vectors. *)
Fixpoint eq_list (l m : list R) : bool :=
  match l, m with
  | [], [] => true
  | a :: t, b :: u => if Req_EM_T a b then eq_list t u else false
  | _, _ => false
  end.

(** Interpolation.h:446-459, 517-530, the flag [reversed].  What is compared with its reverse is
    the sorted vector: [reversed_data] is copied from [data] after the sort. *)
Definition reversed_flag (data : list R) : bool :=
  let s := sort data in if eq_list s data then false else eq_list s (rev s).

(** ** RegularIndexer1D *)

(** Interpolation.h:432-438, the members but [delta], which is not used. *)
Record regular := mkregular { g_low : R; g_high : R; g_range : R; g_reversed : bool; g_n : nat }.

(** Interpolation.h:442-466; [None] is an exception. *)
Definition make_regular (data : list R) : option regular :=
  if (length data <? 2)%nat then None
  else
    let s := sort data in
    let low := hd 0 s in
    let high := last s 0 in
    if Rle_dec (Rabs (high - low)) 0 then None
    else Some (mkregular low high (high - low) (reversed_flag data) (length data)).

(** A floating-point number converts to [int] (Interpolation.h:494) if it fits. *)
Definition fits_int (z : Z) : bool := ((- 2 ^ 31 <=? z) && (z <? 2 ^ 31))%Z.
(** Interpolation.h:496: an unsigned difference converted to [int]. *)
Definition to_int (z : Z) : Z := ((z + 2 ^ 31) mod 2 ^ 32 - 2 ^ 31)%Z.

(** Interpolation.h:493-502. *)
Definition regular_at (g : regular) (x : R) : outcome (nat * nat) :=
  let f := Int_part ((x - g_low g) / g_range g * INR (g_n g - 1)) in
  if fits_int f then
    let n := Z.of_nat (g_n g) in
    let i := if g_reversed g then to_int (n - 1 - f) else f in
    let i := if (i <? 0)%Z then 0%Z else if (n - 1 <=? i)%Z then (n - 2)%Z else i in
    Ok (Z.to_nat i, S (Z.to_nat i))
  else UB.

(** ** IrregularIndexer1D *)

(** Interpolation.h:506-511. *)
Record irregular := mkirregular { h_data : list R; h_low : R; h_high : R; h_reversed : bool }.

(** Interpolation.h:514-537. *)
Definition make_irregular (data : list R) : option irregular :=
  if (length data <? 2)%nat then None
  else
    let s := sort data in
    let low := hd 0 s in
    let high := last s 0 in
    if Rle_dec (Rabs (high - low)) 0 then None
    else Some (mkirregular s low high (reversed_flag data)).

(** [std::lower_bound] of Interpolation.h:575: the position of the first element not less. *)
Fixpoint first_not_less (l : list R) (x : R) : nat :=
  match l with
  | [] => O
  | a :: t => if Rlt_dec a x then S (first_not_less t x) else O
  end.

(** Interpolation.h:563-584.  Beyond line 568 the lower bound is not the first element, so the
    unsigned subtractions do not wrap. *)
Definition irregular_at (h : irregular) (x : R) : nat * nat :=
  let n := length (h_data h) in
  if Rle_dec x (h_low h) then (0, 1)%nat
  else if Rle_dec (h_high h) x then (n - 2, n - 1)%nat
  else
    let i := (first_not_less (h_data h) x - 1)%nat in
    let i := if h_reversed h then (n - 1 - i)%nat else i in
    let i := if (n - 1 <=? i)%nat then (n - 2)%nat else i in
    (i, S i).

(** ** Indexers of both kinds, and with a transform *)

(** Interpolation.h:432, 506, 588-595: the classes of indexers. *)
Inductive indexer := Regular (g : regular) | Irregular (h : irregular) | Transformed (i : indexer) (t : transform).

(** Interpolation.h:493, 563, 619-622, [operator()]; the transform of an argument outside its
    domain is not a number, for which the result is not modelled further. *)
Fixpoint index_at (i : indexer) (x : R) : outcome (nat * nat) :=
  match i with
  | Regular g => regular_at g x
  | Irregular h => Ok (irregular_at h x)
  | Transformed j t => match apply t x with Some u => index_at j u | None => UB end
  end.

(** ** SelectIndexer1D *)

Section Select.
(** [std::numeric_limits<T>::epsilon()] of Interpolation.h:638-701. *)
Variable eps : R.

(** Interpolation.h:637-639, 644-648, 655-659, 671-674, 683-687, 698-702: a sum of squares. *)
Definition sum_squares (l : list R) : R := fold_right (fun a s => a ^ 2 + s) 0 l.

(** Interpolation.h:637-640: the metric without transform, from all points but the last. *)
Definition metric_irregular (n : nat) (xs : list R) : R :=
  let m := sum_squares (map (fun x => eps * Rabs x) xs) in m - m * eps * INR n.

(** Interpolation.h:644-649, 655-660: the metric with a transform; [None] if a transform is not a
    number. *)
Definition metric_t_irregular (n : nat) (t : transform) (xs : list R) : option R :=
  if forallb (fun x => match apply t x with Some _ => true | None => false end) xs then
    let m := sum_squares (map (fun x => match apply t x with Some u => Rmax (Rabs (x - invert t u)) (eps * Rabs x) | None => 0 end) xs) in
    Some (m - m * eps * INR n)
  else None.

(** Interpolation.h:663. *)
Definition thresh (n : nat) : R := 1 - eps * 100 * INR n.

(** Interpolation.h:673, 686, 701: the error of one point from a regular one. *)
Definition point_error (n : nat) (x p : R) : R :=
  Rmax (eps * Rabs x * thresh n) (Rmin (Rabs (x - p)) (eps * Rabs x)).

(** Interpolation.h:671-675, 683-688, 698-703: the points given are numbered from [k]; [place] is
    the value on the regular grid. *)
Fixpoint errors (n k : nat) (place : nat -> R) (xs : list R) : list R :=
  match xs with
  | [] => []
  | x :: t => point_error n x (place k) :: errors n (S k) place t
  end.

(** Interpolation.h:668-675. *)
Definition metric_regular (n : nat) (low high : R) (xs : list R) : R :=
  sum_squares (errors n 0 (fun k => (high - low) / INR (n - 1) * INR k + low) xs) / thresh n.

(** Interpolation.h:680-688, 695-703; [None] if a transform is not a number. *)
Definition metric_t_regular (n : nat) (t : transform) (low high : R) (xs : list R) : option R :=
  match apply t low, apply t high with
  | Some a, Some b => Some (sum_squares (errors n 0 (fun k => invert t ((b - a) / INR (n - 1) * INR k + a)) xs) / thresh n)
  | _, _ => None
  end.

(** Interpolation.h:706, [std::min_element]: the position of the first least metric.  [None] is
    the largest number (642, 652, 678, 692) or not a number, neither of which is chosen before a
    number; [best] is the least so far, at [pos]. *)
Fixpoint least_from (best : R) (pos k : nat) (l : list (option R)) : nat :=
  match l with
  | [] => pos
  | Some m :: t => if Rlt_dec m best then least_from m k (S k) t else least_from best pos (S k) t
  | None :: t => least_from best pos (S k) t
  end.

(** Interpolation.h:651, 691: the supplied transform is a [SymLogTransform]. *)
Definition is_symlog (t : option transform) : bool := match t with Some (SymLog _) => true | _ => false end.

(** Interpolation.h:641, 677: the metrics of the supplied transform. *)
Definition with_supplied (t : option transform) (f : transform -> option R) : option R :=
  match t with Some t => f t | None => None end.

(** Interpolation.h:629-706: [min_index]; [None] if the logarithmic-symmetric transform cannot be
    constructed. *)
Definition min_index (data : list R) (t : option transform) : option nat :=
  let s := sort data in
  let n := length s in
  let xs := removelast s in
  let low := hd 0 s in
  let high := last s 0 in
  let rest sym_irr sym_reg :=
    least_from (metric_irregular n xs) 0 1
      [Some (metric_regular n low high xs);
       with_supplied t (fun t => metric_t_irregular n t xs); with_supplied t (fun t => metric_t_regular n t low high xs);
       sym_irr; sym_reg] in
  if is_symlog t then Some (rest None None)
  else match symlog_of_list s with
  | None => None
  | Some y => Some (rest (metric_t_irregular n y xs) (metric_t_regular n y low high xs))
  end.

(** Interpolation.h:722-724; a value that is not a number is not modelled: the transform was
    chosen because its metric is a number. *)
Definition all_applied (t : transform) (data : list R) : list R :=
  map (fun x => match apply t x with Some u => u | None => 0 end) data.

(** Interpolation.h:514-537, the constructor, as an indexer. *)
Definition new_irregular (data : list R) : outcome indexer :=
  match make_irregular data with Some h => Ok (Irregular h) | None => Throw end.
(** Interpolation.h:442-466, the constructor, as an indexer. *)
Definition new_regular (data : list R) : outcome indexer :=
  match make_regular data with Some g => Ok (Regular g) | None => Throw end.

(** Interpolation.h:625-732.  Without data [x.size() - 1] wraps around and the loops read beyond
    the vector. *)
Definition select_indexer (data : list R) (t : option transform) : outcome indexer :=
  match data with
  | [] => UB
  | _ =>
      match min_index data t with
      | None => Throw
      | Some O => new_irregular data
      | Some 1%nat => new_regular data
      | Some k =>
          match (if (k <=? 3)%nat then t else symlog_of_list data) with
          | None => UB
          | Some t =>
              match (if Nat.even k then new_irregular (all_applied t data) else new_regular (all_applied t data)) with
              | Ok i => Ok (Transformed i t)
              | Throw => Throw
              | UB => UB
              end
          end
      end
  end.

End Select.

(** ** GridIndexer2D *)

(** [std::set] of Interpolation.h:875-880: sorted without repetitions. *)
Fixpoint insert_unique (a : R) (l : list R) : list R :=
  match l with
  | [] => [a]
  | b :: t => if Rlt_dec a b then a :: l else if Rlt_dec b a then b :: insert_unique a t else l
  end.
(** Interpolation.h:875-880. *)
Definition unique (l : list R) : list R := fold_right insert_unique [] l.

(** Interpolation.h:883-888, 890: the place of a value, in the maps [x_map] and [y_map]. *)
Fixpoint place (l : list R) (a : R) : nat :=
  match l with
  | [] => O
  | b :: t => if Req_EM_T a b then O else S (place t a)
  end.

(** Interpolation.h:904-907: [xy_to_z_map.at], the first entry inserted for a key (890); [i] is the
    number of the first point of the list. *)
Fixpoint entry (ux uy : list R) (pts : list (R * R)) (i : nat) (a b : nat) : option nat :=
  match pts with
  | [] => None
  | (x, y) :: t => if ((place ux x =? a) && (place uy y =? b))%nat then Some i else entry ux uy t (S i) a b
  end.

(** Interpolation.h:847-858. *)
Record index2d := mkindex2d { x0 : nat; y0 : nat; x1 : nat; y1 : nat; z00 : nat; z01 : nat; z10 : nat; z11 : nat }.

(** Interpolation.h:868-909, construction from the points and look-up; [new] constructs the
    one-dimensional indexer ([IndexerT], 913-917).  The points are pairs: a vector [y] shorter than [x] is
    not modelled. *)
Definition grid_at (new : list R -> outcome indexer) (pts : list (R * R)) (x y : R) : outcome index2d :=
  let ux := unique (map fst pts) in
  let uy := unique (map snd pts) in
  match new ux, new uy with
  | Ok ix, Ok iy =>
      match index_at ix x, index_at iy y with
      | Ok (x0, x1), Ok (y0, y1) =>
          match entry ux uy pts 0 x0 y0, entry ux uy pts 0 x0 y1, entry ux uy pts 0 x1 y0, entry ux uy pts 0 x1 y1 with
          | Some z00, Some z01, Some z10, Some z11 => Ok (mkindex2d x0 y0 x1 y1 z00 z01 z10 z11)
          | _, _, _, _ => Throw
          end
      | _, _ => UB
      end
  | _, _ => Throw
  end.
