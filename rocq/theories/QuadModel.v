(** Model of the quadtree and of the search for the triangle containing a point.
    Source: projects/math/public/SIREN/math/Interpolation.h.
    The floating-point type is the real numbers; a failed assertion is [None]. *)
From Coq Require Import Reals List Bool Arith.
Import ListNotations.
Open Scope R_scope.

(** Interpolation.h:957-971, [Box]. *)
Record box := mkbox { b_left : R; b_top : R; b_width : R; b_height : R }.

(** Interpolation.h:974-976, [getRight]. *)
Definition b_right (b : box) : R := b_left b + b_width b.
(** Interpolation.h:978-980, [getBottom]. *)
Definition b_bottom (b : box) : R := b_top b + b_height b.
(** Interpolation.h:986-988, [getCenter], abscissa. *)
Definition center_x (b : box) : R := b_left b + b_width b / 2.
(** Interpolation.h:986-988, [getCenter], ordinate. *)
Definition center_y (b : box) : R := b_top b + b_height b / 2.

(** The comparison [<=] of doubles, used at Interpolation.h:995-1001. *)
Definition le (a b : R) : bool := if Rle_dec a b then true else false.
(** The comparison [<] of doubles, used at Interpolation.h:1081-1095. *)
Definition lt (a b : R) : bool := if Rlt_dec a b then true else false.

(** Interpolation.h:994-997, [contains]. *)
Definition contains (a b : box) : bool :=
  le (b_left a) (b_left b) && le (b_right b) (b_right a) && le (b_top a) (b_top b) && le (b_bottom b) (b_bottom a).
(** Interpolation.h:999-1002, [intersects]. *)
Definition intersects (a b : box) : bool :=
  negb (le (b_right b) (b_left a) || le (b_right a) (b_left b) || le (b_bottom b) (b_top a) || le (b_bottom a) (b_top b)).

(** The four positions of Interpolation.h:1061-1071, in their order. *)
Inductive quad := NW | NE | SW | SE.

(** Interpolation.h:1057-1076, [computeBox]. *)
Definition compute_box (b : box) (q : quad) : box :=
  let w := b_width b / 2 in let h := b_height b / 2 in
  match q with
  | NW => mkbox (b_left b) (b_top b) w h
  | NE => mkbox (b_left b + w) (b_top b) w h
  | SW => mkbox (b_left b) (b_top b + h) w h
  | SE => mkbox (b_left b + w) (b_top b + h) w h
  end.

(** Interpolation.h:1078-1107, [getQuadrant]; -1 is [None]. *)
Definition quadrant (nb vb : box) : option quad :=
  if lt (b_right vb) (center_x nb) then
    if lt (b_bottom vb) (center_y nb) then Some NW
    else if le (center_y nb) (b_top vb) then Some SW else None
  else if le (center_x nb) (b_left vb) then
    if lt (b_bottom vb) (center_y nb) then Some NE
    else if le (center_y nb) (b_top vb) then Some SE else None
  else None.

(** Interpolation.h:1040, [Threshold]. *)
Definition threshold : nat := 16.
(** Interpolation.h:1041, [MaxDepth]. *)
Definition max_depth : nat := 8.

(** Interpolation.h:1043-1046, [Node]. The four children are made and removed together
    (1141-1142, 1203-1204), so they are present or absent as a whole. *)
Inductive node (T : Type) := Node (values : list T) (children : option (node T * node T * node T * node T)).
Arguments Node {T}.

Section Quadtree.
Context {T : Type}.
(** Interpolation.h:1050, [mGetBox]. *)
Variable get_box : T -> box.
(** Interpolation.h:1051, [mEqual]. *)
Variable same : T -> T -> bool.

(** Interpolation.h:1043, 1009: a node just made. *)
Definition empty : node T := Node [] None.

(** Interpolation.h:1145-1151: the values that go to the child at [q]. *)
Definition goes (b : box) (q : quad) (v : T) : bool :=
  match quadrant b (get_box v), q with
  | Some NW, NW | Some NE, NE | Some SW, SW | Some SE, SE => true
  | _, _ => false
  end.
(** Interpolation.h:1149-1150: the values that stay. *)
Definition stays (b : box) (v : T) : bool :=
  match quadrant b (get_box v) with None => true | Some _ => false end.

(** Interpolation.h:1109-1135, [add] to a leaf, with [split] (1137-1153); [room] is [MaxDepth]
    minus the depth. After a split the value goes to a new child, a leaf, or stays. *)
Fixpoint add_leaf (room : nat) (vals : list T) (b : box) (v : T) {struct room} : option (node T) :=
  if negb (contains b (get_box v)) then None
  else match room with
  | O => Some (Node (vals ++ [v]) None)
  | S room' =>
      if length vals <? threshold then Some (Node (vals ++ [v]) None)
      else
        let part q := filter (goes b q) vals in
        let child q := Node (part q) None in
        let keep := filter (stays b) vals in
        match quadrant b (get_box v) with
        | None => Some (Node (keep ++ [v]) (Some (child NW, child NE, child SW, child SE)))
        | Some q =>
            match add_leaf room' (part q) (compute_box b q) v with
            | None => None
            | Some c =>
                Some (Node keep (Some match q with
                  | NW => (c, child NE, child SW, child SE)
                  | NE => (child NW, c, child SW, child SE)
                  | SW => (child NW, child NE, c, child SE)
                  | SE => (child NW, child NE, child SW, c)
                  end))
            end
        end
  end.

(** Interpolation.h:1109-1135, [add]. *)
Fixpoint add (room : nat) (n : node T) (b : box) (v : T) {struct n} : option (node T) :=
  match n with
  | Node vals None => add_leaf room vals b v
  | Node vals (Some (c1, c2, c3, c4)) =>
      if negb (contains b (get_box v)) then None
      else match quadrant b (get_box v) with
      | None => Some (Node (vals ++ [v]) (Some (c1, c2, c3, c4)))
      | Some NW => option_map (fun c => Node vals (Some (c, c2, c3, c4))) (add (pred room) c1 (compute_box b NW) v)
      | Some NE => option_map (fun c => Node vals (Some (c1, c, c3, c4))) (add (pred room) c2 (compute_box b NE) v)
      | Some SW => option_map (fun c => Node vals (Some (c1, c2, c, c4))) (add (pred room) c3 (compute_box b SW) v)
      | Some SE => option_map (fun c => Node vals (Some (c1, c2, c3, c))) (add (pred room) c4 (compute_box b SE) v)
      end
  end.

(** Interpolation.h:1177-1185, [removeValue]: the first equal value is replaced by the last one,
    which is then removed. *)
Fixpoint remove_value (vals : list T) (v : T) : option (list T) :=
  match vals with
  | [] => None
  | a :: t =>
      if same v a then
        Some match t with [] => [] | _ => last t a :: removelast t end
      else option_map (cons a) (remove_value t v)
  end.

(** Interpolation.h:1053-1055, [isLeaf]. *)
Definition is_leaf (n : node T) : bool := match n with Node _ None => true | _ => false end.
(** Interpolation.h:1045, the values of a node. *)
Definition vals_of (n : node T) : list T := match n with Node l _ => l end.

(** Interpolation.h:1187-1209, [tryMerge], of a node with children: the node and the result. *)
Definition try_merge (vals : list T) (c1 c2 c3 c4 : node T) : node T * bool :=
  if is_leaf c1 && is_leaf c2 && is_leaf c3 && is_leaf c4 then
    let all := vals ++ vals_of c1 ++ vals_of c2 ++ vals_of c3 ++ vals_of c4 in
    if (length all <=? threshold)%nat then (Node all None, true)
    else (Node vals (Some (c1, c2, c3, c4)), false)
  else (Node vals (Some (c1, c2, c3, c4)), false).

(** Interpolation.h:1155-1175, [remove]: the node and the result. *)
Fixpoint remove (n : node T) (b : box) (v : T) {struct n} : option (node T * bool) :=
  if negb (contains b (get_box v)) then None
  else match n with
  | Node vals None => option_map (fun l => (Node l None, true)) (remove_value vals v)
  | Node vals (Some (c1, c2, c3, c4)) =>
      let after (r : option (node T * bool)) (f : node T -> node T * node T * node T * node T) :=
        match r with
        | None => None
        | Some (c, m) =>
            let '(d1, d2, d3, d4) := f c in
            Some (if m then try_merge vals d1 d2 d3 d4 else (Node vals (Some (d1, d2, d3, d4)), false))
        end in
      match quadrant b (get_box v) with
      | None => option_map (fun l => (Node l (Some (c1, c2, c3, c4)), false)) (remove_value vals v)
      | Some NW => after (remove c1 (compute_box b NW) v) (fun c => (c, c2, c3, c4))
      | Some NE => after (remove c2 (compute_box b NE) v) (fun c => (c1, c, c3, c4))
      | Some SW => after (remove c3 (compute_box b SW) v) (fun c => (c1, c2, c, c4))
      | Some SE => after (remove c4 (compute_box b SE) v) (fun c => (c1, c2, c3, c))
      end
  end.

(** Interpolation.h:1211-1225, [query] below a node whose box intersects the one asked for; the
    assertion of line 1213 then holds for the children by the test of line 1221. *)
Fixpoint query_node (n : node T) (b q : box) {struct n} : list T :=
  match n with
  | Node vals None => filter (fun v => intersects q (get_box v)) vals
  | Node vals (Some (c1, c2, c3, c4)) =>
      let at_child c i := if intersects q (compute_box b i) then query_node c (compute_box b i) q else [] in
      filter (fun v => intersects q (get_box v)) vals ++ at_child c1 NW ++ at_child c2 NE ++ at_child c3 SW ++ at_child c4 SE
  end.
(** Interpolation.h:1023-1027 with the assertion of line 1213, [query]. *)
Definition query (n : node T) (b q : box) : option (list T) :=
  if intersects q b then Some (query_node n b q) else None.

(** Interpolation.h:1230-1235: pairs of values of one node. [seen] are those before. *)
Fixpoint pairs_within (seen vals : list T) : list (T * T) :=
  match vals with
  | [] => []
  | a :: t =>
      map (fun o => (a, o)) (filter (fun o => intersects (get_box a) (get_box o)) seen) ++ pairs_within (seen ++ [a]) t
  end.
(** Interpolation.h:1248-1259, [findIntersectionsInDescendants]. *)
Fixpoint below (n : node T) (v : T) {struct n} : list (T * T) :=
  match n with
  | Node vals None => map (fun o => (v, o)) (filter (fun o => intersects (get_box v) (get_box o)) vals)
  | Node vals (Some (c1, c2, c3, c4)) =>
      map (fun o => (v, o)) (filter (fun o => intersects (get_box v) (get_box o)) vals)
      ++ below c1 v ++ below c2 v ++ below c3 v ++ below c4 v
  end.
(** Interpolation.h:1227-1246, [findAllIntersections]. *)
Fixpoint all_pairs (n : node T) {struct n} : list (T * T) :=
  match n with
  | Node vals None => pairs_within [] vals
  | Node vals (Some (c1, c2, c3, c4)) =>
      pairs_within [] vals
      ++ flat_map (below c1) vals ++ flat_map (below c2) vals ++ flat_map (below c3) vals ++ flat_map (below c4) vals
      ++ all_pairs c1 ++ all_pairs c2 ++ all_pairs c3 ++ all_pairs c4
  end.

(** Interpolation.h:1015-1021: a call of [add] or of [remove] on the tree. *)
Inductive op := Add (v : T) | Remove (v : T).
(** Interpolation.h:1015-1021, [add] and [remove] from the root. *)
Definition step (b : box) (n : node T) (o : op) : option (node T) :=
  match o with
  | Add v => add max_depth n b v
  | Remove v => option_map fst (remove n b v)
  end.
(** Interpolation.h:1009-1021: calls in sequence, from [n]. *)
Fixpoint run (b : box) (n : node T) (os : list op) : option (node T) :=
  match os with
  | [] => Some n
  | o :: t => match step b n o with None => None | Some n' => run b n' t end
  end.
End Quadtree.
