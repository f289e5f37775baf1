(** Properties C108 and C109. *)
From Coq Require Import Reals List Bool Arith Permutation Lra Lia.
From Verif Require Import TraversalModel QuadModel QuadSpec QuadProofs QuadProps TransModel DelModel DelSpec DelProofs.
Import ListNotations.
Open Scope R_scope.

(** ** C108 *)

(** The test for a point in a triangle is exact: true in the inside of a proper triangle only, whatever its orientation. *)
Theorem C108_inside : forall x y t, point_in_triangle x y t = true <-> within (x, y) (at_point (p0 t)) (at_point (p1 t)) (at_point (p2 t)).
Proof. exact in_triangle. Qed.
Print Assumptions C108_inside.

(** A point in the inside of some triangle gets such a triangle, with its coordinates and numbers; a point among the data in no triangle gets none. *)
Theorem C108_lookup : forall triangulate pts ns, pts <> [] -> triangulate pts = Some ns -> names pts ns ->
  exists i, build triangulate pts = Ok i /\ forall x y,
  (forall n, In n ns -> within_numbers pts (x, y) n ->
     exists t, lookup i x y = Ok (Some t) /\ In (numbers t) ns /\ within_numbers pts (x, y) (numbers t) /\
     at_point (p0 t) = at_number pts (pi (p0 t)) /\ at_point (p1 t) = at_number pts (pi (p1 t)) /\ at_point (p2 t) = at_number pts (pi (p2 t))) /\
  (among pts (x, y) -> (forall n, In n ns -> ~ within_numbers pts (x, y) n) -> lookup i x y = Ok None).
Proof.
  intros triangulate [|a l] ns NE T N; [contradiction|]. destruct (build_ok triangulate a l ns T N) as [k [B _]]. eexists. split; [exact B|]. intros x y. split.
  - intros n I W. pose proof (among_overlap a l x y (within_among _ _ _ _ _ N I W)) as O.
    destruct (lookup_ok triangulate a l ns _ x y T N B O) as [[m [J [V E]]]|[F _]]; [|exfalso; exact (F n I W)].
    eexists. split; [exact E|]. rewrite numbers_triangle. split; [exact J|]. split; [exact V|]. destruct m as [[i j] m].
    cbn [triangle p0 p1 p2 pi]. unfold at_point. cbn [px py]. rewrite <- !surjective_pairing. auto.
  - intros A F. destruct (lookup_ok triangulate a l ns _ x y T N B (among_overlap a l x y A)) as [[m [J [V E]]]|[_ E]]; [exfalso; exact (F m J V)|exact E].
Qed.
Print Assumptions C108_lookup.

(** If the triangles do not overlap, the one found is the one that contains the point. *)
Theorem C108_the_triangle : forall triangulate pts ns i x y n, triangulate pts = Some ns -> names pts ns -> disjoint pts ns -> build triangulate pts = Ok i ->
  In n ns -> within_numbers pts (x, y) n -> exists t, lookup i x y = Ok (Some t) /\ numbers t = n.
Proof.
  intros triangulate pts ns i x y n T N D B I W. assert (NE : pts <> []) by (intros ->; discriminate).
  destruct (C108_lookup triangulate pts ns NE T N) as [i' [B' H]]. assert (i' = i) by congruence. subst i'.
  destruct (proj1 (H x y) n I W) as [t [L [J [V _]]]]. exists t. split; [exact L|]. exact (D (x, y) (numbers t) n J I V W).
Qed.
Print Assumptions C108_the_triangle.

(** Two triangles that form a square. *)
Definition square : list (R * R) := [(0, 0); (4, 0); (0, 4); (4, 4)].
(** Its triangulation, as the oracle would return it. *)
Definition halves : list (nat * nat * nat) := [(0, 1, 2); (1, 3, 2)]%nat.
Lemma square_names : names square halves.
Proof. intros i j k [E|[E|[]]]; injection E as <- <- <-; cbn; lia. Qed.
Lemma square_first x y : within_numbers square (x, y) (0, 1, 2)%nat <-> 0 < x /\ 0 < y /\ x + y < 4.
Proof.
  unfold within_numbers, within, proper, mean, at_number, square. cbn [nth fst snd]. split.
  - intros [_ [u [v [w [U [V [W [S [X Y]]]]]]]]]. lra.
  - intros [X [Y S]]. split; [lra|]. exists (1 - x / 4 - y / 4), (x / 4), (y / 4). repeat split; lra.
Qed.
Lemma square_second x y : within_numbers square (x, y) (1, 3, 2)%nat <-> x < 4 /\ y < 4 /\ 4 < x + y.
Proof.
  unfold within_numbers, within, proper, mean, at_number, square. cbn [nth fst snd]. split.
  - intros [_ [u [v [w [U [V [W [S [X Y]]]]]]]]]. lra.
  - intros [X [Y S]]. split; [lra|]. exists (1 - y / 4), (x / 4 + y / 4 - 1), (1 - x / 4). repeat split; lra.
Qed.
Lemma square_none x y : overlap (mkbox x y 0 0) (bounding (0, 0) [(4, 0); (0, 4); (4, 4)]) ->
  ~ within_numbers square (x, y) (0, 1, 2)%nat -> ~ within_numbers square (x, y) (1, 3, 2)%nat ->
  exists i, build (fun _ => Some halves) square = Ok i /\ lookup i x y = Ok None.
Proof.
  intros O F S. destruct (build_ok (fun _ => Some halves) (0, 0) [(4, 0); (0, 4); (4, 4)] halves eq_refl square_names) as [n [B _]].
  eexists. split; [exact B|].
  destruct (lookup_ok (fun _ => Some halves) _ _ halves _ x y eq_refl square_names B O) as [[m [[<-|[<-|[]]] [W _]]]|[_ L]]; [contradiction|contradiction|exact L].
Qed.
Lemma square_bounds : bounding (0, 0) [(4, 0); (0, 4); (4, 4)] = mkbox (0 - 4 * (1 / 10000)) (0 - 4 * (1 / 10000)) (4 * (1 + 2 / 10000)) (4 * (1 + 2 / 10000)).
Proof.
  unfold bounding, least, greatest. cbn [map fst snd fold_left].
  rewrite (Rmin_left 0 4), (Rmin_left 0 0), (Rmin_left 0 4), (Rmax_right 0 4), (Rmax_left 4 0), (Rmax_left 4 4), (Rmax_left 0 0), (Rmax_right 0 4), (Rmax_left 4 4) by lra.
  rewrite ?(Rmin_left 0 4) by lra. f_equal; lra.
Qed.

(** A data point is in the inside of no triangle, and none is found for it. *)
Theorem C108_node_refuted : exists triangulate pts ns i p, triangulate pts = Some ns /\ names pts ns /\ disjoint pts ns /\ build triangulate pts = Ok i /\
  In p pts /\ lookup i (fst p) (snd p) = Ok None.
Proof.
  destruct (square_none 0 0) as [i [B L]].
  { rewrite square_bounds. unfold overlap. cbn [b_left b_width b_top b_height]. lra. }
  { rewrite square_first. lra. } { rewrite square_second. lra. }
  exists (fun _ => Some halves), square, halves, i, (0, 0). split; [reflexivity|]. split; [exact square_names|]. split.
  - intros [x y] m n [<-|[<-|[]]] [<-|[<-|[]]]; auto; rewrite square_first, square_second; lra.
  - split; [exact B|]. split; [left; reflexivity|exact L].
Qed.
Print Assumptions C108_node_refuted.

(** A point on the edge between two triangles, in the middle of the data, is found in neither. *)
Theorem C108_edge_refuted : exists triangulate pts ns i x y, triangulate pts = Some ns /\ names pts ns /\ disjoint pts ns /\ build triangulate pts = Ok i /\
  among pts (x, y) /\ lookup i x y = Ok None.
Proof.
  destruct (square_none 2 2) as [i [B L]].
  { rewrite square_bounds. unfold overlap. cbn [b_left b_width b_top b_height]. lra. }
  { rewrite square_first. lra. } { rewrite square_second. lra. }
  exists (fun _ => Some halves), square, halves, i, 2, 2. split; [reflexivity|]. split; [exact square_names|]. split.
  - intros [x y] m n [<-|[<-|[]]] [<-|[<-|[]]]; auto; rewrite square_first, square_second; lra.
  - split; [exact B|]. split; [|exact L]. split; exists (0, 0), (4, 4); cbn; (split; [auto|split; [auto 6|lra]]).
Qed.
Print Assumptions C108_edge_refuted.

(** For a point away from the data the search ends in a failed assertion, not in the null pointer. *)
Theorem C108_outside_refuted : exists triangulate pts ns i x y, triangulate pts = Some ns /\ names pts ns /\ build triangulate pts = Ok i /\ lookup i x y = UB.
Proof.
  destruct (build_ok (fun _ => Some halves) (0, 0) [(4, 0); (0, 4); (4, 4)] halves eq_refl square_names) as [n [B _]].
  exists (fun _ => Some halves), square, halves. eexists. exists 9, 9. split; [reflexivity|]. split; [exact square_names|]. split; [exact B|].
  unfold lookup. cbn [tris tree bounds]. unfold query. rewrite (proj2 (intersects_apart _ _)); [reflexivity|].
  rewrite square_bounds. unfold overlap. cbn [b_left b_width b_top b_height]. lra.
Qed.
Print Assumptions C108_outside_refuted.

(** The point (1, 2) of the square is found in its first half, the point (3, 2) in its second. *)
Example C108_case : exists i, build (fun _ => Some halves) square = Ok i /\
  (exists t, lookup i 1 2 = Ok (Some t) /\ numbers t = (0, 1, 2)%nat) /\ (exists t, lookup i 3 2 = Ok (Some t) /\ numbers t = (1, 3, 2)%nat).
Proof.
  assert (D : disjoint square halves) by (intros [x y] m n [<-|[<-|[]]] [<-|[<-|[]]]; auto; rewrite square_first, square_second; lra).
  destruct (C108_lookup (fun _ => Some halves) square halves ltac:(discriminate) eq_refl square_names) as [i [B _]]. exists i. split; [exact B|]. split.
  - apply (C108_the_triangle (fun _ => Some halves) square halves); auto; [exact square_names|left; reflexivity|apply square_first; lra].
  - apply (C108_the_triangle (fun _ => Some halves) square halves); auto; [exact square_names|right; left; reflexivity|apply square_second; lra].
Qed.

(** ** C109 *)

(** The operator's denominator is twice the area. *)
Lemma denominator_area t : (py (p1 t) - py (p2 t)) * (px (p0 t) - px (p2 t)) + (px (p2 t) - px (p1 t)) * (py (p0 t) - py (p2 t)) =
  (px (p1 t) - px (p0 t)) * (py (p2 t) - py (p0 t)) - (px (p2 t) - px (p0 t)) * (py (p1 t) - py (p0 t)).
Proof. ring. Qed.

(** In a proper triangle the operator returns the mean of the values with the weights of the point. *)
Theorem C109_weights : forall t x y z0 z1 z2 u v w, proper (at_point (p0 t)) (at_point (p1 t)) (at_point (p2 t)) ->
  mean (x, y) (at_point (p0 t)) (at_point (p1 t)) (at_point (p2 t)) u v w -> simplex x y t z0 z1 z2 = Some (u * z0 + v * z1 + w * z2).
Proof.
  intros t x y z0 z1 z2 u v w P [S [X Y]]. unfold proper, at_point in *. cbn [fst snd] in *. rewrite <- denominator_area in P.
  unfold simplex. set (d := (py (p1 t) - py (p2 t)) * (px (p0 t) - px (p2 t)) + (px (p2 t) - px (p1 t)) * (py (p0 t) - py (p2 t))) in *.
  destruct (Req_EM_T d 0) as [Z|Z]; [contradiction|]. f_equal. assert (w = 1 - u - v) by lra. subst w.
  assert (A : (py (p1 t) - py (p2 t)) * (x - px (p2 t)) + (px (p2 t) - px (p1 t)) * (y - py (p2 t)) = u * d) by (rewrite X, Y; unfold d; ring).
  assert (B : (py (p2 t) - py (p0 t)) * (x - px (p2 t)) + (px (p0 t) - px (p2 t)) * (y - py (p2 t)) = v * d) by (rewrite X, Y; unfold d; ring).
  rewrite A, B. field. exact Z.
Qed.
Print Assumptions C109_weights.

(** Every point of the plane has weights. *)
Lemma has_weights (p a b c : R * R) : proper a b c -> exists u v w, mean p a b c u v w.
Proof.
  destruct p as [x y], a as [x0 y0], b as [x1 y1], c as [x2 y2]. unfold proper, mean. cbn [fst snd]. intros P.
  set (d := (x1 - x0) * (y2 - y0) - (x2 - x0) * (y1 - y0)) in *.
  exists (1 - ((x - x0) * (y2 - y0) - (x2 - x0) * (y - y0)) / d - ((x1 - x0) * (y - y0) - (x - x0) * (y1 - y0)) / d),
    (((x - x0) * (y2 - y0) - (x2 - x0) * (y - y0)) / d), (((x1 - x0) * (y - y0) - (x - x0) * (y1 - y0)) / d).
  split; [lra|]. split; unfold d in *; field; exact P.
Qed.

(** The operator reproduces every affine function, at every point of the plane. *)
Theorem C109_affine : forall t x y a b c, proper (at_point (p0 t)) (at_point (p1 t)) (at_point (p2 t)) ->
  let f p := a + b * px p + c * py p in simplex x y t (f (p0 t)) (f (p1 t)) (f (p2 t)) = Some (a + b * x + c * y).
Proof.
  intros t x y a b c P f. destruct (has_weights (x, y) _ _ _ P) as [u [v [w M]]]. rewrite (C109_weights t x y _ _ _ u v w P M). f_equal.
  destruct M as [S [X Y]]. unfold at_point in *. cbn [fst snd] in *. unfold f. rewrite X, Y. replace a with (a * (u + v + w)) at 4 by (rewrite S; ring). ring.
Qed.
Print Assumptions C109_affine.

(** On an edge, the ends included, the value depends only on the values at its ends: triangles that share an edge agree on it. *)
Theorem C109_edge : forall t s x y z0 z1 z2 z3 r, proper (at_point (p0 t)) (at_point (p1 t)) (at_point (p2 t)) -> proper (at_point (p0 s)) (at_point (p1 s)) (at_point (p2 s)) ->
  at_point (p0 t) = at_point (p0 s) -> at_point (p1 t) = at_point (p1 s) ->
  x = (1 - r) * px (p0 t) + r * px (p1 t) -> y = (1 - r) * py (p0 t) + r * py (p1 t) ->
  simplex x y t z0 z1 z2 = Some ((1 - r) * z0 + r * z1) /\ simplex x y s z0 z1 z3 = simplex x y t z0 z1 z2.
Proof.
  intros t s x y z0 z1 z2 z3 r P Q E0 E1 -> ->. set (x := _ + _). set (y := _ + _).
  assert (A : mean (x, y) (at_point (p0 t)) (at_point (p1 t)) (at_point (p2 t)) (1 - r) r 0) by (unfold mean, at_point; cbn [fst snd]; unfold x, y; repeat split; ring).
  assert (B : mean (x, y) (at_point (p0 s)) (at_point (p1 s)) (at_point (p2 s)) (1 - r) r 0) by (rewrite <- E0, <- E1; unfold mean, at_point; cbn [fst snd]; unfold x, y; repeat split; ring).
  rewrite (C109_weights t x y z0 z1 z2 _ _ _ P A), (C109_weights s x y z0 z1 z3 _ _ _ Q B). split; f_equal; ring.
Qed.
Print Assumptions C109_edge.

(** The order of the vertices does not matter. *)
Theorem C109_order : forall a b c x y za zb zc, proper (at_point a) (at_point b) (at_point c) ->
  simplex x y (mktri b a c) zb za zc = simplex x y (mktri a b c) za zb zc /\ simplex x y (mktri b c a) zb zc za = simplex x y (mktri a b c) za zb zc.
Proof.
  intros a b c x y za zb zc P. destruct (has_weights (x, y) _ _ _ P) as [u [v [w M]]].
  rewrite (C109_weights (mktri a b c) x y za zb zc u v w P M). destruct M as [S [X Y]]. cbn [p0 p1 p2]. split.
  - rewrite (C109_weights (mktri b a c) x y zb za zc v u w).
    + f_equal. ring.
    + unfold proper in *. cbn [p0 p1 p2]. intros E. apply P. rewrite <- Ropp_0, <- E. ring.
    + cbn [p0 p1 p2]. unfold mean. rewrite X, Y. repeat split; lra.
  - rewrite (C109_weights (mktri b c a) x y zb zc za v w u).
    + f_equal. ring.
    + unfold proper in *. cbn [p0 p1 p2]. intros E. apply P. rewrite <- E. ring.
    + cbn [p0 p1 p2]. unfold mean. rewrite X, Y. repeat split; lra.
Qed.
Print Assumptions C109_order.

Lemma transform_identity l : transform_all Identity Identity Identity l = Some l.
Proof. induction l as [|[[x y] z] t IH]; cbn; [reflexivity|]. rewrite IH. reflexivity. Qed.

Lemma nth_split (l : list (R * R * R)) i : (i < length l)%nat ->
  exists n, nth_error l i = Some n /\ nth_error (map snd l) i = Some (snd n) /\ at_number (map fst l) i = fst n /\ In n l.
Proof.
  intros L. destruct (nth_error l i) as [n|] eqn:E; [|apply nth_error_None in E; lia]. exists n. split; [reflexivity|].
  split; [apply map_nth_error, E|]. split; [apply nth_error_nth, map_nth_error, E|eapply nth_error_In, E].
Qed.

(** The interpolator without transforms: at a point in some triangle the value is the mean of the values at the vertices of such a triangle with the weights of the point. *)
Theorem C109_interpolator : forall triangulate l ns x y n, let pts := map fst l in triangulate pts = Some ns -> names pts ns -> In n ns -> within_numbers pts (x, y) n ->
  exists f, construct triangulate Identity Identity Identity Plain l = Ok f /\
  exists a b c u v w, In a l /\ In b l /\ In c l /\ 0 < u /\ 0 < v /\ 0 < w /\ mean (x, y) (fst a) (fst b) (fst c) u v w /\
  evaluate f x y = Ok (u * snd a + v * snd b + w * snd c).
Proof.
  cbv zeta. intros triangulate l ns x y n T N I W.
  assert (NE : map fst l <> []). { intros E. destruct n as [[i j] k]. destruct (N i j k I) as [L _]. rewrite E in L. cbn in L. lia. }
  destruct (C108_lookup triangulate _ ns NE T N) as [ix [B H]].
  eexists. split; [unfold construct; rewrite B, transform_identity, B; reflexivity|].
  destruct (proj1 (H x y) n I W) as [t [L [J [V [E0 [E1 E2]]]]]]. unfold evaluate. cbn [DelModel.ix t_z op z_transform]. rewrite L.
  destruct (N _ _ _ J) as [L0 [L1 L2]]. rewrite map_length in L0, L1, L2.
  destruct (nth_split l _ L0) as [a [_ [Za [Pa Ia]]]]. destruct (nth_split l _ L1) as [b [_ [Zb [Pb Ib]]]]. destruct (nth_split l _ L2) as [c [_ [Zc [Pc Ic]]]].
  rewrite Za, Zb, Zc. cbn [simplex_by]. unfold within_numbers, numbers in V. destruct V as [P [u [v [w [U [V [Q M]]]]]]].
  exists a, b, c, u, v, w. rewrite Pa, Pb, Pc in *. repeat (split; [assumption|]). rewrite <- E0, <- E1, <- E2 in P, M.
  rewrite (C109_weights t x y _ _ _ u v w P M). reflexivity.
Qed.
Print Assumptions C109_interpolator.

(** Data of an affine function are interpolated exactly. *)
Theorem C109_exact : forall triangulate l ns x y n a b c, let pts := map fst l in triangulate pts = Some ns -> names pts ns -> In n ns -> within_numbers pts (x, y) n ->
  (forall d, In d l -> snd d = a + b * fst (fst d) + c * snd (fst d)) ->
  exists f, construct triangulate Identity Identity Identity Plain l = Ok f /\ evaluate f x y = Ok (a + b * x + c * y).
Proof.
  cbv zeta. intros triangulate l ns x y n a b c T N I W A. destruct (C109_interpolator triangulate l ns x y n T N I W) as [f [F [p [q [r [u [v [w [P [Q [R [_ [_ [_ [[S [X Y]] E]]]]]]]]]]]]]]].
  exists f. split; [exact F|]. rewrite E, (A p P), (A q Q), (A r R). cbn [fst snd] in X, Y. rewrite X, Y. f_equal. replace a with (a * (u + v + w)) at 4 by (rewrite S; ring). ring.
Qed.
Print Assumptions C109_exact.

(** The value lies between the least and the greatest of the data. *)
Theorem C109_between : forall triangulate l ns x y n lo hi, let pts := map fst l in triangulate pts = Some ns -> names pts ns -> In n ns -> within_numbers pts (x, y) n ->
  (forall d, In d l -> lo <= snd d <= hi) ->
  exists f v, construct triangulate Identity Identity Identity Plain l = Ok f /\ evaluate f x y = Ok v /\ lo <= v <= hi.
Proof.
  cbv zeta. intros triangulate l ns x y n lo hi T N I W A. destruct (C109_interpolator triangulate l ns x y n T N I W) as [f [F [p [q [r [u [v [w [P [Q [R [U [V [O [[S _] E]]]]]]]]]]]]]]].
  exists f, (u * snd p + v * snd q + w * snd r). split; [exact F|]. split; [exact E|].
  pose proof (A p P). pose proof (A q Q). pose proof (A r R).
  assert (0 <= u * (snd p - lo)) by (apply Rmult_le_pos; lra). assert (0 <= v * (snd q - lo)) by (apply Rmult_le_pos; lra). assert (0 <= w * (snd r - lo)) by (apply Rmult_le_pos; lra).
  assert (0 <= u * (hi - snd p)) by (apply Rmult_le_pos; lra). assert (0 <= v * (hi - snd q)) by (apply Rmult_le_pos; lra). assert (0 <= w * (hi - snd r)) by (apply Rmult_le_pos; lra).
  assert (lo = lo * (u + v + w)) by (rewrite S; ring). assert (hi = hi * (u + v + w)) by (rewrite S; ring). split; lra.
Qed.
Print Assumptions C109_between.

(** The interpolator throws at its own data points. *)
Theorem C109_node_refuted : exists triangulate l f d, construct triangulate Identity Identity Identity Plain l = Ok f /\ In d l /\
  evaluate f (fst (fst d)) (snd (fst d)) = Throw.
Proof.
  destruct (square_none 0 0) as [i [B L]].
  { rewrite square_bounds. unfold overlap. cbn [b_left b_width b_top b_height]. lra. }
  { rewrite square_first. lra. } { rewrite square_second. lra. }
  exists (fun _ => Some halves), [((0, 0), 1); ((4, 0), 2); ((0, 4), 3); ((4, 4), 4)]. eexists. exists ((0, 0), 1).
  split; [unfold construct; rewrite transform_identity; cbn [map fst snd]; change [(0, 0); (4, 0); (0, 4); (4, 4)] with square; rewrite B; reflexivity|].
  split; [left; reflexivity|]. unfold evaluate. cbn [DelModel.ix fst snd]. rewrite L. reflexivity.
Qed.
Print Assumptions C109_node_refuted.

(** With a transform of the coordinates the position is not transformed: a function linear in the logarithm is given at the exponential of the position. *)
Theorem C109_transform_refuted : exists triangulate l f x y v, construct triangulate Log Identity Identity Plain l = Ok f /\
  (forall d, In d l -> snd d = ln (fst (fst d))) /\ evaluate f x y = Ok v /\ v <> ln x /\ v = ln (exp x).
Proof.
  set (l := [((exp 0, 0), 0); ((exp 4, 0), 4); ((exp 0, 4), 0); ((exp 4, 4), 4)]).
  set (m := [((0, 0), 0); ((4, 0), 4); ((0, 4), 0); ((4, 4), 4)]).
  assert (TL : transform_all Log Identity Identity l = Some m).
  { unfold l, m. cbn [transform_all transformed apply].
    destruct (Rlt_dec 0 (exp 0)) as [_|C]; [|exfalso; apply C, exp_pos]. destruct (Rlt_dec 0 (exp 4)) as [_|C]; [|exfalso; apply C, exp_pos]. rewrite !ln_exp. reflexivity. }
  destruct (C109_exact (fun _ => Some halves) m halves 1 1 (0, 1, 2)%nat 0 1 0 eq_refl square_names) as [f [F E]].
  { left. reflexivity. } { apply square_first. lra. } { intros d [<-|[<-|[<-|[<-|[]]]]]; cbn; lra. }
  destruct (build_ok (fun _ => Some halves) (exp 0, 0) [(exp 4, 0); (exp 0, 4); (exp 4, 4)] halves eq_refl) as [k [B _]].
  { intros i j q [Q|[Q|[]]]; injection Q as <- <- <-; cbn; lia. }
  exists (fun _ => Some halves), l, f, 1, 1, (0 + 1 * 1 + 0 * 1). split.
  - unfold construct. change (map fst l) with [(exp 0, 0); (exp 4, 0); (exp 0, 4); (exp 4, 4)]. rewrite B, TL.
    unfold construct in F. rewrite transform_identity in F. destruct (build (fun _ => Some halves) (map fst m)) as [i| |]; [exact F|discriminate|discriminate].
  - split; [intros d [<-|[<-|[<-|[<-|[]]]]]; cbn [fst snd]; rewrite ln_exp; reflexivity|]. split; [exact E|]. rewrite ln_1, ln_exp. lra.
Qed.
Print Assumptions C109_transform_refuted.

(** The operator that drops zeros takes the first value for the second: it misses an affine function with no zeros. *)
Theorem C109_drop_refuted : exists t x y a b c, proper (at_point (p0 t)) (at_point (p1 t)) (at_point (p2 t)) /\
  (let f p := a + b * px p + c * py p in f (p0 t) <> 0 /\ f (p1 t) <> 0 /\ f (p2 t) <> 0 /\
   exists v, drop_simplex x y t (f (p0 t)) (f (p1 t)) (f (p2 t)) = Some v /\ v <> a + b * x + c * y).
Proof.
  exists (mktri (mkpoint 0 0 0) (mkpoint 4 0 1) (mkpoint 0 4 2)), 1, 1, 1, 1, 0. unfold proper, at_point. cbn [p0 p1 p2 px py fst snd]. split; [lra|]. cbv zeta.
  split; [lra|]. split; [lra|]. split; [lra|]. eexists. unfold drop_simplex, simplex. cbn [p0 p1 p2 px py].
  repeat (match goal with |- context [Req_EM_T ?a ?b] => destruct (Req_EM_T a b); [exfalso; lra|] end). split; [reflexivity|]. lra.
Qed.
Print Assumptions C109_drop_refuted.

(** On the square with the values of 1 + 2x + 3y, the value at (1, 2) is 9. *)
Example C109_case : exists f, construct (fun _ => Some halves) Identity Identity Identity Plain [((0, 0), 1); ((4, 0), 9); ((0, 4), 13); ((4, 4), 21)] = Ok f /\
  evaluate f 1 2 = Ok 9.
Proof.
  destruct (C109_exact (fun _ => Some halves) [((0, 0), 1); ((4, 0), 9); ((0, 4), 13); ((4, 4), 21)] halves 1 2 (0, 1, 2)%nat 1 2 3 eq_refl square_names) as [f [F E]].
  { left. reflexivity. } { apply square_first. lra. } { intros d [<-|[<-|[<-|[<-|[]]]]]; cbn; lra. }
  exists f. split; [exact F|]. rewrite E. f_equal. lra.
Qed.
