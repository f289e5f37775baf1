(** Lemmas on the Delaunay indexer. *)
From Coq Require Import Reals List Bool Arith Permutation Lra Lia.
From Verif Require Import TraversalModel QuadModel QuadSpec QuadProofs QuadProps TransModel DelModel DelSpec.
Import ListNotations.
Open Scope R_scope.

Lemma lt_true a b : lt a b = true <-> a < b.
Proof. unfold lt. destruct (Rlt_dec a b); split; auto; discriminate. Qed.

Lemma in_triangle x y t : point_in_triangle x y t = true <-> within (x, y) (at_point (p0 t)) (at_point (p1 t)) (at_point (p2 t)).
Proof.
  destruct t as [[x0 y0 i] [x1 y1 j] [x2 y2 k]]. unfold point_in_triangle, within, proper, mean, at_point. cbn [px py p0 p1 p2 fst snd].
  set (ds := - y1 * x2 + y0 * (- x1 + x2) + x0 * (y1 - y2) + x1 * y2).
  set (dt := y0 * (x1 - x2) + y1 * x2 - x1 * y2 + x0 * (- y1 + y2)).
  assert (E : (x1 - x0) * (y2 - y0) - (x2 - x0) * (y1 - y0) = ds) by (unfold ds; ring).
  assert (F : dt = - ds) by (unfold dt, ds; ring). rewrite E.
  destruct (Req_EM_T ds 0) as [Z|Z]; [split; [discriminate|intros [N _]; contradiction]|].
  destruct (Req_EM_T dt 0) as [Z'|Z']; [exfalso; apply Z; lra|].
  rewrite !andb_true_iff, !lt_true.
  set (s := (y * (x0 - x2) + y0 * x2 - x0 * y2 + x * (- y0 + y2)) / ds).
  set (t := (y * (x0 - x1) + y0 * x1 - x0 * y1 + x * (- y0 + y1)) / dt).
  split.
  - intros [[S T] U]. split; [exact Z|]. exists (1 - s - t), s, t. split; [lra|]. split; [lra|]. split; [lra|]. split; [lra|].
    unfold s, t. rewrite F. unfold ds in *. split; field; auto.
  - intros [_ [u [v [w [U [V [W [H [X Y]]]]]]]]].
    assert (u = 1 - v - w) by lra. subst u.
    assert (Sv : s = v). { unfold s. rewrite X, Y. replace (_ + _) with (v * ds) by (unfold ds; ring). field. exact Z. }
    assert (Tw : t = w). { unfold t. rewrite X, Y. replace (_ + _) with (w * dt) by (unfold dt; ring). field. exact Z'. }
    rewrite Sv, Tw. lra.
Qed.

Lemma least_le a l : least a l <= a /\ forall b, In b l -> least a l <= b.
Proof.
  revert a. unfold least. induction l as [|c t IH]; intros a; cbn; [split; [lra|intros b []]|].
  destruct (IH (Rmin a c)) as [H K]. pose proof (Rmin_l a c). pose proof (Rmin_r a c). split; [lra|]. intros b [<-|I]; [lra|auto].
Qed.
Lemma least_in a l : least a l = a \/ In (least a l) l.
Proof.
  revert a. unfold least. induction l as [|c t IH]; intros a; cbn; [auto|]. destruct (IH (Rmin a c)) as [H|H]; [|auto].
  unfold Rmin in *. destruct (Rle_dec a c); rewrite H; auto.
Qed.
Lemma greatest_ge a l : a <= greatest a l /\ forall b, In b l -> b <= greatest a l.
Proof.
  revert a. unfold greatest. induction l as [|c t IH]; intros a; cbn; [split; [lra|intros b []]|].
  destruct (IH (Rmax a c)) as [H K]. pose proof (Rmax_l a c). pose proof (Rmax_r a c). split; [lra|]. intros b [<-|I]; [lra|auto].
Qed.

(** Every point lies within the bounding box, with its margins. *)
Lemma bounds_point a l p : In p (a :: l) ->
  let b := bounding a l in
  0 <= b_width b /\ 0 <= b_height b /\
  b_left b + b_width b / 20000 <= fst p <= b_left b + b_width b - b_width b / 20000 /\
  b_top b + b_height b / 20000 <= snd p <= b_top b + b_height b - b_height b / 20000.
Proof.
  intros I. cbn [bounding b_left b_top b_width b_height].
  destruct (least_le (fst a) (map fst l)) as [X1 X2]. destruct (greatest_ge (fst a) (map fst l)) as [X3 X4].
  destruct (least_le (snd a) (map snd l)) as [Y1 Y2]. destruct (greatest_ge (snd a) (map snd l)) as [Y3 Y4].
  unfold bounding; cbn [b_left b_top b_width b_height].
  set (lx := least (fst a) _) in *. set (ly := least (snd a) _) in *. set (gx := greatest (fst a) _) in *. set (gy := greatest (snd a) _) in *.
  assert (X : lx <= fst p <= gx). { destruct I as [<-|I]; [lra|]. apply (in_map fst) in I. split; auto. }
  assert (Y : ly <= snd p <= gy). { destruct I as [<-|I]; [lra|]. apply (in_map snd) in I. split; auto. }
  lra.
Qed.

Lemma vertex_some pts i : (i < length pts)%nat -> vertex pts i = Some (mkpoint (fst (at_number pts i)) (snd (at_number pts i)) i).
Proof. intros L. unfold vertex, at_number. rewrite (nth_error_nth' pts (0, 0) L). reflexivity. Qed.

(** The triangle of three numbers. *)
Definition triangle (pts : list (R * R)) (n : nat * nat * nat) : tri :=
  let '(i, j, k) := n in let q i := mkpoint (fst (at_number pts i)) (snd (at_number pts i)) i in mktri (q i) (q j) (q k).

Lemma collect_ok pts ns : names pts ns -> collect pts ns = Some (map (triangle pts) ns).
Proof.
  induction ns as [|[[i j] k] t IH]; intros N; [reflexivity|]. cbn [collect map].
  destruct (N i j k) as [A [B C]]; [left; reflexivity|]. unfold tri_of. rewrite !vertex_some by assumption.
  rewrite IH; [reflexivity|]. intros a b c I. apply N. right. exact I.
Qed.

Lemma within_triangle pts x y n : point_in_triangle x y (triangle pts n) = true <-> within_numbers pts (x, y) n.
Proof.
  rewrite in_triangle. destruct n as [[i j] k]. unfold triangle, within_numbers, at_point. cbn [p0 p1 p2 px py]. rewrite <- !surjective_pairing. reflexivity.
Qed.

Lemma numbers_triangle pts n : numbers (triangle pts n) = n.
Proof. destruct n as [[i j] k]. reflexivity. Qed.

Lemma box_inside a l t : In (at_point (p0 t)) (a :: l) -> In (at_point (p1 t)) (a :: l) -> In (at_point (p2 t)) (a :: l) -> inside (box_of t) (bounding a l).
Proof.
  intros A B C. pose proof (bounds_point _ _ _ A) as PA. pose proof (bounds_point _ _ _ B) as PB. pose proof (bounds_point _ _ _ C) as PC. cbv zeta in *.
  set (b := bounding a l) in *. unfold at_point in *. cbn [fst snd] in *. unfold inside, box_of. cbn [b_left b_width b_top b_height].
  unfold Rmin, Rmax. repeat split; repeat match goal with |- context [Rle_dec ?x ?y] => destruct (Rle_dec x y) end; lra.
Qed.

Lemma holds_adds {T} (g : T -> box) b l : Forall (fun v => inside (g v) b) l -> holds g b (map Add l) (rev l).
Proof.
  induction l as [|v t IH] using rev_ind; intros F; [constructor|]. apply Forall_app in F. destruct F as [F1 F2]. inversion F2; subst.
  rewrite map_app, rev_app_distr. cbn. constructor; auto.
Qed.

Lemma at_number_in pts i : (i < length pts)%nat -> In (at_number pts i) pts.
Proof. intros L. apply nth_In. exact L. Qed.

Lemma build_ok triangulate a l ns : let pts := a :: l in triangulate pts = Some ns -> names pts ns ->
  exists n, build triangulate pts = Ok (mkindexer (map (triangle pts) ns) n (bounding a l)) /\
  forall q, overlap q (bounding a l) -> exists r, query (pointed_box (map (triangle pts) ns)) n (bounding a l) q = Some r /\
  Forall (fun i => (i < length ns)%nat) r.
Proof.
  cbv zeta. intros T N. set (pts := a :: l) in *. set (ts := map (triangle pts) ns).
  assert (F : Forall (fun v => inside (pointed_box ts v) (bounding a l)) (seq 0 (length ts))).
  { apply Forall_forall. intros v I. apply in_seq in I. unfold pointed_box, pointed.
    set (d := mktri _ _ _). assert (J : In (nth v ts d) ts) by (apply nth_In; lia). unfold ts in J at 2. apply in_map_iff in J. destruct J as [[[i j] k] [E J]]. rewrite <- E.
    destruct (N i j k J) as [A [B C]]. apply box_inside; cbn [triangle p0 p1 p2 at_point px py]; unfold at_point; cbn [px py]; rewrite <- surjective_pairing; apply at_number_in; assumption. }
  pose proof (holds_adds (pointed_box ts) (bounding a l) _ F) as H.
  destruct (C99_query nat (pointed_box ts) Nat.eqb Nat.eqb_eq (bounding a l) _ _ H) as [n [R Q]].
  exists n. split.
  - unfold build. unfold pts at 1. rewrite T, (collect_ok _ _ N). fold ts. rewrite R. reflexivity.
  - intros q O. destruct (Q q O) as [r [rest [E [P _]]]]. exists r. split; [exact E|]. apply Forall_forall. intros i I.
    assert (J : In i (rev (seq 0 (length ts)))) by (apply (Permutation_in i (Permutation_sym P)), in_or_app; auto).
    apply in_rev in J. apply in_seq in J. unfold ts in J. rewrite map_length in J. lia.
Qed.

Lemma lookup_ok triangulate a l ns i x y : let pts := a :: l in triangulate pts = Some ns -> names pts ns -> build triangulate pts = Ok i ->
  overlap (mkbox x y 0 0) (bounding a l) ->
  (exists n, In n ns /\ within_numbers pts (x, y) n /\ lookup i x y = Ok (Some (triangle pts n))) \/
  ((forall n, In n ns -> ~ within_numbers pts (x, y) n) /\ lookup i x y = Ok None).
Proof.
  cbv zeta. intros T N B O. destruct (build_ok triangulate a l ns T N) as [n [E Q]]. rewrite E in B. injection B as <-.
  destruct (Q _ O) as [r [R F]]. unfold lookup. cbn [tris tree bounds]. rewrite R. set (pts := a :: l) in *. set (ts := map (triangle pts) ns) in *.
  destruct (find (point_in_triangle x y) (map (pointed ts) r)) as [t|] eqn:K.
  - left. apply find_some in K. destruct K as [I P]. apply in_map_iff in I. destruct I as [j [<- I]]. rewrite Forall_forall in F. apply F in I.
    assert (J : In (pointed ts j) ts). { apply nth_In. unfold ts. rewrite map_length. exact I. } unfold ts in J at 2. apply in_map_iff in J. destruct J as [m [M J]].
    exists m. split; [exact J|]. rewrite M. split; [|reflexivity]. apply within_triangle. rewrite M. exact P.
  - destruct (find (point_in_triangle x y) ts) as [t|] eqn:K'.
    + left. apply find_some in K'. destruct K' as [I P]. unfold ts in I. apply in_map_iff in I. destruct I as [m [<- J]]. exists m. split; [exact J|]. split; [apply within_triangle, P|reflexivity].
    + right. split; [|reflexivity]. intros m I W. apply within_triangle in W. rewrite (find_none _ _ K' (triangle pts m)) in W; [discriminate|]. apply in_map, I.
Qed.

Lemma mean_between (a b c u v w p : R) : 0 < u -> 0 < v -> 0 < w -> u + v + w = 1 -> p = u * a + v * b + w * c ->
  ~ (a = b /\ b = c) -> Rmin a (Rmin b c) < p < Rmax a (Rmax b c).
Proof.
  intros U V W S -> N.
  pose proof (Rmin_l a (Rmin b c)). pose proof (Rmin_r a (Rmin b c)). pose proof (Rmin_l b c). pose proof (Rmin_r b c).
  pose proof (Rmax_l a (Rmax b c)). pose proof (Rmax_r a (Rmax b c)). pose proof (Rmax_l b c). pose proof (Rmax_r b c).
  set (m := Rmin a (Rmin b c)) in *. set (g := Rmax a (Rmax b c)) in *.
  assert (D : (m < a \/ m < b \/ m < c) /\ (a < g \/ b < g \/ c < g)).
  { split.
    - destruct (Rlt_le_dec m a); [auto|]. destruct (Rlt_le_dec m b); [auto|]. destruct (Rlt_le_dec m c); [auto|]. exfalso. apply N. split; lra.
    - destruct (Rlt_le_dec a g); [auto|]. destruct (Rlt_le_dec b g); [auto|]. destruct (Rlt_le_dec c g); [auto|]. exfalso. apply N. split; lra. }
  assert (A1 : 0 <= u * (a - m)) by (apply Rmult_le_pos; lra). assert (B1 : 0 <= v * (b - m)) by (apply Rmult_le_pos; lra). assert (C1 : 0 <= w * (c - m)) by (apply Rmult_le_pos; lra).
  assert (A2 : 0 <= u * (g - a)) by (apply Rmult_le_pos; lra). assert (B2 : 0 <= v * (g - b)) by (apply Rmult_le_pos; lra). assert (C2 : 0 <= w * (g - c)) by (apply Rmult_le_pos; lra).
  assert (M : u * a + v * b + w * c - m = u * (a - m) + v * (b - m) + w * (c - m)) by (replace m with ((u + v + w) * m) at 1 by (rewrite S; ring); ring).
  assert (G : g - (u * a + v * b + w * c) = u * (g - a) + v * (g - b) + w * (g - c)) by (replace g with ((u + v + w) * g) at 1 by (rewrite S; ring); ring).
  destruct D as [D1 D2]. split.
  - destruct D1 as [D|[D|D]]; [assert (0 < u * (a - m))|assert (0 < v * (b - m))|assert (0 < w * (c - m))]; try (apply Rmult_lt_0_compat; lra); lra.
  - destruct D2 as [D|[D|D]]; [assert (0 < u * (g - a))|assert (0 < v * (g - b))|assert (0 < w * (g - c))]; try (apply Rmult_lt_0_compat; lra); lra.
Qed.

Lemma among_overlap a l x y : among (a :: l) (x, y) -> overlap (mkbox x y 0 0) (bounding a l).
Proof.
  intros [[p [q [P [Q [X1 X2]]]]] [r [s [S [T [Y1 Y2]]]]]]. cbn [fst snd] in *.
  pose proof (bounds_point _ _ _ P). pose proof (bounds_point _ _ _ Q). pose proof (bounds_point _ _ _ S). pose proof (bounds_point _ _ _ T). cbv zeta in *.
  unfold overlap. cbn [b_left b_width b_top b_height] in *. set (b := bounding a l) in *. lra.
Qed.

Lemma within_among pts ns x y n : names pts ns -> In n ns -> within_numbers pts (x, y) n -> among pts (x, y).
Proof.
  destruct n as [[i j] k]. intros N I [P [u [v [w [U [V [W [S [X Y]]]]]]]]]. destruct (N i j k I) as [A [B C]].
  apply at_number_in in A, B, C. unfold proper in P. set (p := at_number pts i) in *. set (q := at_number pts j) in *. set (r := at_number pts k) in *.
  cbn [fst snd] in X, Y.
  assert (NX : ~ (fst p = fst q /\ fst q = fst r)) by (intros [E F]; apply P; rewrite <- F, E; ring).
  assert (NY : ~ (snd p = snd q /\ snd q = snd r)) by (intros [E F]; apply P; rewrite <- F, E; ring).
  pose proof (mean_between _ _ _ _ _ _ _ U V W S X NX) as [LX HX]. pose proof (mean_between _ _ _ _ _ _ _ U V W S Y NY) as [LY HY].
  unfold among. cbn [fst snd].
  assert (L : forall f : R * R -> R, exists e, In e pts /\ f e = Rmin (f p) (Rmin (f q) (f r))).
  { intros f. unfold Rmin. destruct (Rle_dec (f q) (f r)); destruct (Rle_dec _ _); eauto. }
  assert (G : forall f : R * R -> R, exists e, In e pts /\ f e = Rmax (f p) (Rmax (f q) (f r))).
  { intros f. unfold Rmax. destruct (Rle_dec (f q) (f r)); destruct (Rle_dec _ _); eauto. }
  split; [destruct (L fst) as [e [E1 E2]], (G fst) as [g [G1 G2]]|destruct (L snd) as [e [E1 E2]], (G snd) as [g [G1 G2]]]; exists e, g; (split; [exact E1|split; [exact G1|]]); rewrite E2, G2; split; assumption.
Qed.
