(** Densities at a point: lemmas. *)
From Coq Require Import Reals List Bool ZArith Lra Permutation.
From Verif Require Import TraversalModel TraversalSpec TraversalProps VectorModel DepthModel DepthSpec DepthProofs PointModel PointSpec.
Import ListNotations.
Open Scope R_scope.

(** The segments of a path and the highest sector on each. *)
Lemma levels_of : forall l ss a b fwd z0, sees l ss a b ->
  let p0 := point (l_position l) (l_direction l) z0 in
  let dir := dirn fwd (l_direction l) in
  let off := vdot (vsub (l_position l) p0) dir in
  exists segs,
    (forall (S : Type) (cb : S -> ix ext -> ix ext -> ext -> S * bool) step s,
      (forall st cur e last, cb st cur e last = step st (seg_of off fwd (cur, e, last))) ->
      sector_loop cb s (l_hits l) (backward l dir) = Ok (run step s segs)) /\
    tiles elt (shift off fwd (if fwd then a else b)) segs (shift off fwd (if fwd then b else a)) /\
    Forall (fun e => let '(h, x, y) := e in forall s, elt x (Fin s) -> elt (Fin s) y ->
              top_level (inside elt) ss (Fin (if fwd then z0 + s else z0 - s)) h) segs.
Proof.
  intros l ss a b fwd z0 (HD & Hg & (u & Hu & Hi) & found & Hp & Hl) p0 dir off.
  assert (Eoff : off = (if fwd then - z0 else z0)) by (apply offset_ok; auto).
  rewrite Hl. unfold dir. rewrite backward_ok by auto. fold dir.
  destruct fwd.
  - destruct (C26_forward_tiling ext eltb eltb_total ss u a b found Hg Hu Hi Hp) as (cs & H1 & H2 & H3).
    exists (map (seg_of off true) cs).
    assert (Em : map (seg_of off true) cs = map (fun g => let '(h, x, y) := g in (h, shift off true x, shift off true y)) (map (covered eltb) cs))
      by (rewrite map_map; apply map_ext; intros [[? ?] ?]; reflexivity).
    split; [|split].
    + intros S0 cb step s Hs. cbn [negb]. rewrite (C26_any_callback _ _ cb s _ _ cs H1). f_equal. apply feed_run. exact Hs.
    + rewrite Em. apply tiles_fwd. exact H2.
    + rewrite Em, Forall_map. eapply Forall_impl; [|exact H3]. intros [[h x] y] H z Hx Hy.
      assert (Ez : Fin z = shift off true (Fin (z0 + z))) by (rewrite Eoff; cbn; f_equal; ring).
      apply H; apply (shift_lt off); unfold elt; rewrite <- Ez; assumption.
  - destruct (C26_reverse_tiling ext eltb eltb_total ss u a b found Hg Hu Hi Hp) as (cs & H1 & H2 & H3).
    exists (map (seg_of off false) cs).
    assert (Em : map (seg_of off false) cs = map (fun g => let '(h, x, y) := g in (h, shift off false x, shift off false y)) (map (covered (fun x y => eltb y x)) cs))
      by (rewrite map_map; apply map_ext; intros [[? ?] ?]; reflexivity).
    split; [|split].
    + intros S0 cb step s Hs. cbn [negb]. rewrite (C26_any_callback _ _ cb s _ _ cs H1). f_equal. apply feed_run. exact Hs.
    + rewrite Em. apply tiles_bwd. exact H2.
    + rewrite Em, Forall_map. eapply Forall_impl; [|exact H3]. intros [[h x] y] H z Hx Hy.
      assert (Ez : Fin z = shift off false (Fin (z0 - z))) by (rewrite Eoff; cbn; f_equal; ring).
      apply H; apply (shift_gt off); unfold elt; rewrite <- Ez; assumption.
Qed.

(** The callback in the coordinate of the path. *)
Definition point_step (value : Z -> R) (st : option R) (g : Z * ext * ext) : option R * bool :=
  let '(h, x, y) := g in if negb (eltb (Fin 0) x) && negb (eltb y (Fin 0)) then (Some (value h), true) else (st, false).

Lemma point_cb_step : forall value off fwd st cur e last, point_cb value off fwd st cur e last = point_step value st (seg_of off fwd (cur, e, last)).
Proof.
  intros value off fwd st cur e last. unfold point_cb, point_step, seg_of, covered.
  replace (emax (shift off fwd (dist cur)) (shift off fwd last))
    with (shift off fwd (if (if fwd then eltb (dist cur) last else eltb last (dist cur)) then last else dist cur)).
  - reflexivity.
  - unfold emax. destruct fwd.
    + destruct (eltb (dist cur) last) eqn:E.
      * assert (X : eltb (shift off true (dist cur)) (shift off true last) = true) by (apply (shift_lt off); exact E). now rewrite X.
      * destruct (eltb (shift off true (dist cur)) (shift off true last)) eqn:X; [|reflexivity]. apply (proj1 (shift_lt off _ _)) in X. unfold elt in X. congruence.
    + destruct (eltb last (dist cur)) eqn:E.
      * assert (X : eltb (shift off false (dist cur)) (shift off false last) = true) by (apply (shift_gt off); exact E). now rewrite X.
      * destruct (eltb (shift off false (dist cur)) (shift off false last)) eqn:X; [|reflexivity]. apply (proj1 (shift_gt off _ _)) in X. unfold elt in X. congruence.
Qed.

(** The first segment that reaches 0. *)
Lemma run_point : forall value segs x b, tiles elt x segs b -> elt x (Fin 0) -> ele (Fin 0) b ->
  exists h u v, In (h, u, v) segs /\ elt u (Fin 0) /\ ele (Fin 0) v /\ run (point_step value) None segs = Some (value h).
Proof.
  intros value. induction segs as [|[[h u] v] r IH]; intros x b T A B.
  - cbn in T. subst. exfalso. exact (not_both _ _ A B).
  - cbn [tiles] in T. destruct T as (-> & LE & T). cbn [run point_step].
    destruct (eltb v (Fin 0)) eqn:V.
    + destruct (IH v b T V B) as (h' & u' & v' & I & Q1 & Q2 & Q3). exists h', u', v'.
      rewrite andb_false_r. repeat split; auto. now right.
    + exists h, x, v. assert (Z : eltb (Fin 0) x = false).
      { destruct (eltb (Fin 0) x) eqn:Q; [|reflexivity]. exfalso. apply (not_both _ _ A). now apply elt_weak. }
      rewrite Z. cbn. repeat split; auto.
Qed.

(** ** Points near a point *)

Lemma below_one : forall e z w0, w0 < z -> exists w, w0 <= w < z /\ forall y, w < y < z -> (elt e (Fin y) <-> elt e (Fin z)) /\ (elt (Fin y) e <-> ele (Fin z) e).
Proof.
  intros e z w0 L. destruct e as [|x|].
  - exists w0. split; [lra|]. intros y Y. split; [split; reflexivity|]. split; intros H; discriminate H.
  - destruct (Rlt_dec x z) as [X|X].
    + exists (Rmax w0 x). split; [split; [apply Rmax_l|apply Rmax_lub_lt; lra]|]. intros y [Y1 Y2]. pose proof (Rmax_r w0 x).
      rewrite !elt_fin, ele_fin. split; split; intros; lra.
    + exists w0. split; [lra|]. intros y Y. rewrite !elt_fin, ele_fin. split; split; intros; lra.
  - exists w0. split; [lra|]. intros y Y. split; [split; intros H; discriminate H|]. split; reflexivity.
Qed.
Lemma below_all : forall es z, exists w, w < z /\ forall y, w < y < z -> forall e, In e es -> (elt e (Fin y) <-> elt e (Fin z)) /\ (elt (Fin y) e <-> ele (Fin z) e).
Proof.
  induction es as [|e es IH]; intros z; [exists (z - 1); split; [lra|intros y Y e []]|].
  destruct (IH z) as (w0 & L & H). destruct (below_one e z w0 L) as (w & [L1 L2] & H'). exists w. split; [exact L2|].
  intros y Y e' [<-|I]; [now apply H'|apply H; auto; lra].
Qed.
Lemma above_one : forall e z w0, z < w0 -> exists w, z < w <= w0 /\ forall y, z < y < w -> (elt (Fin y) e <-> elt (Fin z) e) /\ (elt e (Fin y) <-> ele e (Fin z)).
Proof.
  intros e z w0 L. destruct e as [|x|].
  - exists w0. split; [lra|]. intros y Y. split; [split; intros H; discriminate H|]. split; reflexivity.
  - destruct (Rlt_dec z x) as [X|X].
    + exists (Rmin w0 x). split; [split; [apply Rmin_glb_lt; lra|apply Rmin_l]|]. intros y [Y1 Y2]. pose proof (Rmin_r w0 x).
      rewrite !elt_fin, ele_fin. split; split; intros; lra.
    + exists w0. split; [lra|]. intros y Y. rewrite !elt_fin, ele_fin. split; split; intros; lra.
  - exists w0. split; [lra|]. intros y Y. split; [split; reflexivity|]. split; intros H; discriminate H.
Qed.
Lemma above_all : forall es z, exists w, z < w /\ forall y, z < y < w -> forall e, In e es -> (elt (Fin y) e <-> elt (Fin z) e) /\ (elt e (Fin y) <-> ele e (Fin z)).
Proof.
  induction es as [|e es IH]; intros z; [exists (z + 1); split; [lra|intros y Y e []]|].
  destruct (IH z) as (w0 & L & H). destruct (above_one e z w0 L) as (w & [L1 L2] & H'). exists w. split; [exact L1|].
  intros y Y e' [<-|I]; [now apply H'|apply H; auto; lra].
Qed.

Definition ends (ss : list (sector ext)) : list ext := flat_map (fun s => flat_map (fun iv => [fst iv; snd iv]) (ivs s)) ss.
Lemma in_ends : forall ss s iv, In s ss -> In iv (ivs s) -> In (fst iv) (ends ss) /\ In (snd iv) (ends ss).
Proof.
  intros ss s iv S' I. unfold ends. split; apply in_flat_map; exists s; (split; [exact S'|]); apply in_flat_map; exists iv; split; cbn; auto.
Qed.

Lemma before : forall ss z x h, elt x (Fin z) -> (forall y, elt x (Fin y) -> y < z -> top_level (inside elt) ss (Fin y) h) -> top_level inside_oc ss (Fin z) h.
Proof.
  intros ss z x h X H. destruct (below_all (x :: ends ss) z) as (w & L & W). set (y := (w + z) / 2).
  assert (Y : w < y < z) by (unfold y; lra).
  assert (T : top_level (inside elt) ss (Fin y) h) by (apply H; [apply (W y Y x (or_introl eq_refl)); exact X|lra]).
  assert (E : forall s, In s ss -> (inside elt s (Fin y) <-> inside_oc s (Fin z))).
  { intros s S'. unfold inside, inside_oc. split; intros (iv & I & A & B); exists iv; (split; [exact I|]);
    destruct (in_ends ss s iv S' I) as [E1 E2]; pose proof (W y Y _ (or_intror E1)) as [W1 _]; pose proof (W y Y _ (or_intror E2)) as [_ W2]; tauto. }
  destruct T as [(s & S' & LV & IN) T]. split; [exists s; repeat split; auto; now apply E|]. intros s' S2 IN'. apply T; [exact S2|]. now apply E.
Qed.
Lemma beyond : forall ss z x h, elt (Fin z) x -> (forall y, elt (Fin y) x -> z < y -> top_level (inside elt) ss (Fin y) h) -> top_level (inside_ho elt) ss (Fin z) h.
Proof.
  intros ss z x h X H. destruct (above_all (x :: ends ss) z) as (w & L & W). set (y := (w + z) / 2).
  assert (Y : z < y < w) by (unfold y; lra).
  assert (T : top_level (inside elt) ss (Fin y) h) by (apply H; [apply (W y Y x (or_introl eq_refl)); exact X|lra]).
  assert (E : forall s, In s ss -> (inside elt s (Fin y) <-> inside_ho elt s (Fin z))).
  { intros s S'. unfold inside, inside_ho. split; intros (iv & I & A & B); exists iv; (split; [exact I|]);
    destruct (in_ends ss s iv S' I) as [E1 E2]; pose proof (W y Y _ (or_intror E1)) as [_ W1]; pose proof (W y Y _ (or_intror E2)) as [W2 _];
    unfold leT, elt, ele in *; rewrite ?not_true_iff_false in *; tauto. }
  destruct T as [(s & S' & LV & IN) T]. split; [exists s; repeat split; auto; now apply E|]. intros s' S2 IN'. apply T; [exact S2|]. now apply E.
Qed.

(** ** The loop *)

Lemma toward_ok : forall eps l z, vdot (l_direction l) (l_direction l) = 1 -> 0 <= eps ->
  toward eps l (point (l_position l) (l_direction l) z) = dirn (if Rle_dec (Rabs z) eps then true else if Rlt_dec 0 z then true else false) (l_direction l).
Proof.
  intros eps l z D E. unfold toward. set (P := l_position l). set (v := l_direction l) in *. cbv zeta.
  assert (PE : P = point P v 0) by (symmetry; apply point_0).
  assert (M : vmag (vsub (point P v z) P) = Rabs z).
  { replace (vsub (point P v z) P) with (vscale z v) by (unfold point, vadd, vscale, vsub; vsolve). now apply mag_scale. }
  rewrite M. destruct (Rle_dec (Rabs z) eps) as [L|L]; [reflexivity|].
  assert (Z : 0 <> z) by (intros <-; rewrite Rabs_R0 in L; lra).
  pose proof (proj2 (normal_dirn 0 z P v D Z)) as N. rewrite <- PE in N. exact N.
Qed.

Lemma at_point_ok : forall eps value l ss a b z, 0 <= eps -> sees l ss a b -> elt a (Fin z) -> elt (Fin z) b ->
  exists h, at_point eps value l (point (l_position l) (l_direction l) z) = Ok (Some (value h)) /\
    (0 <= z -> top_level inside_oc ss (Fin z) h) /\ (z < - eps -> top_level (inside_ho elt) ss (Fin z) h) /\
    (- eps <= z < 0 -> top_level inside_oc ss (Fin z) h).
Proof.
  intros eps value l ss a b z E S' A B. pose proof S' as (D & _). unfold at_point. rewrite toward_ok by auto.
  set (fwd := if Rle_dec (Rabs z) eps then true else if Rlt_dec 0 z then true else false).
  destruct (levels_of l ss a b fwd z S') as (segs & R1 & T & L). cbv zeta in *.
  set (off := vdot (vsub (l_position l) (point (l_position l) (l_direction l) z)) (dirn fwd (l_direction l))) in *.
  assert (Eoff : off = (if fwd then - z else z)) by (apply offset_ok; auto).
  rewrite (R1 _ _ (point_step value) None); [|intros; rewrite backward_ok by auto; rewrite negb_involutive; apply point_cb_step].
  assert (EZ : Fin 0 = shift off fwd (Fin z)) by (rewrite Eoff; destruct fwd; cbn; f_equal; ring).
  destruct (run_point value segs _ _ T) as (h & u & v & I & Q1 & Q2 & Q3).
  - rewrite EZ. destruct fwd; [now apply shift_lt|now apply shift_gt].
  - apply elt_weak. rewrite EZ. destruct fwd; [now apply shift_lt|now apply shift_gt].
  - exists h. split; [now rewrite Q3|]. rewrite Forall_forall in L. specialize (L _ I). cbn beta iota in L.
    assert (FW : fwd = true -> top_level inside_oc ss (Fin z) h).
    { intros F. rewrite F in *. destruct u as [|u|]; [| |discriminate Q1].
      - apply (before ss z MInf h); [reflexivity|]. intros y _ Y. replace y with (z + (y - z)) by ring. apply L; [reflexivity|].
        apply (elt_ele _ (Fin 0)); [apply elt_fin; lra|exact Q2].
      - apply elt_fin in Q1. apply (before ss z (Fin (z + u)) h); [apply elt_fin; lra|]. intros y Y1 Y. apply elt_fin in Y1. replace y with (z + (y - z)) by ring.
        apply L; [apply elt_fin; lra|]. apply (elt_ele _ (Fin 0)); [apply elt_fin; lra|exact Q2]. }
    assert (BW : fwd = false -> top_level (inside_ho elt) ss (Fin z) h).
    { intros F. rewrite F in *. destruct u as [|u|]; [| |discriminate Q1].
      - apply (beyond ss z PInf h); [reflexivity|]. intros y _ Y. replace y with (z - (z - y)) by ring. apply L; [reflexivity|].
        apply (elt_ele _ (Fin 0)); [apply elt_fin; lra|exact Q2].
      - apply elt_fin in Q1. apply (beyond ss z (Fin (z - u)) h); [apply elt_fin; lra|]. intros y Y1 Y. apply elt_fin in Y1. replace y with (z - (z - y)) by ring.
        apply L; [apply elt_fin; lra|]. apply (elt_ele _ (Fin 0)); [apply elt_fin; lra|exact Q2]. }
    split; [|split].
    + intros Z. apply FW. unfold fwd. destruct (Rle_dec (Rabs z) eps) as [W|W]; [reflexivity|]. destruct (Rlt_dec 0 z); [reflexivity|].
      exfalso. apply W. replace z with 0 by lra. now rewrite Rabs_R0.
    + intros Z. apply BW. unfold fwd. destruct (Rle_dec (Rabs z) eps) as [W|W]; [rewrite Rabs_left in W by lra; lra|]. destruct (Rlt_dec 0 z); [lra|reflexivity].
    + intros Z. apply FW. unfold fwd. destruct (Rle_dec (Rabs z) eps) as [W|W]; [reflexivity|]. rewrite Rabs_left in W by lra. lra.
Qed.

(** Away from the boundaries the sides agree. *)
Lemma clear_sides : forall ss z s, clear_of ss (Fin z) -> In s ss ->
  (inside_oc s (Fin z) <-> inside elt s (Fin z)) /\ (inside_ho elt s (Fin z) <-> inside elt s (Fin z)).
Proof.
  intros ss z s C S'. unfold inside_oc, inside_ho, inside. split; split; intros (iv & I & A & B); exists iv; (split; [exact I|]);
    destruct (C s iv S' I) as [N1 N2]; (split; [|]); auto.
  - destruct (snd iv) as [|y|]; [discriminate B| |reflexivity]. apply ele_fin in B. apply elt_fin. destruct (Req_EM_T y z); [subst; contradiction|lra].
  - now apply elt_weak.
  - unfold leT, elt in A. apply not_true_is_false in A. change (ele (fst iv) (Fin z)) in A. destruct (fst iv) as [|y|]; [reflexivity| |discriminate A].
    apply ele_fin in A. apply elt_fin. destruct (Req_EM_T y z); [subst; contradiction|lra].
  - unfold leT, elt. apply elt_weak in A. unfold ele in A. rewrite A. discriminate.
Qed.
Lemma top_ext : forall (P Q : sector ext -> ext -> Prop) ss x h, (forall s, In s ss -> (P s x <-> Q s x)) -> top_level P ss x h -> top_level Q ss x h.
Proof.
  intros P Q ss x h E [(s & S' & L & I) T]. split; [exists s; repeat split; auto; now apply E|]. intros s' S2 I'. apply T; [exact S2|]. now apply E.
Qed.
Lemma top_one : forall (P : sector ext -> ext -> Prop) ss x h k, top_level P ss x h -> top_level P ss x k -> h = k.
Proof.
  intros P ss x h k [(s & S' & L & I) T] [(s2 & S2 & L2 & I2) T2]. apply Z.le_antisymm; [rewrite <- L|rewrite <- L2]; auto.
Qed.

Lemma at_point_clear : forall eps value l ss a b z h, 0 <= eps -> sees l ss a b -> elt a (Fin z) -> elt (Fin z) b ->
  clear_of ss (Fin z) -> top_level (inside elt) ss (Fin z) h ->
  at_point eps value l (point (l_position l) (l_direction l) z) = Ok (Some (value h)).
Proof.
  intros eps value l ss a b z h E S' A B C T. destruct (at_point_ok eps value l ss a b z E S' A B) as (k & H & H1 & H2 & H3). rewrite H. do 3 f_equal.
  apply (top_one (inside elt) ss (Fin z)); [|exact T].
  destruct (Rle_dec 0 z) as [Z|Z]; [|destruct (Rlt_dec z (- eps)) as [Z2|Z2]].
  - apply (top_ext inside_oc); [intros; now apply (clear_sides ss)|auto].
  - apply (top_ext (inside_ho elt)); [intros; now apply (clear_sides ss)|auto].
  - apply (top_ext inside_oc); [intros; now apply (clear_sides ss)|apply H3; lra].
Qed.

Lemma weighted_fold : forall d f s acc, fold_left (fun acc x => acc + d * fst x * snd x) (combine f s) acc = acc + d * weighted f s.
Proof.
  intros d. induction f as [|x f IH]; intros [|y s] acc; cbn [combine fold_left weighted fst snd]; try ring. rewrite IH. ring.
Qed.
