(** The hits of the half planes, and what the merging of hits yields. *)
From Coq Require Import Reals ZArith List Bool Lra Lia Permutation Sorted.
From Verif Require Import VectorModel GeometryModel GeometrySpec EulerModel SolidModel SolidSpec SolidProofs SolidShapes SolidRound WedgeModel WedgeSpec WedgeProofs WedgeLine.
Import ListNotations.
Open Scope R_scope.

(** ** The half planes *)
Lemma plane_point a x y : x * x + y * y = along a x y * along a x y + across a x y * across a x y.
Proof.
  unfold along, across. replace (x * x + y * y) with ((x * x + y * y) * (Rsqr (sin a) + Rsqr (cos a))) by (rewrite sin2_cos2; ring).
  unfold Rsqr. ring.
Qed.

Lemma far_from_axis c q : 0 < q -> c * c + 0 * 0 < q * 10 ^ 3 * q * 10 ^ 3 -> ~ 10 ^ 3 * q < c.
Proof.
  intros Q Y H. replace (q * 10 ^ 3 * q * 10 ^ 3) with ((10 ^ 3 * q) * (10 ^ 3 * q)) in Y by ring.
  assert (0 < 10 ^ 3 * q) as P by (apply Rmult_lt_0_compat; lra). generalize dependent (10 ^ 3 * q). intros. nra.
Qed.

Section Faces.
Context (start delta : R) (p d : vec) (K : clear_wedge start delta p d).

Lemma face_ok (second emitted : bool) : let a := start + (if second then 1 else 0) * delta in
  let t := - across a (vx p) (vy p) / across a (vx d) (vy d) in
  let b := across a (vx d) (vy d) in
  let e := if second then (if Rlt_dec b 0 then true else false) else (if Rlt_dec 0 b then true else false) in
  across a (vx (on_line p d t)) (vy (on_line p d t)) = 0 /\
  face_hits start delta p d second emitted = ((if Rlt_dec 0 (along a (vx (on_line p d t)) (vy (on_line p d t))) then [hit_at p d t e] else []), emitted).
Proof.
  intros a t b e. assert (I : a = start \/ a = start + delta) by (unfold a; destruct second; [right|left]; ring).
  pose proof (cw_slope _ _ _ _ K a I) as H0. fold b in H0. pose proof prec_pos as PP.
  assert (N : b <> 0) by (intros X; rewrite X, Rabs_R0 in H0; lra).
  assert (Z : across a (vx (on_line p d t)) (vy (on_line p d t)) = 0) by (rewrite across_line; unfold t; fold b; field; auto).
  split; auto. pose proof (cw_axis _ _ _ _ K a t I Z) as HA. pose proof (cw_ahead _ _ _ _ K a t I Z) as HH.
  unfold face_hits. fold a. cbn zeta.
  set (nx := if second then - sin a else sin a). set (ny := if second then cos a else - cos a).
  assert (ND : nx * vx d + ny * vy d = (if second then b else - b)) by (unfold nx, ny, b, across; destruct second; ring).
  assert (NP : nx * vx p + ny * vy p = (if second then across a (vx p) (vy p) else - across a (vx p) (vy p))) by (unfold nx, ny, across; destruct second; ring).
  rewrite ND, NP. destruct (Rlt_dec (Rabs (if second then b else - b)) precision) as [X|_].
  { exfalso. destruct second; [|rewrite Rabs_Ropp in X]; lra. }
  replace (- (if second then across a (vx p) (vy p) else - across a (vx p) (vy p)) / (if second then b else - b)) with t
    by (unfold t; fold b; destruct second; field; auto).
  replace (if Rlt_dec 0 t then if Rlt_dec t precision then 0 else t else t) with t
    by (destruct (Rlt_dec 0 t); auto; destruct (Rlt_dec t precision); auto; exfalso; apply HH; auto).
  change (vx p + t * vx d) with (vx (on_line p d t)). change (vy p + t * vy d) with (vy (on_line p d t)).
  pose proof (plane_point a (vx (on_line p d t)) (vy (on_line p d t))) as PL. rewrite Z in PL.
  change (vx (on_line p d t) * cos a + vy (on_line p d t) * sin a) with (along a (vx (on_line p d t)) (vy (on_line p d t))).
  set (c := along a (vx (on_line p d t)) (vy (on_line p d t))) in *. rewrite PL.
  destruct (Rlt_dec c (- precision)) as [X|X].
  { destruct (Rlt_dec 0 c); [lra|reflexivity]. }
  assert (0 < c) as C. { revert HA. unfold Rabs. destruct (Rcase_abs c); intros; lra. }
  destruct (Rlt_dec 0 c) as [_|]; [|contradiction]. rewrite Rabs_right in HA by lra.
  match goal with |- context [Rlt_dec ?u (precision * 10 ^ 3 * precision * 10 ^ 3)] => destruct (Rlt_dec u (precision * 10 ^ 3 * precision * 10 ^ 3)) as [Y|_] end; [exfalso; revert Y HA; apply far_from_axis; exact PP|].
  unfold e, hit_at, on_line. destruct second; [reflexivity|].
  destruct (Rlt_dec (- b) 0), (Rlt_dec 0 b); try lra; reflexivity.
Qed.

(** The hits are the switches. *)
Lemma wedge_hits_are h : 0 < delta < two_pi ->
  (In h (wedge_hits start delta p d) <-> exists t e, h = hit_at p d t e /\ wedge_switch start delta p d t e).
Proof.
  intros D. unfold wedge_hits.
  destruct (face_ok false false) as [Z0 F0]. rewrite F0. destruct (face_ok true false) as [Z1 F1]. rewrite F1. clear F0 F1.
  pose proof (slope0 start delta p d K) as N0. pose proof (slope1 start delta p d K) as N1.
  replace (start + (if false then 1 else 0) * delta) with start in * by ring. replace (start + (if true then 1 else 0) * delta) with (start + delta) in * by ring.
  set (t0 := - across start (vx p) (vy p) / across start (vx d) (vy d)) in *.
  set (t1 := - across (start + delta) (vx p) (vy p) / across (start + delta) (vx d) (vy d)) in *.
  assert (U0 : forall t, across start (vx p) (vy p) + t * across start (vx d) (vy d) = 0 -> t = t0) by (intros t T; unfold t0; apply Rmult_eq_reg_r with (across start (vx d) (vy d)); auto; field_simplify; auto; lra).
  assert (U1 : forall t, across (start + delta) (vx p) (vy p) + t * across (start + delta) (vx d) (vy d) = 0 -> t = t1) by (intros t T; unfold t1; apply Rmult_eq_reg_r with (across (start + delta) (vx d) (vy d)); auto; field_simplify; auto; lra).
  rewrite across_line in Z0, Z1. rewrite in_app_iff. unfold wedge_switch. split.
  - intros [H|H].
    + destruct (Rlt_dec 0 (along start (vx (on_line p d t0)) (vy (on_line p d t0)))) as [C|_]; [|destruct H]. destruct H as [<-|[]]. eexists t0, _. split; [reflexivity|]. left. auto.
    + destruct (Rlt_dec 0 (along (start + delta) (vx (on_line p d t1)) (vy (on_line p d t1)))) as [C|_]; [|destruct H]. destruct H as [<-|[]]. eexists t1, _. split; [reflexivity|]. right. auto.
  - intros (t & e & -> & [(Z & C & ->)|(Z & C & ->)]).
    + left. apply U0 in Z as ->. destruct (Rlt_dec 0 (along start (vx (on_line p d t0)) (vy (on_line p d t0)))) as [_|]; [left; reflexivity|contradiction].
    + right. apply U1 in Z as ->. destruct (Rlt_dec 0 (along (start + delta) (vx (on_line p d t1)) (vy (on_line p d t1)))) as [_|]; [left; reflexivity|contradiction].
Qed.

Lemma wedge_hits_nodup : 0 < delta < two_pi -> NoDup (map h_distance (wedge_hits start delta p d)).
Proof.
  intros D. unfold wedge_hits.
  destruct (face_ok false false) as [Z0 F0]. rewrite F0. destruct (face_ok true false) as [Z1 F1]. rewrite F1. clear F0 F1.
  replace (start + (if false then 1 else 0) * delta) with start in * by ring. replace (start + (if true then 1 else 0) * delta) with (start + delta) in * by ring.
  set (t0 := - across start (vx p) (vy p) / across start (vx d) (vy d)) in *.
  set (t1 := - across (start + delta) (vx p) (vy p) / across (start + delta) (vx d) (vy d)) in *.
  rewrite across_line in Z0, Z1.
  destruct (Rlt_dec 0 (along start _ _)) as [C0|]; destruct (Rlt_dec 0 (along (start + delta) _ _)) as [C1|]; cbn; repeat constructor; auto.
  intros [E|[]]. rewrite E in Z1, C1. pose proof (other0 start delta p d t0 Z0) as O. pose proof (other1 start delta p d t0 Z1) as O'.
  assert (sin delta = 0) as S by (rewrite Z1 in O; nra). clear O O'.
  assert (delta = PI) as ->.
  { destruct (sin_sign delta) as (_ & S2 & _ & S4 & _). destruct (Rtotal_order delta PI) as [Q|[Q|Q]]; auto; [specialize (S2 ltac:(lra))|specialize (S4 ltac:(lra))]; lra. }
  revert C0 C1. unfold along. rewrite neg_cos, neg_sin. intros. lra.
Qed.
End Faces.

(** ** Merging *)
Definition near_right (P : R -> Prop) (lo : R) (b : bool) : Prop := exists e, 0 < e /\ forall u, lo < u < lo + e -> (P u <-> b = true).

Lemma right_of_crosses P h : crosses P h -> near_right P (h_distance h) (h_entering h).
Proof. intros (e & E & _ & H). exists e. auto. Qed.
Lemma right_of_steady P t b : steady P t b -> near_right P t b.
Proof. intros (e & E & H). exists e. split; auto. intros u U. apply H. lra. Qed.
Lemma bool_same (P : Prop) a b : (P <-> a = true) -> (P <-> b = true) -> a = b.
Proof. intros X Y. destruct a, b; auto; [symmetry|]; tauto. Qed.

Lemma reach P lo x b : lo < x -> near_right P lo b -> (forall t, lo < t < x -> exists c, steady P t c) -> forall t, lo < t < x -> (P t <-> b = true).
Proof. intros L N H. now apply between. Qed.

Lemma crosses_from P lo h b : lo < h_distance h -> near_right P lo b -> (forall t, lo < t < h_distance h -> exists c, steady P t c) ->
  crosses P h -> h_entering h = negb b.
Proof.
  intros L N H (e & E & C & _). set (u := Rmax ((lo + h_distance h) / 2) (h_distance h - e / 2)).
  assert (lo < u < h_distance h /\ h_distance h - e < u) as [U1 U2].
  { unfold u. pose proof (Rmax_l ((lo + h_distance h) / 2) (h_distance h - e / 2)). pose proof (Rmax_r ((lo + h_distance h) / 2) (h_distance h - e / 2)).
    assert (Rmax ((lo + h_distance h) / 2) (h_distance h - e / 2) < h_distance h) by (apply Rmax_lub_lt; lra). lra. }
  pose proof (reach P lo _ b L N H u U1) as A. pose proof (C u ltac:(lra)) as B.
  destruct b, (h_entering h); auto; [exfalso|exfalso]; destruct A as [A1 A2], B as [B1 B2].
  - specialize (B1 (A2 eq_refl)). discriminate.
  - specialize (A1 (B2 eq_refl)). discriminate.
Qed.
Lemma steady_from P lo x b c : lo < x -> near_right P lo b -> (forall t, lo < t < x -> exists c, steady P t c) -> steady P x c -> c = b.
Proof.
  intros L N H (e & E & C). set (u := Rmax ((lo + x) / 2) (x - e / 2)).
  assert (lo < u < x /\ x - e < u) as [U1 U2].
  { unfold u. pose proof (Rmax_l ((lo + x) / 2) (x - e / 2)). pose proof (Rmax_r ((lo + x) / 2) (x - e / 2)).
    assert (Rmax ((lo + x) / 2) (x - e / 2) < x) by (apply Rmax_lub_lt; lra). lra. }
  pose proof (reach P lo _ b L N H u U1) as A. pose proof (C u ltac:(lra)) as B. eapply bool_same; eauto.
Qed.

Lemma crosses_sides P h : crosses P h <-> sides P (h_distance h) (negb (h_entering h)) (h_entering h).
Proof.
  unfold crosses, sides. split; intros (e & E & A & B); exists e; (split; [exact E|]); (split; [|exact B]);
    intros u U; rewrite (A u U); destruct (h_entering h); cbn; split; auto; discriminate.
Qed.

Definition apart_hits : list (bool * hit) -> Prop := StronglySorted (fun a b => h_distance (snd a) < h_distance (snd b)).

Section Merge.
Context (S W : R -> Prop).
Let P t := S t /\ W t.

Lemma merge_run l : forall bs bw lo, apart_hits l -> (forall x, In x l -> lo < h_distance (snd x)) ->
  (forall h, In (false, h) l -> crosses S h) -> (forall h, In (true, h) l -> crosses W h) ->
  (forall t, lo < t -> (forall h, In (false, h) l -> h_distance h <> t) -> exists c, steady S t c) ->
  (forall t, lo < t -> (forall h, In (true, h) l -> h_distance h <> t) -> exists c, steady W t c) ->
  near_right S lo bs -> near_right W lo bw ->
  let r := merge_loop bs bw (bs && bw) l in
  strict r /\ (forall h, In h r -> exists x, In x l /\ h_distance (snd x) = h_distance h /\ h_position (snd x) = h_position h) /\
  (forall h, In h r -> crosses P h) /\
  (forall t, lo < t -> (forall h, In h r -> h_distance h <> t) -> exists c, steady P t c).
Proof.
  induction l as [|[src h] l IH]; intros bs bw lo AP GT CS CW HS HW NS NW; cbn [merge_loop].
  - cbn. split; [constructor|]. split; [intros ? []|]. split; [intros ? []|]. intros t T _.
    destruct (HS t T) as [c C]; [intros ? []|]. destruct (HW t T) as [c' C']; [intros ? []|]. exists (c && c'). now apply steady_and.
  - inversion AP as [|? ? AP' F]; subst. rewrite Forall_forall in F. cbn [snd] in F. set (x := h_distance h) in *.
    assert (LX : lo < x) by (apply (GT (src, h)); left; auto).
    assert (BS : forall t, lo < t < x -> exists c, steady S t c).
    { intros t T. apply HS; [lra|]. intros k [E|I] Q; [injection E as _ ->; fold x in Q; lra|]. specialize (F _ I). cbn in F. fold x in F. lra. }
    assert (BW : forall t, lo < t < x -> exists c, steady W t c).
    { intros t T. apply HW; [lra|]. intros k [E|I] Q; [injection E as _ ->; fold x in Q; lra|]. specialize (F _ I). cbn in F. fold x in F. lra. }
    assert (GT' : forall y, In y l -> x < h_distance (snd y)) by (intros y Y; apply F; auto).
    assert (NIN : forall s k, In (s, k) l -> h_distance k <> x) by (intros s k I; specialize (F _ I); cbn in F; lra).
    assert (HS' : forall t, x < t -> (forall k, In (false, k) l -> h_distance k <> t) -> exists c, steady S t c).
    { intros t T Q. apply HS; [lra|]. intros k [E|I]; [injection E as _ ->; fold x; lra|auto]. }
    assert (HW' : forall t, x < t -> (forall k, In (true, k) l -> h_distance k <> t) -> exists c, steady W t c).
    { intros t T Q. apply HW; [lra|]. intros k [E|I]; [injection E as _ ->; fold x; lra|auto]. }
    set (bs' := if src then bs else h_entering h). set (bw' := if src then h_entering h else bw).
    (* what happens here *)
    assert (HERE : near_right S x bs' /\ near_right W x bw' /\
      if Bool.eqb (bs' && bw') (bs && bw) then exists c, steady P x c else sides P x (negb (bs' && bw')) (bs' && bw')).
    { destruct src; cbn in bs', bw'.
      - assert (CR : crosses W h) by (apply CW; left; auto). assert (EN := crosses_from W lo h bw LX NW BW CR).
        destruct (HS x LX) as [c C]. { intros k [E|I]; [discriminate|eauto]. } pose proof (steady_from S lo x bs c LX NS BS C) as ->.
        split; [now apply right_of_steady|]. split; [now apply right_of_crosses|]. unfold bs', bw'. rewrite EN.
        destruct bs; cbn.
        + destruct (Bool.eqb (negb bw) bw) eqn:Q; [apply eqb_prop in Q; destruct bw; discriminate|].
          apply crosses_sides in CR. fold x in CR. rewrite EN in CR. exact (sides_and _ _ _ _ _ _ _ (steady_sides _ _ _ C) CR).
        + exists false. now apply steady_none_l.
      - assert (CR : crosses S h) by (apply CS; left; auto). assert (EN := crosses_from S lo h bs LX NS BS CR).
        destruct (HW x LX) as [c C]. { intros k [E|I]; [discriminate|eauto]. } pose proof (steady_from W lo x bw c LX NW BW C) as ->.
        split; [now apply right_of_crosses|]. split; [now apply right_of_steady|]. unfold bs', bw'. rewrite EN.
        destruct bw.
        + rewrite !andb_true_r. destruct (Bool.eqb (negb bs) bs) eqn:Q; [apply eqb_prop in Q; destruct bs; discriminate|].
          apply crosses_sides in CR. fold x in CR. rewrite EN in CR. pose proof (sides_and _ _ _ _ _ _ _ CR (steady_sides _ _ _ C)) as G. now rewrite !andb_true_r in G.
        + rewrite !andb_false_r. cbn. exists false. now apply steady_none_r. }
    destruct HERE as (NS' & NW' & HERE).
    destruct (IH bs' bw' x) as (R1 & R2 & R3 & R4); auto; [intros k I; apply CS; right; auto|intros k I; apply CW; right; auto|].
    assert (PRE : forall t, lo < t < x -> exists c, steady P t c).
    { intros t T. destruct (BS t T) as [c C]. destruct (BW t T) as [c' C']. exists (c && c'). now apply steady_and. }
    destruct (Bool.eqb (bs' && bw') (bs && bw)).
    + split; auto. split; [intros k I; destruct (R2 k I) as (y & Y & Q); exists y; split; [right; auto|auto]|]. split; auto.
      intros t T N. destruct (Rtotal_order t x) as [Q|[Q|Q]]; [apply PRE; lra|subst t; auto|apply R4; auto].
    + split.
      { constructor; auto. apply Forall_forall. intros k I. destruct (R2 k I) as (y & Y & Q & _). cbn. fold x. rewrite <- Q. apply GT'; auto. }
      split; [intros k [<-|I]; [exists (src, h); split; [left; auto|auto]|destruct (R2 k I) as (y & Y & Q); exists y; split; [right; auto|auto]]|].
      split; [intros k [<-|I]; [apply crosses_sides; exact HERE|auto]|].
      intros t T N. destruct (Rtotal_order t x) as [Q|[Q|Q]]; [apply PRE; lra|exfalso; apply (N _ (or_introl eq_refl)); cbn; auto|apply R4; auto]. intros k I. apply N. right. auto.
Qed.
End Merge.

(** From crossings to steadiness between them. *)
Lemma traces_steady P l t : traces P l -> (forall h, In h l -> h_distance h <> t) -> exists c, steady P t c.
Proof.
  intros T N. assert (E : exists e, 0 < e /\ forall h, In h l -> e <= Rabs (h_distance h - t)).
  { clear T. induction l as [|h l IH]; [exists 1; split; [lra|intros ? []]|].
    destruct IH as (e & E & H); [intros k I; apply N; right; auto|]. exists (Rmin e (Rabs (h_distance h - t))).
    assert (0 < Rabs (h_distance h - t)) by (apply Rabs_pos_lt; specialize (N h (or_introl eq_refl)); lra). split; [apply Rmin_glb_lt; auto|].
    intros k [<-|I]; [apply Rmin_r|]. eapply Rle_trans; [apply Rmin_l|auto]. }
  destruct E as (e & E & H). exists (state l t). exists e. split; auto. intros u U.
  assert (Q : state l u = state l t).
  { rewrite !state_fold. clear T N. generalize false. induction l as [|h l IH]; intros b; auto. cbn.
    replace (step u b h) with (step t b h); [apply IH; intros k I; apply H; right; auto|].
    specialize (H h (or_introl eq_refl)). unfold step. revert H. unfold Rabs. destruct (Rcase_abs _); intros; destruct (Rlt_dec _ t), (Rlt_dec _ u); auto; lra. }
  rewrite <- Q. apply (tr_state _ _ T). intros h I X. specialize (H h I). rewrite X in H. revert H. unfold Rabs. destruct (Rcase_abs _); intros; lra.
Qed.
