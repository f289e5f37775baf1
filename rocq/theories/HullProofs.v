(** Clipping a line with the faces of a convex solid. *)
From Coq Require Import Reals Lra Lia List Bool Arith.
From Verif Require Import VectorModel GeometryModel GeometrySpec HullModel HullSpec.
Import ListNotations.
Open Scope R_scope.

Lemma dot_line n p d t : vdot n (on_line p d t) = vdot n p + t * vdot n d.
Proof. unfold vdot, on_line, vadd, vscale. cbn. ring. Qed.
Lemma hull_prec : 0 < precision.
Proof. unfold precision. lra. Qed.

(** ** Ranges *)
Definition above (e : option R) (t : R) : Prop := match e with None => True | Some e => e <= t end.
Definition below (x : option R) (t : R) : Prop := match x with None => True | Some x => t <= x end.
Lemma later_ok e s t : above (later e s) t <-> above e t /\ s <= t.
Proof. destruct e as [e|]; cbn; [|tauto]. destruct (Rlt_dec e s); cbn; lra. Qed.
Lemma sooner_ok x s t : below (sooner x s) t <-> below x t /\ t <= s.
Proof. destruct x as [x|]; cbn; [|tauto]. destruct (Rlt_dec s x); cbn; lra. Qed.
Lemma passed_none eq e x t : passed eq e x = true -> above e t -> below x t -> eq = true /\ e = Some t /\ x = Some t.
Proof.
  destruct e as [e|], x as [x|]; try discriminate. cbn. destruct eq; [destruct (Rle_dec x e)|destruct (Rlt_dec x e)]; try discriminate; intros _ A B; [|lra].
  repeat split; auto; f_equal; lra.
Qed.
Lemma parallel nd : nd = 0 \/ precision <= Rabs nd -> Rabs nd < precision -> nd = 0.
Proof. lra. Qed.

Lemma half_neg nd no t : nd < 0 -> (no + t * nd <= 0 <-> - no / nd <= t).
Proof.
  intros N. assert (E : no = - ((- no / nd) * nd)) by (field; lra). set (s := - no / nd) in *. rewrite E. split; intros H.
  - assert (0 <= (t - s) * (- nd)) by lra. destruct (Rle_dec s t); auto. assert ((t - s) * (- nd) < 0) by nra. lra.
  - nra.
Qed.
Lemma half_pos nd no t : 0 < nd -> (no + t * nd <= 0 <-> t <= - no / nd).
Proof.
  intros N. assert (E : no = - ((- no / nd) * nd)) by (field; lra). set (s := - no / nd) in *. rewrite E. split; intros H; nra.
Qed.

(** ** Faces one by one *)
Definition behind (fs : list (vec * R)) (q : vec) : Prop := forall f, In f fs -> vdot (fst f) q + snd f <= 0.
Definition steep (fs : list (vec * R)) (d : vec) : Prop := forall f, In f fs -> vdot (fst f) d = 0 \/ precision <= Rabs (vdot (fst f) d).
Lemma behind_cons f fs q : behind (f :: fs) q <-> vdot (fst f) q + snd f <= 0 /\ behind fs q.
Proof. unfold behind. cbn. split; [intros H; split; auto|]. intros [H K] g [<-|G]; auto. Qed.

Lemma trap_scan_ok fs p d : steep fs d -> forall e x,
  match trap_scan fs p d e x with
  | Some (e', x') => forall t, (above e' t /\ below x' t <-> above e t /\ below x t /\ behind fs (on_line p d t))
  | None => forall t, ~ behind fs (on_line p d t)
  end.
Proof.
  intros S. induction fs as [|[n c] fs IH]; intros e x; cbn [trap_scan].
  - intros t. unfold behind. cbn. split; [intros [A B]; repeat split; auto; contradiction|tauto].
  - assert (S' : steep fs d) by (intros f F; apply S; right; auto). specialize (IH S').
    pose proof hull_prec as P. pose proof (S (n, c) (or_introl eq_refl)) as Sn. cbn [fst] in Sn.
    assert (V : forall t, vdot n (on_line p d t) + c <= 0 <-> vdot n p + c + t * vdot n d <= 0) by (intros t; rewrite dot_line; split; lra).
    destruct (Rlt_dec (Rabs (vdot n d)) precision) as [L|L].
    + pose proof (parallel _ Sn L) as Z. destruct (Rlt_dec 0 (vdot n p + c)) as [O|O].
      * intros t B. apply behind_cons in B as [B _]. cbn in B. apply V in B. rewrite Z in B. lra.
      * specialize (IH e x). destruct (trap_scan fs p d e x) as [[e' x']|].
        -- intros t. rewrite IH, behind_cons. cbn [fst snd]. rewrite V, Z. assert (vdot n p + c + t * 0 <= 0) by lra. tauto.
        -- intros t B. apply behind_cons in B as [_ B]. apply (IH t B).
    + destruct Sn as [Z|Sn]; [rewrite Z, Rabs_R0 in L; lra|]. destruct (Rlt_dec (vdot n d) 0) as [N|N].
      * specialize (IH (later e (- (vdot n p + c) / vdot n d)) x). destruct (trap_scan fs p d _ x) as [[e' x']|].
        -- intros t. rewrite IH, behind_cons, later_ok. cbn [fst snd]. rewrite V, half_neg by auto. tauto.
        -- intros t B. apply behind_cons in B as [_ B]. apply (IH t B).
      * assert (N' : 0 < vdot n d) by (destruct (Req_EM_T (vdot n d) 0) as [Z|Z]; [rewrite Z, Rabs_R0 in L; lra|lra]).
        specialize (IH e (sooner x (- (vdot n p + c) / vdot n d))). destruct (trap_scan fs p d e _) as [[e' x']|].
        -- intros t. rewrite IH, behind_cons, sooner_ok. cbn [fst snd]. rewrite V, half_pos by auto. tauto.
        -- intros t B. apply behind_cons in B as [_ B]. apply (IH t B).
Qed.

Lemma trap_clip fs p d m : steep fs d -> (forall t, m < Rabs t -> ~ behind fs (on_line p d t)) ->
  (trap_hits fs p d = Some [] /\ forall t u, behind fs (on_line p d t) -> behind fs (on_line p d u) -> t = u) \/
  (exists e x, e < x /\ clips (fun t => behind fs (on_line p d t)) e x /\ trap_hits fs p d = Some [end_hit p d e true; end_hit p d x false]).
Proof.
  intros S M. unfold trap_hits. pose proof (trap_scan_ok fs p d S None None) as H. destruct (trap_scan fs p d None None) as [[e x]|].
  - cbn [above below] in H. assert (H' : forall t, above e t /\ below x t <-> behind fs (on_line p d t)) by (intros t; rewrite H; tauto). clear H.
    destruct (passed true e x) eqn:Q.
    + left. split; auto. intros t u T U. apply H' in T as [T1 T2]. apply H' in U as [U1 U2]. destruct (passed_none _ _ _ _ Q T1 T2) as (_ & E & _). destruct (passed_none _ _ _ _ Q U1 U2) as (_ & E' & _). congruence.
    + destruct e as [e|], x as [x|].
      * right. cbn in Q. destruct (Rle_dec x e) as [|N]; [discriminate|]. exists e, x. split; [lra|]. split; auto. split; [lra|]. intros t. rewrite <- H'. cbn. tauto.
      * exfalso. set (t := Rabs m + Rabs e + 1). pose proof (RRle_abs m). pose proof (Rabs_pos m). pose proof (Rabs_pos e). pose proof (RRle_abs e). apply (M t); [rewrite (Rabs_pos_eq t); unfold t; lra|]. apply H'. cbn. unfold t. split; auto. lra.
      * exfalso. set (t := - (Rabs m + Rabs x + 1)). pose proof (RRle_abs m). pose proof (Rabs_pos m). pose proof (Rabs_pos x). pose proof (RRle_abs (- x)) as Q'. rewrite Rabs_Ropp in Q'.
        apply (M t); [rewrite (Rabs_left t); unfold t; lra|]. apply H'. cbn. unfold t. split; auto. lra.
      * exfalso. pose proof (RRle_abs m). pose proof (Rabs_pos m). apply (M (Rabs m + 1)); [rewrite (Rabs_pos_eq (Rabs m + 1)); lra|]. apply H'. cbn. auto.
  - left. split; auto. intros t u T. elim (H t T).
Qed.

(** ** Pairs of faces *)
Definition slabs (fs : list (vec * R)) (q : vec) : Prop := forall f, In f fs -> Rabs (vdot (fst f) q) <= snd f.
Lemma slabs_cons f fs q : slabs (f :: fs) q <-> Rabs (vdot (fst f) q) <= snd f /\ slabs fs q.
Proof. unfold slabs. cbn. split; [intros H; split; auto|]. intros [H K] g [<-|G]; auto. Qed.
Lemma abs_two x h : Rabs x <= h <-> - h <= x <= h.
Proof. unfold Rabs. destruct (Rcase_abs x); lra. Qed.

Lemma later_some e t : exists y, later e t = Some y.
Proof. destruct e as [e|]; cbn; [destruct (Rlt_dec e t)|]; eauto. Qed.
Lemma sooner_some x t : exists y, sooner x t = Some y.
Proof. destruct x as [x|]; cbn; [destruct (Rlt_dec t x)|]; eauto. Qed.

Lemma para_scan_ok fs p d : steep fs d -> forall e x, passed false e x = false ->
  match para_scan fs p d e x with
  | Some (e', x') => (forall t, (above e' t /\ below x' t <-> above e t /\ below x t /\ slabs fs (on_line p d t))) /\ passed false e' x' = false /\
      ((e <> None /\ x <> None) \/ (exists f, In f fs /\ vdot (fst f) d <> 0) -> e' <> None /\ x' <> None)
  | None => forall t, above e t -> below x t -> ~ slabs fs (on_line p d t)
  end.
Proof.
  intros S. induction fs as [|[n c] fs IH]; intros e x Q; cbn [para_scan].
  - split; [intros t; unfold slabs; cbn; split; [intros [A B]; repeat split; auto; contradiction|tauto]|]. split; auto. intros [H|(f & [] & _)]; auto.
  - assert (S' : steep fs d) by (intros f F; apply S; right; auto). specialize (IH S').
    pose proof hull_prec as P. pose proof (S (n, c) (or_introl eq_refl)) as Sn. cbn [fst] in Sn.
    assert (V : forall t, Rabs (vdot n (on_line p d t)) <= c <-> - c - vdot n p - t * vdot n d <= 0 /\ vdot n p - c + t * vdot n d <= 0) by (intros t; rewrite dot_line, abs_two; split; lra).
    destruct (Rlt_dec (Rabs (vdot n d)) precision) as [L|L].
    + pose proof (parallel _ Sn L) as Z. destruct (Rlt_dec c (Rabs (vdot n p))) as [O|O].
      * intros t _ _ B. apply slabs_cons in B as [B _]. cbn in B. rewrite dot_line, Z, Rmult_0_r, Rplus_0_r in B. lra.
      * specialize (IH e x Q). destruct (para_scan fs p d e x) as [[e' x']|].
        -- destruct IH as (I1 & I2 & I3). split; [|split; auto].
           ++ intros t. rewrite I1, slabs_cons. cbn [fst snd]. rewrite dot_line, Z, Rmult_0_r, Rplus_0_r. assert (Rabs (vdot n p) <= c) by lra. tauto.
           ++ intros [H|(f & [<-|F] & N)]; apply I3; [auto|contradiction|right; exists f; auto].
        -- intros t A B C. apply slabs_cons in C as [_ C]. apply (IH t A B C).
    + destruct Sn as [Z|Sn]; [rewrite Z, Rabs_R0 in L; lra|].
      assert (Nz : vdot n d <> 0) by (intros Z; rewrite Z, Rabs_R0 in L; lra).
      set (t1 := (- c - vdot n p) / vdot n d) in *. set (t2 := (c - vdot n p) / vdot n d) in *.
      assert (G : exists s1 s2, (if Rlt_dec (vdot n d) 0 then (t2, t1) else (t1, t2)) = (s1, s2) /\ forall t, Rabs (vdot n (on_line p d t)) <= c <-> s1 <= t /\ t <= s2).
      { assert (E1 : t1 = - (vdot n p + c) / vdot n d) by (unfold t1; f_equal; ring). assert (E2 : t2 = - (vdot n p - c) / vdot n d) by (unfold t2; f_equal; ring).
        destruct (Rlt_dec (vdot n d) 0) as [N|N].
        - exists t2, t1. split; auto. intros t. rewrite V, E2, <- half_neg by auto.
          assert (D : - c - vdot n p - t * vdot n d <= 0 <-> t <= t1).
          { replace t1 with (- (- c - vdot n p) / (- vdot n d)) by (unfold t1; field; lra). rewrite <- half_pos by lra. split; lra. }
          rewrite D, E1. tauto.
        - assert (N' : 0 < vdot n d) by lra. exists t1, t2. split; auto. intros t. rewrite V, E2, <- half_pos by auto.
          assert (D : - c - vdot n p - t * vdot n d <= 0 <-> t1 <= t).
          { replace t1 with (- (- c - vdot n p) / (- vdot n d)) by (unfold t1; field; lra). rewrite <- half_neg by lra. split; lra. }
          rewrite D, E1. tauto. }
      destruct G as (s1 & s2 & -> & G). destruct (passed false (later e s1) (sooner x s2)) eqn:Q'.
      * intros t A B C. apply slabs_cons in C as [C _]. cbn [fst snd] in C. apply G in C as [C1 C2].
        destruct (passed_none false _ _ t Q') as [E _]; [apply later_ok; auto|apply sooner_ok; auto|discriminate].
      * specialize (IH _ _ Q'). destruct (para_scan fs p d _ _) as [[e' x']|].
        -- destruct IH as (I1 & I2 & I3). split; [|split; auto].
           ++ intros t. rewrite I1, slabs_cons, later_ok, sooner_ok. cbn [fst snd]. rewrite G. tauto.
           ++ intros _. apply I3. left. destruct (later_some e s1) as [? ->], (sooner_some x s2) as [? ->]. split; discriminate.
        -- intros t A B C. apply slabs_cons in C as [C1 C2]. cbn [fst snd] in C1. apply G in C1 as [C3 C4]. apply (IH t); [apply later_ok; auto|apply sooner_ok; auto|auto].
Qed.

Lemma para_clip fs p d : steep fs d -> (exists f, In f fs /\ vdot (fst f) d <> 0) ->
  (para_hits fs p d = Some [] /\ forall t, ~ slabs fs (on_line p d t)) \/
  (exists e x, clips (fun t => slabs fs (on_line p d t)) e x /\ para_hits fs p d = Some [end_hit p d (snap e) true; end_hit p d (snap x) false]).
Proof.
  intros S F. unfold para_hits. pose proof (para_scan_ok fs p d S None None eq_refl) as H. destruct (para_scan fs p d None None) as [[e x]|].
  - destruct H as (H1 & H2 & H3). destruct (H3 (or_intror F)) as [A B]. destruct e as [e|]; [|congruence]. destruct x as [x|]; [|congruence].
    right. exists e, x. split; auto. cbn in H2. destruct (Rlt_dec x e); [discriminate|]. split; [lra|]. intros t. specialize (H1 t). cbn in H1. tauto.
  - left. split; auto. intros t. apply H; cbn; auto.
Qed.

(** ** Normals *)
Lemma face_normal_scaled a b : vcross a b <> mkv 0 0 0 -> exists k, 0 < k /\ face_normal a b = vscale k (vcross a b) /\ k * sqrt (vdot (vcross a b) (vcross a b)) = 1.
Proof.
  intros N. unfold face_normal. set (n := vcross a b) in *.
  assert (Q : 0 < vx n * vx n + vy n * vy n + vz n * vz n).
  { destruct n as [x y z]. cbn. destruct (Req_EM_T x 0) as [->|X]; [|nra]. destruct (Req_EM_T y 0) as [->|Y]; [|nra]. destruct (Req_EM_T z 0) as [->|Z]; [congruence|nra]. }
  assert (M : 0 < vmag n) by (apply sqrt_lt_R0; auto). cbn zeta. destruct (Rlt_dec 0 (vmag n)) as [_|]; [|contradiction]. exists (/ vmag n). split; [apply Rinv_0_lt_compat; auto|]. split.
  - unfold vdiv, vscale. f_equal; field; lra.
  - unfold vmag at 1. unfold vdot. apply Rinv_l. fold (vmag n). lra.
Qed.
Lemma dot_scale k n q : vdot (vscale k n) q = k * vdot n q.
Proof. unfold vdot, vscale. cbn. ring. Qed.
Lemma dot_zero q : vdot (mkv 0 0 0) q = 0.
Proof. unfold vdot. cbn. ring. Qed.

(** A normal of length one meets the direction steeply when the raw one does. *)
Lemma steep_normal a b d : oblique (vcross a b) d -> vdot (face_normal a b) d = 0 \/ precision <= Rabs (vdot (face_normal a b) d).
Proof.
  intros O. destruct (Req_EM_T (vdot (vcross a b) (vcross a b)) 0) as [Z|Z].
  - left. assert (E : vcross a b = mkv 0 0 0).
    { destruct (vcross a b) as [x y z]. unfold vdot in Z. cbn in Z. f_equal; nra. }
    unfold face_normal. rewrite E. cbn zeta. unfold vmag. cbn. replace (0 * 0 + 0 * 0 + 0 * 0) with 0 by ring. rewrite sqrt_0. destruct (Rlt_dec 0 0); [lra|]. apply dot_zero.
  - assert (N : vcross a b <> mkv 0 0 0) by (intros E; apply Z; rewrite E; apply dot_zero).
    destruct (face_normal_scaled a b N) as (k & K & -> & E). rewrite dot_scale. destruct O as [O|O]; [left; rewrite O; ring|right].
    rewrite Rabs_mult, (Rabs_pos_eq k) by lra. apply Rle_trans with (k * (precision * sqrt (vdot (vcross a b) (vcross a b)))); [|apply Rmult_le_compat_l; lra].
    apply Req_le. rewrite <- (Rmult_1_r precision) at 1. rewrite <- E. ring.
Qed.

(** ** Parallelepipeds *)
Section Para.
Context (dx dy dz alpha theta phi : R) (Hx : 0 < dx) (Hy : 0 < dy) (Hz : 0 < dz).
Lemma ratio X D : 0 < D -> (Rabs X <= Rabs D <-> Rabs (X / D) <= 1).
Proof.
  intros H. rewrite (Rabs_pos_eq D) by lra. rewrite !abs_two. assert (E : X = X / D * D) by (field; lra). set (k := X / D) in *. rewrite E. split; intros; split; nra.
Qed.
Lemma scaled_le k X D : 0 < k -> (Rabs (k * X) <= Rabs (k * D) <-> Rabs X <= Rabs D).
Proof. intros K. rewrite !Rabs_mult, (Rabs_pos_eq k) by lra. split; intros; nra. Qed.

Lemma para_faces_form : exists k1 k2 k3, 0 < k1 /\ 0 < k2 /\ 0 < k3 /\ para_faces dx dy dz alpha theta phi =
  let '(e1, e2, e3) := para_edges dx dy dz alpha theta phi in
  [(vscale k1 (vcross e2 e3), Rabs (k1 * vdot (vcross e2 e3) e1)); (vscale k2 (vcross e3 e1), Rabs (k2 * vdot (vcross e3 e1) e2)); (vscale k3 (vcross e1 e2), Rabs (k3 * vdot (vcross e1 e2) e3))].
Proof.
  unfold para_faces, para_edges. set (e1 := mkv dx 0 0). set (e2 := mkv (dy * tan alpha) dy 0). set (e3 := mkv _ _ dz).
  destruct (face_normal_scaled e2 e3) as (k1 & K1 & E1 & _). { unfold vcross, e2, e3. cbn. intros E. injection E. intros. assert (0 < dy * dz) by nra. lra. }
  destruct (face_normal_scaled e3 e1) as (k2 & K2 & E2 & _). { unfold vcross, e1, e3. cbn. intros E. injection E. intros. assert (0 < dz * dx) by nra. lra. }
  destruct (face_normal_scaled e1 e2) as (k3 & K3 & E3 & _). { unfold vcross, e1, e2. cbn. intros E. injection E. intros. assert (0 < dx * dy) by nra. lra. }
  exists k1, k2, k3. rewrite E1, E2, E3. rewrite !dot_scale. auto.
Qed.

Lemma para_inside q : slabs (para_faces dx dy dz alpha theta phi) q <-> in_para dx dy dz alpha theta phi q.
Proof.
  destruct para_faces_form as (k1 & k2 & k3 & K1 & K2 & K3 & ->). unfold para_edges. cbn zeta.
  rewrite !slabs_cons. cbn [fst snd]. rewrite !dot_scale, !scaled_le by auto. unfold vcross, vdot. cbn [vx vy vz].
  set (D := dx * dy * dz). assert (HD : 0 < D) by (unfold D; apply Rmult_lt_0_compat; [nra|auto]).
  match goal with |- Rabs ?A <= Rabs ?X /\ Rabs ?B <= Rabs ?Y /\ Rabs ?C <= Rabs ?Z /\ _ <-> _ =>
    replace X with D by (unfold D; ring); replace Y with D by (unfold D; ring); replace Z with D by (unfold D; ring); rewrite !(ratio _ D HD); set (a := A / D); set (b := B / D); set (c := C / D) end.
  assert (Nil : slabs [] q) by (intros f []). split.
  - intros (A & B & C & _). exists a, b, c. repeat split; auto; unfold a, b, c, D; field; lra.
  - intros (a' & b' & c' & A & B & C & X & Y & Z). assert (a = a' /\ b = b' /\ c = c') as (-> & -> & ->); [|auto]. unfold a, b, c, D. rewrite X, Y, Z. repeat split; field; lra.
Qed.

Lemma oblique_scale k n n' d : 0 < k -> n = vscale k n' -> oblique n' d -> oblique n d.
Proof.
  intros K -> [O|O]; [left|right]; rewrite (dot_scale k n' d); [rewrite O; ring|]. rewrite Rabs_mult, (Rabs_pos_eq k) by lra.
  replace (vdot (vscale k n') (vscale k n')) with ((k * k) * vdot n' n') by (unfold vdot, vscale; cbn; ring).
  rewrite sqrt_mult by (try nra; unfold vdot; nra). rewrite sqrt_square by lra. nra.
Qed.
Lemma para_steep d : (forall n, In n (para_normals dy dz alpha theta phi) -> oblique n d) -> steep (para_faces dx dy dz alpha theta phi) d.
Proof.
  intros H f F. unfold para_faces, para_edges in F. cbn zeta in F. cbn in F. destruct F as [<-|[<-|[<-|[]]]]; cbn [fst]; apply steep_normal.
  - apply (oblique_scale dz _ (mkv dy (- (dy * tan alpha)) (tan theta * (tan alpha * sin phi - cos phi) * dy))); auto; [unfold vcross, vscale; cbn; f_equal; ring|apply H; cbn; auto].
  - apply (oblique_scale dx _ (mkv 0 dz (- (dz * tan theta * sin phi)))); auto; [unfold vcross, vscale; cbn; f_equal; ring|apply H; cbn; auto].
  - apply (oblique_scale (dx * dy) _ (mkv 0 0 1)); [nra|unfold vcross, vscale; cbn; f_equal; ring|apply H; cbn; auto].
Qed.
Lemma para_some d : d <> mkv 0 0 0 -> exists f, In f (para_faces dx dy dz alpha theta phi) /\ vdot (fst f) d <> 0.
Proof.
  intros N. destruct para_faces_form as (k1 & k2 & k3 & K1 & K2 & K3 & ->). unfold para_edges. cbn zeta. destruct d as [x y z].
  destruct (Req_EM_T z 0) as [->|Z]; [destruct (Req_EM_T y 0) as [->|Y]; [destruct (Req_EM_T x 0) as [->|X]; [congruence|]|]|].
  - eexists. split; [left; reflexivity|]. cbn [fst]. rewrite dot_scale. unfold vdot, vcross. cbn. intros E. apply Rmult_integral in E as [E|E]; [lra|]. assert (dy * dz * x = 0) by lra. repeat (apply Rmult_integral in H as [H|H]; try lra).
  - eexists. split; [right; left; reflexivity|]. cbn [fst]. rewrite dot_scale. unfold vdot, vcross. cbn. intros E. apply Rmult_integral in E as [E|E]; [lra|]. assert (dz * dx * y = 0) by lra. repeat (apply Rmult_integral in H as [H|H]; try lra).
  - eexists. split; [right; right; left; reflexivity|]. cbn [fst]. rewrite dot_scale. unfold vdot, vcross. cbn. intros E. apply Rmult_integral in E as [E|E]; [lra|]. assert (dx * dy * z = 0) by lra. repeat (apply Rmult_integral in H as [H|H]; try lra).
Qed.
End Para.
