(** The test of a ray against a triangle. *)
From Coq Require Import Reals List Bool ZArith Lia Lra Psatz.
From Verif Require Import TraversalModel VectorModel MeshModel MeshSpec.
Import ListNotations.
Open Scope R_scope.

Lemma veq3 a b : vx a = vx b -> vy a = vy b -> vz a = vz b -> a = b.
Proof. destruct a, b; cbn; intros; subst; auto. Qed.

(** ** The largest coordinate *)
Lemma main_largest d k : Rabs (coord k d) <= Rabs (coord (main_axis d) d).
Proof. unfold main_axis. destruct (Rlt_dec (Rabs (vx d)) (Rabs (vy d))); cbn; destruct (Rlt_dec _ (Rabs (vz d))); destruct k; cbn; lra. Qed.
Lemma main_nonzero d : d <> mkv 0 0 0 -> coord (main_axis d) d <> 0.
Proof.
  intros N E. apply N. apply veq3; cbn.
  - pose proof (main_largest d AX) as H. rewrite E, Rabs_R0 in H. cbn in H. pose proof (Rabs_pos (vx d)). destruct (Req_dec (vx d) 0); auto. pose proof (Rabs_pos_lt _ H1). lra.
  - pose proof (main_largest d AY) as H. rewrite E, Rabs_R0 in H. cbn in H. pose proof (Rabs_pos (vy d)). destruct (Req_dec (vy d) 0); auto. pose proof (Rabs_pos_lt _ H1). lra.
  - pose proof (main_largest d AZ) as H. rewrite E, Rabs_R0 in H. cbn in H. pose proof (Rabs_pos (vz d)). destruct (Req_dec (vz d) 0); auto. pose proof (Rabs_pos_lt _ H1). lra.
Qed.

(** ** The edge functions, for any three axes *)
Definition sh (p s z : R) := p - s * z.
Definition Uf (ax ay az bx by_ bz cx cy cz dx dy dz : R) : R := sh cx (dx / dz) cz * sh by_ (dy / dz) bz - sh cy (dy / dz) cz * sh bx (dx / dz) bz.
Definition Vf (ax ay az bx by_ bz cx cy cz dx dy dz : R) : R := sh ax (dx / dz) az * sh cy (dy / dz) cz - sh ay (dy / dz) az * sh cx (dx / dz) cz.
Definition Wf (ax ay az bx by_ bz cx cy cz dx dy dz : R) : R := sh bx (dx / dz) bz * sh ay (dy / dz) az - sh by_ (dy / dz) bz * sh ax (dx / dz) az.
Definition Tf (ax ay az bx by_ bz cx cy cz dx dy dz : R) : R := Uf ax ay az bx by_ bz cx cy cz dx dy dz * (1 / dz * az) + Vf ax ay az bx by_ bz cx cy cz dx dy dz * (1 / dz * bz) + Wf ax ay az bx by_ bz cx cy cz dx dy dz * (1 / dz * cz).
(** The normal's product with the direction, the axes being in cyclic order. *)
Definition nd (ax ay az bx by_ bz cx cy cz dx dy dz : R) : R := ((by_ - ay) * (cz - az) - (bz - az) * (cy - ay)) * dx
               + ((bz - az) * (cx - ax) - (bx - ax) * (cz - az)) * dy
               + ((bx - ax) * (cy - ay) - (by_ - ay) * (cx - ax)) * dz.

Section Core.
Variables ax ay az bx by_ bz cx cy cz dx dy dz : R.
Hypothesis nz : dz <> 0.
Local Notation U' := (Uf ax ay az bx by_ bz cx cy cz dx dy dz).
Local Notation V' := (Vf ax ay az bx by_ bz cx cy cz dx dy dz).
Local Notation W' := (Wf ax ay az bx by_ bz cx cy cz dx dy dz).
Local Notation T' := (Tf ax ay az bx by_ bz cx cy cz dx dy dz).
Local Notation nd' := (nd ax ay az bx by_ bz cx cy cz dx dy dz).
Lemma det_core : (U' + V' + W') * dz = - nd'.
Proof. unfold Uf, Vf, Wf, sh, nd. field. auto. Qed.
Lemma tx : T' * dx = U' * ax + V' * bx + W' * cx.
Proof.
  assert (E : U' * sh ax (dx / dz) az + V' * sh bx (dx / dz) bz + W' * sh cx (dx / dz) cz = 0) by (unfold Uf, Vf, Wf; ring).
  unfold sh in E. unfold Tf.
  replace ((U' * (1 / dz * az) + V' * (1 / dz * bz) + W' * (1 / dz * cz)) * dx) with (dx / dz * (U' * az + V' * bz + W' * cz)) by (field; auto).
  lra.
Qed.
Lemma ty : T' * dy = U' * ay + V' * by_ + W' * cy.
Proof.
  assert (E : U' * sh ay (dy / dz) az + V' * sh by_ (dy / dz) bz + W' * sh cy (dy / dz) cz = 0) by (unfold Uf, Vf, Wf; ring).
  unfold sh in E. unfold Tf.
  replace ((U' * (1 / dz * az) + V' * (1 / dz * bz) + W' * (1 / dz * cz)) * dy) with (dy / dz * (U' * az + V' * bz + W' * cz)) by (field; auto).
  lra.
Qed.
Lemma tz : T' * dz = U' * az + V' * bz + W' * cz.
Proof. unfold Tf. field. auto. Qed.
Lemma weights u v w s : u + v + w = 1 -> s * dx = u * ax + v * bx + w * cx -> s * dy = u * ay + v * by_ + w * cy ->
  s * dz = u * az + v * bz + w * cz ->
  U' = u * (U' + V' + W') /\ V' = v * (U' + V' + W') /\ W' = w * (U' + V' + W').
Proof.
  intros S X Y Z.
  set (Ax := sh ax (dx / dz) az). set (Ay := sh ay (dy / dz) az).
  set (Bx := sh bx (dx / dz) bz). set (By := sh by_ (dy / dz) bz).
  set (Cx := sh cx (dx / dz) cz). set (Cy := sh cy (dy / dz) cz).
  assert (X0 : u * Ax + v * Bx + w * Cx = 0).
  { unfold Ax, Bx, Cx, sh. replace (u * (ax - dx / dz * az) + v * (bx - dx / dz * bz) + w * (cx - dx / dz * cz)) with (u * ax + v * bx + w * cx - dx / dz * (u * az + v * bz + w * cz)) by ring. rewrite <- X, <- Z. field. auto. }
  assert (Y0 : u * Ay + v * By + w * Cy = 0).
  { unfold Ay, By, Cy, sh. replace (u * (ay - dy / dz * az) + v * (by_ - dy / dz * bz) + w * (cy - dy / dz * cz)) with (u * ay + v * by_ + w * cy - dy / dz * (u * az + v * bz + w * cz)) by ring. rewrite <- Y, <- Z. field. auto. }
  assert (EU : U' = Cx * By - Cy * Bx) by reflexivity.
  assert (EV : V' = Ax * Cy - Ay * Cx) by reflexivity.
  assert (EW : W' = Bx * Ay - By * Ax) by reflexivity.
  rewrite EU, EV, EW. clear EU EV EW X Y Z. clearbody Ax Ay Bx By Cx Cy.
  assert (UV : u * (Ax * Cy - Ay * Cx) = v * (Cx * By - Cy * Bx)).
  { replace (u * (Ax * Cy - Ay * Cx)) with (v * (Cx * By - Cy * Bx) + ((u * Ax + v * Bx + w * Cx) * Cy - (u * Ay + v * By + w * Cy) * Cx)) by ring. rewrite X0, Y0. ring. }
  assert (UW : u * (Bx * Ay - By * Ax) = w * (Cx * By - Cy * Bx)).
  { replace (u * (Bx * Ay - By * Ax)) with (w * (Cx * By - Cy * Bx) + ((u * Ay + v * By + w * Cy) * Bx - (u * Ax + v * Bx + w * Cx) * By)) by ring. rewrite X0, Y0. ring. }
  assert (VW : v * (Bx * Ay - By * Ax) = w * (Ax * Cy - Ay * Cx)).
  { replace (v * (Bx * Ay - By * Ax)) with (w * (Ax * Cy - Ay * Cx) + ((u * Ax + v * Bx + w * Cx) * Ay - (u * Ay + v * By + w * Cy) * Ax)) by ring. rewrite X0, Y0. ring. }
  set (P := Cx * By - Cy * Bx) in *. set (Q := Ax * Cy - Ay * Cx) in *. set (N := Bx * Ay - By * Ax) in *. clearbody P Q N.
  repeat split.
  - replace (u * (P + Q + N)) with (u * P + (u * Q + u * N)) by ring. rewrite UV, UW. replace (u * P + (v * P + w * P)) with ((u + v + w) * P) by ring. rewrite S. ring.
  - replace (v * (P + Q + N)) with (v * P + v * Q + v * N) by ring. rewrite <- UV, VW. replace (u * Q + v * Q + w * Q) with ((u + v + w) * Q) by ring. rewrite S. ring.
  - replace (w * (P + Q + N)) with (w * P + w * Q + w * N) by ring. rewrite <- UW, <- VW. replace (u * N + v * N + w * N) with ((u + v + w) * N) by ring. rewrite S. ring.
Qed.
End Core.

(** ** The test *)
Definition third (kx ky kz : axis) : Prop :=
  (kx = next kz /\ ky = next (next kz)) \/ (ky = next kz /\ kx = next (next kz)).

Lemma prepared o d : d <> mkv 0 0 0 -> exists kx ky kz,
  prepare_ray o d = mkwray o kx ky kz (coord kx d / coord kz d) (coord ky d / coord kz d) (1 / coord kz d) /\
  ((0 < coord kz d /\ kx = next kz /\ ky = next (next kz)) \/ (coord kz d < 0 /\ ky = next kz /\ kx = next (next kz))).
Proof.
  intros N. pose proof (main_nonzero d N) as Z. unfold prepare_ray. set (kz := main_axis d) in *.
  destruct (Rlt_dec (coord kz d) 0).
  - exists (next (next kz)), (next kz), kz. split; auto.
  - exists (next kz), (next (next kz)), kz. split; auto. left. split; auto. lra.
Qed.

(** The edge functions of the model. *)
Definition edges (kx ky kz : axis) (o d : vec) (t : triangle) (f : R -> R -> R -> R -> R -> R -> R -> R -> R -> R -> R -> R -> R) : R :=
  let A := vsub (ta t) o in let B := vsub (tb t) o in let C := vsub (tc t) o in
  f (coord kx A) (coord ky A) (coord kz A) (coord kx B) (coord ky B) (coord kz B) (coord kx C) (coord ky C) (coord kz C) (coord kx d) (coord ky d) (coord kz d).

Lemma woop_value kx ky kz o d t :
  woop (mkwray o kx ky kz (coord kx d / coord kz d) (coord ky d / coord kz d) (1 / coord kz d)) t =
  let U := edges kx ky kz o d t Uf in let V := edges kx ky kz o d t Vf in let W := edges kx ky kz o d t Wf in
  if any_negative U V W && any_negative (- U) (- V) (- W) then None
  else if Req_EM_T (U + V + W) 0 then None
  else Some (mkhit (edges kx ky kz o d t Tf / (U + V + W)) (if Rlt_dec 0 (U + V + W) then true else false)).
Proof. reflexivity. Qed.

Lemma nd_cyclic kz o d t : edges (next kz) (next (next kz)) kz o d t nd = vdot (normal (ta t) (tb t) (tc t)) d.
Proof. destruct kz; unfold edges, nd, normal, vdot, vcross, vsub; cbn; ring. Qed.
Lemma nd_swapped kz o d t : edges (next (next kz)) (next kz) kz o d t nd = - vdot (normal (ta t) (tb t) (tc t)) d.
Proof. destruct kz; unfold edges, nd, normal, vdot, vcross, vsub; cbn; ring. Qed.

Definition ordered (kx ky kz : axis) (d : vec) : Prop :=
  (0 < coord kz d /\ kx = next kz /\ ky = next (next kz)) \/ (coord kz d < 0 /\ ky = next kz /\ kx = next (next kz)).

Definition detf kx ky kz o d t : R := edges kx ky kz o d t Uf + edges kx ky kz o d t Vf + edges kx ky kz o d t Wf.

Lemma ordered_nonzero kx ky kz d : ordered kx ky kz d -> coord kz d <> 0.
Proof. intros [(H & _)|(H & _)]; lra. Qed.

Lemma det_value kx ky kz o d t : ordered kx ky kz d ->
  detf kx ky kz o d t * Rabs (coord kz d) = - vdot (normal (ta t) (tb t) (tc t)) d.
Proof.
  intros O. pose proof (ordered_nonzero _ _ _ _ O) as Z. unfold detf, edges. cbv zeta.
  destruct O as [(P & -> & ->)|(P & -> & ->)].
  - rewrite Rabs_right by lra. rewrite det_core by auto. rewrite <- (nd_cyclic kz o d t). reflexivity.
  - rewrite Rabs_left by lra.
    match goal with |- ?a * - ?b = _ => replace (a * - b) with (- (a * b)) by ring end.
    rewrite det_core by auto. rewrite <- (Ropp_involutive (vdot _ _)). rewrite <- (nd_swapped kz o d t). unfold edges; cbv zeta. ring.
Qed.

Lemma det_sign kx ky kz o d t : ordered kx ky kz d -> (0 < detf kx ky kz o d t <-> vdot (normal (ta t) (tb t) (tc t)) d < 0) /\
  (detf kx ky kz o d t = 0 <-> vdot (normal (ta t) (tb t) (tc t)) d = 0).
Proof.
  intros O. pose proof (det_value _ _ _ o _ t O) as E. pose proof (Rabs_pos_lt _ (ordered_nonzero _ _ _ _ O)) as P.
  set (D := detf _ _ _ _ _ _) in *. set (n := vdot _ _) in *. clearbody D n. repeat split; intro; nra.
Qed.

Lemma by_axes (P : axis -> Prop) kx ky kz d : ordered kx ky kz d -> P kx -> P ky -> P kz -> forall k, P k.
Proof. intros [(_ & -> & ->)|(_ & -> & ->)] ? ? ? k; destruct kz, k; auto. Qed.

Lemma coord_eq u v : (forall k, coord k u = coord k v) -> u = v.
Proof. intros H. apply veq3; [apply (H AX)|apply (H AY)|apply (H AZ)]. Qed.

Lemma any_negative_false a b c : any_negative a b c = false -> 0 <= a /\ 0 <= b /\ 0 <= c.
Proof. unfold any_negative. destruct (Rlt_dec a 0), (Rlt_dec b 0), (Rlt_dec c 0); cbn; intros; try discriminate. lra. Qed.
Lemma any_negative_nonneg a b c : 0 <= a -> 0 <= b -> 0 <= c -> any_negative a b c = false.
Proof. unfold any_negative. intros. destruct (Rlt_dec a 0), (Rlt_dec b 0), (Rlt_dec c 0); cbn; auto; lra. Qed.

Lemma coord_vadd k a b : coord k (vadd a b) = coord k a + coord k b. Proof. destruct k; reflexivity. Qed.
Lemma coord_vscale k a b : coord k (vscale a b) = a * coord k b. Proof. destruct k; reflexivity. Qed.
Lemma coord_vsub k a b : coord k (vsub a b) = coord k a - coord k b. Proof. destruct k; reflexivity. Qed.

Lemma woop_sound o d t h : d <> mkv 0 0 0 -> woop (prepare_ray o d) t = Some h ->
  mean_of (ta t) (tb t) (tc t) (point o d (h_t h)) /\ vdot (normal (ta t) (tb t) (tc t)) d <> 0 /\
  (h_front h = true <-> vdot (normal (ta t) (tb t) (tc t)) d < 0).
Proof.
  intros N. destruct (prepared o d N) as (kx & ky & kz & -> & O). fold (ordered kx ky kz d) in O.
  rewrite woop_value. cbv zeta.
  pose proof (det_sign kx ky kz o d t O) as [S S0]. pose proof (ordered_nonzero _ _ _ _ O) as Z. unfold detf in S, S0.
  set (U := edges kx ky kz o d t Uf) in *. set (V := edges kx ky kz o d t Vf) in *. set (W := edges kx ky kz o d t Wf) in *.
  set (T := edges kx ky kz o d t Tf) in *.
  destruct (any_negative U V W && any_negative (- U) (- V) (- W)) eqn:E; [discriminate|].
  destruct (Req_EM_T (U + V + W) 0) as [|D]; [discriminate|]. intros H. injection H as <-. cbn.
  split; [|split; [intro; apply D; tauto|destruct (Rlt_dec 0 (U + V + W)); intuition discriminate]].
  assert (G : (0 <= U /\ 0 <= V /\ 0 <= W /\ 0 < U + V + W) \/ (U <= 0 /\ V <= 0 /\ W <= 0 /\ U + V + W < 0)).
  { apply andb_false_iff in E. destruct E as [E|E]; apply any_negative_false in E; [left|right]; lra. }
  exists (U / (U + V + W)), (V / (U + V + W)), (W / (U + V + W)).
  assert (Q : forall X, (0 <= X /\ 0 < U + V + W) \/ (X <= 0 /\ U + V + W < 0) -> 0 <= X / (U + V + W)).
  { intros X [[]|[]]; [apply Rmult_le_pos; [auto|apply Rlt_le, Rinv_0_lt_compat; auto]|].
    replace (X / (U + V + W)) with ((- X) / (- (U + V + W))) by (field; lra). apply Rmult_le_pos; [lra|apply Rlt_le, Rinv_0_lt_compat; lra]. }
  split; [apply Q; tauto|]. split; [apply Q; tauto|]. split; [apply Q; tauto|]. split; [field; auto|].
  assert (X : forall k, T * coord k d = U * coord k (vsub (ta t) o) + V * coord k (vsub (tb t) o) + W * coord k (vsub (tc t) o)).
  { apply (by_axes _ _ _ _ _ O).
    - unfold T, U, V, W, edges; cbv zeta. apply tx; auto.
    - unfold T, U, V, W, edges; cbv zeta. apply ty; auto.
    - unfold T, U, V, W, edges; cbv zeta. apply tz; auto. }
  apply coord_eq. intros k. specialize (X k). unfold point. rewrite !coord_vadd, !coord_vscale. rewrite !coord_vsub in X.
  apply (Rmult_eq_reg_l (U + V + W)); auto.
  replace ((U + V + W) * (coord k o + T / (U + V + W) * coord k d)) with ((U + V + W) * coord k o + T * coord k d) by (field; auto).
  replace ((U + V + W) * (U / (U + V + W) * coord k (ta t) + (V / (U + V + W) * coord k (tb t) + W / (U + V + W) * coord k (tc t))))
    with (U * coord k (ta t) + V * coord k (tb t) + W * coord k (tc t)) by (field; auto).
  rewrite X. ring.
Qed.

Lemma woop_complete o d t s : d <> mkv 0 0 0 -> vdot (normal (ta t) (tb t) (tc t)) d <> 0 -> mean_of (ta t) (tb t) (tc t) (point o d s) ->
  exists f, woop (prepare_ray o d) t = Some (mkhit s f).
Proof.
  intros N D (u & v & w & Hu & Hv & Hw & S1 & E).
  destruct (prepared o d N) as (kx & ky & kz & -> & O). fold (ordered kx ky kz d) in O.
  rewrite woop_value. cbv zeta.
  pose proof (det_sign kx ky kz o d t O) as [_ S0]. pose proof (ordered_nonzero _ _ _ _ O) as Z. unfold detf in S0.
  assert (X : forall k, s * coord k d = u * coord k (vsub (ta t) o) + v * coord k (vsub (tb t) o) + w * coord k (vsub (tc t) o)).
  { intros k. assert (F := f_equal (coord k) E). unfold point in F. rewrite !coord_vadd, !coord_vscale in F. rewrite !coord_vsub.
    replace (u * (coord k (ta t) - coord k o) + v * (coord k (tb t) - coord k o) + w * (coord k (tc t) - coord k o)) with (u * coord k (ta t) + (v * coord k (tb t) + w * coord k (tc t)) - (u + v + w) * coord k o) by ring.
    rewrite S1. lra. }
  destruct (weights _ _ _ _ _ _ _ _ _ _ _ _ Z u v w s S1 (X kx) (X ky) (X kz)) as (WU & WV & WW).
  assert (WU' : edges kx ky kz o d t Uf = u * (edges kx ky kz o d t Uf + edges kx ky kz o d t Vf + edges kx ky kz o d t Wf)) by exact WU.
  assert (WV' : edges kx ky kz o d t Vf = v * (edges kx ky kz o d t Uf + edges kx ky kz o d t Vf + edges kx ky kz o d t Wf)) by exact WV.
  assert (WW' : edges kx ky kz o d t Wf = w * (edges kx ky kz o d t Uf + edges kx ky kz o d t Vf + edges kx ky kz o d t Wf)) by exact WW.
  clear WU WV WW.
  assert (TZ : edges kx ky kz o d t Tf * coord kz d = edges kx ky kz o d t Uf * coord kz (vsub (ta t) o) + edges kx ky kz o d t Vf * coord kz (vsub (tb t) o) + edges kx ky kz o d t Wf * coord kz (vsub (tc t) o)) by (apply tz; auto).
  set (U := edges kx ky kz o d t Uf) in *. set (V := edges kx ky kz o d t Vf) in *. set (W := edges kx ky kz o d t Wf) in *.
  set (T := edges kx ky kz o d t Tf) in *. clearbody U V W T.
  assert (DD : U + V + W <> 0) by tauto.
  set (det := U + V + W) in *. clearbody det.
  assert (G : any_negative U V W && any_negative (- U) (- V) (- W) = false).
  { apply andb_false_iff. destruct (Rle_dec 0 det); [left|right]; apply any_negative_nonneg; nra. }
  rewrite G. destruct (Req_EM_T det 0); [contradiction|].
  assert (ET : T / det = s).
  { apply (Rmult_eq_reg_r (det * coord kz d)); [|apply Rmult_integral_contrapositive; auto].
    replace (T / det * (det * coord kz d)) with (T * coord kz d) by (field; auto). rewrite TZ, WU', WV', WW'.
    replace (s * (det * coord kz d)) with (det * (s * coord kz d)) by ring. rewrite (X kz). ring. }
  rewrite ET. eauto.
Qed.

Lemma woop_parallel o d t : d <> mkv 0 0 0 -> vdot (normal (ta t) (tb t) (tc t)) d = 0 -> woop (prepare_ray o d) t = None.
Proof. intros N E. destruct (woop _ t) eqn:W; auto. exfalso. destruct (woop_sound _ _ _ _ N W) as (_ & H & _). contradiction. Qed.
