(** The twenty-four orders of Euler angles. *)
From Coq Require Import NArith Reals List Lra Lia.
From Verif Require Import VectorModel QuatModel QuatSpec QuatProofs QuatPlace EulerModel EulerSpec EulerProofs.
Import ListNotations.
Open Scope R_scope.

Ltac reals := cbv -[Rmult Rplus Ropp Rminus Rinv sin cos IZR].

(** ** Quaternions *)
Definition letter_axis (l : letter) : vec := match l with LX => axis_x | LY => axis_y | LZ => axis_z end.
Definition letter_q (l : letter) (t : R) : quat := set_axis_angle (letter_axis l) t.
Definition order_q (o : order) (a b g : R) : quat :=
  let '(l1, l2, l3) := letters o in
  if turning o then qmul (letter_q l1 a) (qmul (letter_q l2 b) (letter_q l3 g))
  else qmul (letter_q l3 g) (qmul (letter_q l2 b) (letter_q l1 a)).
Lemma letter_one l : vdot (letter_axis l) (letter_axis l) = 1.
Proof. destruct l; unfold vdot; cbn; ring. Qed.
Lemma letter_mk l t : letter_q l t = mkq (sin (t * / 2) * vx (letter_axis l)) (sin (t * / 2) * vy (letter_axis l)) (sin (t * / 2) * vz (letter_axis l)) (cos (t * / 2)).
Proof. apply axis_q, letter_one. Qed.
Lemma from_euler_product o a b g : quaternion_from_euler (mkeuler o a b g) = order_q o a b g.
Proof.
  unfold order_q. destruct o; cbn [letters turning]; rewrite !letter_mk; apply quat_eq; reals; rewrite ?cos_neg, ?sin_neg; ring.
Qed.
Lemma order_q_unit o a b g : unit (order_q o a b g).
Proof.
  unfold order_q. destruct (letters o) as ((l1 & l2) & l3).
  destruct (turning o); repeat apply unit_mul; apply axis_unit, letter_one.
Qed.
Lemma letter_turn l t p : turn (letter_q l t) p = about l t p.
Proof.
  assert (U := letter_one l). assert (NZ : letter_axis l <> mkv 0 0 0) by (intros E; rewrite E in U; unfold vdot in U; cbn in U; lra).
  destruct (axis_angle_ok _ t NZ) as [UN H]. unfold letter_q, about. rewrite <- rotate_turn by (auto using unit_nonzero, unit_exact). rewrite H. f_equal.
  assert (M : vmag (letter_axis l) = 1) by (rewrite vmag_dot, U; apply sqrt_1). rewrite M. destruct l; apply vec_eq; cbn; field.
Qed.
Lemma order_q_turn o a b g p : qrotate (order_q o a b g) p false = turned o a b g p.
Proof.
  rewrite rotate_turn by (auto using unit_nonzero, unit_exact, order_q_unit). unfold order_q, turned.
  destruct (letters o) as ((l1 & l2) & l3).
  assert (AN : forall l t, nonzero (letter_q l t)) by (intros; apply unit_nonzero, axis_unit, letter_one).
  destruct (turning o); rewrite !turn_mul by (repeat apply mul_nonzero; apply AN); rewrite !letter_turn; auto.
Qed.

(** ** Matrices *)
Definition place9 (o : order) (v : nine) : option matrix :=
  let c := code o in let i := axis_i c in let j := axis_j c in let k := axis_k c in
  let '(ii, ij, ik, (ji, jj, jk), (ki, kj, kk)) := v in
  assign mzero [(i, i, ii); (i, j, ij); (i, k, ik); (j, i, ji); (j, j, jj); (j, k, jk); (k, i, ki); (k, j, kj); (k, k, kk)].
Definition repeats (o : order) : bool := N.eqb (get_repetition (code o)) rep_yes.
Definition odd (o : order) : bool := N.eqb (get_parity (code o)) par_odd.
Definition sign (o : order) (x : R) : R := if odd o then - x else x.
Definition nine_of (o : order) (a b g : R) : nine :=
  (if repeats o then repeat_nine else plain_nine) (sign o (if turning o then g else a)) (sign o b) (sign o (if turning o then a else g)).

Lemma mat_ext m m' : (forall p, mat_apply m p = mat_apply m' p) -> m = m'.
Proof.
  intros H. pose proof (H (mkv 1 0 0)) as A. pose proof (H (mkv 0 1 0)) as B. pose proof (H (mkv 0 0 1)) as C.
  destruct m, m'. unfold mat_apply in *. cbn in *. injection A as A1 A2 A3. injection B as B1 B2 B3. injection C as C1 C2 C3.
  f_equal; lra.
Qed.
Lemma place_turn o a b g : exists m, place9 o (nine_of o a b g) = Some m /\ forall p, mat_apply m p = turned o a b g p.
Proof.
  destruct o; (eexists; split; [reflexivity |]); intros [x y z]; unfold turned; cbn [letters turning]; apply vec_eq; reals; rewrite ?cos_neg, ?sin_neg; ring.
Qed.

Lemma from_static o a b g : turning o = false -> matrix_from_euler (mkeuler o a b g) = place9 o (nine_of o a b g).
Proof. destruct o; cbn [turning]; intros E; try discriminate E; reflexivity. Qed.
Lemma from_turning o a b g : turning o = true -> matrix_from_euler (mkeuler o a b g) = place9 o (nine_of o g a b).
Proof. destruct o; cbn [turning]; intros E; try discriminate E; reflexivity. Qed.

(** ** Rotation matrices *)
Lemma rotation_cofactors m : rotation_matrix m ->
  mxx m = myy m * mzz m - mzy m * myz m /\ myx m = mzy m * mxz m - mxy m * mzz m /\ mzx m = mxy m * myz m - myy m * mxz m /\
  mxy m = myz m * mzx m - mzz m * myx m /\ myy m = mzz m * mxx m - mxz m * mzx m /\ mzy m = mxz m * myx m - myz m * mxx m /\
  mxz m = myx m * mzy m - mzx m * myy m /\ myz m = mzx m * mxy m - mxx m * mzy m /\ mzz m = mxx m * myy m - myx m * mxy m /\
  mxz m * mxz m + myz m * myz m + mzz m * mzz m = 1 /\ mxx m * mxz m + myx m * myz m + mzx m * mzz m = 0 /\
  mxy m * mxz m + myy m * myz m + mzy m * mzz m = 0.
Proof.
  destruct m as [xx xy xz yx yy yz zx zy zz]. unfold rotation_matrix, vdot, vcross, column. cbn.
  intros (A & B & C & D). injection D as D1 D2 D3.
  assert (E1 : xz = yx * zy - zx * yy) by lra. assert (E2 : yz = zx * xy - xx * zy) by lra. assert (E3 : zz = xx * yy - yx * xy) by lra.
  assert (X : forall s t u : R, s * (xy * xy + yy * yy + zy * zy) - t * (xx * xy + yx * yy + zx * zy) = s) by (intros; rewrite B, C; ring).
  assert (Y : forall s t u : R, s * (xx * xx + yx * yx + zx * zx) - t * (xx * xy + yx * yy + zx * zy) = s) by (intros; rewrite A, C; ring).
  assert (N : (yx * zy - zx * yy) * (yx * zy - zx * yy) + (zx * xy - xx * zy) * (zx * xy - xx * zy) + (xx * yy - yx * xy) * (xx * yy - yx * xy) =
    (xx * xx + yx * yx + zx * zx) * (xy * xy + yy * yy + zy * zy) - (xx * xy + yx * yy + zx * zy) * (xx * xy + yx * yy + zx * zy)) by ring.
  rewrite A, B, C in N.
  repeat split; auto; try (rewrite E1, E2, E3; first [lra | ring]).
  - etransitivity; [symmetry; apply (X xx xy 0) | rewrite E2, E3; ring].
  - etransitivity; [symmetry; apply (X yx yy 0) | rewrite E1, E3; ring].
  - etransitivity; [symmetry; apply (X zx zy 0) | rewrite E1, E2; ring].
  - etransitivity; [symmetry; apply (Y xy xx 0) | rewrite E2, E3; ring].
  - etransitivity; [symmetry; apply (Y yy yx 0) | rewrite E1, E3; ring].
  - etransitivity; [symmetry; apply (Y zy zx 0) | rewrite E1, E2; ring].
Qed.

Definition elements (o : order) (m : matrix) : option nine :=
  let c := code o in let i := axis_i c in let j := axis_j c in let k := axis_k c in
  match mget m i i, mget m i j, mget m i k, mget m j i, mget m j j, mget m j k, mget m k i, mget m k j, mget m k k with
  | Some ii, Some ij, Some ik, Some ji, Some jj, Some jk, Some ki, Some kj, Some kk => Some (ii, ij, ik, (ji, jj, jk), (ki, kj, kk))
  | _, _, _, _, _, _, _, _, _ => None
  end.
Definition pole_sq (o : order) (v : nine) : R :=
  let '(ii, ij, ik, (ji, jj, jk), (ki, kj, kk)) := v in if repeats o then ij * ij + ik * ik else ii * ii + ji * ji.
Definition is_turn (v : nine) : Prop := let '(ii, ij, ik, (ji, jj, jk), (ki, kj, kk)) := v in turn9 ii ij ik ji jj jk ki kj kk.
Lemma elements_ok o m : exists v, elements o m = Some v /\ place9 o v = Some m /\ 
  (rotation_matrix m -> is_turn v /\ sqrt (pole_sq o v) = distance_from_pole o m).
Proof.
  destruct m as [xx xy xz yx yy yz zx zy zz].
  destruct o; (eexists; split; [reflexivity | split; [reflexivity |]]); intros RM; pose proof (rotation_cofactors _ RM) as CF;
    destruct RM as (A & B & C & _); unfold vdot, column in A, B, C; cbn in A, B, C, CF;
    destruct CF as (C1 & C2 & C3 & C4 & C5 & C6 & C7 & C8 & C9 & D1 & D2 & D3);
    unfold is_turn, pole_sq, distance_from_pole, repeats; cbn [letters turning element column coordinate vx vy vz mxx mxy mxz myx myy myz mzx mzy mzz];
    (match goal with |- ?P /\ _ => assert (TN : P) by (constructor; lra) end);
    pose proof (row_i _ _ _ _ _ _ _ _ _ TN); split; auto; f_equal;
    match goal with |- (if ?b then _ else _) = _ => let v := eval vm_compute in b in change b with v end; cbv match; lra.
Qed.

Definition raw_angles (o : order) (v : nine) : R * R * R :=
  let '(ii, ij, ik, (ji, jj, jk), (ki, kj, kk)) := v in angles_of (get_repetition (code o)) ii ij ik ji jj jk ki kj kk.
Definition settle_angles (o : order) (t : R * R * R) : euler :=
  let '(a, b, g) := t in mkeuler o (sign o (if turning o then g else a)) (sign o b) (sign o (if turning o then a else g)).
Lemma from_matrix_form o m v : elements o m = Some v -> euler_from_matrix m o = Some (settle_angles o (raw_angles o v)).
Proof.
  unfold elements, euler_from_matrix.
  destruct (mget m _ _); [| discriminate]. destruct (mget m _ _); [| discriminate]. destruct (mget m _ _); [| discriminate].
  destruct (mget m _ _); [| discriminate]. destruct (mget m _ _); [| discriminate]. destruct (mget m _ _); [| discriminate].
  destruct (mget m _ _); [| discriminate]. destruct (mget m _ _); [| discriminate]. destruct (mget m _ _); [| discriminate].
  intros E. injection E as <-. unfold raw_angles.
  destruct (angles_of _ _ _ _ _ _ _ _ _ _) as ((a & b) & g). unfold settle_angles, sign, odd.
  destruct o; reflexivity.
Qed.
Lemma sign_sign o x : sign o (sign o x) = x.
Proof. unfold sign. destruct (odd o); ring. Qed.
Lemma settled_nine o a b g : let e := settle_angles o (a, b, g) in
  nine_of o (e_alpha e) (e_beta e) (e_gamma e) = (if repeats o then repeat_nine else plain_nine) a b g.
Proof.
  cbn [settle_angles e_alpha e_beta e_gamma]. unfold nine_of. destruct (turning o); rewrite !sign_sign; auto.
Qed.
Lemma raw_recovers o v : is_turn v -> (pole < sqrt (pole_sq o v) \/ pole_sq o v = 0) ->
  (let '(a, b, g) := raw_angles o v in (if repeats o then repeat_nine else plain_nine) a b g) = v.
Proof.
  destruct v as ((((ii & ij) & ik) & ((ji & jj) & jk)) & ((ki & kj) & kk)). unfold is_turn, pole_sq, raw_angles, angles_of.
  intros T D. fold (repeats o). pose proof pole_pos as PP. destruct (repeats o).
  - destruct (Rlt_dec pole (sqrt (ij * ij + ik * ik))) as [L|L].
    + apply repeat_open; auto. destruct (Rle_lt_dec (ij * ij + ik * ik) 0) as [Q|Q]; auto. rewrite sqrt_neg_0 in L by auto. lra.
    + apply repeat_shut; auto. destruct D; auto. contradiction.
  - destruct (Rlt_dec pole (sqrt (ii * ii + ji * ji))) as [L|L].
    + apply plain_open; auto. destruct (Rle_lt_dec (ii * ii + ji * ji) 0) as [Q|Q]; auto. rewrite sqrt_neg_0 in L by auto. lra.
    + apply plain_shut; auto. destruct D; auto. contradiction.
Qed.
Lemma sqrt_zero a : 0 <= a -> sqrt a = 0 -> a = 0.
Proof. intros. apply sqrt_eq_0; auto. Qed.
Lemma pole_sq_nonneg o v : 0 <= pole_sq o v.
Proof. destruct v as ((((ii & ij) & ik) & ((ji & jj) & jk)) & ((ki & kj) & kk)). unfold pole_sq. destruct (repeats o); nra. Qed.

Definition turns (e : euler) : vec -> vec := turned (e_order e) (e_alpha e) (e_beta e) (e_gamma e).
Lemma recovers o m : rotation_matrix m -> (pole < distance_from_pole o m \/ distance_from_pole o m = 0) ->
  exists e, euler_from_matrix m o = Some e /\ e_order e = o /\ forall p, turns e p = mat_apply m p.
Proof.
  intros RM D. destruct (elements_ok o m) as (v & E & P & H). destruct (H RM) as (T & Q). rewrite <- Q in D.
  exists (settle_angles o (raw_angles o v)). split; [apply from_matrix_form; auto |].
  assert (D' : pole < sqrt (pole_sq o v) \/ pole_sq o v = 0) by (destruct D; auto using sqrt_zero, pole_sq_nonneg).
  pose proof (raw_recovers o v T D') as RR. destruct (raw_angles o v) as ((a & b) & g) eqn:RA.
  split; auto. intros p. unfold turns. 
  pose proof (settled_nine o a b g) as SN. cbv zeta in SN. rewrite RR in SN.
  destruct (place_turn o (e_alpha (settle_angles o (a, b, g))) (e_beta (settle_angles o (a, b, g))) (e_gamma (settle_angles o (a, b, g)))) as (m' & PM & TT).
  rewrite SN, P in PM. injection PM as <-. cbn [e_order settle_angles] in *. symmetry. apply TT.
Qed.
Lemma always_angles o m : exists e, euler_from_matrix m o = Some e /\ e_order e = o.
Proof.
  destruct (elements_ok o m) as (v & E & _). exists (settle_angles o (raw_angles o v)). split; [apply from_matrix_form; auto |].
  destruct (raw_angles o v) as ((a & b) & g). auto.
Qed.

(** ** Turns and rotation matrices *)
Lemma turned_rotation o a b g m : (forall p, mat_apply m p = turned o a b g p) -> rotation_matrix m.
Proof.
  intros H. assert (G : m = get_matrix (order_q o a b g)).
  { apply mat_ext. intros p. rewrite H, <- order_q_turn. symmetry. apply matrix_acts, order_q_unit. }
  pose proof (order_q_unit o a b g) as U. rewrite G. destruct (order_q o a b g) as [x y z w]. unfold unit, qnorm2 in U. cbn in U.
  unfold rotation_matrix, vdot, vcross, column, get_matrix. cbn.
  assert (W : w * w = 1 - x * x - y * y - z * z) by lra.
  repeat split; [ | | | apply vec_eq; cbn].
  all: match goal with |- ?l = ?r => cut (l - r = 0); [lra |] end.
  all: ring_simplify; replace (w ^ 2) with (w * w) by ring; try rewrite W; try ring.
Qed.
