(** Properties C32, C33, C47-C51 and C73. *)
From Coq Require Import Reals Bool Lra.
From Verif Require Import VectorModel QuatModel QuatSpec QuatProofs QuatPlace.
Open Scope R_scope.

(** ** C48: quaternions and rotations *)

(** The product is the one of scalar and vector parts. *)
Theorem C48_product : forall a b, qmul a b = hamilton a b.
Proof. exact hamilton_ok. Qed.
Print Assumptions C48_product.

Theorem C48_group : (forall a b c, qmul (qmul a b) c = qmul a (qmul b c)) /\ (forall a, qmul qone a = a /\ qmul a qone = a) /\
  (forall a, nonzero a -> qmul a (qinv a) = qone /\ qmul (qinv a) a = qone) /\ (forall a b, qnorm2 (qmul a b) = qnorm2 a * qnorm2 b).
Proof. exact group_laws. Qed.
Print Assumptions C48_group.

(** Rotating a vector is conjugation; likewise for quaternions. *)
Theorem C48_rotate_is_conjugation : forall a p, nonzero a -> exact a -> qvec (qrotate a p false) = qmul (qmul a (qvec p)) (qinv a).
Proof. exact rotate_conjugates. Qed.
Print Assumptions C48_rotate_is_conjugation.

Theorem C48_rotate_quaternion : forall a p, nonzero a ->
  qrotate_q a p false = qmul (qmul a p) (qinv a) /\ qrotate_q a p true = qmul (qmul (qinv a) p) a.
Proof. exact qrotate_q_ok. Qed.
Print Assumptions C48_rotate_quaternion.

(** [rotate] is a rotation of space in either direction. *)
Theorem C48_rotation : forall a, nonzero a -> exact a -> rotation (fun p => qrotate a p false) /\ rotation (fun p => qrotate a p true).
Proof. exact rotate_is_rotation. Qed.
Print Assumptions C48_rotation.

Theorem C48_inverse : forall a, nonzero a -> exact a -> mutually_inverse (fun p => qrotate a p false) (fun p => qrotate a p true).
Proof. exact rotate_undone. Qed.
Print Assumptions C48_inverse.

Theorem C48_composition : forall a b p, nonzero a -> nonzero b -> exact a -> exact b -> exact (qmul a b) ->
  qrotate (qmul a b) p false = qrotate a (qrotate b p false) false.
Proof. exact rotate_composes. Qed.
Print Assumptions C48_composition.

(** For every non-zero quaternion: lengths to one part in 10^12, and rotating back to three. *)
Theorem C48_lengths : forall a p inv, nonzero a -> Rabs (vmag (qrotate a p inv) - vmag p) <= 1 / 10 ^ 12 * vmag p.
Proof. exact rotate_length_near. Qed.
Print Assumptions C48_lengths.

Theorem C48_back : forall a p, nonzero a -> vmag (vsub (qrotate a (qrotate a p false) true) p) <= 3 / 10 ^ 12 * vmag p.
Proof. exact rotate_back_near. Qed.
Print Assumptions C48_back.

(** Exactly, it fails: the shortcut for norms close to one stretches. *)
Theorem C48_lengths_exact_refuted : exists a p, nonzero a /\ vmag (qrotate a p false) <> vmag p.
Proof. exact near_unit_stretches. Qed.
Print Assumptions C48_lengths_exact_refuted.

(** The matrix of a unit quaternion acts as it does, and gives it back up to the sign. *)
Theorem C48_matrix : forall a p, unit a -> mat_apply (get_matrix a) p = qrotate a p false.
Proof. exact matrix_acts. Qed.
Print Assumptions C48_matrix.

Theorem C48_matrix_round_trip : forall a, unit a -> set_matrix (get_matrix a) = a \/ set_matrix (get_matrix a) = opposite a.
Proof. exact matrix_round. Qed.
Print Assumptions C48_matrix_round_trip.

(** Axis and angle give the rotation by that angle about that axis. *)
Theorem C48_axis_angle : forall axis angle, axis <> mkv 0 0 0 -> unit (set_axis_angle axis angle) /\
  forall p, qrotate (set_axis_angle axis angle) p false = rodrigues (vscale (/ vmag axis) axis) angle p.
Proof. exact axis_angle_ok. Qed.
Print Assumptions C48_axis_angle.

(** A third of a turn about the diagonal takes x to y; with a non-unit quaternion. *)
Example C48_case : nonzero (mkq 1 1 1 1) /\ exact (mkq 1 1 1 1) /\ qrotate (mkq 1 1 1 1) (mkv 1 0 0) false = mkv 0 1 0.
Proof.
  assert (N : nonzero (mkq 1 1 1 1)) by (intros E; injection E as E; lra).
  assert (X : exact (mkq 1 1 1 1)) by (right; unfold qnorm2; cbn [qx qy qz qw]; rewrite Rabs_right; lra).
  split; auto. split; auto. rewrite rotate_turn by auto. apply vec_eq; cbn; unfold qnorm2; cbn; field.
Qed.

(** The composition theorem is not about one axis only. *)
Example C48_composition_case : exact (qmul (mkq 0 0 1 0) (mkq 1 0 0 0)) /\ unit (mkq 0 0 1 0) /\ unit (mkq 1 0 0 0) /\ qmul (mkq 0 0 1 0) (mkq 1 0 0 0) = mkq 0 1 0 0.
Proof. split; [left; unfold unit, qnorm2; cbn; ring|]. split; [unfold unit, qnorm2; cbn; ring|]. split; [unfold unit, qnorm2; cbn; ring|]. apply quat_eq; cbn; ring. Qed.

(** ** C49: compound operators *)
Theorem C49_refuted : (exists a b, qmul_assign a b <> qmul a b) /\ (exists a k, qplus a k <> qplus_assign a k).
Proof. exact compound_disagrees. Qed.
Print Assumptions C49_refuted.

(** What they do instead: [q *= r] is [r * q], [q + s] is [q * s]; the others agree. *)
Theorem C49_others_agree : (forall a b, qmul_assign a b = qmul b a) /\ (forall a b, qadd_assign a b = qadd a b) /\
  (forall a k, qscale_assign a k = qscale a k) /\ (forall a k, qplus a k = qscale a k) /\ (forall a b, qmul a b = qmul b a -> qmul_assign a b = qmul a b).
Proof. exact compound_agrees. Qed.
Print Assumptions C49_others_agree.

(** ** C50: rotation between vectors *)
Theorem C50_between_partial : forall v0 v1, v0 <> mkv 0 0 0 -> v1 <> mkv 0 0 0 -> ~ (along_x v0 /\ antiparallel v0 v1) ->
  unit (rotation_between v0 v1) /\ qrotate (rotation_between v0 v1) (vscale (/ vmag v0) v0) false = vscale (/ vmag v1) v1.
Proof. exact between_ok. Qed.
Print Assumptions C50_between_partial.

(** The excluded pairs do give the zero quaternion. *)
Theorem C50_antiparallel_x_refuted : exists v0 v1, v0 <> mkv 0 0 0 /\ v1 <> mkv 0 0 0 /\ ~ unit (rotation_between v0 v1).
Proof. exact between_refuted. Qed.
Print Assumptions C50_antiparallel_x_refuted.

(** Straight down from straight up, as the position distributions ask. *)
Example C50_case : mkv 0 0 1 <> mkv 0 0 0 /\ ~ (along_x (mkv 0 0 1) /\ antiparallel (mkv 0 0 1) (mkv 0 0 (-3))) /\ antiparallel (mkv 0 0 1) (mkv 0 0 (-3)).
Proof.
  split; [intros E; injection E as E; lra|]. split; [intros [[_ H] _]; cbn in H; lra|].
  unfold antiparallel. rewrite normalized_of_unit by (unfold vdot; cbn; ring).
  assert (M : vmag (mkv 0 0 (-3)) = 3). { unfold vmag. cbn. replace (0 * 0 + 0 * 0 + -3 * -3) with (3 * 3) by ring. apply sqrt_square. lra. }
  unfold vnormalized. rewrite M. destruct (Req_EM_T 3 0); [lra|]. apply vec_eq; cbn; field.
Qed.

(** ** C51: equality of vectors *)
Theorem C51_equal_means_same_coordinates : forall a b, vector_eqb a b = true -> v_cart a = v_cart b.
Proof. exact equal_cart. Qed.
Print Assumptions C51_equal_means_same_coordinates.

Theorem C51_plain_vectors_partial : forall atan2 acos_ a b, made_plain atan2 acos_ a -> made_plain atan2 acos_ b ->
  (vector_eqb a b = true <-> v_cart a = v_cart b).
Proof. exact plain_eq. Qed.
Print Assumptions C51_plain_vectors_partial.

Theorem C51_normalized_refuted : forall atan2 acos_, exists a b, made atan2 acos_ a /\ made atan2 acos_ b /\ v_cart a = v_cart b /\ vector_eqb a b = false.
Proof. exact normalized_differs. Qed.
Print Assumptions C51_normalized_refuted.

Example C51_case : forall atan2 acos_, made_plain atan2 acos_ (vapply atan2 acos_ (OAdd (mkv 1 2 3)) (vector_new (mkv 4 5 6))) /\
  v_cart (vapply atan2 acos_ (OAdd (mkv 1 2 3)) (vector_new (mkv 4 5 6))) = mkv 5 7 9.
Proof. intros. split; [constructor; [constructor|auto]|]. apply vec_eq; cbn; ring. Qed.

(** ** C47: placements *)

(** Constructors and setters give valid placements ... *)
Theorem C47_valid : (forall p q, nonzero q -> valid (place p q)) /\ (forall s p, valid s -> valid (set_position s p)) /\
  (forall s q, nonzero q -> valid (set_quaternion s q)).
Proof. exact (conj place_valid (conj set_position_valid set_quaternion_valid)). Qed.
Print Assumptions C47_valid.

(** ... whose maps are inverse to each other and keep lengths. *)
Theorem C47_maps : forall s, valid s ->
  mutually_inverse (local_to_global s) (global_to_local s) /\ mutually_inverse (local_to_global_dir s) (global_to_local_dir s) /\
  isometry (local_to_global s) /\ isometry (global_to_local s) /\ rotation (local_to_global_dir s) /\ rotation (global_to_local_dir s).
Proof. exact valid_maps. Qed.
Print Assumptions C47_maps.

(** Skipping the maps when the identity flag is set changes points by 4 parts in 10^12. *)
Theorem C47_identity_flag : forall s p, valid s -> p_identity s = true -> vmag (vsub (local_to_global s p) p) <= 4 / 10 ^ 12 * vmag p.
Proof. exact identity_close. Qed.
Print Assumptions C47_identity_flag.

Example C47_case : valid (place (mkv 1 2 3) (mkq 0 0 2 0)) /\ local_to_global (place (mkv 1 2 3) (mkq 0 0 2 0)) (mkv 1 0 0) = mkv 0 2 3.
Proof.
  assert (N : nonzero (mkq 0 0 2 0)) by (intros E; injection E as E; lra). split; [apply place_valid; auto|].
  unfold local_to_global, place. cbn [p_quat p_position]. pose proof (normalize_unit _ N).
  rewrite rotate_turn by (auto using unit_nonzero, unit_exact). rewrite normalize_turn by auto.
  apply vec_eq; cbn; unfold qnorm2; cbn; field.
Qed.

(** ** C32: detector coordinates *)
Theorem C32_inverse : forall A (m : frame A), nonzero (ds_rotation m) -> exact (ds_rotation m) ->
  mutually_inverse (to_det m) (to_geo m) /\ mutually_inverse (to_det_dir m) (to_geo_dir m) /\
  isometry (to_det m) /\ isometry (to_geo m) /\ rotation (to_det_dir m) /\ rotation (to_geo_dir m).
Proof. exact @frame_maps. Qed.
Print Assumptions C32_inverse.

(** Every non-zero rotation: to three parts in 10^12 of the distance to the origin. *)
Theorem C32_near : forall A (m : frame A) p, nonzero (ds_rotation m) -> vmag (vsub (to_det m (to_geo m p)) p) <= 3 / 10 ^ 12 * vmag p.
Proof. exact @frame_near. Qed.
Print Assumptions C32_near.

Theorem C32_exact_refuted : exists (m : frame Datatypes.unit) p, nonzero (ds_rotation m) /\ to_det m (to_geo m p) <> p.
Proof. exact frame_near_refuted. Qed.
Print Assumptions C32_exact_refuted.

Example C32_case : to_det (mkframe tt (mkv 10 20 30) half_z) (mkv 11 22 33) = mkv (-1) (-2) 3.
Proof. unfold to_det. cbn [ds_rotation ds_origin]. rewrite half_z_rotate. apply vec_eq; cbn; ring. Qed.

(** ** C33: saving a detector model *)
Theorem C33_saved_refuted : exists (m : frame Datatypes.unit) p, to_det (save_and_load m) p <> to_det m p.
Proof. exact saved_loses_rotation. Qed.
Print Assumptions C33_saved_refuted.

Theorem C33_equal_refuted : exists (m n : frame Datatypes.unit) p, frame_eqb (fun _ _ => true) m n = true /\ to_det m p <> to_det n p.
Proof. exact equal_different. Qed.
Print Assumptions C33_equal_refuted.

(** Everything else is kept, and the loss is not seen by [==]. *)
Theorem C33_rest_kept : forall A (eqa : A -> A -> bool) (m : frame A), (forall a, eqa a a = true) ->
  ds_rest (save_and_load m) = ds_rest m /\ ds_origin (save_and_load m) = ds_origin m /\ frame_eqb eqa (save_and_load m) m = true.
Proof. exact @saved_equal. Qed.
Print Assumptions C33_rest_kept.

Theorem C33_unrotated_partial : forall A (m : frame A), ds_rotation m = qone -> save_and_load m = m.
Proof. exact @saved_keeps_identity. Qed.
Print Assumptions C33_unrotated_partial.

Example C33_case : to_det (mkframe tt (mkv 0 0 0) half_z) (mkv 1 0 0) = mkv (-1) 0 0 /\
  save_and_load (mkframe tt (mkv 0 0 0) half_z) = mkframe tt (mkv 0 0 0) qone.
Proof. split; auto. unfold to_det. cbn [ds_rotation ds_origin]. rewrite half_z_rotate. apply vec_eq; cbn; ring. Qed.

(** ** C73: Euler angles *)
Theorem C73_products : forall a b g,
  q_from_xyzs a b g = qmul (set_axis_angle axis_z g) (qmul (set_axis_angle axis_y b) (set_axis_angle axis_x a)) /\
  q_from_zxzr a b g = qmul (set_axis_angle axis_z a) (qmul (set_axis_angle axis_x b) (set_axis_angle axis_z g)) /\
  unit (q_from_xyzs a b g) /\ unit (q_from_zxzr a b g).
Proof. exact (fun a b g => conj (xyzs_ok a b g) (conj (zxzr_ok a b g) (euler_unit a b g))). Qed.
Print Assumptions C73_products.

Theorem C73_action : forall a b g p,
  qrotate (q_from_xyzs a b g) p false = rodrigues axis_z g (rodrigues axis_y b (rodrigues axis_x a p)) /\
  qrotate (q_from_zxzr a b g) p false = rodrigues axis_z a (rodrigues axis_x b (rodrigues axis_z g p)).
Proof. exact euler_action. Qed.
Print Assumptions C73_action.

(** A right angle about each axis in turn takes z to x. *)
Example C73_case : qrotate (q_from_xyzs (PI / 2) (PI / 2) (PI / 2)) (mkv 0 0 1) false = mkv 1 0 0.
Proof.
  rewrite (proj1 (C73_action _ _ _ _)). unfold rodrigues. rewrite cos_PI2, sin_PI2. apply vec_eq; cbn; unfold vdot; cbn; ring.
Qed.
