(** The flattening of GDML volumes: theorems. *)
From Coq Require Import Reals ZArith List Bool Lia Lra Ascii String.
From Verif Require Import GdmlModel GdmlProofs GdmlLoopModel InstModel InstSpec InstProofs VectorModel QuatModel QuatSpec QuatProofs QuatPlace VolModel VolSpec VolProofs.
Import ListNotations.
Open Scope R_scope.

Lemma world_valid : valid (place (mkv 0 0 0) (q_from_zxzr 0 0 0)).
Proof. apply place_valid. apply unit_nonzero. apply euler_unit. Qed.
Lemma zero_turn : q_from_zxzr 0 0 0 = qone.
Proof.
  unfold q_from_zxzr, qone. cbn. replace (0 * / 2) with 0 by lra. replace (1 / 2 * (0 - 0)) with 0 by lra. replace (1 / 2 * (0 + 0)) with 0 by lra.
  replace ((0 - 0) * / 2) with 0 by lra. replace ((0 + 0) * / 2) with 0 by lra. replace (0 / 2) with 0 by lra.
  rewrite ?Rplus_0_r, ?Rminus_0_r, ?sin_0, ?cos_0. apply quat_eq; cbn; ring.
Qed.
Lemma world_local : forall x, global_to_local (place (mkv 0 0 0) (q_from_zxzr 0 0 0)) x = x.
Proof.
  intros x. rewrite zero_turn. unfold global_to_local, place. cbn [p_quat p_position].
  assert (N : nonzero qone) by (apply unit_nonzero; unfold unit, qnorm2; cbn; ring).
  pose proof (normalize_unit _ N) as U. rewrite rotate_turn_inv by (auto using unit_nonzero, unit_exact).
  apply turn_eq; [now apply unit_nonzero|]. rewrite normalize_turn by exact N.
  rewrite <- rotate_turn by (auto; left; unfold unit, qnorm2; cbn; ring). rewrite qone_rotate. apply vec_eq; cbn; ring.
Qed.

(** ** C152: the sectors are the pieces of the world *)

(** C152: a child is where the file says: its coordinates are those of its parent, shifted and then turned. *)
Theorem C152_child : forall p c x, valid p -> valid (child_placement p c) /\
  global_to_local (child_placement p c) x = into_child c (global_to_local p x).
Proof. intros p c x V. split; [now apply child_valid|now apply child_frame]. Qed.
Print Assumptions C152_child.

(** C152: what is loaded is the universe and then the pieces of the world volume, each with its own map of
    coordinates. *)
Theorem C152_pieces : forall w fuel n level l, n <> [] -> load w fuel n = Built level l ->
  exists ps new, expands w n (fun x => x) ps /\ l = universe :: new /\ Forall2 is_piece new ps.
Proof.
  intros w fuel n level l N H. unfold load in H. destruct n as [|c n]; [contradiction|].
  apply (proj1 (build_sound w fuel)) with (f := fun x => x) in H; [|exact world_valid|exact world_local].
  destruct H as (ps & E & new & -> & _ & _ & F & _). exists ps, new. auto.
Qed.
Print Assumptions C152_pieces.

(** C152: loading always ends, within as many generations as there are volumes; it succeeds exactly if the world
    has pieces: every reference is defined and no volume is inside itself. *)
Theorem C152_loads : forall w keys n, n <> [] -> (forall n v, w_volume w n = Some v -> In n keys) ->
  load w (S (List.length keys)) n <> Unfinished /\
  ((exists level l, load w (S (List.length keys)) n = Built level l) <-> exists ps, expands w n (fun x => x) ps).
Proof.
  intros w keys n N K.
  assert (E : load w (S (List.length keys)) n <> Unfinished).
  { unfold load. destruct n; [contradiction|]. apply (proj1 (build_ends w keys K _)); [constructor|intros x []|cbn; lia]. }
  split; [exact E|]. split.
  - intros (level & l & H). destruct (C152_pieces _ _ _ _ _ N H) as (ps & new & X & _). now exists ps.
  - intros (ps & X). destruct (expands_height _ _ _ _ X) as [h H].
    assert (R : forall r, load w (S (List.length keys)) n <> Failed r).
    { intros r. unfold load. destruct n; [contradiction|]. apply (proj1 (build_right w _) _ _ _ X h); auto.
      - intros v [].
      - apply world_valid.
      - constructor; [cbn; lia|constructor]. }
    destruct (load w (S (List.length keys)) n) as [level l|r|]; [now exists level, l|now destruct (R r)|contradiction].
Qed.
Print Assumptions C152_loads.

(** C152: the pieces of a volume are determined by the file. *)
Theorem C152_determined : forall w n f a b, expands w n f a -> expands w n f b -> a = b.
Proof. intros w n f a b A B. exact (expands_unique w n f a A b B). Qed.
Print Assumptions C152_determined.

(** ** C153: levels and names of the sectors *)

(** C153: the levels count up from zero in the order of the pieces, in which a volume comes before all that is
    inside it; no two sectors share a name or a level. *)
Theorem C153_levels : forall w fuel n level l, n <> [] -> load w fuel n = Built level l ->
  exists new, l = universe :: new /\ ranked 0 new /\ level = Z.of_nat (List.length new) /\ NoDup (map s_name l) /\ NoDup (map s_level l).
Proof.
  intros w fuel n level l N H. unfold load in H. destruct n as [|c n]; [contradiction|].
  apply (proj1 (build_sound w fuel)) with (f := fun x => x) in H; [|exact world_valid|exact world_local].
  destruct H as (ps & E & new & -> & -> & RK & _ & ND). exists new. split; [reflexivity|]. split; [exact RK|]. split; [lia|]. split.
  - apply ND. repeat constructor. intros [].
  - cbn [map app]. assert (B : forall l z, ranked z l -> NoDup (map s_level l) /\ Forall (fun x => (z <= x)%Z) (map s_level l)).
    { induction l as [|s l IH]; intros z Q; [split; constructor|]. destruct Q as [Q1 Q2]. apply IH in Q2 as [A1 A2]. cbn. split.
      - constructor; [|exact A1]. intros I. rewrite Forall_forall in A2. specialize (A2 _ I). cbv beta in A2. lia.
      - constructor; [lia|]. eapply Forall_impl; [|exact A2]. intros x X. cbv beta in *. lia. }
    destruct (B _ _ RK) as [B1 B2]. constructor; [|exact B1]. intros I. rewrite Forall_forall in B2. specialize (B2 _ I).
    cbn in B2. lia.
Qed.
Print Assumptions C153_levels.

(** C153: in a volume, all that is inside ranks above the volume itself, and what comes later in the file ranks
    above what comes earlier. *)
Theorem C153_inside : forall w fuel visited raw p level l level' l', build w fuel visited raw p level l = Built level' l' -> valid p ->
  exists v new, means w raw v /\ l' = l ++ new /\ ranked level new /\
  (v_assembly v = false -> exists s r, new = s :: r /\ s_solid s = Some (v_solid v) /\ s_level s = level /\
     Forall (fun t => (s_level s < s_level t)%Z) r).
Proof.
  intros w fuel visited raw p level l level' l' H V.
  apply (proj1 (build_sound w fuel)) with (f := global_to_local p) in H; [|exact V|reflexivity].
  destruct H as (ps & E & new & -> & -> & RK & F & _). inversion E as [raw' v f a l0 M O EA]. subst. exists v, new.
  split; [exact M|]. split; [reflexivity|]. split; [exact RK|]. intros AS. unfold own in O. rewrite AS in O.
  destruct O as (_ & _ & rho & _ & ->). cbn [app] in F. inversion F as [|s x r ps' IP F' E1 E2]. subst.
  destruct RK as [R1 R2]. exists s, r. split; [reflexivity|]. split; [apply IP|]. split; [exact R1|].
  assert (B : forall l z, ranked z l -> Forall (fun t => (z <= s_level t)%Z) l).
  { induction l1 as [|t q IH]; intros z Q; [constructor|]. destruct Q as [Q1 Q2]. constructor; [lia|].
    eapply Forall_impl; [|apply IH; exact Q2]. intros y Y. cbv beta in *. lia. }
  eapply Forall_impl; [|apply B; exact R2]. intros t T. cbv beta in *. lia.
Qed.
Print Assumptions C153_inside.

(** C153: a volume keeps its own name if no sector has it yet. *)
Theorem C153_name : forall w v p level l level' l', build_sector w v p level l = Built level' l' ->
  exists s, l' = l ++ [s] /\ ~ In (s_name s) (map s_name l) /\ (~ In (v_name v) (map s_name l) -> s_name s = v_name v).
Proof.
  intros w v p level l level' l' H. apply sector_built in H as (n & rho & N & _ & _ & _ & _ & -> & _ & K).
  eexists. split; [reflexivity|]. cbn. auto.
Qed.
Print Assumptions C153_name.

Definition demo (n : list ascii) : option volume :=
  if str_eqb n (text "W") then Some (mkvolume (text "W") false (text "b") (text "m")
    [mkphysvol (text "A") (mkv 1 0 0) None; mkphysvol (text "A") (mkv 2 0 0) None; mkphysvol (text "A_2") (mkv 3 0 0) None])
  else if str_eqb n (text "A") then Some (mkvolume (text "A") false (text "a") (text "m") [])
  else if str_eqb n (text "A_2") then Some (mkvolume (text "A_2") false (text "c") (text "m") [])
  else None.
Definition demo_world : world := mkworld (fun _ => None) demo (fun _ => true) (fun _ => Some 1) (fun _ => true).

(** The names and the solids of the sectors at the end. *)
Definition name_list (o : outcome) : list (list ascii * option (list ascii)) :=
  match o with Built _ l => map (fun s => (s_name s, s_solid s)) l | _ => [] end.

(** C153 is false of a volume whose name a copy of another one has taken: the sector called A_2 is the second copy
    of A, and the volume A_2 is called A_2_2. *)
Theorem C153_borrowed_refuted : exists w fuel n a b, w_volume w (text "A") = Some a /\ w_volume w (text "A_2") = Some b /\
  v_name a = text "A" /\ v_name b = text "A_2" /\ v_solid a <> v_solid b /\ name_list (load w fuel n) =
  [(text "UNIVERSE", None); (text "W", Some (text "b")); (text "A", Some (v_solid a)); (text "A_2", Some (v_solid a)); (text "A_2_2", Some (v_solid b))].
Proof.
  exists demo_world, 4%nat, (text "W"). eexists. eexists. split; [reflexivity|]. split; [reflexivity|]. split; [reflexivity|].
  split; [reflexivity|]. split; [discriminate|]. lazy. reflexivity.
Qed.
Print Assumptions C153_borrowed_refuted.

Example C152_case : exists ps, expands demo_world (text "W") (fun x => x) ps /\ List.length ps = 4%nat /\
  map (fun c => pc_local c (mkv 5 0 0)) ps = [mkv 5 0 0; mkv (5 - 1) (0 - 0) (0 - 0); mkv (5 - 2) (0 - 0) (0 - 0); mkv (5 - 3) (0 - 0) (0 - 0)].
Proof.
  eexists. split; [|split].
  - eapply expands_one; [reflexivity|cbn; split; [reflexivity|split; [reflexivity|eexists; split; reflexivity]]|]. cbn [v_children].
    repeat eapply expands_cons; try apply expands_nil;
      (eapply expands_one; [reflexivity|cbn; split; [reflexivity|split; [reflexivity|eexists; split; reflexivity]]|apply expands_nil]).
  - reflexivity.
  - reflexivity.
Qed.
Example C153_case : exists l, load demo_world 4 (text "W") = Built 4 l.
Proof.
  assert (H : match load demo_world 4 (text "W") with Built z _ => Some z | _ => None end = Some 4%Z) by (lazy; reflexivity).
  destruct (load demo_world 4 (text "W")) as [z l| |]; try discriminate. injection H as ->. now exists l.
Qed.

(** ** C154: replicas *)

(** C154: there are as many copies as asked for, unturned, and the i-th one of n is at offset + (i - (n - 1) / 2) width
    along the direction. *)
Theorem C154_copies : forall r, (0 < r_number r)%Z -> r_ref r <> [] -> r_direction r <> mkv 0 0 0 ->
  List.length (copies r) = Z.to_nat (r_number r) /\
  forall i c, nth_error (copies r) i = Some c -> pv_ref c = r_ref r /\ pv_angles c = None /\
    pv_position c = vscale ((r_offset r + (INR i - (IZR (r_number r) - 1) / 2) * r_width r) / vmag (r_direction r)) (r_direction r).
Proof.
  intros r N F D. assert (M : vmag (r_direction r) <> 0).
  { intros M. apply D. pose proof (vmag_sq (r_direction r)) as Q. rewrite M in Q. apply vdot_zero. lra. }
  rewrite (copies_length r N F M). split; [now rewrite map_length, seq_length|]. intros i c H.
  rewrite nth_error_map in H. destruct (nth_error (seq 0 (Z.to_nat (r_number r))) i) as [j|] eqn:E; [|discriminate].
  assert (j = i).
  { assert (L : (i < Z.to_nat (r_number r))%nat) by (rewrite <- (seq_length (Z.to_nat (r_number r)) 0); apply nth_error_Some; now rewrite E).
    rewrite (nth_error_nth' _ 0%nat) in E by (now rewrite seq_length). rewrite seq_nth in E by exact L. now injection E. }
  subst j. injection H as <-. cbn. split; [reflexivity|]. split; [reflexivity|]. apply vec_eq; cbn; field; exact M.
Qed.
Print Assumptions C154_copies.

(** C154: neighbours are one width apart, and first and last, second and last but one, ... are symmetric about the
    offset: slabs of that width fill the mother without gap or overlap. *)
Theorem C154_even : forall r i a b, (0 < r_number r)%Z -> r_ref r <> [] -> r_direction r <> mkv 0 0 0 ->
  nth_error (copies r) i = Some a ->
  (nth_error (copies r) (S i) = Some b -> vsub (pv_position b) (pv_position a) = vscale (r_width r / vmag (r_direction r)) (r_direction r)) /\
  (nth_error (copies r) (Z.to_nat (r_number r) - 1 - i) = Some b ->
     vadd (pv_position a) (pv_position b) = vscale (2 * r_offset r / vmag (r_direction r)) (r_direction r)).
Proof.
  intros r i a b N F D A. destruct (C154_copies r N F D) as [L P].
  assert (M : vmag (r_direction r) <> 0).
  { intros M. apply D. pose proof (vmag_sq (r_direction r)) as Q. rewrite M in Q. apply vdot_zero. lra. }
  assert (I : (i < Z.to_nat (r_number r))%nat) by (rewrite <- L; apply nth_error_Some; now rewrite A).
  destruct (P _ _ A) as (_ & _ & PA). split; intros B; destruct (P _ _ B) as (_ & _ & PB); rewrite PA, PB.
  - rewrite S_INR. apply vec_eq; cbn; field; exact M.
  - rewrite !minus_INR by lia. cbn [INR]. rewrite (INR_IZR_INZ (Z.to_nat (r_number r))), Z2Nat.id by lia. apply vec_eq; cbn; field; exact M.
Qed.
Print Assumptions C154_even.

(** C154: a number in digits is read as it is. *)
Theorem C154_number : forall k, (0 < k)%nat -> copy_number (decimal k) = Z.of_nat k.
Proof.
  intros k K. destruct k as [|k]; [lia|]. pose proof (decimal_some k) as S'. pose proof (decimal_digits (S k)) as D.
  assert (T : take_while is_digit (decimal (S k)) = decimal (S k)).
  { induction D as [|c l C D IH]; [reflexivity|]. cbn. apply digit_spec in C. rewrite C. f_equal. destruct l; [reflexivity|]. apply IH. discriminate. }
  pose proof (number_decimal (S k)) as Q. destruct (decimal (S k)) as [|c l]; [contradiction|]. inversion D as [|? ? C _]. subst.
  assert (G : space c = false /\ Ascii.eqb c "-" = false /\ Ascii.eqb c "+" = false).
  { clear -C. apply digit_spec in C. revert C. destruct c as [b0 b1 b2 b3 b4 b5 b6 b7].
    destruct b0, b1, b2, b3, b4, b5, b6, b7; vm_compute; intros; try discriminate; auto. }
  destruct G as (G1 & G2 & G3). unfold copy_number. cbn [stoi]. rewrite G1, G2, G3. cbn [orb].
  rewrite T, Q. now rewrite Z.mul_1_l.
Qed.
Print Assumptions C154_number.

(** C154 is false of numbers given by expressions, which the rest of the file may use: the leading digits count,
    and the name of a constant means no copies at all, without a warning. *)
Theorem C154_expression_refuted : exists e n, e = text "2*3" /\ copy_number e = 2%Z /\ n = text "n" /\
  forall f d w o, copies (mkreplica (copy_number n) f d w o) = [].
Proof. exists (text "2*3"), (text "n"). repeat split. Qed.
Print Assumptions C154_expression_refuted.

Example C154_case : exists a b, copies (mkreplica 2 (text "S") (mkv 0 0 2) 3 0) = [a; b] /\
  pv_position a = mkv 0 0 (- (3 / 2)) /\ pv_position b = mkv 0 0 (3 / 2).
Proof.
  assert (M : vmag (mkv 0 0 2) = 2) by (rewrite vmag_dot; unfold vdot; cbn; replace (0 * 0 + 0 * 0 + 2 * 2) with (2 * 2) by ring; apply sqrt_square; lra).
  rewrite copies_length; cbn [r_number r_ref r_direction]; [|lia|discriminate|rewrite M; lra]. cbn [seq map Z.to_nat Pos.to_nat Pos.iter_op].
  eexists. eexists. split; [reflexivity|]. unfold copy. cbn [pv_position r_direction r_offset r_width r_number]. rewrite M.
  split; apply vec_eq; cbn; field.
Qed.
