(** Properties of a secondary as the primary of its own interaction. *)
From Coq Require Import Reals List Bool ZArith Lra Lia.
From Verif Require Import VectorModel RecordModel RecordSpec RecordProofs RecordMain RecordLineProps.
From Verif Require Import DaughterModel DaughterSpec DaughterProofs DaughterProps FinalProofs FinalProps.
Import ListNotations.
Open Scope R_scope.

(** ** C09: secondary records *)

(** The new record is that of the secondary in its slot, starting at the vertex of the parent. *)
Theorem C09_record : forall parent i new s, second_of parent i new = Some s ->
  let rec := x_record s in
  x_index s = i /\
  nth_error (i_types parent) i = Some (i_primary_type rec) /\
  nth_error (i_masses parent) i = Some (i_mass rec) /\
  nth_error (i_momenta parent) i = Some (i_energy rec, i_momentum rec) /\
  nth_error (i_helicities parent) i = Some (i_helicity rec) /\
  i_primary_id rec = Some (slot_id parent i new) /\
  i_initial rec = i_vertex parent /\
  i_start rec = or_else (nth_error (i_times parent) i) (i_time parent) /\
  i_types rec = [] /\ i_ids rec = [].
Proof.
  intros parent i new s H. unfold second_of, create_secondary, slot_id in *.
  destruct (nth_error (i_ids parent) i) as [id|]; [|discriminate].
  destruct (nth_error (i_types parent) i); [|discriminate].
  destruct (nth_error (i_masses parent) i); [|discriminate].
  destruct (nth_error (i_momenta parent) i) as [[e p]|]; [|discriminate].
  destruct (nth_error (i_helicities parent) i); [|discriminate].
  injection H as <-. cbn. repeat split.
Qed.

(** It exists exactly if the slot does in every list but that of the times. *)
Theorem C09_exists : forall parent i new,
  (exists s, second_of parent i new = Some s) <->
  (i < List.length (i_ids parent) /\ i < List.length (i_types parent) /\ i < List.length (i_masses parent) /\
   i < List.length (i_momenta parent) /\ i < List.length (i_helicities parent))%nat.
Proof.
  intros parent i new. rewrite <- !nth_error_Some. unfold second_of, create_secondary.
  destruct (nth_error (i_ids parent) i); [|split; [intros [s H]; discriminate|intros (A & _); congruence]].
  destruct (nth_error (i_types parent) i); [|split; [intros [s H]; discriminate|intros (_ & A & _); congruence]].
  destruct (nth_error (i_masses parent) i); [|split; [intros [s H]; discriminate|intros (_ & _ & A & _); congruence]].
  destruct (nth_error (i_momenta parent) i) as [[e p]|]; [|split; [intros [s H]; discriminate|intros (_ & _ & _ & A & _); congruence]].
  destruct (nth_error (i_helicities parent) i); [|split; [intros [s H]; discriminate|intros (_ & _ & _ & _ & A); congruence]].
  split; [intros _; repeat split; discriminate|intros _; eexists; reflexivity].
Qed.

Lemma vmag_unit v : vmag v <> 0 -> vmag (vdiv v (vmag v)) = 1.
Proof.
  intros H. assert (0 < vmag v) as P by (pose proof (vmag_pos v); lra).
  pose proof (vmag_sq v) as Q. unfold vmag at 1. unfold vdot, vdiv. cbn.
  replace (vx v / vmag v * (vx v / vmag v) + vy v / vmag v * (vy v / vmag v) + vz v / vmag v * (vz v / vmag v))
    with ((vx v * vx v + vy v * vy v + vz v * vz v) / (vmag v * vmag v)) by (field; lra).
  replace ((vx v * vx v + vy v * vy v + vz v * vz v) / (vmag v * vmag v)) with 1; [apply sqrt_1|].
  assert (vx v * vx v + vy v * vy v + vz v * vz v = vmag v * vmag v) as -> by lra. field. lra.
Qed.

(** With a length set, the finished record has its vertex that far along the momentum from the
    vertex of the parent, and everything else of the secondary; the time comes later than the
    start by the time of flight. *)
Theorem C09_finalize : forall parent i new s n old,
  second_of parent i new = Some s -> i_energy (x_record s) <> 0 -> vmag (i_momentum (x_record s)) <> 0 ->
  exists rec, second_finalize (second_set_length s n) old = Got rec /\
    nth_error (i_types parent) i = Some (i_primary_type rec) /\
    nth_error (i_masses parent) i = Some (i_mass rec) /\
    nth_error (i_momenta parent) i = Some (i_energy rec, i_momentum rec) /\
    nth_error (i_helicities parent) i = Some (i_helicity rec) /\
    i_primary_id rec = Some (slot_id parent i new) /\
    i_initial rec = i_vertex parent /\
    i_start rec = or_else (nth_error (i_times parent) i) (i_time parent) /\
    vscale (vmag (i_momentum rec)) (vsub (i_vertex rec) (i_initial rec)) = vscale n (i_momentum rec) /\
    vmag (vsub (i_vertex rec) (i_initial rec)) = Rabs n /\
    i_start rec <= i_time rec /\
    (0 < n -> 0 < i_energy rec -> vmag (i_momentum rec) <= i_energy rec ->
       (i_time rec - i_start rec) * (vmag (i_momentum rec) / i_energy rec * light_speed) = n) /\
    (n <= 0 -> i_time rec = i_start rec).
Proof.
  intros parent i new s n old H E P.
  destruct (C09_record _ _ _ _ H) as (_ & A1 & A2 & A3 & A4 & A5 & A6 & A7 & _).
  assert (x_direction s = Got (vdiv (i_momentum (x_record s)) (vmag (i_momentum (x_record s)))) /\ s_set (x_time s) = false) as [D T].
  { unfold second_of in H. destruct (create_secondary parent i new) as [own|]; [|discriminate].
    injection H as <-. cbn in *. split; [|reflexivity]. unfold momentum_direction, normal.
    destruct (Req_EM_T (i_energy own) 0); [congruence|]. destruct (Req_EM_T (vmag (i_momentum own)) 0); [congruence|reflexivity]. }
  unfold second_finalize. cbn [second_set_length x_length x_direction x_record s_val bind]. rewrite D. cbn [bind].
  unfold second_time, second_length. cbn [second_set_length x_length x_time x_record s_val s_set]. rewrite T. cbn [bind].
  eexists. split; [reflexivity|]. cbn [i_primary_type i_mass i_energy i_momentum i_helicity i_primary_id i_initial i_start i_vertex i_time].
  set (own := x_record s) in *. set (p := i_momentum own) in *. set (o := i_initial own) in *.
  repeat (split; [assumption|]).
  assert (vsub (vadd o (vscale n (vdiv p (vmag p)))) o = vscale n (vdiv p (vmag p))) as V by apply vsub_vadd.
  rewrite V. assert (0 < vmag p) as Pp by (pose proof (vmag_pos p); lra).
  split; [unfold vscale, vdiv; cbn; f_equal; field; lra|]. split.
  { pose proof (vmag_unit p P) as U. pose proof (vmag_sq (vdiv p (vmag p))) as Q. rewrite U in Q.
    set (u := vdiv p (vmag p)) in *. clearbody u. unfold vmag, vdot.
    rewrite <- sqrt_Rsqr_abs. f_equal. unfold Rsqr, vscale. cbn [vx vy vz].
    replace (n * vx u * (n * vx u) + n * vy u * (n * vy u) + n * vz u * (n * vz u))
      with (n * n * (vx u * vx u + vy u * vy u + vz u * vz u)) by ring.
    replace (vx u * vx u + vy u * vy u + vz u * vz u) with 1 by lra. apply Rmult_1_r. }
  split; [|split].
  - cut (0 <= flight_time (Got n) (Got (i_energy own)) (Got (vmag p))); [lra|]. unfold flight_time.
    destruct (Rlt_dec 0 n); [|lra]. destruct (Rlt_dec 0 (i_energy own)); [|lra]. destruct (Rlt_dec 0 (vmag p)); [|lra].
    assert (0 < light_speed) as C by (unfold light_speed; lra).
    apply Rle_mult_inv_pos; [lra|]. apply Rmult_lt_0_compat; [|exact C].
    apply Rmin_glb_lt; [apply Rdiv_lt_0_compat; assumption|lra].
  - intros Hn He L. destruct (C80_flight n (i_energy own) (vmag p) Hn He Pp) as (_ & _ & F).
    specialize (F L). etransitivity; [|exact F]. f_equal.
    set (t := flight_time _ _ _). ring.
  - intros Hn. unfold flight_time. destruct (Rlt_dec 0 n); [lra|]. ring.
Qed.

(** A time set by hand is kept. *)
Theorem C09_time_set : forall s n t old rec,
  second_finalize (second_set_time (second_set_length s n) t) old = Got rec -> i_time rec = t.
Proof.
  intros s n t old rec. unfold second_finalize. cbn [second_set_time second_set_length x_length x_direction x_record s_val bind].
  destruct (x_direction s); try discriminate. cbn. intros H. injection H as <-. reflexivity.
Qed.

(** The slots of the record finished into that belong to its interaction stay. *)
Theorem C09_frame : forall s old rec, second_finalize s old = Got rec ->
  i_target_type rec = i_target_type old /\ i_types rec = i_types old /\ i_target_id rec = i_target_id old /\
  i_target_mass rec = i_target_mass old /\ i_target_helicity rec = i_target_helicity old /\
  i_ids rec = i_ids old /\ i_masses rec = i_masses old /\ i_momenta rec = i_momenta old /\
  i_helicities rec = i_helicities old /\ i_times rec = i_times old.
Proof.
  intros s old rec. unfold second_finalize. destruct (s_val (x_length s)); try discriminate.
  cbn [bind]. destruct (x_direction s); try discriminate. cbn [bind]. destruct (second_time s); try discriminate.
  cbn [bind]. intros H. injection H as <-. cbn. repeat split.
Qed.

(** From one interaction to the next: of a parent finished by [CrossSectionDistributionRecord], every
    secondary can be taken up, starts where and, unless its time was set, when the parent
    interacted, and interacts later by its time of flight. *)
Theorem C09_chain : forall rec new target l parent i type new' n old,
  final_finalize (fold_left fstep l (final_of rec new target)) rec = Got parent ->
  nth_error (i_types rec) i = Some type ->
  let id := slot_id rec i (new i) in
  exists s, second_of parent i new' = Some s /\
    i_primary_id (x_record s) = Some id /\ i_primary_type (x_record s) = type /\
    i_initial (x_record s) = i_vertex parent /\
    (dknown id type (calls_to i l) Time = None -> i_start (x_record s) = i_time parent) /\
    (i_energy (x_record s) <> 0 -> vmag (i_momentum (x_record s)) <> 0 ->
     dknown id type (calls_to i l) Time = None ->
     exists child, second_finalize (second_set_length s n) old = Got child /\
       vmag (vsub (i_vertex child) (i_vertex parent)) = Rabs n /\
       i_time parent <= i_time child /\
       (0 < n -> 0 < i_energy child -> vmag (i_momentum child) <= i_energy child ->
        (i_time child - i_time parent) * (vmag (i_momentum child) / i_energy child * light_speed) = n)).
Proof.
  intros rec new target l parent i type new' n old H E id.
  destruct (C83_finalize _ _ _ _ _ H) as (B1 & L1 & L2 & L3 & L4 & L5 & _ & _ & _ & _ & B).
  destruct (B i type E) as (C1 & C2 & C3 & _). fold id in C1, C3.
  assert (i < List.length (i_types rec))%nat as I by (apply nth_error_Some; congruence).
  destruct (proj2 (C09_exists parent i new')) as [s S].
  { rewrite L1, L2, L3, L4, B1. repeat split; exact I. }
  destruct (C09_record _ _ _ _ S) as (_ & A1 & A2 & A3 & A4 & A5 & A6 & A7 & _).
  exists s. split; [exact S|].
  split; [rewrite A5; unfold slot_id; rewrite C1; reflexivity|].
  split; [rewrite B1, E in A1; congruence|]. split; [exact A6|].
  assert (dknown id type (calls_to i l) Time = None -> i_start (x_record s) = i_time parent) as ST.
  { intros N. rewrite A7, C3, N. reflexivity. }
  split; [exact ST|]. intros NE NP N. specialize (ST N).
  destruct (C09_finalize _ _ _ _ n old S NE NP) as (child & F & _ & _ & _ & _ & _ & F1 & F2 & _ & F3 & F4 & F5 & _).
  exists child. split; [exact F|]. rewrite F1 in F3. split; [exact F3|].
  assert (i_start child = i_time parent) as SC by (rewrite F2, <- A7; exact ST).
  rewrite SC in F4, F5. split; assumption.
Qed.

(** A secondary that flies 6 m with momentum (0, 0, 4) and energy 5. *)
Definition sample_parent : irecord :=
  mkirecord 14 2212 [13; 2212]%Z (Some 1%Z) (mkv 0 0 0) 0 0 10 (mkv 0 0 10) (- (1)) (Some 99%Z) 1 0
    (mkv 0 0 7) 25 [Some 77%Z; None] [3; 0] [(5, mkv 0 0 4); (0, mkv 0 1 0)] [1; 0] [25; 25].
Lemma mag_four : vmag (mkv 0 0 4) = 4.
Proof.
  unfold vmag, vdot. cbn. replace (0 * 0 + 0 * 0 + 4 * 4) with (4 * 4) by ring. apply sqrt_square. lra.
Qed.
Example C09_case : exists s rec,
  second_of sample_parent 0 5 = Some s /\ i_energy (x_record s) <> 0 /\ vmag (i_momentum (x_record s)) <> 0 /\
  second_finalize (second_set_length s 6) empty_record = Got rec /\
  i_primary_id rec = Some 77%Z /\ i_vertex rec = mkv 0 0 13 /\
  i_time rec = 25 + 6 / (4 / 5 * light_speed).
Proof.
  eexists. eexists. split; [reflexivity|]. cbn [x_record i_energy i_momentum].
  split; [lra|]. split; [rewrite mag_four; lra|]. split.
  - unfold second_finalize, momentum_direction, second_time, second_length, normal. cbn [second_set_length x_length x_record x_direction x_time s_set s_val i_energy i_momentum bind].
    rewrite mag_four. destruct (Req_EM_T 5 0); [lra|]. destruct (Req_EM_T 4 0); [lra|]. cbn [bind]. reflexivity.
  - cbn [i_primary_id i_vertex i_time i_initial i_start]. split; [reflexivity|]. split.
    + unfold vadd, vscale, vdiv. cbn. f_equal; field.
    + unfold flight_time. destruct (Rlt_dec 0 6); [|lra]. destruct (Rlt_dec 0 5); [|lra]. destruct (Rlt_dec 0 4); [|lra].
      rewrite Rmin_left by lra. reflexivity.
Qed.

(** A secondary at rest: its finished vertex is NaN, even for length zero. *)
Theorem C09_rest_refuted : exists parent s old,
  second_of parent 0 5 = Some s /\ i_momentum (x_record s) = mkv 0 0 0 /\ i_energy (x_record s) = i_mass (x_record s) /\
  second_finalize (second_set_length s 0) old = Nan.
Proof.
  exists (mkirecord 14 2212 [13]%Z (Some 1%Z) (mkv 0 0 0) 0 0 10 (mkv 0 0 10) (- (1)) (Some 99%Z) 1 0
    (mkv 0 0 7) 25 [Some 77%Z] [3] [(3, mkv 0 0 0)] [1] [25]).
  eexists. exists empty_record. split; [reflexivity|]. split; [reflexivity|]. split; [reflexivity|].
  unfold second_finalize. cbn [second_set_length x_length x_direction s_val bind].
  unfold momentum_direction, normal. cbn [i_energy i_momentum].
  destruct (Req_EM_T 3 0); [lra|].
  assert (vmag (mkv 0 0 0) = 0) as -> by (unfold vmag, vdot; cbn; replace (0 * 0 + 0 * 0 + 0 * 0) with 0 by ring; apply sqrt_0).
  destruct (Req_EM_T 0 0); [reflexivity|lra].
Qed.

(** A record without length: finishing reads the member that was never written. *)
Theorem C09_length_refuted : exists parent s old, second_of parent 0 5 = Some s /\ second_finalize s old = Undef.
Proof. exists sample_parent. eexists. exists empty_record. split; reflexivity. Qed.

(** A secondary whose energy entry is zero does not move, whatever its momentum. *)
Theorem C09_energy_refuted : exists parent s old rec, second_of parent 1 5 = Some s /\
  i_momentum (x_record s) = mkv 0 1 0 /\ second_finalize (second_set_length s 6) old = Got rec /\
  i_vertex rec = i_initial rec.
Proof.
  exists sample_parent. eexists. exists empty_record. eexists. split; [reflexivity|]. split; [reflexivity|]. split.
  - unfold second_finalize, momentum_direction. cbn [second_set_length x_length x_direction x_record s_val bind i_energy i_momentum].
    destruct (Req_EM_T 0 0); [|lra]. cbn [bind]. reflexivity.
  - cbn [i_vertex i_initial]. unfold vadd, vscale. cbn. f_equal; ring.
Qed.

Print Assumptions C09_record.
Print Assumptions C09_exists.
Print Assumptions C09_finalize.
Print Assumptions C09_time_set.
Print Assumptions C09_frame.
Print Assumptions C09_chain.
Print Assumptions C09_case.
Print Assumptions C09_rest_refuted.
Print Assumptions C09_length_refuted.
Print Assumptions C09_energy_refuted.
