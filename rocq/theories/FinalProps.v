(** Properties of the final state of an interaction, and of its secondaries as new primaries. *)
From Coq Require Import Reals List Bool ZArith Lra Lia.
From Verif Require Import VectorModel RecordModel RecordSpec RecordProofs RecordMain RecordLineProps.
From Verif Require Import DaughterModel DaughterSpec DaughterProofs FinalProofs DaughterProps.
Import ListNotations.
Open Scope R_scope.

(** ** C83: finishing an interaction record *)

Lemma daughter_id rec i new d0 : daughter_of rec i new = Some d0 ->
  d_id d0 = slot_id rec i new /\ nth_error (i_types rec) i = Some (d_type d0) /\ d_index d0 = i /\ d_helicity d0 = 0.
Proof. unfold daughter_of, slot_id. destruct (nth_error (i_types rec) i); [|discriminate]. intros H. injection H as <-. auto. Qed.

Lemma final_indices rec new target l : let f := fold_left fstep l (final_of rec new target) in
  Forall sound (f_daughters f) /\ NoDup (map d_index (f_daughters f)) /\
  Forall (fun d => (d_index d < List.length (i_types rec))%nat) (f_daughters f).
Proof.
  cbn zeta. destruct (final_state rec new target l) as (_ & _ & _ & _ & L & S).
  set (f := fold_left fstep l (final_of rec new target)) in *.
  assert (forall i d, nth_error (f_daughters f) i = Some d -> sound d /\ d_index d = i /\ (i < List.length (i_types rec))%nat) as A.
  { intros i d E. assert (i < List.length (f_daughters f))%nat as I by (apply nth_error_Some; congruence).
    rewrite L in I. destruct (S i I) as (d0 & d' & D0 & E' & T). rewrite E in E'. injection E' as <-.
    destruct (daughter_id _ _ _ _ D0) as (_ & _ & X & _).
    split; [eexists; eexists; exact T|]. split; [rewrite (dt_index _ _ _ T); exact X|exact I]. }
  split; [|split].
  - apply Forall_forall. intros d H. apply In_nth_error in H. destruct H as [i H]. exact (proj1 (A _ _ H)).
  - apply NoDup_nth_error. intros i j I E. rewrite map_length in I. rewrite !nth_error_map in E.
    destruct (nth_error (f_daughters f) i) as [d|] eqn:Ei; [|apply nth_error_None in Ei; lia].
    destruct (nth_error (f_daughters f) j) as [d'|] eqn:Ej; [|discriminate].
    injection E as E. destruct (A _ _ Ei) as (_ & P & _). destruct (A _ _ Ej) as (_ & Q & _). congruence.
  - apply Forall_forall. intros d H. apply In_nth_error in H. destruct H as [i H].
    destruct (A _ _ H) as (_ & P & Q). rewrite P. exact Q.
Qed.

(** The finished record has one entry per secondary of the signature in every list, each from the
    secondary of that slot; the default time of a secondary is that of the interaction, whenever
    the latter was set. *)
Theorem C83_finalize : forall rec new target l rec',
  final_finalize (fold_left fstep l (final_of rec new target)) rec = Got rec' ->
  let n := List.length (i_types rec) in
  i_types rec' = i_types rec /\
  List.length (i_ids rec') = n /\ List.length (i_masses rec') = n /\ List.length (i_momenta rec') = n /\
  List.length (i_helicities rec') = n /\ List.length (i_times rec') = n /\
  i_time rec' = or_else (told_final says_time l) (i_time rec) /\
  i_target_id rec' = Some (or_else (i_target_id rec) target) /\
  i_target_mass rec' = or_else (told_final says_mass l) (i_target_mass rec) /\
  i_target_helicity rec' = or_else (told_final says_helicity l) (i_target_helicity rec) /\
  forall i type, nth_error (i_types rec) i = Some type ->
    let id := slot_id rec i (new i) in let c := calls_to i l in
    nth_error (i_ids rec') i = Some (Some id) /\
    nth_error (i_helicities rec') i = Some (or_else (told (dsays_helicity id type) c) 0) /\
    nth_error (i_times rec') i = Some (or_else (dknown id type c Time) (i_time rec')) /\
    exists m e p, nth_error (i_masses rec') i = Some m /\ nth_error (i_momenta rec') i = Some (e, p) /\
      (forall v, dknown id type c Mass = Some v -> m = v) /\
      (forall v, dknown id type c Energy = Some v -> e = v) /\
      (forall v, dknownv id type c Momentum = Some v -> p = v) /\
      (forall w, kinematic w -> dfits id type c w ->
         m = t_num w Mass /\ e = t_num w Energy /\ p = t_vec w Momentum).
Proof.
  intros rec new target l rec' H n. unfold final_finalize in H.
  destruct (final_indices rec new target l) as (FS & FN & _).
  destruct (dfinalize_all_writes _ _ _ FS FN H) as ([F1 F2 F3 F4 F5 F6] & W & _). cbn in F2, F3, F4, F5, F6.
  rewrite resize_length in F2. rewrite resize_length in F3. rewrite resize_length in F4.
  rewrite resize_length in F5. rewrite resize_length in F6.
  destruct (final_state rec new target l) as (A & B & C & D & L & S).
  set (f := fold_left fstep l (final_of rec new target)) in *. fold n in L, S.
  assert (i_time rec' = or_else (told_final says_time l) (i_time rec)) as TT.
  { rewrite F1. cbn. rewrite D. destruct (told_final says_time l); reflexivity. }
  split; [rewrite F1; reflexivity|]. split; [congruence|]. split; [congruence|]. split; [congruence|].
  split; [congruence|]. split; [congruence|]. split; [exact TT|].
  split; [rewrite F1; cbn; rewrite A; reflexivity|]. split; [rewrite F1; exact B|]. split; [rewrite F1; exact C|].
  intros i type E id c. assert (i < n)%nat as I by (apply nth_error_Some; congruence).
  destruct (S i I) as (d0 & d & D0 & E' & T). destruct (daughter_id _ _ _ _ D0) as (X1 & X2 & X3 & X4).
  rewrite E in X2. injection X2 as X2. fold id in X1. fold c in T.
  set (e0 := restart d0 (or_else (told_final says_time l) (i_time rec))) in *.
  assert (d_id e0 = id) as G1 by exact X1. assert (d_type e0 = type) as G2 by (symmetry; exact X2).
  assert (d_index d = i) as G3 by (rewrite (dt_index _ _ _ T); exact X3).
  rewrite Forall_forall in W. pose proof (W d (nth_error_In _ _ E')) as [W1 W2 W3 W4 W5]. rewrite G3 in *.
  split; [rewrite W1, (dt_id _ _ _ T), G1; reflexivity|].
  split; [rewrite W4, (dt_helicity _ _ _ T), G1, G2; change (d_helicity e0) with (d_helicity d0); rewrite X4; reflexivity|].
  split.
  { destruct W5 as (t & W5 & ->). unfold dget_time, dhas, dnum in W5. pose proof (dt_num _ _ _ T Time) as Q.
    rewrite G1, G2 in Q. unfold holds in Q. destruct (dknown id type c Time); rewrite Q in W5; cbn in W5.
    - injection W5 as <-. reflexivity.
    - rewrite (dt_start _ _ _ T) in W5. cbn in W5. injection W5 as <-. cbn. congruence. }
  destruct W2 as (m & W2 & M2). destruct W3 as (e & p & W3 & M3). exists m, e, p.
  pose proof (dt_num _ _ _ T Mass) as QM. pose proof (dt_num _ _ _ T Energy) as QE. pose proof (dt_vec _ _ _ T Momentum) as QP.
  rewrite G1, G2 in QM, QE, QP. rewrite (dfour_val _ _ _ T) in W3.
  split; [exact M2|]. split; [exact M3|]. split; [|split; [|split]].
  - intros v K. rewrite K in QM. cbn in QM. unfold dget_num, dkeep in W2. rewrite QM in W2. cbn in W2. congruence.
  - intros v K. rewrite K in QE. cbn in QE. unfold dget_num, dkeep in W3. rewrite QE in W3. cbn in W3.
    destruct (snd (dget_vec d Momentum)); congruence.
  - intros v K. rewrite K in QP. cbn in QP. unfold dget_vec, dkeep in W3. rewrite QP in W3. cbn in W3.
    destruct (snd (dget_num d Energy)); congruence.
  - intros w K F. rewrite <- G1, <- G2 in F. apply dfits_fits in F.
    pose proof (dtells_tells _ _ _ T) as T'.
    rewrite (num_agrees T) in W2 by (unfold sort_num; auto). rewrite (num_agrees T) in W3 by (unfold sort_num; auto).
    rewrite vec_agrees in W3 by (unfold sort_vec; auto).
    destruct (mass_exact T' K F) as [Y|Y]; [congruence|]. rewrite Y in W2.
    destruct (momentum_exact T' K F) as [Z|Z]; rewrite Z in W3; [discriminate|].
    destruct (energy_exact T' K F) as [V|V]; rewrite V in W3; [discriminate|].
    injection W2 as <-. injection W3 as <- <-. auto.
Qed.

(** Everything else of the record stays. *)
Theorem C83_frame : forall rec new target l rec',
  final_finalize (fold_left fstep l (final_of rec new target)) rec = Got rec' ->
  i_primary_type rec' = i_primary_type rec /\ i_target_type rec' = i_target_type rec /\
  i_primary_id rec' = i_primary_id rec /\ i_initial rec' = i_initial rec /\ i_start rec' = i_start rec /\
  i_mass rec' = i_mass rec /\ i_energy rec' = i_energy rec /\ i_momentum rec' = i_momentum rec /\
  i_helicity rec' = i_helicity rec /\ i_vertex rec' = i_vertex rec.
Proof.
  intros rec new target l rec' H. unfold final_finalize in H.
  destruct (final_indices rec new target l) as (FS & FN & _).
  destruct (dfinalize_all_writes _ _ _ FS FN H) as ([F1 _ _ _ _ _] & _). rewrite F1. cbn. repeat split.
Qed.

(** It succeeds exactly if enough is set on every secondary, provided that what is set belongs to a
    particle obeying special relativity. *)
Theorem C83_succeeds : forall rec new target l,
  (forall i type, nth_error (i_types rec) i = Some type ->
     exists w, kinematic w /\ dfits (slot_id rec i (new i)) type (calls_to i l) w) ->
  ((exists rec', final_finalize (fold_left fstep l (final_of rec new target)) rec = Got rec') <->
   forall i type, nth_error (i_types rec) i = Some type -> enough (slot_id rec i (new i)) type (calls_to i l)).
Proof.
  intros rec new target l K. destruct (final_state rec new target l) as (_ & _ & _ & _ & L & S).
  destruct (final_indices rec new target l) as (FS & FN & FI).
  set (f := fold_left fstep l (final_of rec new target)) in *.
  assert (forall i d0 d t, daughter_of rec i (new i) = Some d0 -> dtells (restart d0 t) (calls_to i l) d ->
    nth_error (i_types rec) i = Some (d_type d0) /\ d_id d0 = slot_id rec i (new i) /\
    (snd (dget_num d Mass) <> Threw /\ snd (dget_vec d Momentum) <> Threw /\ snd (dget_num d Energy) <> Threw <->
     enough (slot_id rec i (new i)) (d_type d0) (calls_to i l)) /\
    exists w, (snd (dget_num d Mass) = Threw \/ snd (dget_num d Mass) = Got (t_num w Mass)) /\
      (snd (dget_num d Energy) = Threw \/ snd (dget_num d Energy) = Got (t_num w Energy)) /\
      (snd (dget_vec d Momentum) = Threw \/ snd (dget_vec d Momentum) = Got (t_vec w Momentum))) as G.
  { intros i d0 d t D0 T. destruct (daughter_id _ _ _ _ D0) as (X1 & X2 & _ & _).
    destruct (K _ _ X2) as (w & Kw & Fw). rewrite <- X1 in *.
    split; [exact X2|]. split; [reflexivity|].
    pose proof (dtells_calls d0 (calls_to i l) (blank_of _ _ _ _ D0)) as T0.
    assert (dtells d0 (calls_to i l) (restart d (d_start d0))) as T1
      by (destruct T as [A1 A2 A3 A4 A5 A6 A7 A8]; constructor; assumption || reflexivity).
    destruct (C82_throws _ _ _ _ (calls_to i l) D0) as (TM & TE & _ & TP & _).
    destruct (C82_sound _ _ _ _ (calls_to i l) w D0 Kw Fw) as (SM & SE & _ & SP & _). cbn zeta in *.
    set (dd := fold_left dstep (calls_to i l) d0) in *.
    assert (forall n, sort_num n -> snd (dget_num dd n) = snd (dget_num d n)) as EN.
    { intros n N. rewrite (num_stable _ _ _ _ _ T0 T1 N). rewrite (num_agrees T1 n N), (num_agrees T n N).
      rewrite !get_num_val. reflexivity. }
    assert (forall n, sort_vec n -> snd (dget_vec dd n) = snd (dget_vec d n)) as EV.
    { intros n N. rewrite (vec_stable _ _ _ _ _ T0 T1 N). rewrite !(vec_agrees n N).
      rewrite !get_vec_val. reflexivity. }
    rewrite (EN Mass) in * by (unfold sort_num; auto). rewrite (EN Energy) in * by (unfold sort_num; auto).
    rewrite (EV Momentum) in * by (unfold sort_vec; auto).
    split.
    { rewrite TM, TP, TE. unfold enough. cbn zeta. clear.
      repeat match goal with |- context [?a <> None] => generalize (a <> None); intros ? end. tauto. }
    exists w. auto. }
  split.
  - intros [rec' H] i type E. unfold final_finalize in H.
    destruct (dfinalize_all_writes _ _ _ FS FN H) as (_ & W & _).
    assert (i < List.length (i_types rec))%nat as I by (apply nth_error_Some; congruence).
    destruct (S i I) as (d0 & d & D0 & E' & T). destruct (G _ _ _ _ D0 T) as (X & Y & Q & w & SM & SE & SP).
    rewrite E in X. injection X as ->. apply Q.
    rewrite Forall_forall in W. pose proof (W d (nth_error_In _ _ E')) as [W1 W2 W3 W4 W5].
    destruct W2 as (m & W2 & _). destruct W3 as (e & p & W3 & _). rewrite (dfour_val _ _ _ T) in W3.
    split; [congruence|].
    destruct (snd (dget_vec d Momentum)); try discriminate; (split; [discriminate|]);
    destruct (snd (dget_num d Energy)); discriminate.
  - intros N. unfold final_finalize.
    apply (dfinalize_all_works _ _ (List.length (i_types rec))); try exact FS; try exact FI;
      cbn; rewrite ?resize_length; try exact L.
    apply Forall_forall. intros d Hd. apply In_nth_error in Hd. destruct Hd as [i Hi].
    assert (i < List.length (i_types rec))%nat as I.
    { rewrite <- L. apply nth_error_Some. congruence. }
    destruct (S i I) as (d0 & d' & D0 & E' & T). rewrite Hi in E'. injection E' as <-.
    destruct (G _ _ _ _ D0 T) as (X & Y & Q & w & SM & SE & SP). destruct (proj2 Q (N _ _ X)) as (A & B & C).
    exists (t_num w Mass), (t_num w Energy), (t_vec w Momentum).
    destruct SM as [SM|SM]; [congruence|]. destruct SE as [SE|SE]; [congruence|]. destruct SP as [SP|SP]; [congruence|].
    assert (exists t, dget_time d = Got t) as [t Ht].
    { unfold dget_time, dhas, dnum. pose proof (dt_num _ _ _ T Time) as Z. unfold holds in Z.
      destruct (dknown _ _ _ Time); rewrite Z; cbn; eauto. }
    exists t. split; [exact SM|]. split; [|exact Ht]. rewrite (dfour_val _ _ _ T), SP, SE. reflexivity.
Qed.

(** Two secondaries, one with a set time, the other created when the interaction happens, whose time
    is set last. *)
Example C83_case :
  let l := [FDaughter 0 (DSetMass 3); FDaughter 1 (DSetFour 5 (mkv 0 3 0)); FDaughter 0 (DSetMomentum (mkv 0 0 4));
            FDaughter 1 (DSetMass 4); FDaughter 1 (DSetTime 40); FMass 2; FTime 30] in
  exists rec', final_finalize (fold_left fstep l (final_of sample_record (fun _ => 77%Z) 99)) sample_record = Got rec' /\
    i_ids rec' = [Some 77%Z; Some 8%Z] /\ i_times rec' = [30; 40] /\ i_masses rec' = [3; 4] /\
    i_momenta rec' = [(5, mkv 0 0 4); (5, mkv 0 3 0)] /\ i_target_id rec' = Some 99%Z.
Proof.
  cbn zeta. eexists. split.
  - cbn. unfold root.
    assert (sqrt (3 * 3 + 0 * 0 + 0 * 0 + 4 * 4) = 5) as ->.
    { replace (3 * 3 + 0 * 0 + 0 * 0 + 4 * 4) with (5 * 5) by ring. apply sqrt_square. lra. }
    destruct (Rlt_dec (3 * 3 + 0 * 0 + 0 * 0 + 4 * 4) 0); [lra|]. cbn. reflexivity.
  - cbn. repeat split.
Qed.

Print Assumptions C83_finalize.
Print Assumptions C83_frame.
Print Assumptions C83_succeeds.
Print Assumptions C83_case.
