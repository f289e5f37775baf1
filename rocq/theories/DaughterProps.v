(** Properties of the record of one secondary particle. *)
From Coq Require Import Reals List Bool ZArith Lra Lia.
From Verif Require Import VectorModel RecordModel RecordSpec RecordProofs RecordMain.
From Verif Require Import DaughterModel DaughterSpec DaughterProofs.
Import ListNotations.
Open Scope R_scope.

(** ** C82: the record of one secondary *)

(** A new record takes type, position and time from the interaction, and its id if there is one. *)
Theorem C82_new : forall rec i new,
  (List.length (i_types rec) <= i -> daughter_of rec i new = None)%nat /\
  (forall t, nth_error (i_types rec) i = Some t ->
     exists d, daughter_of rec i new = Some d /\ d_index d = i /\ d_type d = t /\
       d_position d = i_vertex rec /\ dget_time d = Got (i_time rec) /\ d_helicity d = 0 /\
       (forall k, nth_error (i_ids rec) i = Some (Some k) -> d_id d = k) /\
       ((forall k, nth_error (i_ids rec) i <> Some (Some k)) -> d_id d = new)).
Proof.
  intros rec i new. unfold daughter_of. split.
  - intros H. apply nth_error_None in H. rewrite H. reflexivity.
  - intros t ->. eexists. split; [reflexivity|]. cbn. repeat split.
    + intros k ->. reflexivity.
    + intros H. destruct (nth_error (i_ids rec) i) as [[k|]|]; try reflexivity. destruct (H k eq_refl).
Qed.

(** Whatever else was called, a value that was set is returned as it was last set; what the record
    was made with stays. *)
Theorem C82_set : forall rec i new d0 l, daughter_of rec i new = Some d0 ->
  let d := fold_left dstep l d0 in let id := d_id d0 in let type := d_type d0 in
  (forall n v, n = Mass \/ n = Energy \/ n = Kinetic -> dknown id type l n = Some v -> snd (dget_num d n) = Got v) /\
  (forall n v, n = Direction \/ n = Momentum -> dknownv id type l n = Some v -> snd (dget_vec d n) = Got v) /\
  dget_time d = Got (or_else (dknown id type l Time) (i_time rec)) /\
  d_helicity d = or_else (told (dsays_helicity id type) l) 0 /\
  d_id d = id /\ d_type d = type /\ d_index d = i /\ d_position d = i_vertex rec.
Proof.
  intros rec i new d0 l H d id type.
  pose proof (dtells_calls d0 l (blank_of _ _ _ _ H)) as D. fold d in D.
  assert (d_index d0 = i /\ d_position d0 = i_vertex rec /\ d_start d0 = i_time rec /\ d_helicity d0 = 0) as (I & P & S & E).
  { unfold daughter_of in H. destruct (nth_error _ i); [|discriminate]. injection H as <-. auto. }
  repeat split.
  - intros n v N K. pose proof (dt_num _ _ _ D n) as A. fold id type in A. rewrite K in A. cbn in A.
    unfold dget_num, dkeep. rewrite A. reflexivity.
  - intros n v N K. pose proof (dt_vec _ _ _ D n) as A. fold id type in A. rewrite K in A. cbn in A.
    unfold dget_vec, dkeep. rewrite A. reflexivity.
  - unfold dget_time, dhas, dnum. pose proof (dt_num _ _ _ D Time) as A. fold id type in A. unfold holds in A.
    destruct (dknown id type l Time); [rewrite A; reflexivity|]. rewrite A. cbn.
    rewrite (dt_start _ _ _ D), S. reflexivity.
  - rewrite (dt_helicity _ _ _ D), E. reflexivity.
  - exact (dt_id _ _ _ D).
  - exact (dt_type _ _ _ D).
  - rewrite (dt_index _ _ _ D). exact I.
  - rewrite (dt_position _ _ _ D). exact P.
Qed.

(** If the set values are those of a particle obeying special relativity, every getter throws or
    returns the value of that particle, but for the direction of a particle at rest. *)
Theorem C82_sound : forall rec i new d0 l w, daughter_of rec i new = Some d0 ->
  kinematic w -> dfits (d_id d0) (d_type d0) l w ->
  let d := fold_left dstep l d0 in
  (snd (dget_num d Mass) = Threw \/ snd (dget_num d Mass) = Got (t_num w Mass)) /\
  (snd (dget_num d Energy) = Threw \/ snd (dget_num d Energy) = Got (t_num w Energy)) /\
  (snd (dget_num d Kinetic) = Threw \/ snd (dget_num d Kinetic) = Got (t_num w Kinetic)) /\
  (snd (dget_vec d Momentum) = Threw \/ snd (dget_vec d Momentum) = Got (t_vec w Momentum)) /\
  (snd (dget_four d) = Threw \/ snd (dget_four d) = Got (Got (t_num w Energy), Got (t_vec w Momentum))) /\
  (snd (dget_vec d Direction) = Threw \/
   snd (dget_vec d Direction) = Nan /\ vmag (t_vec w Momentum) = 0 \/
   snd (dget_vec d Direction) = Got (t_vec w Direction)).
Proof.
  intros rec i new d0 l w H K F d.
  pose proof (dtells_calls d0 l (blank_of _ _ _ _ H)) as D. fold d in D.
  pose proof (dtells_tells _ _ _ D) as T. pose proof (dfits_fits _ _ _ _ F) as F'.
  rewrite !(num_agrees D) by (unfold sort_num; auto). rewrite (dfour_val _ _ _ D).
  rewrite !(num_agrees D) by (unfold sort_num; auto).
  rewrite !vec_agrees by (unfold sort_vec; auto).
  pose proof (momentum_exact T K F') as P. pose proof (energy_exact T K F') as E.
  split; [exact (mass_exact T K F')|]. split; [exact E|]. split; [exact (kinetic_exact T K F')|].
  split; [exact P|]. split.
  - destruct P as [-> | ->]; [left; reflexivity|]. destruct E as [-> | ->]; [left|right]; reflexivity.
  - destruct (knownv (d_id d0) (d_type d0) (flat_map (tr (d_id d0) (d_type d0)) l) Momentum) eqn:N.
    + right. apply (direction_momentum T K F'). rewrite N. discriminate.
    + rewrite get_vec_val. lookv T Direction; [right; right; fitted F'; reflexivity|].
      unfold vec_from, direction_from. lookv T Momentum; [congruence|].
      change (hasv (as_primary d) Initial) with false. left. reflexivity.
Qed.

(** Which getters throw. *)
Theorem C82_throws : forall rec i new d0 l, daughter_of rec i new = Some d0 ->
  let d := fold_left dstep l d0 in
  let h n := dknown (d_id d0) (d_type d0) l n <> None in
  let hv n := dknownv (d_id d0) (d_type d0) l n <> None in
  (snd (dget_num d Mass) <> Threw <-> h Mass \/ h Energy /\ (hv Momentum \/ h Kinetic)) /\
  (snd (dget_num d Energy) <> Threw <-> h Energy \/ h Mass /\ (hv Momentum \/ h Kinetic)) /\
  (snd (dget_num d Kinetic) <> Threw <-> h Kinetic \/ h Mass /\ (h Energy \/ hv Momentum)) /\
  (snd (dget_vec d Momentum) <> Threw <-> hv Momentum \/ h Mass /\ hv Direction /\ (h Energy \/ h Kinetic)) /\
  (snd (dget_vec d Direction) <> Threw <-> hv Direction \/ hv Momentum).
Proof.
  intros rec i new d0 l H d h hv.
  pose proof (dtells_calls d0 l (blank_of _ _ _ _ H)) as D. fold d in D.
  assert (forall n, s_set (d_num d n) = true /\ (exists v, s_val (d_num d n) = Got v) /\ h n \/ s_set (d_num d n) = false /\ ~ h n) as A.
  { intros n. pose proof (dt_num _ _ _ D n) as X. unfold h, holds in *.
    destruct (dknown _ _ l n); [left; rewrite X; cbn; repeat split; [eauto|discriminate]|right; split; [exact X|congruence]]. }
  assert (forall n, s_set (d_vec d n) = true /\ (exists v, s_val (d_vec d n) = Got v) /\ hv n \/ s_set (d_vec d n) = false /\ ~ hv n) as B.
  { intros n. pose proof (dt_vec _ _ _ D n) as X. unfold hv, holds in *.
    destruct (dknownv _ _ l n); [left; rewrite X; cbn; repeat split; [eauto|discriminate]|right; split; [exact X|congruence]]. }
  clearbody h hv. clear D.
  assert (forall (A' : Type) (s : slot A') v put r, s_set s = false -> snd (dkeep s v put r) = v) as KV
    by (intros A' s v put r E; unfold dkeep; rewrite E; destruct v; reflexivity).
  assert (forall (A' : Type) (s : slot A') v put r, s_set s = true -> snd (dkeep s v put r) = s_val s) as KS
    by (intros A' s v put r E; unfold dkeep; rewrite E; reflexivity).
  destruct (A Mass) as [(M1 & (m & M2) & M3)|[M1 M3]]; destruct (A Energy) as [(E1 & (e & E2) & E3)|[E1 E3]];
  destruct (A Kinetic) as [(T1 & (t & T2) & T3)|[T1 T3]];
  destruct (B Momentum) as [(P1 & (p & P2) & P3)|[P1 P3]]; destruct (B Direction) as [(D1 & (u & D2) & D3)|[D1 D3]];
  clear A B; unfold dget_num, dget_vec;
  repeat match goal with
  | E : s_set ?s = true |- context [snd (dkeep ?s ?v ?put ?r)] => rewrite (KS _ s v put r E)
  | E : s_set ?s = false |- context [snd (dkeep ?s ?v ?put ?r)] => rewrite (KV _ s v put r E)
  end;
  unfold dmass_from, denergy_from, dkinetic_from, dmomentum_from, ddirection_from, dhas, dhasv, dnum, dvct;
  rewrite ?M1, ?E1, ?T1, ?P1, ?D1; cbn [andb]; rewrite ?M2, ?E2, ?T2, ?P2, ?D2; cbn [bind];
  repeat match goal with |- context [bind (root ?x) _] => destruct (root_defined x); destruct (root x); cbn [bind] end;
  repeat match goal with |- context [root ?x] => destruct (root_defined x); destruct (root x) end;
  repeat match goal with |- context [normal ?x] => destruct (normal_defined x); destruct (normal x) end;
  try congruence; repeat split; intros G; try tauto; try discriminate; try (exfalso; apply G; reflexivity).
Qed.

(** The order of the reads does not matter. *)
Theorem C82_order : forall rec i new d0 l, daughter_of rec i new = Some d0 ->
  let d := fold_left dstep l d0 in
  let d' := fold_left dstep (filter (fun o => negb (dreads o)) l) d0 in
  (forall n, n = Mass \/ n = Energy \/ n = Kinetic -> snd (dget_num d n) = snd (dget_num d' n)) /\
  (forall n, n = Direction \/ n = Momentum -> snd (dget_vec d n) = snd (dget_vec d' n)) /\
  snd (dget_four d) = snd (dget_four d') /\ dget_time d = dget_time d'.
Proof.
  intros rec i new d0 l H d d'. pose proof (blank_of _ _ _ _ H) as B.
  pose proof (dtells_calls d0 l B) as D. fold d in D.
  pose proof (dtells_calls d0 (filter (fun o => negb (dreads o)) l) B) as D'. fold d' in D'.
  assert (forall A (says : dcall -> option A), (forall o, dreads o = true -> says o = None) ->
    told says (filter (fun o => negb (dreads o)) l) = told says l) as TF.
  { intros A says Q. clear - Q. induction l as [|o l IH] using rev_ind; [reflexivity|].
    rewrite filter_app. cbn. destruct (dreads o) eqn:E; cbn.
    - rewrite app_nil_r, told_snoc, (Q o E). exact IH.
    - rewrite !told_snoc, IH. reflexivity. }
  assert (dtells d0 l d') as D2.
  { destruct D' as [T1 T2 T3 T4 T5 T6 T7 T8]. constructor; try assumption.
    - intros n. specialize (T6 n). unfold dknown in *. rewrite TF in T6; [exact T6|].
      intros o E. destruct o; try discriminate; reflexivity.
    - intros n. specialize (T7 n). unfold dknownv in *. rewrite TF in T7; [exact T7|].
      intros o E. destruct o; try discriminate; reflexivity.
    - rewrite TF in T8; [exact T8|]. intros o E. destruct o; try discriminate; reflexivity. }
  split; [intros n N; exact (num_stable _ _ _ _ _ D D2 N)|].
  split; [intros n N; exact (vec_stable _ _ _ _ _ D D2 N)|]. split.
  - rewrite (dfour_val _ _ _ D), (dfour_val _ _ _ D2).
    rewrite (vec_stable _ _ _ _ Momentum D D2) by (unfold sort_vec; auto).
    rewrite (num_stable _ _ _ _ Energy D D2) by (unfold sort_num; auto). reflexivity.
  - unfold dget_time, dhas, dnum. pose proof (dt_num _ _ _ D Time) as X. pose proof (dt_num _ _ _ D2 Time) as Y.
    unfold holds in X, Y. destruct (dknown _ _ l Time); [rewrite X, Y; reflexivity|]. rewrite X, Y.
    rewrite (dt_start _ _ _ D), (dt_start _ _ _ D2). reflexivity.
Qed.

(** A decay product given by mass, kinetic energy and direction, asked for its energy in between. *)
Definition sample_record : irecord :=
  mkirecord 14 2212 [13; 2212]%Z (Some 1%Z) (mkv 0 0 0) 0 0 10 (mkv 0 0 10) (- (1)) None 1 0
    (mkv 0 0 7) 25 [None; Some 8%Z] [] [] [] [].
Example C82_case :
  let l := [DSetMass 3; DGetMass; DSetKinetic 2; DGetEnergy; DSetDirection (mkv 0 0 1); DSetHelicity (1/2)] in
  exists d0, daughter_of sample_record 1 77 = Some d0 /\ d_id d0 = 8%Z /\ d_type d0 = 2212%Z /\
    kinematic (mktruth (fun n => match n with Mass => 3 | Energy => 5 | Kinetic => 2 | _ => 0 end)
                 (fun n => match n with Direction => mkv 0 0 1 | Momentum => mkv 0 0 4 | _ => mkv 0 0 0 end)) /\
    dfits 8 2212 l (mktruth (fun n => match n with Mass => 3 | Energy => 5 | Kinetic => 2 | _ => 0 end)
                 (fun n => match n with Direction => mkv 0 0 1 | Momentum => mkv 0 0 4 | _ => mkv 0 0 0 end)) /\
    enough 8 2212 l /\
    dget_time (fold_left dstep l d0) = Got 25 /\ d_helicity (fold_left dstep l d0) = 1 / 2 /\
    snd (dget_num (fold_left dstep l d0) Energy) = Got 5.
Proof.
  cbn zeta. eexists. split; [reflexivity|]. split; [reflexivity|]. split; [reflexivity|].
  assert (vmag (mkv 0 0 4) = 4) as M.
  { unfold vmag, vdot. cbn. replace (0 * 0 + 0 * 0 + 4 * 4) with (4 * 4) by ring. apply sqrt_square. lra. }
  assert (vmag (mkv 0 0 1) = 1) as U.
  { unfold vmag, vdot. cbn. replace (0 * 0 + 0 * 0 + 1 * 1) with (1 * 1) by ring. apply sqrt_square. lra. }
  split; [constructor; cbn [t_num t_vec]; try lra; rewrite ?M; try exact U; try lra; unfold vscale; cbn; f_equal; ring|].
  split; [split; intros n v; destruct n; cbn; intros; try discriminate; congruence|].
  split; [right; unfold dknown, dknownv, told; cbn; repeat split; try discriminate; right; discriminate|].
  split; [reflexivity|]. split; [reflexivity|].
  cbn. f_equal. ring.
Qed.

(** An energy below the mass: the momentum is NaN and nothing is thrown. *)
Theorem C82_nan_refuted : exists d0 l, daughter_of sample_record 1 77 = Some d0 /\
  dknown (d_id d0) (d_type d0) l Mass = Some 2 /\ dknown (d_id d0) (d_type d0) l Energy = Some 1 /\
  snd (dget_vec (fold_left dstep l d0) Momentum) = Nan.
Proof.
  eexists. exists [DSetMass 2; DSetEnergy 1; DSetDirection (mkv 0 0 1)]. split; [reflexivity|].
  split; [reflexivity|]. split; [reflexivity|]. cbn [fold_left dstep]. unfold dget_vec, dkeep. cbn.
  unfold dmomentum_from. cbn. unfold root. destruct (Rlt_dec (1 * 1 - 2 * 2) 0); [reflexivity|lra].
Qed.

Print Assumptions C82_new.
Print Assumptions C82_set.
Print Assumptions C82_sound.
Print Assumptions C82_throws.
Print Assumptions C82_order.
Print Assumptions C82_case.
Print Assumptions C82_nan_refuted.
