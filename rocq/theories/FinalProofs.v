(** Lemmas about writing secondaries into an interaction record. *)
From Coq Require Import Reals List Bool ZArith Lra Lia.
From Verif Require Import VectorModel RecordModel RecordSpec RecordProofs RecordMain.
From Verif Require Import DaughterModel DaughterSpec DaughterProofs.
Import ListNotations.
Open Scope R_scope.

Lemma write_some {A} (l : list A) i x : (i < List.length l)%nat -> exists l', write l i x = Some l'.
Proof.
  revert i. induction l as [|y l IH]; intros i H; cbn in H; [lia|]. destruct i; cbn; [eauto|].
  destruct (IH i) as [l' E]; [lia|]. rewrite E. eauto.
Qed.
Lemma write_length {A} (l : list A) i x l' : write l i x = Some l' -> List.length l' = List.length l /\ (i < List.length l)%nat.
Proof.
  revert i l'. induction l as [|y l IH]; intros [|i] l'; cbn; try discriminate.
  - intros H. injection H as <-. cbn. split; [reflexivity|lia].
  - destruct (write l i x) eqn:E; [|discriminate]. intros H. injection H as <-. destruct (IH _ _ E). cbn. lia.
Qed.
Lemma write_nth {A} (l : list A) i x l' j : write l i x = Some l' ->
  nth_error l' j = if Nat.eqb j i then Some x else nth_error l j.
Proof.
  revert i l' j. induction l as [|y l IH]; intros [|i] l' j; cbn; try discriminate.
  - intros H. injection H as <-. destruct j; reflexivity.
  - destruct (write l i x) eqn:E; [|discriminate]. intros H. injection H as <-. destruct j; cbn; [reflexivity|].
    apply (IH _ _ _ E).
Qed.
Lemma resize_length {A} (l : list A) n x : List.length (resize l n x) = n.
Proof. revert l. induction n as [|n IH]; intros l; cbn; [reflexivity|]. destruct l; cbn; rewrite IH; reflexivity. Qed.

(** What [dfinalize] needs and does. *)
Lemma dfinalize_got d0 l d rec rec' : dtells d0 l d -> dfinalize d rec = Got rec' ->
  exists m e p t ids masses momenta helicities times,
    snd (dget_num d Mass) = Got m /\ snd (dget_four d) = Got (Got e, Got p) /\ dget_time d = Got t /\
    write (i_ids rec) (d_index d) (Some (d_id d)) = Some ids /\ write (i_masses rec) (d_index d) m = Some masses /\
    write (i_momenta rec) (d_index d) (e, p) = Some momenta /\
    write (i_helicities rec) (d_index d) (d_helicity d) = Some helicities /\
    write (i_times rec) (d_index d) t = Some times /\
    rec' = mkirecord (i_primary_type rec) (i_target_type rec) (i_types rec) (i_primary_id rec)
             (i_initial rec) (i_start rec) (i_mass rec) (i_energy rec) (i_momentum rec)
             (i_helicity rec) (i_target_id rec) (i_target_mass rec) (i_target_helicity rec)
             (i_vertex rec) (i_time rec) ids masses momenta helicities times.
Proof.
  intros T. unfold dfinalize. pose proof (dget_num_same d Mass) as S.
  pose proof (dtells_same _ _ _ _ S T) as T1. destruct (dget_num d Mass) as [r1 m]. cbn [fst] in *.
  assert (snd (dget_four r1) = snd (dget_four d)) as F.
  { rewrite (dfour_val _ _ _ T), (dfour_val _ _ _ T1).
    rewrite (vec_stable _ _ _ _ Momentum T T1) by (unfold sort_vec; auto).
    rewrite (num_stable _ _ _ _ Energy T T1) by (unfold sort_num; auto). reflexivity. }
  pose proof (dget_four_same r1) as S2. destruct (dget_four r1) as [r2 f]. cbn [fst snd] in *.
  pose proof (dsame_trans _ _ _ S S2) as S12.
  assert (dget_time r2 = dget_time d) as ->.
  { pose proof (dtells_same _ _ _ _ S12 T) as T2. pose proof (dt_num _ _ _ T Time) as X. pose proof (dt_num _ _ _ T2 Time) as Y.
    unfold dget_time, dhas, dnum, holds in *. destruct (dknown _ _ l Time); [rewrite X, Y; reflexivity|].
    rewrite X, Y, (ds_start _ _ S12). reflexivity. }
  rewrite (ds_helicity _ _ S12), <- F. intros H. clear F S S2 S12 T T1.
  destruct m as [m| | |]; try discriminate. cbn [bind] in H. destruct f as [[e p]| | |]; try discriminate.
  cbn [bind fst snd] in H. destruct e as [e| | |]; try discriminate. destruct p as [p| | |]; try discriminate.
  cbn [bind] in H. destruct (dget_time d) as [t| | |]; try discriminate. cbn [bind] in H.
  destruct (write (i_ids rec) _ _) as [ids|] eqn:W1; [|discriminate].
  destruct (write (i_masses rec) _ _) as [masses|] eqn:W2; [|discriminate].
  destruct (write (i_momenta rec) _ _) as [momenta|] eqn:W3; [|discriminate].
  destruct (write (i_helicities rec) _ _) as [hels|] eqn:W4; [|discriminate].
  destruct (write (i_times rec) _ _) as [times|] eqn:W5; [|discriminate].
  injection H as <-. exists m, e, p, t, ids, masses, momenta, hels, times. repeat split; assumption.
Qed.

Lemma dfinalize_works d0 l d rec m e p t : dtells d0 l d ->
  snd (dget_num d Mass) = Got m -> snd (dget_four d) = Got (Got e, Got p) -> dget_time d = Got t ->
  (d_index d < List.length (i_ids rec))%nat -> (d_index d < List.length (i_masses rec))%nat ->
  (d_index d < List.length (i_momenta rec))%nat -> (d_index d < List.length (i_helicities rec))%nat ->
  (d_index d < List.length (i_times rec))%nat -> exists rec', dfinalize d rec = Got rec'.
Proof.
  intros T. unfold dfinalize. pose proof (dget_num_same d Mass) as S.
  pose proof (dtells_same _ _ _ _ S T) as T1. destruct (dget_num d Mass) as [r1 m']. cbn [fst] in *.
  assert (snd (dget_four r1) = snd (dget_four d)) as F.
  { rewrite (dfour_val _ _ _ T), (dfour_val _ _ _ T1).
    rewrite (vec_stable _ _ _ _ Momentum T T1) by (unfold sort_vec; auto).
    rewrite (num_stable _ _ _ _ Energy T T1) by (unfold sort_num; auto). reflexivity. }
  pose proof (dget_four_same r1) as S2. destruct (dget_four r1) as [r2 f]. cbn [fst snd] in *.
  pose proof (dsame_trans _ _ _ S S2) as S12.
  assert (dget_time r2 = dget_time d) as ->.
  { pose proof (dtells_same _ _ _ _ S12 T) as T2. pose proof (dt_num _ _ _ T Time) as X. pose proof (dt_num _ _ _ T2 Time) as Y.
    unfold dget_time, dhas, dnum, holds in *. destruct (dknown _ _ l Time); [rewrite X, Y; reflexivity|].
    rewrite X, Y, (ds_start _ _ S12). reflexivity. }
  rewrite (ds_helicity _ _ S12), <- F. intros -> -> -> L1 L2 L3 L4 L5. cbn [bind fst snd].
  destruct (write_some (i_ids rec) _ (Some (d_id d)) L1) as [? ->].
  destruct (write_some (i_masses rec) _ m L2) as [? ->].
  destruct (write_some (i_momenta rec) _ (e, p) L3) as [? ->].
  destruct (write_some (i_helicities rec) _ (d_helicity d) L4) as [? ->].
  destruct (write_some (i_times rec) _ t L5) as [? ->]. eauto.
Qed.

(** ** All secondaries in turn *)
(** What the finished record holds for a secondary. *)
Record written (d : daughter) (rec : irecord) : Prop := {
  w_id : nth_error (i_ids rec) (d_index d) = Some (Some (d_id d));
  w_mass : exists m, snd (dget_num d Mass) = Got m /\ nth_error (i_masses rec) (d_index d) = Some m;
  w_four : exists e p, snd (dget_four d) = Got (Got e, Got p) /\ nth_error (i_momenta rec) (d_index d) = Some (e, p);
  w_helicity : nth_error (i_helicities rec) (d_index d) = Some (d_helicity d);
  w_time : exists t, dget_time d = Got t /\ nth_error (i_times rec) (d_index d) = Some t }.

Record frame (rec rec' : irecord) : Prop := {
  fr_same : rec' = mkirecord (i_primary_type rec) (i_target_type rec) (i_types rec) (i_primary_id rec)
             (i_initial rec) (i_start rec) (i_mass rec) (i_energy rec) (i_momentum rec)
             (i_helicity rec) (i_target_id rec) (i_target_mass rec) (i_target_helicity rec)
             (i_vertex rec) (i_time rec) (i_ids rec') (i_masses rec') (i_momenta rec') (i_helicities rec') (i_times rec');
  fr_ids : List.length (i_ids rec') = List.length (i_ids rec);
  fr_masses : List.length (i_masses rec') = List.length (i_masses rec);
  fr_momenta : List.length (i_momenta rec') = List.length (i_momenta rec);
  fr_helicities : List.length (i_helicities rec') = List.length (i_helicities rec);
  fr_times : List.length (i_times rec') = List.length (i_times rec) }.

Lemma frame_refl rec : frame rec rec. Proof. constructor; try reflexivity. destruct rec; reflexivity. Qed.
Lemma frame_trans a b c : frame a b -> frame b c -> frame a c.
Proof.
  intros [A1 A2 A3 A4 A5 A6] [B1 B2 B3 B4 B5 B6]. constructor; try congruence.
  rewrite B1 at 1. rewrite A1. reflexivity.
Qed.

Lemma dfinalize_writes d0 l d rec rec' : dtells d0 l d -> dfinalize d rec = Got rec' ->
  frame rec rec' /\ written d rec' /\
  (forall d', d_index d' <> d_index d -> written d' rec -> written d' rec').
Proof.
  intros T H. destruct (dfinalize_got _ _ _ _ _ T H) as (m & e & p & t & ids & masses & momenta & hels & times & M & F & TT & W1 & W2 & W3 & W4 & W5 & ->).
  destruct (write_length _ _ _ _ W1) as [L1 _]. destruct (write_length _ _ _ _ W2) as [L2 _].
  destruct (write_length _ _ _ _ W3) as [L3 _]. destruct (write_length _ _ _ _ W4) as [L4 _].
  destruct (write_length _ _ _ _ W5) as [L5 _].
  pose proof (fun j => write_nth _ _ _ _ j W1) as N1. pose proof (fun j => write_nth _ _ _ _ j W2) as N2.
  pose proof (fun j => write_nth _ _ _ _ j W3) as N3. pose proof (fun j => write_nth _ _ _ _ j W4) as N4.
  pose proof (fun j => write_nth _ _ _ _ j W5) as N5.
  split; [constructor; try assumption; reflexivity|]. split.
  - constructor; cbn; rewrite ?N1, ?N2, ?N3, ?N4, ?N5, Nat.eqb_refl; eauto.
  - intros d' Q [V1 V2 V3 V4 V5]. apply Nat.eqb_neq in Q.
    constructor; cbn; rewrite ?N1, ?N2, ?N3, ?N4, ?N5, Q; assumption.
Qed.

Definition sound (d : daughter) : Prop := exists d0 l, dtells d0 l d.

Lemma dfinalize_all_writes l rec rec' : Forall sound l -> NoDup (map d_index l) ->
  dfinalize_all l rec = Got rec' ->
  frame rec rec' /\ Forall (fun d => written d rec') l /\
  (forall d', ~ In (d_index d') (map d_index l) -> written d' rec -> written d' rec').
Proof.
  revert rec. induction l as [|d l IH]; intros rec S N H; cbn in *.
  - injection H as <-. split; [apply frame_refl|]. split; [constructor|]. auto.
  - inversion S as [|? ? [d0 [c T]] S']; subst. inversion N as [|? ? N1 N2]; subst.
    destruct (dfinalize d rec) as [rec1| | |] eqn:E; try discriminate. cbn in H.
    destruct (dfinalize_writes _ _ _ _ _ T E) as (F & W & O).
    destruct (IH _ S' N2 H) as (F' & W' & O'). split; [exact (frame_trans _ _ _ F F')|]. split.
    + constructor; [|exact W']. apply O'; assumption.
    + intros d' Q V. apply O'; [tauto|]. apply O; [intros X; apply Q; left; congruence|exact V].
Qed.

Definition ready (d : daughter) : Prop :=
  exists m e p t, snd (dget_num d Mass) = Got m /\ snd (dget_four d) = Got (Got e, Got p) /\ dget_time d = Got t.

Lemma dfinalize_all_works l rec n : Forall sound l -> Forall ready l -> Forall (fun d => (d_index d < n)%nat) l ->
  List.length (i_ids rec) = n -> List.length (i_masses rec) = n -> List.length (i_momenta rec) = n ->
  List.length (i_helicities rec) = n -> List.length (i_times rec) = n ->
  exists rec', dfinalize_all l rec = Got rec'.
Proof.
  revert rec. induction l as [|d l IH]; intros rec S R I L1 L2 L3 L4 L5; cbn; [eauto|].
  inversion S as [|? ? [d0 [c T]] S']; subst. inversion R as [|? ? (m & e & p & t & A & B & C) R']; subst.
  inversion I as [|? ? I1 I']; subst.
  destruct (dfinalize_works _ _ _ rec m e p t T A B C) as [rec1 E]; try congruence; try lia.
  rewrite E. cbn. destruct (dfinalize_writes _ _ _ _ _ T E) as ([F1 F2 F3 F4 F5 F6] & _).
  apply IH; try assumption; congruence.
Qed.

(** ** Calls on the final state *)
Lemma daughters_nth rec new k n i : (i < n)%nat -> (k + n <= List.length (i_types rec))%nat ->
  nth_error (daughters_from rec new k n) i = daughter_of rec (k + i) (new (k + i)%nat).
Proof.
  revert k i. induction n as [|n IH]; intros k i H L; [lia|]. cbn.
  unfold daughter_of at 1. destruct (nth_error (i_types rec) k) as [t|] eqn:E.
  - destruct i; cbn.
    + rewrite Nat.add_0_r. unfold daughter_of. rewrite E. reflexivity.
    + rewrite IH by lia. f_equal; [lia|]. f_equal. lia.
  - apply nth_error_None in E. lia.
Qed.
Lemma daughters_length rec new k n : (k + n <= List.length (i_types rec))%nat ->
  List.length (daughters_from rec new k n) = n.
Proof.
  revert k. induction n as [|n IH]; intros k L; [reflexivity|]. cbn. unfold daughter_of.
  destruct (nth_error (i_types rec) k) eqn:E; [cbn; rewrite IH by lia; reflexivity|].
  apply nth_error_None in E. lia.
Qed.

Lemma on_daughter_nth l j o i : nth_error (on_daughter l j o) i =
  if Nat.eqb j i then option_map (fun d => dstep d o) (nth_error l i) else nth_error l i.
Proof.
  revert j i. induction l as [|d l IH]; intros j i; cbn.
  - destruct i; cbn; destruct (Nat.eqb j _); reflexivity.
  - destruct j, i; cbn; try reflexivity. apply IH.
Qed.
Lemma on_daughter_length l j o : List.length (on_daughter l j o) = List.length l.
Proof. revert j. induction l as [|d l IH]; intros [|j]; cbn; try reflexivity. rewrite IH. reflexivity. Qed.

Definition restart (d : daughter) (t : R) : daughter :=
  mkdaughter (d_index d) (d_id d) (d_type d) (d_position d) (d_num d) (d_vec d) (d_helicity d) t.

Lemma told_final_snoc {A} (says : fcall -> option A) l o :
  told_final says (l ++ [o]) = match says o with Some v => Some v | None => told_final says l end.
Proof. unfold told_final. rewrite fold_left_app. reflexivity. Qed.
Lemma calls_to_snoc i l o : calls_to i (l ++ [o]) =
  calls_to i l ++ match o with FDaughter j c => if Nat.eqb j i then [c] else [] | _ => [] end.
Proof. unfold calls_to. rewrite flat_map_app. cbn. rewrite app_nil_r. reflexivity. Qed.

Lemma dtells_restart d0 l d t t' : dtells (restart d0 t) l d -> dtells (restart d0 t') l (restart d t').
Proof. intros [T1 T2 T3 T4 T5 T6 T7 T8]. constructor; assumption || reflexivity. Qed.

Lemma final_state rec new target l :
  let f := fold_left fstep l (final_of rec new target) in
  let n := List.length (i_types rec) in
  f_target_id f = or_else (i_target_id rec) target /\
  f_target_mass f = or_else (told_final says_mass l) (i_target_mass rec) /\
  f_target_helicity f = or_else (told_final says_helicity l) (i_target_helicity rec) /\
  f_time f = told_final says_time l /\
  List.length (f_daughters f) = n /\
  (forall i, (i < n)%nat -> exists d0 d, daughter_of rec i (new i) = Some d0 /\
     nth_error (f_daughters f) i = Some d /\
     dtells (restart d0 (or_else (told_final says_time l) (i_time rec))) (calls_to i l) d).
Proof.
  cbn zeta. induction l as [|o l IH] using rev_ind.
  - cbn. split; [reflexivity|]. split; [reflexivity|]. split; [reflexivity|]. split; [reflexivity|].
    split; [apply daughters_length; lia|].
    intros i L. assert (exists d0, daughter_of rec i (new i) = Some d0) as [d0 E].
    { unfold daughter_of. destruct (nth_error (i_types rec) i) eqn:E; [eauto|]. apply nth_error_None in E. lia. }
    exists d0, d0. split; [exact E|]. split; [rewrite daughters_nth by lia; exact E|].
    assert (restart d0 (i_time rec) = d0) as ->.
    { unfold daughter_of in E. destruct (nth_error (i_types rec) i); [|discriminate]. injection E as <-. reflexivity. }
    apply (dtells_calls d0 []). exact (blank_of _ _ _ _ E).
  - rewrite fold_left_app. cbn [fold_left]. rewrite !told_final_snoc.
    destruct IH as (A & B & C & D & E & F). set (f := fold_left fstep l (final_of rec new target)) in *.
    destruct o as [t|m|h|j c]; cbn [fstep says_time says_mass says_helicity final_set_time f_target_id f_target_mass f_target_helicity f_time f_daughters];
      repeat (split; [first [assumption|reflexivity|rewrite ?map_length, ?on_daughter_length; assumption]|]).
    + intros i L. destruct (F i L) as (d0 & d & F1 & F2 & F3). exists d0, (restart d t).
      split; [exact F1|]. split; [rewrite nth_error_map, F2; reflexivity|].
      rewrite calls_to_snoc, app_nil_r. exact (dtells_restart _ _ _ _ _ F3).
    + intros i L. destruct (F i L) as (d0 & d & F1 & F2 & F3). exists d0, d. rewrite calls_to_snoc, app_nil_r. auto.
    + intros i L. destruct (F i L) as (d0 & d & F1 & F2 & F3). exists d0, d. rewrite calls_to_snoc, app_nil_r. auto.
    + intros i L. destruct (F i L) as (d0 & d & F1 & F2 & F3). rewrite calls_to_snoc, on_daughter_nth, F2.
      destruct (Nat.eqb j i).
      * exists d0, (dstep d c). split; [exact F1|]. split; [reflexivity|]. apply dtells_step. exact F3.
      * exists d0, d. rewrite app_nil_r. auto.
Qed.
