(** Lemmas about the records of secondary particles: a secondary behaves as a primary without
    positions. *)
From Coq Require Import Reals List Bool ZArith Lra Lia.
From Verif Require Import VectorModel RecordModel RecordSpec RecordProofs RecordMain.
From Verif Require Import DaughterModel DaughterSpec.
Import ListNotations.
Open Scope R_scope.

Definition as_primary (d : daughter) : primary :=
  mkprimary (d_id d) (d_type d)
    (fun n => match n with Mass | Energy | Kinetic => d_num d n | _ => mkslot false Undef end)
    (fun n => match n with Direction | Momentum => d_vec d n | _ => mkslot false Undef end)
    (d_helicity d) 0.

Definition tr (id type : Z) (o : dcall) : list call :=
  match o with
  | DSetMass v => [SetNum Mass v] | DSetEnergy v => [SetNum Energy v] | DSetKinetic v => [SetNum Kinetic v]
  | DSetDirection v => [SetVec Direction v] | DSetMomentum v => [SetVec Momentum v]
  | DSetFour e p => [SetFour e p]
  | DSetParticle a =>
      if Z.eqb (a_id a) id && Z.eqb (a_type a) type
      then [SetNum Mass (a_mass a); SetFour (a_energy a) (a_momentum a)] else []
  | _ => []
  end.

Lemma app_two {A} (l : list A) a b : l ++ [a; b] = (l ++ [a]) ++ [b].
Proof. rewrite <- app_assoc. reflexivity. Qed.
Lemma told_snoc {A} (says : dcall -> option A) l o :
  told says (l ++ [o]) = match says o with Some v => Some v | None => told says l end.
Proof. unfold told. rewrite fold_left_app. reflexivity. Qed.

Definition sort_num (n : scalar) : Prop := n = Mass \/ n = Energy \/ n = Kinetic.
Definition sort_vec (n : place) : Prop := n = Direction \/ n = Momentum.

Lemma tr_known id type l n : known id type (flat_map (tr id type) l) n =
  match n with Mass | Energy | Kinetic => dknown id type l n | _ => None end.
Proof.
  induction l as [|o l IH] using rev_ind; [destruct n; reflexivity|].
  rewrite flat_map_app. cbn [flat_map]. rewrite app_nil_r. unfold dknown. rewrite told_snoc.
  change (told (dsays_num id type n) l) with (dknown id type l n).
  destruct o; cbn [tr]; rewrite ?app_nil_r; try (unfold known; rewrite given_snoc;
    change (given (says_num id type n) (flat_map (tr id type) l)) with (known id type (flat_map (tr id type) l) n);
    rewrite IH; destruct n; reflexivity); try (rewrite IH; destruct n; reflexivity).
  destruct (Z.eqb (a_id a) id && Z.eqb (a_type a) type) eqn:E.
  - rewrite app_two. unfold known. rewrite !given_snoc.
    change (given (says_num id type n) (flat_map (tr id type) l)) with (known id type (flat_map (tr id type) l) n).
    rewrite IH. destruct n; cbn; rewrite ?E; reflexivity.
  - rewrite app_nil_r, IH. destruct n; cbn; rewrite ?E; reflexivity.
Qed.
Lemma tr_knownv id type l n : knownv id type (flat_map (tr id type) l) n =
  match n with Direction | Momentum => dknownv id type l n | _ => None end.
Proof.
  induction l as [|o l IH] using rev_ind; [destruct n; reflexivity|].
  rewrite flat_map_app. cbn [flat_map]. rewrite app_nil_r. unfold dknownv. rewrite told_snoc.
  change (told (dsays_vec id type n) l) with (dknownv id type l n).
  destruct o; cbn [tr]; rewrite ?app_nil_r; try (unfold knownv; rewrite given_snoc;
    change (given (says_vec id type n) (flat_map (tr id type) l)) with (knownv id type (flat_map (tr id type) l) n);
    rewrite IH; destruct n; reflexivity); try (rewrite IH; destruct n; reflexivity).
  destruct (Z.eqb (a_id a) id && Z.eqb (a_type a) type) eqn:E.
  - rewrite app_two. unfold knownv. rewrite !given_snoc.
    change (given (says_vec id type n) (flat_map (tr id type) l)) with (knownv id type (flat_map (tr id type) l) n).
    rewrite IH. destruct n; cbn; rewrite ?E; reflexivity.
  - rewrite app_nil_r, IH. destruct n; cbn; rewrite ?E; reflexivity.
Qed.
Lemma tr_start id type l : given says_start (flat_map (tr id type) l) = None.
Proof.
  induction l as [|o l IH] using rev_ind; [reflexivity|].
  rewrite flat_map_app. cbn [flat_map]. rewrite app_nil_r.
  destruct o; cbn [tr]; rewrite ?app_nil_r; try (rewrite given_snoc; exact IH); try exact IH.
  destruct (_ && _); [|rewrite app_nil_r; exact IH].
  rewrite app_two, !given_snoc. exact IH.
Qed.

(** What a secondary holds after some calls. *)
Record dtells (d0 : daughter) (l : list dcall) (d : daughter) : Prop := {
  dt_index : d_index d = d_index d0;
  dt_id : d_id d = d_id d0;
  dt_type : d_type d = d_type d0;
  dt_position : d_position d = d_position d0;
  dt_start : d_start d = d_start d0;
  dt_num : forall n, holds (dknown (d_id d0) (d_type d0) l n) (d_num d n);
  dt_vec : forall n, holds (dknownv (d_id d0) (d_type d0) l n) (d_vec d n);
  dt_helicity : d_helicity d = or_else (told (dsays_helicity (d_id d0) (d_type d0)) l) (d_helicity d0) }.

(** Nothing set. *)
Record blank (d : daughter) : Prop := {
  b_num : forall n, s_set (d_num d n) = false; b_vec : forall n, s_set (d_vec d n) = false }.

Record dsame (r r' : daughter) : Prop := {
  ds_index : d_index r' = d_index r; ds_id : d_id r' = d_id r; ds_type : d_type r' = d_type r;
  ds_position : d_position r' = d_position r;
  ds_num : forall n, s_set (d_num r' n) = s_set (d_num r n) /\ (s_set (d_num r n) = true -> d_num r' n = d_num r n);
  ds_vec : forall n, s_set (d_vec r' n) = s_set (d_vec r n) /\ (s_set (d_vec r n) = true -> d_vec r' n = d_vec r n);
  ds_start : d_start r' = d_start r; ds_helicity : d_helicity r' = d_helicity r }.
Lemma dsame_refl r : dsame r r. Proof. constructor; intros; auto. Qed.
Lemma dsame_trans a b c : dsame a b -> dsame b c -> dsame a c.
Proof.
  intros [A1 A2 A3 A4 A5 A6 A7 A8] [B1 B2 B3 B4 B5 B6 B7 B8]. constructor; try congruence; intros n.
  - destruct (A5 n) as [P Q], (B5 n) as [P' Q']. split; [congruence|]. intros H. rewrite Q', Q; congruence.
  - destruct (A6 n) as [P Q], (B6 n) as [P' Q']. split; [congruence|]. intros H. rewrite Q', Q; congruence.
Qed.
Lemma dget_num_same r n : dsame r (fst (dget_num r n)).
Proof.
  unfold dget_num, dkeep. destruct (s_set (d_num r n)) eqn:E; [apply dsame_refl|].
  destruct (match n with Mass => _ | Energy => _ | Kinetic => _ | _ => _ end); try apply dsame_refl;
  (constructor; try reflexivity; intros k; cbn; [|auto];
   destruct (scalar_eqb k n) eqn:F; [|auto]; apply scalar_eqb_spec in F; subst k; cbn; rewrite E;
   split; [reflexivity|discriminate]).
Qed.
Lemma dget_vec_same r n : dsame r (fst (dget_vec r n)).
Proof.
  unfold dget_vec, dkeep. destruct (s_set (d_vec r n)) eqn:E; [apply dsame_refl|].
  destruct (match n with Direction => _ | Momentum => _ | _ => _ end); try apply dsame_refl;
  (constructor; try reflexivity; intros k; cbn; [auto|];
   destruct (place_eqb k n) eqn:F; [|auto]; apply place_eqb_spec in F; subst k; cbn; rewrite E;
   split; [reflexivity|discriminate]).
Qed.
Lemma dget_four_same r : dsame r (fst (dget_four r)).
Proof.
  unfold dget_four. pose proof (dget_vec_same r Momentum) as S. destruct (dget_vec r Momentum) as [r1 p].
  cbn in S. pose proof (dget_num_same r1 Energy) as S'. destruct (dget_num r1 Energy) as [r2 e]. cbn in S'.
  pose proof (dsame_trans _ _ _ S S').
  destruct p; cbn; try assumption; destruct e; cbn; assumption.
Qed.

Lemma dtells_same d0 l d d' : dsame d d' -> dtells d0 l d -> dtells d0 l d'.
Proof.
  intros [S1 S2 S3 S4 S5 S6 S7 S8] [T1 T2 T3 T4 T5 T6 T7 T8]. constructor; try congruence; intros n.
  - specialize (T6 n). destruct (S5 n) as [P Q]. unfold holds in *.
    destruct (dknown _ _ l n); [rewrite Q; [exact T6|rewrite T6; reflexivity]|congruence].
  - specialize (T7 n). destruct (S6 n) as [P Q]. unfold holds in *.
    destruct (dknownv _ _ l n); [rewrite Q; [exact T7|rewrite T7; reflexivity]|congruence].
Qed.

Lemma dtells_quiet d0 l d o : dreads o = true -> dtells d0 l d -> dtells d0 (l ++ [o]) d.
Proof.
  intros R [T1 T2 T3 T4 T5 T6 T7 T8]. constructor; try assumption.
  - intros n. unfold dknown. rewrite told_snoc. destruct o; try discriminate; apply T6.
  - intros n. unfold dknownv. rewrite told_snoc. destruct o; try discriminate; apply T7.
  - rewrite told_snoc. destruct o; try discriminate; exact T8.
Qed.

Lemma dtells_step d0 l d o : dtells d0 l d -> dtells d0 (l ++ [o]) (dstep d o).
Proof.
  intros T. destruct (dreads o) eqn:R.
  { apply dtells_quiet; [exact R|]. refine (dtells_same _ _ _ _ _ T).
    destruct o; try discriminate; cbn;
      first [apply dget_num_same|apply dget_vec_same|apply dget_four_same]. }
  destruct T as [T1 T2 T3 T4 T5 T6 T7 T8].
  assert (forall n, dknown (d_id d0) (d_type d0) (l ++ [o]) n =
    match dsays_num (d_id d0) (d_type d0) n o with Some v => Some v | None => dknown (d_id d0) (d_type d0) l n end) as KN
    by (intros n; apply told_snoc).
  assert (forall n, dknownv (d_id d0) (d_type d0) (l ++ [o]) n =
    match dsays_vec (d_id d0) (d_type d0) n o with Some v => Some v | None => dknownv (d_id d0) (d_type d0) l n end) as KV
    by (intros n; apply told_snoc).
  destruct o; try discriminate R; cbn [dstep].
  9:{ unfold dset_particle. rewrite T2, T3.
    destruct (Z.eqb (a_id a) (d_id d0)) eqn:E1; cbn [negb].
    - destruct (Z.eqb (a_type a) (d_type d0)) eqn:E2; cbn [negb].
      + constructor; try assumption; try (intros n; rewrite ?KN, ?KV).
        * destruct n; cbn; rewrite ?E1, ?E2; cbn; try reflexivity; apply T6.
        * destruct n; cbn; rewrite ?E1, ?E2; cbn; try reflexivity; apply T7.
        * rewrite told_snoc. cbn. rewrite E1, E2. reflexivity.
      + constructor; try assumption; try (intros n; rewrite ?KN, ?KV).
        * destruct n; cbn; rewrite ?E1, ?E2; cbn; apply T6.
        * destruct n; cbn; rewrite ?E1, ?E2; cbn; apply T7.
        * rewrite told_snoc. cbn. rewrite E1, E2. exact T8.
    - constructor; try assumption; try (intros n; rewrite ?KN, ?KV).
        * destruct n; cbn; rewrite ?E1; cbn; apply T6.
        * destruct n; cbn; rewrite ?E1; cbn; apply T7.
        * rewrite told_snoc. cbn. rewrite E1. exact T8. }
  all: constructor; try assumption; try (intros n; rewrite ?KN, ?KV; destruct n; cbn; try reflexivity; first [apply T6|apply T7]);
    rewrite told_snoc; try exact T8; reflexivity.
Qed.

Lemma dtells_calls d0 l : blank d0 -> dtells d0 l (fold_left dstep l d0).
Proof.
  intros [B1 B2]. induction l as [|o l IH] using rev_ind.
  - constructor; try reflexivity; intros n; [apply B1|apply B2].
  - rewrite fold_left_app. cbn. apply dtells_step. exact IH.
Qed.

Lemma blank_of rec i new d : daughter_of rec i new = Some d -> blank d.
Proof.
  unfold daughter_of. destruct (nth_error _ i); [|discriminate]. intros H. injection H as <-.
  constructor; reflexivity.
Qed.

Lemma dtells_tells d0 l d : dtells d0 l d ->
  tells (d_id d0) (d_type d0) (flat_map (tr (d_id d0) (d_type d0)) l) (as_primary d).
Proof.
  intros [T1 T2 T3 T4 T5 T6 T7 T8]. constructor; try assumption.
  - intros n. rewrite tr_known. destruct n; cbn; try reflexivity; apply T6.
  - intros n. rewrite tr_knownv. destruct n; cbn; try reflexivity; apply T7.
  - rewrite tr_start. reflexivity.
Qed.

(** The getters agree. *)
Section Agree.
Context {d0 : daughter} {l : list dcall} {d : daughter}.
Hypothesis D : dtells d0 l d.
Let T := dtells_tells _ _ _ D.

Lemma energy_agrees : denergy_from d = energy_from (as_primary d).
Proof.
  unfold denergy_from, energy_from.
  change (dhas d Mass) with (has (as_primary d) Mass). change (dhas d Kinetic) with (has (as_primary d) Kinetic).
  change (dhasv d Momentum) with (hasv (as_primary d) Momentum).
  change (dnum d Mass) with (num (as_primary d) Mass). change (dnum d Kinetic) with (num (as_primary d) Kinetic).
  change (dvct d Momentum) with (vct (as_primary d) Momentum).
  look T Mass; [|reflexivity]. destruct (hasv _ Momentum); [reflexivity|]. look T Kinetic; [|reflexivity].
  cbn. f_equal. ring.
Qed.
Lemma kinetic_agrees : dkinetic_from d = kinetic_from (as_primary d).
Proof.
  unfold dkinetic_from, kinetic_from.
  rewrite (andb_comm (hasv _ Momentum) (has _ Mass)). reflexivity.
Qed.
Lemma direction_agrees : ddirection_from d = direction_from (as_primary d).
Proof.
  unfold ddirection_from, direction_from. change (hasv (as_primary d) Initial) with false. cbn [andb].
  reflexivity.
Qed.

Lemma num_agrees n : sort_num n -> snd (dget_num d n) = snd (get_num (as_primary d) n).
Proof.
  intros [-> | [-> | ->]]; rewrite get_num_val; unfold dget_num, dkeep;
    change (s_set (d_num d ?n)) with (has (as_primary d) n); unfold num_from;
    rewrite ?energy_agrees, ?kinetic_agrees.
  - change (dmass_from d) with (mass_from (as_primary d)).
    change (s_set (d_num d Mass)) with (has (as_primary d) Mass).
    destruct (has _ _); [reflexivity|]. destruct (mass_from _); reflexivity.
  - change (s_set (d_num d Energy)) with (has (as_primary d) Energy).
    destruct (has _ _); [reflexivity|]. destruct (energy_from _); reflexivity.
  - change (s_set (d_num d Kinetic)) with (has (as_primary d) Kinetic).
    destruct (has _ _); [reflexivity|]. destruct (kinetic_from _); reflexivity.
Qed.
Lemma vec_agrees n : sort_vec n -> snd (dget_vec d n) = snd (get_vec (as_primary d) n).
Proof.
  intros [-> | ->]; rewrite get_vec_val; unfold dget_vec, dkeep, vec_from; rewrite ?direction_agrees.
  - change (s_set (d_vec d Direction)) with (hasv (as_primary d) Direction).
    destruct (hasv _ _); [reflexivity|]. destruct (direction_from _); reflexivity.
  - change (s_set (d_vec d Momentum)) with (hasv (as_primary d) Momentum).
    change (dmomentum_from d) with (momentum_from (as_primary d)).
    destruct (hasv _ _); [reflexivity|]. destruct (momentum_from _); reflexivity.
Qed.
End Agree.

(** A getter between two reads changes nothing. *)
Lemma num_stable d0 l d d' n : dtells d0 l d -> dtells d0 l d' -> sort_num n ->
  snd (dget_num d n) = snd (dget_num d' n).
Proof.
  intros T T' S. rewrite (num_agrees T n S), (num_agrees T' n S).
  apply (stable_num _ _ _ _ _ _ (dtells_tells _ _ _ T) (dtells_tells _ _ _ T')).
  destruct S as [-> | [-> | ->]]; exact Logic.I.
Qed.
Lemma vec_stable d0 l d d' n : dtells d0 l d -> dtells d0 l d' -> sort_vec n ->
  snd (dget_vec d n) = snd (dget_vec d' n).
Proof.
  intros T T' S. rewrite (vec_agrees n S), (vec_agrees n S).
  apply (stable_vec _ _ _ _ _ _ (dtells_tells _ _ _ T) (dtells_tells _ _ _ T')).
Qed.

Lemma dfour_val d0 l d : dtells d0 l d ->
  snd (dget_four d) =
    match snd (dget_vec d Momentum) with
    | Undef => Undef
    | Threw => Threw
    | p => match snd (dget_num d Energy) with Undef => Undef | Threw => Threw | e => Got (e, p) end
    end.
Proof.
  intros T. unfold dget_four. pose proof (dget_vec_same d Momentum) as S.
  pose proof (num_stable _ _ _ _ Energy (dtells_same _ _ _ _ S T) T (or_intror (or_introl eq_refl))) as E.
  destruct (dget_vec d Momentum) as [r1 p]. cbn [fst snd] in *.
  destruct p; try reflexivity; rewrite <- E; destruct (dget_num r1 Energy) as [r2 e]; destruct e; reflexivity.
Qed.

Lemma dfits_fits id type l w : dfits id type l w -> fits id type (flat_map (tr id type) l) w.
Proof.
  intros [A B]. split; intros n v.
  - rewrite tr_known. destruct n; try discriminate; apply A; discriminate.
  - rewrite tr_knownv. destruct n; try discriminate; apply B.
Qed.
