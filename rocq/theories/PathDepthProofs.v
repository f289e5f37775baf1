(** Lemmas on depths along paths. *)
From Coq Require Import Reals Lra List Bool ZArith.
From Verif Require Import TraversalModel VectorModel QuatModel QuatSpec QuatProofs QuatPlace DepthModel PathModel PathSpec PathProofs PathMain PathDepthSpec.
Import ListNotations.
Open Scope R_scope.

Section Depths.
Context {Q : Type}.
Variable m : detector Q.
Hypothesis P : proper m.
Variable amount : Q -> vec -> vec -> R.
Hypothesis M : measures m amount.

Lemma along_back a d s t : along_by (along_by a d s) d t = along_by a d (s + t).
Proof. unfold along_by. destruct a, d; unfold vadd, vscale; cbn. f_equal; ring. Qed.
Lemma along_neg a d t : along_by a (vneg d) t = along_by a d (- t).
Proof. unfold along_by, vneg. destruct a, d; unfold vadd, vscale; cbn. f_equal; ring. Qed.

Lemma ready p : sound m p -> set_geo p = true -> castable p -> exists p', prepare p = Ok p'.
Proof.
  intros S G K. unfold prepare. assert (E : forall p, sound m p -> set_geo p = true -> exists q, ensure_points p = Ok q).
  { intros r Sr Gr. unfold ensure_points. rewrite (update_set m r Sr Gr). cbn. eauto. }
  assert (F : exists r, ensure_crossings p = Ok r /\ sound m r /\ set_geo r = true).
  { destruct (set_cached p) eqn:SC.
    - exists p. unfold ensure_crossings. rewrite SC. auto.
    - destruct (E p S G) as [q Eq]. eexists. split.
      + unfold ensure_crossings. rewrite SC. unfold compute_crossings. rewrite (proj1 S), Eq. cbn. reflexivity.
      + assert (EC : ensure_crossings p = Ok (set_crossings (d_cast m (first (geo q)) (dir (geo q))) q)) by (unfold ensure_crossings; rewrite SC; unfold compute_crossings; rewrite (proj1 S), Eq; reflexivity).
        split; [exact (ensure_crossings_sound m P p _ S K EC)|]. cbn. destruct (ensure_sound m p q S Eq) as (_ & _ & G' & _). exact G'. }
  destruct F as [r [F [Sr Gr]]]. rewrite F. cbn. apply E; auto.
Qed.

(** A path made ready: its crossings are those of a ray [a0], [d0] along its line. *)
Lemma prepared p : sound m p -> set_geo p = true -> castable p ->
  exists p' a0 d0, prepare p = Ok p' /\ sound m p' /\ set_geo p' = true /\ model p' = Some m /\ geo p' = get_geo_ends p /\ len p' = get_distance p /\ first_inf p' = first_inf p /\ last_inf p' = last_inf p /\
  set_cached p' = true /\
  cached p' = d_cast m (At a0) d0 /\ vdot d0 d0 = 1 /\ (dir (get_geo_ends p) = d0 \/ dir (get_geo_ends p) = vneg d0) /\
  forall a, end_of (get_geo_ends p) a -> exists t, a = along_by a0 d0 t.
Proof.
  intros S G K. destruct (ready p S G K) as [p' E]. destruct (prepare_sound m P p p' S K E) as (S' & G' & M' & C & (a0 & d0 & F) & L & LI & EG & EL & E1 & E2).
  exists p', a0, d0. split; [exact E|]. split; [exact S'|]. split; [exact G'|]. split; [exact M'|]. split; [congruence|]. split; [congruence|]. split; [congruence|]. split; [congruence|].
  split; [exact C|]. split; [exact F|]. destruct P as (_ & _ & R). destruct (R a0 d0) as [R1 R2].
  assert (U : vdot (dir (geo p')) (dir (geo p')) = 1) by (inversion LI; assumption).
  assert (H : forall a, end_of (geo p') a -> (d0 = dir (geo p') \/ d0 = vneg (dir (geo p'))) /\ exists t, a = along_by a0 d0 t).
  { intros a A. specialize (L a A). rewrite F in L. unfold same_line in L. rewrite R1, R2 in L. exact L. }
  assert (X : exists a, end_of (geo p') a) by (inversion LI; eexists; [left|left|right]; eassumption).
  destruct X as [a A]. destruct (H a A) as [D _].
  assert (D' : dir (geo p') = d0 \/ dir (geo p') = vneg d0). { destruct D as [D|D]; [auto|right; rewrite D]. destruct (dir (geo p')); unfold vneg, vscale; cbn; f_equal; ring. }
  split; [destruct D as [->| ->]; [exact U|apply unit_neg; exact U]|]. rewrite EG. split; [exact D'|]. intros b B. apply H, B.
Qed.

(** The depth between a point of the line and another one along it. *)
Lemma measured q a0 d0 a d k : vdot d0 d0 = 1 -> (d = d0 \/ d = vneg d0) -> (exists t, a = along_by a0 d0 t) ->
  d_depth m q (d_cast m (At a0) d0) (At a) (At (along_by a d k)) = Num (amount q a (along_by a d k)).
Proof.
  intros U D [t ->]. destruct M as [H _]. destruct D as [->| ->]; [rewrite along_back; apply H, U|rewrite along_neg, along_back; apply H, U].
Qed.

Lemma amount_neg q a d s t : 0 <= s -> 0 <= t -> amount q a (along_by a d (- (s + t))) = amount q a (along_by a d (- s)) + amount q (along_by a d (- s)) (along_by a d (- (s + t))).
Proof. intros S T. destruct M as (_ & _ & _ & _ & A). specialize (A q a (vneg d) s t S T). rewrite !along_neg in A. exact A. Qed.

Lemma amount_mono q a d s t : 0 <= s <= t -> amount q a (along_by a d s) <= amount q a (along_by a d t).
Proof.
  intros [S T]. destruct M as (_ & N & _ & _ & A). replace t with (s + (t - s)) by ring. rewrite (A q a d s (t - s)) by lra.
  pose proof (N q (along_by a d s) (along_by a d (s + (t - s)))). lra.
Qed.

Lemma copysign_num k x : 0 <= x -> ncopysign (Num x) (Num k) = Num (signed k x).
Proof. intros X. cbn. unfold signed. rewrite Rabs_pos_eq by exact X. destruct (Rlt_dec k 0); reflexivity. Qed.

Lemma amount_pos q u v : 0 <= amount q u v.
Proof. destruct M as (_ & N & _). apply N. Qed.
End Depths.
