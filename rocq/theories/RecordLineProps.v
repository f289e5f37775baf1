(** Positions and times of a primary particle record. *)
From Coq Require Import Reals List Bool ZArith Lra Lia Psatz.
From Verif Require Import VectorModel RecordModel RecordSpec RecordProofs RecordMain RecordProps.
Import ListNotations.
Open Scope R_scope.

(** ** C08: positions *)

(** If the set values are those of some particle on a line, every getter of a position, a length or a
    distance either throws or returns the value on that line. NaN comes only from a particle that
    does not move. Not covered: the point of closest approach when initial position, direction and
    initial distance are all set, and a distance when the point of closest approach is set but
    neither the direction nor the point in question. *)
Theorem C08_sound : forall id type l r w,
  calls l (fresh id type) = Some r -> straight w -> fits id type l w ->
  (snd (get_num r Length) = Threw \/ snd (get_num r Length) = Got (t_num w Length)) /\
  (snd (get_vec r Initial) = Threw \/ snd (get_vec r Initial) = Got (t_vec w Initial)) /\
  (snd (get_vec r Vertex) = Threw \/ snd (get_vec r Vertex) = Got (t_vec w Vertex)) /\
  (knownv id type l Momentum = None ->
     snd (get_vec r Direction) = Threw \/ snd (get_vec r Direction) = Nan /\ t_num w Length = 0 \/
     snd (get_vec r Direction) = Got (t_vec w Direction)) /\
  (knownv id type l Initial = None \/ knownv id type l Direction = None \/ known id type l InitialDistance = None ->
     snd (get_vec r Closest) = Threw \/ snd (get_vec r Closest) = Nan /\ t_num w Length = 0 \/
     snd (get_vec r Closest) = Got (t_vec w Closest)) /\
  (knownv id type l Direction <> None \/ knownv id type l Vertex <> None \/ knownv id type l Closest = None ->
     snd (get_num r VertexDistance) = Threw \/ snd (get_num r VertexDistance) = Nan /\ t_num w Length = 0 \/
     snd (get_num r VertexDistance) = Got (t_num w VertexDistance)) /\
  (knownv id type l Direction <> None \/ knownv id type l Initial <> None \/ knownv id type l Closest = None ->
     snd (get_num r InitialDistance) = Threw \/ snd (get_num r InitialDistance) = Nan /\ t_num w Length = 0 \/
     snd (get_num r InitialDistance) = Got (t_num w InitialDistance)).
Proof.
  intros id type l r w H S F. pose proof (tells_calls _ _ _ _ H) as T.
  split; [exact (length_exact T S F)|]. split; [exact (initial_exact T S F)|].
  split; [exact (vertex_exact T S F)|]. split; [exact (direction_line T S F)|].
  split; [exact (closest_exact T S F)|]. split; [exact (vertex_distance_exact T S F)|].
  exact (initial_distance_exact T S F).
Qed.

(** Hence the returned positions fit together. *)
Theorem C08_consistent : forall id type l r w,
  calls l (fresh id type) = Some r -> straight w -> fits id type l w -> knownv id type l Momentum = None ->
  (forall o x n d, snd (get_vec r Initial) = Got o -> snd (get_vec r Vertex) = Got x ->
     snd (get_num r Length) = Got n -> snd (get_vec r Direction) = Got d ->
     x = vadd o (vscale n d) /\ n = vmag (vsub x o) /\ vmag d = 1) /\
  (knownv id type l Initial = None \/ knownv id type l Direction = None \/ known id type l InitialDistance = None ->
   forall c d, snd (get_vec r Closest) = Got c -> snd (get_vec r Direction) = Got d ->
   vdot c d = 0 /\
   (forall o b, knownv id type l Direction <> None \/ knownv id type l Initial <> None \/ knownv id type l Closest = None ->
      snd (get_vec r Initial) = Got o -> snd (get_num r InitialDistance) = Got b -> o = vadd c (vscale b d)) /\
   (forall x a, knownv id type l Direction <> None \/ knownv id type l Vertex <> None \/ knownv id type l Closest = None ->
      snd (get_vec r Vertex) = Got x -> snd (get_num r VertexDistance) = Got a -> x = vadd c (vscale a d))).
Proof.
  intros id type l r w H S F N.
  destruct (C08_sound _ _ _ _ _ H S F) as (L & O & X & D & C & A & B). specialize (D N). split.
  - intros o x n d Ho Hx Hn Hd.
    destruct L as [L|L]; [congruence|]. destruct O as [O|O]; [congruence|]. destruct X as [X|X]; [congruence|].
    destruct D as [D|[[D _]|D]]; try congruence.
    rewrite O in Ho. rewrite X in Hx. rewrite L in Hn. rewrite D in Hd.
    injection Ho as <-. injection Hx as <-. injection Hn as <-. injection Hd as <-.
    split; [exact (s_vertex _ S)|]. split; [|exact (s_unit _ S)].
    rewrite (gap S). symmetry. apply vmag_scale; [exact (s_length _ S)|exact (s_unit _ S)].
  - intros N' c d Hc Hd. specialize (C N'). destruct C as [C|[[C _]|C]]; try congruence.
    destruct D as [D|[[D _]|D]]; try congruence.
    rewrite C in Hc. rewrite D in Hd. injection Hc as <-. injection Hd as <-.
    split; [exact (s_closest _ S)|]. split.
    + intros o b M Ho Hb. specialize (B M). destruct O as [O|O]; [congruence|].
      destruct B as [B|[[B _]|B]]; try congruence. rewrite O in Ho. rewrite B in Hb.
      injection Ho as <-. injection Hb as <-. exact (s_from _ S).
    + intros x a M Hx Ha. specialize (A M). destruct X as [X|X]; [congruence|].
      destruct A as [A|[[A _]|A]]; try congruence. rewrite X in Hx. rewrite A in Ha.
      injection Hx as <-. injection Ha as <-. exact (s_to _ S).
Qed.

(** The order of the reads does not matter, as long as a direction is set or no distance is asked. *)
Theorem C08_order : forall id type l r r',
  calls l (fresh id type) = Some r ->
  calls (filter (fun o => negb (reads o)) l) (fresh id type) = Some r' ->
  snd (get_num r Length) = snd (get_num r' Length) /\
  (forall n, snd (get_vec r n) = snd (get_vec r' n)) /\
  (knownv id type l Direction <> None ->
     snd (get_num r VertexDistance) = snd (get_num r' VertexDistance) /\
     snd (get_num r InitialDistance) = snd (get_num r' InitialDistance)).
Proof.
  intros id type l r r' H H'. pose proof (tells_calls _ _ _ _ H) as T.
  pose proof (tells_sets _ _ _ _ (tells_calls _ _ _ _ H')) as T'.
  split; [apply (stable_num _ _ _ _ _ _ T T'); exact I|].
  split; [intros n; apply (stable_vec _ _ _ _ _ _ T T')|].
  intros D. split; apply (stable_distance _ _ _ _ _ _ T T'); auto.
Qed.

(** When they throw, for any real inputs. *)
Theorem C08_throws : forall id type l r, calls l (fresh id type) = Some r ->
  let h n := known id type l n <> None in let hv n := knownv id type l n <> None in
  (snd (get_num r Length) <> Threw <->
     h Length \/ hv Initial /\ hv Vertex \/ h InitialDistance /\ h VertexDistance) /\
  (snd (get_vec r Initial) <> Threw <->
     hv Initial \/ hv Direction /\ (hv Vertex /\ (h Length \/ h InitialDistance /\ h VertexDistance) \/
                                    hv Closest /\ h InitialDistance)) /\
  (snd (get_vec r Vertex) <> Threw <->
     hv Vertex \/ hv Direction /\ (hv Initial /\ (h Length \/ h InitialDistance /\ h VertexDistance) \/
                                   hv Closest /\ h VertexDistance)) /\
  (forall n, snd (get_vec r n) <> Undef).
Proof.
  intros id type l r H h hv. subst h hv. pose proof (tells_calls _ _ _ _ H) as T.
  assert (forall A (v : A), Some v <> None) as SN by discriminate.
  assert (forall A (x : got A), x = Threw -> ~ x <> Threw) as TT by (intros A x E N; exact (N E)).
  assert (forall A (v : A), @Got A v <> Threw) as GT by discriminate.
  assert (forall A, ~ (@None A) <> None) as NN by (intros A HH; apply HH; reflexivity).
  split; [|split; [|split]].
  - rewrite get_num_val. unfold num_from, length_from.
    look T Length; lookv T Initial; lookv T Vertex; look T InitialDistance; look T VertexDistance; cbn;
      (split; intros G; [try (exfalso; apply G; reflexivity)|try discriminate]);
      first [left; discriminate | right; left; split; discriminate | right; right; split; discriminate
            | exfalso; destruct G as [G|[[G G']|[G G']]]; congruence].
  - rewrite get_vec_val. unfold vec_from, initial_from.
    lookv T Initial; lookv T Direction; lookv T Vertex; lookv T Closest; look T Length; look T InitialDistance;
      look T VertexDistance; cbn;
      (split; intros G; [try (exfalso; apply G; reflexivity)|try discriminate]);
      first [left; discriminate
            | right; split; [discriminate|]; first
                [left; split; [discriminate|left; discriminate] | left; split; [discriminate|right; split; discriminate]
                | right; split; discriminate]
            | exfalso; destruct G as [G|[G [[G' [G''|[G'' G3]]]|[G' G'']]]]; congruence].
  - rewrite get_vec_val. unfold vec_from, vertex_from.
    lookv T Vertex; lookv T Direction; lookv T Initial; lookv T Closest; look T Length; look T InitialDistance;
      look T VertexDistance; cbn;
      (split; intros G; [try (exfalso; apply G; reflexivity)|try discriminate]);
      first [left; discriminate
            | right; split; [discriminate|]; first
                [left; split; [discriminate|left; discriminate] | left; split; [discriminate|right; split; discriminate]
                | right; split; discriminate]
            | exfalso; destruct G as [G|[G [[G' [G''|[G'' G3]]]|[G' G'']]]]; congruence].
  - intros n. exact (defined_vec _ _ _ _ n T).
Qed.

(** From the closest approach, the direction and the two distances: positions and length. *)
Example C08_case :
  let l := [SetVec Closest (mkv 2 0 0); SetVec Direction (mkv 0 0 1); GetVec Vertex; SetNum InitialDistance 1;
            SetNum VertexDistance 8; GetNum Length] in
  exists r, calls l (fresh 5 14) = Some r /\ straight sample /\ fits 5 14 l sample /\
    knownv 5 14 l Momentum = None /\
    snd (get_vec r Initial) = Got (mkv 2 0 1) /\ snd (get_vec r Vertex) = Got (mkv 2 0 8) /\
    snd (get_num r Length) = Got 7.
Proof.
  cbn zeta. eexists. split; [reflexivity|]. split; [exact sample_straight|].
  split.
  { split; intros n v; unfold known, knownv, given; cbn; destruct n; cbn; try discriminate; intros E; injection E as <-; reflexivity. }
  split; [reflexivity|]. rewrite !get_vec_val, get_num_val. cbn. unfold vadd, vscale; cbn.
  repeat split; f_equal; [f_equal; ring|f_equal; ring|ring].
Qed.

Lemma fits_sample l :
  (forall n v, known 5 14 l n = Some v -> t_num sample n = v) ->
  (forall n v, knownv 5 14 l n = Some v -> t_vec sample n = v) -> fits 5 14 l sample.
Proof. split; assumption. Qed.

(** Initial position, direction and initial distance set: the point returned is not the one at that
    distance before the initial position, nor the closest to the origin. *)
Theorem C08_closest_refuted : exists l r o d b c, calls l (fresh 5 14) = Some r /\
  straight sample /\ fits 5 14 l sample /\
  snd (get_vec r Initial) = Got o /\ snd (get_vec r Direction) = Got d /\ snd (get_num r InitialDistance) = Got b /\
  snd (get_vec r Closest) = Got c /\ c <> t_vec sample Closest /\ o <> vadd c (vscale b d) /\ vdot c d <> 0.
Proof.
  exists [SetVec Initial (mkv 2 0 1); SetVec Direction (mkv 0 0 1); SetNum InitialDistance 1].
  eexists. exists (mkv 2 0 1), (mkv 0 0 1), 1, (mkv 2 0 2). split; [reflexivity|]. split; [exact sample_straight|].
  split.
  { apply fits_sample; intros n v; unfold known, knownv, given; cbn; destruct n; cbn; try discriminate; intros E; injection E as <-; reflexivity. }
  split; [reflexivity|]. split; [reflexivity|]. split; [reflexivity|].
  split; [rewrite get_vec_val; cbn; unfold vadd, vscale; cbn; f_equal; f_equal; ring|].
  cbn. split; [intros E; injection E; lra|]. split; [|unfold vdot; cbn; lra].
  intros E. apply (f_equal vz) in E. cbn in E. lra.
Qed.

(** Closest approach, initial position and length set: asking for the distance of the vertex reads a
    direction that was never written, unless the direction happened to be asked before. *)
Theorem C08_undefined_refuted : exists l r, calls l (fresh 5 14) = Some r /\ straight sample /\ fits 5 14 l sample /\
  snd (get_num r VertexDistance) = Undef /\ snd (get_vec r Direction) = Threw.
Proof.
  exists [SetVec Closest (mkv 2 0 0); SetVec Initial (mkv 2 0 1); SetNum Length 7].
  eexists. split; [reflexivity|]. split; [exact sample_straight|].
  split.
  { apply fits_sample; intros n v; unfold known, knownv, given; cbn; destruct n; cbn; try discriminate; intros E; injection E as <-; reflexivity. }
  split; reflexivity.
Qed.

Lemma normal_x : normal (mkv 1 0 0) = Got (mkv 1 0 0).
Proof.
  assert (vmag (mkv 1 0 0) = 1) as E.
  { unfold vmag; cbn. replace (1 * 1 + 0 * 0 + 0 * 0) with 1 by ring. apply sqrt_1. }
  unfold normal. rewrite E. destruct (Req_EM_T 1 0); [lra|]. f_equal. apply vec_eq; cbn; field.
Qed.

(** Then the answer depends on what was read when: here a direction derived from an old momentum. *)
Theorem C08_stale_refuted : exists l r v, calls l (fresh 5 14) = Some r /\
  straight sample /\ kinematic sample /\ fits 5 14 l sample /\
  snd (get_num r VertexDistance) = Got v /\ v <> t_num sample VertexDistance.
Proof.
  exists [SetVec Momentum (mkv 1 0 0); GetVec Direction; SetVec Momentum (mkv 0 0 4); SetVec Closest (mkv 2 0 0);
          SetVec Initial (mkv 2 0 1); SetNum Length 7].
  assert (signed_distance (mkv 2 0 1) (mkv 1 0 0) = 2) as E.
  { replace (mkv 2 0 1) with (vadd (mkv 0 0 1) (vscale 2 (mkv 1 0 0))).
    - apply signed_along.
      + unfold vmag; cbn. replace (1 * 1 + 0 * 0 + 0 * 0) with 1 by ring. apply sqrt_1.
      + unfold vdot; cbn; ring.
    - unfold vadd, vscale; cbn. f_equal; ring. }
  cbn [calls call_step].
  assert (defined (get_vec (set_vec (fresh 5 14) Momentum (mkv 1 0 0)) Direction)
    = Some (put_vec (put_vec (fresh 5 14) Momentum (mkslot true (Got (mkv 1 0 0)))) Direction (mkslot false (Got (mkv 1 0 0))))) as G.
  { unfold defined, get_vec, answer, update_vec, store, vec_from, direction_from, hasv, vct, set_vec. cbn -[normal]. rewrite normal_x. reflexivity. }
  rewrite G. eexists. exists (2 + 7). split; [reflexivity|].
  split; [exact sample_straight|]. split; [exact sample_kinematic|]. split.
  { apply fits_sample; intros n v; unfold known, knownv, given; cbn; destruct n; cbn; try discriminate; intros F; injection F as <-; reflexivity. }
  split; [|cbn; lra]. rewrite get_num_val. cbn -[signed_distance]. rewrite E. reflexivity.
Qed.

(** A vertex at the initial position: the direction is NaN although nothing contradicts itself. *)
Theorem C08_nan_refuted : exists l r w, calls l (fresh 5 14) = Some r /\ straight w /\ fits 5 14 l w /\
  snd (get_vec r Direction) = Nan /\ snd (get_vec r Closest) = Nan.
Proof.
  exists [SetVec Initial (mkv 2 0 0); SetVec Vertex (mkv 2 0 0)]. eexists.
  exists (mktruth (fun n => 0) (fun n => match n with Direction => mkv 0 0 1 | _ => mkv 2 0 0 end)).
  split; [reflexivity|]. split.
  { constructor; cbn; try lra; try exact mag3; try (unfold vadd, vscale; cbn; f_equal; ring). unfold vdot; cbn; ring. }
  split.
  { split; intros n v; unfold known, knownv, given; cbn; destruct n; cbn; try discriminate; intros E; injection E as <-; reflexivity. }
  assert (normal (vsub (mkv 2 0 0) (mkv 2 0 0)) = Nan) as E.
  { unfold normal. destruct (Req_EM_T _ 0) as [E|E]; [reflexivity|]. exfalso. apply E.
    replace (vsub (mkv 2 0 0) (mkv 2 0 0)) with (mkv 0 0 0) by (unfold vsub; cbn; f_equal; ring). apply mag_z. lra. }
  rewrite !get_vec_val. cbn -[normal vsub]. rewrite E. split; reflexivity.
Qed.

(** ** C80: the time of the interaction *)

(** The flight time of a moving particle: the length over its speed, which is momentum over energy
    but never above that of light. *)
Theorem C80_flight : forall n e p, 0 < n -> 0 < e -> 0 < p ->
  flight_time (Got n) (Got e) (Got p) = n / (Rmin (p / e) 1 * light_speed) /\
  n / light_speed <= flight_time (Got n) (Got e) (Got p) /\
  (p <= e -> flight_time (Got n) (Got e) (Got p) * (p / e * light_speed) = n).
Proof.
  intros n e p Hn He Hp. unfold flight_time.
  destruct (Rlt_dec 0 n); [|lra]. destruct (Rlt_dec 0 e); [|lra]. destruct (Rlt_dec 0 p); [|lra].
  assert (0 < light_speed) as C by (unfold light_speed; lra).
  assert (0 < p / e) as Q by (apply Rdiv_lt_0_compat; assumption).
  assert (0 < Rmin (p / e) 1) as M by (apply Rmin_glb_lt; lra).
  pose proof (Rmin_r (p / e) 1) as M1.
  split; [reflexivity|]. split.
  - apply Rmult_le_compat_l; [lra|]. apply Rinv_le_contravar; [apply Rmult_lt_0_compat; assumption|].
    rewrite <- (Rmult_1_l light_speed) at 2. apply Rmult_le_compat_r; lra.
  - intros L. rewrite Rmin_left.
    + field. lra.
    + apply (Rmult_le_reg_r e); [exact He|]. unfold Rdiv. rewrite Rmult_assoc, Rinv_l; lra.
Qed.

Lemma flight_pos a b c : 0 <= flight_time a b c.
Proof.
  destruct a as [n| | |], b as [e| | |], c as [p| | |]; cbn; try lra.
  destruct (Rlt_dec 0 n) as [A|A]; [|lra]. destruct (Rlt_dec 0 e) as [B|B]; [|lra]. destruct (Rlt_dec 0 p) as [C|C]; [|lra].
  pose proof (C80_flight n e p A B C) as (E & L & _). cbn in L.
  destruct (Rlt_dec 0 n); [|lra]. destruct (Rlt_dec 0 e); [|lra]. destruct (Rlt_dec 0 p); [|lra].
  eapply Rle_trans; [|exact L]. apply Rle_mult_inv_pos; [lra|unfold light_speed; lra].
Qed.

(** For a particle on a line the interaction comes later than the start by the length over the
    speed; a set time is kept; and whatever was set, the time is a number and not before the start. *)
Theorem C80_time : forall id type l r, calls l (fresh id type) = Some r ->
  let start := match given says_start l with Some t => t | None => 0 end in
  (forall t, known id type l Time = Some t -> snd (get_time r) = Got t) /\
  (known id type l Time = None ->
     snd (get_time r) = Threw \/ exists t, snd (get_time r) = Got t /\ start <= t) /\
  (known id type l Time = None -> snd (get_time r) <> Threw ->
   forall w, kinematic w -> straight w -> fits id type l w ->
     exists t, snd (get_time r) = Got t /\
       (vmag (t_vec w Momentum) = 0 -> t = start) /\
       (0 < vmag (t_vec w Momentum) ->
          (t - start) * (vmag (t_vec w Momentum) / t_num w Energy * light_speed) = t_num w Length)) /\
  (known id type l Time = None ->
   (snd (get_time r) <> Threw <->
    snd (get_vec r Initial) <> Threw /\ snd (get_vec r Vertex) <> Threw /\
    snd (get_num r Energy) <> Threw /\ snd (get_num r Mass) <> Threw)).
Proof.
  intros id type l r H start. pose proof (tells_calls _ _ _ _ H) as T.
  pose proof (time_val _ _ _ _ T) as V. pose proof (tl_start _ _ _ _ T) as St. fold start in St.
  rewrite St in V.
  split; [|split; [|split]].
  - intros t K. rewrite V, K. reflexivity.
  - intros K. rewrite K in V. rewrite V.
    destruct (snd (get_vec r Initial)); try (left; reflexivity);
    destruct (snd (get_vec r Vertex)); try (left; reflexivity);
    destruct (snd (get_num r Energy)); try (left; reflexivity);
    destruct (snd (get_num r Mass)); try (left; reflexivity);
    right; eexists; (split; [reflexivity|]);
    match goal with |- context [flight_time ?a ?b ?c] => pose proof (flight_pos a b c); lra end.
  - intros N NT w K S F. rewrite N in V.
    destruct (C07_sound _ _ _ _ _ H K F) as (M & E & _).
    destruct (C08_sound _ _ _ _ _ H S F) as (_ & O & X & _).
    destruct O as [O|O]; rewrite O in V; [congruence|].
    destruct X as [X|X]; rewrite X in V; [congruence|].
    destruct E as [E|E]; rewrite E in V; [congruence|].
    destruct M as [M|M]; rewrite M in V; [congruence|].
    eexists. split; [exact V|]. cbn [bind].
    rewrite (gap S), (vmag_scale _ _ (s_length _ S) (s_unit _ S)).
    pose proof (k_shell _ K) as Sh. pose proof (energy_pos K) as Ep. pose proof (k_mass _ K) as Mp.
    set (k := vmag (t_vec w Momentum)) in *. assert (0 <= k) as Kp by apply vmag_pos.
    split.
    + intros K0. unfold speed_momentum. destruct (Rlt_dec (t_num w Mass) (t_num w Energy)) as [Q|Q]; [exfalso; nra|].
      unfold flight_time. destruct (Rlt_dec 0 (t_num w Length)); [|lra].
      destruct (Rlt_dec 0 (t_num w Energy)); [|lra]. destruct (Rlt_dec 0 0); lra.
    + intros K0. unfold speed_momentum. destruct (Rlt_dec (t_num w Mass) (t_num w Energy)) as [Q|Q]; [|exfalso; nra].
      rewrite (root_eq _ k); [|exact Kp|pose proof (shell K); unfold k; lra].
      destruct (Req_dec (t_num w Length) 0) as [L0|L0].
      * unfold flight_time. rewrite L0. destruct (Rlt_dec 0 0); lra.
      * destruct (C80_flight (t_num w Length) (t_num w Energy) k) as (_ & _ & C); try lra.
        { pose proof (s_length _ S). lra. }
        replace (start + flight_time (Got (t_num w Length)) (Got (t_num w Energy)) (Got k) - start)
          with (flight_time (Got (t_num w Length)) (Got (t_num w Energy)) (Got k)) by ring.
        apply C. nra.
  - intros N. rewrite N in V. rewrite V.
    pose proof (defined_vec _ _ _ _ Initial T). pose proof (defined_vec _ _ _ _ Vertex T).
    pose proof (defined_num _ _ _ _ Energy T I). pose proof (defined_num _ _ _ _ Mass T I).
    split.
    + intros NT. destruct (snd (get_vec r Initial)), (snd (get_vec r Vertex)), (snd (get_num r Energy)), (snd (get_num r Mass));
        repeat split; congruence.
    + intros (A & B & C & D). destruct (snd (get_vec r Initial)), (snd (get_vec r Vertex)), (snd (get_num r Energy)), (snd (get_num r Mass));
        congruence.
Qed.

(** What [Finalize] copies are the answers of the getters, and it copies nothing if one throws. *)
Theorem C80_finalize : forall id type l r, calls l (fresh id type) = Some r ->
  (forall s, finalize r = Some s ->
     m_type s = type /\ m_id s = id /\ m_vertex s = snd (get_vec r Vertex) /\
     m_initial s = snd (get_vec r Initial) /\ m_mass s = snd (get_num r Mass) /\
     m_energy s = snd (get_num r Energy) /\ m_momentum s = snd (get_vec r Momentum) /\
     m_helicity s = p_helicity r /\ m_start s = p_start r /\ m_time s = snd (get_time r)) /\
  (finalize r = None <->
     snd (get_vec r Vertex) = Threw \/ snd (get_vec r Initial) = Threw \/ snd (get_num r Mass) = Threw \/
     snd (get_num r Energy) = Threw \/ snd (get_vec r Momentum) = Threw).
Proof.
  intros id type l r H. pose proof (tells_calls _ _ _ _ H) as T.
  unfold finalize.
  pose proof (defined_vec _ _ _ _ Vertex T) as D0.
  pose proof (get_vec_same r Vertex) as S1. destruct (get_vec r Vertex) as [r1 x] eqn:E1. cbn [fst snd] in *.
  pose proof (holds_same_num _ _ _ _ _ S1 T) as T1.
  pose proof (defined_vec _ _ _ _ Initial T1) as D1.
  rewrite (stable_vec _ _ _ _ _ Initial T T1).
  pose proof (get_vec_same r1 Initial) as S2. destruct (get_vec r1 Initial) as [r2 o] eqn:E2. cbn [fst snd] in *.
  pose proof (holds_same_num _ _ _ _ _ S2 T1) as T2.
  pose proof (defined_num _ _ _ _ Mass T2 I) as D2.
  rewrite (stable_num _ _ _ _ _ Mass T T2 I).
  pose proof (get_num_same r2 Mass) as S3. destruct (get_num r2 Mass) as [r3 m] eqn:E3. cbn [fst snd] in *.
  pose proof (holds_same_num _ _ _ _ _ S3 T2) as T3.
  pose proof (defined_vec _ _ _ _ Momentum T3) as D3.
  pose proof (defined_num _ _ _ _ Energy T3 I) as D4.
  pose proof (four_val T3) as V3.
  rewrite (stable_vec _ _ _ _ _ Momentum T T3), (stable_num _ _ _ _ _ Energy T T3 I).
  pose proof (get_four_same r3) as S4. destruct (get_four r3) as [r4 f] eqn:E4. cbn [fst snd] in *.
  pose proof (holds_same_num _ _ _ _ _ S4 T3) as T4.
  assert (snd (get_time r4) = snd (get_time r)) as TV.
  { rewrite (time_val _ _ _ _ T4), (time_val _ _ _ _ T).
    rewrite (stable_vec _ _ _ _ _ Initial T4 T), (stable_vec _ _ _ _ _ Vertex T4 T).
    rewrite (stable_num _ _ _ _ _ Energy T4 T I), (stable_num _ _ _ _ _ Mass T4 T I).
    rewrite (tl_start _ _ _ _ T4), (tl_start _ _ _ _ T). reflexivity. }
  assert (snd (get_time r) = Threw ->
    o = Threw \/ x = Threw \/ snd (get_num r3 Energy) = Threw \/ m = Threw) as TN.
  { rewrite (time_val _ _ _ _ T). destruct (known id type l Time); [discriminate|].
    rewrite (stable_vec _ _ _ _ _ Initial T T1), E2. rewrite E1. cbn [snd].
    rewrite (stable_num _ _ _ _ _ Energy T T3 I), (stable_num _ _ _ _ _ Mass T T2 I), E3. cbn [snd].
    destruct o, x, (snd (get_num r3 Energy)), m; try discriminate; auto. }
  assert (snd (get_time r) <> Undef) as TU.
  { rewrite (time_val _ _ _ _ T). destruct (known id type l Time); [discriminate|].
    destruct (snd (get_vec r Initial)), (snd (get_vec r Vertex)), (snd (get_num r Energy)), (snd (get_num r Mass)); discriminate. }
  pose proof (get_time_same r4) as S5. destruct (get_time r4) as [r5 t] eqn:E5. cbn [fst snd] in *.
  rewrite <- TV in *.
  assert (p_helicity r5 = p_helicity r) as HH.
  { rewrite (ss_helicity _ _ S5), (ss_helicity _ _ S4), (ss_helicity _ _ S3), (ss_helicity _ _ S2). exact (ss_helicity _ _ S1). }
  assert (p_start r5 = p_start r) as HS.
  { rewrite (ss_start _ _ S5), (ss_start _ _ S4), (ss_start _ _ S3), (ss_start _ _ S2). exact (ss_start _ _ S1). }
  rewrite HH, HS, (tl_id _ _ _ _ T), (tl_type _ _ _ _ T).
  assert (forall A (x : got A), x <> Threw -> x <> Undef -> exists v, x = v /\ (v = Nan \/ exists a, v = Got a)) as GG.
  { intros A y N1 N2. exists y. split; [reflexivity|]. destruct y; [right; eauto|left; reflexivity|congruence|congruence]. }
  destruct (snd (get_vec r3 Momentum)) as [p| | |] eqn:EP; try congruence;
  destruct (snd (get_num r3 Energy)) as [e| | |] eqn:EE; try congruence; subst f;
  (split;
   [intros s G;
    destruct x; try discriminate; destruct o; try discriminate; destruct m; try discriminate; destruct t; try discriminate;
    injection G as <-; cbn; repeat split; reflexivity
   |split;
    [intros G; destruct x; try (left; reflexivity); try congruence; right;
     destruct o; try (left; reflexivity); try congruence; right;
     destruct m; try (left; reflexivity); try congruence; right;
     try (left; reflexivity); try (right; reflexivity);
     destruct t; try discriminate; try congruence;
     destruct (TN eq_refl) as [Q|[Q|[Q|Q]]]; discriminate
    |intros [Q|[Q|[Q|[Q|Q]]]]; try discriminate Q; try rewrite Q; try reflexivity;
     destruct x; try reflexivity; try (rewrite Q; reflexivity); destruct o; try reflexivity; try (rewrite Q; reflexivity);
     destruct m; try reflexivity; discriminate]]).
Qed.

(** [FinalizeAvailable] copies each answer that is there and leaves the rest of the record alone. *)
Theorem C80_available : forall id type l r old, calls l (fresh id type) = Some r ->
  let s := finalize_available r old in
  m_type s = type /\ m_id s = id /\
  copied (snd (get_vec r Vertex)) (m_vertex s) (m_vertex old) /\
  copied (snd (get_vec r Initial)) (m_initial s) (m_initial old) /\
  copied (snd (get_num r Mass)) (m_mass s) (m_mass old) /\
  copied (snd (get_num r Energy)) (m_energy s) (m_energy old) /\
  copied (snd (get_vec r Momentum)) (m_momentum s) (m_momentum old) /\
  copied (snd (get_time r)) (m_time s) (m_time old) /\
  m_helicity s = p_helicity r /\ m_start s = p_start r.
Proof.
  intros id type l r old H s. subst s. pose proof (tells_calls _ _ _ _ H) as T.
  assert (forall A (x o : got A), copied x (keep o x) o) as KK.
  { intros A x o. unfold copied, keep. destruct x; [left; split; [discriminate|reflexivity]
      |left; split; [discriminate|reflexivity]|right; auto|left; split; [discriminate|reflexivity]]. }
  unfold finalize_available.
  pose proof (get_num_same r Energy) as S1. destruct (get_num r Energy) as [r1 e] eqn:E1. cbn [fst snd] in *.
  pose proof (holds_same_num _ _ _ _ _ S1 T) as T1.
  rewrite (stable_vec _ _ _ _ _ Momentum T T1).
  pose proof (get_vec_same r1 Momentum) as S2. destruct (get_vec r1 Momentum) as [r2 p] eqn:E2. cbn [fst snd] in *.
  pose proof (holds_same_num _ _ _ _ _ S2 T1) as T2.
  rewrite (stable_vec _ _ _ _ _ Initial T T2).
  pose proof (get_vec_same r2 Initial) as S3. destruct (get_vec r2 Initial) as [r3 o] eqn:E3. cbn [fst snd] in *.
  pose proof (holds_same_num _ _ _ _ _ S3 T2) as T3.
  rewrite (stable_vec _ _ _ _ _ Vertex T T3).
  pose proof (get_vec_same r3 Vertex) as S4. destruct (get_vec r3 Vertex) as [r4 x] eqn:E4. cbn [fst snd] in *.
  pose proof (holds_same_num _ _ _ _ _ S4 T3) as T4.
  rewrite (stable_num _ _ _ _ _ Mass T T4 I).
  pose proof (get_num_same r4 Mass) as S5. destruct (get_num r4 Mass) as [r5 m] eqn:E5. cbn [fst snd] in *.
  pose proof (holds_same_num _ _ _ _ _ S5 T4) as T5.
  assert (snd (get_time r5) = snd (get_time r)) as TV.
  { rewrite (time_val _ _ _ _ T5), (time_val _ _ _ _ T).
    rewrite (stable_vec _ _ _ _ _ Initial T5 T), (stable_vec _ _ _ _ _ Vertex T5 T).
    rewrite (stable_num _ _ _ _ _ Energy T5 T I), (stable_num _ _ _ _ _ Mass T5 T I).
    rewrite (tl_start _ _ _ _ T5), (tl_start _ _ _ _ T). reflexivity. }
  rewrite <- TV.
  pose proof (get_time_same r5) as S6. destruct (get_time r5) as [r6 t] eqn:E6. cbn [fst snd] in *.
  cbn. split; [exact (tl_type _ _ _ _ T)|]. split; [exact (tl_id _ _ _ _ T)|].
  do 6 (split; [apply KK|]). split.
  - rewrite (ss_helicity _ _ S6), (ss_helicity _ _ S5), (ss_helicity _ _ S4), (ss_helicity _ _ S3), (ss_helicity _ _ S2).
    exact (ss_helicity _ _ S1).
  - rewrite (ss_start _ _ S6), (ss_start _ _ S5), (ss_start _ _ S4), (ss_start _ _ S3), (ss_start _ _ S2).
    exact (ss_start _ _ S1).
Qed.

(** The particle of mass 3 and energy 5 flies 7 m in 7 / (4/5 c). *)
Example C80_case :
  let l := [SetNum Mass 3; SetNum Energy 5; SetStart 10; SetVec Direction (mkv 0 0 1); SetVec Initial (mkv 2 0 1); SetNum Length 7] in
  exists r t, calls l (fresh 5 14) = Some r /\ kinematic sample /\ straight sample /\ fits 5 14 l sample /\
    snd (get_time r) = Got t /\ (t - 10) * (4 / 5 * light_speed) = 7.
Proof.
  cbn zeta. set (l := [_; _; _; _; _; _]).
  assert (fits 5 14 l sample) as F.
  { split; intros n v; unfold known, knownv, given; cbn; destruct n; cbn; try discriminate; intros E; injection E as <-; reflexivity. }
  destruct (calls l (fresh 5 14)) as [r|] eqn:H; [|discriminate H].
  destruct (C80_time _ _ _ _ H) as (_ & _ & C & D).
  assert (snd (get_time r) <> Threw) as NT.
  { refine (proj2 (D eq_refl) _).
    pose proof (C07_set _ _ _ _ H) as (N & V & _).
    rewrite (V Initial _ eq_refl).
    pose proof (N Energy _ eq_refl) as NE. pose proof (N Mass _ eq_refl) as NM. cbn [read_num] in NE, NM. rewrite NE, NM.
    split; [discriminate|]. split; [|split; discriminate].
    refine (proj2 (proj1 (proj2 (proj2 (C08_throws _ _ _ _ H)))) _).
    right. split; [discriminate|]. left. split; [discriminate|]. left. discriminate. }
  destruct (C eq_refl NT sample sample_kinematic sample_straight F) as (t & Ht & _ & Q).
  exists r, t. split; [reflexivity|]. split; [exact sample_kinematic|]. split; [exact sample_straight|].
  split; [exact F|]. split; [exact Ht|].
  cbn in Q. rewrite mag_z in Q by lra. apply Q. lra.
Qed.

(** A particle at rest is said to reach a vertex elsewhere at once. *)
Theorem C80_rest_refuted : exists l r o x, calls l (fresh 5 14) = Some r /\
  snd (get_num r Mass) = Got 3 /\ snd (get_num r Energy) = Got 3 /\
  snd (get_vec r Initial) = Got o /\ snd (get_vec r Vertex) = Got x /\ x <> o /\ snd (get_time r) = Got 10.
Proof.
  exists [SetNum Mass 3; SetNum Energy 3; SetStart 10; SetVec Vertex (mkv 2 0 8); SetVec Initial (mkv 2 0 1)].
  eexists. exists (mkv 2 0 1), (mkv 2 0 8). split; [reflexivity|].
  do 4 (split; [reflexivity|]). split; [intros E; injection E; lra|].
  cbn -[Rlt_dec vmag]. unfold speed_momentum. destruct (Rlt_dec 3 3) as [A|A]; [lra|].
  unfold flight_time. cbn -[Rlt_dec vmag].
  destruct (Rlt_dec 0 (vmag _)); [destruct (Rlt_dec 0 3); [destruct (Rlt_dec 0 0); [lra|]|]|]; f_equal; ring.
Qed.

(** ** C81: particles copied in and out *)
(** [SetParticle] followed by [GetParticle] gives the particle back, whatever was set before; a
    particle of another kind or with another number is refused and changes nothing. *)
Theorem C81_particle : forall id type l a r, calls (l ++ [SetParticle a]) (fresh id type) = Some r ->
  (a_id a = id -> a_type a = type ->
   snd (get_particle r) =
     (Got (a_mass a), Got (Got (a_energy a), Got (a_momentum a)), Got (a_position a), Got (a_length a), a_helicity a)) /\
  (a_id a <> id \/ a_type a <> type -> calls l (fresh id type) = Some r).
Proof.
  intros id type l a r H. pose proof (tells_calls _ _ _ _ H) as T. split.
  - intros Hi Ht. unfold get_particle.
    assert (forall n, says_num id type n (SetParticle a) =
      match n with Mass => Some (a_mass a) | Energy => Some (a_energy a) | Length => Some (a_length a) | _ => None end) as SN.
    { intros n. cbn. rewrite Hi, Ht, !Z.eqb_refl. reflexivity. }
    assert (forall n, says_vec id type n (SetParticle a) =
      match n with Momentum => Some (a_momentum a) | Initial => Some (a_position a) | _ => None end) as SV.
    { intros n. cbn. rewrite Hi, Ht, !Z.eqb_refl. reflexivity. }
    assert (known id type (l ++ [SetParticle a]) Mass = Some (a_mass a)) as KM by (unfold known; rewrite given_snoc, SN; reflexivity).
    assert (known id type (l ++ [SetParticle a]) Energy = Some (a_energy a)) as KE by (unfold known; rewrite given_snoc, SN; reflexivity).
    assert (known id type (l ++ [SetParticle a]) Length = Some (a_length a)) as KL by (unfold known; rewrite given_snoc, SN; reflexivity).
    assert (knownv id type (l ++ [SetParticle a]) Momentum = Some (a_momentum a)) as KP by (unfold knownv; rewrite given_snoc, SV; reflexivity).
    assert (knownv id type (l ++ [SetParticle a]) Initial = Some (a_position a)) as KO by (unfold knownv; rewrite given_snoc, SV; reflexivity).
    assert (forall r, tells id type (l ++ [SetParticle a]) r -> snd (get_num r Mass) = Got (a_mass a) /\
      snd (get_num r Length) = Got (a_length a) /\ snd (get_num r Energy) = Got (a_energy a) /\
      snd (get_vec r Momentum) = Got (a_momentum a) /\ snd (get_vec r Initial) = Got (a_position a)) as VV.
    { intros r0 T0. rewrite !get_num_val, !get_vec_val.
      pose proof (tells_has _ _ _ _ Mass T0) as A1. rewrite KM in A1. destruct A1 as [A1 B1].
      pose proof (tells_has _ _ _ _ Length T0) as A2. rewrite KL in A2. destruct A2 as [A2 B2].
      pose proof (tells_has _ _ _ _ Energy T0) as A3. rewrite KE in A3. destruct A3 as [A3 B3].
      pose proof (tells_hasv _ _ _ _ Momentum T0) as A4. rewrite KP in A4. destruct A4 as [A4 B4].
      pose proof (tells_hasv _ _ _ _ Initial T0) as A5. rewrite KO in A5. destruct A5 as [A5 B5].
      rewrite A1, A2, A3, A4, A5. auto. }
    assert (p_helicity r = a_helicity a) as HR.
    { rewrite calls_snoc in H. destruct (calls l (fresh id type)) as [r0|] eqn:E0; [|discriminate].
      pose proof (tells_calls _ _ _ _ E0) as T0. cbn in H. unfold set_particle in H.
      rewrite (tl_id _ _ _ _ T0), (tl_type _ _ _ _ T0), Hi, Ht, !Z.eqb_refl in H. cbn in H. injection H as <-. reflexivity. }
    destruct (VV r T) as (V1 & _).
    pose proof (get_num_same r Mass) as S1. destruct (get_num r Mass) as [r1 m]. cbn [fst snd] in *. subst m.
    pose proof (holds_same_num _ _ _ _ _ S1 T) as T1. destruct (VV r1 T1) as (_ & _ & VE & VP & _).
    pose proof (four_val T1) as V2. rewrite VE, VP in V2.
    pose proof (get_four_same r1) as S2. destruct (get_four r1) as [r2 f]. cbn [fst snd] in *. subst f.
    pose proof (holds_same_num _ _ _ _ _ S2 T1) as T2. destruct (VV r2 T2) as (_ & _ & _ & _ & VO).
    pose proof (get_vec_same r2 Initial) as S3. destruct (get_vec r2 Initial) as [r3 o]. cbn [fst snd] in *. subst o.
    pose proof (holds_same_num _ _ _ _ _ S3 T2) as T3. destruct (VV r3 T3) as (_ & VL & _).
    pose proof (get_num_same r3 Length) as S4. destruct (get_num r3 Length) as [r4 n]. cbn [fst snd] in *. subst n.
    cbn. rewrite (ss_helicity _ _ S4), (ss_helicity _ _ S3), (ss_helicity _ _ S2), (ss_helicity _ _ S1), HR. reflexivity.
  - intros N. rewrite calls_snoc in H. destruct (calls l (fresh id type)) as [r0|] eqn:E0; [|discriminate].
    pose proof (tells_calls _ _ _ _ E0) as T0. cbn in H. unfold set_particle in H.
    rewrite (tl_id _ _ _ _ T0), (tl_type _ _ _ _ T0) in H.
    destruct (Z.eqb (a_id a) id) eqn:A; cbn in H; [|exact H].
    destruct (Z.eqb (a_type a) type) eqn:B; cbn in H; [|exact H].
    apply Z.eqb_eq in A. apply Z.eqb_eq in B. destruct N; contradiction.
Qed.

Example C81_case : exists r, calls ([SetNum Mass 1; GetNum Energy] ++ [SetParticle (mkparticle 5 14 3 5 (mkv 0 0 4) (mkv 2 0 1) 7 (-1))])
    (fresh 5 14) = Some r /\
  snd (get_particle r) = (Got 3, Got (Got 5, Got (mkv 0 0 4)), Got (mkv 2 0 1), Got 7, -1).
Proof. eexists. split; reflexivity. Qed.

(** A particle whose kinematics are not known comes out at rest at the origin. *)
Theorem C81_default_refuted : exists r, calls [SetVec Direction (mkv 0 0 1); SetNum Kinetic 2] (fresh 5 14) = Some r /\
  snd (get_particle r) = (Got 0, Got (Got 0, Got (mkv 0 0 0)), Got (mkv 0 0 0), Got 0, 0).
Proof. eexists. split; reflexivity. Qed.

Print Assumptions C08_sound.
Print Assumptions C08_consistent.
Print Assumptions C08_order.
Print Assumptions C08_throws.
Print Assumptions C08_case.
Print Assumptions C08_closest_refuted.
Print Assumptions C08_undefined_refuted.
Print Assumptions C08_stale_refuted.
Print Assumptions C08_nan_refuted.
Print Assumptions C80_flight.
Print Assumptions C80_time.
Print Assumptions C80_finalize.
Print Assumptions C80_available.
Print Assumptions C80_case.
Print Assumptions C80_rest_refuted.
Print Assumptions C81_particle.
Print Assumptions C81_case.
Print Assumptions C81_default_refuted.
