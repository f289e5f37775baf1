(** Properties of the getters of a primary particle record. *)
From Coq Require Import Reals List Bool ZArith Lra Lia Psatz.
From Verif Require Import VectorModel RecordModel RecordSpec RecordProofs RecordMain.
Import ListNotations.
Open Scope R_scope.

(** ** C07: mass, energies, momentum and direction *)

(** Whatever else was called, a value that was set is returned as it was last set. *)
Theorem C07_set : forall id type l r, calls l (fresh id type) = Some r ->
  (forall n v, known id type l n = Some v -> snd (read_num r n) = Got v) /\
  (forall n v, knownv id type l n = Some v -> snd (get_vec r n) = Got v) /\
  (forall e p, known id type l Energy = Some e -> knownv id type l Momentum = Some p ->
     snd (get_four r) = Got (Got e, Got p)).
Proof.
  intros id type l r H. pose proof (tells_calls _ _ _ _ H) as T.
  assert (forall n v, known id type l n = Some v -> snd (read_num r n) = Got v) as N.
  { intros n v K. pose proof (tells_has _ _ _ _ n T) as A. rewrite K in A. destruct A as [A B].
    destruct n; cbn; rewrite ?get_num_val, ?A, ?B; try reflexivity.
    rewrite (time_val _ _ _ _ T), K. reflexivity. }
  assert (forall n v, knownv id type l n = Some v -> snd (get_vec r n) = Got v) as V.
  { intros n v K. pose proof (tells_hasv _ _ _ _ n T) as A. rewrite K in A. destruct A as [A B].
    rewrite get_vec_val, A, B. reflexivity. }
  split; [exact N|]. split; [exact V|]. intros e p Ke Kp.
  rewrite (four_val T). rewrite (V _ _ Kp). specialize (N _ _ Ke). cbn in N. rewrite N. reflexivity.
Qed.

(** The order of the reads does not matter: the same answers come from the record on which only the
    setters were called. *)
Theorem C07_order : forall id type l r r',
  calls l (fresh id type) = Some r ->
  calls (filter (fun o => negb (reads o)) l) (fresh id type) = Some r' ->
  snd (get_num r Mass) = snd (get_num r' Mass) /\
  snd (get_num r Energy) = snd (get_num r' Energy) /\
  snd (get_num r Kinetic) = snd (get_num r' Kinetic) /\
  snd (get_vec r Momentum) = snd (get_vec r' Momentum) /\
  snd (get_vec r Direction) = snd (get_vec r' Direction) /\
  snd (get_four r) = snd (get_four r').
Proof.
  intros id type l r r' H H'. pose proof (tells_calls _ _ _ _ H) as T.
  pose proof (tells_sets _ _ _ _ (tells_calls _ _ _ _ H')) as T'.
  repeat split; try (apply (stable_num _ _ _ _ _ _ T T'); exact I); try (apply (stable_vec _ _ _ _ _ _ T T')).
  rewrite (four_val T), (four_val T').
  rewrite (stable_vec _ _ _ _ _ Momentum T T'), (stable_num _ _ _ _ _ Energy T T' I). reflexivity.
Qed.

(** If the set values are those of some particle obeying special relativity, every getter either
    throws or returns the value of that particle; only the direction of a particle at rest, asked
    of its momentum, and of one that does not move are NaN. *)
Theorem C07_sound : forall id type l r w,
  calls l (fresh id type) = Some r -> kinematic w -> fits id type l w ->
  (snd (get_num r Mass) = Threw \/ snd (get_num r Mass) = Got (t_num w Mass)) /\
  (snd (get_num r Energy) = Threw \/ snd (get_num r Energy) = Got (t_num w Energy)) /\
  (snd (get_num r Kinetic) = Threw \/ snd (get_num r Kinetic) = Got (t_num w Kinetic)) /\
  (snd (get_vec r Momentum) = Threw \/ snd (get_vec r Momentum) = Got (t_vec w Momentum)) /\
  (snd (get_four r) = Threw \/ snd (get_four r) = Got (Got (t_num w Energy), Got (t_vec w Momentum))) /\
  (straight w \/ knownv id type l Momentum <> None ->
     snd (get_vec r Direction) = Threw \/
     snd (get_vec r Direction) = Nan /\ (vmag (t_vec w Momentum) = 0 \/ t_num w Length = 0) \/
     snd (get_vec r Direction) = Got (t_vec w Direction)).
Proof.
  intros id type l r w H K F. pose proof (tells_calls _ _ _ _ H) as T.
  pose proof (energy_exact T K F) as E. pose proof (momentum_exact T K F) as P.
  split; [exact (mass_exact T K F)|]. split; [exact E|]. split; [exact (kinetic_exact T K F)|].
  split; [exact P|]. split.
  - rewrite (four_val T). destruct P as [-> | ->]; [left; reflexivity|].
    destruct E as [-> | ->]; [left|right]; reflexivity.
  - intros D. destruct (knownv id type l Momentum) eqn:N.
    + assert (knownv id type l Momentum <> None) as N' by congruence.
      destruct (direction_momentum T K F N') as [[A B]|A]; [right; left|right; right]; auto.
    + destruct D as [S|D]; [|congruence].
      destruct (direction_line T S F N) as [A|[[A B]|A]]; auto.
Qed.

(** Hence the values returned obey the equations together. *)
Theorem C07_consistent : forall id type l r w,
  calls l (fresh id type) = Some r -> kinematic w -> fits id type l w ->
  (forall m e t, snd (get_num r Mass) = Got m -> snd (get_num r Energy) = Got e ->
     snd (get_num r Kinetic) = Got t -> e = m + t) /\
  (forall m e p, snd (get_num r Mass) = Got m -> snd (get_num r Energy) = Got e ->
     snd (get_vec r Momentum) = Got p -> e ^ 2 = m ^ 2 + vmag p ^ 2) /\
  (forall p d, knownv id type l Momentum <> None \/ knownv id type l Direction <> None ->
     snd (get_vec r Momentum) = Got p -> snd (get_vec r Direction) = Got d -> same_way p d /\ vmag d = 1).
Proof.
  intros id type l r w H K F. pose proof (tells_calls _ _ _ _ H) as T.
  destruct (C07_sound _ _ _ _ _ H K F) as (M & E & C & P & _ & D).
  split; [|split].
  - intros m e t Hm He Ht. destruct M as [M|M]; [congruence|]. destruct E as [E|E]; [congruence|].
    destruct C as [C|C]; [congruence|]. rewrite M in Hm. rewrite E in He. rewrite C in Ht.
    injection Hm as <-. injection He as <-. injection Ht as <-. exact (k_energy _ K).
  - intros m e p Hm He Hp. destruct M as [M|M]; [congruence|]. destruct E as [E|E]; [congruence|].
    destruct P as [P|P]; [congruence|]. rewrite M in Hm. rewrite E in He. rewrite P in Hp.
    injection Hm as <-. injection He as <-. injection Hp as <-. exact (k_shell _ K).
  - intros p d N Hp Hd. destruct P as [P|P]; [congruence|]. rewrite P in Hp. injection Hp as <-.
    assert (d = t_vec w Direction) as ->.
    { destruct (knownv id type l Direction) as [d'|] eqn:ND.
      - destruct (C07_set _ _ _ _ H) as (_ & V & _). rewrite (V _ _ ND) in Hd. injection Hd as <-.
        symmetry. exact (proj2 F _ _ ND).
      - destruct N as [N|N]; [|congruence].
        destruct (D (or_intror N)) as [A|[[A _]|A]]; congruence. }
    split; [|exact (k_unit _ K)]. exists (vmag (t_vec w Momentum)).
    split; [apply vmag_pos|exact (k_along _ K)].
Qed.

(** Nothing is invented: a number is returned only when every particle with these set values agrees
    on it. *)
Theorem C07_determined : forall id type l r w w',
  calls l (fresh id type) = Some r -> kinematic w -> kinematic w' ->
  fits id type l w -> fits id type l w' ->
  (forall v, snd (get_num r Mass) = Got v -> t_num w Mass = t_num w' Mass) /\
  (forall v, snd (get_num r Energy) = Got v -> t_num w Energy = t_num w' Energy) /\
  (forall v, snd (get_num r Kinetic) = Got v -> t_num w Kinetic = t_num w' Kinetic) /\
  (forall v, snd (get_vec r Momentum) = Got v -> t_vec w Momentum = t_vec w' Momentum).
Proof.
  intros id type l r w w' H K K' F F'.
  destruct (C07_sound _ _ _ _ _ H K F) as (M & E & C & P & _).
  destruct (C07_sound _ _ _ _ _ H K' F') as (M' & E' & C' & P' & _).
  repeat split; intros v Hv.
  - destruct M as [M|M], M' as [M'|M']; congruence.
  - destruct E as [E|E], E' as [E'|E']; congruence.
  - destruct C as [C|C], C' as [C'|C']; congruence.
  - destruct P as [P|P], P' as [P'|P']; congruence.
Qed.

(** For any real inputs, even contradictory ones: a derived number obeys the equation with the set
    values it was derived from. *)
Theorem C07_derived : forall id type l r, calls l (fresh id type) = Some r ->
  let k := known id type l in let kv := knownv id type l in
  (k Mass = None -> forall m, snd (get_num r Mass) = Got m ->
     exists e, k Energy = Some e /\
       ((exists p, kv Momentum = Some p /\ 0 <= m /\ e ^ 2 = m ^ 2 + vmag p ^ 2) \/
        (exists t, k Kinetic = Some t /\ e = m + t))) /\
  (k Energy = None -> forall e, snd (get_num r Energy) = Got e ->
     exists m, k Mass = Some m /\
       ((exists p, kv Momentum = Some p /\ 0 <= e /\ e ^ 2 = m ^ 2 + vmag p ^ 2) \/
        (exists t, k Kinetic = Some t /\ e = m + t))) /\
  (k Kinetic = None -> forall t, snd (get_num r Kinetic) = Got t ->
     exists m, k Mass = Some m /\
       ((exists e, k Energy = Some e /\ e = m + t) \/
        (exists p, kv Momentum = Some p /\ 0 <= m + t /\ (m + t) ^ 2 = m ^ 2 + vmag p ^ 2))) /\
  (kv Momentum = None -> forall p, snd (get_vec r Momentum) = Got p ->
     exists m d, k Mass = Some m /\ kv Direction = Some d /\ same_way p d /\
       exists e, (k Energy = Some e \/ k Energy = None /\ exists t, k Kinetic = Some t /\ e = t + m) /\
         (vmag d = 1 -> e ^ 2 = m ^ 2 + vmag p ^ 2)) /\
  (kv Direction = None -> forall d, snd (get_vec r Direction) = Got d ->
     vmag d = 1 /\
     ((exists p, kv Momentum = Some p /\ same_way p d) \/
      (exists o x, kv Initial = Some o /\ kv Vertex = Some x /\ same_way (vsub x o) d))).
Proof.
  intros id type l r H k kv. subst k kv. pose proof (tells_calls _ _ _ _ H) as T.
  assert (forall y x, root y = Got x -> 0 <= x /\ x ^ 2 = y) as RT.
  { intros y x. unfold root. destruct (Rlt_dec y 0); [discriminate|]. intros E. injection E as <-.
    split; [apply sqrt_pos|]. apply pow2_sqrt. lra. }
  assert (forall v d, normal v = Got d -> vmag d = 1 /\ same_way v d) as NT.
  { intros v d. unfold normal. destruct (Req_EM_T (vmag v) 0) as [E|E]; [discriminate|]. intros G. injection G as <-.
    split.
    - assert (vmag v > 0) as P by (pose proof (vmag_pos v); lra).
      apply Rsqr_inj; [apply vmag_pos|lra|]. unfold Rsqr.
      assert (vmag (vdiv v (vmag v)) * vmag (vdiv v (vmag v)) = vmag (vdiv v (vmag v)) ^ 2) as -> by (cbn [pow]; ring).
      rewrite (vmag_sq (vdiv v (vmag v))). cbn [vx vy vz vdiv].
      replace (vx v / vmag v * (vx v / vmag v) + vy v / vmag v * (vy v / vmag v) + vz v / vmag v * (vz v / vmag v))
        with ((vx v * vx v + vy v * vy v + vz v * vz v) / vmag v ^ 2) by (field; lra).
      rewrite <- vmag_sq. field. lra.
    - exists (vmag v). split; [apply vmag_pos|]. apply vec_eq; cbn; field; exact E. }
  assert (forall k d y, root y = Got k -> vmag d = 1 -> y = vmag (vscale k d) ^ 2) as SC.
  { intros k d y R D. destruct (RT _ _ R) as [A B]. rewrite (vmag_scale _ _ A D). symmetry. exact B. }
  split; [|split; [|split; [|split]]].
  - intros N m. rewrite get_num_val. look T Mass; [discriminate|]. unfold num_from, mass_from.
    look T Energy; [|discriminate]. lookv T Momentum; cbn [bind andb].
    + intros R. apply RT in R. eexists. split; [reflexivity|]. left. eexists. split; [reflexivity|].
      split; [tauto|]. rewrite vmag_sq. lra.
    + look T Kinetic; cbn [bind andb]; [|discriminate]. intros G. injection G as <-. eexists. split; [reflexivity|].
      right. eexists. split; [reflexivity|]. lra.
  - intros N e. rewrite get_num_val. look T Energy; [discriminate|]. unfold num_from, energy_from.
    look T Mass; [|discriminate]. lookv T Momentum; cbn [bind andb].
    + intros R. apply RT in R. eexists. split; [reflexivity|]. left. eexists. split; [reflexivity|].
      split; [tauto|]. rewrite vmag_sq. lra.
    + look T Kinetic; cbn [bind andb]; [|discriminate]. intros G. injection G as <-. eexists. split; [reflexivity|].
      right. eexists. split; [reflexivity|]. lra.
  - intros N t. rewrite get_num_val. look T Kinetic; [discriminate|]. unfold num_from, kinetic_from.
    look T Mass; [|rewrite andb_false_r; discriminate]. look T Energy; cbn [bind andb].
    + intros G. injection G as <-. eexists. split; [reflexivity|]. left. eexists. split; [reflexivity|]. lra.
    + lookv T Momentum; cbn [bind andb]; [|discriminate].
      match goal with |- context [root ?y] => destruct (root y) as [e| | |] eqn:R end; cbn [bind andb]; try discriminate.
      intros G. injection G as <-. destruct (RT _ _ R) as [P Q].
      eexists. split; [reflexivity|]. right. eexists. split; [reflexivity|].
      rewrite vmag_sq. replace (r0 + (e - r0)) with e by ring. split; [exact P|]. lra.
  - intros N p. rewrite get_vec_val. lookv T Momentum; [discriminate|]. unfold vec_from, momentum_from.
    lookv T Direction; [|rewrite !andb_false_r; discriminate]. look T Mass; [|rewrite andb_false_r; discriminate].
    look T Energy; cbn [bind andb].
    + match goal with |- context [root ?y] => destruct (root y) as [e| | |] eqn:R end; cbn [bind andb]; try discriminate.
      intros G. injection G as <-. eexists. eexists. split; [reflexivity|]. split; [reflexivity|].
      split; [exists e; split; [apply (RT _ _ R)|reflexivity]|]. eexists. split; [left; reflexivity|].
      intros D. rewrite <- (SC _ _ _ R D). ring.
    + look T Kinetic; cbn [bind andb]; [|discriminate].
      match goal with |- context [root ?y] => destruct (root y) as [e| | |] eqn:R end; cbn [bind andb]; try discriminate.
      intros G. injection G as <-. eexists. eexists. split; [reflexivity|]. split; [reflexivity|].
      split; [exists e; split; [apply (RT _ _ R)|reflexivity]|]. eexists.
      split; [right; split; [reflexivity|]; eexists; split; reflexivity|].
      intros D. rewrite <- (SC _ _ _ R D). ring.
  - intros N d. rewrite get_vec_val. lookv T Direction; [discriminate|]. unfold vec_from, direction_from.
    lookv T Momentum; cbn [bind andb].
    + intros G. destruct (NT _ _ G) as [P Q]. split; [exact P|]. left. eexists. split; [reflexivity|exact Q].
    + lookv T Initial; cbn [bind andb]; [|discriminate]. lookv T Vertex; cbn [bind andb]; [|discriminate].
      intros G. destruct (NT _ _ G) as [P Q]. split; [exact P|]. right. do 2 eexists. split; [reflexivity|].
      split; [reflexivity|exact Q].
Qed.

(** When the getters throw, exactly. *)
Theorem C07_throws : forall id type l r, calls l (fresh id type) = Some r ->
  let h n := known id type l n <> None in let hv n := knownv id type l n <> None in
  (snd (get_num r Mass) <> Threw <-> h Mass \/ h Energy /\ (hv Momentum \/ h Kinetic)) /\
  (snd (get_num r Energy) <> Threw <-> h Energy \/ h Mass /\ (hv Momentum \/ h Kinetic)) /\
  (snd (get_num r Kinetic) <> Threw <-> h Kinetic \/ h Mass /\ (h Energy \/ hv Momentum)) /\
  (snd (get_vec r Momentum) <> Threw <-> hv Momentum \/ h Mass /\ hv Direction /\ (h Energy \/ h Kinetic)) /\
  (snd (get_vec r Direction) <> Threw <-> hv Direction \/ hv Momentum \/ hv Initial /\ hv Vertex).
Proof.
  intros id type l r H h hv. subst h hv. pose proof (tells_calls _ _ _ _ H) as T.
  assert (forall A (v : A), Some v <> None) as SN by discriminate.
  assert (forall A, ~ (@None A) <> None) as NN by (intros A HH; apply HH; reflexivity).
  split; [|split; [|split; [|split]]].
  - rewrite get_num_val. unfold num_from, mass_from.
    look T Mass; look T Energy; lookv T Momentum; look T Kinetic; cbn;
      split; intros G; try discriminate; try (apply root_defined); try (exfalso; apply G; reflexivity);
      repeat first [left; discriminate | split; [discriminate|] | right; split; [discriminate|]
                   | left; split; discriminate | right; discriminate];
      try (exfalso; destruct G as [G|[G [G'|G']]]; congruence).
  - rewrite get_num_val. unfold num_from, energy_from.
    look T Energy; look T Mass; lookv T Momentum; look T Kinetic; cbn;
      split; intros G; try discriminate; try (apply root_defined); try (exfalso; apply G; reflexivity);
      repeat first [left; discriminate | split; [discriminate|] | right; split; [discriminate|]
                   | left; split; discriminate | right; discriminate];
      try (exfalso; destruct G as [G|[G [G'|G']]]; congruence).
  - rewrite get_num_val. unfold num_from, kinetic_from.
    look T Kinetic; look T Mass; look T Energy; lookv T Momentum; cbn;
      split; intros G; try discriminate; try (exfalso; apply G; reflexivity);
      try (match goal with |- context [root ?y] => pose proof (root_defined y); destruct (root y); cbn; try discriminate; tauto end);
      repeat first [left; discriminate | split; [discriminate|] | right; split; [discriminate|]
                   | left; split; discriminate | right; discriminate];
      try (exfalso; destruct G as [G|[G [G'|G']]]; congruence).
  - rewrite get_vec_val. unfold vec_from, momentum_from.
    lookv T Momentum; lookv T Direction; look T Mass; look T Energy; look T Kinetic; cbn;
      split; intros G; try discriminate; try (exfalso; apply G; reflexivity);
      try (match goal with |- context [root ?y] => pose proof (root_defined y); destruct (root y); cbn; try discriminate; tauto end);
      repeat first [left; discriminate | split; [discriminate|] | right; split; [discriminate|]
                   | left; split; discriminate | right; discriminate];
      try (exfalso; destruct G as [G|[G [G'' [G'|G']]]]; congruence).
  - rewrite get_vec_val. unfold vec_from, direction_from.
    lookv T Direction; lookv T Momentum; lookv T Initial; lookv T Vertex; cbn;
      split; intros G; try discriminate; try (apply normal_defined); try (exfalso; apply G; reflexivity);
      repeat first [left; discriminate | right; left; discriminate | right; right; split; discriminate];
      try (exfalso; destruct G as [G|[G|[G G']]]; congruence).
Qed.

Lemma mag3 : vmag (mkv 0 0 1) = 1.
Proof. unfold vmag; cbn. replace (0 * 0 + 0 * 0 + 1 * 1) with 1 by ring. apply sqrt_1. Qed.
Lemma mag_z k : 0 <= k -> vmag (mkv 0 0 k) = k.
Proof. intros H. unfold vmag; cbn. replace (0 * 0 + 0 * 0 + k * k) with (k * k) by ring. apply sqrt_square. exact H. Qed.

(** A particle of mass 3 and momentum 4 along z, passing 2 m off the origin. *)
Definition sample : truth :=
  mktruth
    (fun n => match n with
              | Mass => 3 | Energy => 5 | Kinetic => 2 | Length => 7 | VertexDistance => 8
              | InitialDistance => 1 | Time => 0 end)
    (fun n => match n with
              | Direction => mkv 0 0 1 | Momentum => mkv 0 0 4 | Initial => mkv 2 0 1
              | Vertex => mkv 2 0 8 | Closest => mkv 2 0 0 end).

Lemma sample_kinematic : kinematic sample.
Proof.
  constructor; cbn; try lra; rewrite ?mag3, ?mag_z; try lra; try reflexivity.
  unfold vscale; cbn. f_equal; ring.
Qed.
Lemma sample_straight : straight sample.
Proof.
  constructor; cbn; try lra; try exact mag3; try (unfold vadd, vscale; cbn; f_equal; ring).
  unfold vdot; cbn. ring.
Qed.

(** Setting mass, kinetic energy and direction, reading in between, gives energy and momentum. *)
Example C07_case :
  let l := [SetNum Mass 3; GetNum Energy; SetNum Kinetic 2; GetNum Energy; SetVec Direction (mkv 0 0 1); GetFour] in
  exists r, calls l (fresh 5 14) = Some r /\ kinematic sample /\ fits 5 14 l sample /\
    snd (get_four r) = Got (Got 5, Got (mkv 0 0 4)) /\ snd (get_num r Energy) = Got 5 /\ snd (get_num r Mass) = Got 3.
Proof.
  cbn zeta. set (l := [_; _; _; _; _; _]).
  assert (fits 5 14 l sample) as F.
  { split; intros n v; unfold known, knownv, given; cbn; destruct n; cbn; try discriminate; intros E; injection E as <-; reflexivity. }
  assert (exists r, calls l (fresh 5 14) = Some r) as [r H].
  { subst l. cbn.

    match goal with |- context [root ?y] => replace y with (4 * 4) by ring end.
    rewrite root_square by lra. cbn. eexists. reflexivity. }
  pose proof (tells_calls _ _ _ _ H) as T.
  destruct (C07_sound _ _ _ _ _ H sample_kinematic F) as (M & E & _ & _ & P & _).
  destruct (C07_throws _ _ _ _ H) as (TM & TE & _ & TP & _).
  exists r. split; [exact H|]. split; [exact sample_kinematic|]. split; [exact F|].
  assert (known 5 14 l Mass <> None) as KM by discriminate.
  assert (known 5 14 l Kinetic <> None) as KK by discriminate.
  assert (knownv 5 14 l Direction <> None) as KD by discriminate.
  assert (snd (get_num r Energy) = Got 5) as E5 by (destruct E as [E|E]; [exact (False_ind _ (proj2 TE (or_intror (conj KM (or_intror KK))) E))|exact E]).
  split; [|split; [exact E5|destruct M as [M|M]; [exact (False_ind _ (proj2 TM (or_introl KM) M))|exact M]]].
  destruct P as [P|P]; [|exact P]. exfalso. rewrite (four_val T), E5 in P.
  assert (snd (get_vec r Momentum) <> Threw) as TP' by exact (proj2 TP (or_intror (conj KM (conj KD (or_intror KK))))).
  pose proof (defined_vec _ _ _ _ Momentum T).
  destruct (snd (get_vec r Momentum)); congruence.
Qed.

(** An energy below the mass: the momentum is NaN and nothing is thrown. *)
Theorem C07_nan_refuted : exists l r, calls l (fresh 5 14) = Some r /\
  known 5 14 l Mass = Some 2 /\ known 5 14 l Energy = Some 1 /\ snd (get_vec r Momentum) = Nan.
Proof.
  exists [SetNum Mass 2; SetNum Energy 1; SetVec Direction (mkv 0 0 1)]. eexists. split; [reflexivity|].
  split; [reflexivity|]. split; [reflexivity|]. rewrite get_vec_val. cbn. unfold root.
  destruct (Rlt_dec (1 * 1 - 2 * 2) 0); [reflexivity|lra].
Qed.

(** A direction that is not a unit vector: the momentum does not fit energy and mass. *)
Theorem C07_direction_refuted : exists l r p, calls l (fresh 5 14) = Some r /\
  snd (get_num r Mass) = Got 3 /\ snd (get_num r Energy) = Got 5 /\
  snd (get_vec r Momentum) = Got p /\ 5 ^ 2 <> 3 ^ 2 + vmag p ^ 2.
Proof.
  exists [SetNum Mass 3; SetNum Energy 5; SetVec Direction (mkv 0 0 2)]. do 2 eexists. split; [reflexivity|].
  split; [reflexivity|]. split; [reflexivity|]. rewrite get_vec_val. cbn.
  match goal with |- context [root ?y] => replace y with (4 * 4) by ring end.
  rewrite root_square by lra. cbn. split; [reflexivity|].
  replace (vscale 4 (mkv 0 0 2)) with (mkv 0 0 8) by (unfold vscale; cbn; f_equal; ring).
  rewrite mag_z by lra. lra.
Qed.

(** Momentum and kinetic energy determine the mass, but asking for it throws. *)
Theorem C07_mass_refuted : exists l r, calls l (fresh 5 14) = Some r /\ snd (get_num r Mass) = Threw /\
  kinematic sample /\ fits 5 14 l sample /\
  forall w, kinematic w -> fits 5 14 l w -> t_num w Mass = 3.
Proof.
  exists [SetNum Kinetic 2; SetVec Momentum (mkv 0 0 4)]. eexists. split; [reflexivity|].
  split; [reflexivity|]. split; [exact sample_kinematic|].
  split.
  { split; intros n v; unfold known, knownv, given; cbn; destruct n; cbn; try discriminate; intros E; injection E as <-; reflexivity. }
  intros w K [F G]. pose proof (F Kinetic 2 eq_refl) as T. pose proof (G Momentum _ eq_refl) as P.
  pose proof (k_energy _ K) as E. pose proof (k_shell _ K) as S. rewrite P, (mag_z 4), E, T in S; lra.
Qed.

(** So do energy, kinetic energy and direction the momentum. *)
Theorem C07_momentum_refuted : exists l r, calls l (fresh 5 14) = Some r /\ snd (get_vec r Momentum) = Threw /\
  snd (get_num r Mass) = Got 3 /\ snd (get_num r Energy) = Got 5 /\ snd (get_vec r Direction) = Got (mkv 0 0 1) /\
  kinematic sample /\ fits 5 14 l sample.
Proof.
  exists [SetNum Energy 5; SetNum Kinetic 2; SetVec Direction (mkv 0 0 1)]. eexists. split; [reflexivity|].
  split; [reflexivity|]. split; [cbn; f_equal; lra|]. split; [reflexivity|]. split; [reflexivity|].
  split; [exact sample_kinematic|].
  split; intros n v; unfold known, knownv, given; cbn; destruct n; cbn; try discriminate; intros E; injection E as <-; reflexivity.
Qed.

Print Assumptions C07_set.
Print Assumptions C07_order.
Print Assumptions C07_sound.
Print Assumptions C07_consistent.
Print Assumptions C07_determined.
Print Assumptions C07_derived.
Print Assumptions C07_throws.
Print Assumptions C07_case.
Print Assumptions C07_nan_refuted.
Print Assumptions C07_direction_refuted.
Print Assumptions C07_mass_refuted.
Print Assumptions C07_momentum_refuted.
