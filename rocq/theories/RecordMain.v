(** The getters of a primary particle record against a particle on a line. *)
From Coq Require Import Reals List Bool ZArith Lra Lia Psatz.
From Verif Require Import VectorModel RecordModel RecordSpec RecordProofs.
Import ListNotations.
Open Scope R_scope.

Ltac look T n :=
  let H := fresh "L" in
  pose proof (tells_has _ _ _ _ n T) as H;
  let E := fresh "K" in
  match type of H with match ?k with Some _ => _ | None => _ end => destruct k eqn:E end;
  [let A := fresh "A" in let B := fresh "B" in destruct H as [A B]; rewrite ?A, ?B|rewrite ?H].
Ltac lookv T n :=
  let H := fresh "L" in
  pose proof (tells_hasv _ _ _ _ n T) as H;
  let E := fresh "K" in
  match type of H with match ?k with Some _ => _ | None => _ end => destruct k eqn:E end;
  [let A := fresh "A" in let B := fresh "B" in destruct H as [A B]; rewrite ?A, ?B|rewrite ?H].
Ltac fitted F :=
  repeat match goal with
  | K : known _ _ _ ?n = Some ?v |- _ => pose proof (proj1 F _ _ K); clear K
  | K : knownv _ _ _ ?n = Some ?v |- _ => pose proof (proj2 F _ _ K); clear K
  end; subst.

Section Facts.
Context {id type : Z} {l : list call} {r : primary}.
Hypothesis T : tells id type l r.

Section Kinematics.
Context {w : truth}.
Hypothesis K : kinematic w.
Hypothesis F : fits id type l w.

Lemma shell : t_num w Energy * t_num w Energy - t_num w Mass * t_num w Mass
  = vmag (t_vec w Momentum) * vmag (t_vec w Momentum).
Proof. pose proof (k_shell _ K). lra. Qed.
Lemma energy_pos : 0 <= t_num w Energy.
Proof. rewrite (k_energy _ K). pose proof (k_mass _ K). pose proof (k_kinetic _ K). lra. Qed.

Lemma mass_exact : snd (get_num r Mass) = Threw \/ snd (get_num r Mass) = Got (t_num w Mass).
Proof.
  rewrite get_num_val. look T Mass; [right; fitted F; reflexivity|].
  unfold num_from, mass_from. look T Energy; [|left; reflexivity].
  lookv T Momentum; cbn.
  - right. fitted F. apply root_eq; [exact (k_mass _ K)|].
    pose proof shell. pose proof (vmag_sq (t_vec w Momentum)). lra.
  - look T Kinetic; cbn; [|left; reflexivity]. right. fitted F. f_equal. rewrite (k_energy _ K). ring.
Qed.

Lemma energy_exact : snd (get_num r Energy) = Threw \/ snd (get_num r Energy) = Got (t_num w Energy).
Proof.
  rewrite get_num_val. look T Energy; [right; fitted F; reflexivity|].
  unfold num_from, energy_from. look T Mass; [|left; reflexivity].
  lookv T Momentum; cbn.
  - right. fitted F. apply root_eq; [exact energy_pos|].
    pose proof shell. pose proof (vmag_sq (t_vec w Momentum)). lra.
  - look T Kinetic; cbn; [|left; reflexivity]. right. fitted F. f_equal. rewrite (k_energy _ K). ring.
Qed.

Lemma kinetic_exact : snd (get_num r Kinetic) = Threw \/ snd (get_num r Kinetic) = Got (t_num w Kinetic).
Proof.
  rewrite get_num_val. look T Kinetic; [right; fitted F; reflexivity|].
  unfold num_from, kinetic_from. look T Mass; [|rewrite andb_false_r; left; reflexivity].
  look T Energy; cbn.
  - right. fitted F. f_equal. rewrite (k_energy _ K). ring.
  - lookv T Momentum; cbn; [|left; reflexivity]. right. fitted F.
    rewrite (root_eq _ (t_num w Energy)); [|exact energy_pos|].
    + cbn. f_equal. rewrite (k_energy _ K). ring.
    + pose proof shell. pose proof (vmag_sq (t_vec w Momentum)). lra.
Qed.

Lemma momentum_exact : snd (get_vec r Momentum) = Threw \/ snd (get_vec r Momentum) = Got (t_vec w Momentum).
Proof.
  rewrite get_vec_val. lookv T Momentum; [right; fitted F; reflexivity|].
  unfold vec_from, momentum_from. lookv T Direction; [|rewrite !andb_false_r; left; reflexivity].
  look T Mass; [|rewrite andb_false_r; left; reflexivity].
  look T Energy; cbn.
  - right. fitted F. rewrite (root_eq _ (vmag (t_vec w Momentum))); [|apply vmag_pos|exact shell].
    cbn. f_equal. symmetry. exact (k_along _ K).
  - look T Kinetic; cbn; [|left; reflexivity]. right. fitted F.
    rewrite (root_eq _ (vmag (t_vec w Momentum))); [|apply vmag_pos|].
    + cbn. f_equal. symmetry. exact (k_along _ K).
    + rewrite <- shell, (k_energy _ K). ring.
Qed.

Lemma direction_momentum : knownv id type l Momentum <> None ->
  snd (get_vec r Direction) = Nan /\ vmag (t_vec w Momentum) = 0 \/
  snd (get_vec r Direction) = Got (t_vec w Direction).
Proof.
  intros N. rewrite get_vec_val. lookv T Direction; [right; fitted F; reflexivity|].
  unfold vec_from, direction_from. lookv T Momentum; [|congruence]. cbn. fitted F.
  rewrite (k_along _ K). rewrite (normal_scale _ _ (vmag_pos _) (k_unit _ K)).
  destruct (Req_EM_T (vmag (t_vec w Momentum)) 0) as [E|E]; [left|right; reflexivity].
  split; [reflexivity|]. rewrite <- (k_along _ K). exact E.
Qed.

Lemma four_val :
  snd (get_four r) =
    match snd (get_vec r Momentum) with
    | Undef => Undef
    | Threw => Threw
    | p => match snd (get_num r Energy) with
           | Undef => Undef
           | Threw => Threw
           | e => Got (e, p)
           end
    end.
Proof.
  clear K F. rewrite get_vec_val, get_num_val. unfold get_four.
  lookv T Momentum.
  - look T Energy; cbn; [reflexivity|].
    unfold update_vec, store. change (s_set (p_vec r Momentum)) with (hasv r Momentum). rewrite A.
    unfold update_num, store. change (s_set (p_num r Energy)) with (has r Energy). rewrite L.
    unfold num_from.
    destruct (energy_from r); try reflexivity; unfold num, vct, put_num; cbn;
      change (s_val (p_vec r Momentum)) with (vct r Momentum); rewrite B; reflexivity.
  - cbn. unfold update_vec, store. change (s_set (p_vec r Momentum)) with (hasv r Momentum). rewrite L.
    unfold vec_from. destruct (momentum_from r) as [p| | |] eqn:E; try reflexivity.
    + unfold update_num, store. change (s_set (p_num (put_vec r Momentum (mkslot false (Got p))) Energy)) with (has r Energy).
      assert (num_from (put_vec r Momentum (mkslot false (Got p))) Energy = num_from r Energy) as ->.
      { unfold num_from, energy_from, has, hasv, num, vct. cbn. unfold hasv in L. rewrite L, !andb_false_r. reflexivity. }
      destruct (has r Energy) eqn:HE.
      * look T Energy; [|congruence]. unfold num, vct in *. cbn. rewrite ?B. reflexivity.
      * unfold num_from. destruct (energy_from r); reflexivity.
    + unfold update_num, store. change (s_set (p_num (put_vec r Momentum (mkslot false Nan)) Energy)) with (has r Energy).
      assert (num_from (put_vec r Momentum (mkslot false Nan)) Energy = num_from r Energy) as ->.
      { unfold num_from, energy_from, has, hasv, num, vct. cbn. unfold hasv in L. rewrite L, !andb_false_r. reflexivity. }
      destruct (has r Energy) eqn:HE.
      * look T Energy; [|congruence]. unfold num, vct in *. cbn. rewrite ?B. reflexivity.
      * unfold num_from. destruct (energy_from r); reflexivity.
Qed.
End Kinematics.

Section Line.
Context {w : truth}.
Hypothesis S : straight w.
Hypothesis F : fits id type l w.

Lemma span : t_num w VertexDistance - t_num w InitialDistance = t_num w Length.
Proof.
  pose proof (dot_along _ _ (t_num w InitialDistance) (s_unit _ S) (s_closest _ S)) as A.
  pose proof (dot_along _ _ (t_num w VertexDistance) (s_unit _ S) (s_closest _ S)) as B.
  rewrite <- (s_from _ S) in A. rewrite <- (s_to _ S) in B. rewrite (s_vertex _ S) in B.
  assert (vdot (vadd (t_vec w Initial) (vscale (t_num w Length) (t_vec w Direction))) (t_vec w Direction)
          = vdot (t_vec w Initial) (t_vec w Direction) + t_num w Length * vdot (t_vec w Direction) (t_vec w Direction)) as C
    by (unfold vdot; cbn; ring).
  rewrite C, (unit_dot _ (s_unit _ S)), A in B. lra.
Qed.

Lemma step_back : vsub (t_vec w Vertex) (vscale (t_num w Length) (t_vec w Direction)) = t_vec w Initial.
Proof. rewrite (s_vertex _ S). apply vsub_vadd2. Qed.

Lemma gap : vsub (t_vec w Vertex) (t_vec w Initial) = vscale (t_num w Length) (t_vec w Direction).
Proof. rewrite (s_vertex _ S). apply vsub_vadd. Qed.

Lemma signed_vertex : signed_distance (t_vec w Vertex) (t_vec w Direction) = t_num w VertexDistance.
Proof. rewrite (s_to _ S). apply signed_along; [exact (s_unit _ S)|exact (s_closest _ S)]. Qed.
Lemma signed_initial : signed_distance (t_vec w Initial) (t_vec w Direction) = t_num w InitialDistance.
Proof. rewrite (s_from _ S). apply signed_along; [exact (s_unit _ S)|exact (s_closest _ S)]. Qed.

Lemma length_exact : snd (get_num r Length) = Threw \/ snd (get_num r Length) = Got (t_num w Length).
Proof.
  rewrite get_num_val. look T Length; [right; fitted F; reflexivity|].
  unfold num_from, length_from. lookv T Initial; [lookv T Vertex|]; cbn.
  - right. fitted F. rewrite gap. f_equal. apply vmag_scale; [exact (s_length _ S)|exact (s_unit _ S)].
  - look T InitialDistance; [look T VertexDistance|]; cbn; try (left; reflexivity).
    right. fitted F. f_equal. apply span.
  - look T InitialDistance; [look T VertexDistance|]; cbn; try (left; reflexivity).
    right. fitted F. f_equal. apply span.
Qed.

Lemma initial_exact : snd (get_vec r Initial) = Threw \/ snd (get_vec r Initial) = Got (t_vec w Initial).
Proof.
  rewrite get_vec_val. lookv T Initial; [right; fitted F; reflexivity|].
  unfold vec_from, initial_from.
  lookv T Direction; [|rewrite !andb_false_r; cbn; rewrite ?andb_false_r; left; reflexivity].
  lookv T Vertex; cbn.
  - look T Length; cbn.
    + right. fitted F. f_equal. apply step_back.
    + look T InitialDistance; cbn; [|left; reflexivity]. look T VertexDistance; cbn.
      * right. fitted F. rewrite span. f_equal. apply step_back.
      * lookv T Closest; cbn; [|left; reflexivity]. right. fitted F. f_equal. symmetry. exact (s_from _ S).
  - look T InitialDistance; cbn; [|left; reflexivity].
    lookv T Closest; cbn; [|left; reflexivity]. right. fitted F. f_equal. symmetry. exact (s_from _ S).
Qed.

Lemma vertex_exact : snd (get_vec r Vertex) = Threw \/ snd (get_vec r Vertex) = Got (t_vec w Vertex).
Proof.
  rewrite get_vec_val. lookv T Vertex; [right; fitted F; reflexivity|].
  unfold vec_from, vertex_from.
  lookv T Direction; [|rewrite !andb_false_r; cbn; rewrite ?andb_false_r; left; reflexivity].
  lookv T Initial; cbn.
  - look T Length; cbn.
    + right. fitted F. f_equal. symmetry. exact (s_vertex _ S).
    + look T VertexDistance; rewrite ?andb_false_r; cbn; [|left; reflexivity]. look T InitialDistance; cbn.
      * right. fitted F. rewrite span. f_equal. symmetry. exact (s_vertex _ S).
      * lookv T Closest; cbn; [|left; reflexivity]. right. fitted F. f_equal. symmetry. exact (s_to _ S).
  - look T VertexDistance; cbn; [|left; reflexivity].
    lookv T Closest; cbn; [|left; reflexivity]. right. fitted F. f_equal. symmetry. exact (s_to _ S).
Qed.

Lemma normal_gap : normal (vsub (t_vec w Vertex) (t_vec w Initial))
  = if Req_EM_T (t_num w Length) 0 then Nan else Got (t_vec w Direction).
Proof. rewrite gap. apply normal_scale; [exact (s_length _ S)|exact (s_unit _ S)]. Qed.

(** Not the branch that adds the distance of the initial position. *)
Lemma closest_exact :
  knownv id type l Initial = None \/ knownv id type l Direction = None \/ known id type l InitialDistance = None ->
  snd (get_vec r Closest) = Threw \/ snd (get_vec r Closest) = Nan /\ t_num w Length = 0 \/
  snd (get_vec r Closest) = Got (t_vec w Closest).
Proof.
  intros N. rewrite get_vec_val. lookv T Closest; [right; right; fitted F; reflexivity|].
  unfold vec_from, closest_from.
  assert (hasv r Initial && hasv r Direction && has r InitialDistance = false) as ->.
  { destruct N as [N|[N|N]].
    - pose proof (tells_hasv _ _ _ _ Initial T) as H. rewrite N in H. rewrite H. reflexivity.
    - pose proof (tells_hasv _ _ _ _ Direction T) as H. rewrite N in H. rewrite H, andb_false_r. reflexivity.
    - pose proof (tells_has _ _ _ _ InitialDistance T) as H. rewrite N in H. rewrite H, andb_false_r. reflexivity. }
  clear N. lookv T Vertex; [|rewrite andb_false_r; left; reflexivity].
  assert (forall o, knownv id type l Initial = Some o -> vct r Initial = Got o ->
    bind (vct r Vertex) (fun x => bind (vct r Initial) (fun o => bind (normal (vsub x o)) (fun d => Got (foot o d))))
      = Nan /\ t_num w Length = 0 \/
    bind (vct r Vertex) (fun x => bind (vct r Initial) (fun o => bind (normal (vsub x o)) (fun d => Got (foot o d))))
      = Got (t_vec w Closest)) as G.
  { intros o Ko Vo. rewrite Vo, B. cbn. fitted F. rewrite normal_gap.
    destruct (Req_EM_T (t_num w Length) 0) as [E|E]; [left; auto|right]. cbn. f_equal.
    rewrite (s_from _ S). apply foot_along; [exact (s_unit _ S)|exact (s_closest _ S)]. }
  lookv T Direction; cbn; [look T VertexDistance; cbn|].
  - right; right. fitted F. f_equal. rewrite (s_to _ S). apply vsub_vadd2.
  - lookv T Initial; cbn; [|left; reflexivity]. right. specialize (G _ eq_refl B1). rewrite B, B1 in G. cbn in G. exact G.
  - lookv T Initial; cbn; [|left; reflexivity]. right. specialize (G _ eq_refl B0). rewrite B, B0 in G. cbn in G. exact G.
Qed.

Lemma vertex_distance_exact :
  knownv id type l Direction <> None \/ knownv id type l Vertex <> None \/ knownv id type l Closest = None ->
  snd (get_num r VertexDistance) = Threw \/ snd (get_num r VertexDistance) = Nan /\ t_num w Length = 0 \/
  snd (get_num r VertexDistance) = Got (t_num w VertexDistance).
Proof.
  intros N. rewrite get_num_val. look T VertexDistance; [right; right; fitted F; reflexivity|].
  unfold num_from, vertex_distance_from.
  assert (has r InitialDistance && has r Length = true ->
    bind (num r InitialDistance) (fun b => bind (num r Length) (fun l => Got (b + l))) = Got (t_num w VertexDistance)) as G.
  { clear N. look T InitialDistance; [look T Length|]; cbn; try discriminate. intros _.
    fitted F. f_equal. pose proof span. lra. }
  destruct (has r InitialDistance && has r Length); [right; right; apply G; reflexivity|]. clear G.
  lookv T Vertex; cbn.
  - lookv T Direction; cbn.
    + right; right. fitted F. f_equal. apply signed_vertex.
    + lookv T Initial; cbn; [|rewrite andb_false_r; left; reflexivity]. right. fitted F. rewrite normal_gap.
      destruct (Req_EM_T (t_num w Length) 0) as [E|E]; [left; auto|right]. cbn. f_equal. apply signed_vertex.
  - lookv T Closest; cbn; [|left; reflexivity]. lookv T Initial; cbn; [|left; reflexivity].
    look T Length; cbn; [|left; reflexivity]. lookv T Direction; cbn.
    + right; right. fitted F. f_equal. rewrite signed_initial. pose proof span. lra.
    + exfalso. destruct N as [N|[N|N]]; congruence.
Qed.

Lemma initial_distance_exact :
  knownv id type l Direction <> None \/ knownv id type l Initial <> None \/ knownv id type l Closest = None ->
  snd (get_num r InitialDistance) = Threw \/ snd (get_num r InitialDistance) = Nan /\ t_num w Length = 0 \/
  snd (get_num r InitialDistance) = Got (t_num w InitialDistance).
Proof.
  intros N. rewrite get_num_val. look T InitialDistance; [right; right; fitted F; reflexivity|].
  unfold num_from, initial_distance_from.
  assert (has r VertexDistance && has r Length = true ->
    bind (num r VertexDistance) (fun b => bind (num r Length) (fun l => Got (b - l))) = Got (t_num w InitialDistance)) as G.
  { clear N. look T VertexDistance; [look T Length|]; cbn; try discriminate. intros _.
    fitted F. f_equal. pose proof span. lra. }
  destruct (has r VertexDistance && has r Length); [right; right; apply G; reflexivity|]. clear G.
  lookv T Initial; cbn.
  - lookv T Direction; cbn.
    + right; right. fitted F. f_equal. apply signed_initial.
    + lookv T Vertex; cbn; [|rewrite andb_false_r; left; reflexivity]. right. fitted F. rewrite normal_gap.
      destruct (Req_EM_T (t_num w Length) 0) as [E|E]; [left; auto|right]. cbn. f_equal. apply signed_initial.
  - lookv T Closest; cbn; [|left; reflexivity]. lookv T Vertex; cbn; [|left; reflexivity].
    look T Length; cbn; [|left; reflexivity]. lookv T Direction; cbn.
    + right; right. fitted F. f_equal. rewrite signed_vertex. pose proof span. lra.
    + exfalso. destruct N as [N|[N|N]]; congruence.
Qed.

Lemma direction_line : knownv id type l Momentum = None ->
  snd (get_vec r Direction) = Threw \/ snd (get_vec r Direction) = Nan /\ t_num w Length = 0 \/
  snd (get_vec r Direction) = Got (t_vec w Direction).
Proof.
  intros N. rewrite get_vec_val. lookv T Direction; [right; right; fitted F; reflexivity|].
  unfold vec_from, direction_from. lookv T Momentum; [congruence|].
  lookv T Initial; cbn; [|left; reflexivity]. lookv T Vertex; cbn; [|left; reflexivity].
  right. fitted F. rewrite normal_gap. destruct (Req_EM_T (t_num w Length) 0) as [E|E]; [left|right]; auto.
Qed.
End Line.
End Facts.

(** ** Independence of the order of reads *)
Lemma agree_num id type l r r' n : tells id type l r -> tells id type l r' ->
  has r n = has r' n /\ (has r' n = true -> num r n = num r' n).
Proof.
  intros T T'. pose proof (tells_has _ _ _ _ n T) as H. pose proof (tells_has _ _ _ _ n T') as H'.
  destruct (known id type l n); [destruct H, H'; split; congruence|].
  split; congruence.
Qed.
Lemma agree_vec id type l r r' n : tells id type l r -> tells id type l r' ->
  hasv r n = hasv r' n /\ (hasv r' n = true -> vct r n = vct r' n).
Proof.
  intros T T'. pose proof (tells_hasv _ _ _ _ n T) as H. pose proof (tells_hasv _ _ _ _ n T') as H'.
  destruct (knownv id type l n); [destruct H, H'; split; congruence|].
  split; congruence.
Qed.

Ltac both T T' n := let H := fresh in let G := fresh in
  destruct (agree_num _ _ _ _ _ n T T') as [H G]; rewrite ?H; clear H;
  let E := fresh in destruct (has _ n) eqn:E; [specialize (G eq_refl); rewrite ?G|clear G]; clear E.
Ltac bothv T T' n := let H := fresh in let G := fresh in
  destruct (agree_vec _ _ _ _ _ n T T') as [H G]; rewrite ?H; clear H;
  let E := fresh in destruct (hasv _ n) eqn:E; [specialize (G eq_refl); rewrite ?G|clear G]; clear E.

(** The getters that never look at an unset member. *)
Definition steady (n : scalar) : Prop :=
  match n with Mass | Energy | Kinetic | Length => True | _ => False end.

Lemma stable_num id type l r r' n : tells id type l r -> tells id type l r' -> steady n ->
  snd (get_num r n) = snd (get_num r' n).
Proof.
  intros T T' N. rewrite !get_num_val. destruct n; try contradiction.
  - both T T' Mass; [reflexivity|]. unfold num_from, mass_from.
    both T T' Energy; bothv T T' Momentum; both T T' Kinetic; reflexivity.
  - both T T' Energy; [reflexivity|]. unfold num_from, energy_from.
    both T T' Mass; bothv T T' Momentum; both T T' Kinetic; reflexivity.
  - both T T' Kinetic; [reflexivity|]. unfold num_from, kinetic_from.
    both T T' Mass; bothv T T' Momentum; both T T' Energy; reflexivity.
  - both T T' Length; [reflexivity|]. unfold num_from, length_from.
    bothv T T' Initial; bothv T T' Vertex; both T T' InitialDistance; both T T' VertexDistance; reflexivity.
Qed.

Lemma stable_vec id type l r r' n : tells id type l r -> tells id type l r' ->
  snd (get_vec r n) = snd (get_vec r' n).
Proof.
  intros T T'. rewrite !get_vec_val. destruct n.
  - bothv T T' Direction; [reflexivity|]. unfold vec_from, direction_from.
    bothv T T' Initial; bothv T T' Vertex; bothv T T' Momentum; reflexivity.
  - bothv T T' Momentum; [reflexivity|]. unfold vec_from, momentum_from.
    both T T' Energy; both T T' Mass; both T T' Kinetic; bothv T T' Direction; reflexivity.
  - bothv T T' Initial; [reflexivity|]. unfold vec_from, initial_from.
    bothv T T' Vertex; bothv T T' Direction; bothv T T' Closest; both T T' Length; both T T' InitialDistance;
      both T T' VertexDistance; reflexivity.
  - bothv T T' Vertex; [reflexivity|]. unfold vec_from, vertex_from.
    bothv T T' Initial; bothv T T' Direction; bothv T T' Closest; both T T' Length; both T T' InitialDistance;
      both T T' VertexDistance; reflexivity.
  - bothv T T' Closest; [reflexivity|]. unfold vec_from, closest_from.
    bothv T T' Initial; bothv T T' Direction; bothv T T' Vertex; both T T' InitialDistance;
      both T T' VertexDistance; reflexivity.
Qed.

Lemma stable_distance id type l r r' n : tells id type l r -> tells id type l r' ->
  n = VertexDistance \/ n = InitialDistance -> knownv id type l Direction <> None ->
  snd (get_num r n) = snd (get_num r' n).
Proof.
  intros T T' N D. rewrite !get_num_val.
  assert (vct r Direction = vct r' Direction) as V.
  { pose proof (tells_hasv _ _ _ _ Direction T) as H. pose proof (tells_hasv _ _ _ _ Direction T') as H'.
    destruct (knownv id type l Direction); [destruct H, H'; congruence|congruence]. }
  destruct N as [-> | ->].
  - both T T' VertexDistance; [reflexivity|]. unfold num_from, vertex_distance_from. rewrite V.
    both T T' InitialDistance; both T T' Length; bothv T T' Vertex; bothv T T' Direction; bothv T T' Initial;
      bothv T T' Closest; reflexivity.
  - both T T' InitialDistance; [reflexivity|]. unfold num_from, initial_distance_from. rewrite V.
    both T T' VertexDistance; both T T' Length; bothv T T' Vertex; bothv T T' Direction; bothv T T' Initial;
      bothv T T' Closest; reflexivity.
Qed.

Lemma given_sets {A} (says : call -> option A) l :
  (forall o, reads o = true -> says o = None) ->
  given says (filter (fun o => negb (reads o)) l) = given says l.
Proof.
  intros H. induction l as [|o l IH] using rev_ind; [reflexivity|].
  rewrite filter_app. cbn. destruct (reads o) eqn:E; cbn.
  - rewrite app_nil_r, given_snoc, (H o E). exact IH.
  - rewrite !given_snoc. destruct (says o); [reflexivity|exact IH].
Qed.

Lemma tells_sets id type l r : tells id type (filter (fun o => negb (reads o)) l) r -> tells id type l r.
Proof.
  intros [T1 T2 T3 T4 T5]. constructor; auto.
  - intros n. specialize (T3 n). unfold known in *. rewrite given_sets in T3; [exact T3|].
    intros o H. apply (reads_says o id type H).
  - intros n. specialize (T4 n). unfold knownv in *. rewrite given_sets in T4; [exact T4|].
    intros o H. apply (reads_says o id type H).
  - rewrite given_sets in T5; [exact T5|]. intros o H. apply (reads_says o id type H).
Qed.

(** ** No undefined reads *)
Lemma root_defined x : root x <> Undef /\ root x <> Threw.
Proof. unfold root. destruct (Rlt_dec x 0); split; discriminate. Qed.
Lemma normal_defined x : normal x <> Undef /\ normal x <> Threw.
Proof. unfold normal. destruct (Req_EM_T (vmag x) 0); split; discriminate. Qed.

Lemma defined_num id type l r n : tells id type l r -> steady n -> snd (get_num r n) <> Undef.
Proof.
  intros T N. rewrite get_num_val. destruct n; try contradiction; unfold num_from.
  - look T Mass; [discriminate|]. unfold mass_from.
    look T Energy; lookv T Momentum; look T Kinetic; cbn; try discriminate; apply root_defined.
  - look T Energy; [discriminate|]. unfold energy_from.
    look T Mass; lookv T Momentum; look T Kinetic; cbn; try discriminate; apply root_defined.
  - look T Kinetic; [discriminate|]. unfold kinetic_from.
    look T Mass; lookv T Momentum; look T Energy; cbn; try discriminate;
      match goal with |- context [root ?x] => pose proof (root_defined x); destruct (root x); cbn; try discriminate; tauto end.
  - look T Length; [discriminate|]. unfold length_from.
    lookv T Initial; lookv T Vertex; look T InitialDistance; look T VertexDistance; cbn; discriminate.
Qed.

Lemma defined_vec id type l r n : tells id type l r -> snd (get_vec r n) <> Undef.
Proof.
  intros T. rewrite get_vec_val. destruct n; unfold vec_from.
  - lookv T Direction; [discriminate|]. unfold direction_from.
    lookv T Momentum; cbn; [apply normal_defined|]. lookv T Initial; lookv T Vertex; cbn; try discriminate; apply normal_defined.
  - lookv T Momentum; [discriminate|]. unfold momentum_from.
    look T Energy; look T Mass; look T Kinetic; lookv T Direction; cbn; try discriminate;
      match goal with |- context [root ?x] => pose proof (root_defined x); destruct (root x); cbn; try discriminate; tauto end.
  - lookv T Initial; [discriminate|]. unfold initial_from.
    lookv T Vertex; lookv T Direction; lookv T Closest; look T Length; look T InitialDistance; look T VertexDistance; cbn; discriminate.
  - lookv T Vertex; [discriminate|]. unfold vertex_from.
    lookv T Initial; lookv T Direction; lookv T Closest; look T Length; look T InitialDistance; look T VertexDistance; cbn; discriminate.
  - lookv T Closest; [discriminate|]. unfold closest_from.
    lookv T Initial; lookv T Direction; lookv T Vertex; look T InitialDistance; look T VertexDistance; cbn; try discriminate;
      match goal with |- context [normal ?x] => pose proof (normal_defined x); destruct (normal x); cbn; try discriminate; tauto end.
Qed.

(** ** Time *)
Lemma time_val id type l r : tells id type l r ->
  snd (get_time r) =
    match known id type l Time with
    | Some t => Got t
    | None =>
        match snd (get_vec r Initial), snd (get_vec r Vertex), snd (get_num r Energy), snd (get_num r Mass) with
        | Threw, _, _, _ | _, Threw, _, _ | _, _, Threw, _ | _, _, _, Threw => Threw
        | o, x, e, m =>
            Got (p_start r + flight_time (bind x (fun x => bind o (fun o => Got (vmag (vsub x o))))) e (speed_momentum e m))
        end
    end.
Proof.
  intros T. unfold get_time. look T Time; [reflexivity|].
  pose proof (get_vec_same r Initial) as S1.
  pose proof (defined_vec _ _ _ _ Initial T) as D1.
  destruct (get_vec r Initial) as [r1 o]. cbn [fst snd] in *.
  pose proof (holds_same_num _ _ _ _ _ S1 T) as T1.
  rewrite (stable_vec _ _ _ _ _ Vertex T T1).
  pose proof (get_vec_same r1 Vertex) as S2.
  pose proof (defined_vec _ _ _ _ Vertex T1) as D2.
  destruct (get_vec r1 Vertex) as [r2 x]. cbn [fst snd] in *.
  pose proof (holds_same_num _ _ _ _ _ S2 T1) as T2.
  rewrite (stable_num _ _ _ _ _ Energy T T2 I).
  pose proof (get_num_same r2 Energy) as S3.
  pose proof (defined_num _ _ _ _ Energy T2 I) as D3.
  destruct (get_num r2 Energy) as [r3 e]. cbn [fst snd] in *.
  pose proof (holds_same_num _ _ _ _ _ S3 T2) as T3.
  rewrite (stable_num _ _ _ _ _ Mass T T3 I).
  pose proof (get_num_same r3 Mass) as S4.
  pose proof (defined_num _ _ _ _ Mass T3 I) as D4.
  destruct (get_num r3 Mass) as [r4 m]. cbn [fst snd] in *.
  assert (p_start r4 = p_start r) as ->.
  { rewrite (ss_start _ _ S4), (ss_start _ _ S3), (ss_start _ _ S2), (ss_start _ _ S1). reflexivity. }
  destruct o, x, e, m; try reflexivity; congruence.
Qed.
