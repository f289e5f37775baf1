(** Closed meshes. *)
From Coq Require Import Reals List Bool ZArith Lia Lra Permutation.
From Verif Require Import TraversalModel VectorModel MeshModel MeshSpec MeshProofs MeshTreeProofs MeshFloat MeshProps MeshMergeProps MeshCountProofs MeshClosedProofs.
Import ListNotations.
Open Scope R_scope.

(** ** C115: the test for a closed mesh *)
Lemma filter_none {A} (f : A -> bool) l : length (filter f l) = 0%nat <-> forall x, In x l -> f x = false.
Proof.
  induction l as [|a l IH]; cbn; [split; [tauto|auto]|]. destruct (f a) eqn:E; cbn.
  - split; [discriminate|]. intros H. rewrite (H a) in E; auto. discriminate.
  - rewrite IH. split; [intros H x [<-|I]; auto|auto].
Qed.
Lemma validate_counts tris : tris <> [] -> exists ec b c, b = boundary_edges ec /\ c = crowded_edges ec /\
  validate tris = (if Nat.ltb 0 b || Nat.ltb 0 c then Some (Edges b c) else None) /\
  (forall e n, In (e, n) ec -> exists p q, p <> q /\ n = number p q tris) /\
  (forall p q, p <> q -> number p q tris <> 0%nat -> exists e, In (e, number p q tris) ec).
Proof.
  intros N. destruct (counted_all tris [] [] [] counted_nil) as (vm & ec & F & C). cbn in C. exists ec, (boundary_edges ec), (crowded_edges ec). split; auto. split; auto.
  split; [unfold validate; rewrite F; destruct tris; [contradiction|reflexivity]|]. split.
  - intros e n I. apply (entry_number _ _ _ _ _ C I).
  - intros p q D M. apply (number_entry _ _ _ _ _ C D M).
Qed.
(** A mesh is accepted exactly when it is not empty and any two places are joined by no side or by two. *)
Theorem C115_closed tris : validate tris = None <-> tris <> [] /\ forall p q, p <> q -> number p q tris = 0%nat \/ number p q tris = 2%nat.
Proof.
  destruct tris as [|t l] eqn:E; [cbn; split; [discriminate|intros [H _]; contradiction]|]. rewrite <- E.
  assert (N : tris <> []) by (rewrite E; discriminate). clear E t l.
  destruct (validate_counts tris N) as (ec & b & c & Eb & Ec & V & EN & NE). rewrite V. split.
  - intros H. split; auto. destruct (Nat.ltb 0 b || Nat.ltb 0 c) eqn:B; [discriminate|]. apply orb_false_iff in B. destruct B as [B1 B2]. apply Nat.ltb_ge in B1, B2.
    intros p q D. destruct (Nat.eq_dec (number p q tris) 0) as [|M]; auto. right. destruct (NE p q D M) as [e I].
    assert (F1 := proj1 (filter_none (fun p => Nat.eqb (snd p) 1) ec) ltac:(unfold boundary_edges in Eb; lia) _ I).
    assert (F2 := proj1 (filter_none (fun p => Nat.ltb 2 (snd p)) ec) ltac:(unfold crowded_edges in Ec; lia) _ I). cbn in F1.
    apply Nat.eqb_neq in F1. apply Nat.ltb_ge in F2. cbn in F2. lia.
  - intros [_ H]. assert (Z1 : b = 0%nat).
    { rewrite Eb. apply filter_none. intros [e n] I. destruct (EN e n I) as (p & q & D & ->). cbn. apply Nat.eqb_neq. destruct (H p q D); lia. }
    assert (Z2 : c = 0%nat).
    { rewrite Ec. apply filter_none. intros [e n] I. destruct (EN e n I) as (p & q & D & ->). cbn [snd]. apply Nat.ltb_ge. destruct (H p q D); lia. }
    rewrite Z1, Z2. reflexivity.
Qed.
(** Holes are reported when a side is alone, crowding when one is shared by more than two triangles. *)
Theorem C115_report tris b c : validate tris = Some (Edges b c) ->
  ((0 < b)%nat <-> exists p q, p <> q /\ number p q tris = 1%nat) /\ ((0 < c)%nat <-> exists p q, p <> q /\ (2 < number p q tris)%nat).
Proof.
  intros V. assert (N : tris <> []) by (intros ->; discriminate).
  destruct (validate_counts tris N) as (ec & b' & c' & Eb & Ec & V' & EN & NE). rewrite V in V'. destruct (Nat.ltb 0 b' || Nat.ltb 0 c'); [|discriminate]. injection V' as -> ->.
  split; split.
  - intros P. rewrite Eb in P. unfold boundary_edges in P. destruct (filter _ ec) as [|[e n] r] eqn:F; [cbn in P; lia|].
    assert (I : In (e, n) (filter (fun p => Nat.eqb (snd p) 1) ec)) by (rewrite F; left; auto). apply filter_In in I. destruct I as [I J]. apply Nat.eqb_eq in J. cbn in J. subst n.
    destruct (EN e _ I) as (p & q & D & E). exists p, q. auto.
  - intros (p & q & D & E). destruct (NE p q D) as [e I]; [lia|]. rewrite Eb. destruct (boundary_edges ec) eqn:Z; [|lia]. exfalso.
    pose proof (proj1 (filter_none _ _) Z _ I) as F. cbn in F. rewrite E in F. discriminate.
  - intros P. rewrite Ec in P. unfold crowded_edges in P. destruct (filter _ ec) as [|[e n] r] eqn:F; [cbn in P; lia|].
    assert (I : In (e, n) (filter (fun p => Nat.ltb 2 (snd p)) ec)) by (rewrite F; left; auto). apply filter_In in I. destruct I as [I J]. apply Nat.ltb_lt in J. cbn in J.
    destruct (EN e _ I) as (p & q & D & E). exists p, q. split; auto. lia.
  - intros (p & q & D & E). destruct (NE p q D) as [e I]; [lia|]. rewrite Ec. destruct (crowded_edges ec) eqn:Z; [|lia]. exfalso.
    pose proof (proj1 (filter_none _ _) Z _ I) as F. cbn [snd] in F. apply Nat.ltb_ge in F. lia.
Qed.
Theorem C115_empty tris : validate tris = Some NoTriangles <-> tris = [].
Proof.
  split; [|intros ->; reflexivity]. intros V. destruct tris as [|t l]; auto. destruct (validate_counts (t :: l)) as (ec & b & c & _ & _ & V' & _); [discriminate|].
  rewrite V in V'. destruct (Nat.ltb 0 b || Nat.ltb 0 c); discriminate.
Qed.

(** Corners of one place are within 1e-10 of each other. *)
Lemma round_near x : Rabs (IZR (round_away x) - x) <= 1 / 2.
Proof.
  unfold round_away. destruct (Rle_dec 0 x).
  - destruct (base_Int_part (x + 1 / 2)). apply Rabs_le. lra.
  - rewrite opp_IZR. destruct (base_Int_part (- x + 1 / 2)). apply Rabs_le. lra.
Qed.
Theorem C115_place a b k : key_of a = key_of b -> Rabs (coord k a - coord k b) <= 1 / 10 ^ 10.
Proof.
  intros E. unfold key_of in E. injection E as E1 E2 E3.
  assert (G : forall x y, round_away (x * 10 ^ 10) = round_away (y * 10 ^ 10) -> Rabs (x - y) <= 1 / 10 ^ 10).
  { intros x y R. pose proof (round_near (x * 10 ^ 10)) as A. pose proof (round_near (y * 10 ^ 10)) as B. rewrite R in A.
    assert (P : 0 < 10 ^ 10) by (apply pow_lt; lra). set (g := 10 ^ 10) in *. clearbody g.
    assert (D : Rabs (x * g - y * g) <= 1). { replace (x * g - y * g) with ((IZR (round_away (y * g)) - y * g) - (IZR (round_away (y * g)) - x * g)) by ring. eapply Rle_trans; [apply Rabs_triang|]. rewrite Rabs_Ropp. lra. }
    apply (Rmult_le_reg_r g); auto. replace (1 / g * g) with 1 by (field; lra). rewrite <- (Rabs_right g) at 1 by lra. rewrite <- Rabs_mult. replace ((x - y) * g) with (x * g - y * g) by ring. auto. }
  destruct k; cbn; auto.
Qed.

(** Whole numbers are kept. *)
Lemma round_whole n : round_away (IZR n * 10 ^ 10) = (n * 10000000000)%Z.
Proof.
  assert (E : IZR n * 10 ^ 10 = IZR (n * 10000000000)) by (rewrite mult_IZR; lra). rewrite E. generalize (n * 10000000000)%Z. intros m. unfold round_away.
  assert (I : forall k, Int_part (IZR k + 1 / 2) = k).
  { intros k. unfold Int_part. rewrite <- (tech_up (IZR k + 1 / 2) (k + 1)); [lia| |]; rewrite plus_IZR; lra. }
  destruct (Rle_dec 0 (IZR m)); [apply I|]. rewrite <- opp_IZR, I. lia.
Qed.
Lemma key_whole x y z : key_of (mkv (IZR x) (IZR y) (IZR z)) = (x * 10000000000, y * 10000000000, z * 10000000000)%Z.
Proof. unfold key_of. cbn [vx vy vz]. rewrite !round_whole. reflexivity. Qed.

(** The tetrahedron with one face turned over. *)
Definition turned_wedge : list triangle := match wedge with t :: l => mktri (ta t) (tc t) (tb t) :: l | [] => [] end.
Ltac run_validate := unfold validate; cbn [fold_left]; unfold count_triangle, vertex_id; cbn [ta tb tc]; rewrite ?key_whole; vm_compute; reflexivity.
Lemma wedge_closed : validate wedge = None.
Proof. unfold wedge. cbv zeta. run_validate. Qed.
(** That faces next to each other are turned the same way is not tested. *)
Theorem C115_turned_refuted : exists tris, validate tris = None /\ ~ oriented tris.
Proof.
  exists turned_wedge. split; [unfold turned_wedge, wedge; cbv zeta; cbn [ta tb tc]; run_validate|].
  unfold oriented, turned_wedge, wedge. cbn. unfold turned; cbn. intros P.
  assert (I : In (mkv 0 0 (-1), mkv 0 0 1) (map turned (flat_map (fun t => sides (ta t) (tb t) (tc t)) turned_wedge))) by (cbn; auto 20).
  eapply Permutation_in in I; [|apply Permutation_sym; exact P]. cbn in I.
  repeat destruct I as [I|I]; try contradiction; injection I; intros; lra.
Qed.
(** A mesh without a single proper triangle is accepted. *)
Theorem C115_flat_refuted : exists tris, validate tris = None /\ forall t, In t tris -> normal (ta t) (tb t) (tc t) = mkv 0 0 0.
Proof.
  exists [mktri (mkv 0 0 0) (mkv 0 0 0) (mkv 0 0 0)]. split; [run_validate|]. intros t [<-|[]]. apply veq3; cbn; ring.
Qed.
(** Corners as near as one likes may count as different. *)
Theorem C115_near_refuted : exists a b, (forall k, Rabs (coord k a - coord k b) <= 1 / 10 ^ 20) /\ key_of a <> key_of b.
Proof.
  exists (mkv (1 / 2 / 10 ^ 10) 0 0), (mkv (1 / 2 / 10 ^ 10 - 1 / 10 ^ 20) 0 0). assert (P : 0 < 1 / 10 ^ 20) by (apply Rdiv_lt_0_compat; [lra|apply pow_lt; lra]). split.
  - intros k. destruct k; cbn [coord vx vy vz].
    + replace (1 / 2 / 10 ^ 10 - (1 / 2 / 10 ^ 10 - 1 / 10 ^ 20)) with (1 / 10 ^ 20) by ring. rewrite Rabs_right; lra.
    + rewrite Rminus_eq_0, Rabs_R0. lra.
    + rewrite Rminus_eq_0, Rabs_R0. lra.
  - intros E. apply (f_equal (fun k => fst (fst k))) in E. unfold key_of in E. cbn [fst vx vy vz] in E.
    assert (A : round_away (1 / 2 / 10 ^ 10 * 10 ^ 10) = 1%Z).
    { replace (1 / 2 / 10 ^ 10 * 10 ^ 10) with (1 / 2) by (field; apply pow_nonzero; lra). unfold round_away. destruct (Rle_dec 0 (1 / 2)); [|lra].
      unfold Int_part. rewrite <- (tech_up (1 / 2 + 1 / 2) 2); [reflexivity| |]; lra. }
    assert (B : round_away ((1 / 2 / 10 ^ 10 - 1 / 10 ^ 20) * 10 ^ 10) = 0%Z).
    { replace ((1 / 2 / 10 ^ 10 - 1 / 10 ^ 20) * 10 ^ 10) with (1 / 2 - 1 / 10 ^ 10) by (field; apply pow_nonzero; lra).
      assert (0 < 1 / 10 ^ 10 < 1 / 2). { split; [apply Rdiv_lt_0_compat; [lra|apply pow_lt; lra]|]. lra. }
      unfold round_away. destruct (Rle_dec 0 (1 / 2 - 1 / 10 ^ 10)); [|lra]. unfold Int_part. rewrite <- (tech_up (1 / 2 - 1 / 10 ^ 10 + 1 / 2) 1); [reflexivity| |]; lra. }
    rewrite A, B in E. discriminate.
Qed.
Example C115_case : validate wedge = None /\ number (key_of (mkv 0 0 (-1))) (key_of (mkv 0 0 1)) wedge = 2%nat /\
  validate (tl wedge) = Some (Edges 3 0) /\ key_of (mkv 1 0 0) <> key_of (mkv 0 0 0).
Proof.
  split; [apply wedge_closed|]. split; [unfold number, wedge; cbv zeta; cbn [flat_map]; unfold key_sides; cbn [ta tb tc]; rewrite !key_whole; vm_compute; reflexivity|].
  split; [unfold wedge; cbv zeta; cbn [tl]; run_validate|]. rewrite !key_whole. discriminate.
Qed.

(** ** C116: parity *)
Lemma even_classes {A} (eqv : A -> A -> bool) (c : A -> bool) : forall n (l : list A), (length l <= n)%nat ->
  (forall x, In x l -> eqv x x = true) -> (forall x y z, In x l -> In y l -> In z l -> eqv x y = true -> eqv x z = eqv y z) -> (forall x y, In x l -> In y l -> eqv x y = true -> c x = c y) ->
  (forall x, In x l -> Nat.even (length (filter (eqv x) l)) = true) -> Nat.even (length (filter c l)) = true.
Proof.
  induction n as [|n IH]; intros l L Rf T C E; [destruct l; [reflexivity|cbn in L; lia]|].
  destruct l as [|a l]; [reflexivity|]. set (m := a :: l) in *.
  assert (SPLIT : forall f : A -> bool, length (filter f m) = (length (filter f (filter (eqv a) m)) + length (filter f (filter (fun x => negb (eqv a x)) m)))%nat).
  { intros f. generalize m. intros k. induction k as [|x k IK]; cbn; auto. destruct (eqv a x), (f x) eqn:F; cbn; rewrite ?F; cbn; lia. }
  rewrite SPLIT. set (inn := filter (eqv a) m). set (out := filter (fun x => negb (eqv a x)) m).
  assert (IA : In a m) by (left; auto).
  assert (OUT : forall x, In x out <-> In x m /\ eqv a x = false) by (intros x; unfold out; rewrite filter_In, negb_true_iff; tauto).
  assert (EI : Nat.even (length (filter c inn)) = true).
  { assert (H : filter c inn = if c a then inn else []).
    { assert (G : forall x, In x inn -> c x = c a) by (intros x I; unfold inn in I; apply filter_In in I; symmetry; apply C; tauto).
      generalize G. generalize inn. intros k. induction k as [|x k IK]; cbn; intros Gk; [destruct (c a); auto|]. rewrite (Gk x) by auto. rewrite IK by auto. destruct (c a); auto. }
    rewrite H. destruct (c a); [apply E; auto|reflexivity]. }
  assert (EO : Nat.even (length (filter c out)) = true).
  { apply IH.
    - assert (Z := SPLIT (fun _ => true)). assert (P : (0 < length inn)%nat). { unfold inn, m. cbn [filter]. rewrite Rf by auto. cbn. lia. }
      assert (FT : forall k : list A, filter (fun _ => true) k = k) by (induction k; cbn; congruence). rewrite !FT in Z. fold inn out in Z. lia.
    - intros x I. apply OUT in I. apply Rf. tauto.
    - intros x y z I J K. apply OUT in I, J, K. apply T; tauto.
    - intros x y I J. apply OUT in I, J. apply C; tauto.
    - intros x I. assert (IX := I). apply OUT in IX. destruct IX as [IX NX].
      replace (length (filter (eqv x) out)) with (length (filter (eqv x) m)); [apply E; auto|]. rewrite SPLIT. fold inn out.
      assert (Z : length (filter (eqv x) inn) = 0%nat); [|lia]. apply filter_none. intros y Y. unfold inn in Y. apply filter_In in Y. destruct Y as [Y AY].
      destruct (eqv x y) eqn:XY; auto. rewrite (T a y x) in NX by auto. rewrite <- (T x y x) in NX by auto. rewrite Rf in NX by auto. discriminate. }
  rewrite Nat.even_add, EI, EO. reflexivity.
Qed.

Definition total {A} (f : A -> Z) (l : list A) : Z := fold_right (fun x n => (f x + n)%Z) 0%Z l.
Lemma total_app {A} (f : A -> Z) a b : total f (a ++ b) = (total f a + total f b)%Z.
Proof. induction a; cbn; auto. unfold total in *. lia. Qed.
Lemma total_perm {A} (f : A -> Z) a b : Permutation a b -> total f a = total f b.
Proof. intros P. induction P; cbn; unfold total in *; lia. Qed.

Definition all_sides (tris : list triangle) : list (vec * vec) := flat_map (fun t => sides (ta t) (tb t) (tc t)) tris.
Definition misses_all (o d : vec) (tris : list triangle) : Prop := forall e, In e (all_sides tris) -> misses o d e.

Lemma total_sides o d tris : d <> mkv 0 0 0 -> misses_all o d tris -> total (ray_crossing o d) (all_sides tris) = total (fun t => sign_of (woop (prepare_ray o d) t)) tris.
Proof.
  intros N M. induction tris as [|t l IH]; [reflexivity|]. unfold all_sides in *. cbn [flat_map]. rewrite total_app. rewrite IH.
  - change (total (fun t0 => sign_of (woop (prepare_ray o d) t0)) (t :: l)) with (sign_of (woop (prepare_ray o d) t) + total (fun t0 => sign_of (woop (prepare_ray o d) t0)) l)%Z.
    rewrite <- (triangle_crossings o d t N); [unfold total, sides; cbn [fold_right]; lia|]. intros e I. apply M. apply in_or_app; auto.
  - intros e I. apply M. unfold all_sides. cbn [flat_map]. apply in_or_app; auto.
Qed.
Lemma total_signs o d tris : total (fun t => sign_of (woop (prepare_ray o d) t)) tris =
  (Z.of_nat (length (filter (fun h => negb (h_front h)) (tried o d tris))) - Z.of_nat (length (filter h_front (tried o d tris))))%Z.
Proof.
  unfold tried. induction tris as [|t l IH]; [reflexivity|]. cbn [flat_map]. rewrite !filter_app, !app_length.
  change (total _ (t :: l)) with (sign_of (woop (prepare_ray o d) t) + total (fun t0 => sign_of (woop (prepare_ray o d) t0)) l)%Z. rewrite IH.
  destruct (woop (prepare_ray o d) t) as [h|]; cbn [sign_of filter length]; [|lia]. destruct (h_front h); cbn [negb length]; lia.
Qed.

(** On a line that meets no side of a closed mesh whose faces are turned the same way, as many crossings lead in as lead out. *)
Theorem C116_balance o d tris : d <> mkv 0 0 0 -> oriented tris -> misses_all o d tris ->
  length (filter h_front (tried o d tris)) = length (filter (fun h => negb (h_front h)) (tried o d tris)).
Proof.
  intros N O M. pose proof (total_signs o d tris) as S. rewrite <- total_sides in S by auto.
  assert (Z : total (ray_crossing o d) (all_sides tris) = 0%Z).
  { assert (T : forall l, total (ray_crossing o d) (map turned l) = (- total (ray_crossing o d) l)%Z).
    { induction l as [|e l IH]; [reflexivity|]. cbn [map]. change (total (ray_crossing o d) (turned e :: map turned l)) with (ray_crossing o d (turned e) + total (ray_crossing o d) (map turned l))%Z.
      rewrite ray_crossing_turned, IH. change (total (ray_crossing o d) (e :: l)) with (ray_crossing o d e + total (ray_crossing o d) l)%Z. lia. }
    pose proof (total_perm (ray_crossing o d) _ _ O) as P. rewrite T in P. fold (all_sides tris) in P. lia. }
  lia.
Qed.

(** Corners that count as one are one. *)
Definition separated (tris : list triangle) : Prop :=
  forall a b, In a (flat_map (fun t => [ta t; tb t; tc t]) tris) -> In b (flat_map (fun t => [ta t; tb t; tc t]) tris) -> key_of a = key_of b -> a = b.

Definition proper (t : triangle) : bool :=
  negb (key_eqb (key_of (ta t)) (key_of (tb t)) || key_eqb (key_of (tb t)) (key_of (tc t)) || key_eqb (key_of (tc t)) (key_of (ta t))).
Definition keys_of (e : vec * vec) : (Z * Z * Z) * (Z * Z * Z) := (key_of (fst e), key_of (snd e)).

Lemma proper_sides tris : flat_map key_sides tris = map keys_of (all_sides (filter proper tris)).
Proof.
  induction tris as [|t l IH]; [reflexivity|]. cbn [flat_map filter]. rewrite IH. unfold key_sides, ksides, proper.
  destruct (key_eqb (key_of (ta t)) (key_of (tb t)) || key_eqb (key_of (tb t)) (key_of (tc t)) || key_eqb (key_of (tc t)) (key_of (ta t))); reflexivity.
Qed.
Lemma filter_map_length {A B} (f : A -> B) (g : B -> bool) l : length (filter g (map f l)) = length (filter (fun x => g (f x)) l).
Proof. induction l as [|a l IH]; cbn; auto. destruct (g (f a)); cbn; lia. Qed.

Lemma side_corners tris e : In e (all_sides tris) -> In (fst e) (flat_map (fun t => [ta t; tb t; tc t]) tris) /\ In (snd e) (flat_map (fun t => [ta t; tb t; tc t]) tris).
Proof.
  intros I. apply in_flat_map in I. destruct I as (t & T & I). split; apply in_flat_map; exists t; split; auto; cbn in *; destruct I as [<-|[<-|[<-|[]]]]; cbn; auto.
Qed.
Lemma sides_filter tris e : In e (all_sides (filter proper tris)) -> In e (all_sides tris).
Proof. intros I. apply in_flat_map in I. destruct I as (t & T & I). apply filter_In in T. apply in_flat_map. exists t. tauto. Qed.

(** On a line that meets no side of an accepted mesh there is an even number of crossings. *)
Theorem C116_even o d tris : d <> mkv 0 0 0 -> validate tris = None -> separated tris -> misses_all o d tris -> Nat.Even (length (tried o d tris)).
Proof.
  intros N V SEP M. apply C115_closed in V. destruct V as [_ V].
  assert (EV : Nat.even (length (filter (fun e => Z.odd (ray_crossing o d e)) (all_sides (filter proper tris)))) = true).
  { apply (even_classes (fun e f => joins (key_of (fst e)) (key_of (snd e)) (keys_of f)) _ (length (all_sides (filter proper tris)))); auto.
    - intros x _. apply joins_spec. left. split; reflexivity.
    - intros x y z _ _ _ J. apply joins_spec in J. unfold keys_of in J. cbn in J. apply eq_true_iff_eq. rewrite !joins_spec. cbn.
      destruct J as [[J1 J2]|[J1 J2]]; rewrite <- J1, <- J2; tauto.
    - intros x y I J H. apply joins_spec in H. unfold keys_of in H. cbn in H.
      destruct (side_corners _ _ (sides_filter _ _ I)) as [X1 X2]. destruct (side_corners _ _ (sides_filter _ _ J)) as [Y1 Y2].
      assert (D : y = x \/ y = turned x). { destruct x, y; unfold turned; cbn in *. destruct H as [[H1 H2]|[H1 H2]]; [left|right]; f_equal; apply SEP; auto. }
      destruct D as [->| ->]; auto. rewrite ray_crossing_turned, Z.odd_opp. reflexivity.
    - intros x I. pose proof (V (key_of (fst x)) (key_of (snd x))) as W.
      assert (D : key_of (fst x) <> key_of (snd x)).
      { assert (K : In (keys_of x) (flat_map key_sides tris)) by (rewrite proper_sides; apply in_map; auto). apply in_flat_map in K. destruct K as (t & _ & K). apply (side_in_keys _ _ _ K). }
      specialize (W D). unfold number in W. rewrite proper_sides, filter_map_length in W. destruct W as [W|W]; rewrite W; reflexivity. }
  assert (TOT : total (ray_crossing o d) (all_sides tris) = total (ray_crossing o d) (all_sides (filter proper tris))).
  { assert (H : forall t, In t tris -> proper t = false -> total (ray_crossing o d) (sides (ta t) (tb t) (tc t)) = 0%Z).
    { intros t T P. assert (C : forall v, In v [ta t; tb t; tc t] -> In v (flat_map (fun t => [ta t; tb t; tc t]) tris)) by (intros v I; apply in_flat_map; exists t; auto).
      assert (MT : forall e, In e (sides (ta t) (tb t) (tc t)) -> misses o d e) by (intros e I; apply M; apply in_flat_map; exists t; auto).
      unfold total, sides. cbn [fold_right]. rewrite Z.add_0_r, Z.add_assoc. rewrite (triangle_crossings o d t N MT). rewrite woop_parallel; auto.
      unfold proper in P. apply negb_false_iff in P. rewrite !orb_true_iff, !key_eqb_spec in P.
      destruct P as [[P|P]|P]; apply SEP in P; auto 10; try (apply C; cbn; auto).
      - rewrite P. unfold normal, vdot; cbn; ring.
      - rewrite P. unfold normal, vdot; cbn; ring.
      - rewrite P. unfold normal, vdot; cbn; ring. }
    clear - H. induction tris as [|t l IH]; [reflexivity|]. unfold all_sides in *. cbn [flat_map filter]. rewrite total_app. rewrite IH by (intros; apply H; [right; auto|auto]).
    destruct (proper t) eqn:P; [cbn [flat_map]; rewrite total_app; reflexivity|]. rewrite H by (auto; left; auto). reflexivity. }
  assert (OD : Z.odd (total (ray_crossing o d) (all_sides (filter proper tris))) = false).
  { assert (G : forall l, Z.odd (total (ray_crossing o d) l) = Nat.odd (length (filter (fun e => Z.odd (ray_crossing o d e)) l))).
    { induction l as [|e l IH]; [reflexivity|]. change (total (ray_crossing o d) (e :: l)) with (ray_crossing o d e + total (ray_crossing o d) l)%Z. rewrite Z.odd_add, IH. cbn [filter].
      destruct (Z.odd (ray_crossing o d e)); cbn [length]; [rewrite Nat.odd_succ, <- Nat.negb_odd; destruct (Nat.odd _); reflexivity|destruct (Nat.odd _); reflexivity]. }
    rewrite G, <- Nat.negb_even, EV. reflexivity. }
  rewrite <- TOT, total_sides, total_signs in OD by auto.
  assert (L : length (tried o d tris) = (length (filter h_front (tried o d tris)) + length (filter (fun h => negb (h_front h)) (tried o d tris)))%nat).
  { generalize (tried o d tris). intros k. induction k as [|h k IK]; cbn; auto. destruct (h_front h); cbn; lia. }
  apply Nat.even_spec. rewrite L. rewrite <- Nat.negb_odd, Nat.odd_add.
  rewrite Z.odd_sub in OD. revert OD.
  assert (ZN : forall n, Z.odd (Z.of_nat n) = Nat.odd n). { induction n as [|n IHn]; [reflexivity|]. rewrite Nat2Z.inj_succ, Z.odd_succ, Nat.odd_succ, <- Z.negb_odd, <- Nat.negb_odd, IHn. reflexivity. }
  rewrite !ZN. rewrite xorb_comm. intros ->. reflexivity.
Qed.

(** The same of what the search of the tree finds. *)
Theorem C116_found fl pick o d tris : (forall f l k, Permutation (pick f l k) l) -> d <> mkv 0 0 0 -> representable fl tris -> in_range o d tris -> (Z.of_nat (length tris) <= 65535)%Z ->
  misses_all o d tris -> exists s l, build fl pick tris = Ok s /\ raw_hits tris s o d = Ok l /\
    (oriented tris -> length (filter h_front l) = length (filter (fun h => negb (h_front h)) l)) /\
    (validate tris = None -> separated tris -> Nat.Even (length l)).
Proof.
  intros PP N RP IR L M. destruct (C113_search fl pick PP tris o d N RP IR L) as (s & l & B & E & P). exists s, l. split; auto. split; auto.
  assert (FP : forall f : hit -> bool, length (filter f l) = length (filter f (tried o d tris))).
  { intros f. clear - P. induction P; cbn; auto; try congruence.
    - destruct (f x); cbn; auto.
    - destruct (f x), (f y); reflexivity. }
  split.
  - intros O. rewrite !FP. apply C116_balance; auto.
  - intros V S. rewrite (Permutation_length P). apply C116_even; auto.
Qed.

Lemma wedge_separated : separated wedge.
Proof.
  intros a b A B. cbn in A, B.
  repeat destruct A as [A|A]; try contradiction; subst a; repeat destruct B as [B|B]; try contradiction; subst b; rewrite !key_whole; intros E; try reflexivity; discriminate.
Qed.
Lemma wedge_missed : misses_all (mkv (-5) (1/2) (1/8)) (mkv 1 0 0) wedge.
Proof.
  intros e I s u U E. assert (E1 := f_equal vy E). assert (E2 := f_equal vz E). clear E. cbn in I.
  repeat destruct I as [I|I]; try contradiction; subst e; cbn in E1, E2; lra.
Qed.
Example C116_case : mkv 1 0 0 <> mkv 0 0 0 /\ validate wedge = None /\ oriented wedge /\ separated wedge /\ misses_all (mkv (-5) (1/2) (1/8)) (mkv 1 0 0) wedge /\
  representable to_float wedge /\ in_range (mkv (-5) (1/2) (1/8)) (mkv 1 0 0) wedge /\ tried (mkv (-5) (1/2) (1/8)) (mkv 1 0 0) wedge <> [].
Proof.
  split; [apply ahead_nonzero|]. split; [apply wedge_closed|]. split; [apply wedge_oriented|]. split; [apply wedge_separated|]. split; [apply wedge_missed|]. split; [apply wedge_fit|].
  split; [intros E; cbn in E; lra|]. intros E.
  destruct (C112_found (mkv (-5) (1/2) (1/8)) (mkv 1 0 0) (mktri (mkv 0 0 (-1)) (mkv 0 0 1) (mkv (-1) 1 0)) (9/2)) as [f W].
  - apply ahead_nonzero.
  - unfold normal, vdot; cbn; lra.
  - exists (3/16), (5/16), (1/2). repeat split; try lra. apply veq3; cbn; lra.
  - unfold tried, wedge in E. cbv zeta in E. cbn [flat_map] in E. rewrite W in E. discriminate.
Qed.

Print Assumptions C115_closed.
Print Assumptions C115_report.
Print Assumptions C115_empty.
Print Assumptions C115_place.
Print Assumptions C115_turned_refuted.
Print Assumptions C115_flat_refuted.
Print Assumptions C115_near_refuted.
Print Assumptions C116_balance.
Print Assumptions C116_even.
Print Assumptions C116_found.
