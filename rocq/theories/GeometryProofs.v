(** Proofs about lines through boxes and spheres. *)
From Coq Require Import Reals Lra Lia List Bool Permutation Sorted Arith.
From Verif Require Import VectorModel QuatModel QuatSpec QuatProofs GeometryModel GeometrySpec.
Import ListNotations.
Open Scope R_scope.

Lemma point_at_line p d t : point_at p d t = on_line p d t.
Proof. apply vec_eq; unfold on_line; cbn; ring. Qed.

Lemma precision_pos : 0 < precision.
Proof. unfold precision. lra. Qed.

Lemma snap_cases t : (snap t = t /\ ~ 0 < t < precision) \/ (snap t = 0 /\ 0 < t < precision).
Proof. unfold snap. destruct (Rlt_dec 0 t), (Rlt_dec t precision); (left; split; [reflexivity|lra]) || (right; split; [reflexivity|lra]). Qed.
Lemma snap_mono a b : a <= b -> snap a <= snap b.
Proof. intros. pose proof precision_pos. destruct (snap_cases a) as [[-> ?]|[-> ?]], (snap_cases b) as [[-> ?]|[-> ?]]; lra. Qed.
Lemma snap_gap a b : precision <= b - a -> snap a < snap b.
Proof. intros. pose proof precision_pos. destruct (snap_cases a) as [[-> ?]|[-> ?]], (snap_cases b) as [[-> ?]|[-> ?]]; lra. Qed.
Lemma snap_below a t : apart (snap a) t -> (snap a < t <-> a < t) /\ t <> a.
Proof.
  intros [N P]. pose proof precision_pos. destruct (snap_cases a) as [[E ?]|[E ?]]; rewrite E in *; [split; [tauto|auto]|].
  destruct (Rlt_dec 0 t) as [H1|H1]; [|lra]. destruct (Rlt_dec t precision); [|lra]. specialize (P ltac:(lra)). rewrite Rabs_left in P; lra.
Qed.
(** A boundary at [a], seen through [snap]. *)
Lemma snap_real (inside : R -> Prop) a : (forall e, 0 < e -> exists u v, Rabs (u - a) < e /\ Rabs (v - a) < e /\ inside u /\ ~ inside v) ->
  exists u v, Rabs (u - snap a) < precision /\ Rabs (v - snap a) < precision /\ inside u /\ ~ inside v.
Proof.
  intros H. pose proof precision_pos. destruct (snap_cases a) as [[E ?]|[E ?]]; rewrite E; [apply H; auto|].
  destruct (H (Rmin a (precision - a))) as (u & v & A & B & C & D); [apply Rmin_glb_lt; lra|].
  pose proof (Rmin_l a (precision - a)). pose proof (Rmin_r a (precision - a)). apply Rabs_def2 in A, B.
  exists u, v. repeat split; auto; apply Rabs_def1; lra.
Qed.
Lemma snap_near t : Rabs (snap t - t) < precision.
Proof. pose proof precision_pos. destruct (snap_cases t) as [[-> ?]|[-> ?]]; apply Rabs_def1; lra. Qed.

(** ** Box *)
Definition in_range (r : range) (t : R) : Prop :=
  match fst r with None => True | Some e => e <= t end /\ match snd r with None => True | Some x => t <= x end.
Lemma narrow_ok r a b t : in_range (narrow r a b) t <-> in_range r t /\ a <= t <= b.
Proof.
  destruct r as [[e|] [x|]]; unfold in_range, narrow; cbn [fst snd];
  repeat match goal with |- context[if Rlt_dec ?u ?v then _ else _] => destruct (Rlt_dec u v) end; lra.
Qed.
Definition in_slab (p d h t : R) : Prop := - h <= p + t * d <= h.
Lemma slab_ok p d h r : 0 <= h ->
  match slab p d h r with
  | None => d = 0 /\ forall t, ~ in_slab p d h t
  | Some r' => (forall t, in_range r' t <-> in_range r t /\ in_slab p d h t) /\ (d <> 0 -> fst r' <> None /\ snd r' <> None) /\
      (fst r <> None -> fst r' <> None) /\ (snd r <> None -> snd r' <> None)
  end.
Proof.
  intros Hh. unfold slab, in_slab. destruct (Req_EM_T d 0) as [->|N].
  - destruct (Rlt_dec p (- h)); [split; [auto|intros; lra]|]. destruct (Rlt_dec h p); [split; [auto|intros; lra]|].
    split; [|split; [lra|split; auto]]. intros t. split; [intros H; split; [exact H|lra]|intros [H _]; exact H].
  - assert (Q : forall u v t, u <= v -> ((u - p) * (1 / d) = t <-> u = p + t * d)) by (intros; split; [intros <-; field; auto|intros ->; field; auto]).
    assert (key : forall t, - h <= p + t * d <= h <-> Rmin ((- h - p) * (1 / d)) ((h - p) * (1 / d)) <= t <= Rmax ((- h - p) * (1 / d)) ((h - p) * (1 / d))).
    { intros t. set (a := (- h - p) * (1 / d)). set (b := (h - p) * (1 / d)).
      assert (Ea : a * d = - h - p) by (unfold a; field; auto). assert (Eb : b * d = h - p) by (unfold b; field; auto).
      destruct (Rdichotomy _ _ N) as [Ng|Ps].
      - assert (b <= a) by nra. rewrite Rmin_right, Rmax_left by auto. split; intros; nra.
      - assert (a <= b) by nra. rewrite Rmin_left, Rmax_right by auto. split; intros; nra. }
    destruct (Rlt_dec ((h - p) * (1 / d)) ((- h - p) * (1 / d))) as [L|L].
    + rewrite Rmin_right, Rmax_left in key by lra. split; [|split; [destruct r as [[|] [|]]; cbn; split; discriminate|destruct r as [[|] [|]]; cbn; split; intros; discriminate]].
      intros t. rewrite narrow_ok, key. tauto.
    + rewrite Rmin_left, Rmax_right in key by lra. split; [|split; [destruct r as [[|] [|]]; cbn; split; discriminate|destruct r as [[|] [|]]; cbn; split; intros; discriminate]].
      intros t. rewrite narrow_ok, key. tauto.
Qed.

Lemma in_box_slabs wx wy wz p d t :
  in_box wx wy wz (on_line p d t) <-> in_slab (vx p) (vx d) (1 / 2 * wx) t /\ in_slab (vy p) (vy d) (1 / 2 * wy) t /\ in_slab (vz p) (vz d) (1 / 2 * wz) t.
Proof.
  unfold in_box, in_slab, on_line. cbn.
  assert (Q : forall x w, 2 * Rabs x <= w <-> - (1 / 2 * w) <= x <= 1 / 2 * w).
  { intros x w. split; intros H; [split; [destruct (Rcase_abs x); rewrite ?Rabs_left, ?Rabs_right in H by auto; lra|pose proof (Rle_abs x); lra]|].
    apply Rmult_le_reg_l with (1 / 2); [lra|]. assert (Rabs x <= 1 / 2 * w) by (apply Rabs_le; lra). lra. }
  rewrite !Q. tauto.
Qed.

Lemma box_ok wx wy wz p d : 0 <= wx -> 0 <= wy -> 0 <= wz -> d <> mkv 0 0 0 ->
  (box_hits wx wy wz p d = Hits [] /\ forall t, ~ in_box wx wy wz (on_line p d t)) \/
  (exists a b, a <= b /\ (forall t, in_box wx wy wz (on_line p d t) <-> a <= t <= b) /\
    box_hits wx wy wz p d = Hits [mkhit (snap a) true (on_line p d (snap a)); mkhit (snap b) false (on_line p d (snap b))]).
Proof.
  intros Wx Wy Wz Nd. unfold box_hits.
  pose proof (slab_ok (vx p) (vx d) (1 / 2 * wx) (None, None) ltac:(lra)) as S1.
  destruct (slab (vx p) (vx d) _ _) as [r1|]; [|left; split; [auto|intros t; rewrite in_box_slabs; intros [A _]; exact (proj2 S1 t A)]].
  pose proof (slab_ok (vy p) (vy d) (1 / 2 * wy) r1 ltac:(lra)) as S2.
  destruct (slab (vy p) (vy d) _ _) as [r2|]; [|left; split; [auto|intros t; rewrite in_box_slabs; intros (_ & A & _); exact (proj2 S2 t A)]].
  pose proof (slab_ok (vz p) (vz d) (1 / 2 * wz) r2 ltac:(lra)) as S3.
  destruct (slab (vz p) (vz d) _ _) as [r3|]; [|left; split; [auto|intros t; rewrite in_box_slabs; intros (_ & _ & A); exact (proj2 S3 t A)]].
  destruct S1 as (A1 & B1 & C1 & D1), S2 as (A2 & B2 & C2 & D2), S3 as (A3 & B3 & C3 & D3).
  assert (E : fst r3 <> None /\ snd r3 <> None).
  { destruct (Req_EM_T (vz d) 0) as [Ez|Nz]; [|auto]. destruct (Req_EM_T (vy d) 0) as [Ey|Ny]; [|destruct (B2 Ny); auto].
    destruct (Req_EM_T (vx d) 0) as [Ex|Nx]; [|destruct (B1 Nx); auto]. exfalso. apply Nd. apply vec_eq; auto. }
  assert (key : forall t, in_box wx wy wz (on_line p d t) <-> in_range r3 t).
  { intros t. rewrite in_box_slabs, A3, A2, A1. unfold in_range. cbn. tauto. }
  destruct r3 as [[a|] [b|]]; cbn in E; [|destruct E; congruence..].
  unfold in_range in key. cbn in key. destruct (Rlt_dec b a).
  - left. split; [auto|]. intros t. rewrite key. lra.
  - right. exists a, b. rewrite !point_at_line. split; [lra|split; auto].
Qed.

Definition border (inside : R -> Prop) (a : R) : Prop := forall e, 0 < e -> exists u v, Rabs (u - a) < e /\ Rabs (v - a) < e /\ inside u /\ ~ inside v.
Lemma delimits_one (inside : R -> Prop) a b pa pb : a <= b -> (forall t, t <> a -> t <> b -> (inside t <-> a < t < b)) ->
  border inside a -> border inside b ->
  delimits inside [mkhit (snap a) true pa; mkhit (snap b) false pb].
Proof.
  intros L H Ba Bb. pose proof (snap_mono _ _ L). constructor.
  - constructor; [constructor; [constructor|constructor]|constructor; [cbn; auto|constructor]].
  - cbn. auto.
  - exists 1%nat. reflexivity.
  - intros t Nh. pose proof (Nh _ (or_introl eq_refl)) as N1. pose proof (Nh _ (or_intror (or_introl eq_refl))) as N2. cbn in N1, N2.
    apply snap_below in N1 as [E1 N1]. apply snap_below in N2 as [E2 N2]. unfold state. cbn.
    rewrite (H t N1 N2). destruct (Rlt_dec (snap b) t), (Rlt_dec (snap a) t); split; intros; try discriminate; try reflexivity; try tauto; lra.
  - intros h [<-|[<-|[]]]; apply snap_real; auto.
Qed.
Lemma delimits_none (inside : R -> Prop) : (forall t, ~ inside t) -> delimits inside [].
Proof.
  intros H. constructor; [constructor|exact Logic.I|exists 0%nat; reflexivity| |intros h []].
  intros. cbn. split; [intros A; elim (H _ A)|discriminate].
Qed.
Lemma box_delimits wx wy wz p d : 0 <= wx -> 0 <= wy -> 0 <= wz -> d <> mkv 0 0 0 ->
  exists l, box_hits wx wy wz p d = Hits l /\ delimits (fun t => in_box wx wy wz (on_line p d t)) l /\ positioned p d l.
Proof.
  intros A B C D. destruct (box_ok wx wy wz p d A B C D) as [[E N]|(a & b & L & key & E)]; rewrite E; eexists; (split; [reflexivity|]).
  - split; [apply delimits_none; auto|intros h []].
  - split; [apply delimits_one; auto|].
    + intros t Na Nb. rewrite key. lra.
    + intros e He. exists a, (a - e / 2). rewrite !key. repeat split; try lra; apply Rabs_def1; lra.
    + intros e He. exists b, (b + e / 2). rewrite !key. repeat split; try lra; apply Rabs_def1; lra.
    + intros h [<-|[<-|[]]]; reflexivity.
Qed.

(** ** Sorting *)
Section Sort.
Context {A : Type} (key : A -> R).
Notation le_key := (fun a b => key a <= key b).
Definition at_key (x : R) : A -> bool := fun a => if Req_EM_T (key a) x then true else false.
Lemma at_key_spec x a : at_key x a = true <-> key a = x.
Proof. unfold at_key. destruct (Req_EM_T (key a) x); split; auto; discriminate. Qed.

Lemma filters_none l : (forall x, filter (at_key x) l = []) -> l = [].
Proof.
  destruct l as [|a l]; auto. intros H. specialize (H (key a)). cbn in H.
  rewrite (proj2 (at_key_spec _ _) eq_refl) in H. discriminate.
Qed.
(** A sorted list is determined by its elements of each key, in order. *)
Lemma sorted_by_filters l : forall l', StronglySorted le_key l -> StronglySorted le_key l' ->
  (forall x, filter (at_key x) l = filter (at_key x) l') -> l = l'.
Proof.
  induction l as [|a l IH]; intros l' S1 S2 F.
  - symmetry. apply filters_none. intros x. rewrite <- F. reflexivity.
  - destruct l' as [|b l']; [apply filters_none in F; discriminate|].
    apply StronglySorted_inv in S1 as [S1 M1]. apply StronglySorted_inv in S2 as [S2 M2]. rewrite Forall_forall in M1, M2.
    assert (K : key a = key b).
    { apply Rle_antisym.
      - destruct (Req_EM_T (key a) (key b)) as [E|N]; [lra|]. pose proof (F (key b)) as G. cbn in G.
        rewrite (proj2 (at_key_spec _ b) eq_refl) in G. destruct (at_key (key b) a) eqn:E; [apply at_key_spec in E; lra|].
        assert (In b (filter (at_key (key b)) l)) as B by (rewrite G; left; auto). apply filter_In in B. apply M1. tauto.
      - destruct (Req_EM_T (key a) (key b)) as [E|N]; [lra|]. pose proof (F (key a)) as G. cbn in G.
        rewrite (proj2 (at_key_spec _ a) eq_refl) in G. destruct (at_key (key a) b) eqn:E; [apply at_key_spec in E; lra|].
        assert (In a (filter (at_key (key a)) l')) as B by (rewrite <- G; left; auto). apply filter_In in B. apply M2. tauto. }
    pose proof (F (key a)) as G. cbn in G. rewrite (proj2 (at_key_spec _ a) eq_refl), (proj2 (at_key_spec _ b) (eq_sym K)) in G.
    injection G as -> G. f_equal. apply IH; auto. intros x. pose proof (F x) as H. cbn in H. destruct (at_key x b); [injection H as H|]; auto.
Qed.
(** Without equal keys there is only one sorted arrangement. *)
Lemma filter_perm (f : A -> bool) l l' : Permutation l l' -> Permutation (filter f l) (filter f l').
Proof.
  intros P. induction P; cbn; auto.
  - destruct (f x); auto.
  - destruct (f x), (f y); auto. apply perm_swap.
  - eapply Permutation_trans; eauto.
Qed.
Lemma strict_filter x l : StronglySorted (fun a b => key a < key b) l -> (length (filter (at_key x) l) <= 1)%nat.
Proof.
  induction 1 as [|a l S IH M]; cbn; auto. destruct (at_key x a) eqn:E; auto. apply at_key_spec in E.
  cbn. assert (filter (at_key x) l = []) as ->; [|cbn; auto].
  rewrite Forall_forall in M. clear S IH. induction l as [|b l IH]; cbn; auto. destruct (at_key x b) eqn:B.
  - apply at_key_spec in B. specialize (M b (or_introl eq_refl)). lra.
  - apply IH. intros c C. apply M. right. auto.
Qed.
Lemma sorted_unique l l' : StronglySorted le_key l -> StronglySorted (fun a b => key a < key b) l' -> Permutation l l' -> l = l'.
Proof.
  intros S1 S2 P. apply sorted_by_filters; auto.
  - clear -S2. induction S2; constructor; auto. eapply Forall_impl; [|eassumption]. intros; cbn in *; lra.
  - intros x. pose proof (filter_perm (at_key x) _ _ P) as Q. pose proof (strict_filter x _ S2) as L.
    destruct (filter (at_key x) l') as [|c [|]]; [apply Permutation_sym, Permutation_nil in Q; auto|apply Permutation_sym, Permutation_length_1_inv in Q; auto|cbn in L; lia].
Qed.
End Sort.

(** ** Spheres *)
Lemma perp_split p d t : vdot d d = 1 -> vdot (on_line p d t) (on_line p d t) = perp2 p d + (t + vdot p d) * (t + vdot p d).
Proof.
  intros U. unfold perp2, on_line.
  assert (E : vdot (vadd p (vscale t d)) (vadd p (vscale t d)) = vdot p p + 2 * t * vdot p d + t * t * vdot d d) by (unfold vdot, vadd, vscale; cbn; ring).
  assert (L : vdot (vcross p d) (vcross p d) = vdot p p * vdot d d - vdot p d * vdot p d) by (unfold vdot, vcross; cbn; ring).
  rewrite E, L, U. ring.
Qed.
Lemma mag_below q r : 0 <= r -> (vmag q < r <-> vdot q q < r * r).
Proof. intros. rewrite <- vmag_sq. pose proof (vmag_nonneg q). split; intros; [|apply Rnot_le_lt; intros ?]; nra. Qed.
Lemma mag_above q r : 0 <= r -> (r <= vmag q <-> r * r <= vdot q q).
Proof. intros. rewrite <- vmag_sq. pose proof (vmag_nonneg q). split; intros; [|apply Rnot_lt_le; intros ?]; nra. Qed.

Lemma below_sqrt x det : 0 < det -> (x * x < det <-> - sqrt det < x < sqrt det).
Proof.
  intros D. pose proof (sqrt_lt_R0 _ D) as P. pose proof (sqrt_sqrt det ltac:(lra)) as Q. rewrite <- Q at 1.
  split; intros H; [split; apply Rnot_le_lt; intros ?; nra|nra].
Qed.

Lemma shell_hits p d r o : solve_shell p d r o =
  (let det := r * r - perp2 p d in
   if Rle_dec det 0 then [] else
   let a := - vdot p d - sqrt det in let b := - vdot p d + sqrt det in
   [mkhit (snap a) o (on_line p d (snap a)); mkhit (snap b) (negb o) (on_line p d (snap b))]).
Proof. unfold solve_shell. rewrite !point_at_line. reflexivity. Qed.

Lemma delimits_two (inside : R -> Prop) a b c e pa pb pc pe : a <= b -> b <= c -> c <= e ->
  (forall t, t <> a -> t <> b -> t <> c -> t <> e -> (inside t <-> a < t < b \/ c < t < e)) ->
  border inside a -> border inside b -> border inside c -> border inside e ->
  delimits inside [mkhit (snap a) true pa; mkhit (snap b) false pb; mkhit (snap c) true pc; mkhit (snap e) false pe].
Proof.
  intros L1 L2 L3 H Ba Bb Bc Be. pose proof (snap_mono _ _ L1). pose proof (snap_mono _ _ L2). pose proof (snap_mono _ _ L3). constructor.
  - repeat (constructor; [|repeat (constructor; [cbn; lra|]); constructor]). constructor.
  - cbn. auto.
  - exists 2%nat. reflexivity.
  - intros t Nh.
    pose proof (Nh _ (or_introl eq_refl)) as N1. pose proof (Nh _ (or_intror (or_introl eq_refl))) as N2.
    pose proof (Nh _ (or_intror (or_intror (or_introl eq_refl)))) as N3. pose proof (Nh _ (or_intror (or_intror (or_intror (or_introl eq_refl))))) as N4.
    cbn in N1, N2, N3, N4.
    apply snap_below in N1 as [E1 N1]. apply snap_below in N2 as [E2 N2]. apply snap_below in N3 as [E3 N3]. apply snap_below in N4 as [E4 N4].
    rewrite (H t) by auto. unfold state. cbn.
    assert (K : forall x (u v : bool), (snap x < t <-> x < t) -> (if Rlt_dec (snap x) t then u else v) = (if Rlt_dec x t then u else v))
      by (intros x u v E; destruct (Rlt_dec (snap x) t), (Rlt_dec x t); tauto).
    rewrite !K by auto.
    destruct (Rlt_dec e t), (Rlt_dec c t), (Rlt_dec b t), (Rlt_dec a t); split; intros; try discriminate; try reflexivity; lra.
  - intros h [<-|[<-|[<-|[<-|[]]]]]; apply snap_real; auto.
Qed.

Lemma sqrt_gap R1 r1 c : 0 <= r1 -> r1 <= R1 -> 0 < r1 * r1 - c -> 0 <= c -> R1 - r1 <= sqrt (R1 * R1 - c) - sqrt (r1 * r1 - c).
Proof.
  intros A B C D. pose proof (sqrt_lt_R0 _ C) as P1. assert (C2 : 0 < R1 * R1 - c) by nra. pose proof (sqrt_lt_R0 _ C2) as P2.
  pose proof (sqrt_sqrt (r1 * r1 - c) ltac:(lra)) as Q1. pose proof (sqrt_sqrt (R1 * R1 - c) ltac:(lra)) as Q2.
  set (u := sqrt (R1 * R1 - c)) in *. set (v := sqrt (r1 * r1 - c)) in *.
  assert (E : (u - v) * (u + v) = (R1 - r1) * (R1 + r1)) by nra.
  assert (u <= R1) by (apply Rnot_lt_le; intros ?; nra). assert (v <= r1) by (apply Rnot_lt_le; intros ?; nra).
  apply Rnot_lt_le. intros ?. assert (0 <= (R1 - r1) * (R1 + r1 - (u + v))) by nra. nra.
Qed.

Lemma perp2_nonneg p d : 0 <= perp2 p d.
Proof. apply vdot_nonneg. Qed.

Lemma resolved_gap r p d : resolved r p d -> 0 < r * r - perp2 p d -> precision <= 2 * sqrt (r * r - perp2 p d).
Proof.
  intros [?|H] D; [lra|]. pose proof precision_pos. pose proof (sqrt_lt_R0 _ D). pose proof (sqrt_sqrt (r * r - perp2 p d) ltac:(lra)).
  apply Rnot_lt_le. intros ?. nra.
Qed.

Lemma shell_arranged radius inner p d : vdot d d = 1 -> 0 < radius -> inner <= radius - precision ->
  let raw := solve_shell p d radius true ++ (if Rlt_dec 0 inner then solve_shell p d inner false else []) in
  exists l, delimits (fun t => in_shell radius inner (on_line p d t)) l /\ positioned p d l /\ Permutation raw l /\
    (forall x, filter (at_key h_distance x) raw = filter (at_key h_distance x) l) /\
    (resolved radius p d -> resolved inner p d -> StronglySorted (fun a b => h_distance a < h_distance b) l).
Proof.
  intros U Rp Th raw. pose proof precision_pos as Pp. pose proof (perp2_nonneg p d) as Cp.
  assert (O : forall t, vmag (on_line p d t) < radius <-> (t + vdot p d) * (t + vdot p d) < radius * radius - perp2 p d)
    by (intros; rewrite mag_below, perp_split by (auto; lra); lra).
  unfold raw. clear raw. rewrite !shell_hits. cbn zeta. destruct (Rle_dec (radius * radius - perp2 p d) 0) as [D|D].
  - (* missed *)
    assert ((if Rlt_dec 0 inner then (if Rle_dec (inner * inner - perp2 p d) 0 then [] else
      [mkhit (snap (- vdot p d - sqrt (inner * inner - perp2 p d))) false (on_line p d (snap (- vdot p d - sqrt (inner * inner - perp2 p d))));
       mkhit (snap (- vdot p d + sqrt (inner * inner - perp2 p d))) (negb false) (on_line p d (snap (- vdot p d + sqrt (inner * inner - perp2 p d))))]) else []) = []) as ->.
    { destruct (Rlt_dec 0 inner); auto. destruct (Rle_dec (inner * inner - perp2 p d) 0); auto. nra. }
    exists []. split; [|split; [intros h []|split; [auto|split; [auto|constructor]]]].
    apply delimits_none. intros t [A _]. apply O in A. pose proof (Rle_0_sqr (t + vdot p d)). unfold Rsqr in *. lra.
  - assert (D' : 0 < radius * radius - perp2 p d) by lra. pose proof (sqrt_lt_R0 _ D') as P.
    assert (O' : forall t, vmag (on_line p d t) < radius <-> - vdot p d - sqrt (radius * radius - perp2 p d) < t < - vdot p d + sqrt (radius * radius - perp2 p d))
      by (intros; rewrite O, below_sqrt by auto; lra).
    clear O. set (a := - vdot p d - sqrt (radius * radius - perp2 p d)) in *. set (e := - vdot p d + sqrt (radius * radius - perp2 p d)) in *.
    assert (one : (forall t, in_shell radius inner (on_line p d t) <-> a < t < e) ->
      delimits (fun t => in_shell radius inner (on_line p d t)) [mkhit (snap a) true (on_line p d (snap a)); mkhit (snap e) false (on_line p d (snap e))] /\
      positioned p d [mkhit (snap a) true (on_line p d (snap a)); mkhit (snap e) false (on_line p d (snap e))] /\
      (resolved radius p d -> StronglySorted (fun x y => h_distance x < h_distance y) [mkhit (snap a) true (on_line p d (snap a)); mkhit (snap e) false (on_line p d (snap e))])).
    { intros H. split; [apply delimits_one; [unfold a, e; lra|intros; auto|..]|].
      1, 2: intros w Hw; pose proof (Rmin_l w (e - a)); pose proof (Rmin_r w (e - a)); assert (0 < Rmin w (e - a)) by (apply Rmin_glb_lt; unfold a, e; lra).
      { exists (a + Rmin w (e - a) / 2), a. rewrite !H. repeat split; try (apply Rabs_def1; lra); lra. }
      { exists (e - Rmin w (e - a) / 2), e. rewrite !H. repeat split; try (apply Rabs_def1; lra); lra. } split; [intros h [<-|[<-|[]]]; reflexivity|].
      intros G. constructor; [constructor; constructor|]. constructor; [|constructor]. cbn. apply snap_gap. pose proof (resolved_gap _ _ _ G D'). unfold a, e. lra. }
    assert (nohole : (0 < inner -> inner * inner - perp2 p d <= 0) -> forall t, in_shell radius inner (on_line p d t) <-> a < t < e).
    { intros H t. unfold in_shell. rewrite O'. split; [tauto|]. intros A. split; [auto|]. intros Ip. apply mag_above; [lra|].
      rewrite perp_split by auto. specialize (H Ip). pose proof (Rle_0_sqr (t + vdot p d)). unfold Rsqr in *. lra. }
    destruct (Rlt_dec 0 inner) as [Ip|Ip]; [destruct (Rle_dec (inner * inner - perp2 p d) 0) as [I0|I0]|].
    + destruct one as (A & B & C); [apply nohole; auto|]. cbn [app]. eexists. split; [exact A|split; [exact B|split; [auto|split; auto]]].
    + assert (I' : 0 < inner * inner - perp2 p d) by lra. pose proof (sqrt_lt_R0 _ I') as Pi.
      pose proof (sqrt_gap radius inner (perp2 p d) ltac:(lra) ltac:(lra) I' Cp) as Gap.
      set (b := - vdot p d - sqrt (inner * inner - perp2 p d)) in *. set (c := - vdot p d + sqrt (inner * inner - perp2 p d)) in *.
      assert (Gab : precision <= b - a) by (unfold a, b; lra). assert (Gce : precision <= e - c) by (unfold c, e; lra).
      assert (Lbc : b < c) by (unfold b, c; lra).
      pose proof (snap_gap _ _ Gab). pose proof (snap_gap _ _ Gce). pose proof (snap_mono b c ltac:(lra)).
      exists [mkhit (snap a) true (on_line p d (snap a)); mkhit (snap b) false (on_line p d (snap b));
              mkhit (snap c) true (on_line p d (snap c)); mkhit (snap e) false (on_line p d (snap e))].
      split; [|split; [|split; [|split]]].
      * assert (key : forall t, in_shell radius inner (on_line p d t) <-> a < t < e /\ (t <= b \/ c <= t)).
        { intros t. unfold in_shell. rewrite O'.
        assert (In_ : inner <= vmag (on_line p d t) <-> t <= b \/ c <= t).
        { rewrite mag_above, perp_split by (auto; lra). pose proof (below_sqrt (t + vdot p d) _ I') as W.
          split; intros H2.
          - destruct (Rle_dec t b); [auto|right]. apply Rnot_lt_le. intros ?. assert ((t + vdot p d) * (t + vdot p d) < inner * inner - perp2 p d) by (apply W; unfold b, c in *; lra). lra.
          - apply Rnot_lt_le. intros ?. assert (- sqrt (inner * inner - perp2 p d) < t + vdot p d < sqrt (inner * inner - perp2 p d)) by (apply W; lra). unfold b, c in *. lra. }
        rewrite In_. tauto. }
        apply delimits_two; try lra; [intros t Na Nb Nc Ne; rewrite key; lra|..].
        -- intros w Hw. pose proof (Rmin_l w (b - a)). pose proof (Rmin_r w (b - a)). assert (0 < Rmin w (b - a)) by (apply Rmin_glb_lt; lra).
           exists (a + Rmin w (b - a) / 2), a. rewrite !key. repeat split; try (apply Rabs_def1; lra); lra.
        -- intros w Hw. pose proof (Rmin_l w (c - b)). pose proof (Rmin_r w (c - b)). assert (0 < Rmin w (c - b)) by (apply Rmin_glb_lt; lra).
           exists b, (b + Rmin w (c - b) / 2). rewrite !key. repeat split; try (apply Rabs_def1; lra); lra.
        -- intros w Hw. pose proof (Rmin_l w (c - b)). pose proof (Rmin_r w (c - b)). assert (0 < Rmin w (c - b)) by (apply Rmin_glb_lt; lra).
           exists c, (c - Rmin w (c - b) / 2). rewrite !key. repeat split; try (apply Rabs_def1; lra); lra.
        -- intros w Hw. pose proof (Rmin_l w (e - c)). pose proof (Rmin_r w (e - c)). assert (0 < Rmin w (e - c)) by (apply Rmin_glb_lt; lra).
           exists (e - Rmin w (e - c) / 2), e. rewrite !key. repeat split; try (apply Rabs_def1; lra); lra.
      * intros h [<-|[<-|[<-|[<-|[]]]]]; reflexivity.
      * cbn [app]. apply perm_skip. eapply perm_trans; [apply perm_swap|]. apply perm_skip. apply perm_swap.
      * intros x. cbn [app filter negb]. unfold at_key. cbn [h_distance].
        destruct (Req_EM_T (snap a) x), (Req_EM_T (snap b) x), (Req_EM_T (snap c) x), (Req_EM_T (snap e) x); try reflexivity; exfalso; lra.
      * intros G1 G2. pose proof (resolved_gap _ _ _ G2 I') as Gbc. pose proof (snap_gap b c ltac:(unfold b, c; lra)).
        repeat (constructor; [|repeat (constructor; [cbn; lra|]); constructor]). constructor.
    + destruct one as (A & B & C); [apply nohole; intros; lra|]. cbn [app]. eexists. split; [exact A|split; [exact B|split; [auto|split; auto]]].
Qed.

Lemma sphere_delimits sort radius inner p d : sorts sort -> stable sort \/ (resolved radius p d /\ resolved inner p d) ->
  vdot d d = 1 -> 0 < radius -> inner <= radius - precision ->
  delimits (fun t => in_shell radius inner (on_line p d t)) (sphere_hits sort radius inner p d) /\ positioned p d (sphere_hits sort radius inner p d).
Proof.
  intros So Cs U Rp Th. destruct (shell_arranged radius inner p d U Rp Th) as (l & D & P & Pm & F & St).
  assert (sphere_hits sort radius inner p d = l) as ->; [|auto].
  unfold sphere_hits. destruct (So _ h_distance (solve_shell p d radius true ++ (if Rlt_dec 0 inner then solve_shell p d inner false else []))) as [S1 S2].
  destruct Cs as [Sta|[G1 G2]].
  - apply (sorted_by_filters h_distance); auto; [exact (dl_ordered _ _ D)|]. intros x. rewrite <- F. apply Sta.
  - apply (sorted_unique h_distance); auto. eapply Permutation_trans; eauto.
Qed.
