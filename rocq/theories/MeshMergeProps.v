(** Sorting and merging of the crossings with a mesh. *)
From Coq Require Import Reals List Bool ZArith Lia Lra Permutation Sorting.Sorted.
From Verif Require Import TraversalModel VectorModel MeshModel MeshSpec MeshProofs MeshTreeProofs MeshSearchProofs MeshFloat MeshProps.
Import ListNotations.
Open Scope R_scope.

(** What [std::sort] does. *)
Definition sorts (order : list hit -> list hit) : Prop :=
  forall l, Permutation (order l) l /\ StronglySorted (fun a b => h_t a <= h_t b) (order l).

(** How far apart two crossings must be to be two: one part in 10^12, of at least one. *)
Definition apart (x y : R) : R := Rmax 1 (Rmax (Rabs x) (Rabs y)) / 1000000000000.

Lemma coincide_spec x y : coincide x y = true <-> Rabs (y - x) < apart x y.
Proof.
  unfold coincide, apart. replace (Rmax 1 (Rmax (Rabs x) (Rabs y)) / 1000000000000) with (Rmax 1 (Rmax (Rabs x) (Rabs y)) * (1 / 10 ^ 12)) by (field; lra).
  destruct (Rlt_dec _ _); split; intros; auto; discriminate || contradiction.
Qed.
Lemma apart_pos x y : 0 < apart x y.
Proof. unfold apart. pose proof (Rmax_l 1 (Rmax (Rabs x) (Rabs y))). lra. Qed.

Lemma merge_first p l : exists m, merge_from p l = p :: m.
Proof. revert p. induction l as [|h l IH]; intros p; cbn; eauto. destruct (coincide (h_t p) (h_t h)); eauto. Qed.
Lemma merge_kept p l h : In h (merge_from p l) -> In h (p :: l).
Proof.
  revert p. induction l as [|a l IH]; intros p; cbn; [tauto|]. destruct (coincide (h_t p) (h_t a)).
  - intros I. apply IH in I. cbn in I. tauto.
  - intros [->|I]; auto. apply IH in I. cbn in I. tauto.
Qed.
Lemma merge_gaps p l : StronglySorted (fun a b => h_t a <= h_t b) (p :: l) -> Sorted (fun a b => h_t a + apart (h_t a) (h_t b) <= h_t b) (merge_from p l).
Proof.
  revert p. induction l as [|a l IH]; intros p S; cbn; [repeat constructor|].
  inversion S as [|? ? S' F]; subst. inversion F as [|? ? PA F']; subst. destruct (coincide (h_t p) (h_t a)) eqn:C.
  - apply IH. inversion S'; subst. constructor; auto.
  - constructor; [apply IH; auto|]. destruct (merge_first a l) as [m E]. rewrite E. constructor.
    assert (N : ~ Rabs (h_t a - h_t p) < apart (h_t p) (h_t a)) by (intro H; apply coincide_spec in H; congruence).
    rewrite Rabs_right in N by lra. lra.
Qed.
Lemma merge_covers p l h : StronglySorted (fun a b => h_t a <= h_t b) (p :: l) -> In h (p :: l) ->
  exists k, In k (merge_from p l) /\ h_t k <= h_t h /\ (h = k \/ h_t h < h_t k + apart (h_t k) (h_t h)).
Proof.
  revert p. induction l as [|a l IH]; intros p S I; cbn.
  - destruct I as [->|[]]. exists h. cbn. split; auto. split; auto; lra.
  - inversion S as [|? ? S' F]; subst. inversion F as [|? ? PA F']; subst. inversion S'; subst. destruct (coincide (h_t p) (h_t a)) eqn:C.
    + assert (S2 : StronglySorted (fun a b => h_t a <= h_t b) (p :: l)) by (constructor; auto).
      destruct I as [->|[->|I]]; [apply IH; auto; left; auto| |apply IH; auto; right; auto].
      destruct (merge_first p l) as [m E]. rewrite E. exists p. split; [left; auto|]. split; auto. right.
      apply coincide_spec in C. rewrite Rabs_right in C by lra. lra.
    + destruct I as [->|I].
      * exists h. split; [left; auto|]. split; [lra|auto].
      * destruct (IH a S' I) as (k & K & L). exists k. split; [right; auto|auto].
Qed.

(** The crossings given are among those found, in order, and any two neighbours are apart. *)
Theorem C114_given order s tris o d l : sorts order -> crossings_of order tris s o d = Ok l ->
  exists raw, raw_hits tris s o d = Ok raw /\ (forall h, In h l -> In h raw) /\
    Sorted (fun a b => h_t a + apart (h_t a) (h_t b) <= h_t b) l /\ StronglySorted (fun a b => h_t a < h_t b) l /\ (raw <> [] -> l <> []).
Proof.
  intros O. unfold crossings_of. destruct (raw_hits tris s o d) as [raw| |] eqn:E; try discriminate. intros H. injection H as <-.
  exists raw. split; auto. destruct (O raw) as [P S]. destruct (order raw) as [|p r] eqn:R.
  - cbn. repeat split; try constructor; [tauto|]. intros N. apply Permutation_nil in P. contradiction.
  - cbn. split; [|split; [apply merge_gaps; auto|split]].
    + intros h I. eapply Permutation_in; [exact P|]. apply merge_kept; auto.
    + apply Sorted_StronglySorted; [intros a b c; lra|]. pose proof (merge_gaps p r S) as G. induction G as [|a m G IH HR]; constructor; auto.
      destruct HR; constructor. pose proof (apart_pos (h_t a) (h_t b)). lra.
    + intros _. destruct (merge_first p r) as [m ->]. discriminate.
Qed.
(** Every crossing found is given, or one before it that is closer than the tolerance. *)
Theorem C114_covered order s tris o d l raw h : sorts order -> crossings_of order tris s o d = Ok l -> raw_hits tris s o d = Ok raw -> In h raw ->
  exists k, In k l /\ h_t k <= h_t h /\ (h = k \/ h_t h < h_t k + apart (h_t k) (h_t h)).
Proof.
  intros O C E I. unfold crossings_of in C. rewrite E in C. injection C as <-. destruct (O raw) as [P S].
  assert (J : In h (order raw)) by (eapply Permutation_in; [apply Permutation_sym; exact P|auto]). destruct (order raw) as [|p r]; [contradiction|].
  apply merge_covers; auto.
Qed.

(** ** A ray that touches an edge *)
Definition wedge : list triangle :=
  let a := mkv 0 0 (-1) in let b := mkv 0 0 1 in let c := mkv (-1) 1 0 in let e := mkv 1 1 0 in
  [mktri a b c; mktri b a e; mktri a c e; mktri b e c].
Definition oriented (tris : list triangle) : Prop :=
  let es := flat_map (fun t => sides (ta t) (tb t) (tc t)) tris in Permutation es (map turned es).

Lemma wedge_oriented : oriented wedge.
Proof.
  unfold oriented, wedge. cbn. unfold turned; cbn.
  set (a := mkv 0 0 (-1)). set (b := mkv 0 0 1). set (c := mkv (-1) 1 0). set (e := mkv 1 1 0). clearbody a b c e.
  apply (Permutation_cons_app [(b, a); (c, b); (a, c)] _ (a, b)). cbn.
  apply (Permutation_cons_app [(b, a); (c, b); (a, c); (e, a); (b, e); (c, a); (e, c); (a, e); (e, b); (c, e)] _ (b, c)). cbn.
  apply (Permutation_cons_app [(b, a); (c, b); (a, c); (e, a); (b, e)] _ (c, a)). cbn.
  apply perm_skip.
  apply (Permutation_cons_app [(c, b); (a, c); (e, a); (b, e); (e, c)] _ (a, e)). cbn.
  apply (Permutation_cons_app [(c, b); (a, c); (e, a); (b, e); (e, c)] _ (e, b)). cbn.
  apply (Permutation_cons_app [(c, b)] _ (a, c)). cbn.
  apply (Permutation_cons_app [(c, b); (e, a); (b, e); (e, c)] _ (c, e)). cbn.
  apply (Permutation_cons_app [(c, b)] _ (e, a)). cbn.
  apply (Permutation_cons_app [(c, b)] _ (b, e)). cbn.
  apply (Permutation_cons_app [(c, b)] _ (e, c)). cbn.
  reflexivity.
Qed.
Lemma wedge_fit : representable to_float wedge.
Proof.
  assert (M : to_float (-1) = -1) by (replace (-1) with (- (1)) by ring; rewrite float_opp, float_1; ring).
  intros t k [<-|[<-|[<-|[<-|[]]]]]; destruct k; cbn; rewrite ?float_0, ?float_1, ?M; auto.
Qed.
Lemma ahead_nonzero : mkv 1 0 0 <> mkv 0 0 0.
Proof. intro E. injection E. lra. Qed.
Lemma wedge_tried : tried (mkv (-5) 0 0) (mkv 1 0 0) wedge = [mkhit 5 true; mkhit 5 false].
Proof.
  unfold tried, wedge. cbn [flat_map].
  set (d := mkv 1 0 0). set (o := mkv (-5) 0 0).
  assert (H : forall t f, vdot (normal (ta t) (tb t) (tc t)) d = (if f : bool then -2 else 2) -> mean_of (ta t) (tb t) (tc t) (point o d 5) -> woop (prepare_ray o d) t = Some (mkhit 5 f)).
  { intros t f E M. destruct (C112_found o d t 5 ahead_nonzero) as [g W]; [rewrite E; destruct f; lra|auto|]. rewrite W.
    destruct (C112_hit _ _ _ _ ahead_nonzero W) as (_ & _ & G). cbn [h_front] in G. fold d in G. rewrite E in G. f_equal. f_equal.
    destruct f, g; auto; destruct G as [G1 G2]; [apply G2; lra|specialize (G1 eq_refl); lra]. }
  assert (N : forall t, (forall s, ~ mean_of (ta t) (tb t) (tc t) (point o d s)) -> woop (prepare_ray o d) t = None).
  { intros t Q. destruct (woop (prepare_ray o d) t) as [h|] eqn:W; auto. exfalso. apply (Q (h_t h)). apply (C112_hit _ _ _ _ ahead_nonzero W). }
  rewrite (H (mktri (mkv 0 0 (-1)) (mkv 0 0 1) (mkv (-1) 1 0)) true); [|unfold normal, vdot; cbn; ring|exists (1/2), (1/2), 0; repeat split; try lra; apply veq3; cbn; field].
  rewrite (H (mktri (mkv 0 0 1) (mkv 0 0 (-1)) (mkv 1 1 0)) false); [|unfold normal, vdot; cbn; ring|exists (1/2), (1/2), 0; repeat split; try lra; apply veq3; cbn; field].
  rewrite (N (mktri (mkv 0 0 (-1)) (mkv (-1) 1 0) (mkv 1 1 0))).
  2:{ intros s (u & v & w & U & V & W & S & E). assert (E1 := f_equal vy E). assert (E2 := f_equal vz E). cbn in E1, E2. lra. }
  rewrite (N (mktri (mkv 0 0 1) (mkv 1 1 0) (mkv (-1) 1 0))).
  2:{ intros s (u & v & w & U & V & W & S & E). assert (E1 := f_equal vy E). assert (E2 := f_equal vz E). cbn in E1, E2. lra. }
  reflexivity.
Qed.
Lemma wedge_range : in_range (mkv (-5) 0 0) (mkv 1 0 0) wedge.
Proof. intros E. cbn in E. lra. Qed.

(** A ray that touches an edge of a closed mesh from outside is given one crossing, in or out as the sorting leaves it. *)
Theorem C114_touch_refuted : exists tris o d, oriented tris /\ d <> mkv 0 0 0 /\ forall order, sorts order ->
  exists s h, build to_float as_is tris = Ok s /\ crossings_of order tris s o d = Ok [h].
Proof.
  exists wedge, (mkv (-5) 0 0), (mkv 1 0 0). split; [apply wedge_oriented|]. split; [apply ahead_nonzero|]. intros order O.
  destruct (C113_search to_float as_is as_is_perm wedge (mkv (-5) 0 0) (mkv 1 0 0) ahead_nonzero wedge_fit wedge_range) as (s & l & B & E & P); [cbn; lia|].
  rewrite wedge_tried in P. exists s. unfold crossings_of. rewrite E. destruct (O l) as [P' _]. pose proof (Permutation_trans P' P) as P2. clear P'. rename P2 into P'.
  assert (forall h, In h (order l) -> h_t h = 5). { intros h I. eapply Permutation_in in I; [|exact P']. destruct I as [<-|[<-|[]]]; reflexivity. }
  pose proof (Permutation_length P') as L. destruct (order l) as [|h1 [|h2 [|h3 r]]]; cbn in L; try discriminate.
  exists h1. split; auto. cbn. rewrite (H h1), (H h2) by (cbn; auto).
  replace (coincide 5 5) with true; [reflexivity|]. symmetry. apply coincide_spec. rewrite Rminus_eq_0, Rabs_R0. apply apart_pos.
Qed.

Fixpoint put_in (h : hit) (l : list hit) : list hit :=
  match l with [] => [h] | a :: l' => if Rle_dec (h_t h) (h_t a) then h :: l else a :: put_in h l' end.
Fixpoint put_all (l : list hit) : list hit := match l with [] => [] | h :: l => put_in h (put_all l) end.
Lemma put_in_perm h l : Permutation (put_in h l) (h :: l).
Proof. induction l as [|a l IH]; cbn; auto. destruct (Rle_dec (h_t h) (h_t a)); auto. rewrite IH. apply perm_swap. Qed.
Lemma put_in_sorted h l : StronglySorted (fun a b => h_t a <= h_t b) l -> StronglySorted (fun a b => h_t a <= h_t b) (put_in h l).
Proof.
  intros S. induction S as [|a l S IH F]; cbn; [repeat constructor|]. destruct (Rle_dec (h_t h) (h_t a)).
  - constructor; [constructor; auto|]. constructor; auto. rewrite Forall_forall in *. intros x I. specialize (F x I). lra.
  - constructor; auto. rewrite Forall_forall in *. intros x I. eapply Permutation_in in I; [|apply put_in_perm]. destruct I as [<-|I]; [lra|auto].
Qed.
Lemma put_all_sorts : sorts put_all.
Proof.
  intros l. split; induction l as [|h l IH]; cbn; auto.
  - rewrite put_in_perm. auto.
  - constructor.
  - apply put_in_sorted; auto.
Qed.
Example C114_case : sorts put_all /\ exists s l raw, crossings_of put_all wedge s (mkv (-5) 0 0) (mkv 1 0 0) = Ok l /\ raw_hits wedge s (mkv (-5) 0 0) (mkv 1 0 0) = Ok raw /\ In (mkhit 5 false) raw.
Proof.
  split; [apply put_all_sorts|].
  destruct (C113_search to_float as_is as_is_perm wedge (mkv (-5) 0 0) (mkv 1 0 0) ahead_nonzero wedge_fit wedge_range) as (s & l & B & E & P); [cbn; lia|].
  exists s, (merge (put_all l)), l. unfold crossings_of. rewrite E. split; [auto|split; [auto|]].
  apply (Permutation_in _ (Permutation_sym P)). rewrite wedge_tried. right. left. reflexivity.
Qed.

Print Assumptions C114_given.
Print Assumptions C114_covered.
Print Assumptions C114_touch_refuted.
