(** The count of the edges of a mesh. *)
From Coq Require Import Reals List Bool ZArith Lia Lra Permutation.
From Verif Require Import TraversalModel VectorModel MeshModel MeshSpec.
Import ListNotations.

Notation key := (Z * Z * Z)%type.
Lemma key_eqb_spec (a b : key) : key_eqb a b = true <-> a = b.
Proof.
  destruct a as [[x y] z], b as [[x' y'] z']. cbn. rewrite !andb_true_iff, !Z.eqb_eq. split; [intros [[-> ->] ->]; auto|intros E; injection E; auto].
Qed.
Lemma key_eqb_refl a : key_eqb a a = true. Proof. apply key_eqb_spec; auto. Qed.
Lemma key_dec (a b : key) : {a = b} + {a <> b}. Proof. repeat decide equality. Qed.

Lemma index_some k l i : index_of k l = Some i -> nth_error l i = Some k.
Proof.
  revert i. induction l as [|a l IH]; cbn; intros i E; [discriminate|]. destruct (key_eqb k a) eqn:K.
  - injection E as <-. apply key_eqb_spec in K. subst. reflexivity.
  - destruct (index_of k l) as [j|]; [|discriminate]. injection E as <-. cbn. auto.
Qed.
Lemma index_none k l : index_of k l = None -> ~ In k l.
Proof.
  induction l as [|a l IH]; cbn; intros E; [tauto|]. destruct (key_eqb k a) eqn:K; [discriminate|].
  destruct (index_of k l); [discriminate|]. intros [->|I]; [rewrite key_eqb_refl in K; discriminate|]. apply IH; auto.
Qed.
Lemma vertex_id_ok m v m' i : NoDup m -> vertex_id m v = (m', i) -> NoDup m' /\ (exists x, m' = m ++ x) /\ nth_error m' i = Some (key_of v).
Proof.
  intros N. unfold vertex_id. destruct (index_of (key_of v) m) as [j|] eqn:E; intros H; injection H as <- <-.
  - split; auto. split; [exists []; rewrite app_nil_r; auto|]. apply index_some; auto.
  - apply index_none in E. split; [|split; [eauto|]].
    + apply (Permutation_NoDup (l := key_of v :: m)); [|constructor; auto]. apply Permutation_cons_append.
    + rewrite nth_error_app2 by lia. rewrite Nat.sub_diag. reflexivity.
Qed.

(** ** Sides between keys *)
Definition ksides (a b c : key) : list (key * key) :=
  if key_eqb a b || key_eqb b c || key_eqb c a then [] else [(a, b); (b, c); (c, a)].
Definition key_sides (t : triangle) : list (key * key) := ksides (key_of (ta t)) (key_of (tb t)) (key_of (tc t)).
Definition joins (p q : key) (e : key * key) : bool := (key_eqb (fst e) p && key_eqb (snd e) q) || (key_eqb (fst e) q && key_eqb (snd e) p).
(** How many sides join two places. *)
Definition number (p q : key) (tris : list triangle) : nat := length (filter (joins p q) (flat_map key_sides tris)).

Lemma joins_spec p q e : joins p q e = true <-> (fst e = p /\ snd e = q) \/ (fst e = q /\ snd e = p).
Proof. unfold joins. rewrite orb_true_iff, !andb_true_iff, !key_eqb_spec. tauto. Qed.

Fixpoint count_in (e : nat * nat) (ec : list (nat * nat * nat)) : nat :=
  match ec with
  | [] => 0%nat
  | (f, n) :: ec => if Nat.eqb (fst e) (fst f) && Nat.eqb (snd e) (snd f) then n else count_in e ec
  end.
Lemma pair_dec (a b : nat * nat) : {a = b} + {a <> b}. Proof. repeat decide equality. Qed.
Definition pair_eqb (e f : nat * nat) : bool := Nat.eqb (fst e) (fst f) && Nat.eqb (snd e) (snd f).
Lemma pair_eqb_spec e f : pair_eqb e f = true <-> e = f.
Proof. destruct e, f. unfold pair_eqb. cbn. rewrite andb_true_iff, !Nat.eqb_eq. split; [intros []; subst; auto|intros E; injection E; auto]. Qed.
Lemma pair_eqb_refl e : pair_eqb e e = true. Proof. apply pair_eqb_spec; auto. Qed.

Lemma count_increment e f ec : count_in f (increment e ec) = (count_in f ec + (if pair_eqb f e then 1 else 0))%nat.
Proof.
  induction ec as [|[g n] ec IH]; cbn.
  - fold (pair_eqb f e). destruct (pair_eqb f e); auto.
  - fold (pair_eqb e g). fold (pair_eqb f g). destruct (pair_eqb e g) eqn:EG; cbn; fold (pair_eqb f g).
    + apply pair_eqb_spec in EG. subst g. destruct (pair_eqb f e); lia.
    + destruct (pair_eqb f g) eqn:FG; auto. destruct (pair_eqb f e) eqn:FE; [|lia]. apply pair_eqb_spec in FE, FG. subst. rewrite pair_eqb_refl in EG. discriminate.
Qed.
Lemma increment_keys e ec f : In f (map fst (increment e ec)) <-> f = e \/ In f (map fst ec).
Proof.
  induction ec as [|[g n] ec IH]; cbn; [intuition|]. fold (pair_eqb e g). destruct (pair_eqb e g) eqn:EG; cbn.
  - apply pair_eqb_spec in EG. subst. intuition.
  - rewrite IH. intuition.
Qed.
Lemma increment_nodup e ec : NoDup (map fst ec) -> NoDup (map fst (increment e ec)).
Proof.
  induction ec as [|[g n] ec IH]; cbn; intros N; [repeat constructor; auto|]. inversion N; subst. fold (pair_eqb e g). destruct (pair_eqb e g) eqn:EG; cbn; [constructor; auto|].
  constructor; auto. intros I. apply increment_keys in I. destruct I as [->|I]; [rewrite pair_eqb_refl in EG; discriminate|contradiction].
Qed.
Lemma count_entry e n ec : NoDup (map fst ec) -> In (e, n) ec -> count_in e ec = n.
Proof.
  induction ec as [|[g m] ec IH]; cbn; intros N I; [tauto|]. inversion N; subst. fold (pair_eqb e g). destruct I as [I|I].
  - injection I as -> ->. rewrite pair_eqb_refl. auto.
  - destruct (pair_eqb e g) eqn:EG; auto. apply pair_eqb_spec in EG. subst. exfalso. apply H1. apply (in_map fst) in I. auto.
Qed.
Lemma count_none e ec : ~ In e (map fst ec) -> count_in e ec = 0%nat.
Proof.
  induction ec as [|[g m] ec IH]; cbn; intros N; auto. fold (pair_eqb e g). destruct (pair_eqb e g) eqn:EG; [apply pair_eqb_spec in EG; subst; tauto|]. apply IH. tauto.
Qed.
Lemma count_some e ec : In e (map fst ec) -> In (e, count_in e ec) ec.
Proof.
  induction ec as [|[g m] ec IH]; cbn; [tauto|]. fold (pair_eqb e g). destruct (pair_eqb e g) eqn:EG; [apply pair_eqb_spec in EG; subst; auto|].
  intros [->|I]; [rewrite pair_eqb_refl in EG; discriminate|]. right. auto.
Qed.

(** ** What holds while counting *)
Record counted (vm : list key) (ec : list (nat * nat * nat)) (done : list triangle) : Prop := mkcounted
  { ct_nodup : NoDup vm;
    ct_keys : forall t, In t done -> In (key_of (ta t)) vm /\ In (key_of (tb t)) vm /\ In (key_of (tc t)) vm;
    ct_uniq : NoDup (map fst ec);
    ct_range : forall i j, In (i, j) (map fst ec) -> (i < j < length vm)%nat;
    ct_count : forall i j p q, nth_error vm i = Some p -> nth_error vm j = Some q -> i <> j -> count_in (edge_key i j) ec = number p q done }.

Lemma side_in_keys t p q : In (p, q) (key_sides t) -> p <> q /\ (p = key_of (ta t) \/ p = key_of (tb t) \/ p = key_of (tc t)) /\ (q = key_of (ta t) \/ q = key_of (tb t) \/ q = key_of (tc t)).
Proof.
  unfold key_sides, ksides. destruct (key_eqb _ _ || key_eqb _ _ || key_eqb _ _) eqn:E; [cbn; tauto|].
  apply orb_false_iff in E. destruct E as [E E3]. apply orb_false_iff in E. destruct E as [E1 E2].
  assert (D : forall a b, key_eqb a b = false -> a <> b) by (intros a b F G; subst; rewrite key_eqb_refl in F; discriminate).
  apply D in E1, E2, E3. cbn. intros [I|[I|[I|[]]]]; injection I as <- <-; auto 10.
Qed.
Lemma number_zero vm ec done p q : counted vm ec done -> ~ In p vm \/ ~ In q vm -> number p q done = 0%nat.
Proof.
  intros C H. unfold number. destruct (filter (joins p q) (flat_map key_sides done)) as [|e l] eqn:F; auto. exfalso.
  assert (I : In e (filter (joins p q) (flat_map key_sides done))) by (rewrite F; left; auto).
  apply filter_In in I. destruct I as [I J]. apply in_flat_map in I. destruct I as (t & T & I). destruct e as [x y].
  destruct (side_in_keys _ _ _ I) as (_ & X & Y). destruct (ct_keys _ _ _ C t T) as (K1 & K2 & K3).
  assert (In x vm) by (destruct X as [->|[->| ->]]; auto). assert (In y vm) by (destruct Y as [->|[->| ->]]; auto).
  apply joins_spec in J. cbn in J. destruct J as [[-> ->]|[-> ->]]; tauto.
Qed.

Lemma nodup_app_out (vm x : list key) i p : NoDup (vm ++ x) -> nth_error (vm ++ x) i = Some p -> (length vm <= i)%nat -> ~ In p vm.
Proof.
  intros N E L I. apply In_nth_error in I. destruct I as [j J].
  assert (JL : (j < length vm)%nat) by (apply nth_error_Some; congruence).
  assert (E2 : nth_error (vm ++ x) j = Some p) by (rewrite nth_error_app1; auto).
  rewrite NoDup_nth_error in N. assert (i = j); [|lia]. apply N; [apply nth_error_Some; congruence|congruence].
Qed.

Lemma counted_extend vm ec done x : counted vm ec done -> NoDup (vm ++ x) -> counted (vm ++ x) ec done.
Proof.
  intros C N. destruct C as [C1 C2 C3 C4 C5] eqn:EC. clear EC. constructor; auto.
  - intros t T. destruct (C2 t T) as (A & B & D). rewrite !in_app_iff. auto.
  - intros i j I. apply C4 in I. rewrite app_length. lia.
  - intros i j p q P Q IJ.
    destruct (le_lt_dec (length vm) i) as [L|L]; [|destruct (le_lt_dec (length vm) j) as [L2|L2]].
    + rewrite (number_zero vm ec done); [|constructor; auto|left; eapply nodup_app_out; eauto].
      apply count_none. intros I. unfold edge_key in I. apply C4 in I. lia.
    + rewrite (number_zero vm ec done); [|constructor; auto|right; eapply nodup_app_out; eauto].
      apply count_none. intros I. unfold edge_key in I. apply C4 in I. lia.
    + rewrite nth_error_app1 in P, Q by auto. auto.
Qed.

Lemma edge_key_joins vm i j a b p q x y : NoDup vm -> nth_error vm i = Some p -> nth_error vm j = Some q -> nth_error vm a = Some x -> nth_error vm b = Some y ->
  pair_eqb (edge_key i j) (edge_key a b) = joins p q (x, y).
Proof.
  intros N I J A B. apply eq_true_iff_eq. rewrite pair_eqb_spec, joins_spec. cbn.
  assert (U : forall m n r, nth_error vm m = Some r -> nth_error vm n = Some r -> m = n).
  { intros m n r M K. rewrite NoDup_nth_error in N. apply N; [apply nth_error_Some; congruence|congruence]. }
  unfold edge_key. split.
  - intros E. injection E as E1 E2. assert (H : (i = a /\ j = b) \/ (i = b /\ j = a)) by lia. destruct H as [[-> ->]|[-> ->]]; [left|right]; split; congruence.
  - intros [[-> ->]|[-> ->]].
    + rewrite (U i a p), (U j b q); auto.
    + rewrite (U i b p), (U j a q); auto. f_equal; lia.
Qed.

Lemma number_snoc p q done t : number p q (done ++ [t]) = (number p q done + length (filter (joins p q) (key_sides t)))%nat.
Proof. unfold number. rewrite flat_map_app, filter_app, app_length. cbn. rewrite app_nil_r. reflexivity. Qed.

Lemma counted_step vm ec done t vm' ec' : counted vm ec done -> count_triangle (vm, ec) t = (vm', ec') -> counted vm' ec' (done ++ [t]).
Proof.
  intros C. unfold count_triangle.
  destruct (vertex_id vm (ta t)) as [v1 i] eqn:V1. destruct (vertex_id v1 (tb t)) as [v2 j] eqn:V2. destruct (vertex_id v2 (tc t)) as [v3 k] eqn:V3.
  destruct (vertex_id_ok _ _ _ _ (ct_nodup _ _ _ C) V1) as (N1 & (x1 & ->) & K1).
  destruct (vertex_id_ok _ _ _ _ N1 V2) as (N2 & (x2 & ->) & K2).
  destruct (vertex_id_ok _ _ _ _ N2 V3) as (N3 & (x3 & ->) & K3). clear V1 V2 V3.
  assert (KI : nth_error (((vm ++ x1) ++ x2) ++ x3) i = Some (key_of (ta t))).
  { assert (L : (i < length (vm ++ x1))%nat) by (apply nth_error_Some; congruence). rewrite nth_error_app1 by (rewrite app_length; lia). rewrite nth_error_app1 by auto. auto. }
  assert (KJ : nth_error (((vm ++ x1) ++ x2) ++ x3) j = Some (key_of (tb t))) by (rewrite nth_error_app1; auto; apply nth_error_Some; congruence).
  assert (C0 : counted (((vm ++ x1) ++ x2) ++ x3) ec done) by (rewrite <- !app_assoc in *; apply counted_extend; auto).
  set (w := ((vm ++ x1) ++ x2) ++ x3) in *. clearbody w. clear C K1 K2 N1 N2. destruct C0 as [C1 C2 C3 C4 C5].
  assert (KEYS : forall t', In t' (done ++ [t]) -> In (key_of (ta t')) w /\ In (key_of (tb t')) w /\ In (key_of (tc t')) w).
  { intros t' I. apply in_app_or in I. destruct I as [I|[<-|[]]]; [auto|]. repeat split; eapply nth_error_In; eauto. }
  assert (EQK : forall a b p q, nth_error w a = Some p -> nth_error w b = Some q -> Nat.eqb a b = key_eqb p q).
  { intros a b p q A B. apply eq_true_iff_eq. rewrite Nat.eqb_eq, key_eqb_spec. split; [congruence|]. intros ->. rewrite NoDup_nth_error in C1. apply C1; [apply nth_error_Some; congruence|congruence]. }
  rewrite (EQK i j _ _ KI KJ), (EQK j k _ _ KJ K3), (EQK k i _ _ K3 KI).
  destruct (key_eqb (key_of (ta t)) (key_of (tb t)) || key_eqb (key_of (tb t)) (key_of (tc t)) || key_eqb (key_of (tc t)) (key_of (ta t))) eqn:DG; intros H; injection H as <- <-.
  - constructor; auto. intros. rewrite number_snoc. unfold key_sides, ksides. rewrite DG. cbn. rewrite Nat.add_0_r. auto.
  - assert (DG' := DG). rewrite <- (EQK i j _ _ KI KJ), <- (EQK j k _ _ KJ K3), <- (EQK k i _ _ K3 KI) in DG'.
    apply orb_false_iff in DG'. destruct DG' as [DG' D3]. apply orb_false_iff in DG'. destruct DG' as [D1 D2]. apply Nat.eqb_neq in D1, D2, D3.
    assert (LI : (i < length w)%nat) by (apply nth_error_Some; congruence). assert (LJ : (j < length w)%nat) by (apply nth_error_Some; congruence). assert (LK : (k < length w)%nat) by (apply nth_error_Some; congruence).
    constructor; auto.
    + repeat apply increment_nodup. auto.
    + intros a b I. rewrite !increment_keys in I. unfold edge_key in I. destruct I as [I|[I|[I|I]]]; try (injection I as -> ->; lia). auto.
    + intros a b p q A B AB. rewrite !count_increment, number_snoc. rewrite (C5 a b p q) by auto.
      rewrite (edge_key_joins w a b k i p q _ _ C1 A B K3 KI), (edge_key_joins w a b j k p q _ _ C1 A B KJ K3), (edge_key_joins w a b i j p q _ _ C1 A B KI KJ).
      unfold key_sides, ksides. rewrite DG. cbn [filter].
      destruct (joins p q (key_of (ta t), key_of (tb t))), (joins p q (key_of (tb t), key_of (tc t))), (joins p q (key_of (tc t), key_of (ta t))); cbn; lia.
Qed.

Lemma counted_all l : forall vm ec done, counted vm ec done -> exists vm' ec', fold_left count_triangle l (vm, ec) = (vm', ec') /\ counted vm' ec' (done ++ l).
Proof.
  induction l as [|t l IH]; intros vm ec done C; cbn [fold_left].
  - exists vm, ec. rewrite app_nil_r. auto.
  - destruct (count_triangle (vm, ec) t) as [vm1 ec1] eqn:E. destruct (IH _ _ _ (counted_step _ _ _ _ _ _ C E)) as (vm' & ec' & F & C'). exists vm', ec'. split; auto. rewrite <- app_assoc in C'. auto.
Qed.
Lemma counted_nil : counted [] [] [].
Proof. constructor; cbn; try constructor; try tauto; auto. Qed.

(** Entries of the table are numbers of sides, and every side has its entry. *)
Lemma entry_number vm ec tris e n : counted vm ec tris -> In (e, n) ec -> exists p q, p <> q /\ n = number p q tris.
Proof.
  intros C I. destruct e as [i j]. assert (R := ct_range _ _ _ C i j (in_map fst _ _ I)).
  destruct (nth_error vm i) as [p|] eqn:P; [|apply nth_error_None in P; lia]. destruct (nth_error vm j) as [q|] eqn:Q; [|apply nth_error_None in Q; lia].
  exists p, q. split.
  - intros ->. pose proof (ct_nodup _ _ _ C) as N. rewrite NoDup_nth_error in N. assert (i = j); [apply N; [lia|congruence]|lia].
  - rewrite <- (ct_count _ _ _ C i j p q P Q) by lia. unfold edge_key. rewrite Nat.min_l, Nat.max_r by lia. symmetry. apply count_entry; auto. apply (ct_uniq _ _ _ C).
Qed.
Lemma number_entry vm ec tris p q : counted vm ec tris -> p <> q -> number p q tris <> 0%nat -> exists e, In (e, number p q tris) ec.
Proof.
  intros C D N. destruct (in_dec key_dec p vm) as [P|P]; [|exfalso; apply N; apply (number_zero _ _ _ _ _ C); auto]. destruct (in_dec key_dec q vm) as [Q|Q]; [|exfalso; apply N; apply (number_zero _ _ _ _ _ C); auto].
  apply In_nth_error in P, Q. destruct P as [i P], Q as [j Q]. assert (IJ : i <> j) by (intros ->; congruence).
  rewrite <- (ct_count _ _ _ C i j p q P Q IJ) in *. exists (edge_key i j). apply count_some.
  destruct (in_dec pair_dec (edge_key i j) (map fst ec)) as [I|I]; auto. exfalso. apply N. apply count_none. auto.
Qed.
