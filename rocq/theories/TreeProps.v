(** Property theorems about the interaction tree (C01-C04). *)
From Coq Require Import List Bool ZArith Relations.
From Verif Require Import TraversalModel TreeModel TreeSpec TreeProofs.
Import ListNotations.
Open Scope Z_scope.

(** C01: after every history of additions (fewer than 2^32 entries) the tree is
    well formed. *)
Theorem C01_well_formed :
  forall (R : Type) (s : state R) (ps : list ptr),
  built s ps -> Z.of_nat (length ps) <= kNoParent ->
  exists t, shows s t /\ well_formed t /\ length t = length ps.
Proof. exact (@built_well_formed). Qed.
Print Assumptions C01_well_formed.

(** Every addition such a history may make succeeds and appends one entry. *)
Theorem C01_additions_succeed :
  forall (R : Type) (s : state R) (ps : list ptr) (parent : option ptr),
  built s ps -> (parent = None \/ exists q, parent = Some q /\ In q ps) ->
  (forall r, exists s' p, add_record s r parent = Ok (s', p) /\ st_tree s' = st_tree s ++ [Some p]) /\
  (forall d, exists s' p, add_copy s d parent = Ok (s', p) /\ st_tree s' = st_tree s ++ [Some p]) /\
  (forall p, (p < length (st_heap s))%nat ->
     exists s', add_ptr s p parent = Ok (s', p) /\ st_tree s' = st_tree s ++ [Some p]).
Proof. exact (@built_progress). Qed.
Print Assumptions C01_additions_succeed.

(** A history of five additions of mixed kinds, and the tree it builds. *)
Example C01_case : exists s ps, ex_tree = Ok (s, ps) /\ built s ps /\ length ps = 5%nat /\
  shows s [(10%nat, 0, kNoParent, [1; 2; 4]); (11%nat, 1, 0, []); (12%nat, 2, 0, [3]); (13%nat, 3, 2, []); (14%nat, 4, 0, [])] /\
  tree_depth 6 s 3 = Some (Ok 2).
Proof. exact ex_tree_built. Qed.

(** The conditions on histories are needed: adding one shared datum twice ... *)
Theorem C01_same_datum_twice_refuted : exists (s1 s2 : state nat) p,
  built s1 [p] /\ add_ptr s1 p None = Ok (s2, p) /\
  forall t, shows s2 t -> ~ well_formed t.
Proof. exact same_datum_twice. Qed.
Print Assumptions C01_same_datum_twice_refuted.

(** ... or naming a parent that is not in the tree breaks the tree silently. *)
Theorem C01_foreign_parent_refuted : exists (s1 s2 : state nat) q p,
  built s1 [] /\ nth_error (st_heap s1) q <> None /\ add_record s1 9%nat (Some q) = Ok (s2, p) /\
  forall t, shows s2 t -> ~ well_formed t.
Proof. exact foreign_parent. Qed.
Print Assumptions C01_foreign_parent_refuted.

(** C02: on any state whatever, [depth] ends within size+1 rounds ... *)
Theorem C02_depth_terminates :
  forall (R : Type) (s : state R) (d : datum R), depth_fuel (S (length (st_tree s))) s d <> None.
Proof. exact (@depth_fuel_terminates). Qed.
Print Assumptions C02_depth_terminates.

(** ... and on a well-formed tree it is the number of proper ancestors. *)
Theorem C02_depth_counts_ancestors :
  forall (R : Type) (s : state R) (t : list (row R)), shows s t -> well_formed t ->
  forall i, 0 <= i < Z.of_nat (length t) ->
  exists l, NoDup l /\ (forall j, In j l <-> ancestor t j i) /\
    tree_depth (S (length (st_tree s))) s i = Some (Ok (Z.of_nat (length l))).
Proof. exact (@depth_counts_ancestors). Qed.
Print Assumptions C02_depth_counts_ancestors.

(** C03: saving and loading a tree built through the interface gives an equal tree. *)
Theorem C03_round_trip :
  forall (R : Type) (s : state R) (ps : list ptr) (reqb : R -> R -> bool),
  (forall r, reqb r r = true) -> built s ps -> Z.of_nat (length ps) <= kNoParent ->
  exists toks s', save_tree s = Ok toks /\ load_tree toks = Ok s' /\
    tree_eqb reqb s s' = Ok true /\
    forall t, shows s t -> shows s' t.
Proof. exact (@round_trip). Qed.
Print Assumptions C03_round_trip.

(** Whatever was loaded, the links of an accepted tree stay inside it ... *)
Theorem C03_accepted_in_range :
  forall (R : Type) (toks : list (token R)) (s : state R),
  (forall i r nid par ds, In (TNew i r nid par ds) toks ->
     0 <= par < 4294967296 /\ Forall (fun j => 0 <= j < 4294967296) ds) ->
  Z.of_nat (length toks) <= kNoParent -> load_tree toks = Ok s ->
  exists t, shows s t /\ length t = length toks /\
  forall i x, at_pos t i x -> row_id x = i /\
    (row_parent x = kNoParent \/ 0 <= row_parent x < Z.of_nat (length t)) /\
    Forall (fun j => 0 <= j < Z.of_nat (length t)) (row_daughters x).
Proof. exact (@load_in_range). Qed.
Print Assumptions C03_accepted_in_range.

(** ... and no datum appears twice in it. *)
Theorem C03_accepted_unshared :
  forall (R : Type) (toks : list (token R)) (s : state R),
  Z.of_nat (length (st_tree s)) <= kNoParent -> load_tree toks = Ok s -> NoDup (st_tree s).
Proof. exact (@load_nodup). Qed.
Print Assumptions C03_accepted_unshared.

(** But validation accepts cyclic parent links ... *)
Theorem C03_cycle_accepted_refuted : exists (toks : list (token nat)) s t,
  load_tree toks = Ok s /\ shows s t /\ ancestor t 0 0 /\
  tree_depth (S (length (st_tree s))) s 0 = Some Throw.
Proof. exact cyclic_accepted. Qed.
Print Assumptions C03_cycle_accepted_refuted.

(** ... and daughter lists that do not mirror the parent links. *)
Theorem C03_unmirrored_accepted_refuted : exists (toks : list (token nat)) s t,
  load_tree toks = Ok s /\ shows s t /\
  exists x y, at_pos t 0 x /\ at_pos t 1 y /\ row_parent y = 0 /\ row_daughters x = [].
Proof. exact unmirrored_accepted. Qed.
Print Assumptions C03_unmirrored_accepted_refuted.

(** C04: loading a legacy archive reproduces the pointer topology. *)
Theorem C04_legacy_topology :
  forall (R : Type) (s : state R) (ps : list ptr),
  st_tree s = map Some ps -> NoDup ps -> Z.of_nat (length ps) <= kNoParent ->
  (forall p, In p ps -> exists d, nth_error (st_heap s) p = Some d /\
     (forall q, d_legacy_parent d = Some q -> In q ps) /\
     Forall (fun e => exists q, e = Some q /\ In q ps) (d_legacy_daughters d)) ->
  exists s', rebuild_legacy s = Ok s' /\ st_tree s' = st_tree s /\
  forall k p d, nth_error ps k = Some p -> nth_error (st_heap s) p = Some d ->
  exists d', nth_error (st_heap s') p = Some d' /\
    d_record d' = d_record d /\ d_node_id d' = Z.of_nat k /\
    (d_legacy_parent d = None -> d_parent d' = kNoParent) /\
    (forall q, d_legacy_parent d = Some q ->
       0 <= d_parent d' < Z.of_nat (length ps) /\ nth_error ps (Z.to_nat (d_parent d')) = Some q) /\
    Forall2 (fun e j => 0 <= j < Z.of_nat (length ps) /\ nth_error ps (Z.to_nat j) = e)
      (d_legacy_daughters d) (d_daughters d') /\
    d_legacy_parent d' = None /\ d_legacy_daughters d' = [].
Proof. exact (@legacy_topology). Qed.
Print Assumptions C04_legacy_topology.

(** Shared data in a legacy archive are always rejected. *)
Theorem C04_legacy_shared_rejected :
  forall (R : Type) (s : state R), Z.of_nat (length (st_tree s)) <= kNoParent ->
  ~ NoDup (st_tree s) -> forall s', rebuild_legacy s <> Ok s'.
Proof. exact (@legacy_shared_rejected). Qed.
Print Assumptions C04_legacy_shared_rejected.

(** A null datum in a legacy archive is dereferenced instead of being rejected. *)
Theorem C04_legacy_null_refuted : exists s : state nat, st_tree s = [None] /\ rebuild_legacy s = UB.
Proof. exact legacy_null. Qed.
Print Assumptions C04_legacy_null_refuted.

(** Three data, stored daughter first, with a forward parent reference. *)
Example C04_case :
  exists s', rebuild_legacy (mkstate
      [mkdatum 1%nat 5 5 [9] (Some 2%nat) []; mkdatum 2%nat 0 0 [] (Some 2%nat) [];
       mkdatum 3%nat 8 8 [] None [Some 1%nat; Some 0%nat]] [Some 1%nat; Some 0%nat; Some 2%nat]) = Ok s' /\
  st_heap s' = [mkdatum 1%nat 1 2 [] None []; mkdatum 2%nat 0 2 [] None []; mkdatum 3%nat 2 kNoParent [0; 1] None []].
Proof. eexists. split; lazy; reflexivity. Qed.
