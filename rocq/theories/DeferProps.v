(** The parsing of GDML solids: the theorems. *)
From Coq Require Import List Bool Arith Lia Ascii String Permutation.
From Verif Require Import GdmlModel GdmlLoopModel InstModel InstSpec DeferModel DeferSpec DeferProofs.
Import ListNotations.

(** C155: resolving the deferred booleans ends, for any document. *)
Theorem C155_ends : forall (T : Type) (eq : T -> T -> bool) enabled al doc,
  exists fuel, forall more, parse_solids eq enabled (fuel + more) al doc <> None.
Proof. exact parse_ends. Qed.
Print Assumptions C155_ends.

(** C155: where names are defined once and carry no pointer suffix, a name is bound to what the
    document means by it, wherever its operands are defined, and to nothing else. *)
Theorem C155_meaning : forall (T : Type) (eq : T -> T -> bool) enabled al (doc : list (node T)) fuel st skipped,
  plain enabled doc -> (forall o, al o <> None -> enabled = true /\ exists b, suffixed o b) ->
  parse_solids eq enabled fuel al doc = Some (st, skipped) ->
  (forall n t, instances st n = [t] <-> denotes doc n t) /\ (forall n, List.length (instances st n) <= 1).
Proof. intros T eq en al doc fuel st skipped P A H. destruct (parsed eq en al doc P A fuel st skipped H) as (X & Y & _). now split. Qed.
Print Assumptions C155_meaning.

(** C155: the booleans skipped with a warning are those that mean nothing. *)
Theorem C155_skipped : forall (T : Type) (eq : T -> T -> bool) enabled al (doc : list (node T)) fuel st skipped,
  plain enabled doc -> (forall o, al o <> None -> enabled = true /\ exists b, suffixed o b) ->
  parse_solids eq enabled fuel al doc = Some (st, skipped) ->
  forall n, In n skipped <-> exists f s make, In (Boolean n f s make) doc /\ n <> [] /\ forall t, ~ denotes doc n t.
Proof. intros T eq en al doc fuel st skipped P A H. destruct (parsed eq en al doc P A fuel st skipped H) as (_ & _ & X). exact X. Qed.
Print Assumptions C155_skipped.

(** C155: the order of the solids in the document does not matter. *)
Theorem C155_order : forall (T : Type) (eq : T -> T -> bool) enabled al (doc doc' : list (node T)) fuel fuel' st st' skipped skipped',
  plain enabled doc -> Permutation doc doc' -> (forall o, al o <> None -> enabled = true /\ exists b, suffixed o b) ->
  parse_solids eq enabled fuel al doc = Some (st, skipped) -> parse_solids eq enabled fuel' al doc' = Some (st', skipped') ->
  (forall n, instances st n = instances st' n) /\ (forall n, In n skipped <-> In n skipped').
Proof.
  intros T eq en al doc doc' fuel fuel' st st' sk sk' P PE A H H'.
  assert (P' : plain en doc').
  { destruct P as [P1 P2]. split.
    - apply (Permutation_NoDup (Permutation_flat_map defines PE) P1).
    - intros n I. apply P2. apply (Permutation_in n (Permutation_flat_map mentions (Permutation_sym PE)) I). }
  assert (D : forall d d' : list (node T), Permutation d d' -> forall n t, denotes d n t -> denotes d' n t).
  { clear. intros d d' PE n t D. induction D as [n g I N|n f s mk a b I N D1 IH1 D2 IH2].
    - apply denotes_primitive; [|exact N]. now apply (Permutation_in _ PE).
    - apply (denotes_boolean d' n f s); auto. now apply (Permutation_in _ PE). }
  destruct (parsed eq en al doc P A _ _ _ H) as (X & L & K). destruct (parsed eq en al doc' P' A _ _ _ H') as (X' & L' & K').
  split.
  - intros n. destruct (instances st n) as [|t [|u l]] eqn:E.
    + destruct (instances st' n) as [|t [|u l]] eqn:E'; [reflexivity| |specialize (L' n); rewrite E' in L'; cbn in L'; lia].
      apply X', (D doc' doc (Permutation_sym PE)), X in E'. congruence.
    + apply X, (D doc doc' PE), X' in E. now symmetry.
    + specialize (L n). rewrite E in L. cbn in L. lia.
  - intros n. rewrite K, K'. split; intros (f & s & mk & I & N & Z); exists f, s, mk; (split; [|split; [exact N|]]).
    + now apply (Permutation_in _ PE).
    + intros t Q. apply (Z t). now apply (D doc' doc (Permutation_sym PE)).
    + now apply (Permutation_in _ (Permutation_sym PE)).
    + intros t Q. apply (Z t). now apply (D doc doc' PE).
Qed.
Print Assumptions C155_order.

(** Shapes to read the results off; for the examples only, they stand for the Geometry of GDMLSolidParser.cxx:409-584. *)
Inductive shape := Leaf (n : nat) | Both (a b : shape).
Definition same (a b : shape) : bool := false.
Definition seen (r : option (tracker shape * list (list ascii))) (n : list ascii) : option (list shape * list (list ascii)) :=
  match r with Some (st, sk) => Some (instances st n, sk) | None => None end.

(** Two booleans before their operands, one upon the other, and one without an operand. *)
Definition sample : list (node shape) :=
  [Boolean (text "outer") (text "inner") (text "a") Both; Boolean (text "inner") (text "a") (text "b") Both;
   Boolean (text "lost") (text "a") (text "none") Both; Primitive (text "b") (Some (Leaf 2)); Primitive (text "a") (Some (Leaf 1))].
Example C155_case : plain true sample
  /\ seen (parse_solids same true 30 (fun _ => None) sample) (text "outer")
     = Some ([Both (Both (Leaf 1) (Leaf 2)) (Leaf 1)], [text "lost"])
  /\ seen (parse_solids same true 30 (fun _ => None) (rev sample)) (text "outer")
     = Some ([Both (Both (Leaf 1) (Leaf 2)) (Leaf 1)], [text "lost"]).
Proof.
  split; [|split; vm_compute; reflexivity]. split.
  - vm_compute. repeat constructor; cbn; intuition discriminate.
  - intros n I. assert (Q : forallb (fun m => str_eqb (strip true m) m) (flat_map mentions sample) = true) by (vm_compute; reflexivity).
    rewrite forallb_forall in Q. specialize (Q _ I). apply GdmlProofs.str_eqb_eq in Q. now apply InstProofs.base_strip.
Qed.

(** C156: a boolean whose operands are found where it stands is made at once of what they are then. *)
Theorem C156_at_once : forall (T : Type) (eq : T -> T -> bool) enabled st ds n f s make a b,
  n <> [] -> lookup enabled st f = Some a -> lookup enabled st s = Some b ->
  parse_node eq enabled (st, ds) (Boolean n f s make) = (store eq enabled st n (make a b), ds).
Proof. intros T eq en st ds n f s mk a b N A B. cbn [parse_node]. destruct n; [contradiction|]. now rewrite A, B. Qed.
Print Assumptions C156_at_once.

(** C156 is false of the operands of a deferred boolean: one named with its pointer suffix is found among
    several, but the boolean is made of the one stored last. *)
Theorem C156_suffix_refuted : exists doc : list (node shape),
  In (Primitive (text "A0x1111111") (Some (Leaf 1))) doc /\ NoDup (flat_map defines doc) /\
  In (Boolean (text "U") (text "A0x1111111") (text "B0x3333333") Both) doc /\
  seen (parse_solids same true 30 (fun _ => None) doc) (text "U") = Some ([Both (Leaf 2) (Leaf 3)], []).
Proof.
  exists [Primitive (text "A0x1111111") (Some (Leaf 1)); Primitive (text "A0x2222222") (Some (Leaf 2));
          Boolean (text "U") (text "A0x1111111") (text "B0x3333333") Both; Primitive (text "B0x3333333") (Some (Leaf 3))].
  split; [now left|]. split; [vm_compute; repeat constructor; cbn; intuition discriminate|]. split; [right; right; now left|]. vm_compute. reflexivity.
Qed.
Print Assumptions C156_suffix_refuted.

(** C156 is false of a suffixed name that is defined further down: an earlier solid of the same base name
    is taken in its place and nothing is deferred. *)
Theorem C156_forward_refuted : exists doc : list (node shape),
  In (Primitive (text "A0x2222222") (Some (Leaf 2))) doc /\ NoDup (flat_map defines doc) /\
  In (Boolean (text "U") (text "A0x2222222") (text "A0x1111111") Both) doc /\
  seen (parse_solids same true 30 (fun _ => None) doc) (text "U") = Some ([Both (Leaf 1) (Leaf 1)], []).
Proof.
  exists [Primitive (text "A0x1111111") (Some (Leaf 1)); Boolean (text "U") (text "A0x2222222") (text "A0x1111111") Both;
          Primitive (text "A0x2222222") (Some (Leaf 2))].
  split; [right; right; now left|]. split; [vm_compute; repeat constructor; cbn; intuition discriminate|]. split; [right; now left|]. vm_compute. reflexivity.
Qed.
Print Assumptions C156_forward_refuted.

(** C156 is false of repeated names: a deferred boolean comes after the later solid of the same name, so
    the first instance is not the first in the document. *)
Theorem C156_repeated_refuted : exists doc doc' : list (node shape), Permutation doc doc' /\
  (forall n, In n (flat_map mentions doc) -> base true n n) /\
  seen (parse_solids same true 30 (fun _ => None) doc) (text "S") = Some ([Leaf 9; Both (Leaf 1) (Leaf 2)], []) /\
  seen (parse_solids same true 30 (fun _ => None) doc') (text "S") = Some ([Both (Leaf 1) (Leaf 2); Leaf 9], []) /\
  filter (fun x => match defines x with [n] => str_eqb n (text "S") | _ => false end) doc =
  filter (fun x => match defines x with [n] => str_eqb n (text "S") | _ => false end) doc'.
Proof.
  exists [Boolean (text "S") (text "A") (text "B") Both; Primitive (text "S") (Some (Leaf 9));
          Primitive (text "A") (Some (Leaf 1)); Primitive (text "B") (Some (Leaf 2))],
         [Primitive (text "A") (Some (Leaf 1)); Primitive (text "B") (Some (Leaf 2));
          Boolean (text "S") (text "A") (text "B") Both; Primitive (text "S") (Some (Leaf 9))].
  split; [|split; [|split; [|split]]]; try (vm_compute; reflexivity).
  - apply (Permutation_app_comm [_; _] [_; _]).
  - match goal with |- forall n, In n ?l -> _ => assert (Q : forallb (fun m => str_eqb (strip true m) m) l = true) by (vm_compute; reflexivity) end.
    intros n I. rewrite forallb_forall in Q. specialize (Q _ I). apply GdmlProofs.str_eqb_eq in Q. now apply InstProofs.base_strip.
Qed.
Print Assumptions C156_repeated_refuted.

Example C156_case : seen (parse_solids same true 30 (fun _ => None)
    [Primitive (text "A0x1111111") (Some (Leaf 1)); Primitive (text "B") (Some (Leaf 2));
     Boolean (text "U") (text "A0x1111111") (text "B") Both; Primitive (text "A0x2222222") (Some (Leaf 3))]) (text "U")
  = Some ([Both (Leaf 1) (Leaf 2)], []).
Proof. vm_compute. reflexivity. Qed.
