(** Property theorems on the ordering of signatures, ids and records (C06). *)
From Coq Require Import List Bool ZArith.
From Verif Require Import OrderModel OrderSpec OrderProofs.
Import ListNotations.
Open Scope Z_scope.

Theorem C06_signature_ordered :
  ordered signature_cmp /\ forall a b, eq_ signature_cmp a b = true <-> a = b.
Proof. exact (conj signature_ordered signature_eq_iff). Qed.
Print Assumptions C06_signature_ordered.

Theorem C06_particle_id_ordered :
  ordered id_cmp /\ forall a b, eq_ id_cmp a b = true <-> a = b.
Proof. exact (conj id_ordered id_eq_iff). Qed.
Print Assumptions C06_particle_id_ordered.

(** For every NaN-free number type (including signed zeros, since equality need
    not be identity). *)
Theorem C06_record_ordered :
  forall (D : Type) (dc : cmp D), ordered dc -> ordered (record_cmp D dc).
Proof. exact record_ordered. Qed.
Print Assumptions C06_record_ordered.

(** Equality of records looks at every member: where equal numbers are identical,
    equal records are identical. *)
Theorem C06_record_equality :
  forall (D : Type) (dc : cmp D), (forall a b, eq_ dc a b = true <-> a = b) ->
  forall r s, eq_ (record_cmp D dc) r s = true <-> r = s.
Proof. exact record_eq_iff. Qed.
Print Assumptions C06_record_equality.

Example C06_case :
  ordered int_cmp /\
  lt_ (record_cmp Z int_cmp) (ex_record 0 1) (ex_record 0 2) = true /\
  eq_ (record_cmp Z int_cmp) (ex_record 0 1) (ex_record 0 1) = true.
Proof. exact (conj int_ordered (conj eq_refl eq_refl)). Qed.

(** With a NaN member a record is not equal to itself although it is not less. *)
Theorem C06_nan_refuted : exists x : interaction_record (option Z),
  lt_ (record_cmp _ nan_cmp) x x = false /\ eq_ (record_cmp _ nan_cmp) x x = false.
Proof. exact nan_breaks. Qed.
Print Assumptions C06_nan_refuted.
