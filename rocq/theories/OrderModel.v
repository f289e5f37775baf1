(** Comparison operators of the data classes.
    Sources: projects/dataclasses/private/InteractionSignature.cxx,
    ParticleID.cxx, InteractionRecord.cxx and the library operators they use. *)
From Coq Require Import List Bool ZArith.
Import ListNotations.
Open Scope Z_scope.

(** A type's [operator<] and [operator==]. For example InteractionSignature.cxx:10-26. *)
Record cmp (A : Type) := mkcmp { lt_ : A -> A -> bool; eq_ : A -> A -> bool }.
Arguments mkcmp {A}. Arguments lt_ {A}. Arguments eq_ {A}.

(** Comparing a member: used for each entry of a [std::tie]. InteractionSignature.cxx:10-26. *)
Definition on {A B} (f : A -> B) (c : cmp B) : cmp A :=
  mkcmp (fun x y => lt_ c (f x) (f y)) (fun x y => eq_ c (f x) (f y)).

(** [operator<] of [std::tuple]: entry less, or not greater and the rest less. ParticleID.cxx:76. *)
Fixpoint tie_lt {A} (l : list (cmp A)) (x y : A) : bool :=
  match l with
  | [] => false
  | c :: r => lt_ c x y || (negb (lt_ c y x) && tie_lt r x y)
  end.

(** [operator==] of [std::tuple]. ParticleID.cxx:80. *)
Fixpoint tie_eq {A} (l : list (cmp A)) (x y : A) : bool :=
  match l with
  | [] => true
  | c :: r => eq_ c x y && tie_eq r x y
  end.

(** ParticleID.cxx:75-81, both operators on [std::tie]. *)
Definition tie {A} (l : list (cmp A)) : cmp A := mkcmp (tie_lt l) (tie_eq l).

(** [std::lexicographical_compare], the [operator<] of vector, array and map.
    InteractionSignature.cxx:21-26. *)
Fixpoint list_lt {A} (c : cmp A) (x y : list A) : bool :=
  match x, y with
  | [], [] => false
  | [], _ :: _ => true
  | _ :: _, [] => false
  | a :: r, b :: s => if lt_ c a b then true else if lt_ c b a then false else list_lt c r s
  end.

(** [operator==] of the same containers: equal sizes and [std::equal]. InteractionSignature.cxx:10-15. *)
Fixpoint list_eq {A} (c : cmp A) (x y : list A) : bool :=
  match x, y with
  | [], [] => true
  | a :: r, b :: s => eq_ c a b && list_eq c r s
  | _, _ => false
  end.

(** InteractionSignature.cxx:10-26, both operators on [std::vector]. *)
Definition vec {A} (c : cmp A) : cmp (list A) := mkcmp (list_lt c) (list_eq c).

(** [std::pair] (map entries). InteractionRecord.cxx:1208-1248. *)
Definition pair_cmp {A B} (c : cmp A) (d : cmp B) : cmp (A * B) := tie [on fst c; on snd d].

(** Integers and enumerations. ParticleID.cxx:75-81. *)
Definition int_cmp : cmp Z := mkcmp Z.ltb Z.eqb.

(** [bool]: false before true. ParticleID.cxx:75-81. *)
Definition bool_cmp : cmp bool := mkcmp (fun x y => negb x && y) Bool.eqb.

(** [std::string]: lexicographic by character. InteractionRecord.cxx:1208-1248. *)
Definition string_cmp : cmp (list Z) := vec int_cmp.

(** InteractionSignature.h:24-26. *)
Record signature := mksig { primary_type : Z; target_type : Z; secondary_types : list Z }.

(** InteractionSignature.cxx:10-26. *)
Definition signature_cmp : cmp signature :=
  tie [on primary_type int_cmp; on target_type int_cmp; on secondary_types (vec int_cmp)].

(** ParticleID.h:26-28. *)
Record particle_id := mkid { id_set : bool; major_id : Z; minor_id : Z }.

(** ParticleID.cxx:75-81. *)
Definition id_cmp : cmp particle_id :=
  tie [on id_set bool_cmp; on major_id int_cmp; on minor_id int_cmp].

Section Record.
(** The floating-point numbers and their comparison. InteractionRecord.cxx:1208-1248. *)
Variable D : Type.
(** InteractionRecord.cxx:1208-1248, comparison of doubles. *)
Variable dc : cmp D.

(** InteractionRecord.h:308-325, all members. Fixed-size arrays are lists. The
    parameter map is its sequence of entries in key order. *)
Record interaction_record := mkrec {
  r_signature : signature;
  r_primary_id : particle_id;
  r_primary_initial_position : list D;
  r_primary_initial_time : D;
  r_primary_mass : D;
  r_primary_momentum : list D;
  r_primary_helicity : D;
  r_target_id : particle_id;
  r_target_mass : D;
  r_target_helicity : D;
  r_interaction_vertex : list D;
  r_interaction_time : D;
  r_secondary_ids : list particle_id;
  r_secondary_masses : list D;
  r_secondary_momenta : list (list D);
  r_secondary_helicities : list D;
  r_secondary_times : list D;
  r_interaction_parameters : list (list Z * D)
}.

(** InteractionRecord.cxx:1208-1290: both operators tie the same members in the
    same order. *)
Definition record_cmp : cmp interaction_record :=
  tie [on r_signature signature_cmp; on r_primary_id id_cmp;
       on r_primary_initial_position (vec dc); on r_primary_initial_time dc;
       on r_primary_mass dc; on r_primary_momentum (vec dc); on r_primary_helicity dc;
       on r_target_id id_cmp; on r_target_mass dc; on r_target_helicity dc;
       on r_interaction_vertex (vec dc); on r_interaction_time dc;
       on r_secondary_ids (vec id_cmp); on r_secondary_masses (vec dc);
       on r_secondary_momenta (vec (vec dc)); on r_secondary_helicities (vec dc);
       on r_secondary_times (vec dc);
       on r_interaction_parameters (vec (pair_cmp string_cmp dc))].
End Record.
Arguments mkrec {D}.
