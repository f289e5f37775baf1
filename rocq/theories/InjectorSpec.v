(** What the event generator promises, stated over the tree a reader sees and the
    calls an observer records. *)
From Coq Require Import List Bool ZArith Permutation.
From Verif Require Import TraversalModel TreeModel TreeSpec OrderModel InjectorModel.
Import ListNotations.
Open Scope Z_scope.

(** Slots the stopping condition was asked about, those it let through, and the
    data added. *)
Definition asked (tr : list step) : list (nat * nat) :=
  flat_map (fun e => match e with Asked p i _ => [(p, i)] | _ => [] end) tr.
Definition let_through (tr : list step) : list (nat * nat) :=
  flat_map (fun e => match e with Asked p i false => [(p, i)] | _ => [] end) tr.
Definition productions (tr : list step) : list (nat * nat * nat) :=
  flat_map (fun e => match e with Produced p i c => [(p, i, c)] | _ => [] end) tr.
Definition slot_of (x : nat * nat * nat) : nat * nat := fst x.
Definition child_of (x : nat * nat * nat) : nat := snd x.

(** Slot [i] of the datum at position [p] holds a particle of a registered type. *)
Definition registered_slot {D} (reg : Z -> Prop) (t : list (row (interaction_record D))) (p i : nat) : Prop :=
  exists x ty, at_pos t (Z.of_nat p) x /\
    nth_error (secondary_types (r_signature (row_record x))) i = Some ty /\ reg ty.

(** A faithful event: [t] is what the reader sees, [tr] what was observed. *)
Record faithful {D} (reg : Z -> Prop) (t : list (row (interaction_record D))) (tr : list step) : Prop := {
  (* one root, at the front *)
  f_root : exists x, at_pos t 0 x /\ row_parent x = kNoParent;
  (* the other data are the produced ones, in order, each below the datum whose slot it fills *)
  f_children : map child_of (productions tr) = seq 1 (length t - 1);
  f_parents : forall p i c, In (p, i, c) (productions tr) ->
     (p < c)%nat /\ registered_slot reg t p i /\
     exists x, at_pos t (Z.of_nat c) x /\ row_parent x = Z.of_nat p;
  (* no slot is used twice *)
  f_once : NoDup (map slot_of (productions tr));
  (* the slots used are exactly those let through *)
  f_used : Permutation (map slot_of (productions tr)) (let_through tr);
  (* the stopping condition was asked exactly once about each registered slot *)
  f_asked : NoDup (asked tr) /\ forall p i, In (p, i) (asked tr) <-> registered_slot reg t p i;
  f_shape : well_formed t
}.

(** In the finished event every daughter's initial time is the time its parent
    lists for it. *)
Definition times_agree {D} (t : list (row (interaction_record D))) (tr : list step) : Prop :=
  forall p i c x y, In (p, i, c) (productions tr) ->
    at_pos t (Z.of_nat p) x -> at_pos t (Z.of_nat c) y ->
    (i < length (r_secondary_times (row_record x)))%nat ->
    nth_error (r_secondary_times (row_record x)) i = Some (r_primary_initial_time (row_record y)).

(** Two records that differ at most in the list of secondary times. *)
Definition same_but_times {D} (a b : interaction_record D) : Prop :=
  exists l, a = mkrec (r_signature b) (r_primary_id b) (r_primary_initial_position b) (r_primary_initial_time b)
        (r_primary_mass b) (r_primary_momentum b) (r_primary_helicity b) (r_target_id b)
        (r_target_mass b) (r_target_helicity b) (r_interaction_vertex b) (r_interaction_time b)
        (r_secondary_ids b) (r_secondary_masses b) (r_secondary_momenta b) (r_secondary_helicities b)
        l (r_interaction_parameters b).

(** Every produced datum is what the process registered for the particle in the
    parent's slot made of that particle. [sec] is the secondary record made from
    the slot, [sample] runs a process on it. *)
Definition made_from_slots {D W P} (create : interaction_record D -> nat -> W -> option (interaction_record D) * W)
    (sample : P -> nat * interaction_record D -> W -> called (interaction_record D) * W)
    (process_for : Z -> option P) (t : list (row (interaction_record D))) (tr : list step) : Prop :=
  forall p i c, In (p, i, c) (productions tr) ->
  exists x y par sec made ty pr w1 w2 w3 w4,
    at_pos t (Z.of_nat p) x /\ at_pos t (Z.of_nat c) y /\
    nth_error (secondary_types (r_signature (row_record x))) i = Some ty /\ process_for ty = Some pr /\
    same_but_times par (row_record x) /\ create par i w1 = (Some sec, w2) /\
    sample pr (i, sec) w3 = (Done made, w4) /\ same_but_times (row_record y) made.

(** Counter histories: construction, generation (any environment, any outcome),
    reset. *)
Inductive counter_history : counters -> Prop :=
| ch_new n : counter_history (new_counters n)
| ch_generate D zero W sp P ss stop gid procs fuel c w r c' w' :
    counter_history c ->
    @generate_event D zero W sp P ss stop gid procs fuel c w = Some (r, c', w') -> counter_history c'
| ch_reset c : counter_history c -> counter_history (reset_injected c).

(** ** Registries *)

(** The calls made on a registry, oldest first. *)
Inductive reg_call (Dist : Type) := CallAdd (p : sec_process Dist) | CallSet (l : list (sec_process Dist)).
Arguments CallAdd {Dist}. Arguments CallSet {Dist}.

Fixpoint run_calls {Dist} (is_vertex : Dist -> bool) (g : registry Dist) (l : list (reg_call Dist)) : reg_result Dist :=
  match l with
  | [] => Registered g
  | c :: r =>
      match (match c with
             | CallAdd p => add_secondary_process is_vertex g p
             | CallSet ps => set_secondary_processes is_vertex g ps
             end) with
      | Registered g' => run_calls is_vertex g' r
      | Exited => Exited
      end
  end.

(** The processes in force after the calls: those of the last Set and the Adds after it. *)
Definition in_force {Dist} (l : list (reg_call Dist)) : list (sec_process Dist) :=
  fold_left (fun acc c => match c with CallAdd p => acc ++ [p] | CallSet ps => ps end) l [].

(** [p] is the first process of type [ty] in [l]. *)
Definition first_of_type {Dist} (l : list (sec_process Dist)) (ty : Z) (p : sec_process Dist) : Prop :=
  exists l1 l2, l = l1 ++ p :: l2 /\ sp_type p = ty /\ Forall (fun q => sp_type q <> ty) l1.

(** [v] is the first vertex distribution of [p]. *)
Definition vertex_of {Dist} (is_vertex : Dist -> bool) (p : sec_process Dist) (v : Dist) : Prop :=
  exists l1 l2, sp_dists p = l1 ++ v :: l2 /\ is_vertex v = true /\ Forall (fun d => is_vertex d = false) l1.
