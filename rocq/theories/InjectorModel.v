(** Model of the event generator.
    Sources: projects/injection/private/Injector.cxx,
             projects/injection/public/SIREN/injection/Injector.h,
             projects/dataclasses/private/InteractionRecord.cxx (secondary records). *)
From Coq Require Import List Bool ZArith.
From Verif Require Import TraversalModel TreeModel OrderModel.
Import ListNotations.
Open Scope Z_scope.

(** ** Registries of secondary processes *)
Section Registry.
(** A secondary injection distribution; [is_vertex] is the [dynamic_cast] to
    SecondaryVertexPositionDistribution (Injector.cxx:105). *)
Variable Dist : Type.
(** Injector.cxx:105, the [dynamic_cast]. *)
Variable is_vertex : Dist -> bool.

(** What the injector reads of a SecondaryInjectionProcess: GetPrimaryType and
    GetSecondaryInjectionDistributions; [sp_tag] stands for the rest. Process.h:112-128. *)
Record sec_process := mkproc { sp_type : Z; sp_dists : list Dist; sp_tag : nat }.

(** Injector.cxx:103-110, [FindSecondaryVertexDistribution]; [None] is the throw. *)
Definition find_vertex (p : sec_process) : option Dist := find is_vertex (sp_dists p).

(** Injector.h:69-72, the four registries. Maps are association lists in which the
    first entry of a key counts. *)
Record registry := mkreg {
  rg_processes : list sec_process;
  rg_vertices : list Dist;
  rg_process_map : list (Z * sec_process);
  rg_vertex_map : list (Z * Dist)
}.

(** Injector.h:69-72, empty registries. *)
Definition empty_registry : registry := mkreg [] [] [] [].

(** Injector.cxx:325, [std::map::find]. *)
Definition map_find {A} (m : list (Z * A)) (k : Z) : option A :=
  match find (fun e => fst e =? k) m with Some e => Some (snd e) | None => None end.

(** [std::map::insert] keeps an existing entry. Injector.cxx:134-135. *)
Definition map_insert {A} (m : list (Z * A)) (k : Z) (x : A) : list (Z * A) :=
  match map_find m k with Some _ => m | None => m ++ [(k, x)] end.

(** What a call ends with: an updated object, or [exit(0)] (Injector.cxx:129-131). *)
Inductive reg_result := Registered (r : registry) | Exited.

(** Injector.cxx:124-136, [AddSecondaryProcess]. Simplification: a process is read
    when it is registered; later changes through the shared pointer are not
    followed. *)
Definition add_secondary_process (g : registry) (p : sec_process) : reg_result :=
  match find_vertex p with
  | None => Exited
  | Some v =>
      Registered (mkreg (rg_processes g ++ [p]) (rg_vertices g ++ [v])
                        (map_insert (rg_process_map g) (sp_type p) p)
                        (map_insert (rg_vertex_map g) (sp_type p) v))
  end.

(** Injector.cxx:142-145: the loop of [SetSecondaryProcesses]. *)
Fixpoint add_all (g : registry) (l : list sec_process) : reg_result :=
  match l with
  | [] => Registered g
  | p :: r => match add_secondary_process g p with
              | Registered g' => add_all g' r
              | Exited => Exited
              end
  end.

(** Injector.cxx:138-146, [SetSecondaryProcesses]. *)
Definition set_secondary_processes (g : registry) (l : list sec_process) : reg_result :=
  add_all empty_registry l.
End Registry.
Arguments mkproc {Dist}. Arguments sp_type {Dist}. Arguments sp_dists {Dist}. Arguments sp_tag {Dist}.
Arguments mkreg {Dist}. Arguments rg_processes {Dist}. Arguments rg_vertices {Dist}.
Arguments rg_process_map {Dist}. Arguments rg_vertex_map {Dist}. Arguments empty_registry {Dist}.
Arguments Registered {Dist}. Arguments Exited {Dist}.

(** ** Counters *)

(** [unsigned int] arithmetic. Injector.h:56-58. *)
Definition u32 (z : Z) : Z := z mod 4294967296.

(** Injector.h:56-58. *)
Record counters := mkcnt { events_to_inject : Z; injection_attempts : Z; injected_events : Z }.

(** Injector.cxx:46-91: a constructed injector. *)
Definition new_counters (n : Z) : counters := mkcnt (u32 n) 0 0.

(** Injector.cxx:497-499, [operator bool]. *)
Definition can_inject (c : counters) : bool :=
  (events_to_inject c =? 0) || (injected_events c <? events_to_inject c).

(** Injector.cxx:493-495, [ResetInjectedEvents]. *)
Definition reset_injected (c : counters) : counters :=
  mkcnt (events_to_inject c) (injection_attempts c) 0.

(** ** Events *)
Arguments r_signature {D}. Arguments r_primary_id {D}. Arguments r_primary_initial_position {D}. Arguments r_primary_initial_time {D}.
Arguments r_primary_mass {D}. Arguments r_primary_momentum {D}. Arguments r_primary_helicity {D}. Arguments r_target_id {D}.
Arguments r_target_mass {D}. Arguments r_target_helicity {D}. Arguments r_interaction_vertex {D}. Arguments r_interaction_time {D}.
Arguments r_secondary_ids {D}. Arguments r_secondary_masses {D}. Arguments r_secondary_momenta {D}. Arguments r_secondary_helicities {D}.
Arguments r_secondary_times {D}. Arguments r_interaction_parameters {D}.

Section Generate.
(** Floating-point numbers, with zero. InteractionRecord.h. *)
Variable D : Type.
(** InteractionRecord.cxx:1102-1135. *)
Variable zero : D.
(** State of everything outside: random numbers, id counter, the state of the
    user's callbacks. Injector.cxx:300-365. *)
Variable W : Type.

Notation record := (interaction_record D).
Notation tree := (state (interaction_record D)).

(** How a call into the rest of the program ends: with a value, with an
    InjectionFailure, or with any other exception. Injector.cxx:314, 358. *)
Inductive called (A : Type) := Done (a : A) | Failed | Raised.
Arguments Done {A}. Arguments Failed {A}. Arguments Raised {A}.

(** Injector.cxx:308-313: sampling the primary distributions, finalising the
    record and choosing the interaction. *)
Variable sample_primary : W -> called record * W.
(** A registered secondary process, and Injector.cxx:286-298 after the lookup of
    the process. The argument is the SecondaryDistributionRecord: the slot index
    and the record made at construction. *)
Variable P : Type.
(** Injector.cxx:286-298. *)
Variable sample_secondary : P -> nat * record -> W -> called record * W.
(** Injector.h:62-66: the stopping condition, called with the tree so far. *)
Variable stopping_condition : tree -> ptr -> nat -> W -> bool * W.
(** ParticleID::GenerateID. ParticleID.cxx:88-126. *)
Variable generate_id : W -> particle_id * W.

(** InteractionRecord.h:306-325, the default-constructed record; the zero
    signature stands for the unknown particle types. *)
Definition default_record : record :=
  mkrec (mksig 0 0 []) (mkid false 0 0) [zero; zero; zero] zero zero [zero; zero; zero; zero] zero
        (mkid false 0 0) zero zero [zero; zero; zero] zero [] [] [] [] [] [].

(** InteractionRecord.cxx:1102-1116, [CreateSecondaryRecord]; [None] is the
    out_of_range thrown by [at]. [operator bool] of an id is [id_set]. *)
Definition create_secondary (par : record) (i : nat) (w : W) : option record * W :=
  match nth_error (r_secondary_ids par) i with
  | None => (None, w)
  | Some id0 =>
      let '(id, w1) := if id_set id0 then (id0, w) else generate_id w in
      match nth_error (secondary_types (r_signature par)) i, nth_error (r_secondary_masses par) i,
            nth_error (r_secondary_momenta par) i, nth_error (r_secondary_helicities par) i with
      | Some ty, Some m, Some mom, Some h =>
          (Some (mkrec (mksig ty 0 []) id (r_interaction_vertex par)
                   (match nth_error (r_secondary_times par) i with
                    | Some t => t
                    | None => r_interaction_time par
                    end)
                   m mom h (mkid false 0 0) zero zero [zero; zero; zero] zero [] [] [] [] [] []), w1)
      | _, _, _, _ => (None, w1)
      end
  end.

(** The calls the generator makes while building an event, in order: asking the
    stopping condition about a slot of a datum, and adding a datum for a slot.
    These are observations only; the generator does not read them. Injector.cxx:329, 348. *)
Inductive step :=
| Asked (parent : ptr) (slot : nat) (stop : bool)
| Produced (parent : ptr) (slot : nat) (child : ptr).

(** The deque of Injector.cxx:321: datum, slot and the secondary record. *)
Definition queue := list (ptr * (nat * record)).

(** Injector.h:71: the process map. *)
Variable processes : list (Z * P).

(** Injector.cxx:322-337, the loop of [add_secondaries] from slot [i] on; [par] is
    [parent->record], which the loop does not change. [None]: an exception. *)
Fixpoint add_secondaries (t : tree) (parent : ptr) (par : record) (types : list Z) (i : nat)
    (w : W) (q : queue) (tr : list step) : option (queue * list step) * W :=
  match types with
  | [] => (Some (q, tr), w)
  | ty :: rest =>
      match map_find processes ty with
      | None => add_secondaries t parent par rest (S i) w q tr
      | Some _ =>
          let (stop, w1) := stopping_condition t parent i w in
          let tr1 := tr ++ [Asked parent i stop] in
          if stop then add_secondaries t parent par rest (S i) w1 q tr1
          else match create_secondary par i w1 with
               | (None, w2) => (None, w2)
               | (Some sec, w2) => add_secondaries t parent par rest (S i) w2 (q ++ [(parent, (i, sec))]) tr1
               end
      end
  end.

(** Writing one element of a vector. Injector.cxx:354. *)
Fixpoint list_set {A} (l : list A) (i : nat) (x : A) : list A :=
  match l, i with
  | [], _ => []
  | _ :: r, O => x :: r
  | y :: r, S k => y :: list_set r k x
  end.

(** Injector.cxx:352-354: the production time is copied into the parent's slot if
    there is one. *)
Definition with_time (r : record) (i : nat) (x : D) : record :=
  mkrec (r_signature r) (r_primary_id r) (r_primary_initial_position r) (r_primary_initial_time r)
        (r_primary_mass r) (r_primary_momentum r) (r_primary_helicity r) (r_target_id r)
        (r_target_mass r) (r_target_helicity r) (r_interaction_vertex r) (r_interaction_time r)
        (r_secondary_ids r) (r_secondary_masses r) (r_secondary_momenta r) (r_secondary_helicities r)
        (list_set (r_secondary_times r) i x) (r_interaction_parameters r).

(** Injector.cxx:354, [parent->record]. *)
Definition with_record (d : datum record) (r : record) : datum record :=
  mkdatum r (d_node_id d) (d_parent d) (d_daughters d) (d_legacy_parent d) (d_legacy_daughters d).

(** Injector.cxx:352-354. *)
Definition sync_time (t : tree) (parent : ptr) (i : nat) (x : D) : outcome tree :=
  match nth_error (st_heap t) parent with
  | None => UB
  | Some d => Ok (mkstate (heap_set (st_heap t) parent (with_record d (with_time (d_record d) i x))) (st_tree t))
  end.

(** How building an event ends. Injector.cxx:300-365. *)
Inductive built_event :=
| Complete (t : tree) (tr : list step)
| Aborted            (** InjectionFailure, caught *)
| Escaped            (** another exception leaves GenerateEvent *)
| Undefined.         (** undefined behaviour *)

(** Injector.cxx:342-356, the inner loop from position [i]-1 down to 0.
    Simplification: the [int] index is unbounded. *)
Fixpoint sweep (i : nat) (t : tree) (q : queue) (w : W) (tr : list step) :
    (tree * queue * list step + built_event) * W :=
  match i with
  | O => (inl (t, q, tr), w)
  | S k =>
      match nth_error q k with
      | None => (inr Undefined, w)
      | Some (parent, (slot, sec)) =>
          let q1 := firstn k q ++ skipn (S k) q in
          match map_find processes (primary_type (r_signature sec)) with
          | None => (inr Escaped, w)
          | Some p =>
              match sample_secondary p (slot, sec) w with
              | (Failed, w1) => (inr Aborted, w1)
              | (Raised, w1) => (inr Escaped, w1)
              | (Done r, w1) =>
                  match add_record t r (Some parent) with
                  | Ok (t1, child) =>
                      match sync_time t1 parent slot (r_primary_initial_time r) with
                      | Ok t2 =>
                          match add_secondaries t2 child r (secondary_types (r_signature r)) 0 w1 q1
                                  (tr ++ [Produced parent slot child]) with
                          | (None, w2) => (inr Escaped, w2)
                          | (Some (q2, tr2), w2) => sweep k t2 q2 w2 tr2
                          end
                      | Throw => (inr Escaped, w1)
                      | UB => (inr Undefined, w1)
                      end
                  | Throw => (inr Escaped, w1)
                  | UB => (inr Undefined, w1)
                  end
              end
          end
      end
  end.

(** Injector.cxx:341: the outer loop. [None]: still running when the fuel is used up. *)
Fixpoint secondaries_loop (fuel : nat) (t : tree) (q : queue) (w : W) (tr : list step) :
    option (built_event * W) :=
  match q with
  | [] => Some (Complete t tr, w)
  | _ :: _ =>
      match fuel with
      | O => None
      | S f =>
          match sweep (length q) t q w tr with
          | (inl (t1, q1, tr1), w1) => secondaries_loop f t1 q1 w1 tr1
          | (inr e, w1) => Some (e, w1)
          end
      end
  end.

(** Injector.cxx:305-360: building one event. *)
Definition build_event (fuel : nat) (w : W) : option (built_event * W) :=
  match sample_primary w with
  | (Failed, w1) => Some (Aborted, w1)
  | (Raised, w1) => Some (Escaped, w1)
  | (Done r, w1) =>
      match add_record (mkstate [] []) r None with
      | Ok (t, root) =>
          match add_secondaries t root r (secondary_types (r_signature r)) 0 w1 [] [] with
          | (None, w2) => Some (Escaped, w2)
          | (Some (q, tr), w2) => secondaries_loop fuel t q w2 tr
          end
      | Throw => Some (Escaped, w1)
      | UB => Some (Undefined, w1)
      end
  end.

(** What GenerateEvent gives its caller. Injector.cxx:300-365. *)
Inductive event_result :=
| Event (t : tree) (number : Z) (tr : list step)
| EmptyEvent
| Refused            (** "maximum number of injection attempts" *)
| EventRaised
| EventUndefined.

(** Injector.cxx:300-365, [GenerateEvent]. *)
Definition generate_event (fuel : nat) (c : counters) (w : W) : option (event_result * counters * W) :=
  if events_to_inject c <=? injection_attempts c then Some (Refused, c, w)
  else
    let c1 := mkcnt (events_to_inject c) (u32 (injection_attempts c + 1)) (injected_events c) in
    match build_event fuel w with
    | None => None
    | Some (Complete t tr, w1) =>
        Some (Event t (injected_events c1) tr,
              mkcnt (events_to_inject c1) (injection_attempts c1) (u32 (injected_events c1 + 1)), w1)
    | Some (Aborted, w1) => Some (EmptyEvent, c1, w1)
    | Some (Escaped, w1) => Some (EventRaised, c1, w1)
    | Some (Undefined, w1) => Some (EventUndefined, c1, w1)
    end.
End Generate.
Arguments Done {A}. Arguments Failed {A}. Arguments Raised {A}.
Arguments Complete {D}. Arguments Aborted {D}. Arguments Escaped {D}. Arguments Undefined {D}.
Arguments Event {D}. Arguments EmptyEvent {D}. Arguments Refused {D}.
Arguments EventRaised {D}. Arguments EventUndefined {D}.
Arguments find_vertex {Dist}. Arguments add_secondary_process {Dist}. Arguments add_all {Dist}.
Arguments set_secondary_processes {Dist}.
Arguments create_secondary {D} zero {W}. Arguments add_secondaries {D} zero {W P}.
Arguments sweep {D} zero {W P}. Arguments secondaries_loop {D} zero {W P}.
Arguments build_event {D} zero {W} sample_primary {P}. Arguments generate_event {D} zero {W} sample_primary {P}.
Arguments sync_time {D}. Arguments with_time {D}. Arguments with_record {D}. Arguments default_record {D}.
