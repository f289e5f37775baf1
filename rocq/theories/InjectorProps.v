(** Property theorems about the event generator (C10, C11, C13, C14). *)
From Coq Require Import List Bool ZArith Permutation Lia.
From Verif Require Import TraversalModel TreeModel TreeSpec OrderModel InjectorModel InjectorSpec InjectorProofs.
Import ListNotations.
Open Scope Z_scope.

(** C10: in every history the counters are ordered. *)
Theorem C10_counters_ordered : forall c, counter_history c ->
  0 <= injected_events c <= injection_attempts c /\ injection_attempts c <= events_to_inject c < 4294967296.
Proof. exact history_ok. Qed.
Print Assumptions C10_counters_ordered.

(** C10: the quota error is raised exactly when the attempts have reached the quota. *)
Theorem C10_refuses_at_quota :
  forall D zero W sp P ss stop gid procs fuel c w,
  events_to_inject c <= injection_attempts c <->
  @generate_event D zero W sp P ss stop gid procs fuel c w = Some (Refused, c, w).
Proof. exact refuses_iff. Qed.
Print Assumptions C10_refuses_at_quota.

Theorem C10_refuses_only_at_quota :
  forall D zero W sp P ss stop gid procs fuel c w c' w',
  @generate_event D zero W sp P ss stop gid procs fuel c w = Some (Refused, c', w') ->
  events_to_inject c <= injection_attempts c.
Proof. exact refused_only. Qed.
Print Assumptions C10_refuses_only_at_quota.

(** C10: every call that is not refused counts as one attempt, and as one injected
    event exactly when it returns an event; the event carries the old count as its
    number. *)
Theorem C10_calls_counted :
  forall D zero W sp P ss stop gid procs fuel c w r c' w',
  counter_history c ->
  @generate_event D zero W sp P ss stop gid procs fuel c w = Some (r, c', w') ->
  r <> Refused ->
  injection_attempts c' = injection_attempts c + 1 /\ events_to_inject c' = events_to_inject c /\
  match r with
  | Event t n tr => n = injected_events c /\ injected_events c' = injected_events c + 1
  | _ => injected_events c' = injected_events c
  end.
Proof. exact counted. Qed.
Print Assumptions C10_calls_counted.

(** A history with a produced event, and its counters. *)
Example C10_case : exists t tr w, ex_event = Some (Event t 0 tr, mkcnt 2 1 1, w) /\ counter_history (mkcnt 2 1 1).
Proof.
  destruct ex_event as [[[r c] w]|] eqn:E; [|vm_compute in E; discriminate].
  pose proof E as E'. vm_compute in E. inversion E. subst.
  do 3 eexists. split; [reflexivity|]. eapply ch_generate; [apply (ch_new 2)|exact E'].
Qed.

(** C11 fails: after a failed attempt the injector still converts to true although
    the quota is used up ... *)
Theorem C11_true_but_refuses_refuted :
  exists c, counter_history c /\ can_inject c = true /\
  forall D zero W sp P ss stop gid procs fuel w,
    @generate_event D zero W sp P ss stop gid procs fuel c w = Some (Refused, c, w).
Proof. exact bool_not_safe. Qed.
Print Assumptions C11_true_but_refuses_refuted.

(** ... and an injector with quota zero converts to true but refuses at once. *)
Theorem C11_zero_quota_refuted :
  counter_history (new_counters 0) /\ can_inject (new_counters 0) = true /\
  forall D zero W sp P ss stop gid procs fuel w,
    @generate_event D zero W sp P ss stop gid procs fuel (new_counters 0) w = Some (Refused, new_counters 0, w).
Proof. exact bool_zero_quota. Qed.
Print Assumptions C11_zero_quota_refuted.

(** What does hold: it is safe as long as no attempt has failed (missing: failed
    attempts and quota zero, see above). *)
Theorem C11_safe_without_failures_partial : forall c,
  counter_history c -> injection_attempts c = injected_events c -> events_to_inject c <> 0 ->
  can_inject c = true ->
  forall D zero W sp P ss stop gid procs fuel w c' w',
    @generate_event D zero W sp P ss stop gid procs fuel c w <> Some (Refused, c', w').
Proof. exact bool_safe_without_failures. Qed.
Print Assumptions C11_safe_without_failures_partial.

(** The converse direction holds without conditions: false means refused. *)
Theorem C11_false_means_refused : forall c,
  counter_history c -> can_inject c = false ->
  forall D zero W sp P ss stop gid procs fuel w,
    @generate_event D zero W sp P ss stop gid procs fuel c w = Some (Refused, c, w).
Proof. exact bool_false_at_quota. Qed.
Print Assumptions C11_false_means_refused.

Example C11_case : counter_history (new_counters 3) /\ can_inject (new_counters 3) = true /\
  injection_attempts (new_counters 3) = injected_events (new_counters 3).
Proof. split; [constructor|]. split; reflexivity. Qed.

(** C13: whatever the sampling, the callbacks and the registered processes do, a
    returned event is faithful, its times agree, and each datum was made from its
    parent's slot by the process registered for the particle in it. *)
Theorem C13_event_faithful :
  forall D zero W sample_primary P sample_secondary stopping_condition generate_id processes fuel c w t number tr c' w',
  @generate_event D zero W sample_primary P sample_secondary stopping_condition generate_id processes fuel c w
    = Some (Event t number tr, c', w') ->
  Z.of_nat (length (st_tree t)) <= kNoParent ->
  exists rows, shows t rows /\ faithful (fun ty => map_find processes ty <> None) rows tr /\ times_agree rows tr /\
    made_from_slots (create_secondary zero generate_id) sample_secondary (map_find processes) rows tr.
Proof. exact event_faithful. Qed.
Print Assumptions C13_event_faithful.

(** C13: generation never leaves the queue or the tree. *)
Theorem C13_no_undefined_behaviour :
  forall D zero W sample_primary P sample_secondary stopping_condition generate_id processes fuel c w r c' w',
  @generate_event D zero W sample_primary P sample_secondary stopping_condition generate_id processes fuel c w
    = Some (r, c', w') -> r <> EventUndefined.
Proof. exact event_defined. Qed.
Print Assumptions C13_no_undefined_behaviour.

(** Three data in two generations; one slot stopped, one type unregistered. *)
Example C13_case : exists t w, ex_event = Some (Event t 0
    [Asked 0 0 false; Asked 0 2 true; Produced 0 0 1; Asked 1 1 false; Produced 1 1 2], mkcnt 2 1 1, w) /\
  length (st_tree t) = 3%nat.
Proof. eexists _, _. split; vm_compute; reflexivity. Qed.

(** C14: after any calls, each type maps to the first process of that type still in
    force, and the lists of processes and vertex distributions correspond. *)
Theorem C14_registries :
  forall (Dist : Type) (is_vertex : Dist -> bool) l g,
  run_calls is_vertex empty_registry l = Registered g ->
  rg_processes g = in_force l /\
  Forall2 (vertex_of is_vertex) (rg_processes g) (rg_vertices g) /\
  (forall ty p, map_find (rg_process_map g) ty = Some p <-> first_of_type (in_force l) ty p) /\
  (forall ty v, map_find (rg_vertex_map g) ty = Some v <->
     exists p, first_of_type (in_force l) ty p /\ vertex_of is_vertex p v).
Proof. exact (@registries_ok). Qed.
Print Assumptions C14_registries.

(** C14: the calls end the program exactly when a process without a vertex
    distribution is offered. *)
Theorem C14_exit :
  forall (Dist : Type) (is_vertex : Dist -> bool) l,
  run_calls is_vertex empty_registry l = Exited <->
  Exists (fun p => forall v, ~ vertex_of is_vertex p v)
    (flat_map (fun c => match c with CallAdd p => [p] | CallSet ps => ps end) l).
Proof. exact (@registries_exit). Qed.
Print Assumptions C14_exit.

(** A Set replacing earlier processes, then two Adds of one type: the first counts. *)
Example C14_case : exists g,
  run_calls (fun d => 5 <? d) empty_registry
    [CallAdd (mkproc 1 [6] 0%nat); CallSet [mkproc 2 [1; 7; 8] 1%nat]; CallAdd (mkproc 3 [9] 2%nat); CallAdd (mkproc 2 [6] 3%nat)]
    = Registered g /\
  map_find (rg_process_map g) 2 = Some (mkproc 2 [1; 7; 8] 1%nat) /\ map_find (rg_vertex_map g) 2 = Some 7 /\
  map_find (rg_process_map g) 1 = None /\ length (rg_processes g) = 3%nat.
Proof. eexists. split; [vm_compute; reflexivity|]. repeat split. Qed.
