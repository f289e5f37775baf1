(** Property theorems about the run bookkeeping of HepMC3 export (C66, C67, C72). *)
From Coq Require Import String Ascii List Bool ZArith Reals Lia Lra.
From Verif Require Import OrderModel HepmcModel HepmcProofs.
Import ListNotations.
Open Scope Z_scope.

(** C66. Saving ends, explicit event numbers are kept, and a number given to an event
    without one differs from the number of every other event, explicit or not. *)
Theorem C66_numbers_unique l : Z.of_nat (List.length l) < 2 ^ 64 ->
  exists ns, event_numbers l = Some ns /\ List.length ns = List.length (kept l) /\
  (forall i t n, nth_error (kept l) i = Some t -> nth_error ns i = Some n -> sv_number t <> 0 -> n = sv_number t) /\
  (forall i t n, nth_error (kept l) i = Some t -> nth_error ns i = Some n -> sv_number t = 0 -> 0 <= n < 2 ^ 64) /\
  (forall i j t n m, i <> j -> nth_error (kept l) i = Some t -> sv_number t = 0 ->
     nth_error ns i = Some n -> nth_error ns j = Some m -> n <> m).
Proof. exact (numbers_unique l). Qed.
Print Assumptions C66_numbers_unique.

(** Every unsigned 64-bit number is read back from the file as it was written. *)
Theorem C66_number_round_trip n : 0 <= n < 2 ^ 64 -> read_number (write_number n) = n.
Proof. exact (number_round_trip n). Qed.
Print Assumptions C66_number_round_trip.

(** Explicit numbers 1 and 2 around two unnumbered events and a skipped tree. *)
Definition ex_sig (p : Z) : signature := mksig p 1000080160 [13; 2212].
Definition ex_run : list (option saved) :=
  [Some (mksaved 0 (ex_sig 14) []); Some (mksaved 1 (ex_sig 12) []); None;
   Some (mksaved 0 (ex_sig 14) []); Some (mksaved 2 (ex_sig 14) [])].
Example C66_case : Z.of_nat (List.length ex_run) < 2 ^ 64 /\ event_numbers ex_run = Some [0; 1; 3; 2] /\
  write_number 5000000000 = (705032704, Some 5000000000) /\ read_number (705032704, Some 5000000000) = 5000000000.
Proof. repeat split; vm_compute; auto. Qed.

(** C67. Process keys separate signatures. *)
Theorem C67_key s t : process_key s = process_key t <-> s = t.
Proof. exact (key_inj s t). Qed.
Print Assumptions C67_key.

(** With a pre-filled registry that is itself unambiguous and stays clear of the ids
    700, 701, ... about to be given out (in particular an empty one), every saved
    primary interaction has a process id, and two of them have the same id exactly
    when they have the same signature. *)
Theorem C67_ids pre l : usable pre (List.length (ordered_roots l)) ->
  forall s t, In s (roots l) -> In t (roots l) ->
  exists i j, process_id (register_processes pre l) s = Some i /\ process_id (register_processes pre l) t = Some j /\
    (i = j <-> s = t).
Proof. exact (ids_identify pre l). Qed.
Print Assumptions C67_ids.

(** Ids and names depend only on the set of signatures saved, whatever the order and
    multiplicity of the trees. *)
Theorem C67_order_independent pre l l' : (forall s, In s (roots l) <-> In s (roots l')) ->
  register_processes pre l = register_processes pre l'.
Proof. exact (order_independent pre l l'). Qed.
Print Assumptions C67_order_independent.

(** A signature without a pre-filled id gets one from 700 on, listed under its name. *)
Theorem C67_names pre l s : In s (roots l) -> process_id pre s = None ->
  exists i, process_id (register_processes pre l) s = Some i /\ 700 <= i < 700 + Z.of_nat (List.length (ordered_roots l)) /\
    find_int (pr_names (register_processes pre l)) i = Some (process_name s).
Proof. exact (names_match pre l s). Qed.
Print Assumptions C67_names.

(** Pre-filled ids of the caller survive. *)
Theorem C67_prefilled_kept pre l s i : process_id pre s = Some i -> process_id (register_processes pre l) s = Some i.
Proof. intros H. apply assign_keeps. exact H. Qed.
Print Assumptions C67_prefilled_kept.

(** For an arbitrary pre-filled registry the claim is false: giving out ids from 700
    ignores the ids already in use. *)
Theorem C67_prefilled_refuted : exists pre l s t i, In s (roots l) /\ In t (roots l) /\ s <> t /\
  (forall k1 k2 j, find_str (pr_ids pre) k1 = Some j -> find_str (pr_ids pre) k2 = Some j -> k1 = k2) /\
  process_id (register_processes pre l) s = Some i /\ process_id (register_processes pre l) t = Some i.
Proof.
  exists (mkregistry [(process_key (ex_sig 14), 700)] [(700, process_name (ex_sig 14))]), ex_run, (ex_sig 14), (ex_sig 12), 700.
  split; [left; reflexivity|]. split; [right; left; reflexivity|]. split; [discriminate|]. split.
  - intros k1 k2 j. cbn [pr_ids find_str].
    destruct (String.eqb_spec (process_key (ex_sig 14)) k1); destruct (String.eqb_spec (process_key (ex_sig 14)) k2); congruence.
  - split; vm_compute; reflexivity.
Qed.
Print Assumptions C67_prefilled_refuted.

(** Two signatures in one run, ids 700 and 701 in the order of the signatures. *)
Example C67_case : usable (mkregistry [] []) (List.length (ordered_roots ex_run)) /\
  In (ex_sig 12) (roots ex_run) /\ In (ex_sig 14) (roots ex_run) /\
  process_id (register_processes (mkregistry [] []) ex_run) (ex_sig 12) = Some 700 /\
  process_id (register_processes (mkregistry [] []) ex_run) (ex_sig 14) = Some 701 /\
  find_int (pr_names (register_processes (mkregistry [] []) ex_run)) 701 = Some "14+1000080160 -> 13,2212"%string /\
  (forall s, In s (roots ex_run) <-> In s (roots (rev ex_run))).
Proof.
  split; [split; cbn; discriminate|]. split; [right; left; auto|]. split; [left; auto|].
  do 3 (split; [vm_compute; reflexivity|]). intros s. cbn. tauto.
Qed.

Open Scope R_scope.

(** C72. The weight sums for the flux-averaged cross section: the total is the sum of the central
    weights of the saved events (1 for an event without weights), the sums by
    primary type are the sums over the events of that primary, and the counters
    count the same events. *)
Theorem C72_weight_sums s l : let s' := sum_events s l in
  total_weight s' = total_weight s + sumR (map weight_of (kept l)) /\
  accepted s' = (accepted s + Z.of_nat (List.length (kept l)))%Z /\
  forall k, weight_by s' k = weight_by s k + sumR (map weight_of (from k (kept l))) /\
            accepted_by s' k = (accepted_by s k + Z.of_nat (List.length (from k (kept l))))%Z.
Proof. exact (sums_ok s l). Qed.
Print Assumptions C72_weight_sums.

(** Splitting a run in two and saving the parts with the same options gives the same
    sums as saving it at once. *)
Theorem C72_accumulates s l l' : sum_events s (l ++ l') = sum_events (sum_events s l) l'.
Proof.
  unfold sum_events. rewrite <- fold_left_app. f_equal. induction l as [|[t|] l IH]; cbn; congruence.
Qed.
Print Assumptions C72_accumulates.

(** Every event is written with one weight per declared weight name. *)
Theorem C72_event_weights n ws : List.length (event_weights n ws) = n /\
  (List.length ws = n -> event_weights n ws = ws).
Proof.
  unfold event_weights. destruct (Nat.eqb_spec (List.length ws) n); split; auto; [apply repeat_length|contradiction].
Qed.
Print Assumptions C72_event_weights.

Example C72_case :
  let l := [Some (mksaved 0 (ex_sig 14) [2; 7]); None; Some (mksaved 0 (ex_sig 12) []); Some (mksaved 0 (ex_sig 14) [3])] in
  let s := sum_events (mksums 0 (fun _ => 0) (fun _ => 0%Z) 0) l in
  total_weight s = 6 /\ weight_by s 14 = 5 /\ weight_by s 12 = 1 /\ accepted_by s 14 = 2%Z /\ accepted s = 3%Z.
Proof. cbn. repeat split; lra. Qed.
