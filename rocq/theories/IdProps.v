(** Property theorems on particle id generation (C05). *)
From Coq Require Import List ZArith.
From Verif Require Import IdModel IdProofs.
Import ListNotations.
Open Scope Z_scope.

(** In a process started afresh, whatever the threads, the schedule and the hash
    values, no two of up to 2^32 returned ids coincide - in fact their minor
    parts already differ. *)
Theorem C05_unique :
  forall (pid : Z) (sched : list (nat * Z)), pid <> 0 ->
  Z.of_nat (length (issued (run pid fresh sched))) <= 4294967296 ->
  NoDup (issued (run pid fresh sched)).
Proof. exact ids_unique. Qed.
Print Assumptions C05_unique.

Theorem C05_minor_unique :
  forall (pid : Z) (sched : list (nat * Z)), pid <> 0 ->
  Z.of_nat (length (issued (run pid fresh sched))) <= 4294967296 ->
  NoDup (map snd (issued (run pid fresh sched))).
Proof. exact ids_distinct. Qed.
Print Assumptions C05_minor_unique.

(** All ids of one process carry the same nonzero major id, as long as the hash is
    never zero. *)
Theorem C05_one_major :
  forall (pid : Z) (sched : list (nat * Z)), pid <> 0 -> Forall (fun th => snd th <> 0) sched ->
  exists m, forall id, In id (issued (run pid fresh sched)) -> fst id = m /\ m <> 0.
Proof. exact one_major. Qed.
Print Assumptions C05_one_major.

Example C05_case : issued (run 42 fresh ex_race) =
  [(8, 10); (8, 9); (8, 8); (8, 7); (8, 6); (8, 5); (8, 4); (8, 3); (8, 2); (8, 1); (8, 0)].
Proof. exact ex_race_ids. Qed.

(** In a forked child the claim fails: a thread that reads the old major id while
    another one is resetting the counters hands out ids twice, and repeats ids
    of the parent process. *)
Theorem C05_after_fork_refuted : exists p1 p2 parent child,
  p1 <> 0 /\ p2 <> 0 /\ p1 <> p2 /\
  issued (run p1 fresh parent) = [(77, 0)] /\
  issued (run p2 (forked (run p1 fresh parent)) child) = [(77, 1); (77, 0); (77, 1)].
Proof. exact fork_duplicates. Qed.
Print Assumptions C05_after_fork_refuted.
