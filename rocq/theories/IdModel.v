(** Model of concurrent particle id generation.
    Source: projects/dataclasses/private/ParticleID.cxx:41-126.
    Every atomic access and lock operation is one step; threads interleave
    arbitrarily. Simplification: sequentially consistent memory (the code uses
    relaxed accesses with fences). *)
From Coq Require Import List Bool ZArith.
Import ListNotations.
Open Scope Z_scope.

(** int32 arithmetic of [fetch_add] (ParticleID.cxx:123). *)
Definition wrap32 (z : Z) : Z := (z + 2147483648) mod 4294967296 - 2147483648.

(** Where a thread is inside [GenerateID]. ParticleID.cxx:88-126. *)
Inductive pc :=
| Idle            (* not in a call; next: line 91, load the last pid *)
| L1              (* line 94: acquire the lock *)
| L2              (* line 96: re-load the last pid *)
| L3              (* line 99: store the pid *)
| L4              (* line 100: reset the major id *)
| L5              (* line 101: reset the minor id *)
| L6              (* line 103: release the lock *)
| M0              (* line 105: load the major id *)
| K1              (* line 108: acquire the lock *)
| K2              (* line 110: re-load the major id *)
| K3              (* line 116: store a fresh major id *)
| K4              (* line 118: release the lock *)
| R0              (* line 122: load the major id *)
| R1 (m : Z).     (* line 123: fetch and increment the minor id *)

(** ParticleID.cxx:42-45: the globals; [threads] gives every thread's position;
    [issued] the ids returned so far, latest first. *)
Record idstate := mkidstate {
  last_pid : Z; major : Z; minor : Z; lock : option nat;
  threads : nat -> pc; issued : list (Z * Z)
}.

(** ParticleID.cxx:88-126, a thread moves on. *)
Definition set_pc (s : idstate) (t : nat) (p : pc) : nat -> pc :=
  fun u => if Nat.eqb u t then p else threads s u.

(** Moving only the thread. ParticleID.cxx:88-126. *)
Definition go (s : idstate) (t : nat) (p : pc) : idstate :=
  mkidstate (last_pid s) (major s) (minor s) (lock s) (set_pc s t p) (issued s).

(** ParticleID.cxx:88-126, one step of thread [t] in process [pid]; [h] is the
    hash value that line 116 would compute now. [None]: blocked on the lock. *)
Definition step (pid : Z) (s : idstate) (t : nat) (h : Z) : option idstate :=
  match threads s t with
  | Idle => Some (go s t (if pid =? last_pid s then M0 else L1))
  | L1 => match lock s with
          | Some _ => None
          | None => Some (mkidstate (last_pid s) (major s) (minor s) (Some t) (set_pc s t L2) (issued s))
          end
  | L2 => Some (go s t (if pid =? last_pid s then L6 else L3))
  | L3 => Some (mkidstate pid (major s) (minor s) (lock s) (set_pc s t L4) (issued s))
  | L4 => Some (mkidstate (last_pid s) 0 (minor s) (lock s) (set_pc s t L5) (issued s))
  | L5 => Some (mkidstate (last_pid s) (major s) 0 (lock s) (set_pc s t L6) (issued s))
  | L6 => Some (mkidstate (last_pid s) (major s) (minor s) None (set_pc s t M0) (issued s))
  | M0 => Some (go s t (if major s =? 0 then K1 else R0))
  | K1 => match lock s with
          | Some _ => None
          | None => Some (mkidstate (last_pid s) (major s) (minor s) (Some t) (set_pc s t K2) (issued s))
          end
  | K2 => Some (go s t (if major s =? 0 then K3 else K4))
  | K3 => Some (mkidstate (last_pid s) h (minor s) (lock s) (set_pc s t K4) (issued s))
  | K4 => Some (mkidstate (last_pid s) (major s) (minor s) None (set_pc s t R0) (issued s))
  | R0 => Some (go s t (R1 (major s)))
  | R1 m => Some (mkidstate (last_pid s) (major s) (wrap32 (minor s + 1)) (lock s) (set_pc s t Idle)
                    ((m, minor s) :: issued s))
  end.

(** A schedule: which thread moves next, and the current hash value. Blocked
    choices have no effect. ParticleID.cxx:88-126. *)
Fixpoint run (pid : Z) (s : idstate) (sched : list (nat * Z)) : idstate :=
  match sched with
  | [] => s
  | (t, h) :: r => run pid (match step pid s t h with Some s' => s' | None => s end) r
  end.

(** ParticleID.cxx:43-45: a fresh process. *)
Definition fresh : idstate := mkidstate 0 0 0 None (fun _ => Idle) [].

(** After [fork]: the child inherits the memory, has one running thread and has
    issued nothing itself. Globals of ParticleID.cxx:42-45, read at ParticleID.cxx:89. *)
Definition forked (s : idstate) : idstate :=
  mkidstate (last_pid s) (major s) (minor s) None (fun _ => Idle) [].
