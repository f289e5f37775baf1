(** Model of the distribution lists of injection processes.
    Sources: projects/injection/private/Process.cxx,
             projects/injection/public/SIREN/injection/Process.h,
             projects/distributions/private/Distributions.cxx. *)
From Coq Require Import List Bool ZArith.
Import ListNotations.

Section Process.
(** Values of distributions, with the virtual [equal]; [value p] is the
    distribution a shared pointer [p] points to. Distributions.cxx:42-47. *)
Variable V : Type.
(** Distributions.cxx:46. *)
Variable equal : V -> V -> bool.
(** Process.h:60, 85, 112, following a shared pointer. *)
Variable value : nat -> V.

(** Distributions.cxx:42-47, [WeightableDistribution::operator==] on two
    dereferenced pointers. *)
Definition dist_eqb (p q : nat) : bool := Nat.eqb p q || equal (value p) (value q).

(** Process.h:60, 85 (112): the two lists of pointers of a
    Primary-(Secondary-)InjectionProcess. *)
Record process := mkprocess { injection : list nat; physical : list nat }.

(** Process.cxx:66: a new process. *)
Definition new_process : process := mkprocess [] [].

(** A call either changes the object or throws; a throwing call is returned with
    the object as it is left. Process.cxx:127-134. *)
Inductive call_result := Changed (s : process) | Thrown (s : process).

(** Process.cxx:127-134, the object after a call. *)
Definition after (r : call_result) : process := match r with Changed s | Thrown s => s end.

(** Process.cxx:127-134 and 186-193, Add{Primary,Secondary}InjectionDistribution;
    the secondary version pushes in the other order, which is not observable. *)
Definition add_injection (s : process) (d : nat) : call_result :=
  if existsb (fun x => dist_eqb x d) (injection s) then Thrown s
  else Changed (mkprocess (injection s ++ [d]) (physical s ++ [d])).

(** Process.cxx:137-142, 196-201, 97-102: the double loop compares the shared
    pointers, not the distributions. *)
Fixpoint has_dup (l : list nat) : bool :=
  match l with
  | [] => false
  | p :: r => existsb (fun q => Nat.eqb p q) r || has_dup r
  end.

(** Process.cxx:136-148 and 195-207, Set{Primary,Secondary}InjectionDistributions. *)
Definition set_injection (s : process) (l : list nat) : call_result :=
  if has_dup l then Thrown s else Changed (mkprocess l l).

(** Process.cxx:124-126 and 182-184: AddPhysicalDistribution of an injection process. *)
Definition add_physical_injection (s : process) (d : nat) : call_result := Thrown s.

(** Process.cxx:96-104, SetPhysicalDistributions; not overridden in the injection
    processes (Process.h:71, 83-135). *)
Definition set_physical (s : process) (l : list nat) : call_result :=
  if has_dup l then Thrown s else Changed (mkprocess (injection s) l).

(** Process.cxx:84-90, AddPhysicalDistribution of a PhysicalProcess. *)
Definition add_physical (l : list nat) (d : nat) : option (list nat) :=
  if existsb (fun x => dist_eqb x d) l then None else Some (l ++ [d]).
End Process.
