(** Model of the injectors that make their own position distribution.
    Sources: projects/injection/private/RangedLeptonInjector.cxx, ColumnDepthLeptonInjector.cxx, DecayRangeLeptonInjector.cxx,
    CylinderVolumeLeptonInjector.cxx, Process.cxx and Injector.cxx. The four constructors differ in the distribution they make, which is an
    argument; secondary processes are left out. *)
From Coq Require Import List Bool Arith.
Import ListNotations.

Section Own.
(** Primary injection distributions. *)
Context {D : Type}.
(** Their operator==, used at Process.cxx:129. *)
Variable same : D -> D -> bool.
(** The dynamic cast of Injector.cxx:96-97. *)
Variable is_vertex : D -> bool.

(** Process.cxx:127-134: the distributions of each process that exists; processes are shared pointers, here numbers. *)
Definition heap := nat -> list D.
(** Process.cxx:132. *)
Definition store (h : heap) (p : nat) (l : list D) : heap := fun q => if Nat.eqb q p then l else h q.

(** Process.cxx:127-134, [AddPrimaryInjectionDistribution]; [None] is the exception. *)
Definition add_distribution (h : heap) (p : nat) (d : D) : option heap :=
  if existsb (fun e => same e d) (h p) then None else Some (store h p (h p ++ [d])).

(** Injector.cxx:94-101, [FindPrimaryVertexDistribution]. *)
Definition find_vertex (l : list D) : option D := find is_vertex l.

(** The members [primary_process] and [primary_position_distribution] of Injector.cxx:120-121, and [position_distribution] of
    RangedLeptonInjector.cxx:42, ColumnDepthLeptonInjector.cxx:43, DecayRangeLeptonInjector.cxx:41 and CylinderVolumeLeptonInjector.cxx:30. *)
Record injector := mkinj { i_process : nat; i_base : D; i_own : D }.

(** What a constructor does: an exception, the call of [exit] at Injector.cxx:118, or an injector. *)
Inductive made := Thrown | Exited | Made (h : heap) (i : injector).

(** RangedLeptonInjector.cxx:40-44, ColumnDepthLeptonInjector.cxx:41-45, DecayRangeLeptonInjector.cxx:40-43, CylinderVolumeLeptonInjector.cxx:30-33, with
    Injector.cxx:112-122, [SetPrimaryProcess]. *)
Definition construct (h : heap) (p : nat) (d : D) : made :=
  match add_distribution h p d with
  | None => Thrown
  | Some h' => match find_vertex (h' p) with None => Exited | Some v => Made h' (mkinj p v d) end
  end.

(** A program that makes injectors one after the other and catches the exceptions; [None] after [exit]. The calls are of
    RangedLeptonInjector.cxx:26-54 and the other three constructors. *)
Fixpoint run (h : heap) (ops : list (nat * D)) : option (heap * list injector) :=
  match ops with
  | [] => Some (h, [])
  | (p, d) :: r =>
      match construct h p d with
      | Exited => None
      | Thrown => run h r
      | Made h' i => match run h' r with None => None | Some (h2, l) => Some (h2, i :: l) end
      end
  end.

(** Injector.cxx:309-311 with VertexPositionDistribution.cxx:17-23: each vertex distribution of the process overwrites the positions of the
    record, so that the last one places the vertex. *)
Definition placed_by (h : heap) (i : injector) : option D :=
  fold_left (fun acc d => if is_vertex d then Some d else acc) (h (i_process i)) None.

(** RangedLeptonInjector.cxx:60-62, ColumnDepthLeptonInjector.cxx:61-63, DecayRangeLeptonInjector.cxx:59-61, CylinderVolumeLeptonInjector.cxx:48-50,
    [PrimaryInjectionBounds]: the distribution whose bounds are given. *)
Definition bounded_by (i : injector) : D := i_own i.

(** Injector.cxx:402-405: the distributions whose densities are multiplied for the position. *)
Definition position_densities (h : heap) (i : injector) : list D := filter is_vertex (h (i_process i)).
End Own.
