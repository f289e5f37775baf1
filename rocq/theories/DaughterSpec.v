(** What the records of secondary particles should hold. *)
From Coq Require Import Reals List Bool ZArith.
From Verif Require Import VectorModel RecordModel RecordSpec DaughterModel.
Import ListNotations.
Open Scope R_scope.

(** The last value that a sequence of calls gives to a quantity. *)
Definition told {A} (says : dcall -> option A) (l : list dcall) : option A :=
  fold_left (fun before o => match says o with Some v => Some v | None => before end) l None.

(** What a call says about a number, on the secondary [id] of kind [type]. *)
Definition dsays_num (id type : Z) (n : scalar) (o : dcall) : option R :=
  match o, n with
  | DSetMass v, Mass | DSetEnergy v, Energy | DSetKinetic v, Kinetic | DSetTime v, Time => Some v
  | DSetFour e _, Energy => Some e
  | DSetParticle a, Mass => if Z.eqb (a_id a) id && Z.eqb (a_type a) type then Some (a_mass a) else None
  | DSetParticle a, Energy => if Z.eqb (a_id a) id && Z.eqb (a_type a) type then Some (a_energy a) else None
  | _, _ => None
  end.

(** ... about a vector. *)
Definition dsays_vec (id type : Z) (n : place) (o : dcall) : option vec :=
  match o, n with
  | DSetDirection v, Direction | DSetMomentum v, Momentum => Some v
  | DSetFour _ p, Momentum => Some p
  | DSetParticle a, Momentum =>
      if Z.eqb (a_id a) id && Z.eqb (a_type a) type then Some (a_momentum a) else None
  | _, _ => None
  end.

(** ... about the helicity. *)
Definition dsays_helicity (id type : Z) (o : dcall) : option R :=
  match o with
  | DSetHelicity h => Some h
  | DSetParticle a => if Z.eqb (a_id a) id && Z.eqb (a_type a) type then Some (a_helicity a) else None
  | _ => None
  end.

(** Calls that only read. *)
Definition dreads (o : dcall) : bool :=
  match o with
  | DGetMass | DGetEnergy | DGetKinetic | DGetDirection | DGetMomentum | DGetFour => true
  | _ => false
  end.

(** The set values. *)
Definition dknown (id type : Z) (l : list dcall) (n : scalar) : option R := told (dsays_num id type n) l.
(** The set vectors. *)
Definition dknownv (id type : Z) (l : list dcall) (n : place) : option vec := told (dsays_vec id type n) l.

(** The set values are those of the particle. *)
Definition dfits (id type : Z) (l : list dcall) (w : truth) : Prop :=
  (forall n v, n <> Time -> dknown id type l n = Some v -> t_num w n = v) /\
  (forall n v, dknownv id type l n = Some v -> t_vec w n = v).

(** Enough is set to find mass, energy and momentum. *)
Definition enough (id type : Z) (l : list dcall) : Prop :=
  let h n := dknown id type l n <> None in let hv n := dknownv id type l n <> None in
  hv Momentum /\ (h Mass \/ h Energy) \/
  hv Direction /\ h Mass /\ (h Energy \/ h Kinetic).

(** The calls of [l] that go to secondary [i]. *)
Definition calls_to (i : nat) (l : list fcall) : list dcall :=
  flat_map (fun o => match o with FDaughter j c => if Nat.eqb j i then [c] else [] | _ => [] end) l.

(** The last value given to a quantity of the final state. *)
Definition told_final {A} (says : fcall -> option A) (l : list fcall) : option A :=
  fold_left (fun before o => match says o with Some v => Some v | None => before end) l None.

(** A given value, or else a default. *)
Definition or_else {A} (o : option A) (d : A) : A := match o with Some a => a | None => d end.

(** What a call says about the time of the interaction. *)
Definition says_time (o : fcall) : option R := match o with FTime t => Some t | _ => None end.
(** ... about the mass of the target. *)
Definition says_mass (o : fcall) : option R := match o with FMass t => Some t | _ => None end.
(** ... about its helicity. *)
Definition says_helicity (o : fcall) : option R := match o with FHelicity t => Some t | _ => None end.

(** The id in slot [i], or a new one. *)
Definition slot_id (rec : irecord) (i : nat) (new : Z) : Z :=
  match nth_error (i_ids rec) i with Some (Some k) => k | _ => new end.
