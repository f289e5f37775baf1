(** What the values of a primary particle record should be. *)
From Coq Require Import Reals List Bool ZArith.
From Verif Require Import VectorModel RecordModel.
Import ListNotations.
Open Scope R_scope.

(** The last value that a sequence of calls gives to a quantity. *)
Definition given {A} (says : call -> option A) (l : list call) : option A :=
  fold_left (fun known o => match says o with Some v => Some v | None => known end) l None.

(** What a call says about a number, on the record of particle [id] of kind [type]. *)
Definition says_num (id type : Z) (n : scalar) (o : call) : option R :=
  match o with
  | SetNum k v => if scalar_eqb k n then Some v else None
  | SetFour e _ => match n with Energy => Some e | _ => None end
  | SetParticle a =>
      if Z.eqb (a_id a) id && Z.eqb (a_type a) type then
        match n with
        | Mass => Some (a_mass a) | Energy => Some (a_energy a) | Length => Some (a_length a)
        | _ => None
        end
      else None
  | _ => None
  end.

(** What it says about a point or vector. *)
Definition says_vec (id type : Z) (n : place) (o : call) : option vec :=
  match o with
  | SetVec k v => if place_eqb k n then Some v else None
  | SetFour _ p => match n with Momentum => Some p | _ => None end
  | SetParticle a =>
      if Z.eqb (a_id a) id && Z.eqb (a_type a) type then
        match n with Momentum => Some (a_momentum a) | Initial => Some (a_position a) | _ => None end
      else None
  | _ => None
  end.

(** ... about the time at which the particle starts. *)
Definition says_start (o : call) : option R := match o with SetStart t => Some t | _ => None end.

(** Calls that only read. *)
Definition reads (o : call) : bool :=
  match o with GetNum _ | GetVec _ | GetFour => true | _ => false end.

(** The set values. *)
Definition known (id type : Z) (l : list call) (n : scalar) : option R := given (says_num id type n) l.
(** The set points and vectors. *)
Definition knownv (id type : Z) (l : list call) (n : place) : option vec := given (says_vec id type n) l.

(** A particle travelling on a straight line, all quantities at once. *)
Record truth := mktruth { t_num : scalar -> R; t_vec : place -> vec }.

(** The equations of special relativity; momentum along the unit direction. *)
Record kinematic (w : truth) : Prop := {
  k_mass : 0 <= t_num w Mass;
  k_kinetic : 0 <= t_num w Kinetic;
  k_energy : t_num w Energy = t_num w Mass + t_num w Kinetic;
  k_shell : t_num w Energy ^ 2 = t_num w Mass ^ 2 + vmag (t_vec w Momentum) ^ 2;
  k_unit : vmag (t_vec w Direction) = 1;
  k_along : t_vec w Momentum = vscale (vmag (t_vec w Momentum)) (t_vec w Direction) }.

(** The line: the vertex lies [Length] further along the direction than the initial position, and both
    lie at their distances from the point of the line closest to the origin. *)
Record straight (w : truth) : Prop := {
  s_length : 0 <= t_num w Length;
  s_unit : vmag (t_vec w Direction) = 1;
  s_vertex : t_vec w Vertex = vadd (t_vec w Initial) (vscale (t_num w Length) (t_vec w Direction));
  s_closest : vdot (t_vec w Closest) (t_vec w Direction) = 0;
  s_from : t_vec w Initial = vadd (t_vec w Closest) (vscale (t_num w InitialDistance) (t_vec w Direction));
  s_to : t_vec w Vertex = vadd (t_vec w Closest) (vscale (t_num w VertexDistance) (t_vec w Direction)) }.

(** The set values are those of the particle. *)
Definition fits (id type : Z) (l : list call) (w : truth) : Prop :=
  (forall n v, known id type l n = Some v -> t_num w n = v) /\
  (forall n v, knownv id type l n = Some v -> t_vec w n = v).

(** Parallel vectors pointing the same way. *)
Definition same_way (p d : vec) : Prop := exists k, 0 <= k /\ p = vscale k d.

(** Copying what is there: [here] is the new value, or what was there before if there is none. *)
Definition copied {A} (new here before : got A) : Prop :=
  new <> Threw /\ here = new \/ new = Threw /\ here = before.
