(** Model of [PrimaryDistributionRecord]: a record of optional kinematic and geometric inputs
    whose getters derive what was not set.
    Source: projects/dataclasses/private/InteractionRecord.cxx:21-700 (line numbers without a
    file refer to it) and projects/dataclasses/public/SIREN/dataclasses/InteractionRecord.h
    (written InteractionRecord.h). Doubles are real numbers; NaN is a separate outcome, infinities
    and rounding are not modelled, and setters are given numbers. *)
From Coq Require Import Reals List Bool ZArith.
From Verif Require Import VectorModel.
Import ListNotations.
Open Scope R_scope.

(** ** Outcomes of a read *)
(** What a getter gives: a number, NaN (from [std::sqrt] of a negative number, e.g. 294, or from
    0/0, e.g. 331), the [std::runtime_error] of e.g. 298, or a read of a member that was never
    written (InteractionRecord.h:78-91 gives most of them no initial value). *)
Inductive got (A : Type) := Got (a : A) | Nan | Threw | Undef.
Arguments Got {A}. Arguments Nan {A}. Arguments Threw {A}. Arguments Undef {A}.

(** Using a value in an expression, e.g. InteractionRecord.cxx:297; whatever is not a number is passed on. *)
Definition bind {A B} (x : got A) (f : A -> got B) : got B :=
  match x with Got a => f a | Nan => Nan | Threw => Threw | Undef => Undef end.

(** [std::sqrt], e.g. InteractionRecord.cxx:294. *)
Definition root (x : R) : got R := if Rlt_dec x 0 then Nan else Got (sqrt x).

(** A vector over its own length, InteractionRecord.cxx:330-331, 334-335 and 440-441: 0/0 for the zero vector. *)
Definition normal (v : vec) : got vec := if Req_EM_T (vmag v) 0 then Nan else Got (vdiv v (vmag v)).

(** ** The record *)
(** A flag and the member it guards, InteractionRecord.h:63-91. The member holds [Undef] until it
    is first written. *)
Record slot (A : Type) := mkslot { s_set : bool; s_val : got A }.
Arguments mkslot {A}. Arguments s_set {A}. Arguments s_val {A}.

(** The numbers among the members, InteractionRecord.h:78-91: mass, energy, kinetic energy, length,
    distances of the vertex and of the initial position from the closest approach, interaction
    time. *)
Inductive scalar := Mass | Energy | Kinetic | Length | VertexDistance | InitialDistance | Time.

(** The points and vectors among the members, InteractionRecord.h:81-86. *)
Inductive place := Direction | Momentum | Initial | Vertex | Closest.

(** Which member a setter writes, InteractionRecord.cxx:205-280. *)
Definition scalar_eqb (a b : scalar) : bool :=
  match a, b with
  | Mass, Mass | Energy, Energy | Kinetic, Kinetic | Length, Length
  | VertexDistance, VertexDistance | InitialDistance, InitialDistance | Time, Time => true
  | _, _ => false
  end.

(** The same for the three-component members, InteractionRecord.cxx:220-255. *)
Definition place_eqb (a b : place) : bool :=
  match a, b with
  | Direction, Direction | Momentum, Momentum | Initial, Initial | Vertex, Vertex
  | Closest, Closest => true
  | _, _ => false
  end.

(** InteractionRecord.h:59-92. Simplified: [interaction_parameters] is left out, and so are the
    flags of the helicity and the initial time, which no modelled function reads. *)
Record primary := mkprimary {
  p_id : Z; p_type : Z;
  p_num : scalar -> slot R; p_vec : place -> slot vec;
  p_helicity : R; p_start : R }.

(** The constructor, InteractionRecord.cxx:32-35, and the initial values of InteractionRecord.h:63-91. *)
Definition fresh (id type : Z) : primary :=
  mkprimary id type (fun _ => mkslot false Undef) (fun _ => mkslot false Undef) 0 0.

(** Writing a number member, e.g. InteractionRecord.cxx:206-207. *)
Definition put_num (r : primary) (n : scalar) (s : slot R) : primary :=
  mkprimary (p_id r) (p_type r) (fun k => if scalar_eqb k n then s else p_num r k) (p_vec r)
    (p_helicity r) (p_start r).

(** Writing a three-component member, e.g. InteractionRecord.cxx:221-222. *)
Definition put_vec (r : primary) (n : place) (s : slot vec) : primary :=
  mkprimary (p_id r) (p_type r) (p_num r) (fun k => if place_eqb k n then s else p_vec r k)
    (p_helicity r) (p_start r).

(** InteractionRecord.cxx:205-218, 237-240, 257-265 and 277-280: [SetMass], [SetEnergy], [SetKineticEnergy],
    [SetLength], the two distance setters and [SetInteractionTime]. *)
Definition set_num (r : primary) (n : scalar) (v : R) : primary := put_num r n (mkslot true (Got v)).

(** InteractionRecord.cxx:220-228 and 242-255: [SetDirection], [SetThreeMomentum], [SetInitialPosition],
    [SetInteractionVertex], [SetPointOfClosestApproach]. *)
Definition set_vec (r : primary) (n : place) (v : vec) : primary := put_vec r n (mkslot true (Got v)).

(** InteractionRecord.cxx:230-235, [SetFourMomentum]. *)
Definition set_four (r : primary) (e : R) (p : vec) : primary := set_num (set_vec r Momentum p) Energy e.

(** InteractionRecord.cxx:267-270, [SetHelicity]. *)
Definition set_helicity (r : primary) (h : R) : primary :=
  mkprimary (p_id r) (p_type r) (p_num r) (p_vec r) h (p_start r).

(** InteractionRecord.cxx:272-275, [SetInitialTime]. *)
Definition set_start (r : primary) (t : R) : primary :=
  mkprimary (p_id r) (p_type r) (p_num r) (p_vec r) (p_helicity r) t.

(** projects/dataclasses/public/SIREN/dataclasses/Particle.h:46-52. *)
Record particle := mkparticle {
  a_id : Z; a_type : Z; a_mass : R; a_energy : R; a_momentum : vec; a_position : vec;
  a_length : R; a_helicity : R }.

(** InteractionRecord.cxx:178-203, [SetParticle]; [None] is the exception of 180 or 183. *)
Definition set_particle (r : primary) (a : particle) : option primary :=
  if negb (Z.eqb (a_id a) (p_id r)) then None
  else if negb (Z.eqb (a_type a) (p_type r)) then None
  else Some
    (set_helicity
      (set_num
        (set_vec
          (set_num (set_vec (set_num r Mass (a_mass a)) Momentum (a_momentum a)) Energy (a_energy a))
          Initial (a_position a))
        Length (a_length a))
      (a_helicity a)).

(** ** Derivations *)
(** The flags, e.g. InteractionRecord.cxx:293. *)
Definition has (r : primary) (n : scalar) : bool := s_set (p_num r n).
(** The flags of the three-component members, e.g. InteractionRecord.cxx:293. *)
Definition hasv (r : primary) (n : place) : bool := s_set (p_vec r n).
(** Reading a member, e.g. InteractionRecord.cxx:294. *)
Definition num (r : primary) (n : scalar) : got R := s_val (p_num r n).
(** Reading a three-component member, e.g. InteractionRecord.cxx:294. *)
Definition vct (r : primary) (n : place) : got vec := s_val (p_vec r n).

(** InteractionRecord.cxx:290-300, the value [UpdateMass] stores. *)
Definition mass_from (r : primary) : got R :=
  if has r Energy && hasv r Momentum then
    bind (num r Energy) (fun e => bind (vct r Momentum) (fun p =>
      root (e * e - vx p * vx p - vy p * vy p - vz p * vz p)))
  else if has r Energy && has r Kinetic then
    bind (num r Energy) (fun e => bind (num r Kinetic) (fun t => Got (e - t)))
  else Threw.

(** InteractionRecord.cxx:302-312, [UpdateEnergy]. *)
Definition energy_from (r : primary) : got R :=
  if has r Mass && hasv r Momentum then
    bind (num r Mass) (fun m => bind (vct r Momentum) (fun p =>
      root (m * m + vx p * vx p + vy p * vy p + vz p * vz p)))
  else if has r Mass && has r Kinetic then
    bind (num r Mass) (fun m => bind (num r Kinetic) (fun t => Got (m + t)))
  else Threw.

(** InteractionRecord.cxx:314-324, [UpdateKineticEnergy]. *)
Definition kinetic_from (r : primary) : got R :=
  if has r Mass && has r Energy then
    bind (num r Energy) (fun e => bind (num r Mass) (fun m => Got (e - m)))
  else if hasv r Momentum && has r Mass then
    bind (vct r Momentum) (fun p => bind (num r Mass) (fun m =>
      bind (root (vx p * vx p + vy p * vy p + vz p * vz p + m * m)) (fun e => Got (e - m))))
  else Threw.

(** InteractionRecord.cxx:326-339, [UpdateDirection]. *)
Definition direction_from (r : primary) : got vec :=
  if hasv r Momentum then bind (vct r Momentum) normal
  else if hasv r Initial && hasv r Vertex then
    bind (vct r Vertex) (fun x => bind (vct r Initial) (fun o => normal (vsub x o)))
  else Threw.

(** InteractionRecord.cxx:341-353, [UpdateMomentum]. *)
Definition momentum_from (r : primary) : got vec :=
  if has r Energy && has r Mass && hasv r Direction then
    bind (num r Energy) (fun e => bind (num r Mass) (fun m => bind (vct r Direction) (fun d =>
      bind (root (e * e - m * m)) (fun k => Got (vscale k d)))))
  else if has r Mass && has r Kinetic && hasv r Direction then
    bind (num r Mass) (fun m => bind (num r Kinetic) (fun t => bind (vct r Direction) (fun d =>
      bind (root ((t + m) * (t + m) - m * m)) (fun k => Got (vscale k d)))))
  else Threw.

(** InteractionRecord.cxx:355-369, [UpdateLength]. *)
Definition length_from (r : primary) : got R :=
  if hasv r Initial && hasv r Vertex then
    bind (vct r Vertex) (fun x => bind (vct r Initial) (fun o => Got (vmag (vsub x o))))
  else if has r InitialDistance && has r VertexDistance then
    bind (num r VertexDistance) (fun a => bind (num r InitialDistance) (fun b => Got (a - b)))
  else Threw.

(** InteractionRecord.cxx:371-393, [UpdateInitialPosition]. *)
Definition initial_from (r : primary) : got vec :=
  if hasv r Vertex && hasv r Direction && has r Length then
    bind (vct r Vertex) (fun x => bind (num r Length) (fun l => bind (vct r Direction) (fun d =>
      Got (vsub x (vscale l d)))))
  else if hasv r Vertex && hasv r Direction && has r InitialDistance && has r VertexDistance then
    bind (num r VertexDistance) (fun a => bind (num r InitialDistance) (fun b =>
      bind (vct r Vertex) (fun x => bind (vct r Direction) (fun d =>
        Got (vsub x (vscale (a - b) d))))))
  else if has r InitialDistance && hasv r Direction && hasv r Closest then
    bind (vct r Closest) (fun c => bind (num r InitialDistance) (fun b => bind (vct r Direction) (fun d =>
      Got (vadd c (vscale b d)))))
  else Threw.

(** InteractionRecord.cxx:395-417, [UpdateInteractionVertex]. *)
Definition vertex_from (r : primary) : got vec :=
  if hasv r Initial && hasv r Direction && has r Length then
    bind (vct r Initial) (fun o => bind (num r Length) (fun l => bind (vct r Direction) (fun d =>
      Got (vadd o (vscale l d)))))
  else if hasv r Initial && hasv r Direction && has r InitialDistance && has r VertexDistance then
    bind (num r VertexDistance) (fun a => bind (num r InitialDistance) (fun b =>
      bind (vct r Initial) (fun o => bind (vct r Direction) (fun d =>
        Got (vadd o (vscale (a - b) d))))))
  else if has r VertexDistance && hasv r Direction && hasv r Closest then
    bind (vct r Closest) (fun c => bind (num r VertexDistance) (fun a => bind (vct r Direction) (fun d =>
      Got (vadd c (vscale a d)))))
  else Threw.

(** InteractionRecord.cxx:442-451 (and, inside the distance functions, 461-470 etc.): the point of the line through [q]
    along [d] where the position is orthogonal to [d]. *)
Definition foot (q d : vec) : vec := vsub q (vscale (vdot q d) d).

(** InteractionRecord.cxx:419-454, [UpdatePointOfClosestApproach]; 423-426 adds the distance of the initial position. *)
Definition closest_from (r : primary) : got vec :=
  if hasv r Initial && hasv r Direction && has r InitialDistance then
    bind (vct r Initial) (fun o => bind (num r InitialDistance) (fun b => bind (vct r Direction) (fun d =>
      Got (vadd o (vscale b d)))))
  else if hasv r Vertex && hasv r Direction && has r VertexDistance then
    bind (vct r Vertex) (fun x => bind (num r VertexDistance) (fun a => bind (vct r Direction) (fun d =>
      Got (vsub x (vscale a d)))))
  else if hasv r Initial && hasv r Vertex then
    bind (vct r Vertex) (fun x => bind (vct r Initial) (fun o =>
      bind (normal (vsub x o)) (fun d => Got (foot o d))))
  else Threw.

(** InteractionRecord.cxx:462-482, repeated at 492-512, 515-535, 551-571, 581-601 and 604-624: the signed distance of [q]
    from that point. *)
Definition signed_distance (q d : vec) : R :=
  let difference := vsub q (foot q d) in
  vmag difference * (if Rlt_dec 0 (vdot difference d) then 1 else - (1)).

(** InteractionRecord.cxx:456-544, [UpdateVertexDistanceFromClosestApproach]. The fourth branch (514-538) reads the
    direction whether or not it is set. *)
Definition vertex_distance_from (r : primary) : got R :=
  if has r InitialDistance && has r Length then
    bind (num r InitialDistance) (fun b => bind (num r Length) (fun l => Got (b + l)))
  else if hasv r Vertex && hasv r Direction then
    bind (vct r Vertex) (fun x => bind (vct r Direction) (fun d => Got (signed_distance x d)))
  else if hasv r Vertex && hasv r Initial then
    bind (vct r Vertex) (fun x => bind (vct r Initial) (fun o =>
      bind (normal (vsub x o)) (fun d => Got (signed_distance x d))))
  else if hasv r Closest && hasv r Initial && has r Length then
    bind (vct r Initial) (fun o => bind (vct r Direction) (fun d => bind (num r Length) (fun l =>
      Got (signed_distance o d + l))))
  else Threw.

(** InteractionRecord.cxx:546-634, [UpdateInitialDistanceFromClosestApproach]; likewise at 603-628. *)
Definition initial_distance_from (r : primary) : got R :=
  if has r VertexDistance && has r Length then
    bind (num r VertexDistance) (fun a => bind (num r Length) (fun l => Got (a - l)))
  else if hasv r Initial && hasv r Direction then
    bind (vct r Initial) (fun o => bind (vct r Direction) (fun d => Got (signed_distance o d)))
  else if hasv r Initial && hasv r Vertex then
    bind (vct r Vertex) (fun x => bind (vct r Initial) (fun o =>
      bind (normal (vsub x o)) (fun d => Got (signed_distance o d))))
  else if hasv r Closest && hasv r Vertex && has r Length then
    bind (vct r Vertex) (fun x => bind (vct r Direction) (fun d => bind (num r Length) (fun l =>
      Got (signed_distance x d - l))))
  else Threw.

(** ** Getters *)
(** The end of every [Update...]: store the value, or leave with the exception before storing, e.g.
    InteractionRecord.cxx:294-299. [None]: the read was undefined. The flag of the answer says whether it threw. *)
Definition store {A} (s : slot A) (v : got A) (put : slot A -> primary) (r : primary) :
    option (primary * bool) :=
  if s_set s then Some (r, true)
  else match v with
       | Got _ | Nan => Some (put (mkslot false v), true)
       | Threw => Some (r, false)
       | Undef => None
       end.

(** Which derivation belongs to which three-component member, InteractionRecord.cxx:326-353 and 371-454. *)
Definition vec_from (r : primary) (n : place) : got vec :=
  match n with
  | Direction => direction_from r
  | Momentum => momentum_from r
  | Initial => initial_from r
  | Vertex => vertex_from r
  | Closest => closest_from r
  end.

(** InteractionRecord.cxx:326-353 and 371-454, the [Update...] functions of these members. *)
Definition update_vec (r : primary) (n : place) : option (primary * bool) :=
  store (p_vec r n) (vec_from r n) (put_vec r n) r.

(** Which derivation belongs to which number member but the time, InteractionRecord.cxx:290-324, 355-369 and 456-634. *)
Definition num_from (r : primary) (n : scalar) : got R :=
  match n with
  | Mass => mass_from r
  | Energy => energy_from r
  | Kinetic => kinetic_from r
  | Length => length_from r
  | VertexDistance => vertex_distance_from r
  | InitialDistance => initial_distance_from r
  | Time => Threw
  end.

(** InteractionRecord.cxx:290-324, 355-369 and 456-634, the [Update...] functions of these members. *)
Definition update_num (r : primary) (n : scalar) : option (primary * bool) :=
  store (p_num r n) (num_from r n) (put_num r n) r.

(** A getter: update, then return the member, e.g. InteractionRecord.cxx:77-82. *)
Definition answer {A} (r : primary) (u : option (primary * bool)) (read : primary -> got A) :
    primary * got A :=
  match u with
  | None => (r, Undef)
  | Some (r', false) => (r', Threw)
  | Some (r', true) => (r', read r')
  end.

(** InteractionRecord.cxx:77-97, 121-126 and 149-161, but [GetInteractionTime]: the getters of the numbers. *)
Definition get_num (r : primary) (n : scalar) : primary * got R :=
  answer r (update_num r n) (fun r' => num r' n).

(** InteractionRecord.cxx:99-111 and 128-147: the getters of the three-component members. *)
Definition get_vec (r : primary) (n : place) : primary * got vec :=
  answer r (update_vec r n) (fun r' => vct r' n).

(** InteractionRecord.cxx:113-119, [GetFourMomentum]: energy and momentum, either of which may be NaN. *)
Definition get_four (r : primary) : primary * got (got R * got vec) :=
  if hasv r Momentum && has r Energy then (r, Got (num r Energy, vct r Momentum))
  else match update_vec r Momentum with
       | None => (r, Undef)
       | Some (r1, false) => (r1, Threw)
       | Some (r1, true) =>
           match update_num r1 Energy with
           | None => (r1, Undef)
           | Some (r2, false) => (r2, Threw)
           | Some (r2, true) => (r2, Got (num r2 Energy, vct r2 Momentum))
           end
       end.

(** ** Time of the interaction *)
(** projects/utilities/public/SIREN/utilities/Constants.h:29, 43 and 46. *)
Definition light_speed : R := 299792458 * (1 / 10 ^ 9).

(** InteractionRecord.cxx:24-29, [FlightTime]. Comparisons with NaN are false. *)
Definition flight_time (length energy momentum : got R) : R :=
  match length, energy, momentum with
  | Got l, Got e, Got p =>
      if Rlt_dec 0 l then if Rlt_dec 0 e then if Rlt_dec 0 p
      then l / (Rmin (p / e) 1 * light_speed) else 0 else 0 else 0
  | _, _, _ => 0
  end.

(** InteractionRecord.cxx:649-652: the momentum used for the speed. *)
Definition speed_momentum (energy mass : got R) : got R :=
  match energy, mass with
  | Got e, Got m => if Rlt_dec m e then root (e * e - m * m) else Got 0
  | _, _ => Got 0
  end.

(** InteractionRecord.cxx:636-654, [UpdateInteractionTime], followed by the return of [GetInteractionTime] (171-176). The
    four getters it calls write their members too. *)
Definition get_time (r : primary) : primary * got R :=
  if has r Time then (r, num r Time)
  else match get_vec r Initial with
       | (r1, Threw) => (r1, Threw)
       | (r1, Undef) => (r1, Undef)
       | (r1, o) =>
       match get_vec r1 Vertex with
       | (r2, Threw) => (r2, Threw)
       | (r2, Undef) => (r2, Undef)
       | (r2, x) =>
       match get_num r2 Energy with
       | (r3, Threw) => (r3, Threw)
       | (r3, Undef) => (r3, Undef)
       | (r3, e) =>
       match get_num r3 Mass with
       | (r4, Threw) => (r4, Threw)
       | (r4, Undef) => (r4, Undef)
       | (r4, m) =>
           let distance := bind x (fun x => bind o (fun o => Got (vmag (vsub x o)))) in
           let t := Got (p_start r4 + flight_time distance e (speed_momentum e m)) in
           (put_num r4 Time (mkslot false t), t)
       end end end end.

(** ** Sequences of calls *)
(** The calls of InteractionRecord.h:105-159. [GetParticle], [FinalizeAvailable] and [Finalize] call
    getters only, so they need no case of their own; the [Update...] calls are those of the
    getters. *)
Inductive call :=
| SetNum (n : scalar) (v : R)
| SetVec (n : place) (v : vec)
| SetFour (e : R) (p : vec)
| SetHelicity (h : R)
| SetStart (t : R)
| SetParticle (a : particle)
| GetNum (n : scalar)
| GetVec (n : place)
| GetFour.

(** The getters of numbers, InteractionRecord.cxx:77-176. *)
Definition read_num (r : primary) (n : scalar) : primary * got R :=
  match n with Time => get_time r | _ => get_num r n end.

(** Whether a read was undefined. InteractionRecord.cxx:77-288. *)
Definition defined {A} (x : primary * got A) : option primary :=
  match snd x with Undef => None | _ => Some (fst x) end.

(** One call, InteractionRecord.cxx:77-288; [None] once a read was undefined. A caller may catch exceptions. *)
Definition call_step (r : primary) (o : call) : option primary :=
  match o with
  | SetNum n v => Some (set_num r n v)
  | SetVec n v => Some (set_vec r n v)
  | SetFour e p => Some (set_four r e p)
  | SetHelicity h => Some (set_helicity r h)
  | SetStart t => Some (set_start r t)
  | SetParticle a => match set_particle r a with Some r' => Some r' | None => Some r end
  | GetNum n => defined (read_num r n)
  | GetVec n => defined (get_vec r n)
  | GetFour => defined (get_four r)
  end.

(** A sequence of calls on one record. InteractionRecord.cxx:77-288. *)
Fixpoint calls (l : list call) (r : primary) : option primary :=
  match l with
  | [] => Some r
  | o :: l => match call_step r o with Some r' => calls l r' | None => None end
  end.

(** ** Copying to a particle and to an interaction record *)
(** What [catch(...)] leaves, e.g. InteractionRecord.cxx:41-45: the value, or the default if an exception came. *)
Definition or_default {A} (d : A) (x : got A) : got A := match x with Threw => Got d | _ => x end.

(** InteractionRecord.cxx:37-67, [GetParticle]; the getters are called in this order. Energy and momentum may be NaN
    separately. *)
Definition get_particle (r : primary) :
    primary * (got R * got (got R * got vec) * got vec * got R * R) :=
  let (r1, m) := get_num r Mass in
  let (r2, f) := get_four r1 in
  let (r3, o) := get_vec r2 Initial in
  let (r4, l) := get_num r3 Length in
  (r4, (or_default 0 m, or_default (Got 0, Got (mkv 0 0 0)) f, or_default (mkv 0 0 0) o,
        or_default 0 l, p_helicity r4)).

(** The parts of an InteractionRecord (InteractionRecord.h:308-319) that [Finalize] writes. *)
Record summary := mksummary {
  m_type : Z; m_id : Z; m_vertex : got vec; m_initial : got vec; m_mass : got R;
  m_energy : got R; m_momentum : got vec; m_helicity : R; m_start : R; m_time : got R }.

(** InteractionRecord.cxx:687-700, [Finalize], but for the interaction parameters; [None] when a getter throws. An
    undefined read also gives [None]. *)
Definition finalize (r : primary) : option summary :=
  match get_vec r Vertex with
  | (_, Threw) | (_, Undef) => None
  | (r1, x) =>
  match get_vec r1 Initial with
  | (_, Threw) | (_, Undef) => None
  | (r2, o) =>
  match get_num r2 Mass with
  | (_, Threw) | (_, Undef) => None
  | (r3, m) =>
  match get_four r3 with
  | (r4, Got (e, p)) =>
  match get_time r4 with
  | (_, Threw) | (_, Undef) => None
  | (r5, t) => Some (mksummary (p_type r) (p_id r) x o m e p (p_helicity r5) (p_start r5) t)
  end
  | _ => None
  end end end end.

(** InteractionRecord.cxx:656-685, [FinalizeAvailable] on a record holding [old]: what throws is left as it was. *)
Definition keep {A} (old : got A) (x : got A) : got A := match x with Threw => old | _ => x end.

(** InteractionRecord.cxx:656-685. *)
Definition finalize_available (r : primary) (old : summary) : summary :=
  let (r1, e) := get_num r Energy in
  let (r2, p) := get_vec r1 Momentum in
  let (r3, o) := get_vec r2 Initial in
  let (r4, x) := get_vec r3 Vertex in
  let (r5, m) := get_num r4 Mass in
  let (r6, t) := get_time r5 in
  mksummary (p_type r) (p_id r) (keep (m_vertex old) x) (keep (m_initial old) o)
    (keep (m_mass old) m) (keep (m_energy old) e) (keep (m_momentum old) p)
    (p_helicity r6) (p_start r6) (keep (m_time old) t).
