(** Model of the records of secondary particles: [SecondaryParticleRecord],
    [CrossSectionDistributionRecord] and [SecondaryDistributionRecord].
    Source: projects/dataclasses/private/InteractionRecord.cxx:704-1204 (line numbers without a file
    refer to it) and projects/dataclasses/public/SIREN/dataclasses/InteractionRecord.h. Doubles are
    real numbers, NaN and exceptions are outcomes as in RecordModel. *)
From Coq Require Import Reals List Bool ZArith.
From Verif Require Import VectorModel RecordModel.
Import ListNotations.
Open Scope R_scope.

(** ** Interaction records *)
(** InteractionRecord.h:306-325 with the signature of InteractionSignature.h:24-26. Particle ids are
    [None] when not set. Left out: [interaction_parameters]. *)
Record irecord := mkirecord {
  i_primary_type : Z; i_target_type : Z; i_types : list Z;
  i_primary_id : option Z; i_initial : vec; i_start : R; i_mass : R; i_energy : R; i_momentum : vec;
  i_helicity : R;
  i_target_id : option Z; i_target_mass : R; i_target_helicity : R;
  i_vertex : vec; i_time : R;
  i_ids : list (option Z); i_masses : list R; i_momenta : list (R * vec); i_helicities : list R;
  i_times : list R }.

(** A new record, InteractionRecord.h:308-324. *)
Definition empty_record : irecord :=
  mkirecord 0 0 [] None (mkv 0 0 0) 0 0 0 (mkv 0 0 0) 0 None 0 0 (mkv 0 0 0) 0 [] [] [] [] [].

(** ** One secondary of an interaction *)
(** [SecondaryParticleRecord], InteractionRecord.h:162-185. The members start as zero there, which no
    getter returns. [d_num] uses only mass, energy, kinetic energy and time, [d_vec] only direction
    and momentum. *)
Record daughter := mkdaughter {
  d_index : nat; d_id : Z; d_type : Z; d_position : vec;
  d_num : scalar -> slot R; d_vec : place -> slot vec;
  d_helicity : R; d_start : R }.

(** InteractionRecord.cxx:704-710, the constructor; [new] is the id that 706 generates if there is none. [None]: the
    exception of [at] at 707. *)
Definition daughter_of (rec : irecord) (i : nat) (new : Z) : option daughter :=
  match nth_error (i_types rec) i with
  | None => None
  | Some t =>
      Some (mkdaughter i (match nth_error (i_ids rec) i with Some (Some k) => k | _ => new end) t
              (i_vertex rec) (fun _ => mkslot false (Got 0)) (fun _ => mkslot false (Got (mkv 0 0 0)))
              0 (i_time rec))
  end.

(** Writing a number member, e.g. InteractionRecord.cxx:830-831. *)
Definition dput_num (r : daughter) (n : scalar) (s : slot R) : daughter :=
  mkdaughter (d_index r) (d_id r) (d_type r) (d_position r)
    (fun k => if scalar_eqb k n then s else d_num r k) (d_vec r) (d_helicity r) (d_start r).

(** Writing a vector member, e.g. InteractionRecord.cxx:845-846. *)
Definition dput_vec (r : daughter) (n : place) (s : slot vec) : daughter :=
  mkdaughter (d_index r) (d_id r) (d_type r) (d_position r) (d_num r)
    (fun k => if place_eqb k n then s else d_vec r k) (d_helicity r) (d_start r).

(** The flags, e.g. InteractionRecord.cxx:872. *)
Definition dhas (r : daughter) (n : scalar) : bool := s_set (d_num r n).
(** The same for direction and momentum, e.g. InteractionRecord.cxx:910. *)
Definition dhasv (r : daughter) (n : place) : bool := s_set (d_vec r n).
(** Reading a member, e.g. InteractionRecord.cxx:875. *)
Definition dnum (r : daughter) (n : scalar) : got R := s_val (d_num r n).
(** Reading direction or momentum, e.g. InteractionRecord.cxx:911. *)
Definition dvct (r : daughter) (n : place) : got vec := s_val (d_vec r n).

(** InteractionRecord.cxx:871-881, [UpdateMass]. *)
Definition dmass_from (r : daughter) : got R :=
  if dhas r Energy && dhasv r Momentum then
    bind (dnum r Energy) (fun e => bind (dvct r Momentum) (fun p =>
      root (e * e - vx p * vx p - vy p * vy p - vz p * vz p)))
  else if dhas r Energy && dhas r Kinetic then
    bind (dnum r Energy) (fun e => bind (dnum r Kinetic) (fun t => Got (e - t)))
  else Threw.

(** InteractionRecord.cxx:883-893, [UpdateEnergy]. *)
Definition denergy_from (r : daughter) : got R :=
  if dhas r Mass && dhasv r Momentum then
    bind (dnum r Mass) (fun m => bind (dvct r Momentum) (fun p =>
      root (m * m + vx p * vx p + vy p * vy p + vz p * vz p)))
  else if dhas r Mass && dhas r Kinetic then
    bind (dnum r Kinetic) (fun t => bind (dnum r Mass) (fun m => Got (t + m)))
  else Threw.

(** InteractionRecord.cxx:895-905, [UpdateKineticEnergy]. *)
Definition dkinetic_from (r : daughter) : got R :=
  if dhas r Mass && dhas r Energy then
    bind (dnum r Energy) (fun e => bind (dnum r Mass) (fun m => Got (e - m)))
  else if dhas r Mass && dhasv r Momentum then
    bind (dvct r Momentum) (fun p => bind (dnum r Mass) (fun m =>
      bind (root (vx p * vx p + vy p * vy p + vz p * vz p + m * m)) (fun e => Got (e - m))))
  else Threw.

(** InteractionRecord.cxx:907-916, [UpdateDirection]. *)
Definition ddirection_from (r : daughter) : got vec :=
  if dhasv r Momentum then bind (dvct r Momentum) normal else Threw.

(** InteractionRecord.cxx:918-930, [UpdateMomentum]. *)
Definition dmomentum_from (r : daughter) : got vec :=
  if dhas r Energy && dhas r Mass && dhasv r Direction then
    bind (dnum r Energy) (fun e => bind (dnum r Mass) (fun m => bind (dvct r Direction) (fun d =>
      bind (root (e * e - m * m)) (fun k => Got (vscale k d)))))
  else if dhas r Mass && dhas r Kinetic && dhasv r Direction then
    bind (dnum r Mass) (fun m => bind (dnum r Kinetic) (fun t => bind (dvct r Direction) (fun d =>
      bind (root ((t + m) * (t + m) - m * m)) (fun k => Got (vscale k d)))))
  else Threw.

(** The end of every [Update...], e.g. InteractionRecord.cxx:872-880: store the value, or leave with the exception. *)
Definition dkeep {A} (s : slot A) (v : got A) (put : slot A -> daughter) (r : daughter) : daughter * got A :=
  if s_set s then (r, s_val s)
  else match v with
       | Got _ | Nan => (put (mkslot false v), v)
       | _ => (r, v)
       end.

(** InteractionRecord.cxx:768-787, [GetMass], [GetEnergy], [GetKineticEnergy]. *)
Definition dget_num (r : daughter) (n : scalar) : daughter * got R :=
  dkeep (d_num r n)
    (match n with
     | Mass => dmass_from r | Energy => denergy_from r | Kinetic => dkinetic_from r | _ => Threw
     end) (dput_num r n) r.

(** InteractionRecord.cxx:789-801, [GetDirection] and [GetThreeMomentum]. *)
Definition dget_vec (r : daughter) (n : place) : daughter * got vec :=
  dkeep (d_vec r n)
    (match n with Direction => ddirection_from r | Momentum => dmomentum_from r | _ => Threw end)
    (dput_vec r n) r.

(** InteractionRecord.cxx:803-811, [GetFourMomentum]. *)
Definition dget_four (r : daughter) : daughter * got (got R * got vec) :=
  match dget_vec r Momentum with
  | (r1, Threw) => (r1, Threw)
  | (r1, Undef) => (r1, Undef)
  | (r1, p) =>
      match dget_num r1 Energy with
      | (r2, Threw) => (r2, Threw)
      | (r2, Undef) => (r2, Undef)
      | (r2, e) => (r2, Got (e, p))
      end
  end.

(** InteractionRecord.cxx:821-827, [GetTime]. *)
Definition dget_time (r : daughter) : got R :=
  if dhas r Time then dnum r Time else Got (d_start r).

(** The calls of InteractionRecord.h:204-227. *)
Inductive dcall :=
| DSetMass (v : R) | DSetEnergy (v : R) | DSetKinetic (v : R)
| DSetDirection (v : vec) | DSetMomentum (v : vec) | DSetFour (e : R) (p : vec)
| DSetHelicity (h : R) | DSetTime (t : R) | DSetParticle (a : particle)
| DGetMass | DGetEnergy | DGetKinetic | DGetDirection | DGetMomentum | DGetFour.

(** InteractionRecord.cxx:739-758, [SetParticle]; an exception (741, 744) changes nothing. *)
Definition dset_particle (r : daughter) (a : particle) : daughter :=
  if negb (Z.eqb (a_id a) (d_id r)) then r
  else if negb (Z.eqb (a_type a) (d_type r)) then r
  else
    let r := dput_num r Mass (mkslot true (Got (a_mass a))) in
    let r := dput_vec r Momentum (mkslot true (Got (a_momentum a))) in
    let r := dput_num r Energy (mkslot true (Got (a_energy a))) in
    mkdaughter (d_index r) (d_id r) (d_type r) (d_position r) (d_num r) (d_vec r) (a_helicity a) (d_start r).

(** InteractionRecord.cxx:829-869, the setters, and the getters, of which only the written members matter. *)
Definition dstep (r : daughter) (o : dcall) : daughter :=
  match o with
  | DSetMass v => dput_num r Mass (mkslot true (Got v))
  | DSetEnergy v => dput_num r Energy (mkslot true (Got v))
  | DSetKinetic v => dput_num r Kinetic (mkslot true (Got v))
  | DSetDirection v => dput_vec r Direction (mkslot true (Got v))
  | DSetMomentum v => dput_vec r Momentum (mkslot true (Got v))
  | DSetFour e p => dput_num (dput_vec r Momentum (mkslot true (Got p))) Energy (mkslot true (Got e))
  | DSetHelicity h =>
      mkdaughter (d_index r) (d_id r) (d_type r) (d_position r) (d_num r) (d_vec r) h (d_start r)
  | DSetTime t => dput_num r Time (mkslot true (Got t))
  | DSetParticle a => dset_particle r a
  | DGetMass => fst (dget_num r Mass)
  | DGetEnergy => fst (dget_num r Energy)
  | DGetKinetic => fst (dget_num r Kinetic)
  | DGetDirection => fst (dget_vec r Direction)
  | DGetMomentum => fst (dget_vec r Momentum)
  | DGetFour => fst (dget_four r)
  end.

(** [v.at(i) = x], InteractionRecord.cxx:934-938; [None] is the exception of [at]. *)
Fixpoint write {A} (l : list A) (i : nat) (x : A) : option (list A) :=
  match l, i with
  | [], _ => None
  | _ :: l, O => Some (x :: l)
  | y :: l, S i => match write l i x with Some l' => Some (y :: l') | None => None end
  end.

(** InteractionRecord.cxx:932-939, [SecondaryParticleRecord::Finalize]. [Threw]: the mass or the momentum cannot be
    derived, or a list is too short; [Nan]: one of them is NaN and stored as such, the record is not
    followed further. Simplified: the assertion of 933, and what an exception leaves half written. *)
Definition dfinalize (r : daughter) (rec : irecord) : got irecord :=
  let (r1, m) := dget_num r Mass in
  bind m (fun m =>
    let (r2, f) := dget_four r1 in
    bind f (fun f =>
      bind (fst f) (fun e => bind (snd f) (fun p => bind (dget_time r2) (fun t =>
        match write (i_ids rec) (d_index r) (Some (d_id r)), write (i_masses rec) (d_index r) m,
              write (i_momenta rec) (d_index r) (e, p), write (i_helicities rec) (d_index r) (d_helicity r2),
              write (i_times rec) (d_index r) t with
        | Some ids, Some masses, Some momenta, Some helicities, Some times =>
            Got (mkirecord (i_primary_type rec) (i_target_type rec) (i_types rec) (i_primary_id rec)
                   (i_initial rec) (i_start rec) (i_mass rec) (i_energy rec) (i_momentum rec)
                   (i_helicity rec) (i_target_id rec) (i_target_mass rec) (i_target_helicity rec)
                   (i_vertex rec) (i_time rec) ids masses momenta helicities times)
        | _, _, _, _, _ => Threw
        end))))).

(** ** The final state of an interaction *)
(** [CrossSectionDistributionRecord], InteractionRecord.h:238-260: the members that are not references
    into the interaction record. *)
Record final := mkfinal {
  f_target_id : Z; f_target_mass : R; f_target_helicity : R;
  f_daughters : list daughter; f_time : option R }.

(** InteractionRecord.cxx:959-962: one secondary for every type of the signature; [new] gives the ids of 706. *)
Fixpoint daughters_from (rec : irecord) (new : nat -> Z) (i n : nat) : list daughter :=
  match n with
  | O => []
  | S n =>
      match daughter_of rec i (new i) with
      | Some d => d :: daughters_from rec new (S i) n
      | None => []
      end
  end.

(** InteractionRecord.cxx:943-963, the constructor; [target] is the id that 954 generates if there is none. *)
Definition final_of (rec : irecord) (new : nat -> Z) (target : Z) : final :=
  mkfinal (match i_target_id rec with Some k => k | None => target end) (i_target_mass rec)
    (i_target_helicity rec) (daughters_from rec new 0 (List.length (i_types rec))) None.

(** InteractionRecord.cxx:1031-1040, [SetInteractionTime]. *)
Definition final_set_time (f : final) (t : R) : final :=
  mkfinal (f_target_id f) (f_target_mass f) (f_target_helicity f)
    (map (fun d => mkdaughter (d_index d) (d_id d) (d_type d) (d_position d) (d_num d) (d_vec d)
                     (d_helicity d) t) (f_daughters f))
    (Some t).

(** InteractionRecord.cxx:997-1001, [GetInteractionTime] on the record [rec] it was made from. *)
Definition final_time (f : final) (rec : irecord) : R :=
  match f_time f with Some t => t | None => i_time rec end.

(** InteractionRecord.cxx:1058-1072: a call on one of the secondaries. *)
Fixpoint on_daughter (l : list daughter) (i : nat) (o : dcall) : list daughter :=
  match l, i with
  | [], _ => []
  | d :: l, O => dstep d o :: l
  | d :: l, S i => d :: on_daughter l i o
  end.

(** Calls on the final state, InteractionRecord.h:286-301. *)
Inductive fcall := FTime (t : R) | FMass (m : R) | FHelicity (h : R) | FDaughter (i : nat) (o : dcall).

(** InteractionRecord.cxx:1031-1048 and 1058-1072. *)
Definition fstep (f : final) (o : fcall) : final :=
  match o with
  | FTime t => final_set_time f t
  | FMass m => mkfinal (f_target_id f) m (f_target_helicity f) (f_daughters f) (f_time f)
  | FHelicity h => mkfinal (f_target_id f) (f_target_mass f) h (f_daughters f) (f_time f)
  | FDaughter i o =>
      mkfinal (f_target_id f) (f_target_mass f) (f_target_helicity f) (on_daughter (f_daughters f) i o) (f_time f)
  end.

(** [resize], InteractionRecord.cxx:1089-1093. *)
Fixpoint resize {A} (l : list A) (n : nat) (x : A) : list A :=
  match n with
  | O => []
  | S n => match l with [] => x :: resize [] n x | y :: l => y :: resize l n x end
  end.

(** InteractionRecord.cxx:1095-1097: the secondaries in turn. *)
Fixpoint dfinalize_all (l : list daughter) (rec : irecord) : got irecord :=
  match l with
  | [] => Got rec
  | d :: l => bind (dfinalize d rec) (dfinalize_all l)
  end.

(** InteractionRecord.cxx:1074-1098, [CrossSectionDistributionRecord::Finalize]. *)
Definition final_finalize (f : final) (rec : irecord) : got irecord :=
  let n := List.length (f_daughters f) in
  dfinalize_all (f_daughters f)
    (mkirecord (i_primary_type rec) (i_target_type rec) (i_types rec) (i_primary_id rec)
       (i_initial rec) (i_start rec) (i_mass rec) (i_energy rec) (i_momentum rec) (i_helicity rec)
       (Some (f_target_id f)) (f_target_mass f) (f_target_helicity f)
       (i_vertex rec) (match f_time f with Some t => t | None => i_time rec end)
       (resize (i_ids rec) n None) (resize (i_masses rec) n 0) (resize (i_momenta rec) n (0, mkv 0 0 0))
       (resize (i_helicities rec) n 0) (resize (i_times rec) n 0)).

(** ** A secondary as the primary of its own interaction *)
(** InteractionRecord.cxx:1102-1116, [CreateSecondaryRecord]; [new] is the id that 1105 generates if there is none. [None]:
    the exception of [at]. *)
Definition create_secondary (parent : irecord) (i : nat) (new : Z) : option irecord :=
  match nth_error (i_ids parent) i, nth_error (i_types parent) i, nth_error (i_masses parent) i,
        nth_error (i_momenta parent) i, nth_error (i_helicities parent) i with
  | Some id, Some t, Some m, Some (e, p), Some h =>
      Some (mkirecord t 0 [] (Some (match id with Some k => k | None => new end)) (i_vertex parent)
              (match nth_error (i_times parent) i with Some s => s | None => i_time parent end)
              m e p h None 0 0 (mkv 0 0 0) 0 [] [] [] [] [])
  | _, _, _, _, _ => None
  end.

(** [SecondaryDistributionRecord], InteractionRecord.h:422-439. The reference members refer to
    [x_record]. *)
Record second := mksecond {
  x_index : nat; x_record : irecord; x_direction : got vec; x_length : slot R; x_time : slot R }.

(** InteractionRecord.cxx:1126-1135 and 1147-1156: the direction of the momentum, or zero if the energy is. *)
Definition momentum_direction (rec : irecord) : got vec :=
  if Req_EM_T (i_energy rec) 0 then Got (mkv 0 0 0) else normal (i_momentum rec).

(** InteractionRecord.cxx:1141-1160, the constructor from a parent. *)
Definition second_of (parent : irecord) (i : nat) (new : Z) : option second :=
  match create_secondary parent i new with
  | Some rec => Some (mksecond i rec (momentum_direction rec) (mkslot false Undef) (mkslot false Undef))
  | None => None
  end.

(** InteractionRecord.cxx:1118-1139, the constructor from a record. Simplified: the references of that object go to the
    record it was made from, here to a copy. *)
Definition second_from (rec : irecord) (new : Z) : second :=
  let rec := mkirecord (i_primary_type rec) (i_target_type rec) (i_types rec)
               (Some (match i_primary_id rec with Some k => k | None => new end))
               (i_initial rec) (i_start rec) (i_mass rec) (i_energy rec) (i_momentum rec) (i_helicity rec)
               (i_target_id rec) (i_target_mass rec) (i_target_helicity rec) (i_vertex rec) (i_time rec)
               (i_ids rec) (i_masses rec) (i_momenta rec) (i_helicities rec) (i_times rec) in
  mksecond 0 rec (momentum_direction rec) (mkslot false Undef) (mkslot false Undef).

(** InteractionRecord.cxx:1173-1176, [SetLength]. *)
Definition second_set_length (s : second) (n : R) : second :=
  mksecond (x_index s) (x_record s) (x_direction s) (mkslot true (Got n)) (x_time s).

(** InteractionRecord.cxx:1186-1189, [SetInteractionTime]. *)
Definition second_set_time (s : second) (t : R) : second :=
  mksecond (x_index s) (x_record s) (x_direction s) (x_length s) (mkslot true (Got t)).

(** InteractionRecord.cxx:1166-1171, [GetLength]. *)
Definition second_length (s : second) : got R := if s_set (x_length s) then s_val (x_length s) else Threw.

(** InteractionRecord.cxx:1178-1184, [GetInteractionTime]. *)
Definition second_time (s : second) : got R :=
  if s_set (x_time s) then s_val (x_time s)
  else bind (second_length s) (fun n =>
    Got (i_start (x_record s) +
         flight_time (Got n) (Got (i_energy (x_record s))) (Got (vmag (i_momentum (x_record s)))))).

(** InteractionRecord.cxx:1191-1204, [Finalize] into [rec]. [Nan]: a record whose vertex is NaN. *)
Definition second_finalize (s : second) (rec : irecord) : got irecord :=
  let own := x_record s in
  bind (s_val (x_length s)) (fun n => bind (x_direction s) (fun d => bind (second_time s) (fun t =>
    Got (mkirecord (i_primary_type own) (i_target_type rec) (i_types rec) (i_primary_id own)
           (i_initial own) (i_start own) (i_mass own) (i_energy own) (i_momentum own) (i_helicity own)
           (i_target_id rec) (i_target_mass rec) (i_target_helicity rec)
           (vadd (i_initial own) (vscale n d)) t
           (i_ids rec) (i_masses rec) (i_momenta rec) (i_helicities rec) (i_times rec))))).
