(** Model of HepMC3 import: event graphs and their conversion to interaction trees.
    Sources: projects/io/private/HepMC3Reader.cxx, HepMC3Writer.cxx. The HepMC3 library's
    own file format is not modelled; events are the in-memory graphs it exchanges. *)
From Coq Require Import String List Bool ZArith Reals.
From Verif Require Import TraversalModel TreeModel OrderModel InjectorModel.
Import ListNotations.
Open Scope R_scope.

Notation record := (interaction_record R).

(** ParticleTypes.def:1, 210. ParticleTypes.def:1. *)
Definition unknown_type : Z := 0.
(** ParticleTypes.def:210. *)
Definition decay_type : Z := (-2000001007).

(** A GenParticle: pid, status, four-momentum (px, py, pz, E), generated mass, id of
    the production vertex (0 if there is none), the double attributes by name and
    the two id attributes. Particles are named by their position in the event.
    HepMC3Reader.cxx:53-117. *)
Record particle := mkpart {
  p_pid : Z; p_status : Z; p_momentum : R * R * R * R; p_mass : R; p_production : Z;
  p_attributes : list (string * R); p_major : option Z; p_minor : option Z
}.

(** A GenVertex: id, position (x, y, z, t), incoming and outgoing particles, the
    attributes siren.param.<key> in key order, and siren.target_type_unknown.
    HepMC3Reader.cxx:119-189. *)
Record vertex := mkvert {
  v_id : Z; v_position : R * R * R * R; v_in : list nat; v_out : list nat;
  v_params : list (list Z * R); v_unknown : option Z
}.

(** HepMC3Reader.cxx:203, the particles and vertices of a [GenEvent]. *)
Record event := mkevent { ev_particles : list particle; ev_vertices : list vertex }.

(** [obj->attribute<DoubleAttribute>(name)]. HepMC3Reader.cxx:58-62. *)
Fixpoint attribute (l : list (string * R)) (name : string) : option R :=
  match l with
  | [] => None
  | (n, x) :: r => if String.eqb n name then Some x else attribute r name
  end.

(** A particle of the event; indices outside it do not occur in events.
    Never reached from HepMC3Reader.cxx:119-189, whose pointers are valid. *)
Definition no_particle : particle := mkpart 0 0 (0, 0, 0, 0) 0 0 [] None None.
(** HepMC3Reader.cxx:119-189, following a pointer to a particle. *)
Definition part (e : event) (i : nat) : particle := nth i (ev_particles e) no_particle.

(** HepMC3Reader.cxx:53-55. *)
Definition siren_momentum (p : R * R * R * R) : list R := let '(x, y, z, t) := p in [t; x; y; z].

(** HepMC3Reader.cxx:58-62 with fallback 0. *)
Definition double_attr (p : particle) (name : string) : R :=
  match attribute (p_attributes p) name with Some x => x | None => 0 end.

(** HepMC3Reader.cxx:67-81; [None] is the exception. *)
Definition required_attr (strict : bool) (p : particle) (name : string) : option R :=
  match attribute (p_attributes p) name with
  | Some x => Some x
  | None => if strict then None else Some 0
  end.

(** HepMC3Reader.cxx:87, 149. *)
Definition is_target (p : particle) : bool := (p_status p =? 20)%Z || (p_status p =? 22)%Z.

(** HepMC3Reader.cxx:85-90, [find_primary]. *)
Definition find_primary (e : event) (v : vertex) : option nat :=
  find (fun i => negb (is_target (part e i))) (v_in v).

(** HepMC3Reader.cxx:147-150. *)
Definition find_target (e : event) (v : vertex) : option nat :=
  find (fun i => is_target (part e i)) (v_in v).

(** HepMC3Reader.cxx:94-103, [ReadStoredId]. *)
Definition stored_id (p : particle) : particle_id :=
  match p_major p, p_minor p with
  | Some a, Some b => mkid true a b
  | _, _ => mkid false 0 0
  end.

(** The map of particle ids assigned so far in this event. HepMC3Reader.cxx:111. *)
Fixpoint find_nat {A} (m : list (nat * A)) (k : nat) : option A :=
  match m with
  | [] => None
  | (j, a) :: r => if Nat.eqb j k then Some a else find_nat r k
  end.

Section Import.
(** The constants cm, c and second (Constants.h:37-46). HepMC3Reader.cxx:126-127. *)
Variable cm c second : R.
(** The state behind ParticleID::GenerateID, and that function. HepMC3Reader.cxx:114. *)
Variable W : Type.
(** HepMC3Reader.cxx:114, [ParticleID::GenerateID]. *)
Variable generate_id : W -> particle_id * W.

(** HepMC3Reader.cxx:108-117, [GetOrAssignId]. *)
Definition get_id (e : event) (i : nat) (ids : list (nat * particle_id)) (w : W) : particle_id * list (nat * particle_id) * W :=
  match find_nat ids i with
  | Some d => (d, ids, w)
  | None =>
      let d := stored_id (part e i) in
      if id_set d then (d, (i, d) :: ids, w)
      else let '(d', w') := generate_id w in (d', (i, d') :: ids, w')
  end.

(** HepMC3Reader.cxx:170-178, the ids of the outgoing particles. *)
Fixpoint out_ids (e : event) (l : list nat) (ids : list (nat * particle_id)) (w : W) :
    list particle_id * list (nat * particle_id) * W :=
  match l with
  | [] => ([], ids, w)
  | i :: r =>
      let '(d, ids1, w1) := get_id e i ids w in
      let '(ds, ids2, w2) := out_ids e r ids1 w1 in
      (d :: ds, ids2, w2)
  end.

(** [None] if one of them is. HepMC3Reader.cxx:67-81, 175. *)
Fixpoint all_some {A} (l : list (option A)) : option (list A) :=
  match l with
  | [] => Some []
  | None :: _ => None
  | Some a :: r => match all_some r with Some s => Some (a :: s) | None => None end
  end.

(** HepMC3Reader.cxx:119-189, [VertexToRecord]; [None] is the exception of a missing
    attribute. Simplification: the exception is found after the ids are assigned,
    which is not observable because the whole import then fails. *)
Definition vertex_record (e : event) (strict : bool) (v : vertex) (ids : list (nat * particle_id)) (w : W) :
    option record * list (nat * particle_id) * W :=
  let '(px, py, pz, pt) := v_position v in
  let pos := [px * cm; py * cm; pz * cm] in
  let time := (pt * cm) / c in
  let '(pid, ids1, w1) :=
    match find_primary e v with
    | Some i => get_id e i ids w
    | None => (mkid false 0 0, ids, w)
    end in
  let '(sec_ids, ids2, w2) := out_ids e (v_out v) ids1 w1 in
  let primary :=
    match find_primary e v with
    | None => Some (0%Z, [0; 0; 0; 0], 0, 0, [0; 0; 0], 0)
    | Some i =>
        let p := part e i in
        match required_attr strict p "siren.helicity", required_attr strict p "siren.primary_initial_position.x",
              required_attr strict p "siren.primary_initial_position.y", required_attr strict p "siren.primary_initial_position.z",
              required_attr strict p "siren.primary_initial_time" with
        | Some h, Some x, Some y, Some z, Some t =>
            Some (p_pid p, siren_momentum (p_momentum p), p_mass p, h, [x * cm; y * cm; z * cm], t * second)
        | _, _, _, _, _ => None
        end
    end in
  let target :=
    match find_target e v with
    | Some i =>
        let p := part e i in
        match required_attr strict p "siren.helicity" with
        | Some h => Some (p_pid p, p_mass p, h, stored_id p)
        | None => None
        end
    | None =>
        Some (match v_unknown v with Some f => if (f =? 0)%Z then decay_type else unknown_type | None => decay_type end,
              0, 0, mkid false 0 0)
    end in
  let outs := map (part e) (v_out v) in
  let hs := all_some (map (fun p => required_attr strict p "siren.helicity") outs) in
  let result :=
    match primary, target, hs with
    | Some (ty, mom, m, h, ipos, itime), Some (tty, tm, th, tid), Some hs =>
        Some (mkrec (mksig ty tty (map p_pid outs)) pid ipos itime m mom h tid tm th pos time
                sec_ids (map p_mass outs) (map (fun p => siren_momentum (p_momentum p)) outs) hs
                (map (fun p => double_attr p "siren.time" * second) outs)
                (filter (fun kv => match fst kv with [] => false | _ => true end) (v_params v)))
    | _, _, _ => None
    end in
  (result, ids2, w2).

(** HepMC3Reader.cxx:213-215: the parent vertex id of a vertex, 0 for none. *)
Definition parent_vertex (e : event) (v : vertex) : Z :=
  match find_primary e v with Some i => p_production (part e i) | None => 0%Z end.

(** HepMC3Reader.cxx:211-216: the maps record_by_vid and parent_vid (newest entry
    first). *)
Fixpoint read_vertices (e : event) (strict : bool) (vs : list vertex) (recs : list (Z * record)) (pars : list (Z * Z))
    (ids : list (nat * particle_id)) (w : W) : option (list (Z * record) * list (Z * Z)) * W :=
  match vs with
  | [] => (Some (recs, pars), w)
  | v :: r =>
      match vertex_record e strict v ids w with
      | (None, _, w1) => (None, w1)
      | (Some x, ids1, w1) => read_vertices e strict r ((v_id v, x) :: recs) ((v_id v, parent_vertex e v) :: pars) ids1 w1
      end
  end.

(** [map.find]; [operator[]] of an absent key gives 0 or an empty record, but no
    absent key is ever looked up. HepMC3Reader.cxx:227-234. *)
Fixpoint find_vid {A} (m : list (Z * A)) (k : Z) : option A :=
  match m with
  | [] => None
  | (j, a) :: r => if (j =? k)%Z then Some a else find_vid r k
  end.
(** HepMC3Reader.cxx:231, [record_by_vid] at a key. *)
Definition record_of (recs : list (Z * record)) (v : Z) : record :=
  match find_vid recs v with Some r => r | None => default_record 0 end.
(** HepMC3Reader.cxx:228, [parent_vid] at a key. *)
Definition parent_of_vid (pars : list (Z * Z)) (v : Z) : Z :=
  match find_vid pars v with Some p => p | None => 0%Z end.

(** State of the insertion loops: the tree, datum_by_vid, placed, progress. HepMC3Reader.cxx:220-222. *)
Record placing := mkplacing { pl_tree : state record; pl_datums : list (Z * ptr); pl_placed : nat; pl_progress : bool }.

(** HepMC3Reader.cxx:225-237, one round over the vertices. *)
Fixpoint round (recs : list (Z * record)) (pars : list (Z * Z)) (vs : list Z) (s : placing) : outcome placing :=
  match vs with
  | [] => Ok s
  | v :: r =>
      match find_vid (pl_datums s) v with
      | Some _ => round recs pars r s
      | None =>
          let pv := parent_of_vid pars v in
          let is_root := (pv =? 0)%Z || match find_vid recs pv with None => true | Some _ => false end in
          let add parent :=
            match add_record (pl_tree s) (record_of recs v) parent with
            | Ok (t, p) => round recs pars r (mkplacing t ((v, p) :: pl_datums s) (S (pl_placed s)) true)
            | Throw => Throw
            | UB => UB
            end in
          if is_root then add None
          else match find_vid (pl_datums s) pv with
               | Some q => add (Some q)
               | None => round recs pars r s
               end
      end
  end.

(** HepMC3Reader.cxx:223-238, the rounds; [None]: out of fuel. *)
Fixpoint rounds (fuel : nat) (recs : list (Z * record)) (pars : list (Z * Z)) (vs : list Z) (s : placing) : option (outcome placing) :=
  if (Nat.ltb (pl_placed s) (List.length vs)) && pl_progress s then
    match fuel with
    | O => None
    | S f =>
        match round recs pars vs (mkplacing (pl_tree s) (pl_datums s) (pl_placed s) false) with
        | Ok s' => rounds f recs pars vs s'
        | Throw => Some Throw
        | UB => Some UB
        end
    end
  else Some (Ok s).

(** HepMC3Reader.cxx:240-244: whatever is left becomes a root. *)
Fixpoint leftovers (recs : list (Z * record)) (vs : list Z) (s : placing) : outcome placing :=
  match vs with
  | [] => Ok s
  | v :: r =>
      match find_vid (pl_datums s) v with
      | Some _ => leftovers recs r s
      | None =>
          match add_record (pl_tree s) (record_of recs v) None with
          | Ok (t, p) => leftovers recs r (mkplacing t ((v, p) :: pl_datums s) (pl_placed s) (pl_progress s))
          | Throw => Throw
          | UB => UB
          end
      end
  end.

(** HepMC3Reader.cxx:191-246, [GenEventToTree] without the header; the inner [None]
    is an import that does not end. *)
Definition import_event (e : event) (strict : bool) (w : W) : option (outcome (state record)) * W :=
  match read_vertices e strict (ev_vertices e) [] [] [] w with
  | (None, w1) => (Some Throw, w1)
  | (Some (recs, pars), w1) =>
      let vs := map v_id (ev_vertices e) in
      (match rounds (S (List.length vs)) recs pars vs (mkplacing (mkstate [] []) [] 0 true) with
       | None => None
       | Some (Ok s) =>
           match leftovers recs vs s with
           | Ok s' => Some (Ok (pl_tree s'))
           | Throw => Some Throw
           | UB => Some UB
           end
       | Some Throw => Some Throw
       | Some UB => Some UB
       end, w1)
  end.
End Import.
Arguments get_id {W}. Arguments out_ids {W}. Arguments vertex_record cm c second {W}.
Arguments read_vertices cm c second {W}. Arguments import_event cm c second {W}.

(** ** Export *)
Section Export.
Variable cm c second : R.
(** GenParticle::generated_mass() of a particle without a set mass: the mass of its
    momentum (HepMC3 library). Read at HepMC3Reader.cxx:134, 153, 173. *)
Variable computed_mass : R * R * R * R -> R.

(** HepMC3Writer.cxx:74-76, [Momentum]; arrays have four entries. *)
Definition hep_momentum (p : list R) : R * R * R * R := (nth 1 p 0, nth 2 p 0, nth 3 p 0, nth 0 p 0).

(** HepMC3Writer.cxx:80-83, [VertexPosition]. *)
Definition vertex_position (x : list R) (t : R) : R * R * R * R :=
  let s := 1 / cm in (nth 0 x 0 * s, nth 1 x 0 * s, nth 2 x 0 * s, (c * t) * s).

(** HepMC3Writer.cxx:107-114, [WriteParticleID]. *)
Definition major_of (d : particle_id) : option Z := if id_set d then Some (major_id d) else None.
(** HepMC3Writer.cxx:112-113. *)
Definition minor_of (d : particle_id) : option Z := if id_set d then Some (minor_id d) else None.

(** [std::map<ParticleID, GenParticlePtr>]; keys that are equal under operator<
    (ParticleID.cxx:79-81) are equal. *)
Definition same_id (a b : particle_id) : bool := eq_ id_cmp a b.
(** HepMC3Writer.cxx:402, lookup of the particle of an id. *)
Fixpoint find_id (m : list (particle_id * nat)) (d : particle_id) : option nat :=
  match m with
  | [] => None
  | (k, i) :: r => if same_id k d then Some i else find_id r d
  end.

(** The event being built: particles, vertices, particle_by_id (newest entry
    first), primary_root_seen. HepMC3Writer.cxx:339, 377, 383. *)
Record exporting := mkexporting {
  x_particles : list particle; x_vertices : list vertex; x_ids : list (particle_id * nat); x_seen : bool
}.

(** Changing one particle. HepMC3Writer.cxx:405, 464-468. *)
Fixpoint change (l : list particle) (i : nat) (f : particle -> particle) : list particle :=
  match l, i with
  | [], _ => []
  | p :: r, O => f p :: r
  | p :: r, S j => p :: change r j f
  end.

(** HepMC3Writer.cxx:405, [set_status(2)]. *)
Definition decayed (p : particle) : particle :=
  mkpart (p_pid p) 2 (p_momentum p) (p_mass p) (p_production p) (p_attributes p) (p_major p) (p_minor p).

(** HepMC3Writer.cxx:462-469: the attributes of the initial position and time; a later
    [add_attribute] replaces an earlier one, here by coming first. *)
Definition with_initial (r : record) (p : particle) : particle :=
  let s := 1 / cm in let x := r_primary_initial_position r in
  mkpart (p_pid p) (p_status p) (p_momentum p) (p_mass p) (p_production p)
    (("siren.primary_initial_position.x", nth 0 x 0 * s) :: ("siren.primary_initial_position.y", nth 1 x 0 * s) ::
     ("siren.primary_initial_position.z", nth 2 x 0 * s) ::
     ("siren.primary_initial_time", r_primary_initial_time r / second) :: p_attributes p)%string
    (p_major p) (p_minor p).

(** HepMC3Writer.cxx:408-416, 452-457: a fresh incoming primary. Here and below,
    attributes are given at creation instead of after [add_vertex]. *)
Definition new_primary (r : record) (primary_root : bool) : particle :=
  mkpart (primary_type (r_signature r)) (if primary_root then 4 else 2) (hep_momentum (r_primary_momentum r)) (r_primary_mass r) 0
    [("siren.helicity"%string, r_primary_helicity r)] (major_of (r_primary_id r)) (minor_of (r_primary_id r)).

(** HepMC3Writer.cxx:420-430, 470-473: the target, none for decays and unknown targets. *)
Definition has_target (r : record) : bool :=
  negb (target_type (r_signature r) =? decay_type)%Z && negb (target_type (r_signature r) =? unknown_type)%Z.
(** HepMC3Writer.cxx:420-430, 470-473. *)
Definition new_target (r : record) (primary_root : bool) : particle :=
  mkpart (target_type (r_signature r)) (if primary_root then 20 else 22) (0, 0, 0, r_target_mass r) (r_target_mass r) 0
    [("siren.helicity"%string, r_target_helicity r)] (major_of (r_target_id r)) (minor_of (r_target_id r)).

(** HepMC3Writer.cxx:433-446, 474-485: the outgoing particle of slot [j] with type [ty],
    produced at vertex [vid]. *)
Definition new_out (r : record) (vid : Z) (j : nat) (ty : Z) : particle :=
  let mom := hep_momentum (match nth_error (r_secondary_momenta r) j with Some m => m | None => [0; 0; 0; 0] end) in
  mkpart ty 1 mom (match nth_error (r_secondary_masses r) j with Some m => m | None => computed_mass mom end) vid
    (("siren.helicity"%string, match nth_error (r_secondary_helicities r) j with Some h => h | None => 0 end) ::
     match nth_error (r_secondary_times r) j with Some t => [("siren.time"%string, t / second)] | None => [] end)
    (match nth_error (r_secondary_ids r) j with Some d => major_of d | None => None end)
    (match nth_error (r_secondary_ids r) j with Some d => minor_of d | None => None end).

(** The outgoing particles from slot [j] on. HepMC3Writer.cxx:435-446, 474-485. *)
Fixpoint new_outs (r : record) (vid : Z) (j : nat) (tys : list Z) : list particle :=
  match tys with [] => [] | ty :: l => new_out r vid j ty :: new_outs r vid (S j) l end.

(** HepMC3Writer.cxx:442-443: registering the ids of the outgoing particles, which
    start at particle [i]. *)
Fixpoint register (ids : list (particle_id * nat)) (ds : list particle_id) (n i : nat) : list (particle_id * nat) :=
  match n, ds with
  | S n', d :: l => register (if id_set d then (d, i) :: ids else ids) l n' (S i)
  | _, _ => ids
  end.

(** HepMC3Writer.cxx:385-499, one datum. *)
Definition write_datum (s : exporting) (root : bool) (r : record) : exporting :=
  let primary_root := root && negb (x_seen s) in
  let vid := (- Z.of_nat (S (List.length (x_vertices s))))%Z in
  let joined := if negb root && id_set (r_primary_id r) then find_id (x_ids s) (r_primary_id r) else None in
  let '(ps1, ip) :=
    match joined with
    | Some i => (change (x_particles s) i (fun p => with_initial r (decayed p)), i)
    | None => (x_particles s ++ [with_initial r (new_primary r primary_root)], List.length (x_particles s))
    end in
  let ps2 := if has_target r then ps1 ++ [new_target r primary_root] else ps1 in
  let n := List.length (secondary_types (r_signature r)) in
  mkexporting (ps2 ++ new_outs r vid 0 (secondary_types (r_signature r)))
    (x_vertices s ++ [mkvert vid (vertex_position (r_interaction_vertex r) (r_interaction_time r))
       (ip :: if has_target r then [List.length ps1] else []) (seq (List.length ps2) n)
       (r_interaction_parameters r) (if (target_type (r_signature r) =? unknown_type)%Z then Some 1%Z else None)])
    (register (x_ids s) (r_secondary_ids r) n (List.length ps2))
    (root || x_seen s).

(** HepMC3Writer.cxx:337-512, [TreeToGenEvent] without the header; the tree is given as
    its data, each with [is_root()]. *)
Definition export_tree (l : list (bool * record)) : event :=
  let s := fold_left (fun s x => write_datum s (fst x) (snd x)) l (mkexporting [] [] [] false) in
  mkevent (x_particles s) (x_vertices s).
End Export.
