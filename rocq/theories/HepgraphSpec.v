(** What an imported record says about its vertex, and what events are. *)
From Coq Require Import String List Bool ZArith Reals.
From Verif Require Import TreeModel TreeSpec OrderModel HepgraphModel.
Import ListNotations.
Open Scope R_scope.

(** Attributes that the writer always stores. *)
Definition has (p : particle) (name : string) : Prop := exists x, attribute (p_attributes p) name = Some x.
Definition primary_attributes : list string :=
  ["siren.helicity"; "siren.primary_initial_position.x"; "siren.primary_initial_position.y";
   "siren.primary_initial_position.z"; "siren.primary_initial_time"]%string.
Definition complete (e : event) (v : vertex) : Prop :=
  (forall i, find_primary e v = Some i -> Forall (has (part e i)) primary_attributes) /\
  (forall i, find_target e v = Some i -> has (part e i) "siren.helicity") /\
  (forall i, In i (v_out v) -> has (part e i) "siren.helicity").

(** [x] describes vertex [v] when particle [i] has id [f i]. *)
Record describes (cm c second : R) (e : event) (v : vertex) (f : nat -> particle_id) (x : record) : Prop := {
  ds_primary : forall i, find_primary e v = Some i ->
    r_primary_id x = f i /\ primary_type (r_signature x) = p_pid (part e i) /\
    r_primary_momentum x = siren_momentum (p_momentum (part e i)) /\ r_primary_mass x = p_mass (part e i) /\
    r_primary_helicity x = double_attr (part e i) "siren.helicity" /\
    r_primary_initial_position x = [double_attr (part e i) "siren.primary_initial_position.x" * cm;
                                    double_attr (part e i) "siren.primary_initial_position.y" * cm;
                                    double_attr (part e i) "siren.primary_initial_position.z" * cm] /\
    r_primary_initial_time x = double_attr (part e i) "siren.primary_initial_time" * second;
  ds_target : forall i, find_target e v = Some i ->
    target_type (r_signature x) = p_pid (part e i) /\ r_target_mass x = p_mass (part e i) /\
    r_target_helicity x = double_attr (part e i) "siren.helicity" /\ r_target_id x = stored_id (part e i);
  ds_no_target : find_target e v = None ->
    target_type (r_signature x) =
      (match v_unknown v with Some f => if (f =? 0)%Z then decay_type else unknown_type | None => decay_type end) /\
    r_target_mass x = 0 /\ r_target_helicity x = 0 /\ r_target_id x = mkid false 0 0;
  ds_types : secondary_types (r_signature x) = map (fun i => p_pid (part e i)) (v_out v);
  ds_ids : r_secondary_ids x = map f (v_out v);
  ds_momenta : r_secondary_momenta x = map (fun i => siren_momentum (p_momentum (part e i))) (v_out v);
  ds_masses : r_secondary_masses x = map (fun i => p_mass (part e i)) (v_out v);
  ds_helicities : r_secondary_helicities x = map (fun i => double_attr (part e i) "siren.helicity") (v_out v);
  ds_times : r_secondary_times x = map (fun i => double_attr (part e i) "siren.time" * second) (v_out v);
  ds_place : let '(a, b, d, t) := v_position v in
    r_interaction_vertex x = [a * cm; b * cm; d * cm] /\ r_interaction_time x = (t * cm) / c;
  ds_params : r_interaction_parameters x = filter (fun kv => match fst kv with [] => false | _ => true end) (v_params v)
}.

(** HepMC3 keeps production vertices and outgoing lists consistent, and vertex ids
    are distinct. *)
Record graph (e : event) : Prop := {
  gr_ids : NoDup (map v_id (ev_vertices e));
  gr_nonzero : forall v, In v (ev_vertices e) -> v_id v <> 0%Z;
  gr_out : forall v i, In v (ev_vertices e) -> p_production (part e i) = v_id v -> In i (v_out v)
}.

(** [u] produced the primary of [v]. *)
Definition produced (e : event) (u v : vertex) : Prop :=
  In u (ev_vertices e) /\ In v (ev_vertices e) /\ exists i, find_primary e v = Some i /\ p_production (part e i) = v_id u.

(** [v] has a finite line of ancestors. *)
Inductive rooted (e : event) : vertex -> Prop :=
| rooted_first v : In v (ev_vertices e) -> (forall u, ~ produced e u v) -> rooted e v
| rooted_next u v : produced e u v -> rooted e u -> rooted e v.

(** The parent of a row, by position. *)
Definition parent_no (p : option nat) : Z := match p with Some q => Z.of_nat q | None => kNoParent end.

(** The rows [t] are the vertices [ord] in this order, particle [i] with id [f i]: a
    vertex with a finite line of ancestors is under the vertex that produced its
    primary, which comes before it; every other vertex is a root. *)
Definition imported (cm c second : R) (e : event) (f : nat -> particle_id) (t : list (row record)) (ord : list vertex) : Prop :=
  List.length t = List.length ord /\
  forall k v, nth_error ord k = Some v -> exists x, nth_error t k = Some x /\ describes cm c second e v f (row_record x) /\
      ((forall u, produced e u v -> rooted e v -> exists j, row_parent x = Z.of_nat j /\ (j < k)%nat /\ nth_error ord j = Some u) /\
       ((forall u, ~ produced e u v) \/ ~ rooted e v -> row_parent x = kNoParent)).

(** ** What the writer preserves *)

(** All arrays of a record have their lengths, every primary and secondary has its id
    set, and what has no place in an event (target data without a target particle,
    ids behind an unset flag, parameters without a name) is at its default. *)
Record whole (r : record) : Prop := {
  wh_position : List.length (r_primary_initial_position r) = 3%nat;
  wh_momentum : List.length (r_primary_momentum r) = 4%nat;
  wh_vertex : List.length (r_interaction_vertex r) = 3%nat;
  wh_ids : List.length (r_secondary_ids r) = List.length (secondary_types (r_signature r));
  wh_masses : List.length (r_secondary_masses r) = List.length (secondary_types (r_signature r));
  wh_momenta : List.length (r_secondary_momenta r) = List.length (secondary_types (r_signature r));
  wh_momenta4 : Forall (fun m => List.length m = 4%nat) (r_secondary_momenta r);
  wh_helicities : List.length (r_secondary_helicities r) = List.length (secondary_types (r_signature r));
  wh_times : List.length (r_secondary_times r) = List.length (secondary_types (r_signature r));
  wh_primary_id : id_set (r_primary_id r) = true;
  wh_secondary_ids : Forall (fun d => id_set d = true) (r_secondary_ids r);
  wh_target_id : id_set (r_target_id r) = false -> r_target_id r = mkid false 0 0;
  wh_no_target : target_type (r_signature r) = decay_type \/ target_type (r_signature r) = unknown_type ->
    r_target_mass r = 0 /\ r_target_helicity r = 0 /\ r_target_id r = mkid false 0 0;
  wh_params : Forall (fun kv => fst kv <> []) (r_interaction_parameters r)
}.

(** The primary of [r] is secondary [m] of [q]. *)
Record continues (q r : record) (m : nat) : Prop := {
  ct_id : nth_error (r_secondary_ids q) m = Some (r_primary_id r);
  ct_type : nth_error (secondary_types (r_signature q)) m = Some (primary_type (r_signature r));
  ct_momentum : nth_error (r_secondary_momenta q) m = Some (r_primary_momentum r);
  ct_mass : nth_error (r_secondary_masses q) m = Some (r_primary_mass r);
  ct_helicity : nth_error (r_secondary_helicities q) m = Some (r_primary_helicity r)
}.

(** A tree, as the positions of the parents and the records: every record is whole, ids
    are not reused, and the primary of a daughter is a secondary of its parent. *)
Record exportable (l : list (option nat * record)) : Prop := {
  xp_whole : Forall (fun x => whole (snd x)) l;
  xp_primaries : NoDup (map (fun x => r_primary_id (snd x)) l);
  xp_secondaries : NoDup (flat_map (fun x => r_secondary_ids (snd x)) l);
  xp_joined : forall k p r, nth_error l k = Some (Some p, r) ->
    (p < k)%nat /\ exists a q m, nth_error l p = Some (a, q) /\ continues q r m
}.

(** The same tree with [is_root()] instead of the parents. *)
Definition flags (l : list (option nat * record)) : list (bool * record) :=
  map (fun x => (match fst x with None => true | Some _ => false end, snd x)) l.
