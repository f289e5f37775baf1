(** What weighting events should mean. *)
From Coq Require Import Reals List ZArith Permutation.
From Verif Require Import VertexModel WeightModel.
Import ListNotations.
Open Scope R_scope.

(** Product and sum of a list. *)
Definition prod (l : list R) : R := fold_right Rmult 1 l.
Definition sum (l : list R) : R := fold_right Rplus 0 l.

(** The balance heuristic: injector [i] makes [N] events with density [g], nature has
    density [p]. *)
Definition balance (l : list (R * R * R)) : R :=
  1 / sum (map (fun x => let '(N, g, p) := x in N * g / p) l).

(** [l'] is obtained from [l] by leaving out elements. *)
Inductive sublist {A} : list A -> list A -> Prop :=
| sl_nil : sublist [] []
| sl_keep : forall x l l', sublist l l' -> sublist (x :: l) (x :: l')
| sl_drop : forall x l l', sublist l l' -> sublist (x :: l) l'.

(** What is left of two lists after taking out everything they have in common, counting
    repetitions. *)
Definition cancelled (gen phys gen' phys' : list nat) : Prop :=
  sublist gen gen' /\ sublist phys phys' /\
  exists common, Permutation gen (common ++ gen') /\ Permutation phys (common ++ phys') /\
    forall x, In x gen' -> In x phys' -> False.

Section Densities.
Context {Rec Inter Bounds : Type}.
Variable rtype : Rec -> Z.
Variable dens : nat -> Inter -> Rec -> R.
Variable norm : nat -> option R.
Variable csp : Inter -> Rec -> R.
Variable total_depth traversed : Inter -> Bounds -> Rec -> R.
Variable density : Inter -> Rec -> R.
Variable no_bounds : Bounds.

(** The density with which a process makes an interaction: that of the channel times those of all
    its distributions. *)
Definition full_generation (p : pprocess Inter) (r : Rec) : R :=
  csp (p_inter p) r * prod (map (fun d => dens d (p_inter p) r) (p_dists p)).

(** The number of interactions expected in nature: probability to interact between the
    bounds, density of the position, density of the channel, densities of all physical distributions
    and their normalizations. *)
Definition full_physical (p : pprocess Inter) (b : Bounds) (r : Rec) : R :=
  let i := p_inter p in
  prod (map (fun d => match norm d with Some n => n | None => 1 end) (p_dists p)) *
  (interaction_probability (total_depth i b r) *
   position_density (density i r) (total_depth i b r) (traversed i b r) *
   csp i r *
   prod (map (fun d => dens d i r) (p_dists p))).

(** The secondary physical processes and those of an injector are for the same particle types. *)
Definition same_types (secondary : list (pprocess Inter)) (inj : injector Rec Inter Bounds) : Prop :=
  NoDup (map fst (i_secondary inj)) /\ NoDup (map fst (i_sec_position inj)) /\
  forall t, In t (map p_type secondary) <-> In t (map fst (i_secondary inj)).

(** The physical and the injection process of a datum and the bounds of the injection. *)
Inductive concerns (primary : pprocess Inter) (secondary : list (pprocess Inter))
    (inj : injector Rec Inter Bounds) : bool * Rec -> pprocess Inter -> pprocess Inter -> Bounds -> Prop :=
| c_primary_free : forall r, i_position inj = None ->
    concerns primary secondary inj (true, r) primary (i_primary inj) no_bounds
| c_primary : forall r f, i_position inj = Some f ->
    concerns primary secondary inj (true, r) primary (i_primary inj) (f (p_inter (i_primary inj)) r)
| c_secondary : forall r pp ip f,
    In pp secondary -> p_type pp = rtype r ->
    In (rtype r, ip) (i_secondary inj) -> In (rtype r, f) (i_sec_position inj) ->
    concerns primary secondary inj (false, r) pp ip (f (p_inter ip) r).

(** Distributions in both processes have the same non-zero density in both. *)
Definition shared_agree (pp ip : pprocess Inter) (r : Rec) : Prop :=
  forall d, In d (p_dists pp) -> In d (p_dists ip) ->
  dens d (p_inter pp) r = dens d (p_inter ip) r /\ dens d (p_inter ip) r <> 0.

(** Generation and physical density of an event for an injector: the products over its data. *)
Inductive event_densities (primary : pprocess Inter) (secondary : list (pprocess Inter))
    (inj : injector Rec Inter Bounds) : list (bool * Rec) -> R -> R -> Prop :=
| ed_nil : event_densities primary secondary inj [] 1 1
| ed_cons : forall d t pp ip b g p,
    concerns primary secondary inj d pp ip b ->
    0 < total_depth (p_inter pp) b (snd d) ->
    shared_agree pp ip (snd d) ->
    event_densities primary secondary inj t g p ->
    event_densities primary secondary inj (d :: t)
      (full_generation ip (snd d) * g) (full_physical pp b (snd d) * p).

(** The same injector with another number of events. *)
Definition with_events (inj : injector Rec Inter Bounds) (n : Z) : injector Rec Inter Bounds :=
  mkinj n (i_primary inj) (i_position inj) (i_secondary inj) (i_sec_position inj).

(** The number of roots of a tree. *)
Definition roots (tree : list (bool * Rec)) : nat := length (filter fst tree).

(** The same process and injector with the injection distributions at other addresses. *)
Definition rename_process (f : nat -> nat) (p : pprocess Inter) : pprocess Inter :=
  mkpp (p_type p) (p_inter p) (map f (p_dists p)).
Definition rename (f : nat -> nat) (inj : injector Rec Inter Bounds) : injector Rec Inter Bounds :=
  mkinj (i_events inj) (rename_process f (i_primary inj)) (i_position inj)
    (map (fun e => (fst e, rename_process f (snd e))) (i_secondary inj)) (i_sec_position inj).

End Densities.
