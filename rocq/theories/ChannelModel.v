(** Model of interaction collections and of the choice of an interaction.
    Sources: projects/interactions/private/InteractionCollection.cxx,
             projects/interactions/public/SIREN/interactions/InteractionCollection.h,
             projects/injection/private/Injector.cxx (SampleCrossSection),
             projects/injection/private/WeightingUtils.cxx,
             projects/utilities/private/Random.cxx. *)
From Coq Require Import List Bool ZArith Reals.
From Verif Require Import TraversalModel OrderModel InjectorModel.
Import ListNotations.
Open Scope R_scope.

Notation record := (interaction_record R).

(** What the code asks of a CrossSection. [xs_tag] identifies the object. CrossSection.h:39-52. *)
Record cross_section := mkxs {
  xs_tag : nat;
  xs_targets : list Z;                       (* GetPossibleTargets *)
  xs_signatures : Z -> Z -> list signature;  (* GetPossibleSignaturesFromParents *)
  xs_total : record -> R;                    (* TotalCrossSection *)
  xs_total_all : record -> R;                (* TotalCrossSectionAllFinalStates *)
  xs_final_state : record -> R               (* FinalStateProbability *)
}.

(** Decay lengths: a number or infinity. InteractionCollection.cxx:108-113. *)
Inductive length_ := Fin (x : R) | Inf.

(** What the code asks of a Decay. Decay.h:38-48. *)
Record decay := mkdecay {
  dc_tag : nat;
  dc_signatures : Z -> list signature;       (* GetPossibleSignaturesFromParent *)
  dc_length : record -> length_;             (* TotalDecayLength *)
  dc_length_all : record -> length_;         (* TotalDecayLengthAllFinalStates *)
  dc_width_all : record -> R;                (* TotalDecayWidthAllFinalStates *)
  dc_final_state : record -> R               (* FinalStateProbability *)
}.

(** [1./x]. Simplification: a zero length is not an infinite rate but rate 0 (the
    value of 1/0 in [R]); the theorems exclude it. InteractionCollection.cxx:110-113. *)
Definition inverse (x : length_) : R := match x with Fin x => / x | Inf => 0 end.

(** [std::set::insert], elements in increasing order. InteractionCollection.cxx:28. *)
Fixpoint set_insert (x : Z) (l : list Z) : list Z :=
  match l with
  | [] => [x]
  | y :: r => if (x <? y)%Z then x :: l else if (x =? y)%Z then l else y :: set_insert x r
  end.

(** InteractionCollection.cxx:30-42: the vector of a target gains an element. *)
Fixpoint push_target {A} (m : list (Z * list A)) (t : Z) (x : A) : list (Z * list A) :=
  match m with
  | [] => [(t, [x])]
  | (k, l) :: r => if (k =? t)%Z then (k, l ++ [x]) :: r else (k, l) :: push_target r t x
  end.

(** InteractionCollection.h:37-41. *)
Record collection := mkcoll {
  co_primary : Z;
  co_xs : list cross_section;
  co_decays : list decay;
  co_by_target : list (Z * list cross_section);
  co_targets : list Z
}.

(** InteractionCollection.cxx:20-46, [InitializeTargetTypes]. *)
Definition initialize (xss : list cross_section) : list Z * list (Z * list cross_section) :=
  fold_left (fun acc x =>
    (fold_left (fun s t => set_insert t s) (xs_targets x) (fst acc),
     fold_left (fun m t => push_target m t x) (xs_targets x) (snd acc))) xss ([], []).

(** InteractionCollection.cxx:52-62: the constructors from cross sections and
    decays; also [load] (InteractionCollection.h:83-93). *)
Definition make_collection (primary : Z) (xss : list cross_section) (ds : list decay) : collection :=
  let (ts, m) := initialize xss in mkcoll primary xss ds m ts.

(** An Interaction, by what the two dynamic casts of lines 66-70 find. *)
Inductive interaction := IsXs (x : cross_section) | IsDecay (d : decay) | IsNeither.

(** InteractionCollection.cxx:64-79: the loop of the generic constructor. *)
Fixpoint split_interactions (l : list interaction) (xss : list cross_section) (ds : list decay) :
    outcome (list cross_section * list decay) :=
  match l with
  | [] => Ok (xss, ds)
  | IsXs x :: r => split_interactions r (xss ++ [x]) ds
  | IsDecay d :: r => split_interactions r xss (ds ++ [d])
  | IsNeither :: _ => Throw
  end.

(** InteractionCollection.cxx:64-79, from a list of interactions. *)
Definition make_from_interactions (primary : Z) (l : list interaction) : outcome collection :=
  match split_interactions l [] [] with
  | Ok (xss, ds) => Ok (make_collection primary xss ds)
  | Throw => Throw
  | UB => UB
  end.

(** InteractionCollection.cxx:88-95, [GetCrossSectionsForTarget]. *)
Definition for_target (c : collection) (t : Z) : list cross_section :=
  match map_find (co_by_target c) t with Some l => l | None => [] end.

(** Assigning one member of a record. Injector.cxx:206. *)
Definition with_signature (r : record) (s : signature) : record :=
  mkrec s (r_primary_id r) (r_primary_initial_position r) (r_primary_initial_time r)
        (r_primary_mass r) (r_primary_momentum r) (r_primary_helicity r) (r_target_id r)
        (r_target_mass r) (r_target_helicity r) (r_interaction_vertex r) (r_interaction_time r)
        (r_secondary_ids r) (r_secondary_masses r) (r_secondary_momenta r) (r_secondary_helicities r)
        (r_secondary_times r) (r_interaction_parameters r).

(** Injector.cxx:207, [fake_record.target_mass = ...]. *)
Definition with_target_mass (r : record) (m : R) : record :=
  mkrec (r_signature r) (r_primary_id r) (r_primary_initial_position r) (r_primary_initial_time r)
        (r_primary_mass r) (r_primary_momentum r) (r_primary_helicity r) (r_target_id r)
        m (r_target_helicity r) (r_interaction_vertex r) (r_interaction_time r)
        (r_secondary_ids r) (r_secondary_masses r) (r_secondary_momenta r) (r_secondary_helicities r)
        (r_secondary_times r) (r_interaction_parameters r).

(** InteractionCollection.cxx:132, [fake_record.signature.target_type = target]. *)
Definition with_target (r : record) (t : Z) : record :=
  with_signature r (mksig (primary_type (r_signature r)) t (secondary_types (r_signature r))).

(** InteractionCollection.cxx:128-141 and 143-156, TotalCrossSectionByTarget and
    ...AllFinalStates ([total] is the method called); [at] throws. *)
Fixpoint by_target (total : cross_section -> record -> R) (c : collection) (r : record) (ts : list Z) :
    outcome (list (Z * R)) :=
  match ts with
  | [] => Ok []
  | t :: rest =>
      match map_find (co_by_target c) t with
      | None => Throw
      | Some l =>
          match by_target total c r rest with
          | Ok m => Ok ((t, fold_left (fun acc x => acc + total x (with_target r t)) l 0) :: m)
          | e => e
          end
      end
  end.

(** InteractionCollection.cxx:128-141. *)
Definition total_by_target (c : collection) (r : record) : outcome (list (Z * R)) :=
  by_target xs_total c r (co_targets c).
(** InteractionCollection.cxx:143-156. *)
Definition total_by_target_all (c : collection) (r : record) : outcome (list (Z * R)) :=
  by_target xs_total_all c r (co_targets c).

(** InteractionCollection.cxx:97-104, [TotalDecayWidthAllFinalStates]. *)
Definition total_width (c : collection) (r : record) : R :=
  fold_left (fun acc d => acc + dc_width_all d r) (co_decays c) 0.

(** InteractionCollection.cxx:106-114, [TotalDecayLengthAllFinalStates]. *)
Definition total_decay_length (c : collection) (r : record) : length_ :=
  match co_decays c with
  | [] => Inf
  | _ :: _ =>
      let inv := fold_left (fun acc d => acc + inverse (dc_length_all d r)) (co_decays c) 0 in
      if Req_EM_T inv 0 then Inf else Fin (/ inv)
  end.

(** ** Choosing the interaction *)

(** Constants.h:37: one centimetre in metres. *)
Definition cm : R := / 100.

(** [1./(length/cm)]. Injector.cxx:228. *)
Definition decay_rate (x : length_) : R := match x with Fin x => / (x / cm) | Inf => 0 end.

Section Sample.
(** The detector at the vertex: available targets in set order, their densities
    and masses. Injector.cxx:184. *)
Variable available : list Z.
(** Injector.cxx:199, the density of a target at the vertex. *)
Variable density : Z -> R.
(** Injector.cxx:207, [GetTargetMass]. *)
Variable target_mass : Z -> R.

(** The local variables of Injector.cxx:186-194. *)
Record found := mkfound {
  fo_total : R; fo_xsec : R; fo_probs : list R; fo_targets : list Z; fo_sigs : list signature;
  fo_xs : list cross_section; fo_decays : list decay; fo_fake : record
}.

(** Injector.cxx:205-218: the innermost loop, over the signatures of a cross section. *)
Fixpoint xs_signature_loop (t : Z) (rho : R) (x : cross_section) (sigs : list signature) (f : found) : found :=
  match sigs with
  | [] => f
  | s :: rest =>
      let fake := with_target_mass (with_signature (fo_fake f) s) (target_mass t) in
      let p := rho * xs_total x fake in
      xs_signature_loop t rho x rest
        (mkfound (fo_total f + p) (fo_xsec f + p) (fo_probs f ++ [fo_total f + p]) (fo_targets f ++ [t])
                 (fo_sigs f ++ [s]) (fo_xs f ++ [x]) (fo_decays f) fake)
  end.

(** Injector.cxx:202-219: over the cross sections of a target. *)
Fixpoint xs_loop (primary t : Z) (rho : R) (l : list cross_section) (f : found) : found :=
  match l with
  | [] => f
  | x :: rest => xs_loop primary t rho rest (xs_signature_loop t rho x (xs_signatures x primary t) f)
  end.

(** Injector.cxx:196-221: over the available targets. *)
Fixpoint target_loop (c : collection) (primary : Z) (ts : list Z) (f : found) : found :=
  match ts with
  | [] => f
  | t :: rest =>
      target_loop c primary rest
        (if existsb (Z.eqb t) (co_targets c)
         then xs_loop primary t (density t) (for_target c t) f else f)
  end.

(** Particle.h: the value of ParticleType::Decay. ParticleTypes.def:210, Injector.cxx:233. *)
Variable decay_target : Z.

(** Injector.cxx:225-237: over the signatures of a decay. *)
Fixpoint decay_signature_loop (d : decay) (sigs : list signature) (f : found) : found :=
  match sigs with
  | [] => f
  | s :: rest =>
      let fake := with_signature (fo_fake f) s in
      let p := decay_rate (dc_length d fake) in
      decay_signature_loop d rest
        (mkfound (fo_total f + p) (fo_xsec f) (fo_probs f ++ [fo_total f + p]) (fo_targets f ++ [decay_target])
                 (fo_sigs f ++ [s]) (fo_xs f) (fo_decays f ++ [d]) fake)
  end.

(** Injector.cxx:224-237, the loop over decays. *)
Fixpoint decay_loop (primary : Z) (l : list decay) (f : found) : found :=
  match l with
  | [] => f
  | d :: rest => decay_loop primary rest (decay_signature_loop d (dc_signatures d primary) f)
  end.

(** Injector.cxx:186-238: everything before the draw. *)
Definition find_channels (c : collection) (r : record) : found :=
  let f0 := mkfound 0 0 [] [] [] [] [] r in
  let p := primary_type (r_signature r) in
  let f1 := match co_xs c with [] => f0 | _ :: _ => target_loop c p available f0 end in
  match co_decays c with [] => f1 | _ :: _ => decay_loop p (co_decays c) f1 end.

(** Random.cxx:32-37, [Uniform(0, max)] for a draw [u] of the generator, which lies
    in [0, 1). *)
Definition uniform (u mn mx : R) : R :=
  if Rlt_dec mx mn then (mn - mx) * u + mx else (mx - mn) * u + mn.

(** Injector.cxx:245-246: the search for the index, over the probabilities that
    remain. *)
Fixpoint find_index (r : R) (probs : list R) (index : nat) : nat :=
  match probs with
  | p :: ((_ :: _) as rest) => if Rlt_dec p r then find_index r rest (S index) else index
  | _ => index
  end.

(** InteractionSignature.cxx:10-15, used at Injector.cxx:251. *)
Definition sig_eqb (a b : signature) : bool :=
  (primary_type a =? primary_type b)%Z && (target_type a =? target_type b)%Z
  && (if list_eq_dec Z.eq_dec (secondary_types a) (secondary_types b) then true else false).

(** Injector.cxx:249-254: the summed probability of the selected signature; [prev]
    is the preceding probability. *)
Fixpoint selected_prob (s : signature) (sigs : list signature) (probs : list R) (prev : R) : R :=
  match sigs, probs with
  | s' :: sigs', p :: probs' =>
      (if sig_eqb s s' then p - prev else 0) + selected_prob s sigs' probs' p
  | _, _ => 0
  end.

(** What SampleFinalState is called with (Injector.cxx:268-276). *)
Inductive choice :=
| ChoseXs (x : cross_section) (r : record)
| ChoseDecay (d : decay) (r : record).

(** Injector.cxx:162-276, [SampleCrossSection] up to the call that samples the
    final state. Indexing a vector out of range is UB. Not modelled: the check
    for a NaN vertex (lines 164-168), since there are no NaN here. *)
Definition sample_channel (c : collection) (r : record) (u : R) : outcome choice :=
  let f := find_channels c r in
  if Req_EM_T (fo_total f) 0 then Throw
  else
    let x := uniform u 0 (fo_total f) in
    let index := find_index x (fo_probs f) 0 in
    match nth_error (fo_sigs f) index with
    | None => UB
    | Some s =>
        if Req_EM_T (selected_prob s (fo_sigs f) (fo_probs f) 0) 0 then Throw
        else
          let r1 := with_target_mass (with_signature r s) (target_mass (target_type s)) in
          if Rle_dec x (fo_xsec f) then
            match nth_error (fo_xs f) index with Some x => Ok (ChoseXs x r1) | None => UB end
          else if Nat.ltb index (length (fo_xs f)) then UB
          else match nth_error (fo_decays f) (index - length (fo_xs f)) with
               | Some d => Ok (ChoseDecay d r1)
               | None => UB
               end
    end.

(** ** The weighter's view *)

(** WeightingUtils.cxx:51-59: signatures of one decay; total, selected, fake record. *)
Fixpoint wu_decay_sigs (r : record) (d : decay) (sigs : list signature) (acc : R * R * record) : R * R * record :=
  match sigs with
  | [] => acc
  | s :: rest =>
      let '(tot, sel, fake) := acc in
      let fake := with_signature fake s in
      let p := decay_rate (dc_length d fake) in
      wu_decay_sigs r d rest
        (tot + p, if sig_eqb s (r_signature r) then sel + p * dc_final_state d r else sel, fake)
  end.

(** WeightingUtils.cxx:49-60, the loop over decays. *)
Fixpoint wu_decays (r : record) (l : list decay) (acc : R * R * record) : R * R * record :=
  match l with
  | [] => acc
  | d :: rest => wu_decays r rest (wu_decay_sigs r d (dc_signatures d (primary_type (r_signature r))) acc)
  end.

(** WeightingUtils.cxx:70-82. *)
Fixpoint wu_xs_sigs (r : record) (t : Z) (rho : R) (x : cross_section) (sigs : list signature) (acc : R * R * record) : R * R * record :=
  match sigs with
  | [] => acc
  | s :: rest =>
      let '(tot, sel, fake) := acc in
      let fake := with_target_mass (with_signature fake s) (target_mass t) in
      let p := rho * xs_total x fake in
      wu_xs_sigs r t rho x rest
        (tot + p, if sig_eqb s (r_signature r) then sel + p * xs_final_state x r else sel, fake)
  end.

(** WeightingUtils.cxx:68-83, the loop over the cross sections of a target. *)
Fixpoint wu_xs (r : record) (t : Z) (rho : R) (l : list cross_section) (acc : R * R * record) : R * R * record :=
  match l with
  | [] => acc
  | x :: rest => wu_xs r t rho rest (wu_xs_sigs r t rho x (xs_signatures x (primary_type (r_signature r)) t) acc)
  end.

(** WeightingUtils.cxx:62-85. *)
Fixpoint wu_targets (r : record) (c : collection) (ts : list Z) (acc : R * R * record) : R * R * record :=
  match ts with
  | [] => acc
  | t :: rest =>
      wu_targets r c rest
        (if existsb (Z.eqb t) (co_targets c) then wu_xs r t (density t) (for_target c t) acc else acc)
  end.

(** WeightingUtils.cxx:25-89, [CrossSectionProbability]. *)
Definition cross_section_probability (c : collection) (r : record) : R :=
  let acc := wu_decays r (co_decays c) (0, 0, r) in
  let '(tot, sel, _) := wu_targets r c available acc in
  if Req_EM_T tot 0 then 0 else sel / tot.
End Sample.
