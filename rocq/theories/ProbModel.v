(** Model of the interaction and survival probabilities of the data of an event.
    Source: projects/injection/private/Weighter.cxx:158-208, on top of WeightModel. *)
From Coq Require Import Reals List Bool ZArith.
From Verif Require Import TraversalModel VertexModel WeightModel.
Import ListNotations.
Open Scope R_scope.

Section Probabilities.
Context {Rec Inter Bounds : Type}.
(** As in WeightModel. *)
Variable rtype : Rec -> Z.
Variable norm : nat -> option R.
Variable total_depth : Inter -> Bounds -> Rec -> R.
Variable no_bounds : Bounds.
(** Weighter.cxx:192-193 and 198-199: the pair of the initial position of the primary and the first of the bounds. *)
Variable before : Bounds -> Rec -> Bounds.

Notation weighter := (weighter Inter).
Notation injector := (injector Rec Inter Bounds).

(** [InteractionProbability] of a process weighter, Weighter.tcc:96-143. *)
Definition interacts (w : weighter) (b : Bounds) (r : Rec) : R :=
  interaction_probability (total_depth (p_inter (w_pp w)) b r).

(** [SurvivalProbability] of a process weighter up to the bounds, Weighter.tcc:145-152 called at Weighter.cxx:194 and 200. *)
Definition survives (w : weighter) (b : Bounds) (r : Rec) : R :=
  survival_probability (total_depth (p_inter (w_pp w)) (before b r) r).

(** The loops of Weighter.cxx:164-179 and 189-206 for the injector [inj] at position [idx]; [Ok None] is the return of
    lines 176 and 203, [UB] the access to a vector beyond its end. *)
Fixpoint datum_loop (value : weighter -> Bounds -> Rec -> R) (idx : nat) (inj : injector) (ws : list weighter)
    (ms : list (list (Z * weighter))) (tree : list (bool * Rec)) (acc : list R) : outcome (option (list R)) :=
  match tree with
  | [] => Ok (Some acc)
  | (true, r) :: t =>
      match nth_error ws idx with
      | None => UB
      | Some w => datum_loop value idx inj ws ms t (acc ++ [value w (primary_bounds no_bounds inj r) r])
      end
  | (false, r) :: t =>
      match secondary_bounds rtype inj r with
      | None => Ok None
      | Some b =>
          match nth_error ms idx with
          | None => UB
          | Some m =>
              match at_key m (rtype r) with
              | None => Ok None
              | Some w => datum_loop value idx inj ws ms t (acc ++ [value w b r])
              end
          end
      end
  end.

(** Weighter.cxx:158-181 and 183-208 of a weighter made by lines 230-237. *)
Definition probabilities (value : weighter -> Bounds -> Rec -> R) (primary : pprocess Inter) (secondary : list (pprocess Inter))
    (injs : list injector) (tree : list (bool * Rec)) (i : Z) : outcome (list R) :=
  if (i <? 0)%Z || (Z.of_nat (length injs) <=? i)%Z then Throw
  else
    let '(ws, ms) := initialize norm primary secondary injs in
    match nth_error injs (Z.to_nat i) with
    | None => UB
    | Some inj =>
        match datum_loop value (Z.to_nat i) inj ws ms tree [] with
        | Ok (Some l) => Ok l
        | Ok None => Ok []
        | Throw => Throw
        | UB => UB
        end
    end.

(** Weighter.cxx:158-181, [GetInteractionProbabilities]. *)
Definition interaction_probabilities := probabilities interacts.

(** Weighter.cxx:183-208, [GetSurvivalProbabilities]. *)
Definition survival_probabilities := probabilities survives.
End Probabilities.
