(** Model of the event weights.
    Sources: projects/injection/public/SIREN/injection/Weighter.tcc (ProcessWeighter),
             projects/injection/private/Weighter.cxx (Weighter),
             projects/injection/private/Injector.cxx (generation probabilities and bounds),
             projects/injection/private/Process.cxx. *)
From Coq Require Import Reals List Bool ZArith.
From Verif Require Import TraversalModel VertexModel.
Import ListNotations.
Open Scope R_scope.

(** Doubles as they occur as weights: real numbers, the infinities and NaN, for divisions by zero
    (Weighter.tcc:202 and 244, Weighter.cxx:137 and 139). Simplified: zero has no sign and nothing
    is rounded. *)
Inductive flt := Fin (x : R) | Inf (negative : bool) | NaN.

(** The sign of a number that is not zero; modelling device for the divisions and products of
    Weighter.tcc:202-245 and Weighter.cxx:116-139. *)
Definition negb_R (x : R) : bool := if Rlt_dec x 0 then true else false.

(** Addition of doubles, Weighter.cxx:137. *)
Definition fadd (a b : flt) : flt :=
  match a, b with
  | Fin x, Fin y => Fin (x + y)
  | Fin _, Inf s | Inf s, Fin _ => Inf s
  | Inf s, Inf t => if Bool.eqb s t then Inf s else NaN
  | _, _ => NaN
  end.

(** Multiplication of doubles, Weighter.tcc:216-228 and Weighter.cxx:121-130. *)
Definition fmul (a b : flt) : flt :=
  match a, b with
  | Fin x, Fin y => Fin (x * y)
  | Fin x, Inf s | Inf s, Fin x => if Req_EM_T x 0 then NaN else Inf (xorb s (negb_R x))
  | Inf s, Inf t => Inf (xorb s t)
  | _, _ => NaN
  end.

(** Division of doubles, Weighter.tcc:202 and 244, Weighter.cxx:137 and 139. *)
Definition fdiv (a b : flt) : flt :=
  match a, b with
  | Fin x, Fin y =>
      if Req_EM_T y 0 then (if Req_EM_T x 0 then NaN else Inf (negb_R x)) else Fin (x / y)
  | Fin _, Inf _ => Fin 0
  | Inf s, Fin y => if Req_EM_T y 0 then Inf s else Inf (xorb s (negb_R y))
  | _, _ => NaN
  end.

(** ** Cancelling common distributions *)

(** [std::vector::erase] of one position, Weighter.tcc:87-88. *)
Fixpoint erase {A} (i : nat) (l : list A) {struct l} : list A :=
  match l, i with
  | [], _ => []
  | _ :: r, O => r
  | x :: r, S i => x :: erase i r
  end.

(** Weighter.tcc:84-91, the inner loop: from position [j - 1] downwards, the first one holding
    the pointer [x]. *)
Fixpoint phys_loop (x : nat) (j : nat) (phys : list nat) : option nat :=
  match j with
  | O => None
  | S j =>
      match nth_error phys j with
      | Some y => if Nat.eqb x y then Some j else phys_loop x j phys
      | None => None
      end
  end.

(** Weighter.tcc:82-92, the outer loop, from position [k - 1] downwards. Distributions are
    shared pointers, hence addresses. The iterators are those into a contiguous array: after
    erasing position [k], the reverse iterator continues with position [k - 1] (by the letter of
    the standard it has been invalidated). *)
Fixpoint gen_loop (k : nat) (gen phys : list nat) : list nat * list nat :=
  match k with
  | O => (gen, phys)
  | S k =>
      match nth_error gen k with
      | None => (gen, phys)
      | Some x =>
          match phys_loop x (List.length phys) phys with
          | Some j => gen_loop k (erase k gen) (erase j phys)
          | None => gen_loop k gen phys
          end
      end
  end.

(** Weighter.tcc:80-92. *)
Definition cancel (gen phys : list nat) : list nat * list nat := gen_loop (List.length gen) gen phys.

Section Weight.
(** Records, collections of interactions and pairs of positions. *)
Context {Rec Inter Bounds : Type}.
(** The particle type of the primary of a record. InteractionSignature.h:24. *)
Variable rtype : Rec -> Z.
(** [GenerationProbability] of the distribution at an address; the detector model is fixed.
    Weighter.tcc:225, 236. *)
Variable dens : nat -> Inter -> Rec -> R.
(** [GetNormalization] of the distribution at an address if it is a
    PhysicallyNormalizedDistribution whose normalization is set. Weighter.tcc:75-76. *)
Variable norm : nat -> option R.
(** [CrossSectionProbability], WeightingUtils.cxx:25-89 (modelled in ChannelModel.v). *)
Variable csp : Inter -> Rec -> R.
(** The interaction depth between the bounds, the depth from the first bound to the vertex and
    the interaction density at the vertex, Weighter.tcc:97-134 and 156-196 (modelled in
    DepthModel.v). *)
Variable total_depth traversed : Inter -> Bounds -> Rec -> R.
(** Weighter.tcc:156-196, the interaction density at the vertex. *)
Variable density : Inter -> Rec -> R.
(** The pair of zero vectors of Injector.cxx:455. *)
Variable no_bounds : Bounds.

(** Process.h:29-30, 60, 85 and 112: type, interactions and the list of distributions: the
    physical ones of a PhysicalProcess, the injection ones of an injection process. *)
Record pprocess := mkpp { p_type : Z; p_inter : Inter; p_dists : list nat }.

(** Weighter.h:43-50, the members of a ProcessWeighter. *)
Record weighter := mkweighter {
  w_norm : R; w_gen : list nat; w_phys : list nat; w_pp : pprocess; w_ip : pprocess }.

(** Weighter.tcc:71-79. *)
Definition normalization (l : list nat) : R :=
  fold_left (fun a d => match norm d with Some n => a * n | None => a end) l 1.

(** Weighter.tcc:248-254 with 70-93: construction of a ProcessWeighter. *)
Definition make_weighter (pp ip : pprocess) : weighter :=
  let '(gen, phys) := cancel (p_dists ip) (p_dists pp) in
  mkweighter (normalization (p_dists pp)) gen phys pp ip.

(** Weighter.tcc:155-208, [NormalizedPositionProbability]: as [position_density] of
    VertexModel.v, with the division of line 202 by a depth that may be zero. *)
Definition position_probability (i : Inter) (b : Bounds) (r : Rec) : flt :=
  let T := total_depth i b r in
  if Rlt_dec T (1 / 1000000) then fdiv (Fin (density i r)) (Fin T)
  else Fin (position_density (density i r) T (traversed i b r)).

(** Weighter.tcc:211-229, [PhysicalProbability]. *)
Definition physical_probability (w : weighter) (b : Bounds) (r : Rec) : flt :=
  let i := p_inter (w_pp w) in
  let p := fmul (Fin 1) (Fin (interaction_probability (total_depth i b r))) in
  let p := fmul p (position_probability i b r) in
  let p := fmul p (Fin (csp i r)) in
  let p := fold_left (fun p d => fmul p (Fin (dens d i r))) (w_phys w) p in
  fmul (Fin (w_norm w)) p.

(** Weighter.tcc:232-239, [GenerationProbability]. *)
Definition generation_probability (w : weighter) (r : Rec) : flt :=
  let i := p_inter (w_ip w) in
  fold_left (fun p d => fmul p (Fin (dens d i r))) (w_gen w) (Fin (csp i r)).

(** Weighter.tcc:242-245, [ProcessWeighter::EventWeight]. *)
Definition process_weight (w : weighter) (b : Bounds) (r : Rec) : flt :=
  fdiv (physical_probability w b r) (generation_probability w r).

(** ** Injectors *)

(** Injector.h:56-73: what the weighter uses of an injector. [i_position] is the primary position
    distribution with its [InjectionBounds], if there is one; the two lists are the maps by
    particle type [secondary_process_map] and [secondary_position_distribution_map]. *)
Record injector := mkinj {
  i_events : Z;
  i_primary : pprocess;
  i_position : option (Inter -> Rec -> Bounds);
  i_secondary : list (Z * pprocess);
  i_sec_position : list (Z * (Inter -> Rec -> Bounds)) }.

(** [std::map::at], Injector.cxx:368 and 462, Weighter.cxx:68, 127 and 128; [None] is the
    exception. *)
Definition at_key {A} (m : list (Z * A)) (k : Z) : option A :=
  match find (fun e => Z.eqb (fst e) k) m with Some e => Some (snd e) | None => None end.

(** [std::map::operator[]] with an assignment, Weighter.cxx:70. *)
Definition assign {A} (m : list (Z * A)) (k : Z) (x : A) : list (Z * A) :=
  (k, x) :: filter (fun e => negb (Z.eqb (fst e) k)) m.

(** Injector.cxx:453-458, [PrimaryInjectionBounds]. *)
Definition primary_bounds (inj : injector) (r : Rec) : Bounds :=
  match i_position inj with
  | None => no_bounds
  | Some f => f (p_inter (i_primary inj)) r
  end.

(** Injector.cxx:461-463, [SecondaryInjectionBounds]; [None] is [std::out_of_range]. *)
Definition secondary_bounds (inj : injector) (r : Rec) : option Bounds :=
  match at_key (i_sec_position inj) (rtype r), at_key (i_secondary inj) (rtype r) with
  | Some f, Some p => Some (f (p_inter p) r)
  | _, _ => None
  end.

(** Injector.cxx:394-409, [GenerationProbability] of a datum for the primary process. *)
Definition injector_primary_generation (inj : injector) (r : Rec) : R :=
  let stat_weight := if (0 <? i_events inj)%Z then i_events inj else 1%Z in
  let p := i_primary inj in
  fold_left (fun q d => q * dens d (p_inter p) r) (p_dists p) (1 * IZR stat_weight) * csp (p_inter p) r.

(** Injector.cxx:371-381, [SecondaryGenerationProbability] for a process. *)
Definition injector_secondary_generation (p : pprocess) (r : Rec) : R :=
  fold_left (fun q d => q * dens d (p_inter p) r) (p_dists p) 1 * csp (p_inter p) r.

(** Injector.cxx:383-392 with 367-369, [GenerationProbability] of a tree; a tree is the list of
    its data, each with [is_root]. [None] is [std::out_of_range]. *)
Definition injector_generation (inj : injector) (tree : list (bool * Rec)) : option R :=
  fold_left (fun (acc : option R) (d : bool * Rec) =>
    match acc with
    | None => None
    | Some q =>
        if fst d then Some (q * injector_primary_generation inj (snd d))
        else match at_key (i_secondary inj) (rtype (snd d)) with
             | None => None
             | Some p => Some (q * injector_secondary_generation p (snd d))
             end
    end) tree (Some 1).

(** ** The weighter *)

(** Weighter.cxx:66-82: the map of weighters of the secondary processes for one injector; [None]
    is the early return of line 80. The assertions of lines 60 and 69 are not compiled
    in the default build (CMakeLists.txt:52-54). *)
Fixpoint init_secondary (m : list (Z * pprocess)) (phys : list pprocess) (acc : list (Z * weighter)) :
    option (list (Z * weighter)) :=
  match phys with
  | [] => Some acc
  | pp :: r =>
      match at_key m (p_type pp) with
      | None => None
      | Some ip => init_secondary m r (assign acc (p_type pp) (make_weighter pp ip))
      end
  end.

(** Weighter.cxx:51-89, [Initialize]: the vectors of primary weighters and of maps of secondary
    weighters. *)
Fixpoint initialize (primary : pprocess) (secondary : list pprocess) (injs : list injector) :
    list weighter * list (list (Z * weighter)) :=
  match injs with
  | [] => ([], [])
  | inj :: r =>
      let w := make_weighter primary (i_primary inj) in
      match init_secondary (i_secondary inj) secondary [] with
      | None => ([w], [])
      | Some m =>
          if negb (Nat.eqb (List.length m) (List.length (i_secondary inj))) then ([w], [])
          else let '(ws, ms) := initialize primary secondary r in (w :: ws, m :: ms)
      end
  end.

(** Weighter.cxx:117-136, the loop over the tree for the injector [inj] at position [idx]:
    [Ok None] is the return of line 133, [UB] the access to a vector beyond its end. *)
Fixpoint tree_loop (idx : nat) (inj : injector) (ws : list weighter) (ms : list (list (Z * weighter)))
    (tree : list (bool * Rec)) (p g : flt) : outcome (option (flt * flt)) :=
  match tree with
  | [] => Ok (Some (p, g))
  | (true, r) :: t =>
      match nth_error ws idx with
      | None => UB
      | Some w =>
          tree_loop idx inj ws ms t (fmul p (physical_probability w (primary_bounds inj r) r))
            (fmul g (generation_probability w r))
      end
  | (false, r) :: t =>
      match secondary_bounds inj r with
      | None => Ok None
      | Some b =>
          match nth_error ms idx with
          | None => UB
          | Some m =>
              match at_key m (rtype r) with
              | None => Ok None
              | Some w =>
                  tree_loop idx inj ws ms t (fmul p (physical_probability w b r))
                    (fmul g (generation_probability w r))
              end
          end
      end
  end.

(** Weighter.cxx:113-138, the loop over the injectors; [Ok None] is the return of line 133. *)
Fixpoint injector_loop (idx : nat) (injs : list injector) (ws : list weighter)
    (ms : list (list (Z * weighter))) (tree : list (bool * Rec)) (inv : flt) : outcome (option flt) :=
  match injs with
  | [] => Ok (Some inv)
  | inj :: r =>
      match tree_loop idx inj ws ms tree (Fin 1) (Fin (IZR (i_events inj))) with
      | Ok (Some (p, g)) => injector_loop (S idx) r ws ms tree (fadd inv (fdiv g p))
      | Ok None => Ok None
      | Throw => Throw
      | UB => UB
      end
  end.

(** Weighter.cxx:91-140, [EventWeight] of a weighter constructed by lines 230-237. *)
Definition event_weight (primary : pprocess) (secondary : list pprocess) (injs : list injector)
    (tree : list (bool * Rec)) : outcome flt :=
  let '(ws, ms) := initialize primary secondary injs in
  match injector_loop 0 injs ws ms tree (Fin 0) with
  | Ok (Some inv) => Ok (fdiv (Fin 1) inv)
  | Ok None => Ok (Fin 0)
  | Throw => Throw
  | UB => UB
  end.

End Weight.
Arguments pprocess : clear implicits.
Arguments weighter : clear implicits.
Arguments injector : clear implicits.
