(** What the choice of an interaction promises, over the list of channels. *)
From Coq Require Import List Bool ZArith Reals.
From Verif Require Import TraversalModel OrderModel InjectorModel ChannelModel.
Import ListNotations.
Open Scope R_scope.

(** A channel: a signature, the object that provides it, and its rate per length. *)
Record channel := mkch { ch_sig : signature; ch_source : cross_section + decay; ch_rate : R }.

(** The cross sections that declare a target, in order, once per declaration. *)
Definition declaring (xss : list cross_section) (t : Z) : list cross_section :=
  flat_map (fun x => map (fun _ => x) (filter (Z.eqb t) (xs_targets x))) xss.

(** Density times cross section for each signature of each declaring cross section
    of each available target; then the inverse decay length (in 1/cm) for each
    signature of each decay. *)
Definition xs_channels (xss : list cross_section) (available : list Z) (density target_mass : Z -> R) (r : record) : list channel :=
  flat_map (fun t =>
    flat_map (fun x =>
      map (fun s => mkch s (inl x) (density t * xs_total x (with_target_mass (with_signature r s) (target_mass t))))
          (xs_signatures x (primary_type (r_signature r)) t))
      (declaring xss t)) available.

Definition decay_channels (ds : list decay) (r : record) : list channel :=
  flat_map (fun d =>
    map (fun s => mkch s (inr d) (match dc_length d (with_signature r s) with Fin x => / (100 * x) | Inf => 0 end))
        (dc_signatures d (primary_type (r_signature r)))) ds.

Definition channels xss ds available density target_mass r : list channel :=
  xs_channels xss available density target_mass r ++ decay_channels ds r.

(** Sum of the rates. *)
Fixpoint total (l : list channel) : R :=
  match l with [] => 0 | c :: r => ch_rate c + total r end.

(** Sum of the rates of the channels before position [k]. *)
Definition before_ (l : list channel) (k : nat) : R := total (firstn k l).

(** Total decay lengths do not look at the mass of a target. *)
Definition ignores_target (d : decay) : Prop :=
  forall r m, dc_length d (with_target_mass r m) = dc_length d r.

(** What is handed to the chosen channel's final-state sampling. *)
Definition chosen (target_mass : Z -> R) (r : record) (c : channel) : choice :=
  let r1 := with_target_mass (with_signature r (ch_sig c)) (target_mass (target_type (ch_sig c))) in
  match ch_source c with inl x => ChoseXs x r1 | inr d => ChoseDecay d r1 end.

(** Final-state probability of a channel for a record. *)
Definition final_state (c : channel) (r : record) : R :=
  match ch_source c with inl x => xs_final_state x r | inr d => dc_final_state d r end.

(** Sum of [f] over the channels carrying signature [s]. *)
Fixpoint sum_sig (l : list channel) (s : signature) (f : channel -> R) : R :=
  match l with
  | [] => 0
  | c :: r => (if sig_eqb (ch_sig c) s then f c else 0) + sum_sig r s f
  end.

Definition sum_over {A} (l : list A) (f : A -> R) : R := fold_right (fun x acc => f x + acc) 0 l.
