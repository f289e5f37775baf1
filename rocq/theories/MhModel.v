(** Model of the Metropolis-Hastings sampler.
    Source: projects/utilities/public/SIREN/utilities/Sampling.h.
    Doubles are real numbers. The proposals, with the density each reports, and the numbers
    [Uniform(0,1)] gives are arguments: a round is a proposal and the number that is drawn
    if that round draws one. *)
From Coq Require Import Reals List.
Import ListNotations.
Open Scope R_scope.

Section Mh.
Context {A : Type}.
(** Sampling.h:25, [func_likelihood]. *)
Variable llh : A -> R.

(** Sampling.h:32, 39: the weight of a point and its reported density. *)
Definition weight (x : A) (q : R) : R := if Rlt_dec 0 q then llh x / q else 0.

(** Sampling.h:41-46, [accept]. *)
Definition accepts (w tw u : R) : bool :=
  if Rle_dec w 0 then true
  else if Rge_dec tw w then true
  else if Rlt_dec u (tw / w) then true else false.

(** Sampling.h:34-52: one round; [llh] is not read again and left out of the state. *)
Definition mh_round (s : A * R) (r : (A * R) * R) : A * R :=
  let '((x, q), u) := r in
  let tw := weight x q in
  if accepts (snd s) tw u then (x, tw) else s.

(** Sampling.h:25-54: for the first proposal and the rounds that follow. *)
Definition mh_run (initial : A * R) (rounds : list ((A * R) * R)) : A * R :=
  fold_left mh_round rounds (fst initial, weight (fst initial) (snd initial)).

(** Sampling.h:34: the loop makes [burnin + 1] rounds; [draw j] is what round [j] draws. *)
Definition mh_sample (initial : A * R) (draw : nat -> (A * R) * R) (burnin : nat) : A :=
  fst (mh_run initial (map draw (seq 0 (S burnin)))).
End Mh.
