(** What the comparison of distributions should do. The notion of a usable order is
    [ordered] of OrderSpec.v. *)
From Coq Require Import List Bool ZArith.
From Verif Require Import RankModel RankDistModel.

Section Spec.
Variable D : Type.

(** The classes whose [less] and [equal] look at the same members of both objects. *)
Definition comparable (d : distribution D) : bool :=
  match d with
  | NormalizationConstant _ _ | RangePosition _ _ _ _ _ | DecayRangePosition _ _ _ _ | ColumnDepthPosition _ _ _ _ | PointSource _ _ _
  | PrimaryMass _ _ | FixedDirection _ _ | ConeDirection _ _ _ => false
  | _ => true
  end.

(** The classes whose [equal] looks at every member (of this model). *)
Definition complete (d : distribution D) : bool :=
  match d with
  | NormalizationConstant _ _ | FixedTargetPosition _ _ _ | SecondaryBounded _ _ _ | FixedDirection _ _ | ConeDirection _ _ _ => false
  | _ => true
  end.

(** The same distribution with another normalization. *)
Definition renormalized (n : D) (d : distribution D) : distribution D :=
  match d with
  | NormalizationConstant _ _ => NormalizationConstant D n
  | PiDARNuE _ _ => PiDARNuE D n
  | MoyalExponential _ _ a b c d e f g => MoyalExponential D n a b c d e f g
  | Monoenergetic _ _ e => Monoenergetic D n e
  | PowerLaw _ _ a b c => PowerLaw D n a b c
  | TabulatedFlux _ _ a b t => TabulatedFlux D n a b t
  | Tabulated2DFlux _ _ a b c d t => Tabulated2DFlux D n a b c d t
  | d => d
  end.
End Spec.
