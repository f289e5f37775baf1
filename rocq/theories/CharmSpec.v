(** What the decay of a charmed meson should be. *)
From Coquelicot Require Import Coquelicot.
From Coq Require Import Reals List ZArith Lra.
From Verif Require Import VectorModel RkModel CharmModel.
Import ListNotations.
Open Scope R_scope.

(** The area under the positive part of a function. *)
Definition positive_area (f : R -> R) (lo hi v : R) : Prop := is_RInt (fun c => Rmax 0 (f c)) lo hi v.
(** The mean over a cosine of a weight cut to between zero and [M]. *)
Definition mean_accepted (w : R -> R) (M v : R) : Prop :=
  is_RInt (fun c => Rmin M (Rmax 0 (w c))) (-1) 1 (2 * v).

(** Energy and momentum of a particle of mass [m]. *)
Definition on_mass (m : R) (a : p4) : Prop := 0 <= pe a /\ pe a * pe a = m * m + vdot (pp a) (pp a).
(** Three particles of masses [m1], [m2], [m3] have together energy [e] and momentum [p]. *)
Definition three_body (e : R) (p : vec) (m1 m2 m3 : R) (a b c : p4) : Prop :=
  on_mass m1 a /\ on_mass m2 b /\ on_mass m3 c /\
  pe a + pe b + pe c = e /\ vadd (vadd (pp a) (pp b)) (pp c) = p.
(** The square of the invariant mass of two particles together. *)
Definition pair_square (a b : p4) : R :=
  (pe a + pe b) * (pe a + pe b) - vdot (vadd (pp a) (pp b)) (vadd (pp a) (pp b)).

(** Electric charge; [None] where it is not fixed by the type. *)
Definition charge (t : ctype) : option Z :=
  match t with
  | D0 | D0Bar | K0 | K0Bar | NuE | NuEBar | NuMu | NuMuBar => Some 0
  | DPlus | DsPlus | KPlus | EPlus | MuPlus | TauPlus => Some 1
  | DMinus | DsMinus | KMinus | EMinus | MuMinus | TauMinus => Some (-1)
  | Hadrons | OtherType _ => None
  end%Z.
(** Lepton numbers of the electron and of the muon. *)
Definition electron_number (t : ctype) : Z :=
  match t with EMinus | NuE => 1 | EPlus | NuEBar => -1 | _ => 0 end%Z.
Definition muon_number (t : ctype) : Z :=
  match t with MuMinus | NuMu => 1 | MuPlus | NuMuBar => -1 | _ => 0 end%Z.
(** Exchange of particles and antiparticles. *)
Definition conjugate (t : ctype) : ctype :=
  match t with
  | D0 => D0Bar | D0Bar => D0 | DPlus => DMinus | DMinus => DPlus | DsPlus => DsMinus | DsMinus => DsPlus
  | K0 => K0Bar | K0Bar => K0 | KPlus => KMinus | KMinus => KPlus
  | EPlus => EMinus | EMinus => EPlus | MuPlus => MuMinus | MuMinus => MuPlus
  | TauPlus => TauMinus | TauMinus => TauPlus
  | NuE => NuEBar | NuEBar => NuE | NuMu => NuMuBar | NuMuBar => NuMu
  | t => t
  end.
(** The six charmed mesons. *)
Definition charmed (t : ctype) : Prop := In t [D0; D0Bar; DPlus; DMinus; DsPlus; DsMinus].
Definition sum (zs : list Z) : Z := fold_right Z.add 0%Z zs.

(** The length of the numbers in [0,1) that satisfy [P]: these are an interval from [a] to [b], with or
    without its ends. *)
Definition share (P : R -> Prop) (v : R) : Prop :=
  exists a b, 0 <= a <= b /\ b <= 1 /\ b - a = v /\
  forall u, 0 <= u < 1 -> (a < u < b -> P u) /\ (P u -> a <= u <= b).
