(** What a two-body decay into particles of any mass should be. *)
From Coquelicot Require Import Coquelicot.
From Coq Require Import Reals Bool List.
From Verif Require Import VectorModel RkModel RkSpec DipoleModel DipoleSpec HnlModel.
Import ListNotations.
Open Scope R_scope.

(** Both products are on their mass shells and carry the energy and momentum of the parent. *)
Definition kept (p : vec) (m ma mb : R) (a b : p4) : Prop :=
  pm a = ma /\ pm b = mb /\ pe a = energy (pp a) ma /\ pe b = energy (pp b) mb /\
  pe a + pe b = energy p m /\ vadd (pp a) (pp b) = p.

(** The sign of the asymmetry: minus the helicity for the particle. *)
Definition hnl_sign (primary : htype) (h : R) : R :=
  match primary with
  | HN4 => if Rlt_dec h 0 then 1 else - (1)
  | _ => if Rlt_dec h 0 then - (1) else 1
  end.

(** The asymmetry of the decay to a neutrino and a vector meson of mass [m]. *)
Definition vector_asymmetry (M m : R) : R := (M ^ 2 - 2 * m ^ 2) / (M ^ 2 + 2 * m ^ 2).

(** One lepton, one other particle. *)
Definition lepton_meson (s : hsig) (l x : htype) : Prop :=
  (hs_secondary s = [l; x] \/ hs_secondary s = [x; l]) /\
  (exists f, l = HNu f \/ l = HNuBar f \/ l = HMinus f \/ l = HPlus f) /\
  (forall f, x <> HNu f /\ x <> HNuBar f /\ x <> HMinus f /\ x <> HPlus f) /\ x <> HNuLight.
