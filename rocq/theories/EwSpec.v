(** What the decays of the W and Z bosons should be, by quantum numbers alone. *)
From Coq Require Import Reals ZArith List.
From Verif Require Import VectorModel RkModel EwModel.
Open Scope Z_scope.

(** Three times the electric charge. *)
Definition charge3 (t : etype) : Z :=
  match t with
  | Wp => 3 | Wm => -3 | Zz => 0
  | Nu _ | NuBar _ => 0 | Lepton _ => -3 | AntiLepton _ => 3
  | Up _ => 2 | UpBar _ => -2 | Down _ => -1 | DownBar _ => 1
  | Other => 0
  end.
(** Three times the baryon number. *)
Definition baryon3 (t : etype) : Z :=
  match t with Up _ | Down _ => 1 | UpBar _ | DownBar _ => -1 | _ => 0 end.
(** The lepton number of a family. *)
Definition lepton_number (f : family) (t : etype) : Z :=
  match t with
  | Nu g | Lepton g => if family_eqb f g then 1 else 0
  | NuBar g | AntiLepton g => if family_eqb f g then -1 else 0
  | _ => 0
  end.
Definition antiparticle (t : etype) : etype :=
  match t with
  | Wp => Wm | Wm => Wp | Zz => Zz
  | Nu f => NuBar f | NuBar f => Nu f | Lepton f => AntiLepton f | AntiLepton f => Lepton f
  | Up f => UpBar f | UpBar f => Up f | Down f => DownBar f | DownBar f => Down f
  | Other => Other
  end.
(** A quark or lepton, or the antiparticle of one. *)
Definition is_fermion (t : etype) : Prop := match t with Wp | Wm | Zz | Other => False | _ => True end.
Definition is_top (t : etype) : Prop := t = Up F3 \/ t = UpBar F3.
(** The sum of the lepton and baryon numbers is one for matter. *)
Definition is_matter (t : etype) : Prop :=
  match t with Nu _ | Lepton _ | Up _ | Down _ => True | _ => False end.
(** A charged lepton or a quark of charge two thirds, or the antiparticle of one. *)
Definition leads (t : etype) : Prop :=
  match t with Lepton _ | AntiLepton _ | Up _ | UpBar _ => True | _ => False end.

(** The charge, the baryon number and the three lepton numbers stay the same. *)
Definition numbers_kept (p x y : etype) : Prop :=
  charge3 x + charge3 y = charge3 p /\ baryon3 x + baryon3 y = baryon3 p /\
  forall f, lepton_number f x + lepton_number f y = lepton_number f p.

(** The two-body decays to quarks and leptons other than top: of a W into the charged lepton or the
    quark of charge two thirds and its partner, of the Z into matter and its antiparticle. *)
Definition allowed (p x y : etype) : Prop :=
  is_fermion x /\ is_fermion y /\ ~ is_top x /\ ~ is_top y /\ numbers_kept p x y /\
  ((p <> Zz /\ leads x) \/ (p = Zz /\ is_matter x /\ y = antiparticle x)).
