(** Euler angles, independently of the code: three turns about named axes. *)
From Coq Require Import Reals List.
From Verif Require Import VectorModel QuatModel QuatSpec EulerModel.
Import ListNotations.
Open Scope R_scope.

(** The three letters of a name and whether the axes turn with the body. *)
Inductive letter := LX | LY | LZ.
Definition letters (o : order) : letter * letter * letter :=
  match o with
  | XYZs | XYZr => (LX, LY, LZ) | XYXs | XYXr => (LX, LY, LX) | XZYs | XZYr => (LX, LZ, LY) | XZXs | XZXr => (LX, LZ, LX)
  | YZXs | YZXr => (LY, LZ, LX) | YZYs | YZYr => (LY, LZ, LY) | YXZs | YXZr => (LY, LX, LZ) | YXYs | YXYr => (LY, LX, LY)
  | ZXYs | ZXYr => (LZ, LX, LY) | ZXZs | ZXZr => (LZ, LX, LZ) | ZYXs | ZYXr => (LZ, LY, LX) | ZYZs | ZYZr => (LZ, LY, LZ)
  end.
Definition turning (o : order) : bool :=
  match o with
  | ZYXr | XYXr | YZXr | XZXr | XZYr | YZYr | ZXYr | YXYr | YXZr | ZXZr | XYZr | ZYZr => true
  | _ => false
  end.

(** Turn by [a] about the axis of a letter. *)
Definition about (l : letter) (a : R) (p : vec) : vec :=
  rodrigues (match l with LX => axis_x | LY => axis_y | LZ => axis_z end) a p.

(** Turns by alpha, beta, gamma about the three letters in the order of the name. Fixed axes: each turn is applied
    after the one before. Axes turning with the body: each turn is applied before the one before. *)
Definition turned (o : order) (alpha beta gamma : R) (p : vec) : vec :=
  let '(l1, l2, l3) := letters o in
  if turning o then about l1 alpha (about l2 beta (about l3 gamma p))
  else about l3 gamma (about l2 beta (about l1 alpha p)).

(** A rotation matrix: columns of length one at right angles, the third the cross product of the others. *)
Definition column (m : matrix) (l : letter) : vec :=
  match l with
  | LX => mkv (mxx m) (myx m) (mzx m) | LY => mkv (mxy m) (myy m) (mzy m) | LZ => mkv (mxz m) (myz m) (mzz m)
  end.
Definition rotation_matrix (m : matrix) : Prop :=
  vdot (column m LX) (column m LX) = 1 /\ vdot (column m LY) (column m LY) = 1 /\
  vdot (column m LX) (column m LY) = 0 /\ vcross (column m LX) (column m LY) = column m LZ.

(** Element in a row and column. *)
Definition coordinate (l : letter) (v : vec) : R := match l with LX => vx v | LY => vy v | LZ => vz v end.
Definition element (m : matrix) (r c : letter) : R := coordinate r (column m c).

(** How far the first axis of the name is from a position in which two of the turns have the same axis: the sine of
    the second turn for names that repeat an axis, its cosine for the others. *)
Definition distance_from_pole (o : order) (m : matrix) : R :=
  let '(l1, _, l3) := if turning o then let '(a, b, c) := letters o in (c, b, a) else letters o in
  let e := element m l3 l1 in sqrt (1 - e * e).
