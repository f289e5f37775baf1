(** Model of density distributions: integrals along a ray and their inverses.
    Sources: projects/detector/private/*Axis1D.cxx, *Distribution1D.cxx and
    projects/detector/public/SIREN/detector/{DensityDistribution1D,
    CartesianAxisDensityDistribution,ConstantDensityDistribution}.h.
    Doubles are real numbers; [None] stands for a NaN or an infinity. *)
From Coq Require Import Reals List.
From Verif Require Import VectorModel PolyModel.
Open Scope R_scope.

(** ** One-dimensional distributions *)

(** ConstantDistribution1D, PolynomialDistribution1D, ExponentialDistribution1D (their
    data members: [val_]; [polynom_]; [sigma_], [amplitude_], [x0_]).
    ConstantDistribution1D.h:43, PolynomialDistribution1D.h:51, ExponentialDistribution1D.h:60-62. *)
Inductive dist1 :=
| Constant1 (val : R)
| Polynomial1 (p : polynom)
| Exponential1 (sigma amplitude x0 : R).

(** ConstantDistribution1D.cxx:37-40, PolynomialDistribution1D.cxx:51-53,
    ExponentialDistribution1D.cxx:48-50, [Evaluate]. *)
Definition dist_eval (d : dist1) (x : R) : R :=
  match d with
  | Constant1 v => v
  | Polynomial1 p => evaluate p x
  | Exponential1 s a x0 => a * exp (s * (x - x0))
  end.

(** ConstantDistribution1D.cxx:28-31, PolynomialDistribution1D.cxx:43-45 (with the
    constructors, 14-34), ExponentialDistribution1D.cxx:40-42, [Derivative]. *)
Definition dist_deriv (d : dist1) (x : R) : R :=
  match d with
  | Constant1 _ => 0
  | Polynomial1 p => evaluate (derivative p) x
  | Exponential1 s _ _ => dist_eval d x * s
  end.

(** A quotient of doubles, as used in the lines cited below: not a number, or infinite,
    when the divisor is zero.
    CartesianAxisDensityDistribution.h:64, 108; ExponentialDistribution1D.cxx:45. *)
Definition quotient (a b : R) : option R := if Req_EM_T b 0 then None else Some (a / b).

(** ConstantDistribution1D.cxx:33-35, PolynomialDistribution1D.cxx:47-49,
    ExponentialDistribution1D.cxx:44-46, [AntiDerivative]. *)
Definition dist_anti (d : dist1) (x : R) : option R :=
  match d with
  | Constant1 v => Some (x * v)
  | Polynomial1 p => Some (evaluate (antiderivative p 0) x)
  | Exponential1 s _ _ => quotient (dist_eval d x) s
  end.

(** ** Axes *)

(** Axis1D.h:54-55: the members [fAxis_] and [fp0_]. *)
Record axis := mkaxis { ax_dir : vec; ax_p0 : vec }.

(** CartesianAxis1D.cxx:30-32, [GetX]. *)
Definition cart_x (a : axis) (xi : vec) : R := vdot (ax_dir a) (vsub xi (ax_p0 a)).
(** CartesianAxis1D.cxx:34-38, [GetdX]. *)
Definition cart_dx (a : axis) (dir : vec) : R := vdot (ax_dir a) dir.
(** RadialAxis1D.cxx:30-32, [GetX]. *)
Definition rad_x (a : axis) (xi : vec) : R := vmag (vsub xi (ax_p0 a)).
(** RadialAxis1D.cxx:34-39, [GetdX]. *)
Definition rad_dx (a : axis) (xi dir : vec) : R := vdot (vnormalized (vsub xi (ax_p0 a))) dir.

(** ** Densities along a Cartesian axis: CartesianAxisDensityDistribution.h *)

(** (AntiDerivative(b) - AntiDerivative(a)) / dxdt, in lines 64, 74 and 84. *)
Definition anti_difference (d : dist1) (a b dxdt : R) : option R :=
  match dist_anti d b, dist_anti d a with
  | Some fb, Some fa => quotient (fb - fa) dxdt
  | _, _ => None
  end.

(** Lines 142-144, [Evaluate]. *)
Definition cart_evaluate (a : axis) (d : dist1) (xi : vec) : R := dist_eval d (cart_x a xi).
(** Lines 54-57, [Derivative]. *)
Definition cart_derivative (a : axis) (d : dist1) (xi dir : vec) : R := dist_deriv d (cart_x a xi) * cart_dx a dir.
(** Lines 59-65, [AntiDerivative]. *)
Definition cart_antiderivative (a : axis) (d : dist1) (xi dir : vec) : option R :=
  anti_difference d 0 (cart_x a xi) (cart_dx a dir).
(** Lines 67-75, [Integral] over a distance. *)
Definition cart_integral (a : axis) (d : dist1) (xi dir : vec) (distance : R) : option R :=
  anti_difference d (cart_x a xi) (cart_x a (vadd xi (vscale distance dir))) (cart_dx a dir).
(** Lines 77-85, [Integral] between two points. *)
Definition cart_integral_to (a : axis) (d : dist1) (xi xj : vec) : option R :=
  anti_difference d (cart_x a xi) (cart_x a xj) (cart_dx a (vnormalized (vsub xj xi))).

(** The end of lines 87-112 and 114-140: the position found as a distance, -1 when
    [NewtonRaphson] throws. Its defaults are MAX_STEPS = 101 and xacc = 1e-6
    (Polynomial.h:115-116). *)
Definition cart_search (F dF : R -> R) (a b dxdt : R) : option R :=
  match newton_raphson F dF (1 / 10 ^ 6) a b ((a + b) / 2) 101 with
  | NotBracketed => Some (-1)
  | NotANumber _ => None
  | Found v _ _ _ => quotient (v - a) dxdt
  end.

(** A search on a function built from [AntiDerivative]; when [sigma_] is zero the values
    are infinite and NaN, and no bracket test on them is true.
    CartesianAxisDensityDistribution.h:87-141. *)
Definition with_anti (d : dist1) (k : (R -> R) -> option R) : option R :=
  match d with
  | Constant1 v => k (fun x => x * v)
  | Polynomial1 p => k (evaluate (antiderivative p 0))
  | Exponential1 s _ _ => if Req_EM_T s 0 then None else k (fun x => dist_eval d x / s)
  end.

(** Lines 87-112, [InverseIntegral]. *)
Definition cart_inverse (ax : axis) (d : dist1) (xi dir : vec) (integral max_distance : R) : option R :=
  let a := cart_x ax xi in
  let b := cart_x ax (vadd xi (vscale max_distance dir)) in
  let dxdt := cart_dx ax dir in
  let dist_integral := integral * dxdt in
  with_anti d (fun anti => cart_search (fun x => (anti x - anti a) - dist_integral) (dist_eval d) a b dxdt).

(** Lines 114-140, [InverseIntegral] with a constant added to the density. *)
Definition cart_inverse_constant (ax : axis) (d : dist1) (xi dir : vec) (constant integral max_distance : R) : option R :=
  let a := cart_x ax xi in
  let b := cart_x ax (vadd xi (vscale max_distance dir)) in
  let dxdt := cart_dx ax dir in
  let dist_integral := integral * dxdt in
  with_anti d (fun anti => cart_search (fun x => (anti x - anti a) + constant * x - dist_integral) (fun x => dist_eval d x + constant) a b dxdt).

(** ** Constant densities: ConstantDensityDistribution.h *)

(** Lines 107-110, [Evaluate]. *)
Definition const_evaluate (v : R) (xi : vec) : R := v.
(** Lines 63-67, [AntiDerivative]. *)
Definition const_antiderivative (v : R) (xi dir : vec) : R := vdot xi dir * v.
(** Lines 69-74, [Integral] over a distance. *)
Definition const_integral (v : R) (xi dir : vec) (distance : R) : R := distance * v.
(** Lines 76-80, [Integral] between two points. *)
Definition const_integral_to (v : R) (xi xj : vec) : R := vmag (vsub xj xi) * v.
(** Lines 82-92, [InverseIntegral]. A zero density gives an infinity, hence -1 for a
    positive integral, and otherwise a NaN or minus infinity. *)
Definition const_inverse (v : R) (xi dir : vec) (integral max_distance : R) : option R :=
  match quotient integral v with
  | None => if Rlt_dec 0 integral then Some (-1) else None
  | Some distance => Some (if Rlt_dec max_distance distance then -1 else distance)
  end.
(** Lines 94-105, [InverseIntegral] with a constant added to the density. *)
Definition const_inverse_constant (v : R) (xi dir : vec) (constant integral max_distance : R) : option R :=
  match quotient integral (v + constant) with
  | None => if Rlt_dec 0 integral then Some (-1) else None
  | Some distance => Some (if Rlt_dec max_distance distance then -1 else distance)
  end.

(** ** Densities along a radial axis: DensityDistribution1D.h *)
Section Radial.
(** [rombergIntegrate] with tolerance 1e-6 (Integration.h:108-152) is a parameter; that it
    may throw is not modelled. *)
Variable romberg : (R -> R) -> R -> R -> R.

(** Lines 136-138, [Evaluate]. *)
Definition rad_evaluate (a : axis) (d : dist1) (xi : vec) : R := dist_eval d (rad_x a xi).
(** Lines 57-60, [Derivative]. *)
Definition rad_derivative (a : axis) (d : dist1) (xi dir : vec) : R := dist_deriv d (rad_x a xi) * rad_dx a xi dir.
(** Lines 68-75, [Integral] over a distance. *)
Definition rad_integral (a : axis) (d : dist1) (xi dir : vec) (distance : R) : R :=
  romberg (fun x => rad_evaluate a d (vadd xi (vscale x dir))) 0 distance.
(** Lines 62-66, [AntiDerivative]. *)
Definition rad_antiderivative (a : axis) (d : dist1) (xi dir : vec) : R :=
  rad_integral a d (vsub xi (vscale (vdot xi dir) dir)) dir (vdot xi dir).
(** Lines 77-83, [Integral] between two points. *)
Definition rad_integral_to (a : axis) (d : dist1) (xi xj : vec) : R :=
  rad_integral a d xi (vnormalized (vsub xj xi)) (vmag (vsub xj xi)).

(** Lines 97-107 and 123-133; [max_distance] is finite in the model, so the start is its
    half. *)
Definition rad_search (F dF : R -> R) (max_distance : R) : option R :=
  match newton_raphson F dF (1 / 10 ^ 6) 0 max_distance (max_distance / 2) 101 with
  | NotBracketed => Some (-1)
  | NotANumber _ => None
  | Found v _ _ _ => Some v
  end.

(** Lines 85-108, [InverseIntegral]. *)
Definition rad_inverse (a : axis) (d : dist1) (xi dir : vec) (integral max_distance : R) : option R :=
  rad_search (fun x => rad_integral a d xi dir x - integral) (fun x => rad_evaluate a d (vadd xi (vscale x dir))) max_distance.

(** Lines 110-134, [InverseIntegral] with a constant added to the density. *)
Definition rad_inverse_constant (a : axis) (d : dist1) (xi dir : vec) (constant integral max_distance : R) : option R :=
  rad_search (fun x => rad_integral a d xi dir x + constant * x - integral)
    (fun x => rad_evaluate a d (vadd xi (vscale x dir)) + constant) max_distance.
End Radial.
