(** Model of projects/math: EulerAngles.h, Conversions.h, EulerQuaternionConversions.h and Matrix3D.cxx.
    Doubles are real numbers. *)
From Coq Require Import NArith Reals List.
From Verif Require Import VectorModel QuatModel.
Import ListNotations.
Open Scope R_scope.

(** EulerAngles.h:18-21, [EulerFrame::Static]. *)
Definition frame_static : N := 0%N.
(** EulerAngles.h:20, [EulerFrame::Rotating]. *)
Definition frame_rotating : N := 1%N.
(** EulerAngles.h:27-30, [EulerRepetition::No]. *)
Definition rep_no : N := 0%N.
(** EulerAngles.h:29, [EulerRepetition::Yes]. *)
Definition rep_yes : N := 1%N.
(** EulerAngles.h:36-39, [EulerParity::Even]. *)
Definition par_even : N := 0%N.
(** EulerAngles.h:38, [EulerParity::Odd]. *)
Definition par_odd : N := 1%N.
(** EulerAngles.h:45-49, [EulerAxis::X]. *)
Definition ax_x : N := 0%N.
(** EulerAngles.h:47, [EulerAxis::Y]. *)
Definition ax_y : N := 1%N.
(** EulerAngles.h:48, [EulerAxis::Z]. *)
Definition ax_z : N := 2%N.

(** EulerAngles.h:23-25, [GetEulerFrame]. *)
Definition get_frame (order : N) : N := N.land order 1.
(** EulerAngles.h:32-34, [GetEulerRepetition]. *)
Definition get_repetition (order : N) : N := N.land (N.shiftr order 1) 1.
(** EulerAngles.h:41-43, [GetEulerParity]. *)
Definition get_parity (order : N) : N := N.land (N.shiftr order 2) 1.
(** EulerAngles.h:51-53, [GetEulerAxis]. *)
Definition get_axis (order : N) : N := N.land (N.shiftr order 3) 3.
(** EulerAngles.h:55-57, [GetEulerOrder]. *)
Definition get_order (axis parity repetition frame : N) : N :=
  (N.shiftl (N.shiftl (N.shiftl axis 1 + parity) 1 + repetition) 1 + frame)%N.

(** EulerAngles.h:59-84, the names of [EulerOrder]. *)
Inductive order :=
| XYZs | XYXs | XZYs | XZXs | YZXs | YZYs | YXZs | YXYs | ZXYs | ZXZs | ZYXs | ZYZs
| ZYXr | XYXr | YZXr | XZXr | XZYr | YZYr | ZXYr | YXYr | YXZr | ZXZr | XYZr | ZYZr.

(** EulerAngles.h:59-84, the value of each name. *)
Definition code (o : order) : N :=
  match o with
  | XYZs => get_order ax_x par_even rep_no frame_static
  | XYXs => get_order ax_x par_even rep_yes frame_static
  | XZYs => get_order ax_x par_odd rep_no frame_static
  | XZXs => get_order ax_x par_odd rep_yes frame_static
  | YZXs => get_order ax_y par_even rep_no frame_static
  | YZYs => get_order ax_y par_even rep_yes frame_static
  | YXZs => get_order ax_y par_odd rep_no frame_static
  | YXYs => get_order ax_y par_odd rep_yes frame_static
  | ZXYs => get_order ax_z par_even rep_no frame_static
  | ZXZs => get_order ax_z par_even rep_yes frame_static
  | ZYXs => get_order ax_z par_odd rep_no frame_static
  | ZYZs => get_order ax_z par_odd rep_yes frame_static
  | ZYXr => get_order ax_x par_even rep_no frame_rotating
  | XYXr => get_order ax_x par_even rep_yes frame_rotating
  | YZXr => get_order ax_x par_odd rep_no frame_rotating
  | XZXr => get_order ax_x par_odd rep_yes frame_rotating
  | XZYr => get_order ax_y par_even rep_no frame_rotating
  | YZYr => get_order ax_y par_even rep_yes frame_rotating
  | ZXYr => get_order ax_y par_odd rep_no frame_rotating
  | YXYr => get_order ax_y par_odd rep_yes frame_rotating
  | YXZr => get_order ax_z par_even rep_no frame_rotating
  | ZXZr => get_order ax_z par_even rep_yes frame_rotating
  | XYZr => get_order ax_z par_odd rep_no frame_rotating
  | ZYZr => get_order ax_z par_odd rep_yes frame_rotating
  end.

(** EulerAngles.h:86, [EulerSafe]; the index is at most 3 by the mask in [get_axis]. *)
Definition euler_safe (n : N) : N := nth (N.to_nat n) [0%N; 1%N; 2%N; 0%N] 0%N.
(** EulerAngles.h:87, [EulerNext]; the index is at most 3. *)
Definition euler_next (n : N) : N := nth (N.to_nat n) [1%N; 2%N; 0%N; 1%N] 0%N.
(** EulerAngles.h:89-91, [GetEulerAxisI]. *)
Definition axis_i (o : N) : N := euler_safe (get_axis o).
(** EulerAngles.h:93-95, [GetEulerAxisJ]. *)
Definition axis_j (o : N) : N := euler_next (axis_i o + (if N.eqb (get_parity o) par_odd then 1 else 0)).
(** EulerAngles.h:97-99, [GetEulerAxisK]. *)
Definition axis_k (o : N) : N := euler_next (axis_i o + (if N.eqb (get_parity o) par_odd then 0 else 1)).
(** EulerAngles.h:101-103, [GetEulerAxisH]. *)
Definition axis_h (o : N) : N := if N.eqb (get_repetition o) rep_no then axis_k o else axis_i o.

(** EulerAngles.h:150-153, the members of [EulerAngles]. *)
Record euler := mkeuler { e_order : order; e_alpha : R; e_beta : R; e_gamma : R }.

(** Matrix3D.cxx:381-407, the slot that [operator[]] selects; [None] is the exception of line 405. *)
Definition slot (row column : N) : option N :=
  let i := N.lor (N.shiftl (N.land row 3) 2) (N.land column 3) in
  match i with
  | 0 | 1 | 2 | 4 | 5 | 6 | 8 | 9 | 10 => Some i
  | _ => None
  end%N.
(** Matrix3D.cxx:381-407, reading with [operator[]]. *)
Definition mget (m : matrix) (row column : N) : option R :=
  match slot row column with
  | Some 0 => Some (mxx m) | Some 1 => Some (mxy m) | Some 2 => Some (mxz m)
  | Some 4 => Some (myx m) | Some 5 => Some (myy m) | Some 6 => Some (myz m)
  | Some 8 => Some (mzx m) | Some 9 => Some (mzy m) | Some 10 => Some (mzz m)
  | _ => None
  end%N.
(** Matrix3D.cxx:409-411, writing through the reference that [operator[]] returns. *)
Definition mset (m : matrix) (row column : N) (v : R) : option matrix :=
  match m with
  | mkm xx xy xz yx yy yz zx zy zz =>
    match slot row column with
    | Some 0 => Some (mkm v xy xz yx yy yz zx zy zz) | Some 1 => Some (mkm xx v xz yx yy yz zx zy zz)
    | Some 2 => Some (mkm xx xy v yx yy yz zx zy zz) | Some 4 => Some (mkm xx xy xz v yy yz zx zy zz)
    | Some 5 => Some (mkm xx xy xz yx v yz zx zy zz) | Some 6 => Some (mkm xx xy xz yx yy v zx zy zz)
    | Some 8 => Some (mkm xx xy xz yx yy yz v zy zz) | Some 9 => Some (mkm xx xy xz yx yy yz zx v zz)
    | Some 10 => Some (mkm xx xy xz yx yy yz zx zy v)
    | _ => None
    end%N
  end.

(** Matrix3D.cxx:17-28, the default constructor. *)
Definition mzero : matrix := mkm 0 0 0 0 0 0 0 0 0.
(** Matrix3D.cxx:175-188, [operator+]. *)
Definition madd (a b : matrix) : matrix :=
  mkm (mxx a + mxx b) (mxy a + mxy b) (mxz a + mxz b) (myx a + myx b) (myy a + myy b) (myz a + myz b)
      (mzx a + mzx b) (mzy a + mzy b) (mzz a + mzz b).
(** Matrix3D.cxx:204-217, [operator-]. *)
Definition msub (a b : matrix) : matrix :=
  mkm (mxx a - mxx b) (mxy a - mxy b) (mxz a - mxz b) (myx a - myx b) (myy a - myy b) (myz a - myz b)
      (mzx a - mzx b) (mzy a - mzy b) (mzz a - mzz b).
(** Matrix3D.cxx:219-247, [operator*] with a number on either side. *)
Definition mscale (k : R) (a : matrix) : matrix :=
  mkm (k * mxx a) (k * mxy a) (k * mxz a) (k * myx a) (k * myy a) (k * myz a) (k * mzx a) (k * mzy a) (k * mzz a).
(** Matrix3D.cxx:266-279, [operator/]. *)
Definition mdiv (a : matrix) (k : R) : matrix :=
  mkm (mxx a / k) (mxy a / k) (mxz a / k) (myx a / k) (myy a / k) (myz a / k) (mzx a / k) (mzy a / k) (mzz a / k).
(** Matrix3D.cxx:366-379, unary minus. *)
Definition mopp (a : matrix) : matrix :=
  mkm (- mxx a) (- mxy a) (- mxz a) (- myx a) (- myy a) (- myz a) (- mzx a) (- mzy a) (- mzz a).
(** Matrix3D.cxx:249-264, matrix times vector. *)
Definition mvec (m : matrix) (v : vec) : vec :=
  mkv (mxx m * vx v + mxy m * vy v + mxz m * vz v) (myx m * vx v + myy m * vy v + myz m * vz v)
      (mzx m * vx v + mzy m * vy v + mzz m * vz v).
(** Matrix3D.cxx:309-312 and 330-361, [matrix_product]. *)
Definition mmul (a b : matrix) : matrix :=
  mkm (mxx a * mxx b + mxy a * myx b + mxz a * mzx b) (mxx a * mxy b + mxy a * myy b + mxz a * mzy b)
      (mxx a * mxz b + mxy a * myz b + mxz a * mzz b)
      (myx a * mxx b + myy a * myx b + myz a * mzx b) (myx a * mxy b + myy a * myy b + myz a * mzy b)
      (myx a * mxz b + myy a * myz b + myz a * mzz b)
      (mzx a * mxx b + mzy a * myx b + mzz a * mzx b) (mzx a * mxy b + mzy a * myy b + mzz a * mzy b)
      (mzx a * mxz b + mzy a * myz b + mzz a * mzz b).

(** Conversions.h:54, the local array [res]. *)
Definition res4 := N -> R.
(** Conversions.h:57-65, an assignment to [res]. *)
Definition put (r : res4) (i : N) (v : R) : res4 := fun n => if N.eqb n i then v else r n.

(** Conversions.h:20-78, [QuaternionFromEulerAngles]. The array starts at 0 here; all four slots are assigned. *)
Definition quaternion_from_euler (e : euler) : quat :=
  let o := code (e_order e) in
  let i := axis_i o in let j := axis_j o in let k := axis_k o in
  let n := get_parity o in let s := get_repetition o in let f := get_frame o in
  let h_alpha0 := e_alpha e * / 2 in let h_beta0 := e_beta e * / 2 in let h_gamma0 := e_gamma e * / 2 in
  let h_alpha := if N.eqb f frame_rotating then h_gamma0 else h_alpha0 in
  let h_gamma := if N.eqb f frame_rotating then h_alpha0 else h_gamma0 in
  let h_beta := if N.eqb n par_odd then - h_beta0 else h_beta0 in
  let ca := cos h_alpha in let cb := cos h_beta in let cg := cos h_gamma in
  let sa := sin h_alpha in let sb := sin h_beta in let sg := sin h_gamma in
  let cc := ca * cg in let cs := ca * sg in let sc := sa * cg in let ss := sa * sg in
  let res :=
    if N.eqb s rep_yes then
      put (put (put (put (fun _ => 0) i (cb * (cs + sc))) j (sb * (cc + ss))) k (sb * (cs - sc))) 3%N (cb * (cc - ss))
    else
      put (put (put (put (fun _ => 0) i (cb * sc - sb * cs)) j (cb * ss + sb * cc)) k (cb * cs - sb * sc)) 3%N (cb * cc + sb * ss) in
  let res := if N.eqb n par_odd then put res j (- res j) else res in
  mkq (res ax_x) (res ax_y) (res ax_z) (res 3%N).

(** Conversions.h:94 and 105, [16 * std::numeric_limits<double>::epsilon()]. *)
Definition pole : R := 16 * / 2 ^ 52.

(** [std::atan2] of the C library on real numbers: the sign of zero is not modelled.
    Used at Conversions.h:95-111. *)
Definition atan2 (y x : R) : R :=
  if Rlt_dec 0 x then atan (y / x)
  else if Rlt_dec x 0 then if Rlt_dec y 0 then atan (y / x) - PI else atan (y / x) + PI
  else if Rlt_dec 0 y then PI / 2
  else if Rlt_dec y 0 then - (PI / 2) else 0.

(** Conversions.h:92-114, the middle of [EulerAnglesFromMatrix3D]: three angles from the nine
    elements, named by the axes i, j, k. *)
Definition angles_of (s : N) (ii ij ik ji jj jk ki kj kk : R) : R * R * R :=
  if N.eqb s rep_yes then
    let sy := sqrt (ij * ij + ik * ik) in
    if Rlt_dec pole sy then (atan2 ij ik, atan2 sy ii, atan2 ji (- ki))
    else (atan2 (- jk) jj, atan2 sy ii, 0)
  else
    let cy := sqrt (ii * ii + ji * ji) in
    if Rlt_dec pole cy then (atan2 kj kk, atan2 (- ki) cy, atan2 ji ii)
    else (atan2 (- jk) jj, atan2 (- ki) cy, 0).

(** Conversions.h:80-127, [EulerAnglesFromMatrix3D]. The nine elements are read before use here; an exception
    of [operator[]] is [None]. *)
Definition euler_from_matrix (m : matrix) (o : order) : option euler :=
  let c := code o in
  let i := axis_i c in let j := axis_j c in let k := axis_k c in
  let n := get_parity c in let s := get_repetition c in let f := get_frame c in
  match mget m i i, mget m i j, mget m i k, mget m j i, mget m j j, mget m j k, mget m k i, mget m k j, mget m k k with
  | Some ii, Some ij, Some ik, Some ji, Some jj, Some jk, Some ki, Some kj, Some kk =>
    let '(alpha, beta, gamma) := angles_of s ii ij ik ji jj jk ki kj kk in
    let '(alpha, beta, gamma) := if N.eqb n par_odd then (- alpha, - beta, - gamma) else (alpha, beta, gamma) in
    Some (if N.eqb f frame_rotating then mkeuler o gamma beta alpha else mkeuler o alpha beta gamma)
  | _, _, _, _, _, _, _, _, _ => None
  end.

(** Conversions.h:167-187, one assignment through [operator[]] after another. *)
Fixpoint assign (m : matrix) (l : list (N * N * R)) : option matrix :=
  match l with
  | [] => Some m
  | (r, c, v) :: rest => match mset m r c v with Some m' => assign m' rest | None => None end
  end.

(** Conversions.h:129-190, [Matrix3DFromEulerAngles]. Line 144 swaps alpha and beta. *)
Definition matrix_from_euler (e : euler) : option matrix :=
  let o := code (e_order e) in
  let i := axis_i o in let j := axis_j o in let k := axis_k o in
  let n := get_parity o in let s := get_repetition o in let f := get_frame o in
  let alpha := if N.eqb f frame_rotating then e_beta e else e_alpha e in
  let beta := if N.eqb f frame_rotating then e_alpha e else e_beta e in
  let gamma := e_gamma e in
  let alpha := if N.eqb n par_odd then - alpha else alpha in
  let beta := if N.eqb n par_odd then - beta else beta in
  let gamma := if N.eqb n par_odd then - gamma else gamma in
  let ca := cos alpha in let cb := cos beta in let cg := cos gamma in
  let sa := sin alpha in let sb := sin beta in let sg := sin gamma in
  let cc := ca * cg in let cs := ca * sg in let sc := sa * cg in let ss := sa * sg in
  if N.eqb s rep_yes then
    assign mzero [(i, i, cb); (i, j, sb * sa); (i, k, sb * ca); (j, i, sb * sg); (j, j, - cb * ss + cc);
      (j, k, - cb * cs - sc); (k, i, - sb * cg); (k, j, cb * sc + cs); (k, k, cb * cc - ss)]
  else
    assign mzero [(i, i, cb * cg); (i, j, sb * sc - cs); (i, k, sb * cc + ss); (j, i, cb * sg); (j, j, sb * ss + cc);
      (j, k, sb * cs - sc); (k, i, - sb); (k, j, cb * sa); (k, k, cb * ca)].

(** Conversions.h:192-216, [Matrix3DFromQuaternion]. *)
Definition matrix_from_quaternion (q : quat) : matrix :=
  let Nq := qdot q q in
  let s := if Rlt_dec 0 Nq then 2 / Nq else 0 in
  let x := qx q in let y := qy q in let z := qz q in let w := qw q in
  let xs := x * s in let ys := y * s in let zs := z * s in
  let wx := w * xs in let wy := w * ys in let wz := w * zs in
  let xx := x * xs in let xy := x * ys in let xz := x * zs in
  let yy := y * ys in let yz := y * zs in let zz := z * zs in
  mkm (1 - (yy + zz)) (xy - wz) (xz + wy) (xy + wz) (1 - (xx + zz)) (yz - wx) (xz - wy) (yz + wx) (1 - (xx + yy)).

(** Conversions.h:218-221, [EulerAnglesFromQuaternion], and Quaternion.cxx:477-480, [GetEulerAngles]. *)
Definition euler_from_quaternion (q : quat) (o : order) : option euler := euler_from_matrix (get_matrix q) o.

(** EulerQuaternionConversions.h:36-63, [ZXZrFromQ], and Quaternion.cxx:482-488. *)
Definition zxzr_from_q (q : quat) : euler :=
  let Nq := qdot q q in
  let s := if Rlt_dec 0 Nq then 2 / Nq else 0 in
  let x := qx q in let y := qy q in let z := qz q in let w := qw q in
  let ww := w * w * s in
  let xs := x * s in let ys := y * s in let zs := z * s in
  let wx := w * xs in let wy := w * ys in let wz := w * zs in
  let xx := x * xs in let xy := x * ys in let xz := x * zs in
  let yy := y * ys in let yz := y * zs in let zz := z * zs in
  let check := sqrt ((xx + yy) * (ww + zz)) in
  if Rlt_dec pole check then mkeuler ZXZr (atan2 (wy + xz) (wx - yz)) (atan2 check (1 - (xx + yy))) (atan2 (xz - wy) (wx + yz))
  else mkeuler ZXZr 0 (atan2 check (1 - (xx + yy))) (atan2 (wz - xy) (1 - (yy + zz))).

(** EulerQuaternionConversions.h:92-121, [XYZsFromQ], and Quaternion.cxx:495-501. *)
Definition xyzs_from_q (q : quat) : euler :=
  let Nq := qdot q q in
  let s := if Rlt_dec 0 Nq then 2 / Nq else 0 in
  let x := qx q in let y := qy q in let z := qz q in let w := qw q in
  let xs := x * s in let ys := y * s in let zs := z * s in
  let wx := w * xs in let wy := w * ys in let wz := w * zs in
  let xx := x * xs in let xy := x * ys in let xz := x * zs in
  let yy := y * ys in let yz := y * zs in let zz := z * zs in
  let Rxx := 1 - (yy + zz) in
  let Ryx := xy + wz in
  let cy := sqrt (Rxx * Rxx + Ryx * Ryx) in
  if Rlt_dec pole cy then mkeuler XYZs (atan2 (wx + yz) (1 - (xx + yy))) (atan2 (wy - xz) cy) (atan2 (xy + wz) (1 - (yy + zz)))
  else mkeuler XYZs (atan2 (wx - yz) (1 - (xx + zz))) (atan2 (wy - xz) cy) 0.
