(** Model of polynomials and of root finding.
    Source: projects/math/private/Polynomial.cxx. Doubles are real numbers. *)
From Coq Require Import Reals List Bool.
Import ListNotations.
Open Scope R_scope.

(** Polynomial.h:96-97: a polynomial is its coefficients; [N_] is their number. *)
Definition polynom := list R.

(** Polynomial.cxx:36-46, [evaluate]: from the last coefficient down. *)
Fixpoint evaluate (p : polynom) (x : R) : R :=
  match p with
  | [] => 0
  | [c] => c
  | c :: r => evaluate r x * x + c
  end.

(** Polynomial.cxx:22-30, [operator==]. *)
Fixpoint poly_eqb (p q : polynom) : bool :=
  match p, q with
  | [], [] => true
  | a :: r, b :: s => (if Req_EM_T a b then true else false) && poly_eqb r s
  | _, _ => false
  end.

(** Coefficient [i]; lines 48-104 only read inside the list. *)
Definition coeff (p : polynom) (i : nat) : R := nth i p 0.

(** The array [t] of [shift] (lines 57-60), as a function from its two indices; what
    it holds before being written to is not known. *)
Definition table := nat -> nat -> R.
(** Polynomial.cxx:58-80, writing to the array. *)
Definition put (t : table) (i j : nat) (v : R) : table :=
  fun a b => if Nat.eqb a i && Nat.eqb b j then v else t a b.

(** Lines 62-65. *)
Definition shift_start (p : polynom) (x : R) (n : nat) (t : table) : table :=
  fold_left (fun t i => put (put t i 0 (coeff p (n - i - 1) * x ^ (n - i - 1))) i (i + 1) (coeff p n * x ^ n)) (seq 0 n) t.

(** Lines 68-70, the inner loop for one [j]. *)
Definition shift_column (n j : nat) (t : table) : table :=
  fold_left (fun t i => put t i (j + 1) (t (i - 1)%nat j + t (i - 1)%nat (j + 1)%nat)) (seq (j + 1) (n - j)) t.

(** Lines 67-71. *)
Definition shift_fill (n : nat) (t : table) : table := fold_left (fun t j => shift_column n j t) (seq 0 n) t.

(** Polynomial.cxx:48-80, [shift]; [garbage] is the content of the new array. *)
Definition shift (garbage : table) (p : polynom) (x : R) : polynom :=
  if Rlt_dec (1 / 10 ^ 9) (Rabs x) then
    match p with
    | [] => []
    | _ =>
        let n := (length p - 1)%nat in
        let t := shift_fill n (shift_start p x n garbage) in
        map (fun i => t n (i + 1)%nat / x ^ i) (seq 0 n) ++ [coeff p n]
    end
  else p.

(** Polynomial.cxx:82-86, [scale]. *)
Definition scale (p : polynom) (x : R) : polynom := map (fun i => coeff p i * x ^ i) (seq 0 (length p)).

(** Polynomial.cxx:88-95, [GetDerivative]. *)
Definition derivative (p : polynom) : polynom := map (fun i => coeff p i * INR i) (seq 1 (length p - 1)).

(** Polynomial.cxx:97-104, [GetAntiderivative]. *)
Definition antiderivative (p : polynom) (c : R) : polynom := c :: map (fun i => coeff p i / (INR i + 1)) (seq 0 (length p)).

(** ** Root finding *)

(** Result of [NewtonRaphson]. [NotANumber]: a Newton step divided zero by zero; from
    there on the code computes with NaN, which the model does not follow. [Found]
    carries the value returned; the bracket and the points at which [func] was
    evaluated are recorded for stating properties. Polynomial.cxx:129-215. *)
Inductive root_result :=
| NotBracketed
| NotANumber (points : list R)
| Found (value xl xh : R) (points : list R).

Section Newton.
(** Polynomial.cxx:129-130, the function and its derivative. *)
Variable func dfunc : R -> R.
(** Polynomial.cxx:135, the accuracy. *)
Variable xacc : R.

(** Polynomial.cxx:178-208, the loop, with [fuel] steps left. *)
Fixpoint newton_loop (fuel : nat) (xl xh rts dx dxold f df : R) (points : list R) : root_result :=
  match fuel with
  | O => Found rts xl xh points
  | S k =>
      let continue rts' dx' :=
        if Rlt_dec (Rabs dx') xacc then Found rts' xl xh points
        else
          let f' := func rts' in let df' := dfunc rts' in
          let points' := points ++ [rts'] in
          if Rlt_dec f' 0 then newton_loop k rts' xh rts' dx' dx f' df' points'
          else newton_loop k xl rts' rts' dx' dx f' df' points' in
      if (if Rlt_dec 0 (((rts - xh) * df - f) * ((rts - xl) * df - f)) then true else false) ||
         (if Rlt_dec (Rabs (dxold * df)) (Rabs (2 * f)) then true else false) then
        let dx' := / 2 * (xh - xl) in
        let rts' := xl + dx' in
        if Req_EM_T xl rts' then Found rts' xl xh points else continue rts' dx'
      else if Req_EM_T df 0 then NotANumber points
      else
        let dx' := f / df in
        let rts' := rts - dx' in
        if Req_EM_T rts rts' then Found rts' xl xh points else continue rts' dx'
  end.

(** Polynomial.cxx:129-211, [NewtonRaphson]. *)
Definition newton_raphson (x1 x2 xinit : R) (max_steps : nat) : root_result :=
  let fl := func x1 in let fh := func x2 in
  if Rlt_dec 0 (fl * fh) then NotBracketed
  else if Req_EM_T fl 0 then Found x1 x1 x2 [x1; x2]
  else if Req_EM_T fh 0 then Found x2 x1 x2 [x1; x2]
  else
    let '(xl, xh) := if Rlt_dec fl 0 then (x1, x2) else (x2, x1) in
    let dxold := Rabs (x2 - x1) in
    newton_loop (max_steps - 1) xl xh xinit dxold dxold (func xinit) (dfunc xinit) [x1; x2; xinit].
End Newton.
