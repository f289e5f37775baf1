(** Model of the quadratures of projects/utilities/public/SIREN/utilities/Integration.h:
    [TrapezoidalIntegrator] (18-93), [rombergIntegrate] (107-152) and [simpsonIntegrate2D]
    (167-211).  Doubles are the reals.  The counters are the naturals: the shift
    [1ul << (currentDetail - 2)] stays below 2^19 for the twenty levels of
    [rombergIntegrate], and the products [(1u << i) * N1] are those of naturals, so the
    model does not wrap where [N1] times 2^14 exceeds 32 bits. *)
From Coq Require Import Reals List Arith Lra.
Import ListNotations.
Open Scope R_scope.

Section integrand.
(** The function being integrated (Integration.h:24). *)
Variable f : R -> R.

(** Integration.h:37-41: the members [currentDetail] and [value]. *)
Definition trap_state : Type := (nat * R)%type.

(** Integration.h:54-56: [n] more turns of the loop, at [x] with the partial sum [acc]. *)
Fixpoint midpoints (dx : R) (n : nat) (x acc : R) : R :=
  match n with
  | O => acc
  | S n' => midpoints dx n' (x + dx) (acc + f x)
  end.

(** Integration.h:46-59, [update]. *)
Definition update (a b : R) (s : trap_state) : trap_state :=
  let detail := S (fst s) in
  match fst s with
  | O => (detail, (b - a) * (f a + f b) / 2)
  | S k =>
      let npoints := (2 ^ k)%nat in
      let dx := (b - a) / INR npoints in
      let sum := midpoints dx npoints (a + dx / 2) 0 in
      (detail, (snd s + (b - a) * sum / INR npoints) / 2)
  end.

(** Integration.h:67-71, the constructor.  [std::swap(a, b)] exchanges the parameters, which
    hide the members of the same names, after the members were initialised; the bounds kept
    are those given. *)
Definition trap_new : trap_state := (O, 0).

(** Integration.h:84-85: [n] turns of the loop. *)
Fixpoint updates (a b : R) (n : nat) (s : trap_state) : trap_state :=
  match n with
  | O => s
  | S n' => updates a b n' (update a b s)
  end.

(** Integration.h:82-87, [integrate(detail)]; the value is the second component. *)
Definition integrate (a b : R) (detail : nat) (s : trap_state) : trap_state :=
  updates a b (S detail - fst s) s.

(** Integration.h:92, [getDetail]. *)
Definition get_detail (s : trap_state) : nat := fst s.
End integrand.

(** Integration.h:115 and 149: the entries of [stepSizes]. *)
Fixpoint step_size (i : nat) : R :=
  match i with
  | O => 1
  | S i' => step_size i' / 4
  end.

(** Integration.h:137-138: an assignment to an entry of the arrays [c] and [d]. *)
Definition set_at (c : nat -> R) (j : nat) (v : R) : nat -> R :=
  fun k => if Nat.eqb k j then v else c k.

(** Integration.h:130-139: [n] more turns of the loop over [j]; [h] is [stepSizes] from
    [baseIdx] on. *)
Fixpoint row (h : nat -> R) (m j n : nat) (cd : (nat -> R) * (nat -> R))
  : (nat -> R) * (nat -> R) :=
  match n with
  | O => cd
  | S n' =>
      let w := fst cd (S j) - snd cd j in
      let den := w / (h j - h (j + m)%nat) in
      row h m (S j) n' (set_at (fst cd) j (h j * den),
                        set_at (snd cd) j (h (j + m)%nat * den))
  end.

(** Integration.h:129-142: [n] more turns of the loop over [m], with the order 5 of line 109;
    returns [ext] and [extErr]. *)
Fixpoint tableau (h : nat -> R) (n m : nat) (cd : (nat -> R) * (nat -> R)) (ext err : R)
  : R * R :=
  match n with
  | O => (ext, err)
  | S n' =>
      let cd' := row h m 0 (5 - m) cd in
      let e := snd cd' (5 - 1 - m)%nat in
      tableau h n' (S m) cd' (ext + e) e
  end.

(** Integration.h:125-142: the extrapolation of the five estimates [e] to step size zero; the
    last of them is [estimates.back()].  [extErr] has no initial value in the code and is
    assigned by the first turn. *)
Definition extrapolate (h e : nat -> R) : R * R :=
  tableau h 4 1 (e, e) (e 4%nat) 0.

(** The outcomes of the two integrators: Integration.h:112 and 172, 151 and 210, 146 and
    205. *)
Inductive quadrature : Type :=
| Bad_tolerance
| Not_converged
| Value (v : R).

(** Integration.h:118-150: [n] more turns of the loop, the next with index [i]. *)
Fixpoint romberg_loop (f : R -> R) (a b tol : R) (n i : nat) (s : trap_state)
    (estimates : list R) : quadrature :=
  match n with
  | O => Not_converged
  | S n' =>
      let s' := integrate f a b (get_detail s) s in
      let es := estimates ++ [snd s'] in
      if (4 <=? i)%nat then
        let base := (i - 4)%nat in
        let r := extrapolate (fun j => step_size (j + base))
                             (fun j => nth (base + j) es 0) in
        if Rle_dec (Rabs (snd r)) (tol * Rabs (fst r)) then Value (fst r)
        else romberg_loop f a b tol n' (S i) s' es
      else romberg_loop f a b tol n' (S i) s' es
  end.

(** Integration.h:107-152, [rombergIntegrate], with the order 5 and the twenty iterations of
    lines 109-110. *)
Definition romberg (f : R -> R) (a b tol : R) : quadrature :=
  if Rlt_dec tol 0 then Bad_tolerance
  else romberg_loop f a b tol 20 0 trap_new [].

(** Integration.h:186-188 and 191-193: the weight of node [j] of [n]. *)
Definition simpson_weight (n j : nat) : R :=
  if (Nat.eqb j 0 || Nat.eqb j n)%bool then 1
  else if Nat.even j then 2 else 4.

(** Integration.h:190-196: [k] more turns of the inner loop, the next with index [i]. *)
Fixpoint simpson_inner (f : R -> R -> R) (c1 x a2 h2 : R) (n2 k i : nat) (acc : R) : R :=
  match k with
  | O => acc
  | S k' =>
      let y := a2 + INR i * h2 in
      simpson_inner f c1 x a2 h2 n2 k' (S i) (acc + c1 * simpson_weight n2 i * f x y)
  end.

(** Integration.h:185-197: [k] more turns of the outer loop, the next with index [i]. *)
Fixpoint simpson_outer (f : R -> R -> R) (a1 h1 a2 h2 : R) (n1 n2 k i : nat) (acc : R) : R :=
  match k with
  | O => acc
  | S k' =>
      let x := a1 + INR i * h1 in
      simpson_outer f a1 h1 a2 h2 n1 n2 k' (S i)
        (simpson_inner f (simpson_weight n1 i) x a2 h2 n2 (S n2) 0 acc)
  end.

(** Integration.h:182-198: the estimate with [n1] and [n2] intervals. *)
Definition simpson_estimate (f : R -> R -> R) (a1 b1 a2 b2 : R) (n1 n2 : nat) : R :=
  let h1 := (b1 - a1) / INR n1 in
  let h2 := (b2 - a2) / INR n2 in
  simpson_outer f a1 h1 a2 h2 n1 n2 (S n1) 0 0 * (h1 * h2 / 9).

(** Integration.h:179-209: [k] more turns of the loop, the next with index [i]. *)
Fixpoint simpson_loop (f : R -> R -> R) (a1 b1 a2 b2 tol : R) (n1 n2 k i : nat) (prev : R)
  : quadrature :=
  match k with
  | O => Not_converged
  | S k' =>
      let e := simpson_estimate f a1 b1 a2 b2 (2 ^ i * n1) (2 ^ i * n2) in
      let next := simpson_loop f a1 b1 a2 b2 tol n1 n2 k' (S i) e in
      if (0 <? i)%nat then
        let diff := Rabs (e - prev) in
        let scale := Rmax (Rabs e) (Rabs prev) in
        if Rlt_dec scale (tol * tol) then Value e
        else if Rlt_dec diff (tol * scale) then Value e
        else next
      else next
  end.

(** Integration.h:167-211, [simpsonIntegrate2D]. *)
Definition simpson2d (f : R -> R -> R) (a1 b1 a2 b2 tol : R) (n1 n2 max_iter : nat)
  : quadrature :=
  if Rlt_dec tol 0 then Bad_tolerance
  else simpson_loop f a1 b1 a2 b2 tol n1 n2 max_iter 0 0.
