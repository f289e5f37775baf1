(** Rounding of a number to the nearest single-precision number; GeometryMesh.cxx:275-279. *)
From Coq Require Import Reals ZArith Lia Lra.
From Flocq Require Import Core.
Open Scope R_scope.

(** [(float) x] of a [double], GeometryMesh.cxx:275-279: to nearest, ties to even. *)
Definition to_float (x : R) : R := round radix2 (FLT_exp (-149) 24) ZnearestE x.

Lemma bp23 : bpow radix2 (-23) = / 8388608. Proof. cbn. lra. Qed.
Lemma float_near x n : 1 <= x < 2 -> Rabs (x * 8388608 - IZR n) < / 2 -> to_float x = IZR n / 8388608.
Proof.
  intros [L H] N. unfold to_float, round, F2R, scaled_mantissa, cexp.
  assert (M : mag radix2 x = 1%Z :> Z) by (apply mag_unique; rewrite Rabs_right by lra; cbn; lra).
  rewrite M. replace (FLT_exp (-149) 24 1) with (-23)%Z by reflexivity. cbn [Fnum Fexp].
  replace (bpow radix2 (- -23)) with 8388608 by (cbn; lra).
  rewrite (Znearest_imp _ _ n N). rewrite bp23. reflexivity.
Qed.
Lemma float_opp x : to_float (- x) = - to_float x. Proof. apply round_NE_opp. Qed.
Lemma float_0 : to_float 0 = 0. Proof. apply round_0. apply valid_rnd_N. Qed.
Lemma float_1 : to_float 1 = 1.
Proof. rewrite (float_near 1 8388608); [lra|lra|]. rewrite Rabs_right; lra. Qed.
