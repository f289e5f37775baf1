(** Proofs about density distributions. *)
From Coquelicot Require Import Coquelicot.
From Coq Require Import Reals List Bool Lra.
From Verif Require Import VectorModel PolyModel PolyProofs DensityModel QuatProofs.
Import ListNotations.
Open Scope R_scope.

(** The point reached after [s] along the ray. *)
Definition ray (xi dir : vec) (s : R) : vec := mkv (vx xi + s * vx dir) (vy xi + s * vy dir) (vz xi + s * vz dir).

Lemma ray_add xi dir s : vadd xi (vscale s dir) = ray xi dir s.
Proof. reflexivity. Qed.
Lemma ray_zero xi dir : ray xi dir 0 = xi.
Proof. destruct xi. unfold ray. cbn. f_equal; ring. Qed.

Lemma cart_ray a xi dir s : cart_x a (ray xi dir s) = cart_x a xi + s * cart_dx a dir.
Proof. unfold cart_x, cart_dx, vdot, ray, vsub. cbn. ring. Qed.

(** Exponentials need a non-zero slope. *)
Definition has_anti (d : dist1) : Prop := match d with Exponential1 s _ _ => s <> 0 | _ => True end.

Definition anti_fun (d : dist1) (x : R) : R :=
  match d with
  | Constant1 v => x * v
  | Polynomial1 p => evaluate (antiderivative p 0) x
  | Exponential1 s _ _ => dist_eval d x / s
  end.

Lemma anti_some d x : has_anti d -> dist_anti d x = Some (anti_fun d x).
Proof. destruct d; cbn; auto. intros H. unfold quotient. destruct (Req_EM_T sigma 0); tauto. Qed.
Lemma with_anti_some d k : has_anti d -> with_anti d k = k (anti_fun d).
Proof. destruct d; cbn; auto. intros H. destruct (Req_EM_T sigma 0); tauto. Qed.

Lemma dist_deriv_ok d x : is_derive (dist_eval d) x (dist_deriv d x).
Proof.
  destruct d; cbn.
  - apply @is_derive_const.
  - apply derivative_ok.
  - change (is_derive (fun y => amplitude * exp (sigma * (y - x0))) x (amplitude * exp (sigma * (x - x0)) * sigma)). auto_derive; auto. unfold Rminus. ring.
Qed.
Lemma dist_anti_ok d x : has_anti d -> is_derive (anti_fun d) x (dist_eval d x).
Proof.
  destruct d; cbn; intros H.
  - change (is_derive (fun y => y * val) x val). auto_derive; auto. ring.
  - apply antiderivative_ok.
  - change (is_derive (fun y => amplitude * exp (sigma * (y - x0)) / sigma) x (amplitude * exp (sigma * (x - x0)))). auto_derive; auto. unfold Rminus. field. auto.
Qed.
Lemma dist_cont d (x : R) : continuous (dist_eval d) x.
Proof. apply (ex_derive_continuous (V := R_NormedModule)). eexists. apply dist_deriv_ok. Qed.

Lemma affine_derive (x0 k s : R) : is_derive (fun t => x0 + t * k) s k.
Proof. auto_derive; auto. ring. Qed.

Lemma anti_integral d x0 k L : has_anti d -> k <> 0 ->
  is_RInt (fun s => dist_eval d (x0 + s * k)) 0 L ((anti_fun d (x0 + L * k) - anti_fun d x0) / k).
Proof.
  intros H K. assert (E : (anti_fun d (x0 + L * k) - anti_fun d x0) / k = minus (anti_fun d (x0 + L * k) / k) (anti_fun d (x0 + 0 * k) / k)).
  { replace (x0 + 0 * k) with x0 by ring. unfold minus, plus, opp. cbn. field. auto. }
  rewrite E. apply (is_RInt_derive (fun t => anti_fun d (x0 + t * k) / k)).
  - intros s _. evar_last.
    + apply is_derive_ext with (fun t => / k * anti_fun d (x0 + t * k)); [intros t; unfold Rdiv; apply Rmult_comm|].
      apply is_derive_scal. apply (is_derive_comp (anti_fun d) (fun t => x0 + t * k)); [apply dist_anti_ok; auto|apply affine_derive].
    + unfold scal; cbn; unfold mult; cbn. field. auto.
  - intros s _. apply (continuous_comp (fun s => x0 + s * k) (dist_eval d)).
    + apply (ex_derive_continuous (V := R_NormedModule)). eexists. apply affine_derive.
    + apply dist_cont.
Qed.

(** ** Cartesian axis *)
Lemma cart_integral_ok ax d xi dir L : has_anti d -> cart_dx ax dir <> 0 ->
  exists v, cart_integral ax d xi dir L = Some v /\ is_RInt (fun s => cart_evaluate ax d (ray xi dir s)) 0 L v.
Proof.
  intros H K. unfold cart_integral, anti_difference. rewrite !anti_some by auto. unfold quotient. destruct (Req_EM_T (cart_dx ax dir) 0); [tauto|].
  eexists. split; [reflexivity|]. rewrite ray_add, cart_ray. unfold cart_evaluate.
  apply is_RInt_ext with (fun s => dist_eval d (cart_x ax xi + s * cart_dx ax dir)).
  - intros s _. rewrite cart_ray. reflexivity.
  - apply anti_integral; auto.
Qed.

Lemma vscale_normalized a : vscale (vmag a) (vnormalized a) = a.
Proof.
  unfold vnormalized. destruct (Req_EM_T (vmag a) 0) as [E|E].
  - rewrite E. assert (Z := vmag_sq a). rewrite E in Z. destruct a as [x y z]. unfold vdot in Z. cbn in Z. unfold vscale. cbn.
    f_equal; nra.
  - unfold vscale, vdiv. destruct a as [x y z]. cbn. f_equal; field; auto.
Qed.

Lemma cart_integral_to_ok ax d xi xj : cart_integral_to ax d xi xj = cart_integral ax d xi (vnormalized (vsub xj xi)) (vmag (vsub xj xi)).
Proof.
  unfold cart_integral_to, cart_integral. rewrite vscale_normalized. replace (vadd xi (vsub xj xi)) with xj; [reflexivity|].
  destruct xi, xj. unfold vadd, vsub. cbn. f_equal; ring.
Qed.

Lemma cart_derivative_ok ax d xi dir : is_derive (fun s => cart_evaluate ax d (ray xi dir s)) 0 (cart_derivative ax d xi dir).
Proof.
  apply is_derive_ext with (fun s => dist_eval d (cart_x ax xi + s * cart_dx ax dir)).
  - intros s. unfold cart_evaluate. rewrite cart_ray. reflexivity.
  - evar_last.
    + apply (is_derive_comp (dist_eval d) (fun t => cart_x ax xi + t * cart_dx ax dir)); [apply dist_deriv_ok|apply affine_derive].
    + unfold scal; cbn; unfold mult; cbn. unfold cart_derivative. rewrite Rmult_0_l, Rplus_0_r. ring.
Qed.

Lemma cart_antiderivative_ok ax d xi dir : has_anti d -> cart_dx ax dir <> 0 ->
  exists f, (forall s, cart_antiderivative ax d (ray xi dir s) dir = Some (f s)) /\ forall s, is_derive f s (cart_evaluate ax d (ray xi dir s)).
Proof.
  intros H K. exists (fun s => (anti_fun d (cart_x ax xi + s * cart_dx ax dir) - anti_fun d 0) / cart_dx ax dir). split.
  - intros s. unfold cart_antiderivative, anti_difference. rewrite !anti_some by auto. unfold quotient. destruct (Req_EM_T (cart_dx ax dir) 0); [tauto|].
    rewrite cart_ray. reflexivity.
  - intros s. unfold cart_evaluate. rewrite cart_ray. evar_last.
    + apply is_derive_ext with (fun t => / cart_dx ax dir * (anti_fun d (cart_x ax xi + t * cart_dx ax dir) - anti_fun d 0)); [intros t; unfold Rdiv; apply Rmult_comm|].
      apply is_derive_scal. apply @is_derive_minus.
      * apply (is_derive_comp (anti_fun d) (fun t => cart_x ax xi + t * cart_dx ax dir)); [apply dist_anti_ok; auto|apply affine_derive].
      * apply @is_derive_const.
    + unfold scal, minus, plus, opp, zero; cbn; unfold mult; cbn. field. auto.
Qed.

(** ** Searches *)

(** [g]: the integral up to a length; [res] answers the question for which length it is
    [I]: -1 when there is none up to [mx], and else a length in range. *)
Definition answers (g : R -> R) (I mx res : R) : Prop :=
  (res = -1 /\ forall s, 0 <= s <= mx -> g s <> I) \/
  (0 <= res <= mx /\ exists s, 0 <= s <= mx /\ g s = I).

Lemma between_affine a k mx x : k <> 0 -> 0 <= mx -> between a (a + mx * k) x -> 0 <= (x - a) / k <= mx.
Proof.
  intros K M. unfold between, Rmin, Rmax. intros B.
  assert (Q : (x - a) / k * k = x - a) by (field; auto). set (q := (x - a) / k) in *.
  destruct (Rle_dec a (a + mx * k)) as [L|L]; destruct (Rtotal_order k 0) as [T|[T|T]]; try tauto; nra.
Qed.

Lemma mono_search (g dg : R -> R) (F dF : R -> R) a k I mx :
  k <> 0 -> 0 <= mx -> 0 <= I -> g 0 = 0 ->
  (forall s, 0 <= s <= mx -> is_derive g s (dg s)) -> (forall s, 0 <= s <= mx -> 0 < dg s) ->
  (forall s, F (a + s * k) = (g s - I) * k) -> (forall s, dF (a + s * k) = dg s) ->
  exists res, cart_search F dF a (a + mx * k) k = Some res /\ answers g I mx res.
Proof.
  intros K M I0 G0 DG POS HF HDF.
  assert (BACK : forall x, x = a + (x - a) / k * k) by (intros; field; auto).
  assert (MONO : forall s t, 0 <= s -> s <= t -> t <= mx -> g s <= g t).
  { intros s t S0 ST TM. destruct (MVT_gen g s t dg) as [c [C1 C2]].
    - intros x X. rewrite Rmin_left, Rmax_right in X by lra. apply DG. lra.
    - intros x X. rewrite Rmin_left, Rmax_right in X by lra. apply continuity_pt_filterlim. apply (ex_derive_continuous (V := R_NormedModule)). eexists. apply DG. lra.
    - rewrite Rmin_left, Rmax_right in C1 by lra. assert (0 < dg c) by (apply POS; lra). nra. }
  assert (FA : F a = - I * k) by (replace a with (a + 0 * k) at 1 by ring; rewrite HF, G0; ring).
  assert (FB : F (a + mx * k) = (g mx - I) * k) by apply HF.
  assert (GM : 0 <= g mx) by (rewrite <- G0; apply MONO; lra).
  assert (KK : 0 < k * k) by nra.
  unfold cart_search. destruct (Rlt_dec (g mx) I) as [LT|GE].
  - rewrite newton_throws by (rewrite FA, FB; replace (- I * k * ((g mx - I) * k)) with (I * (I - g mx) * (k * k)) by ring; apply Rmult_lt_0_compat; [apply Rmult_lt_0_compat; lra|auto]). exists (-1). split; auto. left. split; auto.
    intros s S E. assert (g s <= g mx) by (apply MONO; lra). lra.
  - assert (SG : F a * F (a + mx * k) <= 0).
    { rewrite FA, FB. replace (- I * k * ((g mx - I) * k)) with (- (I * (g mx - I) * (k * k))) by ring. assert (0 <= I * (g mx - I)) by (apply Rmult_le_pos; lra). nra. }
    assert (BI : between a (a + mx * k) ((a + (a + mx * k)) / 2)).
    { replace ((a + (a + mx * k)) / 2) with (a + / 2 * (a + mx * k - a)) by field. apply between_mid. }
    destruct (newton_number F dF (1 / 10 ^ 6) a (a + mx * k) ((a + (a + mx * k)) / 2) 101 SG BI) as [v [xl [xh [pts E]]]].
    + intros x B. apply between_affine in B; auto. rewrite (BACK x), HDF. specialize (POS _ B). lra.
    + rewrite E. unfold quotient. destruct (Req_EM_T k 0); [tauto|]. eexists. split; [reflexivity|]. right.
      pose proof (newton_ok F dF (1 / 10 ^ 6) a (a + mx * k) ((a + (a + mx * k)) / 2) 101 SG BI) as G. rewrite E in G. destruct G as [BV _].
      split; [apply between_affine; auto|].
      destruct (Req_EM_T (g mx) I) as [Q|Q]; [exists mx; split; auto; lra|].
      destruct (Req_EM_T I 0) as [Z|Z]; [exists 0; split; [lra|rewrite G0; auto]|].
      destruct (Ranalysis5.IVT_interv (fun s => g s - I) 0 mx) as [z [Z1 Z2]].
      * intros x X. apply continuity_pt_minus; [|apply continuity_pt_const; intros ? ?; reflexivity].
        apply continuity_pt_filterlim. apply (ex_derive_continuous (V := R_NormedModule)). eexists. apply DG. auto.
      * destruct (Req_EM_T mx 0) as [M0|M0]; [|lra]. subst mx. rewrite G0 in *. lra.
      * rewrite G0. lra.
      * lra.
      * exists z. split; auto. lra.
Qed.

(** The integral of the density plus a constant, up to a length. *)
Definition total (dens : R -> R) (c : R) (L : R) : R := RInt dens 0 L + c * L.

Lemma total_derive dens c s : (forall x, continuous dens x) -> is_derive (total dens c) s (dens s + c).
Proof.
  intros CT. unfold total. evar_last.
  - apply @is_derive_plus.
    + apply (is_derive_RInt dens (fun L => RInt dens 0 L) 0).
      * apply filter_forall. intros x. apply (@RInt_correct R_CompleteNormedModule). apply (ex_RInt_continuous (V := R_CompleteNormedModule)). intros; apply CT.
      * apply CT.
    + apply is_derive_scal. apply @is_derive_id.
  - unfold plus, one, mult; cbn. ring.
Qed.

Lemma cart_dens_cont ax d xi dir (x : R) : continuous (fun s => cart_evaluate ax d (ray xi dir s)) x.
Proof.
  apply continuous_ext with (fun s => dist_eval d (cart_x ax xi + s * cart_dx ax dir)).
  - intros s. unfold cart_evaluate. rewrite cart_ray. reflexivity.
  - apply (continuous_comp (fun s => cart_x ax xi + s * cart_dx ax dir) (dist_eval d)).
    + apply (ex_derive_continuous (V := R_NormedModule)). eexists. apply affine_derive.
    + apply dist_cont.
Qed.

Lemma cart_total ax d xi dir L : has_anti d -> cart_dx ax dir <> 0 ->
  anti_fun d (cart_x ax xi + L * cart_dx ax dir) - anti_fun d (cart_x ax xi) = RInt (fun s => cart_evaluate ax d (ray xi dir s)) 0 L * cart_dx ax dir.
Proof.
  intros H K. erewrite (is_RInt_unique _ 0 L).
  2:{ eapply is_RInt_ext; [|apply (anti_integral d (cart_x ax xi) (cart_dx ax dir) L H K)]. intros s _. unfold cart_evaluate. rewrite cart_ray. reflexivity. }
  field. auto.
Qed.

Lemma cart_inverse_ok ax d xi dir I mx : has_anti d -> cart_dx ax dir <> 0 -> 0 <= mx -> 0 <= I ->
  (forall s, 0 <= s <= mx -> 0 < cart_evaluate ax d (ray xi dir s)) ->
  exists res, cart_inverse ax d xi dir I mx = Some res /\ answers (fun L => RInt (fun s => cart_evaluate ax d (ray xi dir s)) 0 L) I mx res.
Proof.
  intros H K M I0 POS. unfold cart_inverse. rewrite with_anti_some by auto. rewrite ray_add, cart_ray.
  set (dens := fun s => cart_evaluate ax d (ray xi dir s)) in *.
  apply (mono_search (fun L => RInt dens 0 L) dens).
  - auto.
  - auto.
  - auto.
  - rewrite RInt_point; reflexivity.
  - intros s _. evar_last; [eapply is_derive_ext; [|apply (total_derive dens 0 s)]|].
    + intros t. unfold total. cbn. ring.
    + intros x. apply cart_dens_cont.
    + cbn. ring.
  - auto.
  - intros s. rewrite cart_total by auto. unfold dens. ring.
  - intros s. unfold dens, cart_evaluate. rewrite cart_ray. reflexivity.
Qed.

(** With a constant the code is right only when the ray starts where the coordinate
    of the axis is zero. *)
Lemma cart_inverse_constant_ok ax d xi dir c I mx : has_anti d -> cart_dx ax dir <> 0 -> 0 <= mx -> 0 <= I -> cart_x ax xi = 0 ->
  (forall s, 0 <= s <= mx -> 0 < cart_evaluate ax d (ray xi dir s) + c) ->
  exists res, cart_inverse_constant ax d xi dir c I mx = Some res /\ answers (total (fun s => cart_evaluate ax d (ray xi dir s)) c) I mx res.
Proof.
  intros H K M I0 X0 POS. unfold cart_inverse_constant. rewrite with_anti_some by auto. rewrite ray_add, cart_ray.
  set (dens := fun s => cart_evaluate ax d (ray xi dir s)) in *.
  apply (mono_search (total dens c) (fun s => dens s + c)).
  - auto.
  - auto.
  - auto.
  - unfold total. rewrite RInt_point. unfold zero; cbn. ring.
  - intros s _. apply total_derive. intros x. apply cart_dens_cont.
  - auto.
  - intros s. rewrite cart_total by auto. unfold total, dens. rewrite X0. ring.
  - intros s. unfold dens, cart_evaluate. rewrite cart_ray. reflexivity.
Qed.

(** ** Constant density *)
Lemma const_integral_ok v xi dir L : is_RInt (fun s => const_evaluate v (ray xi dir s)) 0 L (const_integral v xi dir L).
Proof. unfold const_integral, const_evaluate. evar_last; [apply @is_RInt_const|]. unfold scal; cbn; unfold mult; cbn. ring. Qed.

Lemma const_inverse_ok v xi dir I mx : 0 < v -> 0 <= mx -> 0 <= I ->
  exists res, const_inverse v xi dir I mx = Some res /\
    ((res = -1 /\ mx * v < I) \/ (0 <= res <= mx /\ const_integral v xi dir res = I)).
Proof.
  intros V M I0. unfold const_inverse, quotient. destruct (Req_EM_T v 0); [lra|]. eexists. split; [reflexivity|].
  assert (E : I / v * v = I) by (field; auto). destruct (Rlt_dec mx (I / v)) as [L|L].
  - left. split; auto. nra.
  - right. unfold const_integral. split; [|lra]. split; [apply Rmult_le_pos; [auto|left; apply Rinv_0_lt_compat; auto]|lra].
Qed.

Lemma const_inverse_constant_ok v xi dir c I mx : 0 < v + c -> 0 <= mx -> 0 <= I ->
  exists res, const_inverse_constant v xi dir c I mx = Some res /\
    ((res = -1 /\ mx * (v + c) < I) \/ (0 <= res <= mx /\ const_integral v xi dir res + c * res = I)).
Proof.
  intros V M I0. unfold const_inverse_constant, quotient. destruct (Req_EM_T (v + c) 0); [lra|]. eexists. split; [reflexivity|].
  assert (E : I / (v + c) * (v + c) = I) by (field; auto). destruct (Rlt_dec mx (I / (v + c))) as [L|L].
  - left. split; auto. nra.
  - right. unfold const_integral. split; [|lra]. split; [apply Rmult_le_pos; [auto|left; apply Rinv_0_lt_compat; auto]|lra].
Qed.

(** ** Radial axis *)
Section Radial.
Variable romberg : (R -> R) -> R -> R -> R.

Lemma rad_x_cont ax xi dir (s : R) : continuous (fun s => rad_x ax (ray xi dir s)) s.
Proof.
  unfold rad_x, vmag, ray, vsub. cbn. apply (continuous_comp _ sqrt).
  - apply (ex_derive_continuous (V := R_NormedModule)). auto_derive. auto.
  - apply continuous_sqrt.
Qed.
Lemma rad_dens_cont ax d xi dir (s : R) : continuous (fun s => rad_evaluate ax d (ray xi dir s)) s.
Proof. unfold rad_evaluate. apply (continuous_comp (fun s => rad_x ax (ray xi dir s)) (dist_eval d)); [apply rad_x_cont|apply dist_cont]. Qed.

(** The derivative of the density along a ray, away from the centre. *)
Lemma rad_derivative_ok ax d xi dir : rad_x ax xi <> 0 -> is_derive (fun s => rad_evaluate ax d (ray xi dir s)) 0 (rad_derivative ax d xi dir).
Proof.
  intros N. unfold rad_evaluate, rad_derivative.
  assert (DX : is_derive (fun s => rad_x ax (ray xi dir s)) 0 (rad_dx ax xi dir)).
  { unfold rad_x, rad_dx in *. unfold vnormalized. destruct (Req_EM_T (vmag (vsub xi (ax_p0 ax))) 0); [tauto|].
    assert (P : 0 < vmag (vsub xi (ax_p0 ax))) by (pose proof (vmag_nonneg (vsub xi (ax_p0 ax))); lra).
    assert (SQ := vmag_sq (vsub xi (ax_p0 ax))).
    unfold vmag at 1. evar_last.
    - apply (is_derive_comp sqrt (fun s => vx (vsub (ray xi dir s) (ax_p0 ax)) * vx (vsub (ray xi dir s) (ax_p0 ax)) + vy (vsub (ray xi dir s) (ax_p0 ax)) * vy (vsub (ray xi dir s) (ax_p0 ax)) + vz (vsub (ray xi dir s) (ax_p0 ax)) * vz (vsub (ray xi dir s) (ax_p0 ax)))).
      + apply is_derive_Reals, derivable_pt_lim_sqrt. rewrite ray_zero. unfold vdot in SQ. nra.
      + unfold ray, vsub. cbn. auto_derive; [auto|reflexivity].
    - rewrite ray_zero. change (sqrt (vx (vsub xi (ax_p0 ax)) * vx (vsub xi (ax_p0 ax)) + vy (vsub xi (ax_p0 ax)) * vy (vsub xi (ax_p0 ax)) + vz (vsub xi (ax_p0 ax)) * vz (vsub xi (ax_p0 ax)))) with (vmag (vsub xi (ax_p0 ax))).
      set (m := vmag (vsub xi (ax_p0 ax))) in *. clearbody m. unfold scal; cbn; unfold mult; cbn. unfold vdot, vdiv, vsub. cbn. field. auto. }
  evar_last; [apply (is_derive_comp (dist_eval d) (fun s => rad_x ax (ray xi dir s)))|].
  - apply dist_deriv_ok.
  - exact DX.
  - cbn beta. rewrite ray_zero. unfold scal; cbn; unfold mult; cbn. ring.
Qed.

Lemma rad_integral_to_ok ax d xi xj : rad_integral_to romberg ax d xi xj = rad_integral romberg ax d xi (vnormalized (vsub xj xi)) (vmag (vsub xj xi)).
Proof. reflexivity. Qed.

Section Exact.
Variable ax : axis.
Variable d : dist1.
Variable xi dir : vec.
Variable mx : R.
(** The numerical integrals up to [mx] are exact. *)
Hypothesis EXACT : forall L, 0 <= L <= mx ->
  is_RInt (fun s => rad_evaluate ax d (ray xi dir s)) 0 L (romberg (fun s => rad_evaluate ax d (ray xi dir s)) 0 L).

Lemma rad_search_ok c I : 0 <= mx -> 0 <= I -> (forall s, 0 <= s <= mx -> 0 < rad_evaluate ax d (ray xi dir s) + c) ->
  exists res, rad_inverse_constant romberg ax d xi dir c I mx = Some res /\ answers (total (fun s => rad_evaluate ax d (ray xi dir s)) c) I mx res.
Proof.
  intros M I0 POS. unfold rad_inverse_constant, rad_search, rad_integral. set (dens := fun s => rad_evaluate ax d (ray xi dir s)) in *.
  change (fun x : R => rad_evaluate ax d (vadd xi (vscale x dir))) with dens.
  set (F := fun x => romberg dens 0 x + c * x - I). set (dF := fun x => rad_evaluate ax d (vadd xi (vscale x dir)) + c).
  set (g := total dens c).
  assert (FG : forall x, 0 <= x <= mx -> F x = g x - I).
  { intros x X. unfold F, g, total. rewrite (is_RInt_unique _ _ _ _ (EXACT x X)). reflexivity. }
  assert (DG : forall s, is_derive g s (dens s + c)) by (intros s; apply total_derive; intros x; apply rad_dens_cont).
  assert (G0 : g 0 = 0) by (unfold g, total; rewrite RInt_point; unfold zero; cbn; ring).
  assert (MONO : forall s t, 0 <= s -> s <= t -> t <= mx -> g s <= g t).
  { intros s t S0 ST TM. destruct (MVT_gen g s t (fun s => dens s + c)) as [q [C1 C2]].
    - intros x X. apply DG.
    - intros x X. apply continuity_pt_filterlim. apply (ex_derive_continuous (V := R_NormedModule)). eexists. apply DG.
    - rewrite Rmin_left, Rmax_right in C1 by lra. assert (0 < dens q + c) by (apply POS; lra). cbn beta in C2. nra. }
  assert (GM : 0 <= g mx) by (rewrite <- G0; apply MONO; lra).
  assert (F0 : F 0 = - I) by (rewrite FG, G0 by lra; ring). assert (FM : F mx = g mx - I) by (apply FG; lra).
  assert (BT : forall x, between 0 mx x -> 0 <= x <= mx) by (intros x B; unfold between in B; rewrite Rmin_left, Rmax_right in B by lra; auto).
  destruct (Rlt_dec (g mx) I) as [LT|GE].
  - rewrite newton_throws by (rewrite F0, FM; nra). exists (-1). split; auto. left. split; auto.
    intros s S E. assert (g s <= g mx) by (apply MONO; lra). lra.
  - assert (SG : F 0 * F mx <= 0) by (rewrite F0, FM; nra).
    assert (BI : between 0 mx (mx / 2)) by (unfold between; rewrite Rmin_left, Rmax_right by lra; lra).
    destruct (newton_number F dF (1 / 10 ^ 6) 0 mx (mx / 2) 101 SG BI) as [v [xl [xh [pts E]]]].
    + intros x B. specialize (POS x (BT x B)). change (dens x + c <> 0). change (0 < dens x + c) in POS. lra.
    + rewrite E. eexists. split; [reflexivity|]. right.
      pose proof (newton_ok F dF (1 / 10 ^ 6) 0 mx (mx / 2) 101 SG BI) as G. rewrite E in G. destruct G as [BV _].
      split; [apply BT; auto|].
      destruct (Req_EM_T (g mx) I) as [Q|Q]; [exists mx; split; auto; lra|].
      destruct (Req_EM_T I 0) as [Z|Z]; [exists 0; split; [lra|rewrite G0; auto]|].
      destruct (Ranalysis5.IVT_interv (fun s => g s - I) 0 mx) as [z [Z1 Z2]].
      * intros x X. apply continuity_pt_minus; [|apply continuity_pt_const; intros ? ?; reflexivity].
        apply continuity_pt_filterlim. apply (ex_derive_continuous (V := R_NormedModule)). eexists. apply DG.
      * destruct (Req_EM_T mx 0) as [M0|M0]; [|lra]. exfalso. rewrite M0, G0 in *. lra.
      * rewrite G0. lra.
      * lra.
      * exists z. split; auto. lra.
Qed.

Lemma rad_inverse_ok I : 0 <= mx -> 0 <= I -> (forall s, 0 <= s <= mx -> 0 < rad_evaluate ax d (ray xi dir s)) ->
  exists res, rad_inverse romberg ax d xi dir I mx = Some res /\ answers (fun L => RInt (fun s => rad_evaluate ax d (ray xi dir s)) 0 L) I mx res.
Proof.
  intros M I0 POS. destruct (rad_search_ok 0 I M I0) as [res [R1 R2]]; [intros s S; specialize (POS s S); lra|].
  exists res. split.
  - rewrite <- R1. unfold rad_inverse, rad_inverse_constant. f_equal.
    + apply FunctionalExtensionality.functional_extensionality. intros x. ring.
    + apply FunctionalExtensionality.functional_extensionality. intros x. ring.
  - unfold answers, total in *. destruct R2 as [[A B]|[A [s [S1 S2]]]].
    + left. split; auto. intros s S E. apply (B s S). rewrite E. ring.
    + right. split; auto. exists s. split; auto. lra.
Qed.
End Exact.
End Radial.
