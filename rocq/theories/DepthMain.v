(** Depths and distances of whole detectors. *)
From Coquelicot Require Import Coquelicot.
From Coq Require Import Reals Lra Lia List Bool ZArith Permutation.
From Verif Require Import TraversalModel TraversalSpec TraversalProps VectorModel QuatModel PolyModel DensityModel DensityProofs DensityProps DepthModel DepthSpec DepthProofs.
Import ListNotations.
Open Scope R_scope.

(** ** Two points on the line *)
Lemma fwd_bounds a b z0 z1 (fwd := if Rlt_dec z0 z1 then true else false) off :
  ele a (Fin z0) -> ele (Fin z0) b -> ele a (Fin z1) -> ele (Fin z1) b -> z0 <> z1 ->
  off = (if fwd then - z0 else z0) ->
  ele (shift off fwd (if fwd then a else b)) (Fin 0) /\ ele (Fin (Rabs (z1 - z0))) (shift off fwd (if fwd then b else a)).
Proof.
  intros A0 B0 A1 B1 Hz ->. unfold fwd. destruct (Rlt_dec z0 z1).
  - rewrite Rabs_right by lra. split.
    + destruct a; cbn in *; auto. apply ele_fin in A0. apply ele_fin. lra.
    + destruct b; cbn in *; auto. apply ele_fin in B1. apply ele_fin. lra.
  - rewrite Rabs_left by lra. split.
    + destruct b; cbn in *; auto. apply ele_fin in B0. apply ele_fin. lra.
    + destruct a; cbn in *; auto. apply ele_fin in A1. apply ele_fin. lra.
Qed.

Lemma between_ok {S : Type} media (dens : Z -> vec -> R) l ss a b (val : S -> R) (good : S -> Prop) (w : Z -> R) (add : Z -> option R -> S -> S) g p0 p1 s0 :
  (forall h, lawful (l_direction l) (dens h) (media h)) -> sees l ss a b ->
  describes l ss (fun h q => dens h q * w h) g ->
  on l a b p0 -> on l a b p1 -> vmag (vsub p1 p0) <> 0 ->
  (forall h i s, good s -> good (add h (Some i) s) /\ val (add h (Some i) s) = val s + i * w h) ->
  good s0 -> val s0 = 0 ->
  let d := vsub p1 p0 in let dir := vnormalized d in let off := vdot (vsub (l_position l) p0) dir in let dist := vmag d in
  let fwd := negb (backward l dir) in
  exists s1, sector_loop (fun s cur e last => (match segment media p0 dir off dist fwd cur e last with None => s | Some i => add (hier cur) i s end, reached_end off dist fwd e)) s0 (l_hits l) (backward l dir) = Ok s1 /\
    good s1 /\ along g p0 p1 (val s1).
Proof.
  intros Hm Hs Hd (z0 & -> & A0 & B0) (z1 & -> & A1 & B1) Hn Hadd Hg0 Hv0 d dir off dist fwd.
  pose proof (proj1 Hs) as HD.
  assert (Hz : z0 <> z1).
  { intros ->. apply Hn. rewrite sub_point, mag_scale by auto. rewrite Rminus_eq_0. apply Rabs_R0. }
  destruct (normal_dirn z0 z1 (l_position l) (l_direction l) HD Hz) as [E1 E2].
  fold d in E1, E2. fold dist in E1. fold dir in E2.
  set (f := if Rlt_dec z0 z1 then true else false) in *.
  assert (Eb : backward l dir = negb f) by (rewrite E2; apply backward_ok; auto).
  assert (Ef : fwd = f) by (unfold fwd; rewrite Eb; apply negb_involutive).
  assert (Eo : off = (if f then - z0 else z0)) by (unfold off; rewrite E2; apply offset_ok; auto).
  destruct (oriented l ss a b _ g f z0 Hs Hd) as (segs & Hrun & Ht & Hp). rewrite <- E2 in Hrun, Ht, Hp.
  fold off in Hrun, Ht.
  destruct (fwd_bounds a b z0 z1 off A0 B0 A1 B1 Hz Eo) as [X1 X2]. fold f in X1, X2.
  assert (Hdist : 0 < dist) by (rewrite E1; apply Rabs_pos_lt; lra).
  eexists. split; [|].
  - apply Hrun with (step := fun s e => (match seg_integral media (point (l_position l) (l_direction l) z0) dir dist e with None => s | Some i => add (fst (fst e)) i s end, seg_end dist e)).
    intros st cur e last. rewrite (seg_integral_ok media _ _ dist off fwd cur e last), Ef. f_equal.
  - assert (Hx : elt (shift off f (if f then a else b)) (Fin dist)) by (apply ele_elt with (Fin 0); auto; apply elt_fin; auto).
    assert (Hi0 : is_RInt (fun s => g (point (point (l_position l) (l_direction l) z0) dir s)) 0 (pos (shift off f (if f then a else b))) (val s0)).
    { rewrite Hv0, (pos_le _ X1). apply @is_RInt_point. }
    rewrite <- E1 in X2.
    assert (Hh : heads (l_direction l) dir) by (rewrite E2; apply dirn_heads).
    destruct (run_between media dens (l_direction l) Hm _ dir dist Hh Hdist val good w add _ Hadd segs _ _ s0 Ht Hp Hx X2 Hg0 Hi0) as [G1 G2].
    split; [exact G1|].
    eapply to_along; [| |exact G2]; [|reflexivity].
    fold d. unfold dir, vnormalized. destruct (Req_EM_T (vmag d) 0) as [E|E]; [exfalso; apply Hn; exact E|].
    unfold dist, vscale, vdiv. apply vec_ext; cbn; field; auto.
Qed.

Lemma describes_one l ss dens g : describes l ss dens g -> describes l ss (fun h q => dens h q * 1) g.
Proof. intros H z h Ht. rewrite Rmult_1_r. apply H; auto. Qed.

Lemma along_zero g p q : vmag (vsub q p) = 0 -> along g p q 0.
Proof.
  intros H. unfold along. rewrite H. apply is_RInt_ext with (fun _ => 0).
  - intros x _. symmetry. apply Rmult_0_l.
  - evar_last; [apply @is_RInt_const|]. unfold scal; cbn; unfold mult; cbn. ring.
Qed.

Lemma column_ok media dens g l ss a b p0 p1 :
  (forall h, lawful (l_direction l) (dens h) (media h)) -> sees l ss a b -> describes l ss dens g ->
  on l a b p0 -> on l a b p1 ->
  exists I, column_depth media l p0 p1 = Ok (Some (100 * I)) /\ along g p0 p1 I.
Proof.
  intros Hm Hs Hd H0 H1. unfold column_depth. cbv zeta.
  destruct (Req_EM_T (vmag (vsub p1 p0)) 0) as [E|E].
  - exists 0. split; [rewrite Rmult_0_r; reflexivity|]. apply along_zero; auto.
  - destruct (between_ok media dens l ss a b (fun s => match s with Some x => x | None => 0 end) (fun s => s <> None) (fun _ => 1)
      (fun _ i s => add_opt s i) g p0 p1 (Some 0) Hm Hs (describes_one _ _ _ _ Hd) H0 H1 E) as (s1 & R1 & R2 & R3); auto; try discriminate.
    + intros h i [x|] Hx; [|congruence]. cbn. split; [discriminate|ring].
    + destruct s1 as [I|]; [|congruence]. exists I. split; [|exact R3].
      unfold column_cb. rewrite R1. cbn. f_equal. f_equal. ring.
Qed.

(** ** Line integrals *)
Lemma along_sym g p q I : along g p q I -> along g q p I.
Proof.
  unfold along. intros H.
  assert (Em : vmag (vsub p q) = vmag (vsub q p)) by (unfold vmag, vsub; cbn; f_equal; ring).
  apply is_RInt_swap in H. 
  apply is_RInt_ext with (f := fun y => opp (scal (-1) ((fun t => vmag (vsub q p) * g (point p (vsub q p) t)) (-1 * y + 1)))).
  - intros x _. change (- (-1 * (vmag (vsub q p) * g (point p (vsub q p) (-1 * x + 1)))) = vmag (vsub p q) * g (point q (vsub p q) x)).
    rewrite Em. replace (point p (vsub q p) (-1 * x + 1)) with (point q (vsub p q) x); [ring|]. unfold point, vadd, vscale, vsub. vsolve.
  - rewrite <- (opp_opp I). apply @is_RInt_opp.
    apply is_RInt_comp_lin with (f := fun t => vmag (vsub q p) * g (point p (vsub q p) t)) (u := -1) (v := 1).
    replace (-1 * 0 + 1) with 1 by ring. replace (-1 * 1 + 1) with 0 by ring. exact H.
Qed.

(** The part of the way up to the fraction [t]. *)
Lemma mag_mult k a : 0 <= k -> vmag (vscale k a) = k * vmag a.
Proof.
  intros H. rewrite !mag_dot. replace (vdot (vscale k a) (vscale k a)) with (k * k * vdot a a) by (unfold vdot, vscale; cbn; ring).
  rewrite sqrt_mult_alt by nra. rewrite sqrt_square; auto.
Qed.

Lemma along_part g p q t u I : 0 <= t -> t <= u ->
  is_RInt (fun x => vmag (vsub q p) * g (point p (vsub q p) x)) t u I <-> along g (point p (vsub q p) t) (point p (vsub q p) u) I.
Proof.
  intros Ht Hu. unfold along. set (d := vsub q p).
  assert (Es : vsub (point p d u) (point p d t) = vscale (u - t) d) by apply sub_point.
  rewrite Es, mag_mult by lra.
  assert (Ep : forall x, point (point p d t) (vscale (u - t) d) x = point p d ((u - t) * x + t)) by (intros x; unfold point, vadd, vscale; vsolve).
  split; intros H.
  - apply is_RInt_ext with (f := fun y => scal (u - t) ((fun x => vmag d * g (point p d x)) ((u - t) * y + t))).
    + intros x _. rewrite Ep. change ((u - t) * (vmag d * g (point p d ((u - t) * x + t))) = (u - t) * vmag d * g (point p d ((u - t) * x + t))). ring.
    + apply is_RInt_comp_lin with (f := fun x => vmag d * g (point p d x)) (u := u - t) (v := t).
      replace ((u - t) * 0 + t) with t by ring. replace ((u - t) * 1 + t) with u by ring. exact H.
  - destruct (Req_dec u t) as [->|Hne].
    + replace I with (zero : R_NormedModule); [apply is_RInt_point|].
      symmetry. eapply same_integral; [exact H|]. apply is_RInt_ext with (fun _ => 0).
      * intros x _. rewrite Rminus_eq_0. change (0 = 0 * vmag d * g (point (point p d t) (vscale 0 d) x)). ring.
      * evar_last; [apply @is_RInt_const|]. unfold scal; cbn; unfold mult; cbn. unfold zero; cbn. ring.
    + apply is_RInt_ext with (f := fun y => scal (/ (u - t)) ((fun x => (u - t) * vmag d * g (point (point p d t) (vscale (u - t) d) x)) (/ (u - t) * y + - t / (u - t)))).
      * intros x _. rewrite Ep. change (/ (u - t) * ((u - t) * vmag d * g (point p d ((u - t) * (/ (u - t) * x + - t / (u - t)) + t))) = vmag d * g (point p d x)).
        replace ((u - t) * (/ (u - t) * x + - t / (u - t)) + t) with x by (field; lra). field. lra.
      * apply is_RInt_comp_lin with (f := fun x => (u - t) * vmag d * g (point (point p d t) (vscale (u - t) d) x)) (u := / (u - t)) (v := - t / (u - t)).
        replace (/ (u - t) * t + - t / (u - t)) with 0 by (field; lra). replace (/ (u - t) * u + - t / (u - t)) with 1 by (field; lra). exact H.
Qed.

Lemma point_all p q : point p (vsub q p) 1 = q.
Proof. unfold point, vadd, vscale, vsub. vsolve. Qed.

Lemma along_split g p q t I J : 0 <= t <= 1 -> let m := point p (vsub q p) t in
  along g p m I -> along g m q J -> along g p q (I + J).
Proof.
  intros Ht m HI HJ. unfold along. apply (is_RInt_Chasles (fun x => vmag (vsub q p) * g (point p (vsub q p) x)) 0 t 1).
  - apply along_part; try lra. rewrite point_0. exact HI.
  - apply along_part; try lra. rewrite point_all. exact HJ.
Qed.

Lemma along_nonneg g p q I : (forall x, 0 <= g x) -> along g p q I -> 0 <= I.
Proof.
  intros Hg H. unfold along in H.
  apply (is_RInt_ge_0 (fun t => vmag (vsub q p) * g (point p (vsub q p) t)) 0 1); auto; try lra.
  intros x _. apply Rmult_le_pos; auto. apply sqrt_pos.
Qed.

Lemma on_between l a b p q t : on l a b p -> on l a b q -> 0 <= t <= 1 -> on l a b (point p (vsub q p) t).
Proof.
  intros (z0 & -> & A0 & B0) (z1 & -> & A1 & B1) Ht. exists (z0 + t * (z1 - z0)). split; [|split].
  - rewrite sub_point. unfold point, vadd, vscale. vsolve.
  - destruct a as [|a|]; auto; try discriminate. apply ele_fin in A0, A1. apply ele_fin. nra.
  - destruct b as [|b|]; auto; try discriminate. apply ele_fin in B0, B1. apply ele_fin. nra.
Qed.

(** ** Searches *)
Lemma from_ok media (dens : Z -> vec -> R) l ss a b (w : Z -> R) ask eps goal g p0 dir :
  (forall h, lawful (l_direction l) (dens h) (media h)) -> sees l ss a b ->
  describes l ss (fun h q => dens h q * w h) g ->
  on l a b p0 -> heads (l_direction l) dir -> 0 < goal ->
  (forall h p target len, 0 < target -> ele (Fin 0) len -> finds eps (fun s => dens h (point p dir s) * w h) target len (ask h p target len)) ->
  let off := vdot (vsub (l_position l) p0) dir in
  exists t res, sector_loop (distance_cb media p0 dir off (negb (backward l dir)) ask w goal) (Some 0, Fin 0) (l_hits l) (backward l dir) = Ok (t, res) /\
   ((exists L I, res = Fin L /\ 0 <= L /\ on l a b (point p0 dir L) /\ along g p0 (point p0 dir L) I /\ Rabs (I - goal) <= eps) \/
    ((forall L I, 0 <= L -> on l a b (point p0 dir L) -> along g p0 (point p0 dir L) I -> I < goal) /\ (a = MInf -> b = PInf -> res = PInf))).
Proof.
  intros Hm Hs Hd (z0 & -> & A0 & B0) Hh Hgoal Hask off.
  pose proof (proj1 Hs) as HD.
  assert (Hf : exists f, dir = dirn f (l_direction l)) by (destruct Hh as [->| ->]; [exists true|exists false]; reflexivity).
  destruct Hf as [f E2].
  assert (Eb : backward l dir = negb f) by (rewrite E2; apply backward_ok; auto).
  assert (Eo : off = (if f then - z0 else z0)) by (unfold off; rewrite E2; apply offset_ok; auto).
  destruct (oriented l ss a b _ g f z0 Hs Hd) as (segs & Hrun & Ht & Hp). rewrite <- E2 in Hrun, Ht, Hp.
  fold off in Hrun, Ht.
  set (p0 := point (l_position l) (l_direction l) z0) in *.
  set (x0 := shift off f (if f then a else b)) in *. set (xe := shift off f (if f then b else a)) in *.
  assert (X0 : ele x0 (Fin 0)).
  { unfold x0. rewrite Eo. destruct f.
    - destruct a; cbn in *; auto. apply ele_fin in A0. apply ele_fin. lra.
    - destruct b; cbn in *; auto. apply ele_fin in B0. apply ele_fin. lra. }
  assert (Hdd : vdot dir dir = 1) by (rewrite E2; apply dirn_unit; auto).
  assert (Hpt : forall L, point p0 dir L = point (l_position l) (l_direction l) (if f then z0 + L else z0 - L)).
  { intros L. unfold p0. rewrite E2. destruct f; cbn [dirn]; [|rewrite point_neg]; rewrite point_point; f_equal. }
  assert (Hon : forall L, 0 <= L -> (on l a b (point p0 dir L) <-> ele (Fin L) xe)).
  { intros L HL. rewrite Hpt. unfold xe. rewrite Eo. split.
    - intros (z & Ez & Az & Bz).
      assert (z = if f then z0 + L else z0 - L).
      { assert (X : vsub (point (l_position l) (l_direction l) (if f then z0 + L else z0 - L)) (point (l_position l) (l_direction l) z) = vscale 0 (l_direction l))
          by (rewrite Ez; rewrite sub_point; f_equal; ring).
        rewrite sub_point in X. apply (f_equal (fun v => vdot v (l_direction l))) in X. rewrite !dot_scale, HD in X. lra. }
      subst z. destruct f.
      + destruct b; cbn in *; auto. apply ele_fin in Bz. apply ele_fin. lra.
      + destruct a; cbn in *; auto. apply ele_fin in Az. apply ele_fin. lra.
    - intros H. eexists. split; [reflexivity|]. destruct f.
      + split.
        * destruct a; cbn in *; auto. apply ele_fin in A0. apply ele_fin. lra.
        * destruct b; cbn in *; auto. apply ele_fin in H. apply ele_fin. lra.
      + split.
        * destruct a; cbn in *; auto. apply ele_fin in H. apply ele_fin. lra.
        * destruct b; cbn in *; auto. apply ele_fin in B0. apply ele_fin. lra. }
  assert (Hsub : forall L, vsub (point p0 dir L) p0 = vscale L dir) by (intros L; unfold point, vadd, vscale, vsub; vsolve).
  assert (Hmag : forall L, 0 <= L -> vmag (vsub (point p0 dir L) p0) = L).
  { intros L HL. rewrite Hsub, mag_scale by auto. apply Rabs_right. lra. }
  eexists. eexists. split.
  - rewrite (Hrun _ _ (seg_distance media p0 dir ask w goal)).
    + rewrite (surjective_pairing (run _ _ _)). reflexivity.
    + intros st cur e last. replace (negb (backward l dir)) with f by (rewrite Eb; symmetry; apply negb_involutive).
      apply seg_distance_ok.
  - assert (Hne : x0 <> PInf) by (intros E; rewrite E in X0; discriminate X0).
    assert (Hd0 : elt (Fin 0) x0 -> Fin 0 = x0) by (intros H; exfalso; eapply not_both; eauto).
    assert (Hi0 : is_RInt (fun s => g (point p0 dir s)) 0 (pos x0) 0) by (rewrite (pos_le _ X0); apply @is_RInt_point).
    destruct (run_from media dens (l_direction l) Hm p0 dir Hh ask w eps Hask goal _ segs x0 xe 0 (Fin 0) Ht Hp Hne Hd0 Hi0 Hgoal)
      as [(L & I & R1 & R2 & R3 & R4 & R5)|(R1 & R2)].
    + left. exists L, I. split; [exact R1|]. split; [exact R2|]. split; [apply Hon; auto|]. split; [|exact R5].
      eapply to_along; [apply Hsub|apply Hmag; auto|exact R4].
    + right. split.
      * intros L I HL HLo HI. destruct (Req_dec L 0) as [->|Hne0].
        -- assert (I = 0); [|lra]. eapply along_unique; [exact HI|]. apply along_zero. rewrite Hmag; lra.
        -- apply (R1 L I).
           ++ rewrite (pos_le _ X0). auto.
           ++ apply Hon; auto.
           ++ eapply from_along; [exact Hne0|apply Hsub|apply Hmag; auto|exact HI].
      * intros Ea Ebb. assert (xe = PInf) as Exe by (unfold xe; rewrite Ea, Ebb; destruct f; reflexivity).
        rewrite Exe in R2. apply R2. reflexivity.
Qed.

(** ** Several targets *)
Lemma weighted_add f st s i :
  length f = length s -> length st = length s ->
  weighted (map (fun x => fst x + (i * 100) * snd x) (combine st f)) s = weighted st s + i * 100 * weighted f s /\
  length (map (fun x => fst x + (i * 100) * snd x) (combine st f)) = length s.
Proof.
  revert f st. induction s as [|y s IH]; intros [|x f] [|v st] H1 H2; try discriminate; cbn; [split; [ring|reflexivity]|].
  destruct (IH f st) as [E1 E2]; [injection H1; auto|injection H2; auto|]. rewrite E1, E2. split; [ring|reflexivity].
Qed.

Lemma weighted_zeros s : weighted (map (fun _ => 0) s) s = 0.
Proof. induction s as [|y s IH]; cbn; auto. rewrite IH. ring. Qed.

Section Targets.
Variable media : Z -> medium.
Variable dens : Z -> vec -> R.
Variables (l : line) (ss : list (sector ext)) (a b : ext).
Variable fractions : Z -> list R.
Variable sigma : list R.
Hypothesis Hlen : forall h, length (fractions h) = length sigma.
Hypothesis Hm : forall h, lawful (l_direction l) (dens h) (media h).
Hypothesis Hs : sees l ss a b.
Variable K : vec -> R.
Hypothesis HK : describes l ss (fun h q => dens h q * weighted (fractions h) sigma) K.

Lemma particles_ok p0 p1 : on l a b p0 -> on l a b p1 -> vmag (vsub p1 p0) <> 0 ->
  let d := vsub p1 p0 in let dir := vnormalized d in let off := vdot (vsub (l_position l) p0) dir in
  exists v I, sector_loop (particles_cb media p0 dir off (vmag d) (negb (backward l dir)) fractions) (Some (map (fun _ => 0) sigma)) (l_hits l) (backward l dir) = Ok (Some v) /\
    length v = length sigma /\ weighted v sigma = 100 * I /\ along K p0 p1 I.
Proof.
  intros H0 H1 Hn d dir off.
  destruct (between_ok media dens l ss a b (fun s => match s with Some v => weighted v sigma / 100 | None => 0 end)
    (fun s => exists v, s = Some v /\ length v = length sigma) (fun h => weighted (fractions h) sigma)
    (fun h i s => match s, i with Some l, Some i => Some (map (fun x => fst x + (i * 100) * snd x) (combine l (fractions h))) | _, _ => None end)
    K p0 p1 (Some (map (fun _ => 0) sigma)) Hm Hs HK H0 H1 Hn) as (s1 & R1 & (v & -> & Hv) & R3).
  - intros h i s (v & -> & Hv). destruct (weighted_add (fractions h) v sigma i (Hlen h) Hv) as [E1 E2].
    split; [eexists; split; [reflexivity|auto]|]. cbn beta iota. rewrite E1. field.
  - eexists. split; [reflexivity|]. apply map_length.
  - cbn beta iota. rewrite weighted_zeros. field.
  - exists v, (weighted v sigma / 100). split; [|split; [auto|split; [field|exact R3]]].
    exact R1.
Qed.

Lemma interaction_ok lambda p0 p1 : on l a b p0 -> on l a b p1 -> sigma <> [] -> threshold < vmag (vsub p1 p0) ->
  exists I, interaction_depth media fractions sigma lambda l p0 p1 = Ok (Some (100 * I + decays lambda (vmag (vsub p1 p0)))) /\ along K p0 p1 I.
Proof.
  intros H0 H1 Hne Hd. unfold interaction_depth. cbv zeta.
  assert (Ht : 0 < threshold) by (unfold threshold; apply Rdiv_lt_0_compat; [lra|apply pow_lt; lra]).
  destruct (particles_ok p0 p1 H0 H1) as (v & I & E1 & E2 & E3 & E4); [lra|].
  exists I. split; [|exact E4].
  transitivity (if Rle_dec (vmag (vsub p1 p0)) threshold then Ok (Some (decays lambda (vmag (vsub p1 p0)))) else
    match sector_loop (particles_cb media p0 (vnormalized (vsub p1 p0)) (vdot (vsub (l_position l) p0) (vnormalized (vsub p1 p0))) (vmag (vsub p1 p0)) (negb (backward l (vnormalized (vsub p1 p0)))) fractions) (Some (map (fun _ => 0) sigma)) (l_hits l) (backward l (vnormalized (vsub p1 p0))) with
    | Ok r => Ok (option_map (fun v => accumulate (map (fun x => fst x * snd x) (combine v sigma)) + decays lambda (vmag (vsub p1 p0))) r)
    | Throw => Throw | UB => UB end).
  { destruct sigma; [congruence|reflexivity]. }
  destruct (Rle_dec (vmag (vsub p1 p0)) threshold); [lra|]. rewrite E1. cbn [option_map]. rewrite accumulate_plain, plain_weighted, E3. reflexivity.
Qed.

Lemma particle_depth_ok p0 p1 : on l a b p0 -> on l a b p1 ->
  exists v I, particle_depth media fractions sigma l p0 p1 = Ok (Some v) /\ length v = length sigma /\ weighted v sigma = 100 * I /\ along K p0 p1 I.
Proof.
  intros H0 H1. unfold particle_depth. cbv zeta. destruct (Req_EM_T (vmag (vsub p1 p0)) 0) as [E|E].
  - exists (map (fun _ => 0) sigma), 0. rewrite weighted_zeros, map_length. split; [reflexivity|split; [reflexivity|split; [ring|apply along_zero; auto]]].
  - apply particles_ok; auto.
Qed.
End Targets.

Lemma composition_weighted fractions sigma h : composition fractions sigma h = weighted (fractions h) sigma.
Proof. unfold composition. apply plain_weighted. Qed.

Lemma finds_scale eps eps' f c t mx r : 0 < c -> eps * c <= eps' -> finds eps f (t / c) mx r -> finds eps' (fun s => f s * c) t mx r.
Proof.
  intros Hc He [(q & E & Hq & Hl & H)|(Hn & H)].
  - left. exists q. split; [auto|split; [auto|split; [auto|]]]. intros I HI.
    assert (HJ : is_RInt f 0 q (I / c)).
    { apply is_RInt_ext with (fun s => scal (/ c) (f s * c)).
      - intros x _. change (/ c * (f x * c) = f x). field. lra.
      - replace (I / c) with (scal (/ c) I) by (change (/ c * I = I / c); unfold Rdiv; ring). apply @is_RInt_scal. exact HI. }
    specialize (H _ HJ). replace (I - t) with ((I / c - t / c) * c) by (field; lra).
    rewrite Rabs_mult, (Rabs_right c) by lra. apply Rle_trans with (eps * c); auto. apply Rmult_le_compat_r; lra.
  - right. split; auto. intros L I HL HLm HI.
    assert (HJ : is_RInt f 0 L (I / c)).
    { apply is_RInt_ext with (fun s => scal (/ c) (f s * c)).
      - intros x _. change (/ c * (f x * c) = f x). field. lra.
      - replace (I / c) with (scal (/ c) I) by (change (/ c * I = I / c); unfold Rdiv; ring). apply @is_RInt_scal. exact HI. }
    specialize (H L _ HL HLm HJ). apply (Rmult_lt_reg_r (/ c)); [apply Rinv_0_lt_compat; auto|exact H].
Qed.

(** ** Densities *)
Lemma const_lawful v D : lawful D (fun _ => v) (const_medium v).
Proof. intros p d L _ _. exists (const_integral v p d L). split; [reflexivity|]. apply C54_constant_integral. Qed.

Lemma const_eq v L I : is_RInt (fun _ => v) 0 L I -> I = L * v.
Proof.
  intros H. eapply same_integral; [exact H|]. evar_last; [apply @is_RInt_const|]. unfold scal; cbn; unfold mult; cbn. ring.
Qed.

Lemma const_finds v target mx : 0 <= v -> 0 < target ->
  finds 0 (fun _ => v) target mx
    (match mx with Fin L => match quotient target v with None => if Rlt_dec 0 target then Some (-1) else None | Some d => Some (if Rlt_dec L d then -1 else d) end | _ => quotient target v end) \/ mx = MInf.
Proof.
  intros Hv Ht. destruct mx as [|mx|]; [right; reflexivity|left|left]; unfold quotient; destruct (Req_EM_T v 0) as [->|Hn].
  - right. split.
    + destruct (Rlt_dec 0 target); [|lra]. intros q Hq. injection Hq as <-. lra.
    + intros L I HL _ HI. apply const_eq in HI. lra.
  - assert (0 < v) by lra. assert (Q : 0 < target / v) by (apply Rdiv_lt_0_compat; auto).
    assert (Q2 : target / v * v = target) by (field; auto).
    destruct (Rlt_dec mx (target / v)).
    + right. split; [intros q Hq; injection Hq as <-; lra|].
      intros L I HL HLm HI. apply ele_fin in HLm. apply const_eq in HI. rewrite HI, <- Q2. apply Rmult_lt_compat_r; lra.
    + left. exists (target / v). split; [reflexivity|]. split; [lra|]. split; [apply ele_fin; lra|].
      intros I HI. apply const_eq in HI. rewrite HI, Q2, Rminus_eq_0, Rabs_R0. lra.
  - right. split; [discriminate|]. intros L I HL _ HI. apply const_eq in HI. lra.
  - assert (0 < v) by lra. assert (Q : 0 < target / v) by (apply Rdiv_lt_0_compat; auto).
    assert (Q2 : target / v * v = target) by (field; auto).
    left. exists (target / v). split; [reflexivity|]. split; [lra|]. split; [reflexivity|].
    intros I HI. apply const_eq in HI. rewrite HI, Q2, Rminus_eq_0, Rabs_R0. lra.
Qed.

Lemma const_invertible v D : 0 <= v -> invertible 0 D (fun _ => v) (const_medium v).
Proof.
  intros Hv p d target mx _ Ht Hmx. destruct (const_finds v target mx Hv Ht) as [H| ->]; [|discriminate Hmx].
  destruct mx; exact H.
Qed.
Lemma const_invertible_with v D : 0 <= v -> invertible_with 0 D (fun _ => v) (const_medium v).
Proof.
  intros Hv p d c target mx _ Hc Ht Hmx. destruct (const_finds (v + c) target mx ltac:(lra) Ht) as [H| ->]; [|discriminate Hmx].
  destruct mx; exact H.
Qed.

Lemma cart_lawful ax f D : has_anti f -> cart_dx ax D <> 0 -> lawful D (cart_evaluate ax f) (cart_medium ax f).
Proof.
  intros Hf Hx p d L Hd HL. apply (C54_integral_partial ax f p d L Hf).
  destruct Hd as [->| ->]; auto. unfold cart_dx in *. rewrite dot_neg_r. lra.
Qed.
