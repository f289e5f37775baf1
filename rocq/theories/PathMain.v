(** Every sequence of calls keeps a path sound. *)
From Coq Require Import Reals Lra List Bool ZArith.
From Verif Require Import TraversalModel VectorModel QuatModel QuatSpec QuatProofs QuatPlace DepthModel PathModel PathSpec PathProofs.
Import ListNotations.
Open Scope R_scope.

Section Histories.
Context {Q : Type}.
Variable m : detector Q.
Hypothesis P : proper m.
Notation sound := (sound m).

Lemma unset_throw p : sound p -> set_geo p = false -> ensure_points p = Throw.
Proof. intros S G. unfold ensure_points. rewrite update_unset with (m := m), G; auto. Qed.

Lemma reach_gen (f : Q -> num -> path Q -> outcome (path Q * num)) (bad : path Q -> bool) (g : path Q -> detector Q -> num) p r :
  sound p -> castable p ->
  bind (prepare p) (fun p => bind (require (bad p) p) (ask (g p))) = Ok r ->
  sound (fst r) /\ set_geo (fst r) = true /\ bad (fst r) = false /\ prepare p = Ok (fst r) /\ snd r = g (fst r) m.
Proof.
  intros S K H. destruct (prepare p) as [q| |] eqn:E; try discriminate. cbn in H.
  destruct (prepare_sound m P p q S K E) as (S' & G & M & _). unfold require in H. destruct (bad q) eqn:B; try discriminate. cbn in H.
  unfold ask in H. rewrite M in H. injection H as <-. cbn. auto.
Qed.

Lemma reach_end_along_sound q x p r : sound p -> castable p -> reach_end_along q x p = Ok r -> sound (fst r).
Proof. intros S K H. exact (proj1 (reach_gen (fun _ _ _ => UB) (fun p => last_inf p) _ p r S K H)). Qed.
Lemma reach_start_along_sound q x p r : sound p -> castable p -> reach_start_along q x p = Ok r -> sound (fst r).
Proof. intros S K H. exact (proj1 (reach_gen (fun _ _ _ => UB) (fun p => first_inf p) _ p r S K H)). Qed.
Lemma reach_end_reverse_sound q x p r : sound p -> castable p -> reach_end_reverse q x p = Ok r -> sound (fst r).
Proof. intros S K H. exact (proj1 (reach_gen (fun _ _ _ => UB) (fun p => last_inf p) _ p r S K H)). Qed.
Lemma reach_start_reverse_sound q x p r : sound p -> castable p -> reach_start_reverse q x p = Ok r -> sound (fst r).
Proof. intros S K H. exact (proj1 (reach_gen (fun _ _ _ => UB) (fun p => first_inf p) _ p r S K H)). Qed.

Lemma depth_sound q p r : sound p -> castable p -> depth_in_bounds q p = Ok r ->
  sound (fst r) /\ prepare p = Ok (fst r) /\ set_geo (fst r) = true /\ first_inf (fst r) = false /\ last_inf (fst r) = false /\
  snd r = d_depth m q (cached (fst r)) (first (geo (fst r))) (last (geo (fst r))).
Proof.
  intros S K H. destruct (reach_gen (fun _ _ _ => UB) (fun p => first_inf p || last_inf p) _ p r S K H) as (A & B & C & D & E).
  apply orb_false_elim in C. tauto.
Qed.

Lemma prepared_castable p q : sound p -> castable p -> prepare p = Ok q -> castable q.
Proof. intros S K H E. destruct (prepare_sound m P p q S K H) as (_ & _ & _ & C & _). congruence. Qed.

Lemma extend_end_by_sound q x p p' : sound p -> castable p -> reached reach_end_along q x p -> extend_end_by q x p = Ok p' -> sound p'.
Proof.
  intros S K F H. unfold extend_end_by in H. destruct (reach_end_along q x p) as [r| |] eqn:E; try discriminate. cbn in H.
  eapply extend_end_sound; [| |exact H]; [eapply reach_end_along_sound; eauto|]. eapply F; eauto.
Qed.
Lemma extend_start_by_sound q x p p' : sound p -> castable p -> reached reach_start_reverse q x p -> extend_start_by q x p = Ok p' -> sound p'.
Proof.
  intros S K F H. unfold extend_start_by in H. destruct (reach_start_reverse q x p) as [r| |] eqn:E; try discriminate. cbn in H.
  eapply extend_start_sound; [| |exact H]; [eapply reach_start_reverse_sound; eauto|]. eapply F; eauto.
Qed.
Lemma shrink_end_by_sound q x p p' : sound p -> castable p -> reached reach_end_reverse q x p -> shrink_end_by q x p = Ok p' -> sound p'.
Proof.
  intros S K F H. unfold shrink_end_by in H. destruct (reach_end_reverse q x p) as [r| |] eqn:E; try discriminate. cbn in H.
  eapply extend_end_sound; [| |exact H]; [eapply reach_end_reverse_sound; eauto|]. apply finite_neg. eapply F; eauto.
Qed.
Lemma shrink_start_by_sound q x p p' : sound p -> castable p -> reached reach_start_along q x p -> shrink_start_by q x p = Ok p' -> sound p'.
Proof.
  intros S K F H. unfold shrink_start_by in H. destruct (reach_start_along q x p) as [r| |] eqn:E; try discriminate. cbn in H.
  eapply extend_start_sound; [| |exact H]; [eapply reach_start_along_sound; eauto|]. apply finite_neg. eapply F; eauto.
Qed.

(** The length of a path with points. *)
Lemma sound_len p : sound p -> set_geo p = true -> len p = Inf false \/ exists x, len p = Num x /\ 0 <= x.
Proof. intros [_ [(G & _)|(_ & L & _)]] G'; [congruence|]. inversion L; eauto. Qed.

Lemma shift_up k p : sound p -> finite k -> nltb (Num 0) (nadd k (nneg (len p))) = true -> set_geo p = false \/ finite (nadd k (nneg (len p))).
Proof.
  intros S [x ->] H. destruct (set_geo p) eqn:G; auto. right. destruct (sound_len p S G) as [E|(y & E & _)]; rewrite E in *; cbn in *; [discriminate|].
  eexists; eauto.
Qed.

Lemma apply_sound o p p' : sound p -> fair m o p -> apply o p = Ok p' -> sound p'.
Proof.
  intros S F H. destruct o; cbn [apply fair] in F, H.
  - eapply set_points_sound; eauto.
  - eapply set_points_det_sound; eauto.
  - eapply set_ray_sound; eauto.
  - eapply set_ray_det_sound; eauto.
  - eapply cross_sound; eauto.
  - eapply clip_sound; eauto.
  - injection H as <-. apply flip_sound; auto.
  - eapply extend_end_sound; eauto.
  - eapply extend_start_sound; eauto.
  - exact (extend_end_sound m _ p p' S (finite_neg _ F) H).
  - exact (extend_start_sound m _ p p' S (finite_neg _ F) H).
  - unfold extend_end_to in H. destruct (nltb _ _) eqn:E; [|injection H as <-; auto].
    destruct (shift_up _ _ S F E) as [G|Fi]; [|eapply extend_end_sound; eauto].
    unfold extend_end in H. rewrite unset_throw in H by auto. discriminate.
  - unfold extend_start_to in H. destruct (nltb _ _) eqn:E; [|injection H as <-; auto].
    destruct (shift_up _ _ S F E) as [G|Fi]; [|eapply extend_start_sound; eauto].
    unfold extend_start in H. rewrite unset_throw in H by auto. discriminate.
  - unfold shrink_end_to in H. destruct (nltb _ _) eqn:E; [|injection H as <-; auto].
    destruct F as [[x ->] [y Ey]]. unfold get_distance in Ey. rewrite Ey in *. cbn in H.
    exact (extend_end_sound m _ p p' S (finite_neg _ (ex_intro _ _ eq_refl)) H).
  - unfold shrink_start_to in H. destruct (nltb _ _) eqn:E; [|injection H as <-; auto].
    destruct F as [[x ->] [y Ey]]. unfold get_distance in Ey. rewrite Ey in *. cbn in H.
    exact (extend_start_sound m _ p p' S (finite_neg _ (ex_intro _ _ eq_refl)) H).
  - destruct F. eapply extend_end_by_sound; eauto.
  - destruct F. eapply extend_start_by_sound; eauto.
  - destruct F. eapply shrink_end_by_sound; eauto.
  - destruct F. eapply shrink_start_by_sound; eauto.
  - destruct F as [K F]. unfold extend_end_upto in H. destruct (depth_in_bounds q p) as [r| |] eqn:E; try discriminate. cbn [bind] in H. cbv zeta in H.
    destruct (depth_sound q p r S K E) as (S' & PR & _). specialize (F r eq_refl). destruct (nltb (Num 0) _); [|injection H as <-; auto].
    eapply extend_end_by_sound; [| | |exact H]; auto. exact (prepared_castable p (fst r) S K PR).
  - destruct F as [K F]. unfold extend_start_upto in H. destruct (depth_in_bounds q p) as [r| |] eqn:E; try discriminate. cbn [bind] in H. cbv zeta in H.
    destruct (depth_sound q p r S K E) as (S' & PR & _). specialize (F r eq_refl). destruct (nltb (Num 0) _); [|injection H as <-; auto].
    eapply extend_start_by_sound; [| | |exact H]; auto. exact (prepared_castable p (fst r) S K PR).
  - destruct F as [K F]. unfold shrink_end_upto in H. destruct (depth_in_bounds q p) as [r| |] eqn:E; try discriminate. cbn [bind] in H. cbv zeta in H.
    destruct (depth_sound q p r S K E) as (S' & PR & _). specialize (F r eq_refl). destruct (nltb (Num 0) _); [|injection H as <-; auto].
    eapply shrink_end_by_sound; [| | |exact H]; auto. exact (prepared_castable p (fst r) S K PR).
  - destruct F as [K F]. unfold shrink_start_upto in H. destruct (depth_in_bounds q p) as [r| |] eqn:E; try discriminate. cbn [bind] in H. cbv zeta in H.
    destruct (depth_sound q p r S K E) as (S' & PR & _). specialize (F r eq_refl). destruct (nltb (Num 0) _); [|injection H as <-; auto].
    eapply shrink_start_by_sound; [| | |exact H]; auto. exact (prepared_castable p (fst r) S K PR).
  - injection H as <-. apply update_sound; auto.
  - injection H as <-. apply update_sound; auto.
  - destruct (depth_in_bounds q p) as [r| |] eqn:E; try discriminate. cbn in H. injection H as <-. eapply depth_sound; eauto.
Qed.

Lemma history_sound p : history m p -> sound p.
Proof. intros H. induction H; [apply sound_new|eapply apply_sound; eauto]. Qed.

Lemma sound_consistent p : sound p -> set_geo p = true ->
  lies (get_geo_ends p) (get_distance p) (first_inf p) (last_inf p) /\
  lies (get_ends p) (get_distance p) (first_inf p) (last_inf p) /\ same_place m (get_geo_ends p) (get_ends p).
Proof.
  intros S G. unfold get_geo_ends, get_ends, get_distance. rewrite update_set with (m := m) by auto. cbn.
  destruct S as [_ [(G' & _)|(_ & L & _)]]; [congruence|]. split; [auto|split; [apply lies_det; auto|apply place_det; auto]].
Qed.

Lemma sound_cached p : sound p -> set_cached p = true -> (exists a d, cached p = d_cast m (At a) d) /\
  forall a, end_of (get_geo_ends p) a -> same_line (cached p) a (dir (get_geo_ends p)).
Proof.
  intros S C. destruct (set_geo p) eqn:G.
  - unfold get_geo_ends. rewrite update_set with (m := m) by auto. cbn. destruct S as [_ [(G' & _)|(_ & _ & _ & L)]]; [congruence|]. auto.
  - destruct S as [_ [(_ & _ & C')|(G' & _)]]; congruence.
Qed.

(** ** Inverse operations *)
Lemma alike_of p p' : sound p -> sound p' -> set_geo p = true -> set_geo p' = true -> geo p = geo p' -> len p = len p' ->
  first_inf p = first_inf p' -> last_inf p = last_inf p' -> set_cached p = set_cached p' -> cached p = cached p' -> alike p p'.
Proof.
  intros S S' G G' E1 E2 E3 E4 E5 E6. unfold alike, get_ends, get_geo_ends, get_distance.
  rewrite !update_set with (m := m) by auto. cbn. rewrite E1. auto 10.
Qed.

Lemma ends_eq e f : first e = first f -> last e = last f -> dir e = dir f -> e = f.
Proof. destruct e, f; cbn; intros; subst; auto. Qed.

Lemma extend_end_view k p p' : sound p -> extend_end (Num k) p = Ok p' ->
  set_geo p = true /\ sound p' /\ set_geo p' = true /\ last_inf p = false /\ first_inf p' = first_inf p /\ last_inf p' = false /\
  cached p' = cached p /\ set_cached p' = set_cached p /\ dir (geo p') = dir (geo p) /\ first (geo p') = first (geo p) /\
  ((exists a x, first (geo p) = At a /\ len p = Num x /\ 0 <= x /\ last (geo p) = At (along_by a (dir (geo p)) x) /\ first_inf p = false /\
      len p' = Num (Rmax 0 (x + k)) /\ last (geo p') = At (along_by a (dir (geo p)) (Rmax 0 (x + k)))) \/
   (exists b, first (geo p) = Far /\ len p = Inf false /\ last (geo p) = At b /\ first_inf p = true /\ len p' = Inf false /\
      last (geo p') = At (along_by b (dir (geo p)) k))).
Proof.
  intros S H. pose proof (extend_end_sound m _ p p' S (ex_intro _ k eq_refl) H) as S1.
  unfold extend_end in H. destruct (ensure_points p) as [q| |] eqn:E; try discriminate. cbn [bind] in H.
  destruct (ensure_sound m p q S E) as (G0 & S' & G & EG & EL & E1 & E2 & E3 & E4 & M).
  destruct S as [_ [(G' & _)|(_ & L & _)]]; [congruence|].
  destruct (last_inf q) eqn:LI in H; [discriminate|]. rewrite EG, EL, E1, E3, E4, G in H. rewrite E2 in LI.
  inversion L as [a x U X F La K I J|a U F La K I J|b U F La K I J].
  - rewrite F, La, <- K in H. cbn [nadd nltb move] in H.
    assert (Z : p' = mkpath (model q) (mkends (At a) (At (along_by a (dir (geo p)) (Rmax 0 (x + k)))) (dir (geo p))) (Num (Rmax 0 (x + k))) true
              (first_inf p) false (det q) false (cached p) (set_cached p)).
    { destruct (Rlt_dec (x + k) 0).
      - rewrite Rmax_left by lra. rewrite along_0. injection H as <-. reflexivity.
      - rewrite Rmax_right by lra. rewrite <- along_along. injection H as <-. reflexivity. }
    subst p'. cbn. rewrite F. do 9 (split; [first [assumption|reflexivity|congruence]|]). split; [reflexivity|]. left. exists a, x. repeat split; auto; congruence.
  - congruence.
  - rewrite F, La, <- K in H. cbn [nadd nltb move] in H. injection H as <-. cbn. rewrite F.
    do 9 (split; [first [assumption|reflexivity|congruence]|]). split; [reflexivity|]. right. exists b. repeat split; auto; congruence.
Qed.

(** ** Turning a path around *)
Lemma flip_flip (p : path Q) : flip (flip p) = p.
Proof.
  assert (E : forall e, flip_ends (flip_ends e) = e).
  { intros [a b d]. unfold flip_ends; cbn. f_equal. vring. }
  destruct p; unfold flip; cbn. rewrite !E. reflexivity.
Qed.

Lemma update_flip p : model p = Some m -> update (flip p) = flip (update p).
Proof.
  intros M. unfold update. cbn [flip model set_geo set_det geo det len first_inf last_inf cached set_cached]. rewrite M.
  destruct (negb (set_geo p) && set_det p).
  - unfold flip; cbn. rewrite (flip_geo m P). reflexivity.
  - destruct (negb (set_det p) && set_geo p); [|reflexivity]. unfold flip; cbn. rewrite (flip_det m P). reflexivity.
Qed.

Lemma ensure_flip p : model p = Some m -> ensure_points (flip p) = match ensure_points p with Ok q => Ok (flip q) | Throw => Throw | UB => UB end.
Proof. intros M. unfold ensure_points. rewrite update_flip by auto. cbn [flip set_geo]. destruct (set_geo (update p)); auto. Qed.

Lemma move_neg a d k : move a (vscale (-1) d) k = move a d (nneg k).
Proof.
  rewrite scale_m1. destruct a as [a| |], k as [x|b|]; cbn; auto.
  - f_equal. vring.
  - replace (vmag (vneg d)) with (vmag d); [destruct (Req_EM_T _ _); auto|]. unfold vmag, vneg; cbn. f_equal. ring.
Qed.
Lemma nneg_neg k : nneg (nneg k) = k.
Proof. destruct k as [x|b|]; cbn; auto; f_equal; [ring|apply negb_involutive]. Qed.

Lemma extend_flip k p : model p = Some m ->
  extend_start k (flip p) = match extend_end k p with Ok q => Ok (flip q) | Throw => Throw | UB => UB end /\
  extend_end k (flip p) = match extend_start k p with Ok q => Ok (flip q) | Throw => Throw | UB => UB end.
Proof.
  intros M. unfold extend_start, extend_end. rewrite ensure_flip by auto. destruct (ensure_points p) as [q| |]; auto. cbn [bind].
  cbn [flip first_inf last_inf len geo flip_ends first last dir model set_geo set_cached cached det]. split.
  - destruct (last_inf q); auto. rewrite move_neg, nneg_neg. destruct (nltb _ _); reflexivity.
  - destruct (first_inf q); auto. rewrite move_neg. destruct (nltb _ _); reflexivity.
Qed.

(** ** Undoing *)
Lemma extend_end_ok k p : sound p -> set_geo p = true -> last_inf p = false -> exists p', extend_end (Num k) p = Ok p'.
Proof.
  intros S G F. unfold extend_end, ensure_points. rewrite update_set with (m := m) by auto. cbn [set_geo bind last_inf]. rewrite F.
  destruct (nltb _ _); eauto.
Qed.

Lemma extend_undone k p p' : sound p -> extend_end (Num k) p = Ok p' -> (forall x, len p = Num x -> 0 <= x + k) ->
  exists p'', shrink_end (Num k) p' = Ok p'' /\ alike p'' p.
Proof.
  intros S H K. destruct (extend_end_view k p p' S H) as (G & S' & G' & LI & E1 & E2 & E3 & E4 & E5 & E6 & C).
  destruct (extend_end_ok (- k) p' S' G' E2) as [p'' H'']. exists p''. split; [exact H''|].
  destruct (extend_end_view (- k) p' p'' S' H'') as (_ & S'' & G'' & _ & D1 & D2 & D3 & D4 & D5 & D6 & D).
  apply alike_of; auto; try congruence.
  - apply ends_eq; try congruence. destruct C as [(a & x & F & L & X & La & I & L' & La')|(b & F & L & La & I & L' & La')].
    + specialize (K x L). rewrite Rmax_right in * by lra. destruct D as [(a2 & x2 & F2 & L2 & X2 & La2 & I2 & L2' & La2')|(b2 & F2 & _)]; [|congruence].
      rewrite La2', La. f_equal. rewrite L' in L2. injection L2 as <-. replace (x + k + - k) with x in * by ring. rewrite Rmax_right by lra.
      rewrite E6, F in F2. injection F2 as <-. rewrite E5. auto.
    + destruct D as [(a2 & x2 & F2 & _)|(b2 & F2 & L2 & La2 & I2 & L2' & La2')]; [congruence|].
      rewrite La2', La. f_equal. rewrite La' in La2. injection La2 as <-. rewrite E5, along_along, Rplus_opp_r, along_0. auto.
  - destruct C as [(a & x & F & L & X & La & I & L' & La')|(b & F & L & La & I & L' & La')].
    + specialize (K x L). rewrite Rmax_right in * by lra. destruct D as [(a2 & x2 & F2 & L2 & X2 & La2 & I2 & L2' & La2')|(b2 & F2 & _)]; [|congruence].
      rewrite L2', L. f_equal. rewrite L' in L2. injection L2 as <-. rewrite Rmax_right; lra.
    + destruct D as [(a2 & x2 & F2 & _)|(b2 & F2 & L2 & La2 & I2 & L2' & La2')]; congruence.
Qed.

Lemma alike_flip p p' : model p = Some m -> model p' = Some m -> alike p p' -> alike (flip p) (flip p').
Proof.
  intros M M' (A & B & C & D & E & F & G). unfold alike, get_ends, get_geo_ends, get_distance in *. rewrite !update_flip by auto. cbn.
  rewrite A, B, C, D, E, F, G. auto 10.
Qed.

Lemma clamped_end k p p' x : sound p -> get_distance p = Num x -> x <= k -> shrink_end (Num k) p = Ok p' ->
  get_distance p' = Num 0 /\ first (get_geo_ends p') = first (get_geo_ends p) /\ last (get_geo_ends p') = first (get_geo_ends p) /\
  dir (get_geo_ends p') = dir (get_geo_ends p) /\ last (get_ends p') = first (get_ends p').
Proof.
  intros S L K H. destruct (extend_end_view (- k) p p' S H) as (G & S' & G' & LI & E1 & E2 & E3 & E4 & E5 & E6 & C).
  unfold get_distance, get_geo_ends, get_ends in *. rewrite !update_set with (m := m) by auto. cbn.
  destruct C as [(a & y & F & L' & X & La & I & L'' & La')|(b & F & L' & _)]; [|congruence].
  rewrite L' in L. injection L as ->. rewrite Rmax_left in * by lra. rewrite E5, E6, F, La', L'', along_0. auto.
Qed.

(** ** Lengthening or shortening to a given length *)
Lemma extend_to_end k p p' x : sound p -> get_distance p = Num x -> extend_end_to (Num k) p = Ok p' -> get_distance p' = Num (Rmax x k).
Proof.
  intros S L H. unfold extend_end_to, get_distance in *. rewrite L in H. cbn [nneg nadd nltb] in H. destruct (Rlt_dec 0 (k + - x)).
  - destruct (extend_end_view _ p p' S H) as (G & _ & _ & _ & _ & _ & _ & _ & _ & _ & C).
    destruct C as [(a & y & F & L' & X & La & I & L'' & La')|(b & F & L' & _)]; [|congruence]. rewrite L' in L. injection L as ->.
    rewrite L''. f_equal. rewrite !Rmax_right by lra. ring.
  - injection H as <-. rewrite L, Rmax_left by lra. auto.
Qed.
Lemma shrink_to_end k p p' x : sound p -> get_distance p = Num x -> 0 <= k -> shrink_end_to (Num k) p = Ok p' -> get_distance p' = Num (Rmin x k).
Proof.
  intros S L K H. unfold shrink_end_to, get_distance in *. rewrite L in H. cbn [nneg nadd nltb] in H. destruct (Rlt_dec 0 (x + - k)).
  - destruct (extend_end_view _ p p' S H) as (G & _ & _ & _ & _ & _ & _ & _ & _ & _ & C).
    destruct C as [(a & y & F & L' & X & La & I & L'' & La')|(b & F & L' & _)]; [|congruence]. rewrite L' in L. injection L as ->.
    rewrite L''. f_equal. rewrite Rmax_right, Rmin_right by lra. ring.
  - injection H as <-. rewrite L, Rmin_left by lra. auto.
Qed.
End Histories.
