(** Properties C110 and C111. *)
From Coq Require Import Reals Lra List Bool ZArith.
From Verif Require Import TraversalModel VectorModel QuatModel QuatSpec QuatProofs QuatPlace DepthModel PathModel PathSpec PathProofs PathMain PathDepthSpec PathDepthProofs.
Import ListNotations.
Open Scope R_scope.

Lemma finite_first {Q} (m : detector Q) p a : proper m -> sound m p -> set_geo p = true -> first (get_geo_ends p) = At a -> first_inf p = false.
Proof. intros P S G F. destruct (sound_consistent m P p S G) as (L & _). inversion L; congruence. Qed.
Lemma finite_last {Q} (m : detector Q) p a : proper m -> sound m p -> set_geo p = true -> last (get_geo_ends p) = At a -> last_inf p = false.
Proof. intros P S G F. destruct (sound_consistent m P p S G) as (L & _). inversion L; congruence. Qed.
Lemma lengths {Q} (m : detector Q) p : proper m -> sound m p -> set_geo p = true -> get_distance p = Inf false \/ exists x, get_distance p = Num x /\ 0 <= x.
Proof. intros P S G. destruct (sound_consistent m P p S G) as (L & _). inversion L; eauto. Qed.

(** ** C110 *)

(** Depths from the first point: forwards, backwards, and within the path. *)
Theorem C110_from_start : forall Q (m : detector Q) amount p q k a, proper m -> measures m amount -> history m p -> set_geo p = true ->
  first (get_geo_ends p) = At a -> let d := dir (get_geo_ends p) in
  (exists p', depth_start_along q (Num k) p = Ok (p', Num (signed k (amount q a (along_by a d k))))) /\
  (exists p', depth_start_reverse q (Num k) p = Ok (p', Num (signed k (amount q a (along_by a d (- k)))))) /\
  (exists p', depth_start_bounds q (Num k) p = Ok (p', Num (amount q a (along_by a d (within_length (get_distance p) k))))).
Proof.
  intros Q m amount p q k a P M H G F d. apply (history_sound m P) in H.
  assert (K : castable p) by (intros _; eauto). pose proof (finite_first m p a P H G F) as FI.
  destruct (prepared m P p H G K) as (p' & a0 & d0 & PR & S' & G' & M' & EG & EL & E1 & E2 & SC & EC & U & D & L).
  assert (A : exists t, a = along_by a0 d0 t) by (apply L; left; exact F). fold d in D.
  assert (GO : forall j, bind (prepare p) (fun p => bind (require (first_inf p) p) (ask (fun m => d_depth m q (cached p) (first (geo p)) (move (first (geo p)) (dir (geo p)) (Num j))))) = Ok (p', Num (amount q a (along_by a d j)))).
  { intros j. rewrite PR. cbn [bind]. unfold require. rewrite E1, FI. cbn [bind]. unfold ask. rewrite M', EG, F, EC. cbn [move]. fold d. change (vadd a (vscale j d)) with (along_by a d j).
    rewrite (measured m amount M q a0 d0 a d j U D A). reflexivity. }
  split; [|split].
  - exists p'. unfold depth_start_along. rewrite PR. cbn [bind]. unfold require. rewrite E1, FI. cbn [bind]. unfold ask. rewrite M', EG, F, EC. cbn [move]. fold d. change (vadd a (vscale k d)) with (along_by a d k).
    rewrite (measured m amount M q a0 d0 a d k U D A). rewrite copysign_num by (apply (amount_pos m amount M)). reflexivity.
  - exists p'. unfold depth_start_reverse. rewrite PR. cbn [bind]. unfold require. rewrite E1, FI. cbn [bind]. unfold ask. rewrite M', EG, F, EC. cbn [move nneg]. fold d. change (vadd a (vscale (- k) d)) with (along_by a d (- k)).
    rewrite (measured m amount M q a0 d0 a d (- k) U D A). rewrite copysign_num by (apply (amount_pos m amount M)). reflexivity.
  - unfold depth_start_bounds. cbv zeta. change (len p) with (get_distance p). destruct (lengths m p P H G) as [E|(x & E & X)]; rewrite E; cbn [within_length].
    + cbn [nltb nleb]. destruct (Rlt_dec 0 k) as [Y|Y]; cbn [negb].
      * exists p'. rewrite Rmax_right by lra. apply GO.
      * exists p. rewrite Rmax_left by lra. rewrite along_0. destruct M as (_ & _ & Z & _). rewrite Z. reflexivity.
    + cbn [nltb nleb]. destruct (Rlt_dec x k) as [Y|Y]; [exists p'; rewrite Rmax_right, Rmin_left by lra; apply GO|].
      destruct (Rlt_dec 0 k) as [Z|Z]; cbn [negb]; [exists p'; rewrite Rmax_right, Rmin_right by lra; apply GO|].
      exists p. rewrite Rmax_left by lra. rewrite Rmin_right by lra. rewrite along_0. destruct M as (_ & _ & O & _). rewrite O. reflexivity.
Qed.
Print Assumptions C110_from_start.

(** Depths from the last point. *)
Theorem C110_from_end : forall Q (m : detector Q) amount p q k b, proper m -> measures m amount -> history m p -> set_geo p = true -> castable p ->
  last (get_geo_ends p) = At b -> let d := dir (get_geo_ends p) in
  (exists p', depth_end_along q (Num k) p = Ok (p', Num (signed k (amount q b (along_by b d k))))) /\
  (exists p', depth_end_reverse q (Num k) p = Ok (p', Num (signed k (amount q b (along_by b d (- k)))))) /\
  (exists p', depth_end_bounds q (Num k) p = Ok (p', Num (amount q b (along_by b d (- within_length (get_distance p) k))))).
Proof.
  intros Q m amount p q k a P M H G K F d. apply (history_sound m P) in H. pose proof (finite_last m p a P H G F) as FI.
  destruct (prepared m P p H G K) as (p' & a0 & d0 & PR & S' & G' & M' & EG & EL & E1 & E2 & SC & EC & U & D & L).
  assert (A : exists t, a = along_by a0 d0 t) by (apply L; right; exact F). fold d in D.
  assert (GO : forall j, bind (prepare p) (fun p => bind (require (last_inf p) p) (ask (fun m => d_depth m q (cached p) (last (geo p)) (move (last (geo p)) (dir (geo p)) (nneg (Num j)))))) = Ok (p', Num (amount q a (along_by a d (- j))))).
  { intros j. rewrite PR. cbn [bind]. unfold require. rewrite E2, FI. cbn [bind]. unfold ask. rewrite M', EG, F, EC. cbn [move nneg]. fold d. change (vadd a (vscale (- j) d)) with (along_by a d (- j)).
    rewrite (measured m amount M q a0 d0 a d (- j) U D A). reflexivity. }
  split; [|split].
  - exists p'. unfold depth_end_along. rewrite PR. cbn [bind]. unfold require. rewrite E2, FI. cbn [bind]. unfold ask. rewrite M', EG, F, EC. cbn [move]. fold d. change (vadd a (vscale k d)) with (along_by a d k).
    rewrite (measured m amount M q a0 d0 a d k U D A). rewrite copysign_num by (apply (amount_pos m amount M)). reflexivity.
  - exists p'. unfold depth_end_reverse. rewrite PR. cbn [bind]. unfold require. rewrite E2, FI. cbn [bind]. unfold ask. rewrite M', EG, F, EC. cbn [move nneg]. fold d. change (vadd a (vscale (- k) d)) with (along_by a d (- k)).
    rewrite (measured m amount M q a0 d0 a d (- k) U D A). rewrite copysign_num by (apply (amount_pos m amount M)). reflexivity.
  - unfold depth_end_bounds. cbv zeta. change (len p) with (get_distance p). destruct (lengths m p P H G) as [E|(x & E & X)]; rewrite E; cbn [within_length].
    + cbn [nltb nleb]. destruct (Rlt_dec 0 k) as [Y|Y]; cbn [negb].
      * exists p'. rewrite Rmax_right by lra. apply GO.
      * exists p. rewrite Rmax_left by lra. rewrite Ropp_0, along_0. destruct M as (_ & _ & Z & _). rewrite Z. reflexivity.
    + cbn [nltb nleb]. destruct (Rlt_dec x k) as [Y|Y]; [exists p'; rewrite Rmax_right, Rmin_left by lra; apply GO|].
      destruct (Rlt_dec 0 k) as [Z|Z]; cbn [negb]; [exists p'; rewrite Rmax_right, Rmin_right by lra; apply GO|].
      exists p. rewrite Rmax_left by lra. rewrite Rmin_right by lra. rewrite Ropp_0, along_0. destruct M as (_ & _ & O & _). rewrite O. reflexivity.
Qed.
Print Assumptions C110_from_end.

(** The depth within a finite path is the depth between its ends, and is the sum of the depths on both sides of any point of the path. *)
Theorem C110_split : forall Q (m : detector Q) amount p q k a b x, proper m -> measures m amount -> history m p -> set_geo p = true ->
  first (get_geo_ends p) = At a -> last (get_geo_ends p) = At b -> get_distance p = Num x -> 0 <= k <= x ->
  exists p0 p1 p2 X Y, depth_in_bounds q p = Ok (p0, Num (amount q a b)) /\ depth_start_bounds q (Num k) p = Ok (p1, Num X) /\
  depth_end_bounds q (Num (x - k)) p = Ok (p2, Num Y) /\ amount q a b = X + Y.
Proof.
  intros Q m amount p q k a b x P M H G F La E K.
  assert (C : castable p) by (intros _; eauto).
  destruct (C110_from_start Q m amount p q k a P M H G F) as (_ & _ & p1 & E1).
  destruct (C110_from_end Q m amount p q (x - k) b P M H G C La) as (_ & _ & p2 & E2).
  apply (history_sound m P) in H. pose proof (finite_first m p a P H G F) as FI. pose proof (finite_last m p b P H G La) as LI.
  destruct (prepared m P p H G C) as (p0 & a0 & d0 & PR & _ & _ & M' & EG & EL & I1 & I2 & SC & EC & U & D & L).
  destruct (sound_consistent m P p H G) as (LL & _). inversion LL as [a' x' UU Xn Fa Lb Ek Ei Ej| |]; [|congruence|congruence].
  rewrite F in Fa. injection Fa as <-. rewrite La in Lb. injection Lb as ->. rewrite E in Ek. injection Ek as ->.
  exists p0, p1, p2. do 2 eexists. split; [|split; [exact E1|split; [exact E2|]]].
  - unfold depth_in_bounds. rewrite PR. cbn [bind]. unfold require. rewrite I1, I2, FI, LI. cbn [orb bind]. unfold ask. rewrite M', EG, F, La, EC.
    rewrite (measured m amount M q a0 d0 a (dir (get_geo_ends p)) x U D); [reflexivity|]. apply L. left. exact F.
  - rewrite E. cbn [within_length]. rewrite !Rmax_right by lra. rewrite !Rmin_right by lra. rewrite along_back. destruct M as (_ & _ & _ & S & A).
    replace (x + - (x - k)) with k by ring. rewrite (S q (along_by a _ x)). replace x with (k + (x - k)) at 1 2 by ring. rewrite (A q a _ k (x - k)) by lra. reflexivity.
Qed.
Print Assumptions C110_split.

(** The distance found for a depth has that depth, to within [eps], from the first point and from the last, forwards and backwards. *)
Theorem C110_reach : forall Q (m : detector Q) amount eps p q X, proper m -> measures m amount -> locates m amount eps -> history m p -> set_geo p = true -> castable p -> X <> 0 ->
  (forall a p' t, first (get_geo_ends p) = At a -> reach_start_along q (Num X) p = Ok (p', Num t) ->
     0 <= X * t /\ exists p'' Y, depth_start_along q (Num t) p = Ok (p'', Num Y) /\ Rabs (Y - X) <= eps) /\
  (forall a p' t, first (get_geo_ends p) = At a -> reach_start_reverse q (Num X) p = Ok (p', Num t) ->
     0 <= X * t /\ exists p'' Y, depth_start_reverse q (Num t) p = Ok (p'', Num Y) /\ Rabs (Y - X) <= eps) /\
  (forall b p' t, last (get_geo_ends p) = At b -> reach_end_along q (Num X) p = Ok (p', Num t) ->
     0 <= X * t /\ exists p'' Y, depth_end_along q (Num t) p = Ok (p'', Num Y) /\ Rabs (Y - X) <= eps) /\
  (forall b p' t, last (get_geo_ends p) = At b -> reach_end_reverse q (Num X) p = Ok (p', Num t) ->
     0 <= X * t /\ exists p'' Y, depth_end_reverse q (Num t) p = Ok (p'', Num Y) /\ Rabs (Y - X) <= eps).
Proof.
  intros Q m amount eps p q X P M LO H G K NX. pose proof (history_sound m P p H) as S.
  destruct (prepared m P p S G K) as (p0 & a0 & d0 & PR & _ & _ & M' & EG & EL & I1 & I2 & SC & EC & U & D & L). set (d := dir (get_geo_ends p)) in *.
  assert (CORE : forall u e t, (exists s, u = along_by a0 d0 s) -> (e = d0 \/ e = vneg d0) -> d_reach m q (d_cast m (At a0) d0) (At u) e (Num X) = Num t ->
    0 <= X * t /\ Rabs (signed t (amount q u (along_by u e t)) - X) <= eps).
  { intros u e t [s ->] De R. destruct (LO q a0 d0 s e X U De) as [A B]. cbv zeta in A, B. rewrite R in A, B.
    destruct (Rlt_le_dec X 0) as [N|N].
    - destruct (B N) as [(t' & E & T & C)|(E & _)]; [|discriminate]. injection E as <-. split; [nra|]. unfold signed. destruct (Rlt_dec t 0) as [T0|T0].
      + rewrite <- Rabs_Ropp. replace (- (- _ - X)) with (amount q (along_by a0 d0 s) (along_by (along_by a0 d0 s) e t) + X) by ring. exact C.
      + assert (t = 0) by lra. subst t. rewrite along_0 in *. destruct M as (_ & _ & Z & _). rewrite Z in *. rewrite <- Rabs_Ropp. replace (- (0 - X)) with (0 + X) by ring. exact C.
    - assert (PX : 0 < X) by lra. destruct (A PX) as [(t' & E & T & C)|(E & _)]; [|discriminate]. injection E as <-. split; [nra|]. unfold signed. destruct (Rlt_dec t 0); [lra|exact C]. }
  assert (VN : vneg d = d0 \/ vneg d = vneg d0). { destruct D as [D|D]; rewrite D; [right; reflexivity|left]. destruct d0; unfold vneg, vscale; cbn; f_equal; ring. }
  split; [|split; [|split]].
  - intros a p' t F R. destruct (C110_from_start Q m amount p q t a P M H G F) as ((p'' & E) & _ & _). fold d in E.
    pose proof (finite_first m p a P S G F) as FI. unfold reach_start_along in R. rewrite PR in R. cbn [bind] in R. unfold require in R. rewrite I1, FI in R. cbn [bind] in R. unfold ask in R. rewrite M', EG, F, EC in R.
    assert (R' : d_reach m q (d_cast m (At a0) d0) (At a) d (Num X) = Num t) by (unfold d; congruence).
    destruct (CORE a d t (L a (or_introl F)) D R') as [C1 C2]. split; [exact C1|]. eauto.
  - intros a p' t F R. destruct (C110_from_start Q m amount p q t a P M H G F) as (_ & (p'' & E) & _). fold d in E.
    pose proof (finite_first m p a P S G F) as FI. unfold reach_start_reverse in R. rewrite PR in R. cbn [bind] in R. unfold require in R. rewrite I1, FI in R. cbn [bind] in R. unfold ask in R. rewrite M', EG, F, EC in R.
    assert (R' : d_reach m q (d_cast m (At a0) d0) (At a) (vneg d) (Num X) = Num t) by (unfold d; congruence).
    destruct (CORE a (vneg d) t (L a (or_introl F)) VN R') as [C1 C2]. rewrite along_neg in C2. split; [exact C1|]. eauto.
  - intros a p' t F R. destruct (C110_from_end Q m amount p q t a P M H G K F) as ((p'' & E) & _ & _). fold d in E.
    pose proof (finite_last m p a P S G F) as FI. unfold reach_end_along in R. rewrite PR in R. cbn [bind] in R. unfold require in R. rewrite I2, FI in R. cbn [bind] in R. unfold ask in R. rewrite M', EG, F, EC in R.
    assert (R' : d_reach m q (d_cast m (At a0) d0) (At a) d (Num X) = Num t) by (unfold d; congruence).
    destruct (CORE a d t (L a (or_intror F)) D R') as [C1 C2]. split; [exact C1|]. eauto.
  - intros a p' t F R. destruct (C110_from_end Q m amount p q t a P M H G K F) as (_ & (p'' & E) & _). fold d in E.
    pose proof (finite_last m p a P S G F) as FI. unfold reach_end_reverse in R. rewrite PR in R. cbn [bind] in R. unfold require in R. rewrite I2, FI in R. cbn [bind] in R. unfold ask in R. rewrite M', EG, F, EC in R.
    assert (R' : d_reach m q (d_cast m (At a0) d0) (At a) (vneg d) (Num X) = Num t) by (unfold d; congruence).
    destruct (CORE a (vneg d) t (L a (or_intror F)) VN R') as [C1 C2]. rewrite along_neg in C2. split; [exact C1|]. eauto.
Qed.
Print Assumptions C110_reach.

(** What a path spans after its last point was moved. *)
Lemma in_bounds {Q} (m : detector Q) amount p q a b : proper m -> measures m amount -> sound m p -> set_geo p = true -> castable p ->
  first (get_geo_ends p) = At a -> last (get_geo_ends p) = At b -> exists p0, depth_in_bounds q p = Ok (p0, Num (amount q a b)).
Proof.
  intros P M H G C F La. pose proof (finite_first m p a P H G F) as FI. pose proof (finite_last m p b P H G La) as LI.
  destruct (prepared m P p H G C) as (p0 & a0 & d0 & PR & _ & _ & M' & EG & EL & I1 & I2 & SC & EC & U & D & L).
  destruct (sound_consistent m P p H G) as (LL & _). inversion LL as [a' x UU Xn Fa Lb Ek Ei Ej| |]; [|congruence|congruence].
  rewrite F in Fa. injection Fa as <-. rewrite La in Lb. injection Lb as ->.
  exists p0. unfold depth_in_bounds. rewrite PR. cbn [bind]. unfold require. rewrite I1, I2, FI, LI. cbn [orb bind]. unfold ask. rewrite M', EG, F, La, EC.
  rewrite (measured m amount M q a0 d0 a (dir (get_geo_ends p)) x U D); [reflexivity|]. apply L. left. exact F.
Qed.

Lemma geo_of {Q} (m : detector Q) p : proper m -> sound m p -> set_geo p = true -> get_geo_ends p = geo p.
Proof. intros P S G. unfold get_geo_ends. rewrite (update_set m p S G). reflexivity. Qed.

Lemma abs_between x e : Rabs x <= e -> - e <= x <= e.
Proof. intros H. unfold Rabs in H. destruct (Rcase_abs x); lra. Qed.

(** A step of [t] of the last point whose depth is [X], with the same sign, to within [eps]. *)
Lemma stepped {Q} (m : detector Q) amount eps q a d x t X : measures m amount -> 0 <= x -> X <> 0 ->
  (0 < X -> 0 <= t /\ Rabs (amount q (along_by a d x) (along_by a d (x + t)) - X) <= eps) ->
  (X < 0 -> t <= 0 /\ Rabs (amount q (along_by a d x) (along_by a d (x + t)) + X) <= eps) ->
  Rabs (amount q a (along_by a d (Rmax 0 (x + t))) - Rmax 0 (amount q a (along_by a d x) + X)) <= eps.
Proof.
  intros M X0 N A B. destruct M as (_ & NN & Z & S & AD).
  set (D := amount q a (along_by a d x)). pose proof (NN q a (along_by a d x)) as DP. fold D in DP.
  destruct (Rlt_le_dec X 0) as [H|H].
  - destruct (B H) as [T C]. destruct (Rle_dec 0 (x + t)) as [I|I].
    + rewrite Rmax_right by lra. pose proof (AD q a d (x + t) (- t) ltac:(lra) ltac:(lra)) as E. replace (x + t + - t) with x in E by ring. fold D in E.
      rewrite (S q _ (along_by a d x)) in E. set (y := amount q (along_by a d x) (along_by a d (x + t))) in *. set (z := amount q a (along_by a d (x + t))) in *.
      pose proof (NN q a (along_by a d (x + t))). fold z in H0. clearbody y z D. apply abs_between in C. apply Rabs_le. unfold Rmax. destruct (Rle_dec 0 (D + X)); lra.
    + rewrite Rmax_left by lra. rewrite along_0, Z.
      pose proof (AD q (along_by a d x) (vneg d) x (- (x + t)) ltac:(lra) ltac:(lra)) as E. rewrite !PathDepthProofs.along_neg, !along_back in E.
      replace (x + - (x + - (x + t))) with (x + t) in E by ring. replace (x + - x) with 0 in E by ring. rewrite along_0 in E. rewrite (S q _ a) in E. fold D in E.
      pose proof (NN q a (along_by a d (x + t))). set (y := amount q (along_by a d x) (along_by a d (x + t))) in *. clearbody y D. apply abs_between in C. apply Rabs_le. unfold Rmax. destruct (Rle_dec 0 (D + X)); lra.
  - assert (H' : 0 < X) by lra. destruct (A H') as [T C]. rewrite Rmax_right by lra. rewrite (AD q a d x t) by lra. fold D. rewrite Rmax_right by lra.
    match goal with |- Rabs ?e <= _ => replace e with (amount q (along_by a d x) (along_by a d (x + t)) - X) by ring end. exact C.
Qed.

Lemma extended_end {Q} (m : detector Q) amount p t p' q a x : proper m -> measures m amount -> sound m p -> set_geo p = true -> set_cached p = true ->
  first (geo p) = At a -> len p = Num x -> extend_end (Num t) p = Ok p' ->
  sound m p' /\ set_geo p' = true /\ set_cached p' = true /\
  exists p2, depth_in_bounds q p' = Ok (p2, Num (amount q a (along_by a (dir (geo p)) (Rmax 0 (x + t))))).
Proof.
  intros P M S G C F E H. destruct (extend_end_view m t p p' S H) as (_ & S' & G' & _ & _ & _ & _ & C' & D & F' & [(a' & x' & Fa & Ex & _ & _ & _ & _ & La)|(b & Fb & _)]); [|congruence].
  assert (a' = a) by congruence. assert (x' = x) by congruence. subst a' x'. split; [exact S'|]. split; [exact G'|]. split; [congruence|].
  eapply in_bounds; eauto; try rewrite (geo_of m p' P S' G').
  - intros K. congruence.
  - congruence.
  - exact La.
Qed.

Lemma extended_start {Q} (m : detector Q) amount p t p' q b x : proper m -> measures m amount -> sound m p -> set_geo p = true -> set_cached p = true ->
  last (geo p) = At b -> len p = Num x -> extend_start (Num t) p = Ok p' ->
  sound m p' /\ set_geo p' = true /\ set_cached p' = true /\
  exists p2, depth_in_bounds q p' = Ok (p2, Num (amount q b (along_by b (vneg (dir (geo p))) (Rmax 0 (x + t))))).
Proof.
  intros P M S G C La E H.
  assert (HF : extend_end (Num t) (flip p) = Ok (flip p')) by (rewrite (proj2 (extend_flip m P (Num t) p (proj1 S))), H; reflexivity).
  pose proof (flip_sound m P p S) as SF.
  destruct (extend_end_view m t (flip p) (flip p') SF HF) as (_ & S' & G' & _ & _ & _ & _ & C' & D & F' & [(a' & x' & Fa & Ex & _ & _ & _ & _ & Lb)|(b' & Fb & _)]).
  2: { cbn in Fb. congruence. }
  cbn [flip set_geo set_cached geo flip_ends first last dir len] in *.
  assert (a' = b) by congruence. assert (x' = x) by congruence. subst a' x'.
  assert (S1 : sound m p'). { rewrite <- (flip_flip p'). apply (flip_sound m P), S'. }
  split; [exact S1|]. split; [exact G'|]. split; [congruence|].
  assert (LP : last (geo p') = At b) by congruence.
  assert (K : castable p') by (intros K; congruence).
  destruct (in_bounds m amount p' q (along_by b (vscale (-1) (dir (geo p))) (Rmax 0 (x + t))) b P M S1 G' K) as [p2 E2]; try rewrite (geo_of m p' P S1 G'); auto.
  exists p2. rewrite E2. destruct M as (_ & _ & _ & SY & _). rewrite SY, scale_m1. reflexivity.
Qed.

Lemma located {Q} (m : detector Q) amount eps q a0 d0 u e X t : locates m amount eps -> vdot d0 d0 = 1 -> (exists s, u = along_by a0 d0 s) -> (e = d0 \/ e = vneg d0) ->
  d_reach m q (d_cast m (At a0) d0) (At u) e (Num X) = Num t ->
  (0 < X -> 0 <= t /\ Rabs (amount q u (along_by u e t) - X) <= eps) /\ (X < 0 -> t <= 0 /\ Rabs (amount q u (along_by u e t) + X) <= eps).
Proof.
  intros LO U [s ->] De R. destruct (LO q a0 d0 s e X U De) as [A B]. cbv zeta in A, B. rewrite R in A, B. split; intros N.
  - destruct (A N) as [(t' & E & T & C)|(E & _)]; [|discriminate]. injection E as <-. auto.
  - destruct (B N) as [(t' & E & T & C)|(E & _)]; [|discriminate]. injection E as <-. auto.
Qed.

(** All that is needed about a finite path made ready. *)
Lemma finite_ready {Q} (m : detector Q) p a b : proper m -> sound m p -> set_geo p = true -> first (get_geo_ends p) = At a -> last (get_geo_ends p) = At b ->
  exists p' a0 d0 x, prepare p = Ok p' /\ sound m p' /\ set_geo p' = true /\ model p' = Some m /\ geo p' = get_geo_ends p /\ len p' = Num x /\ 0 <= x /\ b = along_by a (dir (geo p')) x /\
  first_inf p' = false /\ last_inf p' = false /\ set_cached p' = true /\ cached p' = d_cast m (At a0) d0 /\ vdot d0 d0 = 1 /\
  (dir (geo p') = d0 \/ dir (geo p') = vneg d0) /\ (vneg (dir (geo p')) = d0 \/ vneg (dir (geo p')) = vneg d0) /\ (exists t, a = along_by a0 d0 t) /\ (exists t, b = along_by a0 d0 t).
Proof.
  intros P S G F La. destruct (prepared m P p S G (fun _ => ex_intro _ a F)) as (p' & a0 & d0 & PR & S' & G' & M' & EG & EL & I1 & I2 & SC & EC & U & D & L).
  destruct (sound_consistent m P p S G) as (LL & _). inversion LL as [a' x UU Xn Fa Lb Ek Ei Ej| |]; [|congruence|congruence].
  exists p', a0, d0, x. split; [exact PR|]. split; [exact S'|]. split; [exact G'|]. split; [exact M'|]. split; [exact EG|]. split; [congruence|]. split; [exact Xn|]. split; [congruence|].
  split; [congruence|]. split; [congruence|]. split; [exact SC|]. split; [exact EC|]. split; [exact U|]. rewrite EG. split; [exact D|]. split.
  - destruct D as [D|D]; rewrite D; [right; reflexivity|left; apply neg_neg].
  - split; apply L; [left|right]; assumption.
Qed.

(** Extending or shrinking by a depth changes the depth of the path by that much, to within [eps]; a negative depth does the opposite, and a path cannot shrink below nothing. *)
Lemma grow_end {Q} (m : detector Q) amount eps p q X a b : proper m -> measures m amount -> locates m amount eps -> sound m p -> set_geo p = true ->
  first (get_geo_ends p) = At a -> last (get_geo_ends p) = At b -> X <> 0 ->
  forall p', (reached reach_end_along q (Num X) p -> extend_end_by q (Num X) p = Ok p' ->
    sound m p' /\ set_geo p' = true /\ set_cached p' = true /\ exists p2 D, depth_in_bounds q p' = Ok (p2, Num D) /\ Rabs (D - Rmax 0 (amount q a b + X)) <= eps) /\
   (reached reach_end_reverse q (Num X) p -> shrink_end_by q (Num X) p = Ok p' ->
    sound m p' /\ set_geo p' = true /\ set_cached p' = true /\ exists p2 D, depth_in_bounds q p' = Ok (p2, Num D) /\ Rabs (D - Rmax 0 (amount q a b - X)) <= eps).
Proof.
  intros P M LO S G F La NX p'. destruct (finite_ready m p a b P S G F La) as (r & a0 & d0 & x & PR & Sr & Gr & Mr & EG & EL & X0 & Eb & I1 & I2 & SC & EC & U & D & DN & A & B).
  assert (Fr : first (geo r) = At a) by congruence. assert (Lr : last (geo r) = At b) by congruence. set (d := dir (geo r)) in *. split; intros R H.
  - unfold reached, reach_end_along in R. unfold extend_end_by, reach_end_along in H. rewrite PR in H, R. cbn [bind] in H, R. unfold require in H, R. rewrite I2 in H, R. cbn [bind] in H, R. unfold ask in H, R. rewrite Mr, Lr, EC in H, R. fold d in H, R. cbn [bind fst snd] in H.
    destruct (R _ eq_refl) as [t T]. cbn [snd] in T. rewrite T in H.
    destruct (located m amount eps q a0 d0 b d X t LO U B D T) as [Q1 Q2].
    destruct (extended_end m amount r t p' q a x P M Sr Gr SC Fr EL H) as (S' & G' & C' & p2 & E2). split; [exact S'|]. split; [exact G'|]. split; [exact C'|]. exists p2. eexists. split; [exact E2|].
    rewrite Eb. apply (stepped m amount); auto; intros N; [specialize (Q1 N)|specialize (Q2 N)]; rewrite Eb, along_back in *; assumption.
  - unfold reached, reach_end_reverse in R. unfold shrink_end_by, shrink_end, reach_end_reverse in H. rewrite PR in H, R. cbn [bind] in H, R. unfold require in H, R. rewrite I2 in H, R. cbn [bind] in H, R. unfold ask in H, R. rewrite Mr, Lr, EC in H, R. fold d in H, R. cbn [bind fst snd] in H.
    destruct (R _ eq_refl) as [t T]. cbn [snd] in T. rewrite T in H. cbn [nneg] in H.
    destruct (located m amount eps q a0 d0 b (vneg d) X t LO U B DN T) as [Q1 Q2].
    destruct (extended_end m amount r (- t) p' q a x P M Sr Gr SC Fr EL H) as (S' & G' & C' & p2 & E2). split; [exact S'|]. split; [exact G'|]. split; [exact C'|]. exists p2. eexists. split; [exact E2|].
    rewrite Eb. unfold Rminus at 2. apply (stepped m amount); auto; [lra| |]; intros N; [destruct Q2 as [T1 T2]; [lra|]|destruct Q1 as [T1 T2]; [lra|]]; rewrite Eb, PathDepthProofs.along_neg, along_back in T2; (split; [lra|]).
    + fold d. match type of T2 with Rabs ?e <= _ => match goal with |- Rabs ?f <= _ => replace f with e by ring end end. exact T2.
    + fold d. match type of T2 with Rabs ?e <= _ => match goal with |- Rabs ?f <= _ => replace f with e by ring end end. exact T2.
Qed.

Lemma grow_start {Q} (m : detector Q) amount eps p q X a b : proper m -> measures m amount -> locates m amount eps -> sound m p -> set_geo p = true ->
  first (get_geo_ends p) = At a -> last (get_geo_ends p) = At b -> X <> 0 ->
  forall p', (reached reach_start_reverse q (Num X) p -> extend_start_by q (Num X) p = Ok p' ->
    sound m p' /\ set_geo p' = true /\ set_cached p' = true /\ exists p2 D, depth_in_bounds q p' = Ok (p2, Num D) /\ Rabs (D - Rmax 0 (amount q a b + X)) <= eps) /\
   (reached reach_start_along q (Num X) p -> shrink_start_by q (Num X) p = Ok p' ->
    sound m p' /\ set_geo p' = true /\ set_cached p' = true /\ exists p2 D, depth_in_bounds q p' = Ok (p2, Num D) /\ Rabs (D - Rmax 0 (amount q a b - X)) <= eps).
Proof.
  intros P M LO S G F La NX p'. destruct (finite_ready m p a b P S G F La) as (r & a0 & d0 & x & PR & Sr & Gr & Mr & EG & EL & X0 & Eb & I1 & I2 & SC & EC & U & D & DN & A & B).
  assert (Fr : first (geo r) = At a) by congruence. assert (Lr : last (geo r) = At b) by congruence. set (d := dir (geo r)) in *.
  assert (Ea : a = along_by b (vneg d) x) by (rewrite Eb, PathDepthProofs.along_neg, along_back, Rplus_opp_r, along_0; reflexivity).
  assert (SY : amount q a b = amount q b a) by (destruct M as (_ & _ & _ & SY & _); apply SY). rewrite SY. split; intros R H.
  - unfold reached, reach_start_reverse in R. unfold extend_start_by, reach_start_reverse in H. rewrite PR in H, R. cbn [bind] in H, R. unfold require in H, R. rewrite I1 in H, R. cbn [bind] in H, R. unfold ask in H, R. rewrite Mr, Fr, EC in H, R. fold d in H, R. cbn [bind fst snd] in H.
    destruct (R _ eq_refl) as [t T]. cbn [snd] in T. rewrite T in H.
    destruct (located m amount eps q a0 d0 a (vneg d) X t LO U A DN T) as [Q1 Q2].
    destruct (extended_start m amount r t p' q b x P M Sr Gr SC Lr EL H) as (S' & G' & C' & p2 & E2). split; [exact S'|]. split; [exact G'|]. split; [exact C'|]. exists p2. eexists. split; [exact E2|].
    fold d. rewrite Ea at 1. apply (stepped m amount); auto; intros N; [specialize (Q1 N)|specialize (Q2 N)]; rewrite Ea, along_back in *; assumption.
  - unfold reached, reach_start_along in R. unfold shrink_start_by, shrink_start, reach_start_along in H. rewrite PR in H, R. cbn [bind] in H, R. unfold require in H, R. rewrite I1 in H, R. cbn [bind] in H, R. unfold ask in H, R. rewrite Mr, Fr, EC in H, R. fold d in H, R. cbn [bind fst snd] in H.
    destruct (R _ eq_refl) as [t T]. cbn [snd] in T. rewrite T in H. cbn [nneg] in H.
    destruct (located m amount eps q a0 d0 a d X t LO U A D T) as [Q1 Q2].
    destruct (extended_start m amount r (- t) p' q b x P M Sr Gr SC Lr EL H) as (S' & G' & C' & p2 & E2). split; [exact S'|]. split; [exact G'|]. split; [exact C'|]. exists p2. eexists. split; [exact E2|].
    assert (V : forall t, along_by a d t = along_by b (vneg d) (x + - t)). { intros s. rewrite PathDepthProofs.along_neg. rewrite Eb, along_back. f_equal. ring. }
    fold d. rewrite Ea at 1. unfold Rminus at 2. apply (stepped m amount); auto; [lra| |]; intros N; [destruct Q2 as [T1 T2]; [lra|]|destruct Q1 as [T1 T2]; [lra|]]; rewrite V in T2; rewrite Ea in T2 at 1; (split; [lra|]).
    + match type of T2 with Rabs ?e <= _ => match goal with |- Rabs ?f <= _ => replace f with e by ring end end. exact T2.
    + match type of T2 with Rabs ?e <= _ => match goal with |- Rabs ?f <= _ => replace f with e by ring end end. exact T2.
Qed.


Theorem C110_by : forall Q (m : detector Q) amount eps p q X a b p1 D p', proper m -> measures m amount -> locates m amount eps -> history m p -> set_geo p = true ->
  first (get_geo_ends p) = At a -> last (get_geo_ends p) = At b -> X <> 0 -> depth_in_bounds q p = Ok (p1, Num D) ->
  (fair m (ExtendEndBy q (Num X)) p -> extend_end_by q (Num X) p = Ok p' -> exists p2 D', depth_in_bounds q p' = Ok (p2, Num D') /\ Rabs (D' - Rmax 0 (D + X)) <= eps) /\
  (fair m (ShrinkEndBy q (Num X)) p -> shrink_end_by q (Num X) p = Ok p' -> exists p2 D', depth_in_bounds q p' = Ok (p2, Num D') /\ Rabs (D' - Rmax 0 (D - X)) <= eps) /\
  (fair m (ExtendStartBy q (Num X)) p -> extend_start_by q (Num X) p = Ok p' -> exists p2 D', depth_in_bounds q p' = Ok (p2, Num D') /\ Rabs (D' - Rmax 0 (D + X)) <= eps) /\
  (fair m (ShrinkStartBy q (Num X)) p -> shrink_start_by q (Num X) p = Ok p' -> exists p2 D', depth_in_bounds q p' = Ok (p2, Num D') /\ Rabs (D' - Rmax 0 (D - X)) <= eps).
Proof.
  intros Q m amount eps p q X a b p1 D p' P M LO H G F La NX E. apply (history_sound m P) in H.
  destruct (in_bounds m amount p q a b P M H G (fun _ => ex_intro _ a F) F La) as [p0 E0]. rewrite E in E0. injection E0 as _ ->.
  destruct (grow_end m amount eps p q X a b P M LO H G F La NX p') as [A B]. destruct (grow_start m amount eps p q X a b P M LO H G F La NX p') as [A' B'].
  split; [|split; [|split]]; intros [_ R] K; [destruct (A R K) as (_ & _ & _ & Z)|destruct (B R K) as (_ & _ & _ & Z)|destruct (A' R K) as (_ & _ & _ & Z)|destruct (B' R K) as (_ & _ & _ & Z)]; exact Z.
Qed.
Print Assumptions C110_by.

(** Extending up to a depth gives the larger of the two depths, shrinking to a depth the smaller. *)
Theorem C110_upto : forall Q (m : detector Q) amount eps p q X a b p1 D p', proper m -> measures m amount -> locates m amount eps -> 0 <= eps -> history m p -> set_geo p = true ->
  first (get_geo_ends p) = At a -> last (get_geo_ends p) = At b -> depth_in_bounds q p = Ok (p1, Num D) ->
  (fair m (ExtendEndUpto q (Num X)) p -> extend_end_upto q (Num X) p = Ok p' -> exists p2 D', depth_in_bounds q p' = Ok (p2, Num D') /\ Rabs (D' - Rmax D X) <= eps) /\
  (fair m (ExtendStartUpto q (Num X)) p -> extend_start_upto q (Num X) p = Ok p' -> exists p2 D', depth_in_bounds q p' = Ok (p2, Num D') /\ Rabs (D' - Rmax D X) <= eps) /\
  (0 <= X -> fair m (ShrinkEndUpto q (Num X)) p -> shrink_end_upto q (Num X) p = Ok p' -> exists p2 D', depth_in_bounds q p' = Ok (p2, Num D') /\ Rabs (D' - Rmin D X) <= eps) /\
  (0 <= X -> fair m (ShrinkStartUpto q (Num X)) p -> shrink_start_upto q (Num X) p = Ok p' -> exists p2 D', depth_in_bounds q p' = Ok (p2, Num D') /\ Rabs (D' - Rmin D X) <= eps).
Proof.
  intros Q m amount eps p q X a b p1 D p' P M LO PE H G F La E. apply (history_sound m P) in H.
  assert (K : castable p) by (intros _; eauto).
  destruct (in_bounds m amount p q a b P M H G K F La) as [p0 E0]. rewrite E in E0. injection E0 as _ ->.
  pose proof (amount_pos m amount M q a b) as DP.
  destruct (depth_sound m P q p _ H K E) as (S1 & PR & G1 & _). cbn [fst] in *.
  destruct (finite_ready m p a b P H G F La) as (r & a0 & d0 & x & PR' & Sr & Gr & Mr & EG & EL & X0 & Eb & I1 & I2 & SC & _). rewrite PR in PR'. injection PR' as <-.
  assert (F1 : first (get_geo_ends p1) = At a) by (rewrite (geo_of m p1 P S1 G1); congruence).
  assert (L1 : last (get_geo_ends p1) = At b) by (rewrite (geo_of m p1 P S1 G1); congruence).
  assert (K1 : castable p1) by (intros Z; congruence).
  destruct (in_bounds m amount p1 q a b P M S1 G1 K1 F1 L1) as [p3 E3]. set (D := amount q a b) in *. cbn [fair].
  unfold extend_end_upto, extend_start_upto, shrink_end_upto, shrink_start_upto. rewrite E. cbn [bind fst snd nadd nneg].
  assert (SAME : forall e, e = D -> exists p2 D', depth_in_bounds q p1 = Ok (p2, Num D') /\ Rabs (D' - e) <= eps).
  { intros e ->. exists p3, D. split; [exact E3|]. rewrite Rminus_eq_0, Rabs_R0. exact PE. }
  split; [|split; [|split]].
  - intros [_ R] Z. specialize (R _ eq_refl). cbn [fst snd nadd nneg] in R. cbn [nltb] in Z. destruct (Rlt_dec 0 (X + - D)).
    + destruct (grow_end m amount eps p1 q (X + - D) a b P M LO S1 G1 F1 L1 ltac:(lra) p') as [A _]. destruct (A R Z) as (_ & _ & _ & Y). fold D in Y.
      rewrite Rmax_right by lra. replace (Rmax 0 (D + (X + - D))) with X in Y by (rewrite Rmax_right; lra). exact Y.
    + injection Z as <-. apply SAME. apply Rmax_left. lra.
  - intros [_ R] Z. specialize (R _ eq_refl). cbn [fst snd nadd nneg] in R. cbn [nltb] in Z. destruct (Rlt_dec 0 (X + - D)).
    + destruct (grow_start m amount eps p1 q (X + - D) a b P M LO S1 G1 F1 L1 ltac:(lra) p') as [A _]. destruct (A R Z) as (_ & _ & _ & Y). fold D in Y.
      rewrite Rmax_right by lra. replace (Rmax 0 (D + (X + - D))) with X in Y by (rewrite Rmax_right; lra). exact Y.
    + injection Z as <-. apply SAME. apply Rmax_left. lra.
  - intros PX [_ R] Z. specialize (R _ eq_refl). cbn [fst snd nadd nneg] in R. cbn [nltb] in Z. destruct (Rlt_dec 0 (D + - X)).
    + destruct (grow_end m amount eps p1 q (D + - X) a b P M LO S1 G1 F1 L1 ltac:(lra) p') as [_ A]. destruct (A R Z) as (_ & _ & _ & Y). fold D in Y.
      rewrite Rmin_right by lra. replace (Rmax 0 (D - (D + - X))) with X in Y by (rewrite Rmax_right; lra). exact Y.
    + injection Z as <-. apply SAME. apply Rmin_left. lra.
  - intros PX [_ R] Z. specialize (R _ eq_refl). cbn [fst snd nadd nneg] in R. cbn [nltb] in Z. destruct (Rlt_dec 0 (D + - X)).
    + destruct (grow_start m amount eps p1 q (D + - X) a b P M LO S1 G1 F1 L1 ltac:(lra) p') as [_ A]. destruct (A R Z) as (_ & _ & _ & Y). fold D in Y.
      rewrite Rmin_right by lra. replace (Rmax 0 (D - (D + - X))) with X in Y by (rewrite Rmax_right; lra). exact Y.
    + injection Z as <-. apply SAME. apply Rmin_left. lra.
Qed.
Print Assumptions C110_upto.

(** Distances for a depth within a finite path: no more than its length, and right for the part of the depth that fits. *)
Lemma kept {Q} (m : detector Q) amount eps q a0 d0 u e X x : measures m amount -> locates m amount eps -> 0 <= eps -> vdot d0 d0 = 1 -> (exists s, u = along_by a0 d0 s) -> (e = d0 \/ e = vneg d0) -> 0 <= x ->
  forall p' : path Q, len p' = Num x -> let r := bounded (Num X) (d_reach m q (d_cast m (At a0) d0) (At u) e (Num X)) p' in
  (X < 0 -> r = Num 0) /\ (0 < X -> exists t, r = Num t /\ 0 <= t <= x /\ Rabs (amount q u (along_by u e t) - Rmin X (amount q u (along_by u e x))) <= eps).
Proof.
  intros M LO PE U [s ->] De X0 p' EL r. destruct (LO q a0 d0 s e X U De) as [A B]. cbv zeta in A, B. set (u := along_by a0 d0 s) in *. split; intros N.
  - destruct (B N) as [(t & E & T & _)|(E & _)]; unfold r, bounded; rewrite EL, E; cbn [nltb nleb].
    + destruct (Rlt_dec x t); [lra|]. destruct (Rlt_dec 0 X); [lra|]. reflexivity.
    + destruct (Rlt_dec 0 X); [lra|]. reflexivity.
  - destruct (A N) as [(t & E & T & C)|(E & C)]; unfold r, bounded; rewrite EL, E; cbn [nltb nleb].
    + pose proof (abs_between _ _ C) as C'. destruct (Rlt_dec x t) as [I|I].
      * exists x. split; [reflexivity|]. split; [lra|]. pose proof (amount_mono m amount M q u e x t ltac:(lra)). apply Rabs_le. unfold Rmin. destruct (Rle_dec X _); lra.
      * destruct (Rlt_dec 0 X); [|lra]. cbn [negb]. exists t. split; [reflexivity|]. split; [lra|]. pose proof (amount_mono m amount M q u e t x ltac:(lra)). apply Rabs_le. unfold Rmin. destruct (Rle_dec X _); lra.
    + cbn [negb]. exists x. split; [reflexivity|]. split; [lra|]. specialize (C x X0). rewrite Rmin_right by lra. rewrite Rminus_eq_0, Rabs_R0. exact PE.
Qed.

Theorem C110_reach_bounds : forall Q (m : detector Q) amount eps p q X a b x p1 D, proper m -> measures m amount -> locates m amount eps -> 0 <= eps -> history m p -> set_geo p = true ->
  first (get_geo_ends p) = At a -> last (get_geo_ends p) = At b -> get_distance p = Num x -> depth_in_bounds q p = Ok (p1, Num D) ->
  (X < 0 -> (exists p', reach_start_bounds q (Num X) p = Ok (p', Num 0)) /\ exists p', reach_end_bounds q (Num X) p = Ok (p', Num 0)) /\
  (0 < X ->
   (exists p' t p'' Y, reach_start_bounds q (Num X) p = Ok (p', Num t) /\ 0 <= t <= x /\ depth_start_bounds q (Num t) p = Ok (p'', Num Y) /\ Rabs (Y - Rmin X D) <= eps) /\
   (exists p' t p'' Y, reach_end_bounds q (Num X) p = Ok (p', Num t) /\ 0 <= t <= x /\ depth_end_bounds q (Num t) p = Ok (p'', Num Y) /\ Rabs (Y - Rmin X D) <= eps)).
Proof.
  intros Q m amount eps p q X a b x p1 D P M LO PE H G F La EX E. pose proof (history_sound m P p H) as S.
  assert (K : castable p) by (intros _; eauto).
  destruct (in_bounds m amount p q a b P M S G K F La) as [p0 E0]. rewrite E in E0. injection E0 as _ ->.
  destruct (finite_ready m p a b P S G F La) as (r & a0 & d0 & x' & PR & Sr & Gr & Mr & EG & EL & X0 & Eb & I1 & I2 & SC & EC & U & De & DN & A & B).
  assert (x' = x). { destruct (prepare_sound m P p r S K PR) as (_ & _ & _ & _ & _ & _ & _ & _ & EL' & _). congruence. } subst x'.
  assert (RS : reach_start_bounds q (Num X) p = Ok (r, bounded (Num X) (d_reach m q (d_cast m (At a0) d0) (At a) (dir (geo r)) (Num X)) r)).
  { unfold reach_start_bounds, reach_start_along. rewrite PR. cbn [bind]. unfold require. rewrite I1. cbn [bind]. unfold ask. rewrite Mr, EC. rewrite EG, F. reflexivity. }
  assert (RE : reach_end_bounds q (Num X) p = Ok (r, bounded (Num X) (d_reach m q (d_cast m (At a0) d0) (At b) (vneg (dir (geo r))) (Num X)) r)).
  { unfold reach_end_bounds, reach_end_reverse. rewrite PR. cbn [bind]. unfold require. rewrite I2. cbn [bind]. unfold ask. rewrite Mr, EC. rewrite EG, La. reflexivity. }
  destruct (kept m amount eps q a0 d0 a (dir (geo r)) X x M LO PE U A De X0 r EL) as [S1 S2].
  destruct (kept m amount eps q a0 d0 b (vneg (dir (geo r))) X x M LO PE U B DN X0 r EL) as [T1 T2].
  rewrite RS, RE. split; intros N.
  - rewrite (S1 N), (T1 N). eauto.
  - destruct (S2 N) as (t & Et & Ht & C). destruct (T2 N) as (t' & Et' & Ht' & C'). rewrite Et, Et'. split.
    + destruct (C110_from_start Q m amount p q t a P M H G F) as (_ & _ & p'' & Z). rewrite EX in Z. cbn [within_length] in Z. rewrite Rmax_right, Rmin_right in Z by lra. rewrite <- EG in Z.
      exists r, t, p''. eexists. split; [reflexivity|]. split; [exact Ht|]. split; [exact Z|]. rewrite <- Eb in C. exact C.
    + destruct (C110_from_end Q m amount p q t' b P M H G K La) as (_ & _ & p'' & Z). rewrite EX in Z. cbn [within_length] in Z. rewrite Rmax_right, Rmin_right in Z by lra. rewrite <- EG in Z.
      exists r, t', p''. eexists. split; [reflexivity|]. split; [exact Ht'|]. split; [exact Z|]. rewrite !PathDepthProofs.along_neg in C'.
      replace (amount q a b) with (amount q b (along_by b (dir (geo r)) (- x))); [exact C'|].
      rewrite Eb, along_back, Rplus_opp_r, along_0. destruct M as (_ & _ & _ & SY & _). apply SY.
Qed.
Print Assumptions C110_reach_bounds.
