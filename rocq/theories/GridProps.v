(** Property C106. *)
From Coq Require Import Reals List ZArith Bool Sorted Permutation Lia Lra.
From Verif Require Import TraversalModel TransModel IdxModel IdxSpec IdxProofs IdxProps.
Import ListNotations.
Open Scope R_scope.

Lemma insert_unique_in a l x : In x (insert_unique a l) <-> x = a \/ In x l.
Proof.
  induction l as [|b t IH]; cbn; [split; intros [H|H]; auto; contradiction|]. destruct (Rlt_dec a b); [cbn; split; intros [H|[H|H]]; auto|].
  destruct (Rlt_dec b a); cbn; [rewrite IH; split; intros [H|[H|H]]; auto|]. assert (a = b) by lra. subst. split; [auto|intros [H|H]; auto].
Qed.
Lemma unique_in l x : In x (unique l) <-> In x l.
Proof. induction l as [|a t IH]; cbn; [tauto|]. rewrite insert_unique_in, IH. split; intros [H|H]; auto. Qed.
Lemma insert_unique_sorted a l : StronglySorted Rlt l -> StronglySorted Rlt (insert_unique a l).
Proof.
  induction l as [|b t IH]; intros H; cbn; [repeat constructor|]. pose proof H as H0. apply StronglySorted_inv in H as [S F]. destruct (Rlt_dec a b) as [L|L].
  - constructor; [exact H0|]. constructor; [exact L|]. rewrite Forall_forall in *. intros c C. specialize (F c C). lra.
  - destruct (Rlt_dec b a) as [M|M]; [|exact H0]. constructor; [auto|]. rewrite Forall_forall in *. intros c C. apply insert_unique_in in C. destruct C as [->|C]; auto.
Qed.
Lemma unique_sorted l : StronglySorted Rlt (unique l).
Proof. induction l as [|a t IH]; cbn; [constructor|]. apply insert_unique_sorted, IH. Qed.
Lemma strict_ascending l : StronglySorted Rlt l -> ascending l.
Proof. induction 1 as [|a t S IH F]; constructor; auto. eapply Forall_impl; [|exact F]. intros; lra. Qed.
Lemma strict_nth l i j : StronglySorted Rlt l -> (i < j)%nat -> (j < length l)%nat -> nth i l 0 < nth j l 0.
Proof.
  revert i j. induction l as [|a t IH]; intros i j A IJ J; [cbn in J; lia|]. apply StronglySorted_inv in A as [A F]. rewrite Forall_forall in F.
  destruct i as [|i]; destruct j as [|j]; try lia; cbn.
  - apply F, nth_In. cbn in J. lia.
  - apply IH; auto; cbn in J; lia.
Qed.

Lemma place_nth l a : In a l -> (place l a < length l)%nat /\ nth (place l a) l 0 = a.
Proof.
  induction l as [|b t IH]; intros H; [destruct H|]. cbn. destruct (Req_EM_T a b) as [->|N]; [split; [lia|reflexivity]|]. destruct H as [->|H]; [contradiction|]. destruct (IH H). split; [lia|auto].
Qed.
Lemma place_of_nth l i : StronglySorted Rlt l -> (i < length l)%nat -> place l (nth i l 0) = i.
Proof.
  intros S I. destruct (place_nth l (nth i l 0) (nth_In l 0 I)) as [A B]. destruct (Nat.lt_trichotomy (place l (nth i l 0)) i) as [L|[E|L]]; auto; exfalso.
  - pose proof (strict_nth l _ _ S L I). lra.
  - pose proof (strict_nth l _ _ S L A). lra.
Qed.

Lemma entry_some ux uy pts : forall i a b z, entry ux uy pts i a b = Some z ->
  exists x y, nth_error pts (z - i) = Some (x, y) /\ (i <= z)%nat /\ place ux x = a /\ place uy y = b /\
  forall k x' y', (k < z - i)%nat -> nth_error pts k = Some (x', y') -> ~ (place ux x' = a /\ place uy y' = b).
Proof.
  induction pts as [|[x y] t IH]; intros i a b z H; [discriminate|]. cbn in H. destruct (Nat.eqb_spec (place ux x) a) as [A|A]; destruct (Nat.eqb_spec (place uy y) b) as [B|B]; cbn in H.
  - injection H as <-. exists x, y. rewrite Nat.sub_diag. split; [reflexivity|]. split; [lia|]. split; [exact A|]. split; [exact B|]. intros; lia.
  - destruct (IH _ _ _ _ H) as [x' [y' [E [L [C [D F]]]]]]. exists x', y'. replace (z - i)%nat with (S (z - S i)) by lia. cbn. repeat split; auto; [lia|]. intros [|k] x2 y2 K N; cbn in N; [injection N as <- <-; tauto|]. eapply F; eauto. lia.
  - destruct (IH _ _ _ _ H) as [x' [y' [E [L [C [D F]]]]]]. exists x', y'. replace (z - i)%nat with (S (z - S i)) by lia. cbn. repeat split; auto; [lia|]. intros [|k] x2 y2 K N; cbn in N; [injection N as <- <-; tauto|]. eapply F; eauto. lia.
  - destruct (IH _ _ _ _ H) as [x' [y' [E [L [C [D F]]]]]]. exists x', y'. replace (z - i)%nat with (S (z - S i)) by lia. cbn. repeat split; auto; [lia|]. intros [|k] x2 y2 K N; cbn in N; [injection N as <- <-; tauto|]. eapply F; eauto. lia.
Qed.
Lemma entry_none ux uy pts : forall i a b, entry ux uy pts i a b = None -> forall x y, In (x, y) pts -> ~ (place ux x = a /\ place uy y = b).
Proof.
  induction pts as [|[x y] t IH]; intros i a b H x' y' I [A B]; [destruct I|]. cbn in H. destruct ((place ux x =? a) && (place uy y =? b))%nat eqn:E; [discriminate|].
  destruct I as [I|I]; [|apply (IH _ _ _ H x' y' I); auto]. injection I as <- <-. rewrite <- A, <- B, !Nat.eqb_refl in E. discriminate.
Qed.

(** The first of the points given at a place. *)
Definition first_at (pts : list (R * R)) (z : nat) (a b : R) : Prop :=
  nth_error pts z = Some (a, b) /\ forall k, (k < z)%nat -> nth_error pts k <> Some (a, b).

Lemma entry_at pts i j z : let ux := unique (map fst pts) in let uy := unique (map snd pts) in
  (i < length ux)%nat -> (j < length uy)%nat -> entry ux uy pts 0 i j = Some z -> first_at pts z (nth i ux 0) (nth j uy 0).
Proof.
  intros ux uy I J E. apply entry_some in E. destruct E as [x [y [E [_ [A [B F]]]]]]. rewrite Nat.sub_0_r in E, F.
  assert (IX : In x ux) by (apply unique_in; apply nth_error_In in E; apply (in_map fst) in E; exact E).
  assert (IY : In y uy) by (apply unique_in; apply nth_error_In in E; apply (in_map snd) in E; exact E).
  destruct (place_nth ux x IX) as [_ X]. destruct (place_nth uy y IY) as [_ Y]. rewrite A in X. rewrite B in Y. rewrite X, Y. split; [exact E|].
  intros k K N. apply (F k x y K N). auto.
Qed.

Lemma located_cell l x i j : located (unique l) x i j -> cell l x (nth i (unique l) 0) (nth j (unique l) 0).
Proof.
  pose proof (unique_sorted l) as S. pose proof (strict_ascending _ S) as A. pose proof (unique_in l) as U. set (u := unique l) in *. clearbody u.
  intros [-> [L [M _]]]. split; [apply U, nth_In; lia|]. split; [apply U, nth_In; lia|]. split; [apply strict_nth; auto|]. split.
  - intros c C. apply U in C. apply In_nth with (d := 0) in C. destruct C as [k [K <-]]. destruct (le_lt_dec k i); [left|right]; apply ascending_nth; auto; lia.
  - intros [c [C C1]] [e [E E1]]. apply M. apply U in C. apply U in E. apply In_nth with (d := 0) in C. apply In_nth with (d := 0) in E. destruct C as [k [K <-]]. destruct E as [k' [K' <-]].
    rewrite hd_nth, last_nth. pose proof (ascending_nth u 0 k A ltac:(lia) K). pose proof (ascending_nth u k' (length u - 1) A ltac:(lia) ltac:(lia)). lra.
Qed.

(** What an indexer over the different values of a coordinate must do. *)
Definition finds (new : list R -> outcome indexer) (l : list R) : Prop :=
  exists i, new (unique l) = Ok i /\ forall x p q, index_at i x = Ok (p, q) -> located (unique l) x p q.

Lemma irregular_finds l a b : In a l -> In b l -> a <> b ->
  exists i, new_irregular (unique l) = Ok i /\ forall x, exists p q, index_at i x = Ok (p, q) /\ located (unique l) x p q.
Proof.
  intros I J N. destruct (C105_located (unique l) (unique l) (Permutation_refl _) (strict_ascending _ (unique_sorted l))) as [h [E H]].
  - exists a, b. split; [apply unique_in, I|]. split; [apply unique_in, J|exact N].
  - exists (Irregular h). split; [unfold new_irregular; rewrite E; reflexivity|]. intros x. exists (fst (irregular_at h x)), (snd (irregular_at h x)). split; [cbn; destruct (irregular_at h x); reflexivity|apply H].
Qed.

(** ** C106 *)

(** On a full grid with at least two abscissae and two ordinates, a look-up with irregular indexers returns, for every position, the first entries given for the four corners of the cell that contains it. *)
Theorem C106_full : forall pts, full_grid pts ->
  (exists p q, In p pts /\ In q pts /\ fst p <> fst q) -> (exists p q, In p pts /\ In q pts /\ snd p <> snd q) ->
  forall x y, exists r, grid_at new_irregular pts x y = Ok r /\ exists a b c d,
    first_at pts (z00 r) a c /\ first_at pts (z01 r) a d /\ first_at pts (z10 r) b c /\ first_at pts (z11 r) b d /\
    cell (map fst pts) x a b /\ cell (map snd pts) y c d.
Proof.
  intros pts F [p [q [P [Q N]]]] [p' [q' [P' [Q' N']]]] x y.
  destruct (irregular_finds (map fst pts) (fst p) (fst q)) as [ix [EX HX]]; auto using in_map.
  destruct (irregular_finds (map snd pts) (snd p') (snd q')) as [iy [EY HY]]; auto using in_map.
  destruct (HX x) as [i [i' [IX LX]]]. destruct (HY y) as [j [j' [IY LY]]]. unfold grid_at. rewrite EX, EY, IX, IY.
  pose proof LX as [_ [LI _]]. pose proof LX as [EI _]. pose proof LY as [EJ [LJ _]].
  set (ux := unique (map fst pts)) in *. set (uy := unique (map snd pts)) in *.
  assert (T : forall k m, (k < length ux)%nat -> (m < length uy)%nat -> exists z, entry ux uy pts 0 k m = Some z).
  { intros k m K M. destruct (entry ux uy pts 0 k m) eqn:E; [eauto|]. exfalso.
    assert (A : In (nth k ux 0) (map fst pts)) by (apply unique_in, nth_In, K). assert (B : In (nth m uy 0) (map snd pts)) by (apply unique_in, nth_In, M).
    apply in_map_iff in A. destruct A as [u [A U]]. apply in_map_iff in B. destruct B as [v [B V]]. specialize (F u v U V). rewrite A, B in F.
    apply (entry_none _ _ _ _ _ _ E _ _ F). split; apply place_of_nth; auto; apply unique_sorted. }
  destruct (T i j ltac:(lia) ltac:(lia)) as [z1 E1]. destruct (T i j' ltac:(lia) ltac:(lia)) as [z2 E2]. destruct (T i' j ltac:(lia) ltac:(lia)) as [z3 E3]. destruct (T i' j' ltac:(lia) ltac:(lia)) as [z4 E4].
  rewrite E1, E2, E3, E4. eexists. split; [reflexivity|]. cbn [IdxModel.z00 IdxModel.z01 IdxModel.z10 IdxModel.z11].
  exists (nth i ux 0), (nth i' ux 0), (nth j uy 0), (nth j' uy 0).
  split; [apply entry_at; auto; fold ux uy; lia|]. split; [apply entry_at; auto; fold ux uy; lia|]. split; [apply entry_at; auto; fold ux uy; lia|]. split; [apply entry_at; auto; fold ux uy; lia|].
  split; [apply located_cell, LX|apply located_cell, LY].
Qed.
Print Assumptions C106_full.

(** With any indexers that find the cell of a coordinate, whatever is returned are the first entries for its corners, and an exception means that a corner is missing. *)
Theorem C106_corners : forall new pts, finds new (map fst pts) -> finds new (map snd pts) -> forall x y,
  (forall r, grid_at new pts x y = Ok r -> exists a b c d,
    first_at pts (z00 r) a c /\ first_at pts (z01 r) a d /\ first_at pts (z10 r) b c /\ first_at pts (z11 r) b d /\
    cell (map fst pts) x a b /\ cell (map snd pts) y c d) /\
  (grid_at new pts x y = Throw -> exists a b c d, cell (map fst pts) x a b /\ cell (map snd pts) y c d /\
    ~ (In (a, c) pts /\ In (a, d) pts /\ In (b, c) pts /\ In (b, d) pts)).
Proof.
  intros new pts [ix [EX HX]] [iy [EY HY]] x y. unfold grid_at. rewrite EX, EY.
  destruct (index_at ix x) as [[i i']| |] eqn:IX; [|split; discriminate..]. destruct (index_at iy y) as [[j j']| |] eqn:IY; [|split; discriminate..].
  pose proof (HX x i i' IX) as LX. pose proof (HY y j j' IY) as LY. pose proof LX as [EI [LI _]]. pose proof LY as [EJ [LJ _]].
  set (ux := unique (map fst pts)) in *. set (uy := unique (map snd pts)) in *.
  assert (T : forall k m, (k < length ux)%nat -> (m < length uy)%nat -> In (nth k ux 0, nth m uy 0) pts -> entry ux uy pts 0 k m <> None).
  { intros k m K M I E. apply (entry_none _ _ _ _ _ _ E _ _ I). split; apply place_of_nth; auto; apply unique_sorted. }
  destruct (entry ux uy pts 0 i j) as [z1|] eqn:E1; [destruct (entry ux uy pts 0 i j') as [z2|] eqn:E2; [destruct (entry ux uy pts 0 i' j) as [z3|] eqn:E3; [destruct (entry ux uy pts 0 i' j') as [z4|] eqn:E4|]|]|].
  1: { split; [|discriminate]. intros r E. injection E as <-. cbn [IdxModel.z00 IdxModel.z01 IdxModel.z10 IdxModel.z11].
    exists (nth i ux 0), (nth i' ux 0), (nth j uy 0), (nth j' uy 0).
    split; [apply entry_at; auto; fold ux uy; lia|]. split; [apply entry_at; auto; fold ux uy; lia|]. split; [apply entry_at; auto; fold ux uy; lia|]. split; [apply entry_at; auto; fold ux uy; lia|].
    split; [apply located_cell, LX|apply located_cell, LY]. }
  all: split; [discriminate|]; intros _; exists (nth i ux 0), (nth i' ux 0), (nth j uy 0), (nth j' uy 0); (split; [apply located_cell, LX|]); (split; [apply located_cell, LY|]); intros [I1 [I2 [I3 I4]]].
  - apply (T i' j' ltac:(lia) ltac:(lia) I4 E4).
  - apply (T i' j ltac:(lia) ltac:(lia) I3 E3).
  - apply (T i j' ltac:(lia) ltac:(lia) I2 E2).
  - apply (T i j ltac:(lia) ltac:(lia) I1 E1).
Qed.
Print Assumptions C106_corners.

(** Regular indexers find the cell if the different values have equal steps. *)
Theorem C106_regular : forall l, equal_steps (unique l) -> (2 <= length (unique l))%nat -> (Z.of_nat (length (unique l)) < 2 ^ 31)%Z -> finds new_regular l.
Proof.
  intros l E N B. destruct (C104_located (unique l) (unique l) (Permutation_refl _) E N B) as [g [M [_ H]]]. exists (Regular g). split; [unfold new_regular; rewrite M; reflexivity|].
  intros x p q I. apply H, I.
Qed.
Print Assumptions C106_regular.

(** Two by two points, given in no particular order, one of them twice. *)
Example C106_case : let pts := [(1, 5); (0, 3); (1, 3); (0, 5); (1, 3)] in
  full_grid pts /\ (exists p q, In p pts /\ In q pts /\ fst p <> fst q) /\ (exists p q, In p pts /\ In q pts /\ snd p <> snd q).
Proof.
  intros pts. split; [|split].
  - intros p q P Q. unfold pts in *. cbn in P, Q. repeat (destruct P as [<-|P]; [repeat (destruct Q as [<-|Q]; [cbn; auto 10|]); destruct Q|]). destruct P.
  - exists (1, 5), (0, 3). cbn. repeat split; auto; lra.
  - exists (1, 5), (0, 3). cbn. repeat split; auto; lra.
Qed.
