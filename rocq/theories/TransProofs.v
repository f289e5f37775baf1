(** Lemmas on the transforms and operators. *)
From Coq Require Import Reals List Bool Lra.
From Verif Require Import TraversalModel TransModel TransSpec.
Import ListNotations.
Open Scope R_scope.

Lemma copysign_abs a s : 0 <= a -> Rabs (copysign a s) = a.
Proof. intros A. unfold copysign. destruct (Rlt_dec s 0); rewrite ?Rabs_Ropp, Rabs_Rabsolu, Rabs_pos_eq; auto. Qed.
Lemma copysign_neg a s : 0 <= a -> s < 0 -> copysign a s = - a.
Proof. intros A S. unfold copysign. destruct (Rlt_dec s 0); [|lra]. rewrite Rabs_pos_eq; auto. Qed.
Lemma copysign_pos a s : 0 <= a -> 0 <= s -> copysign a s = a.
Proof. intros A S. unfold copysign. destruct (Rlt_dec s 0); [lra|]. rewrite Rabs_pos_eq; auto. Qed.

(** The logarithmic part is at least [m]. *)
Lemma tail_ge m a : 0 < m -> m <= a -> m <= ln a - ln m + m.
Proof.
  intros M A. destruct (Req_dec a m) as [->|N]; [lra|]. pose proof (ln_increasing m a M ltac:(lra)). lra.
Qed.
Lemma tail_inv m a : 0 < m -> 0 < a -> exp (ln a - ln m + m - m + ln m) = a.
Proof. intros M A. replace (ln a - ln m + m - m + ln m) with (ln a) by ring. apply exp_ln, A. Qed.
Lemma head_ge m y : 0 < m -> m <= y -> m <= exp (y - m + ln m).
Proof.
  intros M Y. rewrite exp_plus, exp_ln by auto. assert (1 <= exp (y - m)).
  { rewrite <- exp_0. destruct (Req_dec y m) as [->|N]; [right; f_equal; ring|]. left. apply exp_increasing. lra. }
  rewrite <- (Rmult_1_l m) at 1. apply Rmult_le_compat_r; lra.
Qed.

Lemma symlog_undoes m : 0 < m -> undoes (apply (SymLog m)) (invert (SymLog m)).
Proof.
  intros M. split.
  - intros x y E. cbn in E. injection E as <-. cbn. destruct (Rlt_dec (Rabs x) m) as [L|L].
    + destruct (Rlt_dec (Rabs x) m); [reflexivity|lra].
    + pose proof (tail_ge m (Rabs x) M ltac:(lra)) as T. rewrite copysign_abs by lra. destruct (Rlt_dec _ m) as [B|_]; [lra|].
      rewrite tail_inv by lra. destruct (Rlt_dec x 0) as [N|N].
      * rewrite (copysign_neg _ x) by lra. rewrite copysign_neg by lra. rewrite Rabs_left by lra. lra.
      * rewrite (copysign_pos _ x) by lra. rewrite copysign_pos by lra. rewrite Rabs_pos_eq; lra.
  - intros y. cbn. f_equal. destruct (Rlt_dec (Rabs y) m) as [L|L].
    + destruct (Rlt_dec (Rabs y) m); [reflexivity|lra].
    + pose proof (head_ge m (Rabs y) M ltac:(lra)) as T. rewrite copysign_abs by lra. destruct (Rlt_dec _ m) as [B|_]; [lra|].
      rewrite ln_exp. destruct (Rlt_dec y 0) as [N|N].
      * rewrite (copysign_neg _ y) by lra. rewrite copysign_neg by lra. rewrite Rabs_left by lra. lra.
      * rewrite (copysign_pos _ y) by lra. rewrite copysign_pos by lra. rewrite Rabs_pos_eq; lra.
Qed.

Lemma symlog_rising m : 0 < m -> rising (apply (SymLog m)).
Proof.
  intros M x y u v E F L. cbn in E, F. injection E as <-. injection F as <-.
  destruct (Rlt_dec (Rabs x) m) as [A|A]; destruct (Rlt_dec (Rabs y) m) as [B|B].
  - exact L.
  - pose proof (tail_ge m (Rabs y) M ltac:(lra)). destruct (Rlt_dec y 0) as [N|N].
    + rewrite Rabs_left in B by lra. rewrite Rabs_left in A by lra. lra.
    + rewrite (copysign_pos _ y) by lra. apply Rabs_def2 in A. lra.
  - pose proof (tail_ge m (Rabs x) M ltac:(lra)). destruct (Rlt_dec x 0) as [N|N].
    + rewrite (copysign_neg _ x) by lra. apply Rabs_def2 in B. lra.
    + rewrite Rabs_pos_eq in A by lra. rewrite Rabs_pos_eq in B by lra. lra.
  - pose proof (tail_ge m (Rabs y) M ltac:(lra)). pose proof (tail_ge m (Rabs x) M ltac:(lra)).
    destruct (Rlt_dec x 0) as [N|N]; destruct (Rlt_dec y 0) as [K|K].
    + rewrite (copysign_neg _ x), (copysign_neg _ y) by lra. rewrite (Rabs_left x), (Rabs_left y) in * by lra.
      pose proof (ln_increasing (- y) (- x) ltac:(lra) ltac:(lra)). lra.
    + rewrite (copysign_neg _ x), (copysign_pos _ y) by lra. lra.
    + lra.
    + rewrite (copysign_pos _ x), (copysign_pos _ y) by lra. rewrite (Rabs_pos_eq x), (Rabs_pos_eq y) in * by lra.
      pose proof (ln_increasing x y ltac:(lra) ltac:(lra)). lra.
Qed.

(** The number a logarithmic-symmetric transform was built with. *)
Lemma least_abs_spec l : forall first m, (first = false -> 0 < m) ->
  let r := least_abs first m l in
  (Forall (fun x => x = 0) l /\ r = m) \/
  ((first = false /\ r = m \/ exists x, In x l /\ x <> 0 /\ r = Rabs x) /\ (forall x, In x l -> x <> 0 -> r <= Rabs x) /\ (first = false -> r <= m)).
Proof.
  induction l as [|a t IH]; intros first m M; cbv zeta; cbn [least_abs].
  - left. split; [constructor|reflexivity].
  - destruct (Req_EM_T a 0) as [Z|Z].
    + destruct (IH first m M) as [[F E]|[A [B C]]].
      * left. split; [constructor; auto|exact E].
      * right. split; [|split; [|exact C]].
        -- destruct A as [A|[x [I [N E]]]]; [auto|]. right. exists x. cbn. auto.
        -- intros x [<-|I] N; [contradiction|auto].
    + right. pose proof (Rabs_pos_lt a Z) as PA.
      set (m1 := if first then Rabs a else m). assert (M1 : 0 < m1) by (unfold m1; destruct first; auto).
      set (m2 := if Rlt_dec (Rabs a) m1 then Rabs a else m1).
      assert (M2 : 0 < m2 /\ m2 <= Rabs a /\ m2 <= m1 /\ (m2 = Rabs a \/ first = false /\ m2 = m)).
      { unfold m2. destruct (Rlt_dec (Rabs a) m1); [split; [lra|]; split; [lra|]; split; [lra|]; auto|]. split; [lra|]. split; [lra|]. split; [lra|]. unfold m1. destruct first; auto. }
      destruct M2 as [P2 [Q2 [R2 W2]]]. destruct (IH false m2 (fun _ => P2)) as [[F E]|[A [B C]]].
      * rewrite E. split; [|split].
        -- destruct W2 as [W|[W1 W2]]; [right; exists a; cbn; auto|left; auto].
        -- intros x [<-|I] N; [exact Q2|]. rewrite Forall_forall in F. specialize (F x I). contradiction.
        -- intros ->. exact R2.
      * specialize (C eq_refl). split; [|split].
        -- destruct A as [[_ A]|[x [I [N E]]]]; [|right; exists x; cbn; auto]. rewrite A.
           destruct W2 as [W|[W1 W2]]; [right; exists a; cbn; auto|left; auto].
        -- intros x [<-|I] N; [lra|auto].
        -- intros ->. unfold m1 in R2. lra.
Qed.

Lemma mix a b s : 0 <= s <= 1 -> amid a b (a + (b - a) * s).
Proof.
  intros S. unfold amid. destruct (Rle_dec a b) as [H|H].
  - rewrite Rmin_left, Rmax_right by lra. nra.
  - rewrite Rmin_right, Rmax_left by lra. nra.
Qed.
