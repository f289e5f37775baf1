(** Lemmas about trapezoid integration: the code's sum is the sum of the contributions of all
    intervals clamped to the range, and each contribution is an integral. *)
From Coquelicot Require Import Coquelicot.
From Coq Require Import Reals List ZArith Bool Sorted Lia Lra.
From Verif Require Import TraversalModel TableModel TableSpec TableProofs.
Import ListNotations.
Open Scope R_scope.

Section Trap.
Variables (xs ys : list R) (a b : R).
Let X i := nth i xs 0.
Let Y i := nth i ys 0.
Let n := List.length xs.
Hypothesis Hsort : forall i j, (i <= j < n)%nat -> X i <= X j.
Hypothesis Hab : a <= b.

(** The node [i] moved into the range. *)
Let P i := Rmax a (Rmin b (X i)).
(** The value of the chord of interval [i] at [t]. *)
Let cv i t := if Rle_dec t (X (i - 1)) then Y (i - 1) else if Rge_dec t (X i) then Y i else lerp xs ys i t.
Let W i := 1/2 * (cv i (P (i - 1)) + cv i (P i)) * (P i - P (i - 1)).

Fixpoint sumw (i k : nat) : R := match k with O => 0 | S k' => W i + sumw (S i) k' end.

Lemma sumw_app i k1 k2 : sumw i (k1 + k2) = sumw i k1 + sumw (i + k1) k2.
Proof.
  revert i. induction k1 as [|k IH]; intros i; cbn.
  - rewrite Nat.add_0_r. lra.
  - rewrite IH. replace (S i + k)%nat with (i + S k)%nat by lia. lra.
Qed.

Lemma sumw_zero i k : (forall j, (i <= j < i + k)%nat -> W j = 0) -> sumw i k = 0.
Proof.
  revert i. induction k as [|k IH]; intros i H; cbn; [reflexivity|].
  rewrite (H i), IH by (try lia; intros; apply H; lia). lra.
Qed.

Lemma P_low i : X i <= a -> P i = a.
Proof. intro H. unfold P. rewrite (Rmin_right b) by lra. now rewrite Rmax_left. Qed.
Lemma P_high i : b <= X i -> P i = b.
Proof. intro H. unfold P. rewrite (Rmin_left b) by lra. now rewrite Rmax_right. Qed.
Lemma P_in i : a <= X i <= b -> P i = X i.
Proof. intro H. unfold P. rewrite (Rmin_right b) by lra. rewrite Rmax_right; lra. Qed.

Lemma P_mono i j : (i <= j < n)%nat -> P i <= P j.
Proof.
  intro H. unfold P. apply Rle_max_compat_l. apply Rle_min_compat_l. now apply Hsort.
Qed.

Lemma W_degenerate i : X (i - 1) = X i -> W i = 0.
Proof. intro H. unfold W, P. rewrite H. ring. Qed.

Lemma W_low i : (1 <= i < n)%nat -> X i <= a -> W i = 0.
Proof.
  intros Hi H. unfold W. rewrite (P_low i) by auto. rewrite (P_low (i - 1)); [ring|].
  pose proof (Hsort (i - 1) i ltac:(lia)). lra.
Qed.

Lemma W_high i : (1 <= i < n)%nat -> b <= X (i - 1) -> W i = 0.
Proof.
  intros Hi H. unfold W. rewrite (P_high (i - 1)) by auto. rewrite (P_high i); [ring|].
  pose proof (Hsort (i - 1) i ltac:(lia)). lra.
Qed.

(** ** The code *)

Lemma ub_below : forall l v j, (j < upper_bound l v)%nat -> nth j l 0 <= v.
Proof.
  induction l as [|c t IH]; intros v j Hj; cbn in Hj; [lia|].
  destruct (Rlt_dec v c); [lia|]. destruct j; cbn; [lra|]. apply IH. lia.
Qed.

Lemma ub_at : forall l v, (upper_bound l v < List.length l)%nat -> v < nth (upper_bound l v) l 0.
Proof.
  induction l as [|c t IH]; intros v Hj; cbn in Hj; [lia|]. cbn.
  destruct (Rlt_dec v c); [auto|]. apply IH. lia.
Qed.

Lemma lb_below : forall l v j, (j < lower_bound l v)%nat -> nth j l 0 < v.
Proof.
  induction l as [|c t IH]; intros v j Hj; cbn in Hj; [lia|].
  destruct (Rlt_dec c v); [|lia]. destruct j; cbn; [lra|]. apply IH. lia.
Qed.

Lemma lb_at : forall l v, (lower_bound l v < List.length l)%nat -> v <= nth (lower_bound l v) l 0.
Proof.
  induction l as [|c t IH]; intros v Hj; cbn in Hj; [lia|]. cbn.
  destruct (Rlt_dec c v); [|lra]. apply IH. lia.
Qed.

Lemma interior_sum i k : (forall j, (i <= j < i + k)%nat -> (1 <= j < n)%nat /\ a <= X (j - 1) /\ X j <= b) ->
  interior xs ys i k = sumw i k.
Proof.
  revert i. induction k as [|k IH]; intros i H; cbn; [reflexivity|].
  rewrite IH by (intros; apply H; lia). f_equal. destruct (H i ltac:(lia)) as (Hi & H1 & H2).
  pose proof (Hsort (i - 1) i ltac:(lia)) as Hm.
  destruct (Req_dec (X (i - 1)) (X i)) as [E|E].
  - rewrite W_degenerate by auto. fold (X i) (X (i - 1)). rewrite E. ring.
  - unfold W. rewrite (P_in i), (P_in (i - 1)) by lra. unfold cv.
    destruct (Rle_dec (X (i - 1)) (X (i - 1))); [|lra].
    destruct (Rle_dec (X i) (X (i - 1))); [lra|]. destruct (Rge_dec (X i) (X i)); [|lra]. reflexivity.
Qed.

Lemma code_sum : (2 <= n)%nat -> List.length ys = n -> trapezoid_between xs ys a b = Ok (sumw 1 (n - 1)).
Proof.
  intros Hn Hy. unfold trapezoid_between. fold n. rewrite Hy, Nat.eqb_refl. cbn [negb].
  destruct (Nat.ltb_spec n 2); [lia|].
  set (is := Nat.max 1 (upper_bound xs a)). set (ie := Nat.min (n - 1) (lower_bound xs b)).
  assert (Low : forall i, (1 <= i < n)%nat -> (i < is)%nat -> W i = 0).
  { intros i Hi H1. apply W_low; [auto|]. apply ub_below. unfold is in H1. lia. }
  assert (High : forall i, (1 <= i < n)%nat -> (ie < i)%nat -> W i = 0).
  { intros i Hi H1. apply W_high; [auto|]. unfold ie in H1.
    apply Rle_trans with (X (lower_bound xs b)); [apply lb_at; fold n; lia|]. apply Hsort. lia. }
  destruct (Nat.ltb_spec ie is) as [Hlt|Hge].
  - f_equal. symmetry. apply sumw_zero. intros j Hj.
    destruct (Nat.lt_ge_cases j is); [apply Low; lia|apply High; lia].
  - assert (His : (1 <= is)%nat) by (unfold is; lia).
    assert (Hie : (ie <= n - 1)%nat) by (unfold ie; lia).
    assert (Ha : forall j, (is <= j < n)%nat -> a < X j).
    { intros j Hj. apply Rlt_le_trans with (X is); [|apply Hsort; lia].
      apply Rlt_le_trans with (X (upper_bound xs a)); [apply ub_at; fold n; unfold is in *; lia|].
      apply Hsort. unfold is in *. lia. }
    assert (Hb : forall j, (j < ie)%nat -> X j < b).
    { intros j Hj. apply lb_below. unfold ie in Hj. lia. }
    assert (Total : sumw 1 (n - 1) = sumw is (ie - is + 1)).
    { replace (n - 1)%nat with ((is - 1) + ((ie - is + 1) + (n - 1 - ie)))%nat by lia.
      rewrite !sumw_app. rewrite (sumw_zero 1) by (intros; apply Low; lia).
      replace (1 + (is - 1))%nat with is by lia.
      rewrite (sumw_zero (is + (ie - is + 1))) by (intros; apply High; lia). lra. }
    rewrite Total.
    (* the left end *)
    assert (PL : P (is - 1) = Rmax (X (is - 1)) a).
    { unfold P. rewrite (Rmin_right b) by (left; apply Hb; lia). apply Rmax_comm. }
    assert (CL : cv is (P (is - 1)) = if Rle_dec a (X (is - 1)) then Y (is - 1) else lerp xs ys is a).
    { rewrite PL. unfold cv. destruct (Rle_dec a (X (is - 1))) as [H1|H1].
      - rewrite Rmax_left by lra. destruct (Rle_dec (X (is - 1)) (X (is - 1))); [reflexivity|lra].
      - rewrite Rmax_right by lra. destruct (Rle_dec a (X (is - 1))); [lra|].
        pose proof (Ha is ltac:(lia)). destruct (Rge_dec a (X is)); [lra|reflexivity]. }
    (* the right end *)
    assert (PR : P ie = Rmin (X ie) b).
    { unfold P. rewrite Rmin_comm. apply Rmax_right. apply Rmin_glb; [left; apply Ha; lia|exact Hab]. }
    assert (CR : X (ie - 1) <> X ie -> cv ie (P ie) = if Rge_dec b (X ie) then Y ie else lerp xs ys ie b).
    { intro Hd. pose proof (Hsort (ie - 1) ie ltac:(lia)) as Hm. pose proof (Hb (ie - 1)%nat ltac:(lia)) as Hbb.
      rewrite PR. unfold cv. destruct (Rge_dec b (X ie)) as [H1|H1].
      - rewrite Rmin_left by lra. destruct (Rle_dec (X ie) (X (ie - 1))); [lra|].
        destruct (Rge_dec (X ie) (X ie)); [reflexivity|lra].
      - rewrite Rmin_right by lra. destruct (Rle_dec b (X (ie - 1))); [lra|].
        destruct (Rge_dec b (X ie)); [lra|reflexivity]. }
    destruct (Nat.eqb_spec is ie) as [Heq|Hne].
    + rewrite <- Heq in *. replace (is - is + 1)%nat with 1%nat by lia. cbn [sumw]. rewrite Rplus_0_r. f_equal.
      fold (X is) (X (is - 1)) (Y is) (Y (is - 1)).
      destruct (Req_dec (X (is - 1)) (X is)) as [E|E].
      * rewrite W_degenerate by auto. rewrite <- PL, <- PR. unfold P. rewrite E. ring.
      * unfold W. rewrite CL, (CR E), PL, PR. reflexivity.
    + replace (ie - is + 1)%nat with (1 + ((ie - is - 1) + 1))%nat by lia.
      rewrite !sumw_app. cbn [sumw]. replace (is + 1)%nat with (S is) by lia.
      replace (S is + (ie - is - 1))%nat with ie by lia.
      rewrite (interior_sum (S is)).
      2:{ intros j Hj. split; [lia|]. split; left; [apply Ha; lia|apply Hb; lia]. }
      fold (X is) (X (is - 1)) (Y is) (Y (is - 1)) (X ie) (X (ie - 1)) (Y ie) (Y (ie - 1)).
      assert (Mid : P is = X is). { apply P_in. split; left; [apply Ha; lia|apply Hb; lia]. }
      assert (Mid' : P (ie - 1) = X (ie - 1)). { apply P_in. split; left; [apply Ha; lia|apply Hb; lia]. }
      assert (F : W is = 1/2 * ((if Rle_dec a (X (is - 1)) then Y (is - 1) else lerp xs ys is a) + Y is) * (X is - Rmax (X (is - 1)) a)).
      { destruct (Req_dec (X (is - 1)) (X is)) as [E|E].
        - rewrite W_degenerate by auto. rewrite E, Rmax_left by (left; apply Ha; lia). ring.
        - unfold W. rewrite CL, Mid, PL. f_equal. f_equal. f_equal. unfold cv.
          pose proof (Hsort (is - 1) is ltac:(lia)). destruct (Rle_dec (X is) (X (is - 1))); [lra|].
          destruct (Rge_dec (X is) (X is)); [reflexivity|lra]. }
      assert (L : W ie = 1/2 * (Y (ie - 1) + (if Rge_dec b (X ie) then Y ie else lerp xs ys ie b)) * (Rmin (X ie) b - X (ie - 1))).
      { destruct (Req_dec (X (ie - 1)) (X ie)) as [E|E].
        - rewrite W_degenerate by auto. rewrite <- E, Rmin_left by (left; apply Hb; lia). ring.
        - unfold W. rewrite (CR E), Mid', PR. f_equal. f_equal. f_equal. unfold cv.
          destruct (Rle_dec (X (ie - 1)) (X (ie - 1))); [reflexivity|lra]. }
      rewrite F, L. f_equal. ring.
Qed.

(** ** Each contribution is an integral *)

Lemma is_RInt_line c0 c1 x0 u v : is_RInt (fun t => c0 + c1 * (t - x0)) u v
  (1/2 * ((c0 + c1 * (u - x0)) + (c0 + c1 * (v - x0))) * (v - u)).
Proof.
  replace (1/2 * ((c0 + c1 * (u - x0)) + (c0 + c1 * (v - x0))) * (v - u)) with
    (minus ((fun t => c0 * t + c1 * (t - x0) * (t - x0) / 2) v) ((fun t => c0 * t + c1 * (t - x0) * (t - x0) / 2) u)).
  2:{ change ((c0 * v + c1 * (v - x0) * (v - x0) / 2) + - (c0 * u + c1 * (u - x0) * (u - x0) / 2) =
        1/2 * ((c0 + c1 * (u - x0)) + (c0 + c1 * (v - x0))) * (v - u)). field. }
  apply (is_RInt_derive (fun t => c0 * t + c1 * (t - x0) * (t - x0) / 2) (fun t => c0 + c1 * (t - x0))).
  - intros t _. auto_derive; [exact Logic.I|]. field.
  - intros t _. apply (ex_derive_continuous (fun t => c0 + c1 * (t - x0)) t). auto_derive. exact Logic.I.
Qed.

Lemma nth_combine i : (i < n)%nat -> List.length ys = n -> nth_error (combine xs ys) i = Some (X i, Y i).
Proof.
  unfold X, Y, n. clear. revert ys i. induction xs as [|c t IH]; intros [|d u] [|i] H1 H2; cbn in *; try lia.
  - reflexivity.
  - apply IH; lia.
Qed.

Lemma W_integral f i : List.length ys = n -> piecewise_linear (combine xs ys) f -> (S i < n)%nat ->
  is_RInt f (P i) (P (S i)) (W (S i)).
Proof.
  intros Hy (Hf & _ & _) Hi. unfold W. replace (S i - 1)%nat with i by lia.
  destruct (Rle_lt_or_eq_dec _ _ (P_mono i (S i) ltac:(lia))) as [Hlt|E].
  2:{ rewrite E. replace (1/2 * _ * (P (S i) - P (S i))) with 0 by ring. apply (is_RInt_point f). }
  assert (Hpos : X i < X (S i)).
  { destruct (Hsort i (S i) ltac:(lia)) as [H|H]; [auto|]. unfold P in Hlt. rewrite H in Hlt. lra. }
  assert (HL : X i <= P i < X (S i)).
  { unfold P in *. split.
    - destruct (Rle_dec (X i) b) as [H|H].
      + rewrite (Rmin_right b (X i)) by lra. apply Rmax_r.
      + exfalso. rewrite (Rmin_left b (X i)), (Rmin_left b (X (S i))) in Hlt by lra. lra.
    - apply Rlt_le_trans with (1 := Hlt). apply Rmax_lub; [|apply Rmin_r].
      destruct (Rle_dec a (X (S i))) as [H|H]; [auto|]. exfalso.
      rewrite (Rmin_right b (X i)), (Rmin_right b (X (S i))) in Hlt by lra.
      rewrite !Rmax_left in Hlt by lra. lra. }
  assert (HR : X i < P (S i) <= X (S i)).
  { split; [lra|]. unfold P. apply Rmax_lub; [|apply Rmin_r].
    apply Rle_trans with (2 := Rlt_le _ _ (proj2 HL)). unfold P. apply Rmax_l. }
  set (c1 := (Y (S i) - Y i) / (X (S i) - X i)).
  assert (Cv : forall t, X i <= t <= X (S i) -> cv (S i) t = Y i + c1 * (t - X i)).
  { intros t Ht. unfold cv. replace (S i - 1)%nat with i by lia. unfold c1.
    destruct (Rle_dec t (X i)) as [H|H].
    - replace t with (X i) by lra. field. lra.
    - destruct (Rge_dec t (X (S i))) as [H1|H1].
      + replace t with (X (S i)) by lra. field. lra.
      + unfold lerp. replace (S i - 1)%nat with i by lia. fold (X i) (X (S i)) (Y i) (Y (S i)). field. lra. }
  rewrite !Cv by lra.
  apply is_RInt_ext with (f := fun t => Y i + c1 * (t - X i)); [|apply is_RInt_line].
  intros t Ht. rewrite Rmin_left, Rmax_right in Ht by lra. symmetry.
  rewrite (Hf (X i, Y i) (X (S i), Y (S i))).
  - cbn [fst snd]. unfold c1. change (Y i + (Y (S i) - Y i) * (t - X i) / (X (S i) - X i) = Y i + (Y (S i) - Y i) / (X (S i) - X i) * (t - X i)). field. lra.
  - apply neighbours_nth. exists i. split; apply nth_combine; auto; lia.
  - cbn [fst]. lra.
Qed.

Lemma sumw_integral f k : List.length ys = n -> piecewise_linear (combine xs ys) f -> forall i, (i + k < n)%nat ->
  is_RInt f (P i) (P (i + k)) (sumw (S i) k).
Proof.
  intros Hy Hf. induction k as [|k IH]; intros i Hi; cbn [sumw].
  - rewrite Nat.add_0_r. apply (is_RInt_point f).
  - replace (i + S k)%nat with (S i + k)%nat in * by lia.
    apply (is_RInt_Chasles f (P i) (P (S i)) (P (S i + k))).
    + apply W_integral; auto; lia.
    + apply IH. lia.
Qed.

Lemma zero_integral f u v : u <= v -> (forall t, u < t < v -> f t = 0) -> is_RInt f u v 0.
Proof.
  intros Huv H. apply is_RInt_ext with (f := fun _ => 0).
  - intros t Ht. rewrite Rmin_left, Rmax_right in Ht by lra. symmetry. now apply H.
  - pose proof (is_RInt_const u v 0) as Hc.
    change (is_RInt (fun _ : R => 0) u v ((v - u) * 0)) in Hc. now rewrite Rmult_0_r in Hc.
Qed.

Lemma in_combine p : List.length ys = n -> In p (combine xs ys) -> exists i, (i < n)%nat /\ fst p = X i.
Proof.
  intros Hy H. apply In_nth_error in H as [i Hi]. pose proof (error_len _ _ _ Hi) as Hl.
  rewrite combine_length in Hl. fold n in Hl. exists i. split; [lia|].
  rewrite (nth_combine i) in Hi by (auto; lia). injection Hi as <-. reflexivity.
Qed.

Lemma sum_integral f : List.length ys = n -> (1 <= n)%nat -> piecewise_linear (combine xs ys) f ->
  is_RInt f a b (sumw 1 (n - 1)).
Proof.
  intros Hy Hn Hf. pose proof Hf as (_ & Hlow & Hhigh).
  assert (H1 : is_RInt f a (P 0) 0).
  { apply zero_integral; [unfold P; apply Rmax_l|]. intros t Ht. apply Hlow. intros p Hp.
    destruct (in_combine p Hy Hp) as (i & Hi & ->). apply Rlt_le_trans with (X 0); [|apply Hsort; lia].
    unfold P in Ht. destruct (Rle_dec a (Rmin b (X 0))) as [H|H].
    - rewrite Rmax_right in Ht by lra. pose proof (Rmin_r b (X 0)). lra.
    - rewrite Rmax_left in Ht by lra. lra. }
  assert (H2 : is_RInt f (P (n - 1)) b 0).
  { apply zero_integral.
    - unfold P. apply Rmax_lub; [auto|apply Rmin_l].
    - intros t Ht. apply Hhigh. intros p Hp.
      destruct (in_combine p Hy Hp) as (i & Hi & ->). apply Rle_lt_trans with (X (n - 1)); [apply Hsort; lia|].
      unfold P in Ht. destruct (Rle_dec b (X (n - 1))) as [H|H].
      + rewrite (Rmin_left b) in Ht by lra. rewrite Rmax_right in Ht by lra. lra.
      + rewrite (Rmin_right b) in Ht by lra. pose proof (Rmax_r a (X (n - 1))). lra. }
  pose proof (sumw_integral f (n - 1) Hy Hf 0 ltac:(lia)) as H3. cbn [Nat.add] in H3.
  pose proof (is_RInt_Chasles f a (P 0) (P (n - 1)) _ _ H1 H3) as H4.
  pose proof (is_RInt_Chasles f a (P (n - 1)) b _ _ H4 H2) as H5.
  change (is_RInt f a b (0 + sumw 1 (n - 1) + 0)) in H5.
  now rewrite Rplus_0_l, Rplus_0_r in H5.
Qed.

End Trap.

Lemma interior_cons c d xs ys i k : interior (c :: xs) (d :: ys) (S (S i)) k = interior xs ys (S i) k.
Proof.
  revert i. induction k as [|k IH]; intros i; [reflexivity|].
  cbn [interior]. rewrite IH. replace (S (S i) - 1)%nat with (S i) by lia. replace (S i - 1)%nat with i by lia. reflexivity.
Qed.

Lemma loop_interior : forall xs ys, List.length ys = List.length xs ->
  trapezoid_loop xs ys = interior xs ys 1 (List.length xs - 1).
Proof.
  induction xs as [|c t IH]; intros [|d u] H; cbn in H; try lia; [reflexivity|].
  destruct t as [|c' t], u as [|d' u]; cbn in H; try lia; [reflexivity|].
  change (trapezoid_loop (c :: c' :: t) (d :: d' :: u)) with ((c' - c) * (1/2 * (d' + d)) + trapezoid_loop (c' :: t) (d' :: u)).
  rewrite IH by (cbn; lia). cbn [List.length].
  replace (S (S (List.length t)) - 1)%nat with (S (List.length t)) by lia. cbn [interior].
  rewrite interior_cons. cbn [Nat.sub nth]. rewrite Nat.sub_0_r. lra.
Qed.

(** A function that follows the chords. *)
Fixpoint chords (pts : list (R * R)) (t : R) : R :=
  match pts with
  | p :: ((q :: _) as r) =>
      if Rlt_dec (fst p) t then
        if Rlt_dec t (fst q) then snd p + (snd q - snd p) * (t - fst p) / (fst q - fst p) else chords r t
      else 0
  | _ => 0
  end.

Lemma chords_linear pts : StronglySorted Rle (map fst pts) -> piecewise_linear pts (chords pts).
Proof.
  induction pts as [|p t IH]; intros Hs.
  { repeat split; try reflexivity. intros p q (u & v & E). destruct u; discriminate. }
  cbn [map] in Hs. apply StronglySorted_inv in Hs as [Hs1 Hs2]. specialize (IH Hs1) as (H1 & H2 & H3).
  destruct t as [|q r].
  { repeat split; try reflexivity. intros p' q' H. now apply no_neighbours1 in H. }
  rewrite Forall_forall in Hs2.
  assert (Hpq : fst p <= fst q) by (apply Hs2; now left).
  split; [|split].
  - intros p' q' Hn x Hx. apply neighbours_cons in Hn as [[-> ->]|Hn].
    + cbn [chords]. destruct (Rlt_dec (fst p) x); [|lra]. destruct (Rlt_dec x (fst q)); [reflexivity|lra].
    + assert (Hq : fst q <= fst p').
      { pose proof Hn as (u & v & E). destruct u as [|w u]; cbn in E; [injection E as -> _; lra|]. injection E as _ E.
        apply StronglySorted_inv in Hs1 as [_ F]. rewrite Forall_forall in F. apply F.
        apply in_map. rewrite E. apply in_or_app. right. now left. }
      change (chords (p :: q :: r) x) with
        (if Rlt_dec (fst p) x then
           if Rlt_dec x (fst q) then snd p + (snd q - snd p) * (x - fst p) / (fst q - fst p) else chords (q :: r) x
         else 0).
      destruct (Rlt_dec (fst p) x); [|lra]. destruct (Rlt_dec x (fst q)); [lra|].
      now apply H1.
  - intros x Hx. cbn [chords]. destruct (Rlt_dec (fst p) x); [|reflexivity].
    specialize (Hx p (or_introl eq_refl)). lra.
  - intros x Hx. change (chords (p :: q :: r) x) with
        (if Rlt_dec (fst p) x then
           if Rlt_dec x (fst q) then snd p + (snd q - snd p) * (x - fst p) / (fst q - fst p) else chords (q :: r) x
         else 0).
    pose proof (Hx q (or_intror (or_introl eq_refl))). destruct (Rlt_dec (fst p) x); [|reflexivity].
    destruct (Rlt_dec x (fst q)); [lra|]. apply H3. intros p' Hp'. apply Hx. now right.
Qed.

Lemma map_fst_combine (xs ys : list R) : List.length ys = List.length xs -> map fst (combine xs ys) = xs.
Proof. revert ys. induction xs as [|c t IH]; intros [|d u] H; cbn in *; try lia; [reflexivity|]. rewrite IH by lia. reflexivity. Qed.
