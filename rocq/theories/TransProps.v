(** Properties C101, C102 and C103. *)
From Coq Require Import Reals List Bool Lra.
From Verif Require Import TraversalModel TransModel TransSpec TransProofs.
Import ListNotations.
Open Scope R_scope.

(** A transform that one of the constructors makes. *)
Inductive built : transform -> Prop :=
| built_identity : built Identity
| built_log : built Log
| built_symlog m t : symlog_of m = Some t -> built t
| built_symlog_list l t : symlog_of_list l = Some t -> built t
| built_range low high t : range_of low high = Some t -> built t.

(** ** C101 *)

(** The minimum of a logarithmic-symmetric transform is the least size of the entries that are not zero; the constructor throws exactly if there is none. *)
Theorem C101_least : forall l,
  (forall t, symlog_of_list l = Some t <-> exists m, t = SymLog m /\ least_size l m) /\
  (symlog_of_list l = None <-> Forall (fun x => x = 0) l).
Proof.
  intros l. pose proof (least_abs_spec l true 0 ltac:(discriminate)) as S. cbv zeta in S. unfold symlog_of_list. set (r := least_abs true 0 l) in *.
  destruct S as [[F E]|[A [B _]]].
  - rewrite E. destruct (Req_EM_T 0 0) as [_|N]; [|contradiction]. rewrite Forall_forall in F. split.
    + intros t. split; [discriminate|]. intros [m [_ [[x [I [N _]]] _]]]. specialize (F x I). contradiction.
    + split; intros _; [apply Forall_forall, F|reflexivity].
  - destruct A as [[A _]|[x [I [N E]]]]; [discriminate|]. assert (P : 0 < r) by (rewrite E; apply Rabs_pos_lt, N).
    destruct (Req_EM_T r 0) as [Z|_]; [lra|]. split.
    + intros t. split.
      * intros T. injection T as <-. exists r. split; [reflexivity|]. split; [exists x; auto|exact B].
      * intros [m [-> [[y [J [M G]]] H]]]. f_equal. f_equal. apply Rle_antisym; [rewrite G; auto|rewrite E; auto].
    + split; [discriminate|]. intros F. rewrite Forall_forall in F. specialize (F x I). contradiction.
Qed.
Print Assumptions C101_least.

Lemma built_shape t : built t -> t = Identity \/ t = Log \/ (exists m, t = SymLog m /\ 0 < m) \/ (exists a r, t = Range a r /\ r <> 0).
Proof.
  destruct 1 as [| |m t E|l t E|low high t E]; auto.
  - right. right. left. unfold symlog_of in E. destruct (Req_EM_T m 0) as [Z|Z]; [discriminate|]. injection E as <-. exists (Rabs m). split; auto. apply Rabs_pos_lt, Z.
  - right. right. left. apply C101_least in E. destruct E as [m [-> [[x [_ [N ->]]] _]]]. exists (Rabs x). split; auto. apply Rabs_pos_lt, N.
  - right. right. right. unfold range_of in E. destruct (Req_EM_T (high - low) 0) as [Z|Z]; [discriminate|]. injection E as <-. exists low, (high - low). auto.
Qed.

(** Every transform that can be constructed is undone by its inverse, in both directions. *)
Theorem C101_inverse : forall t, built t -> undoes (apply t) (invert t).
Proof.
  intros t H. destruct (built_shape t H) as [->|[->|[[m [-> M]]|[a [r [-> N]]]]]].
  - split; [intros x y E; injection E as <-; reflexivity|reflexivity].
  - split.
    + intros x y E. cbn in E. destruct (Rlt_dec 0 x); [|discriminate]. injection E as <-. cbn. apply exp_ln; auto.
    + intros y. cbn. destruct (Rlt_dec 0 (exp y)) as [L|L]; [rewrite ln_exp; reflexivity|]. exfalso. apply L, exp_pos.
  - apply symlog_undoes, M.
  - split; [intros x y E; cbn in E; injection E as <-; cbn; field; exact N|]. intros y. cbn. f_equal. field. exact N.
Qed.
Print Assumptions C101_inverse.

(** Every transform keeps the order, but for a range from high to low, which reverses it. *)
Theorem C101_order : forall t, built t ->
  (rising (apply t) /\ forall low high, range_of low high = Some t -> low < high) \/
  (falling (apply t) /\ exists low high, range_of low high = Some t /\ high < low).
Proof.
  intros t H. destruct (built_shape t H) as [->|[->|[[m [-> M]]|[a [r [-> N]]]]]].
  - left. split; [intros x y u v E F L; cbn in E, F; injection E as <-; injection F as <-; exact L|]. intros low high E. unfold range_of in E. destruct (Req_EM_T _ _); discriminate.
  - left. split; [|intros low high E; unfold range_of in E; destruct (Req_EM_T _ _); discriminate].
    intros x y u v E F L. cbn in E, F. destruct (Rlt_dec 0 x); [|discriminate]. destruct (Rlt_dec 0 y); [|discriminate].
    injection E as <-. injection F as <-. apply ln_increasing; auto.
  - left. split; [apply symlog_rising, M|]. intros low high E. unfold range_of in E. destruct (Req_EM_T _ _); discriminate.
  - destruct (Rlt_dec 0 r) as [P|P]; [left|right; assert (Q : r < 0) by lra]; split.
    + intros x y u v E F L. cbn in E, F. injection E as <-. injection F as <-. apply Rmult_lt_compat_r; [apply Rinv_0_lt_compat, P|lra].
    + intros low high E. unfold range_of in E. destruct (Req_EM_T (high - low) 0); [discriminate|]. injection E as <- <-. lra.
    + intros x y u v E F L. cbn in E, F. injection E as <-. injection F as <-. pose proof (Rinv_lt_0_compat r Q). unfold Rdiv. nra.
    + exists a, (a + r). unfold range_of. replace (a + r - a) with r by ring. destruct (Req_EM_T r 0); [contradiction|]. split; [reflexivity|lra].
Qed.
Print Assumptions C101_order.

(** Only the logarithm of a number that is not positive is undefined. *)
Theorem C101_domain : forall t x, apply t x = None <-> t = Log /\ x <= 0.
Proof.
  intros [| |m|a r] x; cbn; try (split; [discriminate|intros [E _]; discriminate]). destruct (Rlt_dec 0 x); split; try discriminate; auto.
  - intros [_ L]. lra.
  - intros _. split; [reflexivity|lra].
Qed.
Print Assumptions C101_domain.

(** A saved transform is read back unchanged. *)
Theorem C101_archive : forall t, built t -> load (save t) = Some t.
Proof.
  intros t H. destruct (built_shape t H) as [->|[->|[[m [-> M]]|[a [r [-> N]]]]]]; cbn; auto.
  - unfold symlog_of. destruct (Req_EM_T m 0); [lra|]. rewrite Rabs_pos_eq by lra. reflexivity.
  - unfold range_of. replace (a + r - a) with r by ring. destruct (Req_EM_T r 0); [contradiction|]. reflexivity.
Qed.
Print Assumptions C101_archive.

(** The transform of -3, 0 and 5 has minimum 3; the entry -3 stays and 5 goes to the logarithm of 5/3 plus 3. *)
Example C101_case : symlog_of_list [-3; 0; 5] = Some (SymLog 3) /\ built (SymLog 3) /\
  apply (SymLog 3) 1 = Some 1 /\ apply (SymLog 3) 5 = Some (ln 5 - ln 3 + 3) /\ range_of 4 2 = Some (Range 4 (-2)).
Proof.
  assert (E : symlog_of_list [-3; 0; 5] = Some (SymLog 3)).
  { apply C101_least. exists 3. split; [reflexivity|]. split.
    - exists (-3). split; [cbn; auto|]. split; [lra|]. rewrite Rabs_left; lra.
    - intros x [<-|[<-|[<-|[]]]] N; [rewrite Rabs_left; lra|lra|rewrite Rabs_pos_eq; lra]. }
  split; [exact E|]. split; [eapply built_symlog_list, E|]. split; [|split].
  - cbn. rewrite Rabs_pos_eq by lra. destruct (Rlt_dec 1 3); [reflexivity|lra].
  - cbn. rewrite Rabs_pos_eq by lra. destruct (Rlt_dec 5 3); [lra|]. rewrite copysign_pos; [reflexivity| |lra]. pose proof (tail_ge 3 5 ltac:(lra) ltac:(lra)). lra.
  - unfold range_of. destruct (Req_EM_T (2 - 4) 0); [lra|]. f_equal. f_equal. lra.
Qed.

(** ** C102 *)

(** Equality of transforms is an equivalence. *)
Theorem C102_equivalence : (forall t, same_transform t t = true) /\
  (forall s t, same_transform s t = same_transform t s) /\
  (forall r s t, same_transform r s = true -> same_transform s t = true -> same_transform r t = true).
Proof.
  split; [intros []; reflexivity|]. split; [intros [] []; reflexivity|]. intros [] [] []; cbn; congruence.
Qed.
Print Assumptions C102_equivalence.

(** Within one class the order is strict, transitive, and decides between any two transforms that differ. *)
Theorem C102_order_partial : forall s t, same_transform s t = true ->
  exists b, less_transform s t = Ok b /\
  (b = true -> less_transform t s = Ok false) /\
  (b = false -> less_transform t s = Ok false -> s = t) /\
  (forall u, same_transform t u = true -> b = true -> less_transform t u = Ok true -> less_transform s u = Ok true).
Proof.
  intros s t E. destruct s as [| |m|a r], t as [| |n|b q]; try discriminate; cbn.
  - exists false. repeat split; try discriminate; auto.
  - exists false. repeat split; try discriminate; auto.
  - eexists. split; [reflexivity|]. destruct (Rlt_dec m n); destruct (Rlt_dec n m); try lra; repeat split; try discriminate; auto.
    + intros [| |k|] U _ L; try discriminate. cbn in *. destruct (Rlt_dec n k); [|discriminate]. destruct (Rlt_dec m k); [reflexivity|lra].
    + intros _ _. f_equal. lra.
  - eexists. split; [reflexivity|].
    destruct (Rlt_dec a b); destruct (Rlt_dec b a); try lra; [| |destruct (Rlt_dec r q); destruct (Rlt_dec q r); try lra]; repeat split; try discriminate; auto.
    + intros [| | |c k] U _ L; try discriminate. cbn in *. destruct (Rlt_dec b c); [destruct (Rlt_dec a c); [reflexivity|lra]|]. destruct (Rlt_dec c b); [discriminate|]. destruct (Rlt_dec a c); [reflexivity|lra].
    + intros [| | |c k] U _ L; try discriminate. cbn in *. destruct (Rlt_dec b c); [destruct (Rlt_dec a c); [reflexivity|lra]|]. destruct (Rlt_dec c b); [discriminate|].
      destruct (Rlt_dec q k); [|discriminate]. destruct (Rlt_dec a c); [reflexivity|]. destruct (Rlt_dec c a); [lra|]. destruct (Rlt_dec r k); [reflexivity|lra].
    + intros _ _. f_equal; lra.
Qed.
Print Assumptions C102_order_partial.

(** Transforms with different members are equal: logarithmic-symmetric ones from 1 and from 2 compare equal, one is less than the other, and they are different functions. *)
Theorem C102_members_refuted : exists s t x u v, built s /\ built t /\ same_transform s t = true /\ less_transform s t = Ok true /\
  apply s x = Some u /\ apply t x = Some v /\ u <> v.
Proof.
  assert (L : 0 < ln 2) by (rewrite <- ln_1; apply ln_increasing; lra).
  exists (SymLog 1), (SymLog 2), 2, (ln 2 + 1), 2.
  assert (B : forall m, 0 < m -> built (SymLog m)).
  { intros m M. apply (built_symlog m). unfold symlog_of. destruct (Req_EM_T m 0); [lra|]. rewrite Rabs_pos_eq by lra. reflexivity. }
  split; [apply B; lra|]. split; [apply B; lra|]. split; [reflexivity|]. cbn. rewrite Rabs_pos_eq by lra.
  destruct (Rlt_dec 1 2); [|lra]. destruct (Rlt_dec 2 1); [lra|]. destruct (Rlt_dec 2 2); [lra|]. split; [reflexivity|]. rewrite ln_1. split; [|split].
  - rewrite copysign_pos by lra. f_equal. ring.
  - rewrite copysign_pos by lra. f_equal. ring.
  - assert (K : ln 2 < 1); [|lra]. pose proof exp_ineq1 1 ltac:(lra). rewrite <- (ln_exp 1). apply ln_increasing; lra.
Qed.
Print Assumptions C102_members_refuted.

(** Comparing a logarithmic-symmetric or a range transform with one of another class reads through a null pointer. *)
Theorem C102_null_refuted : exists s t, built s /\ built t /\ less_transform s t = UB.
Proof.
  exists (SymLog 1), Identity. split; [|split; [constructor|reflexivity]]. apply (built_symlog 1). unfold symlog_of. destruct (Req_EM_T 1 0); [lra|]. rewrite Rabs_R1. reflexivity.
Qed.
Print Assumptions C102_null_refuted.

(** Equality of the linear operators is not symmetric: the plain one equals the dropping one but not conversely, and they are different functions. *)
Theorem C102_operator_refuted : exists s t, same_operator s t = true /\ same_operator t s = false /\ operate s 0 0 1 1 (1/2) <> operate t 0 0 1 1 (1/2).
Proof.
  exists Plain, Drop. split; [reflexivity|]. split; [reflexivity|]. cbn. unfold drop_linear, linear. destruct (Req_EM_T 0 0); [|contradiction]. destruct (Req_EM_T (1 - 0) 0); [lra|]. intros E. injection E. lra.
Qed.
Print Assumptions C102_operator_refuted.

(** Two ranges. *)
Example C102_case : same_transform (Range 0 1) (Range 0 2) = true /\ less_transform (Range 0 1) (Range 0 2) = Ok true.
Proof. split; [reflexivity|]. cbn. destruct (Rlt_dec 0 0); [lra|]. destruct (Rlt_dec 1 2); [reflexivity|lra]. Qed.

(** ** C103 *)

(** Linear interpolation passes through both points, stays between them, and reproduces every straight line everywhere; it divides by zero only if the points have the same abscissa. *)
Theorem C103_linear : forall x0 x1, (forall y0 y1 x, linear x0 y0 x1 y1 x = None <-> x0 = x1) /\ (x0 <> x1 ->
  (forall y0 y1, linear x0 y0 x1 y1 x0 = Some y0 /\ linear x0 y0 x1 y1 x1 = Some y1) /\
  (forall y0 y1 x, amid x0 x1 x -> exists z, linear x0 y0 x1 y1 x = Some z /\ amid y0 y1 z) /\
  (forall a b x, linear x0 (a + b * x0) x1 (a + b * x1) x = Some (a + b * x))).
Proof.
  intros x0 x1. unfold linear. split; [intros y0 y1 x; destruct (Req_EM_T (x1 - x0) 0); split; try discriminate; try lra; auto; intros; lra|].
  intros N. destruct (Req_EM_T (x1 - x0) 0) as [Z|Z]; [lra|]. split; [|split].
  - intros y0 y1. split; f_equal; field; exact Z.
  - intros y0 y1 x A. eexists. split; [reflexivity|]. replace ((x - x0) * (y1 - y0) / (x1 - x0) + y0) with (y0 + (y1 - y0) * ((x - x0) / (x1 - x0))) by (field; exact Z).
    apply mix. unfold amid in A. destruct (Rlt_dec x0 x1) as [L|L].
    + rewrite Rmin_left, Rmax_right in A by lra. split.
      * apply Rmult_le_pos; [lra|]. left. apply Rinv_0_lt_compat. lra.
      * apply Rmult_le_reg_r with (x1 - x0); [lra|]. unfold Rdiv. rewrite Rmult_assoc, Rinv_l by exact Z. lra.
    + rewrite Rmin_right, Rmax_left in A by lra. replace ((x - x0) / (x1 - x0)) with ((x0 - x) / (x0 - x1)) by (field; lra). split.
      * apply Rmult_le_pos; [lra|]. left. apply Rinv_0_lt_compat. lra.
      * apply Rmult_le_reg_r with (x0 - x1); [lra|]. unfold Rdiv. rewrite Rmult_assoc, Rinv_l by lra. lra.
  - intros a b x. f_equal. field. exact Z.
Qed.
Print Assumptions C103_linear.

(** The dropping operator is zero if one of the values is, and otherwise the plain one. *)
Theorem C103_drop_linear : forall x0 y0 x1 y1 x,
  (y0 = 0 \/ y1 = 0 -> drop_linear x0 y0 x1 y1 x = Some 0) /\
  (y0 <> 0 -> y1 <> 0 -> drop_linear x0 y0 x1 y1 x = linear x0 y0 x1 y1 x).
Proof.
  intros. unfold drop_linear. destruct (Req_EM_T y0 0); destruct (Req_EM_T y1 0); split; auto; intros; try contradiction; destruct H; contradiction.
Qed.
Print Assumptions C103_drop_linear.

(** Bilinear interpolation takes the four values at the corners, is linear along the edges, stays between the least and the greatest value inside the cell, and reproduces every bilinear function. *)
Theorem C103_bilinear : forall x0 y0 x1 y1, x0 < x1 -> y0 < y1 -> forall z00 z01 z10 z11,
  let f := bilinear x0 y0 x1 y1 z00 z01 z10 z11 in
  (f x0 y0 = Some z00 /\ f x0 y1 = Some z01 /\ f x1 y0 = Some z10 /\ f x1 y1 = Some z11) /\
  (forall x, f x y0 = linear x0 z00 x1 z10 x /\ f x y1 = linear x0 z01 x1 z11 x) /\
  (forall y, f x0 y = linear y0 z00 y1 z01 y /\ f x1 y = linear y0 z10 y1 z11 y) /\
  (forall x y, x0 <= x <= x1 -> y0 <= y <= y1 -> exists z, f x y = Some z /\ between_corners z00 z01 z10 z11 z) /\
  (forall a b c d x y, let g x y := a + b * x + c * y + d * x * y in
    bilinear x0 y0 x1 y1 (g x0 y0) (g x0 y1) (g x1 y0) (g x1 y1) x y = Some (g x y)).
Proof.
  intros x0 y0 x1 y1 X Y z00 z01 z10 z11 f. assert (P : 0 < (x1 - x0) * (y1 - y0)) by (apply Rmult_lt_0_compat; lra).
  assert (PX : x1 - x0 <> 0) by lra. assert (PY : y1 - y0 <> 0) by lra.
  unfold f, bilinear, linear. destruct (Req_EM_T ((x1 - x0) * (y1 - y0)) 0) as [Z|Z]; [lra|]. destruct (Req_EM_T (x1 - x0) 0) as [Q|_]; [lra|]. destruct (Req_EM_T (y1 - y0) 0) as [Q|_]; [lra|].
  split; [|split; [|split; [|split]]].
  - repeat split; f_equal; field; auto.
  - intros x. split; f_equal; field; auto.
  - intros y. split; f_equal; field; auto.
  - intros x y HX HY. eexists. split; [reflexivity|]. unfold between_corners.
    set (lo := Rmin _ _). set (hi := Rmax _ _).
    assert (B : (lo <= z00 <= hi) /\ (lo <= z01 <= hi) /\ (lo <= z10 <= hi) /\ (lo <= z11 <= hi)).
    { pose proof (Rmin_l (Rmin z00 z01) (Rmin z10 z11)). pose proof (Rmin_r (Rmin z00 z01) (Rmin z10 z11)). pose proof (Rmax_l (Rmax z00 z01) (Rmax z10 z11)). pose proof (Rmax_r (Rmax z00 z01) (Rmax z10 z11)).
      pose proof (Rmin_l z00 z01). pose proof (Rmin_r z00 z01). pose proof (Rmin_l z10 z11). pose proof (Rmin_r z10 z11). pose proof (Rmax_l z00 z01). pose proof (Rmax_r z00 z01). pose proof (Rmax_l z10 z11). pose proof (Rmax_r z10 z11).
      unfold lo, hi. lra. }
    destruct B as [B0 [B1 [B2 B3]]]. clearbody lo hi.
    assert (W0 : 0 <= (x1 - x) * (y1 - y)) by (apply Rmult_le_pos; lra). assert (W1 : 0 <= (x1 - x) * (y - y0)) by (apply Rmult_le_pos; lra).
    assert (W2 : 0 <= (x - x0) * (y1 - y)) by (apply Rmult_le_pos; lra). assert (W3 : 0 <= (x - x0) * (y - y0)) by (apply Rmult_le_pos; lra).
    assert (S : (x1 - x0) * (y1 - y0) = (x1 - x) * (y1 - y) + (x1 - x) * (y - y0) + (x - x0) * (y1 - y) + (x - x0) * (y - y0)) by ring.
    set (w0 := (x1 - x) * (y1 - y)) in *. set (w1 := (x1 - x) * (y - y0)) in *. set (w2 := (x - x0) * (y1 - y)) in *. set (w3 := (x - x0) * (y - y0)) in *. set (w := (x1 - x0) * (y1 - y0)) in *. clearbody w0 w1 w2 w3 w.
    split; apply Rmult_le_reg_r with w; auto; unfold Rdiv; rewrite Rmult_assoc, Rinv_l, Rmult_1_r by exact Z; subst w; nra.
  - intros a b c d x y. cbn. f_equal. field. auto.
Qed.
Print Assumptions C103_bilinear.

(** The dropping bilinear operator is zero exactly if the two values along some edge of the cell are, and otherwise the plain one. *)
Theorem C103_drop_bilinear : forall x0 y0 x1 y1 z00 z01 z10 z11 x y,
  let edge := (z00 = 0 /\ z01 = 0) \/ (z00 = 0 /\ z10 = 0) \/ (z11 = 0 /\ z01 = 0) \/ (z11 = 0 /\ z10 = 0) in
  (edge -> drop_bilinear x0 y0 x1 y1 z00 z01 z10 z11 x y = Some 0) /\
  (~ edge -> drop_bilinear x0 y0 x1 y1 z00 z01 z10 z11 x y = bilinear x0 y0 x1 y1 z00 z01 z10 z11 x y).
Proof.
  intros. unfold edge, drop_bilinear, zerob. destruct (Req_EM_T z00 0); destruct (Req_EM_T z01 0); destruct (Req_EM_T z10 0); destruct (Req_EM_T z11 0); cbn; split; intros H; auto; try tauto; exfalso; tauto.
Qed.
Print Assumptions C103_drop_bilinear.

(** The middle of a cell. *)
Example C103_case : bilinear 0 0 1 2 1 3 5 7 (1/2) 1 = Some 4 /\ drop_bilinear 0 0 1 2 0 3 0 7 (1/2) 1 = Some 0 /\ linear 0 1 2 5 1 = Some 3.
Proof.
  split; [|split].
  - unfold bilinear. destruct (Req_EM_T ((1 - 0) * (2 - 0)) 0); [lra|]. f_equal. field.
  - apply C103_drop_bilinear. auto.
  - unfold linear. destruct (Req_EM_T (2 - 0) 0); [lra|]. f_equal. field.
Qed.
