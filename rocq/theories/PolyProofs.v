(** Proofs about polynomials. *)
From Coquelicot Require Import Coquelicot.
From Coq Require Import Reals Ranalysis5 List Bool Lia Lra.
From Verif Require Import PolyModel.
Import ListNotations.
Open Scope R_scope.

(** Finite sums, f 0 + ... + f (n-1). *)
Fixpoint big (n : nat) (f : nat -> R) : R := match n with O => 0 | S k => big k f + f k end.

Lemma big_ext n f g : (forall i, (i < n)%nat -> f i = g i) -> big n f = big n g.
Proof. induction n; cbn; intros H; auto. rewrite IHn by (intros; apply H; lia). rewrite H by lia. auto. Qed.
Lemma big_shift n f : big (S n) f = f O + big n (fun i => f (S i)).
Proof. induction n; cbn in *; [ring|]. rewrite IHn. ring. Qed.
Lemma big_scale n k f : big n (fun i => k * f i) = k * big n f.
Proof. induction n; cbn; [ring|]. rewrite IHn. ring. Qed.
Lemma big_plus n f g : big n (fun i => f i + g i) = big n f + big n g.
Proof. induction n; cbn; [ring|]. rewrite IHn. ring. Qed.

Lemma eval_cons c r x : evaluate (c :: r) x = c + x * evaluate r x.
Proof. destruct r; cbn; ring. Qed.

Lemma eval_big p x : evaluate p x = big (length p) (fun i => coeff p i * x ^ i).
Proof.
  induction p as [|c r IH]; [reflexivity|]. rewrite eval_cons, IH. cbn [length]. rewrite big_shift. cbn [coeff nth pow].
  rewrite <- big_scale. f_equal; [unfold coeff; cbn; ring|]. apply big_ext. intros i _. unfold coeff. cbn. ring.
Qed.

(** ** The polynomial as a sum of monomials *)
Definition monomials (p : polynom) (x : R) : R := fold_right Rplus 0 (map (fun i => nth i p 0 * x ^ i) (seq 0 (length p))).

Lemma fold_big n a f : fold_right Rplus 0 (map f (seq a n)) = big n (fun i => f (a + i)%nat).
Proof.
  revert a. induction n; intros a; [reflexivity|]. rewrite big_shift. cbn [seq map fold_right]. rewrite IHn. f_equal; [f_equal; lia|].
  apply big_ext. intros. f_equal. lia.
Qed.
Lemma eval_monomials p x : evaluate p x = monomials p x.
Proof. rewrite eval_big. unfold monomials. rewrite fold_big. reflexivity. Qed.

Lemma eval_map n a f x : evaluate (map f (seq a n)) x = big n (fun i => f (a + i)%nat * x ^ i).
Proof.
  rewrite eval_big, map_length, seq_length. apply big_ext. intros i I. unfold coeff. f_equal.
  rewrite (nth_indep _ 0 (f O)) by (rewrite map_length, seq_length; auto). rewrite map_nth. f_equal. apply seq_nth. auto.
Qed.

(** ** Derivatives *)
Lemma big_derive n (f g : nat -> R -> R) x : (forall i, (i < n)%nat -> is_derive (f i) x (g i x)) ->
  is_derive (fun x => big n (fun i => f i x)) x (big n (fun i => g i x)).
Proof.
  induction n; intros H; cbn.
  - apply @is_derive_const.
  - apply @is_derive_plus; [apply IHn; intros; apply H; lia|apply H; lia].
Qed.

Lemma derivative_value p x : evaluate (derivative p) x = big (length p) (fun i => coeff p i * (INR i * x ^ pred i)).
Proof.
  unfold derivative. rewrite eval_map. destruct (length p) as [|n]; [reflexivity|]. rewrite big_shift. replace (S n - 1)%nat with n by lia. change (INR 0) with 0.
  replace (coeff p 0 * (0 * x ^ pred 0)) with 0 by ring. rewrite Rplus_0_l. apply big_ext. intros i _. cbn [Nat.add pred]. ring.
Qed.

Lemma derivative_ok p x : is_derive (evaluate p) x (evaluate (derivative p) x).
Proof.
  rewrite derivative_value. apply (is_derive_ext (fun x => big (length p) (fun i => coeff p i * x ^ i))).
  - intros t. symmetry. apply eval_big.
  - apply (big_derive (length p) (fun i x => coeff p i * x ^ i) (fun i x => coeff p i * (INR i * x ^ pred i))).
    intros i _. evar_last; [apply is_derive_scal, is_derive_pow, is_derive_id|]. change (coeff p i * (INR i * 1 * x ^ pred i) = coeff p i * (INR i * x ^ pred i)). ring.
Qed.

Lemma derivative_antiderivative p c : derivative (antiderivative p c) = p.
Proof.
  unfold derivative, antiderivative. cbn [length]. rewrite map_length, seq_length. rewrite Nat.sub_succ, Nat.sub_0_r.
  apply nth_ext with 0 0; [rewrite map_length, seq_length; auto|]. rewrite map_length, seq_length. intros i I.
  rewrite (nth_indep _ 0 (coeff (c :: map (fun i => coeff p i / (INR i + 1)) (seq 0 (length p))) O * INR O)) by (rewrite map_length, seq_length; auto).
  rewrite (map_nth (fun j => coeff (c :: map (fun i => coeff p i / (INR i + 1)) (seq 0 (length p))) j * INR j)).
  rewrite seq_nth by auto. cbn [Nat.add]. unfold coeff at 1. cbn [nth].
  rewrite (nth_indep _ 0 (coeff p 0 / (INR 0 + 1))) by (rewrite map_length, seq_length; auto).
  rewrite (map_nth (fun i => coeff p i / (INR i + 1))). rewrite seq_nth by auto. cbn [Nat.add]. rewrite S_INR. unfold coeff.
  pose proof (pos_INR i). field. lra.
Qed.

Lemma antiderivative_ok p c : evaluate (antiderivative p c) 0 = c /\ forall x, is_derive (evaluate (antiderivative p c)) x (evaluate p x).
Proof.
  split.
  - unfold antiderivative. rewrite eval_cons. ring.
  - intros x. rewrite <- (derivative_antiderivative p c) at 2. apply derivative_ok.
Qed.

Lemma continuous_eval p (x : R) : continuous (evaluate p) x.
Proof. apply (ex_derive_continuous (evaluate p)). exists (evaluate (derivative p) x). apply derivative_ok. Qed.

(** Integral of a polynomial from its antiderivative. *)
Lemma antiderivative_integral p c a b : is_RInt (evaluate p) a b (evaluate (antiderivative p c) b - evaluate (antiderivative p c) a).
Proof.
  apply (is_RInt_derive (evaluate (antiderivative p c)) (evaluate p)).
  - intros x _. apply antiderivative_ok.
  - intros x _. apply continuous_eval.
Qed.

Lemma scale_ok p k x : evaluate (scale p k) x = evaluate p (k * x).
Proof.
  unfold scale. rewrite eval_map, eval_big. apply big_ext. intros i _. cbn [Nat.add]. rewrite Rpow_mult_distr. ring.
Qed.

Lemma poly_eqb_iff p q : poly_eqb p q = true <-> p = q.
Proof.
  revert q. induction p as [|a r IH]; intros [|b s]; cbn; try (split; congruence).
  destruct (Req_EM_T a b) as [->|N]; cbn.
  - rewrite IH. split; [intros ->; auto|]. intros H. injection H as ->. auto.
  - split; [discriminate|]. intros H. injection H as H _. tauto.
Qed.

(** ** Taylor shift *)
Section Shift.
Variable p : polynom.
Variable x : R.
Variable n : nat.
Variable garbage : table.

Let c (k : nat) : R := coeff p k * x ^ k.

(** What the table should hold. *)
Fixpoint ent (i j : nat) : R :=
  match i with
  | O => match j with O => c (n - 1) | _ => c n end
  | S i' => match j with
            | O => c (n - S i' - 1)
            | S j' => if Nat.eqb j' (S i') then c n else ent i' j' + ent i' j
            end
  end.

Lemma put_same t i j v : put t i j v i j = v.
Proof. unfold put. rewrite !Nat.eqb_refl. auto. Qed.
Lemma put_other t i j v a b : a <> i \/ b <> j -> put t i j v a b = t a b.
Proof.
  intros H. unfold put. destruct (Nat.eqb_spec a i), (Nat.eqb_spec b j); cbn; auto. subst. exfalso. lia.
Qed.

Lemma ent_diag i : ent i (S i) = c n.
Proof. destruct i; cbn [ent]; auto. rewrite Nat.eqb_refl. auto. Qed.
Lemma ent_zero i : ent i 0 = c (n - i - 1).
Proof. destruct i; cbn [ent]; auto. f_equal. lia. Qed.
Lemma ent_step i j : (j <= i)%nat -> ent (S i) (S j) = ent i j + ent i (S j).
Proof. intros H. cbn [ent]. destruct (Nat.eqb_spec j (S i)); [lia|]. auto. Qed.

Lemma start_ok : let t := shift_start p x n garbage in forall i, (i < n)%nat -> t i O = ent i 0 /\ t i (S i) = ent i (S i).
Proof.
  cbn. unfold shift_start.
  assert (G : forall m t0, (m <= n)%nat -> let t := fold_left (fun t i => put (put t i 0 (coeff p (n - i - 1) * x ^ (n - i - 1))) i (i + 1) (coeff p n * x ^ n)) (seq 0 m) t0 in
    forall i, (i < m)%nat -> t i O = ent i 0 /\ t i (S i) = ent i (S i)).
  { induction m; intros t0 M; cbn zeta; [intros; lia|]. rewrite seq_S, fold_left_app. cbn [fold_left Nat.add]. intros i I.
    specialize (IHm t0 ltac:(lia)). cbn zeta in IHm. set (t := fold_left _ (seq 0 m) t0) in *.
    rewrite Nat.add_1_r. destruct (Nat.eq_dec i m) as [->|N].
    - split; [rewrite put_other by lia; rewrite put_same; rewrite ent_zero; reflexivity|].
      rewrite put_same, ent_diag. auto.
    - rewrite !put_other by lia. apply IHm. lia. }
  apply G. lia.
Qed.

(** After the columns below [j]: all entries the rest of the loops read. *)
Definition ready (j : nat) (t : table) : Prop :=
  (forall i, (i < n)%nat -> t i O = ent i 0 /\ t i (S i) = ent i (S i)) /\ (forall i k, (k < j)%nat -> (k < i <= n)%nat -> t i (S k) = ent i (S k)).

Lemma column_ok j t : (j < n)%nat -> ready j t -> ready (S j) (shift_column n j t).
Proof.
  intros J [A B]. unfold shift_column. rewrite Nat.add_1_r.
  assert (G : forall m, (m <= n - j)%nat ->
    let t' := fold_left (fun t i => put t i (S j) (t (i - 1)%nat j + t (i - 1)%nat (S j))) (seq (S j) m) t in
    ready j t' /\ (forall i, (j < i <= j + m)%nat -> t' i (S j) = ent i (S j))).
  { induction m; intros M t'.
    - split; [split; auto|]. intros; lia.
    - assert (M' : (m <= n - j)%nat) by lia. destruct (IHm M') as [[A' B'] C']. clear IHm.
      unfold t'. rewrite seq_S, fold_left_app. cbn [fold_left]. set (u := fold_left _ (seq (S j) m) t) in *.
      assert (V : u (S j + m - 1)%nat j + u (S j + m - 1)%nat (S j) = ent (S j + m) (S j)).
      { replace (S j + m)%nat with (S (j + m)) by lia. rewrite ent_step by lia. replace (S (j + m) - 1)%nat with (j + m)%nat by lia. f_equal.
        - destruct j as [|j']; [apply A'; lia|]. apply B'; lia.
        - destruct m as [|m']; [rewrite Nat.add_0_r; apply A'; lia|]. apply C'. lia. }
      split; [split|].
      + intros i I. split; rewrite put_other by lia; apply A'; auto.
      + intros i k K1 K2. rewrite put_other by lia. apply B'; auto.
      + intros i I. destruct (Nat.eq_dec i (S j + m)) as [->|NE]; [rewrite put_same; exact V|].
        rewrite put_other by lia. apply C'. lia. }
  destruct (G (n - j)%nat ltac:(lia)) as [[A' B'] C']. split; auto.
  intros i k K1 K2. destruct (Nat.eq_dec k j) as [->|NE]; [apply C'; lia|]. apply B'; lia.
Qed.

Lemma fill_ok t : ready 0 t -> ready n (shift_fill n t).
Proof.
  intros H. unfold shift_fill.
  assert (G : forall m, (m <= n)%nat -> ready m (fold_left (fun t j => shift_column n j t) (seq 0 m) t)).
  { induction m; intros M; [exact H|]. rewrite seq_S, fold_left_app. cbn [fold_left Nat.add]. apply column_ok; [lia|]. apply IHm. lia. }
  apply G. lia.
Qed.

Lemma table_ok i : (i < n)%nat -> shift_fill n (shift_start p x n garbage) n (S i) = ent n (S i).
Proof.
  intros I. assert (R : ready 0 (shift_start p x n garbage)).
  { split; [|intros; lia]. intros j J. apply start_ok. auto. }
  apply fill_ok in R. destruct R as [_ B]. apply B; lia.
Qed.

(** Row [i] holds the coefficients of a partly evaluated Horner scheme in 1+y. *)
Fixpoint hor (i : nat) (y : R) : R := match i with O => c n | S k => hor k y * (1 + y) + c (n - k - 1) end.

Lemma row_horner i y : big (S i) (fun j => ent i (S j) * y ^ j) = hor i y.
Proof.
  induction i as [|i IH].
  - cbn. ring.
  - cbn [hor]. rewrite <- IH.
    assert (E : big (S (S i)) (fun j => ent (S i) (S j) * y ^ j) = c (n - i - 1) + big (S i) (fun j => ent i (S j) * y ^ S j) + big (S i) (fun j => ent i (S j) * y ^ j)).
    { cbn [big]. rewrite ent_diag.
      replace (big i (fun j => ent (S i) (S j) * y ^ j) + ent (S i) (S i) * y ^ i) with (big (S i) (fun j => ent (S i) (S j) * y ^ j)) by reflexivity.
      rewrite (big_ext (S i) _ (fun j => ent i j * y ^ j + ent i (S j) * y ^ j)) by (intros j J; rewrite ent_step by lia; ring).
      rewrite big_plus. rewrite (big_shift i (fun j => ent i j * y ^ j)). rewrite ent_zero. cbn [big]. rewrite ent_diag. cbn [pow]. ring. }
    rewrite E. replace (fun j => ent i (S j) * y ^ S j) with (fun j => y * (ent i (S j) * y ^ j)) by (apply FunctionalExtensionality.functional_extensionality; intros; cbn; ring).
    rewrite big_scale. ring.
Qed.

Lemma hor_value i y : (i <= n)%nat -> hor i y = big (S i) (fun k => c (n - i + k) * (1 + y) ^ k).
Proof.
  induction i as [|i IH]; intros I.
  - cbn. rewrite Nat.sub_0_r, Nat.add_0_r. ring.
  - cbn [hor]. rewrite IH by lia. rewrite (big_shift (S i)). cbn [pow]. rewrite Nat.add_0_r.
    replace (n - S i)%nat with (n - i - 1)%nat by lia. rewrite Rmult_1_r.
    rewrite (big_ext (S i) (fun k => c (n - i - 1 + S k) * ((1 + y) * (1 + y) ^ k)) (fun k => (1 + y) * (c (n - i + k) * (1 + y) ^ k))).
    + rewrite big_scale. ring.
    + intros k K. replace (n - i - 1 + S k)%nat with (n - i + k)%nat by lia. ring.
Qed.
End Shift.

Lemma nth_map_seq (f : nat -> R) n i d : (i < n)%nat -> nth i (map f (seq 0 n)) d = f i.
Proof. intros I. rewrite (nth_indep _ d (f O)) by (rewrite map_length, seq_length; auto). rewrite map_nth, seq_nth by auto. auto. Qed.

Lemma shift_ok g p s y : 1 / 10 ^ 9 < Rabs s -> evaluate (shift g p s) y = evaluate p (y + s).
Proof.
  intros HS. unfold shift. destruct (Rlt_dec (1 / 10 ^ 9) (Rabs s)) as [_|N]; [|tauto].
  assert (S0 : s <> 0) by (intros ->; rewrite Rabs_R0 in HS; lra).
  destruct p as [|c0 r]; [reflexivity|]. set (p := c0 :: r). set (n := (length p - 1)%nat). assert (L : length p = S n) by (unfold n, p; cbn; lia).
  rewrite eval_big, (eval_big p). rewrite app_length, map_length, seq_length. cbn [length]. rewrite Nat.add_1_r, L.
  set (t := shift_fill n (shift_start p s n g)).
  transitivity (big (S n) (fun i => ent p s n n (S i) * (y / s) ^ i)).
  - assert (PS : forall i, s ^ i <> 0) by (intros; apply pow_nonzero; auto).
    assert (DV : forall i, (y / s) ^ i = y ^ i / s ^ i) by (intros i; unfold Rdiv; rewrite Rpow_mult_distr, pow_inv; auto).
    apply big_ext. intros i I. rewrite DV. unfold coeff at 1. destruct (Nat.eq_dec i n) as [->|NE].
    + rewrite app_nth2 by (rewrite map_length, seq_length; lia). rewrite map_length, seq_length, Nat.sub_diag. cbn [nth].
      rewrite ent_diag. field. auto.
    + rewrite app_nth1 by (rewrite map_length, seq_length; lia). rewrite nth_map_seq by lia. rewrite Nat.add_1_r.
      unfold t. rewrite table_ok by lia. field. auto.
  - rewrite row_horner, hor_value by lia. apply big_ext. intros k _. rewrite Nat.sub_diag. cbn [Nat.add].
    replace (y + s) with (s * (1 + y / s)) by (field; auto). rewrite Rpow_mult_distr. ring.
Qed.

Lemma shift_small_refuted : exists g p s y, evaluate (shift g p s) y <> evaluate p (y + s).
Proof.
  exists (fun _ _ => 0), [0; 1], (1 / 10 ^ 10), 0. unfold shift. rewrite Rabs_right by lra.
  destruct (Rlt_dec (1 / 10 ^ 9) (1 / 10 ^ 10)) as [H|H]; [lra|]. cbn. lra.
Qed.

(** ** Root finding *)
Definition between (a b x : R) : Prop := Rmin a b <= x <= Rmax a b.

Lemma between_ends a b : between a b a /\ between a b b.
Proof. unfold between, Rmin, Rmax. destruct (Rle_dec a b); lra. Qed.
Lemma between_mul a b x : (x - a) * (x - b) <= 0 -> between a b x.
Proof. unfold between, Rmin, Rmax. intros H. destruct (Rle_dec a b); nra. Qed.
Lemma between_mid a b : between a b (a + / 2 * (b - a)).
Proof. unfold between, Rmin, Rmax. destruct (Rle_dec a b); lra. Qed.
Lemma between_inside a b x y z : between a b x -> between a b y -> between x y z -> between a b z.
Proof. unfold between, Rmin, Rmax. intros. destruct (Rle_dec a b), (Rle_dec x y); lra. Qed.
Lemma between_sym a b x : between a b x -> between b a x.
Proof. unfold between, Rmin, Rmax. intros. destruct (Rle_dec a b), (Rle_dec b a); lra. Qed.

Section NewtonProofs.
Variable func dfunc : R -> R.
Variable xacc : R.

(** What a result promises for the interval between [a] and [b]. *)
Definition good (a b : R) (r : root_result) : Prop :=
  match r with
  | NotBracketed => False
  | NotANumber pts => Forall (between a b) pts
  | Found v xl xh pts =>
      between a b v /\ between a b xl /\ between a b xh /\ Forall (between a b) pts
  end.

Definition signs (r : root_result) : Prop :=
  match r with
  | Found v xl xh _ => func xl < 0 /\ 0 <= func xh /\ between xl xh v
  | _ => True
  end.

Lemma newton_loop_ok a b fuel : forall xl xh rts dx dxold f df pts,
  between a b xl -> between a b xh -> between a b rts -> Forall (between a b) pts ->
  good a b (newton_loop func dfunc xacc fuel xl xh rts dx dxold f df pts).
Proof.
  induction fuel as [|k IH]; intros xl xh rts dx dxold f df pts A B C F; cbn [newton_loop]; [cbn; auto|].
  assert (CONT : forall rts' dx', between a b rts' ->
    good a b (if Rlt_dec (Rabs dx') xacc then Found rts' xl xh pts
        else if Rlt_dec (func rts') 0 then newton_loop func dfunc xacc k rts' xh rts' dx' dx (func rts') (dfunc rts') (pts ++ [rts'])
          else newton_loop func dfunc xacc k xl rts' rts' dx' dx (func rts') (dfunc rts') (pts ++ [rts']))).
  { intros rts' dx' I. destruct (Rlt_dec (Rabs dx') xacc); [cbn; auto|].
    assert (Forall (between a b) (pts ++ [rts'])) by (apply Forall_app; auto).
    destruct (Rlt_dec (func rts') 0); apply IH; auto. }
  destruct (_ || _) eqn:OR.
  - assert (M : between a b (xl + / 2 * (xh - xl))) by (eapply between_inside; [exact A|exact B|apply between_mid]).
    destruct (Req_EM_T xl _); [cbn; auto|]. apply CONT; auto.
  - apply orb_false_iff in OR. destruct OR as [O1 O2]. destruct (Req_EM_T df 0) as [|D]; [cbn; auto|].
    assert (M : between a b (rts - f / df)).
    { apply (between_inside a b xh xl); auto. apply between_mul. destruct (Rlt_dec 0 (((rts - xh) * df - f) * ((rts - xl) * df - f))) as [|NL]; [discriminate|].
      assert (E : ((rts - xh) * df - f) * ((rts - xl) * df - f) = (rts - f / df - xh) * (rts - f / df - xl) * (df * df)) by (field; auto).
      rewrite E in NL. assert (0 < df * df) by nra. apply Rnot_lt_le in NL. nra. }
    destruct (Req_EM_T rts _); [cbn; auto|]. apply CONT; auto.
Qed.

Lemma newton_signs fuel : forall xl xh rts dx dxold f df pts,
  func xl < 0 -> 0 <= func xh -> between xl xh rts ->
  signs (newton_loop func dfunc xacc fuel xl xh rts dx dxold f df pts).
Proof.
  induction fuel as [|k IH]; intros xl xh rts dx dxold f df pts A B C; cbn [newton_loop]; [cbn; auto|].
  assert (CONT : forall rts' dx', between xl xh rts' ->
    signs (if Rlt_dec (Rabs dx') xacc then Found rts' xl xh pts
        else if Rlt_dec (func rts') 0 then newton_loop func dfunc xacc k rts' xh rts' dx' dx (func rts') (dfunc rts') (pts ++ [rts'])
          else newton_loop func dfunc xacc k xl rts' rts' dx' dx (func rts') (dfunc rts') (pts ++ [rts']))).
  { intros rts' dx' I. destruct (Rlt_dec (Rabs dx') xacc); [cbn; auto|].
    destruct (Rlt_dec (func rts') 0); apply IH; auto; try apply between_ends. lra. }
  destruct (_ || _) eqn:OR.
  - pose proof (between_mid xl xh). destruct (Req_EM_T xl _); [cbn; auto|]. apply CONT; auto.
  - apply orb_false_iff in OR. destruct OR as [O1 O2]. destruct (Req_EM_T df 0) as [|D]; [exact I|].
    assert (M : between xl xh (rts - f / df)).
    { apply between_sym, between_mul. destruct (Rlt_dec 0 (((rts - xh) * df - f) * ((rts - xl) * df - f))) as [|NL]; [discriminate|].
      assert (E : ((rts - xh) * df - f) * ((rts - xl) * df - f) = (rts - f / df - xh) * (rts - f / df - xl) * (df * df)) by (field; auto).
      rewrite E in NL. assert (0 < df * df) by nra. apply Rnot_lt_le in NL. nra. }
    destruct (Req_EM_T rts _); [cbn; auto|]. apply CONT; auto.
Qed.

Lemma newton_ok x1 x2 xinit steps : func x1 * func x2 <= 0 -> between x1 x2 xinit ->
  good x1 x2 (newton_raphson func dfunc xacc x1 x2 xinit steps).
Proof.
  intros HS I. destruct (between_ends x1 x2) as [E1 E2]. unfold newton_raphson.
  destruct (Rlt_dec 0 (func x1 * func x2)); [lra|].
  assert (F2 : Forall (between x1 x2) [x1; x2]) by auto. assert (F3 : Forall (between x1 x2) [x1; x2; xinit]) by auto.
  destruct (Req_EM_T (func x1) 0); [repeat (split; [assumption|]); assumption|]. destruct (Req_EM_T (func x2) 0); [repeat (split; [assumption|]); assumption|].
  destruct (Rlt_dec (func x1) 0); apply newton_loop_ok; auto.
Qed.

Lemma newton_root x1 x2 xinit steps v xl xh pts : func x1 * func x2 <= 0 -> between x1 x2 xinit ->
  (forall x, between x1 x2 x -> continuity_pt func x) ->
  newton_raphson func dfunc xacc x1 x2 xinit steps = Found v xl xh pts ->
  func v = 0 \/ (between xl xh v /\ exists z, between xl xh z /\ func z = 0).
Proof.
  intros HS I CT E. pose proof (newton_ok x1 x2 xinit steps HS I) as G. rewrite E in G. destruct G as [_ [GL [GH _]]].
  unfold newton_raphson in E. destruct (Rlt_dec 0 (func x1 * func x2)); [lra|].
  destruct (Req_EM_T (func x1) 0) as [Z|NZ]; [injection E as <- _ _ _; auto|].
  destruct (Req_EM_T (func x2) 0) as [Z2|NZ2]; [injection E as <- _ _ _; auto|].
  right. assert (SG : signs (Found v xl xh pts)).
  { destruct (Rlt_dec (func x1) 0); rewrite <- E; apply newton_signs; auto; try nra. apply between_sym; auto. }
  destruct SG as [F1 [F2 BV]]. split; auto.
  assert (IN : forall a, between xl xh a -> continuity_pt func a) by (intros a A; apply CT; eapply between_inside; [exact GL|exact GH|exact A]).
  destruct (Req_EM_T (func xh) 0) as [ZH|ZH]; [exists xh; split; auto; apply between_ends|].
  destruct (Rtotal_order xl xh) as [L|[L|L]].
  - destruct (Ranalysis5.IVT_interv func xl xh) as [z [Z1 Z2]]; auto; try lra.
    + intros a A. apply IN. unfold between, Rmin, Rmax. destruct (Rle_dec xl xh); lra.
    + exists z. split; auto. unfold between, Rmin, Rmax. destruct (Rle_dec xl xh); lra.
  - subst. lra.
  - destruct (Ranalysis5.IVT_interv (fun x => - func x) xh xl) as [z [Z1 Z2]]; auto; try lra.
    + intros a A. apply continuity_pt_opp. apply IN. unfold between, Rmin, Rmax. destruct (Rle_dec xl xh); lra.
    + exists z. split; [unfold between, Rmin, Rmax; destruct (Rle_dec xl xh); lra|lra].
Qed.

Lemma nan_step k xl xh rts dx dxold f df pts : f = 0 -> df = 0 -> newton_loop func dfunc xacc (S k) xl xh rts dx dxold f df pts = NotANumber pts.
Proof.
  intros -> ->. cbn [newton_loop]. destruct (Rlt_dec 0 (((rts - xh) * 0 - 0) * ((rts - xl) * 0 - 0))) as [H4|H4]; [lra|].
  destruct (Rlt_dec (Rabs (dxold * 0)) (Rabs (2 * 0))) as [H5|H5].
  - exfalso. replace (2 * 0) with 0 in H5 by ring. rewrite Rabs_R0 in H5. pose proof (Rabs_pos (dxold * 0)). lra.
  - cbn [orb]. destruct (Req_EM_T 0 0) as [H6|H6]; [auto|lra].
Qed.

(** With a slope that never vanishes no step divides by zero. *)
Lemma newton_loop_number a b fuel : (forall x, between a b x -> dfunc x <> 0) -> forall xl xh rts dx dxold f pts,
  between a b xl -> between a b xh -> between a b rts ->
  match newton_loop func dfunc xacc fuel xl xh rts dx dxold f (dfunc rts) pts with Found _ _ _ _ => True | _ => False end.
Proof.
  intros NZ. induction fuel as [|k IH]; intros xl xh rts dx dxold f pts A B C; cbn [newton_loop]; auto.
  assert (CONT : forall rts' dx', between a b rts' ->
    match (if Rlt_dec (Rabs dx') xacc then Found rts' xl xh pts
        else if Rlt_dec (func rts') 0 then newton_loop func dfunc xacc k rts' xh rts' dx' dx (func rts') (dfunc rts') (pts ++ [rts'])
          else newton_loop func dfunc xacc k xl rts' rts' dx' dx (func rts') (dfunc rts') (pts ++ [rts'])) with Found _ _ _ _ => True | _ => False end).
  { intros rts' dx' BT. destruct (Rlt_dec (Rabs dx') xacc); [auto|]. destruct (Rlt_dec (func rts') 0); apply IH; auto. }
  destruct (_ || _) eqn:OR.
  - assert (M : between a b (xl + / 2 * (xh - xl))) by (eapply between_inside; [exact A|exact B|apply between_mid]).
    destruct (Req_EM_T xl _); [auto|]. apply CONT; auto.
  - apply orb_false_iff in OR. destruct OR as [O1 O2]. destruct (Req_EM_T (dfunc rts) 0) as [Z|D]; [exfalso; apply (NZ rts); auto|].
    assert (M : between a b (rts - f / dfunc rts)).
    { apply (between_inside a b xh xl); auto. apply between_mul. set (df := dfunc rts) in *. destruct (Rlt_dec 0 (((rts - xh) * df - f) * ((rts - xl) * df - f))) as [|NL]; [discriminate|].
      assert (E : ((rts - xh) * df - f) * ((rts - xl) * df - f) = (rts - f / df - xh) * (rts - f / df - xl) * (df * df)) by (field; auto).
      rewrite E in NL. assert (0 < df * df) by nra. apply Rnot_lt_le in NL. nra. }
    destruct (Req_EM_T rts _); [auto|]. apply CONT; auto.
Qed.

Lemma newton_number x1 x2 xinit steps : func x1 * func x2 <= 0 -> between x1 x2 xinit -> (forall x, between x1 x2 x -> dfunc x <> 0) ->
  exists v xl xh pts, newton_raphson func dfunc xacc x1 x2 xinit steps = Found v xl xh pts.
Proof.
  intros HS BI NZ. destruct (between_ends x1 x2) as [E1 E2]. unfold newton_raphson. destruct (Rlt_dec 0 (func x1 * func x2)); [lra|].
  destruct (Req_EM_T (func x1) 0); [eauto 6|]. destruct (Req_EM_T (func x2) 0); [eauto 6|].
  assert (N : forall xl xh, between x1 x2 xl -> between x1 x2 xh ->
    match newton_loop func dfunc xacc (steps - 1) xl xh xinit (Rabs (x2 - x1)) (Rabs (x2 - x1)) (func xinit) (dfunc xinit) [x1; x2; xinit] with
    | Found _ _ _ _ => True | _ => False end) by (intros; apply (newton_loop_number x1 x2); auto).
  destruct (Rlt_dec (func x1) 0).
  - specialize (N x1 x2 E1 E2). destruct newton_loop; [tauto|tauto|eauto 6].
  - specialize (N x2 x1 E2 E1). destruct newton_loop; [tauto|tauto|eauto 6].
Qed.

(** With a slope between [lo] and [hi] the search ends near the root, unless it runs out
    of steps, in which case the list of points is full. *)
Section Accuracy.
Variable a b lo hi : R.
Hypothesis LO : 0 < lo.
Hypothesis DER : forall x, between a b x -> is_derive func x (dfunc x).
Hypothesis SLOPE : forall x, between a b x -> lo <= dfunc x <= hi.

Lemma slope_distance x y : between a b x -> between a b y -> lo * Rabs (x - y) <= Rabs (func x - func y).
Proof.
  intros BX BY. destruct (MVT_gen func x y dfunc) as [c [C1 C2]].
  - intros z Z. apply DER. apply (between_inside a b x y); auto. unfold between. lra.
  - intros z Z. apply continuity_pt_filterlim. apply (ex_derive_continuous (V := R_NormedModule)). eexists. apply DER. apply (between_inside a b x y); auto.
  - assert (BC : between a b c) by (apply (between_inside a b x y); auto). pose proof (SLOPE c BC).
    rewrite (Rabs_minus_sym (func x)), C2, Rabs_mult, (Rabs_minus_sym x). rewrite (Rabs_right (dfunc c)) by lra.
    apply Rmult_le_compat_r; [apply Rabs_pos|lra].
Qed.

Lemma func_cont x : between a b x -> continuity_pt func x.
Proof. intros B. apply continuity_pt_filterlim. apply (ex_derive_continuous (V := R_NormedModule)). eexists. apply DER. auto. Qed.

Lemma root_inside xl xh : between a b xl -> between a b xh -> func xl < 0 -> 0 <= func xh -> exists z, between xl xh z /\ func z = 0.
Proof.
  intros GL GH F1 F2.
  assert (IN : forall a, between xl xh a -> continuity_pt func a) by (intros c A; apply func_cont; eapply between_inside; [exact GL|exact GH|exact A]).
  destruct (Req_EM_T (func xh) 0) as [ZH|ZH]; [exists xh; split; auto; apply between_ends|].
  destruct (Rtotal_order xl xh) as [L|[L|L]].
  - destruct (Ranalysis5.IVT_interv func xl xh) as [z [Z1 Z2]]; auto; try lra.
    + intros c A. apply IN. unfold between, Rmin, Rmax. destruct (Rle_dec xl xh); lra.
    + exists z. split; auto. unfold between, Rmin, Rmax. destruct (Rle_dec xl xh); lra.
  - subst. lra.
  - destruct (Ranalysis5.IVT_interv (fun x => - func x) xh xl) as [z [Z1 Z2]]; auto; try lra.
    + intros c A. apply continuity_pt_opp. apply IN. unfold between, Rmin, Rmax. destruct (Rle_dec xl xh); lra.
    + exists z. split; [unfold between, Rmin, Rmax; destruct (Rle_dec xl xh); lra|lra].
Qed.

Definition near (v : R) : Prop := exists z, between a b z /\ func z = 0 /\ Rabs (v - z) <= (1 + hi / lo) * xacc.

Lemma newton_loop_near fuel : forall xl xh rts dx dxold pts v xl' xh' pts',
  between a b xl -> between a b xh -> between a b rts -> between xl xh rts -> func xl < 0 -> 0 <= func xh -> 0 <= xacc ->
  newton_loop func dfunc xacc fuel xl xh rts dx dxold (func rts) (dfunc rts) pts = Found v xl' xh' pts' ->
  length pts' = (length pts + fuel)%nat \/ near v.
Proof.
  assert (HI : 0 < hi / lo) by (pose proof (proj1 (between_ends a b)) as E; pose proof (SLOPE a E); apply Rdiv_lt_0_compat; lra).
  induction fuel as [|k IH]; intros xl xh rts dx dxold pts v xl' xh' pts' A B C CX SL SH XA E; cbn [newton_loop] in E; [injection E as <- <- <- <-; left; apply plus_n_O|].
  assert (CONT : forall rts' dx', between a b rts' -> between xl xh rts' ->
    (Rabs dx' < xacc -> near rts') ->
    (if Rlt_dec (Rabs dx') xacc then Found rts' xl xh pts
        else if Rlt_dec (func rts') 0 then newton_loop func dfunc xacc k rts' xh rts' dx' dx (func rts') (dfunc rts') (pts ++ [rts'])
          else newton_loop func dfunc xacc k xl rts' rts' dx' dx (func rts') (dfunc rts') (pts ++ [rts'])) = Found v xl' xh' pts' ->
    length pts' = (length pts + S k)%nat \/ near v).
  { intros rts' dx' BT BX ND. destruct (Rlt_dec (Rabs dx') xacc); [intros E'; injection E' as <- <- <- <-; auto|].
    assert (BE := between_ends). intros E'.
    destruct (Rlt_dec (func rts') 0); apply IH in E'; auto; try (apply BE); try lra; rewrite app_length in E'; cbn in E'; destruct E' as [E'|E']; auto; left; rewrite E'; rewrite <- !plus_n_Sm, <- plus_n_O; reflexivity. }
  destruct (_ || _) eqn:OR.
  - assert (MX : between xl xh (xl + / 2 * (xh - xl))) by apply between_mid.
    assert (M : between a b (xl + / 2 * (xh - xl))) by (eapply between_inside; [exact A|exact B|exact MX]).
    destruct (Req_EM_T xl (xl + / 2 * (xh - xl))) as [Q|Q].
    + exfalso. assert (xh = xl) by lra. subst. lra.
    + apply CONT in E; auto. intros D. destruct (root_inside xl xh A B SL SH) as [z [Z1 Z2]]. exists z.
      split; [apply (between_inside a b xl xh); auto|]. split; auto.
      apply Rle_trans with (Rabs (/ 2 * (xh - xl))); [|nra].
      unfold between, Rmin, Rmax in Z1. unfold Rabs. destruct (Rle_dec xl xh); destruct (Rcase_abs _), (Rcase_abs _); lra.
  - apply orb_false_iff in OR. destruct OR as [O1 O2]. destruct (Req_EM_T (dfunc rts) 0) as [Z|D]; [discriminate|].
    assert (MX : between xl xh (rts - func rts / dfunc rts)).
    { apply between_sym, between_mul. set (df := dfunc rts) in *. set (f := func rts) in *. destruct (Rlt_dec 0 (((rts - xh) * df - f) * ((rts - xl) * df - f))) as [|NL]; [discriminate|].
      assert (E' : ((rts - xh) * df - f) * ((rts - xl) * df - f) = (rts - f / df - xh) * (rts - f / df - xl) * (df * df)) by (field; auto).
      rewrite E' in NL. assert (0 < df * df) by nra. apply Rnot_lt_le in NL. nra. }
    assert (M : between a b (rts - func rts / dfunc rts)) by (apply (between_inside a b xl xh); auto).
    destruct (Req_EM_T rts _) as [Q|Q].
    + injection E as <- <- <- <-. right. exists rts. split; auto. assert (FZ : func rts = 0).
      { assert (func rts / dfunc rts = 0) by lra. apply (Rmult_eq_reg_r (/ dfunc rts)); [|apply Rinv_neq_0_compat; auto]. unfold Rdiv in H. rewrite H. ring. }
      split; auto. rewrite <- Q. rewrite Rminus_eq_0, Rabs_R0. nra.
    + apply CONT in E; auto. intros DS. destruct (root_inside xl xh A B SL SH) as [z [Z1 Z2]].
      assert (BZ : between a b z) by (apply (between_inside a b xl xh); auto). exists z. split; auto. split; auto.
      pose proof (slope_distance rts z C BZ) as SD. rewrite Z2, Rminus_0_r in SD. pose proof (SLOPE rts C) as SR.
      assert (FE : Rabs (func rts) = Rabs (func rts / dfunc rts) * dfunc rts).
      { unfold Rdiv. rewrite Rabs_mult, Rabs_inv. rewrite (Rabs_right (dfunc rts)) by lra. field. lra. }
      assert (RZ : Rabs (rts - z) <= hi / lo * xacc).
      { apply Rmult_le_reg_l with lo; auto. replace (lo * (hi / lo * xacc)) with (hi * xacc) by (field; lra).
        eapply Rle_trans; [exact SD|]. rewrite FE. pose proof (Rabs_pos (func rts / dfunc rts)). nra. }
      replace (rts - func rts / dfunc rts - z) with ((rts - z) + - (func rts / dfunc rts)) by ring.
      eapply Rle_trans; [apply Rabs_triang|]. rewrite Rabs_Ropp. lra.
Qed.
End Accuracy.

Lemma newton_near x1 x2 lo hi xinit steps v xl xh pts : 0 < lo -> 0 <= xacc ->
  (forall x, between x1 x2 x -> is_derive func x (dfunc x)) -> (forall x, between x1 x2 x -> lo <= dfunc x <= hi) ->
  between x1 x2 xinit -> newton_raphson func dfunc xacc x1 x2 xinit steps = Found v xl xh pts ->
  length pts = (3 + (steps - 1))%nat \/ exists z, between x1 x2 z /\ func z = 0 /\ Rabs (v - z) <= (1 + hi / lo) * xacc.
Proof.
  intros LO XA DER SL BI E. destruct (between_ends x1 x2) as [E1 E2].
  assert (HL : 0 < hi / lo) by (pose proof (SL x1 E1); apply Rdiv_lt_0_compat; lra).
  unfold newton_raphson in E. destruct (Rlt_dec 0 (func x1 * func x2)) as [|NP]; [discriminate|].
  destruct (Req_EM_T (func x1) 0) as [Z|Z]; [injection E as <- <- <- <-; right; exists x1; repeat split; try apply E1; auto; rewrite Rminus_eq_0, Rabs_R0; nra|].
  destruct (Req_EM_T (func x2) 0) as [Z2|Z2]; [injection E as <- <- <- <-; right; exists x2; repeat split; try apply E2; auto; rewrite Rminus_eq_0, Rabs_R0; nra|].
  destruct (Rlt_dec (func x1) 0); eapply (newton_loop_near x1 x2 lo hi) in E; auto; try lra; try nra. apply between_sym; auto.
Qed.

Lemma newton_throws x1 x2 xinit steps : 0 < func x1 * func x2 -> newton_raphson func dfunc xacc x1 x2 xinit steps = NotBracketed.
Proof. intros H. unfold newton_raphson. destruct (Rlt_dec _ _); [auto|tauto]. Qed.
End NewtonProofs.

Lemma newton_nan : exists func dfunc x1 x2 xinit pts, (forall x, is_derive func x (dfunc x)) /\ func x1 * func x2 <= 0 /\ between x1 x2 xinit /\
  newton_raphson func dfunc (1 / 10 ^ 6) x1 x2 xinit 101 = NotANumber pts.
Proof.
  exists (fun x => x ^ 3), (fun x => 3 * x ^ 2), (-1), 1, 0, [-1; 1; 0]. split; [|split; [lra|split]].
  - intros x. evar_last; [apply is_derive_pow, @is_derive_id|]. unfold one; cbn. ring.
  - unfold between, Rmin, Rmax. destruct (Rle_dec (-1) 1); lra.
  - unfold newton_raphson. destruct (Rlt_dec 0 ((-1) ^ 3 * 1 ^ 3)) as [H|H]; [lra|].
    destruct (Req_EM_T ((-1) ^ 3) 0) as [H1|H1]; [lra|]. destruct (Req_EM_T (1 ^ 3) 0) as [H2|H2]; [lra|].
    destruct (Rlt_dec ((-1) ^ 3) 0) as [H3|H3]; [|lra]. change (101 - 1)%nat with (S 99). apply nan_step; ring.
Qed.
