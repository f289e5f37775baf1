(** Crossings found one by one make up the whole list. *)
From Coq Require Import Reals Lra Lia List Bool Permutation Sorted Arith.
From Verif Require Import VectorModel GeometryModel GeometrySpec SolidModel SolidSpec.
Import ListNotations.
Open Scope R_scope.

(** [P] does not change around [t]. *)
Definition steady (P : R -> Prop) (t : R) (b : bool) : Prop := exists e, 0 < e /\ forall u, t - e < u < t + e -> (P u <-> b = true).
(** [P] is [a] before and [b] after [t]. *)
Definition sides (P : R -> Prop) (t : R) (a b : bool) : Prop := exists e, 0 < e /\
  (forall u, t - e < u < t -> (P u <-> a = true)) /\ (forall u, t < u < t + e -> (P u <-> b = true)).

Lemma steady_at P t b : steady P t b -> (P t <-> b = true).
Proof. intros (e & E & H). apply H. lra. Qed.
Lemma steady_sides P t b : steady P t b -> sides P t b b.
Proof. intros (e & E & H). exists e. split; auto. split; intros; apply H; lra. Qed.
Lemma steady_ext P Q t b : (forall u, P u <-> Q u) -> steady P t b -> steady Q t b.
Proof. intros X (e & E & H). exists e. split; auto. intros u U. rewrite <- X. apply H; auto. Qed.
Lemma sides_ext P Q t a b : (forall u, P u <-> Q u) -> sides P t a b -> sides Q t a b.
Proof. intros X (e & E & H & K). exists e. split; auto. split; intros u U; rewrite <- X; [apply H|apply K]; auto. Qed.
Lemma steady_and P Q t a b : steady P t a -> steady Q t b -> steady (fun u => P u /\ Q u) t (a && b).
Proof.
  intros (e & E & H) (f & F & K). exists (Rmin e f). split; [apply Rmin_glb_lt; auto|]. intros u U.
  pose proof (Rmin_l e f). pose proof (Rmin_r e f). rewrite H, K, andb_true_iff by lra. tauto.
Qed.
Lemma steady_none_l P Q t : steady P t false -> steady (fun u => P u /\ Q u) t false.
Proof. intros (e & E & H). exists e. split; auto. intros u U. rewrite H by auto. split; [tauto|discriminate]. Qed.
Lemma steady_none_r P Q t : steady Q t false -> steady (fun u => P u /\ Q u) t false.
Proof. intros (e & E & H). exists e. split; auto. intros u U. rewrite H by auto. split; [tauto|discriminate]. Qed.
Lemma sides_and P Q t a b c d : sides P t a b -> sides Q t c d -> sides (fun u => P u /\ Q u) t (a && c) (b && d).
Proof.
  intros (e & E & H & H') (f & F & K & K'). exists (Rmin e f). split; [apply Rmin_glb_lt; auto|].
  pose proof (Rmin_l e f). pose proof (Rmin_r e f). split; intros u U; rewrite andb_true_iff; [rewrite H, K by lra|rewrite H', K' by lra]; tauto.
Qed.
Lemma sides_not P t a b : sides P t a b -> sides (fun u => ~ P u) t (negb a) (negb b).
Proof.
  intros (e & E & H & H'). exists e. split; auto. split; intros u U; [rewrite H by lra; destruct a|rewrite H' by lra; destruct b]; cbn; intuition congruence.
Qed.
Lemma steady_not P t a : steady P t a -> steady (fun u => ~ P u) t (negb a).
Proof. intros (e & E & H). exists e. split; auto. intros u U. rewrite H by auto. destruct a; cbn; intuition congruence. Qed.
Lemma steady_imp (C : Prop) P t a : (C \/ ~ C) -> (C -> steady P t a) -> (~ C -> a = true) -> steady (fun u => C -> P u) t a.
Proof.
  intros [c|c] H K.
  - destruct (H c) as (e & E & X). exists e. split; auto. intros u U. rewrite <- (X u U). tauto.
  - exists 1. split; [lra|]. intros u U. rewrite (K c). split; [auto|]. intros _ Z. contradiction.
Qed.
Lemma steady_const (C : Prop) t b : (C <-> b = true) -> steady (fun _ => C) t b.
Proof. intros H. exists 1. split; [lra|]. auto. Qed.

(** Between two places without a change nothing changes. *)
Lemma between P lo hi b : lo < hi -> (exists e, 0 < e /\ forall u, lo < u < lo + e -> (P u <-> b = true)) ->
  (forall t, lo < t < hi -> exists c, steady P t c) -> forall t, lo < t < hi -> (P t <-> b = true).
Proof.
  intros L (e & E & S) K. set (G := fun x => lo < x <= hi /\ forall y, lo < y < x -> (P y <-> b = true)).
  assert (B : bound G) by (exists hi; intros x [X _]; lra).
  assert (N : exists x, G x).
  { exists (Rmin hi (lo + e)). pose proof (Rmin_l hi (lo + e)). pose proof (Rmin_r hi (lo + e)). split; [split; auto; apply Rmin_glb_lt; lra|].
    intros y Y. apply S. lra. }
  destruct (completeness G B N) as [c [U V]].
  assert (C1 : lo < c). { destruct N as [x X]. pose proof (U x X). destruct X. lra. }
  assert (C2 : c <= hi) by (apply V; intros x [X _]; lra).
  assert (F : forall y, lo < y < c -> (P y <-> b = true)).
  { intros y Y. destruct (Classical_Prop.classic (exists x, G x /\ y < x)) as [(x & [X1 X2] & X)|M]; [apply X2; lra|].
    assert (c <= y). { apply V. intros x X. destruct (Rle_lt_dec x y); auto. elim M. exists x. auto. } lra. }
  destruct (Rlt_le_dec c hi) as [H|H]; [|intros t T; apply F; lra].
  destruct (K c) as [b' (e' & E' & S')]; [lra|].
  assert (b' = b).
  { assert (Y : lo < Rmax ((lo + c) / 2) (c - e' / 2) < c).
    { split; [apply Rlt_le_trans with ((lo + c) / 2); [lra|apply Rmax_l]|apply Rmax_lub_lt; lra]. }
    pose proof (Rmax_r ((lo + c) / 2) (c - e' / 2)) as R1. set (y := Rmax _ _) in *.
    pose proof (F y Y) as Z. rewrite S' in Z by lra. destruct b, b'; intuition congruence. }
  subst b'. assert (G (Rmin hi (c + e' / 2))).
  { pose proof (Rmin_l hi (c + e' / 2)). pose proof (Rmin_r hi (c + e' / 2)). split; [split; auto; apply Rmin_glb_lt; lra|].
    intros y Y. destruct (Rlt_le_dec y c); [apply F; lra|apply S'; lra]. }
  apply U in H0. assert (c < Rmin hi (c + e' / 2)) by (apply Rmin_glb_lt; lra). lra.
Qed.

Definition step (t : R) (s : bool) (h : hit) : bool := if Rlt_dec (h_distance h) t then h_entering h else s.
Lemma state_fold l t : state l t = fold_left (step t) l false.
Proof. reflexivity. Qed.
Lemma fold_before l t b : (forall h, In h l -> t <= h_distance h) -> fold_left (step t) l b = b.
Proof.
  revert b. induction l as [|h l IH]; intros b H; cbn; auto. unfold step at 2. destruct (Rlt_dec (h_distance h) t) as [L|L].
  - specialize (H h (or_introl eq_refl)). lra.
  - apply IH. intros x X. apply H. right. auto.
Qed.

Lemma runs P l : forall b lo, strict l -> (forall h, In h l -> lo < h_distance h) -> (forall h, In h l -> crosses P h) ->
  (forall t, lo < t -> (forall h, In h l -> h_distance h <> t) -> exists c, steady P t c) ->
  (exists e, 0 < e /\ forall u, lo < u < lo + e -> (P u <-> b = true)) ->
  alternating (negb b) l /\ forall t, lo < t -> (forall h, In h l -> h_distance h <> t) -> (P t <-> fold_left (step t) l b = true).
Proof.
  induction l as [|h l IH]; intros b lo S A C K B.
  - split; [cbn; auto|]. intros t T _. cbn. apply (between P lo (t + 1) b); auto; try lra. intros x X. apply K; [lra|]. intros ? [].
  - inversion S as [|? ? S' F]; subst. rewrite Forall_forall in F.
    assert (L : lo < h_distance h) by (apply A; left; auto).
    assert (G : forall t, lo < t < h_distance h -> (P t <-> b = true)).
    { apply between; auto. intros t T. apply K; [lra|]. intros x [<-|X]; [lra|]. specialize (F x X). lra. }
    destruct (C h (or_introl eq_refl)) as (e & E & C1 & C2).
    assert (X : h_entering h = negb b).
    { assert (Y : lo < Rmax ((lo + h_distance h) / 2) (h_distance h - e / 2) < h_distance h).
      { split; [apply Rlt_le_trans with ((lo + h_distance h) / 2); [lra|apply Rmax_l]|apply Rmax_lub_lt; lra]. }
      pose proof (Rmax_r ((lo + h_distance h) / 2) (h_distance h - e / 2)) as R1. set (y := Rmax _ _) in *.
      pose proof (G y Y) as Z. rewrite C1 in Z by lra. destruct b, (h_entering h); cbn; intuition congruence. }
    destruct (IH (h_entering h) (h_distance h)) as [A' I]; auto.
    { intros x Z. apply C. right. auto. }
    { intros t T N. apply K; [lra|]. intros x [<-|Z]; [lra|auto]. }
    { exists e. split; auto. }
    split.
    + cbn. split; [auto|]. rewrite <- X. exact A'.
    + intros t T N. cbn. destruct (Rlt_le_dec t (h_distance h)) as [Z|Z].
      * unfold step at 2. destruct (Rlt_dec (h_distance h) t); [lra|]. rewrite fold_before; [apply G; lra|]. intros x M. specialize (F x M). lra.
      * assert (h_distance h <> t) by (apply N; left; auto). unfold step at 2. destruct (Rlt_dec (h_distance h) t); [|lra].
        apply I; [lra|]. intros x M. apply N. right. auto.
Qed.

Lemma fold_after l t b : (forall h, In h l -> h_distance h < t) -> alternating (negb b) l ->
  fold_left (step t) l b = (if Nat.even (length l) then b else negb b).
Proof.
  revert b. induction l as [|h l IH]; intros b H A; [reflexivity|]. cbn [fold_left]. unfold step at 2.
  destruct (Rlt_dec (h_distance h) t) as [L|L]; [|specialize (H h (or_introl eq_refl)); lra].
  destruct A as [A1 A2]. rewrite IH; [|intros x X; apply H; right; auto|rewrite A1; exact A2].
  rewrite A1. cbn [length]. rewrite Nat.even_succ, <- Nat.negb_even. destruct (Nat.even (length l)), b; reflexivity.
Qed.

Lemma below_all (l : list hit) (m : R) : exists x, x < m /\ forall h, In h l -> x < h_distance h.
Proof.
  induction l as [|h l (x & X & H)]; [exists (m - 1); split; [lra|intros ? []]|].
  exists (Rmin x (h_distance h - 1)). pose proof (Rmin_l x (h_distance h - 1)). pose proof (Rmin_r x (h_distance h - 1)). split; [lra|].
  intros k [<-|K]; [lra|]. specialize (H k K). lra.
Qed.
Lemma above_all (l : list hit) (m : R) : exists x, m < x /\ forall h, In h l -> h_distance h < x.
Proof.
  induction l as [|h l (x & X & H)]; [exists (m + 1); split; [lra|intros ? []]|].
  exists (Rmax x (h_distance h + 1)). pose proof (Rmax_l x (h_distance h + 1)). pose proof (Rmax_r x (h_distance h + 1)). split; [lra|].
  intros k [<-|K]; [lra|]. specialize (H k K). lra.
Qed.

Lemma toggles P l m : strict l -> (forall t, m < Rabs t -> ~ P t) -> (forall h, In h l -> crosses P h) ->
  (forall t, (forall h, In h l -> h_distance h <> t) -> exists c, steady P t c) -> traces P l.
Proof.
  intros S O C K. destruct (below_all l (- Rabs m)) as (lo & L1 & L2). destruct (above_all l (Rabs m)) as (hi & H1 & H2).
  pose proof (Rabs_pos m) as M0. pose proof (RRle_abs m) as M1.
  assert (B : exists e, 0 < e /\ forall u, lo < u < lo + e -> (P u <-> false = true)).
  { exists (- Rabs m - lo). split; [lra|]. intros u U. split; [|discriminate]. intros X. elim (O u); auto. rewrite Rabs_left1; lra. }
  destruct (runs P l false lo S L2 C (fun t _ => K t) B) as [A I].
  split; auto.
  - unfold closed. apply Nat.even_spec. destruct (Nat.even (length l)) eqn:E; auto.
    assert (N : forall h, In h l -> h_distance h <> hi) by (intros h X; specialize (H2 h X); lra).
    assert (T : lo < hi) by lra.
    pose proof (proj2 (I hi T N)) as Z. rewrite fold_after, E in Z; auto. specialize (Z eq_refl). elim (O hi); auto. rewrite Rabs_right; lra.
  - intros t T. rewrite state_fold. destruct (Rlt_le_dec lo t) as [X|X]; [apply I; auto|].
    rewrite fold_before; [|intros h Y; specialize (L2 h Y); lra]. split; [|discriminate]. intros Y. elim (O t); auto. rewrite Rabs_left1; lra.
Qed.

(** Sorting, and dropping of near ones. *)
Lemma sorted_strict (sort : forall A : Type, (A -> R) -> list A -> list A) (l : list hit) : sorts sort -> NoDup (map h_distance l) -> strict (sort hit h_distance l).
Proof.
  intros S N. destruct (S hit h_distance l) as [P Q]. assert (N' : NoDup (map h_distance (sort hit h_distance l))).
  { apply (Permutation_NoDup (Permutation_map h_distance (Permutation_sym P))). exact N. }
  revert Q N'. generalize (sort hit h_distance l). intros k Q. induction Q as [|a k Q IH F]; intros N'; [constructor|].
  cbn in N'. inversion N' as [|? ? X Y]; subst. constructor; [apply IH; auto|]. rewrite Forall_forall in *. intros b B. specialize (F b B).
  destruct F; auto. elim X. rewrite H. apply in_map. auto.
Qed.
Lemma dedup_same Q l : strict l -> (forall a b, In a l -> In b l -> h_distance a <> h_distance b -> precision <= Rabs (h_distance a - h_distance b)) ->
  (forall x, Q = Some x -> forall a, In a l -> precision <= Rabs (h_distance a - x)) -> dedup Q l = l.
Proof.
  intros S. revert Q. induction S as [|h l S IH F]; intros Q A X; [reflexivity|].
  assert (E : dedup (Some (h_distance h)) l = l).
  { apply IH; [intros; apply A; cbn; auto|]. intros x [= <-] a B. apply A; [right; auto|left; auto|]. rewrite Forall_forall in F. specialize (F a B). lra. }
  cbn [dedup]. destruct Q as [x|]; [|rewrite E; auto].
  destruct (Rlt_dec (Rabs (h_distance h - x)) precision) as [L|L]; [|rewrite E; auto]. specialize (X x eq_refl h (or_introl eq_refl)). lra.
Qed.

(** ** Pieces of a line *)

(** Below a parabola. *)
Lemma parabola_none A B C : 0 < A -> B * B - A * C <= 0 -> forall t, ~ A * t * t + 2 * B * t + C < 0.
Proof.
  intros H D t L. pose proof (Rle_0_sqr (A * t + B)) as S. unfold Rsqr in S.
  assert (E : A * (A * t * t + 2 * B * t + C) = (A * t + B) * (A * t + B) - (B * B - A * C)) by ring.
  assert (A * (A * t * t + 2 * B * t + C) < 0) by (apply Ropp_lt_cancel; rewrite Ropp_0, Ropp_mult_distr_r; apply Rmult_lt_0_compat; lra). lra.
Qed.
Section Parabola.
Context (A B C : R) (HA : 0 < A) (HD : 0 < B * B - A * C).
Let s := sqrt (B * B - A * C).
Let r1 := (- B - s) * (1 / A).
Let r2 := (- B + s) * (1 / A).
Lemma par_s : 0 < s /\ s * s = B * B - A * C.
Proof. unfold s. split; [apply sqrt_lt_R0; auto|apply sqrt_sqrt; lra]. Qed.
Lemma par_factor t : A * t * t + 2 * B * t + C = A * (t - r1) * (t - r2).
Proof. destruct par_s as [_ S]. unfold r1, r2. field_simplify_eq; [|lra]. replace (s ^ 2) with (s * s) by ring. rewrite S. ring. Qed.
Lemma par_lt : r1 < r2.
Proof. unfold r1, r2. destruct par_s. apply Rmult_lt_compat_r; [apply Rdiv_lt_0_compat; lra|lra]. Qed.
Lemma par_below t : A * t * t + 2 * B * t + C < 0 <-> r1 < t < r2.
Proof.
  rewrite par_factor. pose proof par_lt. split.
  - intros L. assert ((t - r1) * (t - r2) < 0) by nra. split; nra.
  - intros [X Y]. assert (0 < (t - r1) * (r2 - t)) by nra. nra.
Qed.
Lemma par_zero t : A * t * t + 2 * B * t + C = 0 <-> t = r1 \/ t = r2.
Proof.
  rewrite par_factor. split.
  - intros E. apply Rmult_integral in E as [E|E]; [apply Rmult_integral in E as [E|E]|]; lra.
  - intros [-> | ->]; ring.
Qed.
Lemma par_slope1 : A * r1 + B < 0.
Proof. replace (A * r1 + B) with (- s) by (unfold r1; field; lra). destruct par_s. lra. Qed.
Lemma par_slope2 : 0 < A * r2 + B.
Proof. replace (A * r2 + B) with s by (unfold r2; field; lra). destruct par_s. lra. Qed.
End Parabola.

(** An interval. *)
Lemma interval_sides1 (P : R -> Prop) a b : (forall t, a < t < b -> P t) -> (forall t, t < a -> ~ P t) -> a < b -> sides P a false true.
Proof. intros H K L. exists (b - a). split; [lra|]. split; intros u U; [split; [intros X; elim (K u); auto; lra|discriminate]|split; auto; intros _; apply H; lra]. Qed.
Lemma interval_sides2 (P : R -> Prop) a b : (forall t, a < t < b -> P t) -> (forall t, b < t -> ~ P t) -> a < b -> sides P b true false.
Proof. intros H K L. exists (b - a). split; [lra|]. split; intros u U; [split; auto; intros _; apply H; lra|split; [intros X; elim (K u); auto; lra|discriminate]]. Qed.
Lemma interval_steady (P : R -> Prop) a b t : (forall t, a < t < b -> P t) -> (forall t, t < a -> ~ P t) -> (forall t, b < t -> ~ P t) ->
  t <> a -> t <> b -> exists c, steady P t c.
Proof.
  intros H K L N M. destruct (Rlt_le_dec t a) as [X|X].
  - exists false. exists (a - t). split; [lra|]. intros u U. split; [intros Y; elim (K u); auto; lra|discriminate].
  - destruct (Rlt_le_dec b t) as [Y|Y].
    + exists false. exists (t - b). split; [lra|]. intros u U. split; [intros Z; elim (L u); auto; lra|discriminate].
    + exists true. exists (Rmin (t - a) (b - t)). pose proof (Rmin_l (t - a) (b - t)). pose proof (Rmin_r (t - a) (b - t)).
      split; [apply Rmin_glb_lt; lra|]. intros u U. split; auto. intros _. apply H. lra.
Qed.

(** ** Three conditions *)

(** [sw t e]: at [t] the condition begins ([e]) or ends to hold. *)
Definition switched (P : R -> Prop) (sw : R -> bool -> Prop) : Prop :=
  (forall t e, sw t e -> sides P t (negb e) e) /\ (forall t, (forall e, ~ sw t e) -> exists c, steady P t c).

Lemma switched_never : switched (fun _ => False) (fun _ _ => False).
Proof. split; [intros ? ? []|]. intros t _. exists false. exists 1. split; [lra|]. intros. split; [tauto|discriminate]. Qed.

Section Frame.
Context (O Z I : R -> Prop) (so sz si : R -> bool -> Prop) (SO : switched O so) (SZ : switched Z sz) (SI : switched I si).
Context (D1 : forall t a b, so t a -> ~ sz t b) (D2 : forall t a b, so t a -> ~ si t b) (D3 : forall t a b, sz t a -> ~ si t b).
Let P t := O t /\ Z t /\ ~ I t.

Lemma frame_crosses h : let t := h_distance h in let e := h_entering h in
  (so t e /\ Z t /\ ~ I t) \/ (sz t e /\ O t /\ ~ I t) \/ (si t (negb e) /\ Z t /\ O t) -> crosses P h.
Proof.
  intros t e H. enough (S : sides P t (negb e) e).
  { destruct S as (x & X & S1 & S2). exists x. split; auto. split; auto. intros u U. rewrite S1 by auto. fold e. destruct e; cbn; intuition discriminate. }
  assert (T1 : forall Q sw, switched Q sw -> Q t -> (forall b, ~ sw t b) -> sides Q t true true).
  { intros Q sw [_ S] X N. destruct (S t N) as [c K]. apply (steady_at _ _ _ K) in X as ->. apply steady_sides; auto. }
  assert (T2 : forall Q sw, switched Q sw -> ~ Q t -> (forall b, ~ sw t b) -> sides (fun u => ~ Q u) t true true).
  { intros Q sw [_ S] X N. destruct (S t N) as [c K]. assert (c = false) as -> by (destruct c; auto; elim X; apply (steady_at _ _ _ K); auto).
    apply steady_sides. apply (steady_not _ _ _ K). }
  destruct H as [(H & X & Y)|[(H & X & Y)|(H & X & Y)]].
  - pose proof (sides_and _ _ _ _ _ _ _ (proj1 SO t e H) (sides_and _ _ _ _ _ _ _ (T1 Z sz SZ X (fun b => D1 t e b H)) (T2 I si SI Y (fun b => D2 t e b H)))) as R.
    cbn in R. rewrite !andb_true_r in R. exact R.
  - assert (K : forall b, ~ so t b) by (intros b B; exact (D1 t b e B H)).
    pose proof (sides_and _ _ _ _ _ _ _ (T1 O so SO X K) (sides_and _ _ _ _ _ _ _ (proj1 SZ t e H) (T2 I si SI Y (fun b => D3 t e b H)))) as R.
    cbn in R. rewrite !andb_true_r in R. exact R.
  - assert (K : forall b, ~ so t b) by (intros b B; exact (D2 t b _ B H)). assert (L : forall b, ~ sz t b) by (intros b B; exact (D3 t b _ B H)).
    pose proof (sides_and _ _ _ _ _ _ _ (T1 O so SO Y K) (sides_and _ _ _ _ _ _ _ (T1 Z sz SZ X L) (sides_not _ _ _ _ (proj1 SI t _ H)))) as R.
    cbn in R. rewrite !negb_involutive in R. exact R.
Qed.

Lemma frame_steady t : (forall e, ~ ((so t e /\ Z t /\ ~ I t) \/ (sz t e /\ O t /\ ~ I t) \/ (si t (negb e) /\ Z t /\ O t))) -> exists c, steady P t c.
Proof.
  intros N.
  assert (F : forall Q sw, switched Q sw -> (forall b, ~ sw t b) -> exists c, steady Q t c /\ (Q t <-> c = true)).
  { intros Q sw [_ S] K. destruct (S t K) as [c X]. exists c. split; auto. apply steady_at; auto. }
  destruct (Classical_Prop.classic (exists e, so t e)) as [[e E]|No].
  - destruct (F Z sz SZ (fun b => D1 t e b E)) as (c & C1 & C2). destruct (F I si SI (fun b => D2 t e b E)) as (b & B1 & B2).
    exists false. apply steady_none_r. destruct c; [|apply steady_none_l; auto]. destruct b; [apply steady_none_r; apply (steady_not _ _ _ B1)|].
    elim (N e). left. split; auto. rewrite C2, B2. split; [auto|discriminate].
  - assert (Ko : forall b, ~ so t b) by (intros b B; apply No; exists b; auto). destruct (F O so SO Ko) as (o & O1 & O2).
    destruct (Classical_Prop.classic (exists e, sz t e)) as [[e E]|Nz].
    + destruct (F I si SI (fun b => D3 t e b E)) as (b & B1 & B2). exists false. destruct o; [|apply steady_none_l; auto].
      apply steady_none_r, steady_none_r. destruct b; [apply (steady_not _ _ _ B1)|]. elim (N e). right. left. split; auto. rewrite O2, B2. split; [auto|discriminate].
    + assert (Kz : forall b, ~ sz t b) by (intros b B; apply Nz; exists b; auto). destruct (F Z sz SZ Kz) as (z & Z1 & Z2).
      destruct (Classical_Prop.classic (exists e, si t e)) as [[e E]|Ni].
      * exists false. destruct o; [|apply steady_none_l; auto]. apply steady_none_r. destruct z; [|apply steady_none_l; auto].
        elim (N (negb e)). right. right. rewrite negb_involutive. split; auto. rewrite O2, Z2. auto.
      * assert (Ki : forall b, ~ si t b) by (intros b B; apply Ni; exists b; auto). destruct (F I si SI Ki) as (i & I1 & I2).
        exists (o && (z && negb i)). apply steady_and; auto. apply steady_and; auto. apply steady_not; auto.
Qed.
End Frame.

(** The two kinds of conditions. *)
Definition quad_switch (A B C t : R) (e : bool) : Prop := 0 < A /\ 0 < B * B - A * C /\
  ((t = (- B - sqrt (B * B - A * C)) * (1 / A) /\ e = true) \/ (t = (- B + sqrt (B * B - A * C)) * (1 / A) /\ e = false)).
Lemma quad_switched A B C : 0 < A \/ (A = 0 /\ B = 0) -> switched (fun t => A * t * t + 2 * B * t + C < 0) (quad_switch A B C).
Proof.
  intros [HA|[-> ->]].
  - destruct (Rle_lt_dec (B * B - A * C) 0) as [D|D].
    + split; [intros t e (_ & X & _); lra|]. intros t _. exists false. exists 1. split; [lra|]. intros u _.
      split; [intros X; elim (parabola_none A B C HA D u X)|discriminate].
    + pose proof (par_lt A B C HA D) as L. set (r1 := (- B - sqrt (B * B - A * C)) * (1 / A)) in *. set (r2 := (- B + sqrt (B * B - A * C)) * (1 / A)) in *.
      assert (F : forall t, A * t * t + 2 * B * t + C < 0 <-> r1 < t < r2) by (intros t; apply (par_below A B C HA D)).
      split.
      * intros t e (_ & _ & [[-> ->]|[-> ->]]).
        -- fold r1. apply (interval_sides1 _ _ r2); auto; intros t ?; rewrite F; try intros ?; lra.
        -- fold r2. apply (interval_sides2 _ r1); auto; intros t ?; rewrite F; try intros ?; lra.
      * intros t N. apply (interval_steady _ r1 r2).
        -- intros u ?; rewrite F; try intros ?; lra.
        -- intros u ?; rewrite F; try intros ?; lra.
        -- intros u ?; rewrite F; try intros ?; lra.
        -- intros ->. apply (N true). repeat split; auto.
        -- intros ->. apply (N false). repeat split; auto.
  - split; [intros t e [X _]; lra|]. intros t _. destruct (Rlt_le_dec C 0) as [L|L].
    + exists true. exists 1. split; [lra|]. intros u _. split; auto. intros _. lra.
    + exists false. exists 1. split; [lra|]. intros u _. split; [|discriminate]. intros X. lra.
Qed.

Definition slab_switch (p d z1 z2 t : R) (e : bool) : Prop := d <> 0 /\
  ((t = (z1 - p) / d /\ e = (if Rlt_dec 0 d then true else false)) \/ (t = (z2 - p) / d /\ e = (if Rlt_dec d 0 then true else false))).
Lemma slab_between p d z1 z2 t : d <> 0 -> (z1 <= p + t * d <= z2 <-> (if Rlt_dec 0 d then (z1 - p) / d <= t <= (z2 - p) / d else (z2 - p) / d <= t <= (z1 - p) / d)).
Proof.
  intros N. assert (E : forall z, p + (z - p) / d * d = z) by (intros; field; auto). pose proof (E z1) as E1. pose proof (E z2) as E2.
  destruct (Rlt_dec 0 d) as [L|L]; [|assert (d < 0) by lra]; set (a := (z1 - p) / d) in *; set (b := (z2 - p) / d) in *; split; intros [X Y]; split; nra.
Qed.
Lemma slab_switched p d z1 z2 : z1 < z2 -> switched (fun t => z1 <= p + t * d <= z2) (slab_switch p d z1 z2).
Proof.
  intros L. destruct (Req_EM_T d 0) as [-> | N].
  - split; [intros t e [X _]; lra|]. intros t _. destruct (Rle_dec z1 p) as [X|X]; [destruct (Rle_dec p z2) as [Y|Y]|].
    + exists true. exists 1. split; [lra|]. intros u _. split; auto. intros _. lra.
    + exists false. exists 1. split; [lra|]. intros u _. split; [|discriminate]. intros Z. lra.
    + exists false. exists 1. split; [lra|]. intros u _. split; [|discriminate]. intros Z. lra.
  - assert (E : forall z, p + (z - p) / d * d = z) by (intros; field; auto). pose proof (E z1) as E1. pose proof (E z2) as E2.
    assert (F : forall t, z1 <= p + t * d <= z2 <-> (if Rlt_dec 0 d then (z1 - p) / d <= t <= (z2 - p) / d else (z2 - p) / d <= t <= (z1 - p) / d)) by (intros; apply slab_between; auto).
    unfold slab_switch. set (a := (z1 - p) / d) in *. set (b := (z2 - p) / d) in *. destruct (Rlt_dec 0 d) as [D|D], (Rlt_dec d 0) as [D'|D']; try lra.
    + assert (a < b) by nra. split.
      * intros t e (_ & [[-> ->]|[-> ->]]); [apply (interval_sides1 _ _ b)|apply (interval_sides2 _ a)]; auto; intros t ?; rewrite F; try intros ?; lra.
      * intros t K. apply (interval_steady _ a b); try (intros u ?; rewrite F; try intros ?; lra); intros ->; [apply (K true)|apply (K false)]; auto.
    + assert (b < a) by nra. split.
      * intros t e (_ & [[-> ->]|[-> ->]]); [apply (interval_sides2 _ b)|apply (interval_sides1 _ _ a)]; auto; intros t ?; rewrite F; try intros ?; lra.
      * intros t K. apply (interval_steady _ b a); try (intros u ?; rewrite F; try intros ?; lra); intros ->; [apply (K true)|apply (K false)]; auto.
Qed.

Lemma nodup_app {A} (l k : list A) : NoDup l -> NoDup k -> (forall x, In x l -> ~ In x k) -> NoDup (l ++ k).
Proof.
  induction 1 as [|a l N H IH]; cbn; auto. intros K D. constructor.
  - rewrite in_app_iff. intros [X|X]; [auto|apply (D a); auto].
  - apply IH; auto.
Qed.
