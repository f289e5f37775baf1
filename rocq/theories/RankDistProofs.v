(** Lemmas on the ordering of distributions. *)
From Coq Require Import List Bool ZArith Lia Arith Reals Lra.
From Verif Require Import OrderModel OrderSpec OrderProofs RankModel RankDistModel RankSpec RankProofs.
Import ListNotations.

Section Dist.
Variable D : Type.
Variable dc : cmp D.
Variable solid_cmp : cmp (solid D).
Variable aligned : spot D -> spot D -> bool.
Variable type_order : nat -> Z.
Hypothesis Hdc : ordered dc.
Hypothesis Hsc : ordered solid_cmp.
Hypothesis Hto : forall i j, type_order i = type_order j -> i = j.

Notation dist := (distribution D).
Notation c := (distribution_cmp D dc solid_cmp aligned type_order).
Notation nums := (nums D dc).

Ltac tied := apply tie_ordered; repeat (constructor; [apply on_ordered|]); auto 8 using vec_ordered, int_ordered, bool_ordered, string_ordered.
Lemma range_ordered : ordered (range_cmp D dc). Proof. tied. Qed.
Lemma depth_ordered : ordered (depth_cmp D dc). Proof. tied. Qed.
Lemma table1_ordered : ordered (table1_cmp D dc). Proof. tied. Qed.
Lemma table2_ordered : ordered (table2_cmp D dc). Proof. tied. Qed.
Lemma nums_ordered : ordered nums. Proof. apply vec_ordered; auto. Qed.

(** A distribution as one optional value per class with members. *)
Definition k_nums (d : dist) : option (list D) :=
  match d with
  | MoyalExponential _ _ x0 x1 x2 x3 x4 x5 x6 => Some [x0; x1; x2; x3; x4; x5; x6]
  | PowerLaw _ _ x0 x1 i => Some [x0; x1; i]
  | _ => None
  end.
Definition k_num (d : dist) : option D :=
  match d with Monoenergetic _ _ e => Some e | SecondaryBounded _ m _ => Some m | _ => None end.
Definition k_table1 (d : dist) := match d with TabulatedFlux _ _ a b t => Some ([a; b], t) | _ => None end.
Definition k_table2 (d : dist) := match d with Tabulated2DFlux _ _ a b e f t => Some ([a; b; e; f], t) | _ => None end.
Definition k_solid (d : dist) : option (solid D) :=
  match d with FixedTargetArea _ x | FixedTargetPosition _ x _ | SphereVolume _ x | CylinderVolume _ x => Some x | _ => None end.
Definition k_bounded (d : dist) := match d with PrimaryBounded _ m f => Some (m, f) | _ => None end.
Definition k_external (d : dist) := match d with PrimaryExternal _ e k x => Some ((e, k), x) | _ => None end.

Definition keys : list (cmp dist) :=
  [on k_nums (pointer_cmp nums); on k_num (pointer_cmp dc); on k_table1 (pointer_cmp (pair_cmp nums (table1_cmp D dc)));
   on k_table2 (pointer_cmp (pair_cmp nums (table2_cmp D dc))); on k_solid (pointer_cmp solid_cmp);
   on k_bounded (pointer_cmp (pair_cmp dc (pointer_cmp solid_cmp)));
   on k_external (pointer_cmp (pair_cmp (pair_cmp dc (vec string_cmp)) (vec nums)))].

Lemma keys_ordered : ordered (tie keys).
Proof.
  apply tie_ordered. unfold keys.
  repeat (constructor; [apply on_ordered; auto 9 using pointer_ordered, nums_ordered, pair_ordered, table1_ordered, table2_ordered, vec_ordered, string_ordered|]).
  constructor.
Qed.

Lemma bounded_lt x y f g :
  (if negb (eq_ dc x y) then lt_ dc x y
   else match f, g with Some s, Some s' => lt_ solid_cmp s s' | None, Some _ => true | _, None => false end) =
  lt_ (pair_cmp dc (pointer_cmp solid_cmp)) (x, f) (y, g).
Proof.
  unfold pair_cmp. cbn [lt_ tie].
  rewrite tie_lt_if by (apply on_ordered; auto). cbn [on eq_ lt_ fst]. destruct (negb _); auto.
  cbn. destruct f, g; cbn; rewrite ?orb_false_r, ?andb_false_r, ?orb_false_r; auto.
Qed.

Lemma same_kind (a b : dist) : comparable D a = true -> comparable D b = true -> kind D a = kind D b ->
  less D dc solid_cmp aligned a b = lt_ (tie keys) a b /\ equal D dc solid_cmp aligned a b = eq_ (tie keys) a b.
Proof.
  intros A B K. destruct a; try discriminate A; destruct b; try discriminate K;
  unfold keys; cbn [less equal tie lt_ eq_ tie_lt tie_eq on pointer_cmp k_nums k_num k_table1 k_table2 k_solid k_bounded k_external];
  rewrite ?bounded_lt; rewrite ?orb_false_r, ?orb_false_l; cbn [negb andb orb];
  rewrite ?andb_false_r, ?orb_false_r, ?andb_true_r; split; auto; cbn [pair_cmp tie eq_ tie_eq on fst snd]; rewrite ?andb_true_r; auto using andb_assoc.
Qed.

Lemma other_kind (a b : dist) : comparable D a = true -> comparable D b = true -> kind D a <> kind D b ->
  equal D dc solid_cmp aligned a b = false.
Proof. intros A B K. destruct a; try discriminate A; destruct b; cbn; auto; exfalso; apply K; reflexivity. Qed.

Definition full : cmp dist := tie [on (fun d => type_order (kind D d)) int_cmp; tie keys].

Lemma full_ordered : ordered full.
Proof. apply tie_ordered. constructor; [apply on_ordered, int_ordered|constructor; [apply keys_ordered|constructor]]. Qed.

Lemma full_agree a b : comparable D a = true -> comparable D b = true -> lt_ c a b = lt_ full a b /\ eq_ c a b = eq_ full a b.
Proof.
  intros A B. unfold full. cbn [lt_ eq_ tie]. rewrite tie_lt_if by (apply on_ordered, int_ordered). cbn [tie_eq on eq_ lt_ int_cmp].
  replace (tie_lt [tie keys] a b) with (lt_ (tie keys) a b)
    by (cbn [tie_lt lt_]; rewrite andb_false_r, orb_false_r; reflexivity).
  rewrite andb_true_r. cbn [distribution_cmp lt_ eq_].
  destruct (Nat.eqb_spec (kind D a) (kind D b)) as [E|N].
  - rewrite E, Z.eqb_refl. exact (same_kind a b A B E).
  - destruct (Z.eqb_spec (type_order (kind D a)) (type_order (kind D b))) as [E|N']; [exfalso; apply N, Hto, E|].
    cbn. split; auto. apply other_kind; auto.
Qed.

Lemma comparable_ordered : ordered (on (@proj1_sig _ (fun d => comparable D d = true)) c).
Proof.
  split.
  - intros [x X]. cbn [on lt_ proj1_sig]. destruct (full_agree x x X X) as [-> _]. apply (ord_irrefl _ full_ordered).
  - intros [x X] [y Y] [z Z]. cbn [on lt_ proj1_sig]. destruct (full_agree x y X Y) as [-> _], (full_agree y z Y Z) as [-> _], (full_agree x z X Z) as [-> _].
    apply (ord_trans _ full_ordered).
  - intros [x X] [y Y]. cbn [on lt_ eq_ proj1_sig]. destruct (full_agree x y X Y) as [-> ->], (full_agree y x Y X) as [-> _]. apply (ord_eq _ full_ordered).
  - intros [x X] [y Y] [z Z]. cbn [on eq_ proj1_sig]. destruct (full_agree x y X Y) as [_ ->], (full_agree y z Y Z) as [_ ->], (full_agree x z X Z) as [_ ->].
    apply (ord_eq_trans _ full_ordered).
Qed.

(** [ordered] only depends on the values of the two operators. *)
Lemma ordered_ext {A} (c1 c2 : cmp A) : (forall x y, lt_ c1 x y = lt_ c2 x y /\ eq_ c1 x y = eq_ c2 x y) -> ordered c2 -> ordered c1.
Proof.
  intros E H. split.
  - intros x. rewrite (proj1 (E x x)). apply (ord_irrefl _ H).
  - intros x y z. rewrite (proj1 (E x y)), (proj1 (E y z)), (proj1 (E x z)). apply (ord_trans _ H).
  - intros x y. rewrite (proj2 (E x y)), (proj1 (E x y)), (proj1 (E y x)). apply (ord_eq _ H).
  - intros x y z. rewrite (proj2 (E x y)), (proj2 (E y z)), (proj2 (E x z)). apply (ord_eq_trans _ H).
Qed.

Lemma constant_ordered : ordered (on (NormalizationConstant D) c).
Proof. apply (ordered_ext _ dc); auto. Qed.

Lemma two_lt r e e' (f : bool) : lt_ (pair_cmp nums bool_cmp) ([r; e], false) ([r; e'], f) = lt_ dc e e' || (negb (lt_ dc e' e) && f).
Proof.
  unfold pair_cmp. cbn [lt_ tie tie_lt on fst snd bool_cmp]. unfold RankDistModel.nums. cbn [vec lt_ list_lt]. rewrite !(ord_irrefl _ Hdc).
  destruct (lt_ dc e e') eqn:L; [auto|]. destruct (lt_ dc e' e); [auto|]. cbn. rewrite andb_false_r, !orb_false_r. auto.
Qed.

Lemma eq_refl_dc r : eq_ dc r r = true.
Proof. apply ord_refl; auto. Qed.

Lemma column_ordered r : ordered (on (fun p => ColumnDepthPosition D r (fst p) (snd p)) c).
Proof.
  apply (ordered_ext _ (pair_cmp dc (pointer_cmp (depth_cmp D dc)))); [|apply pair_ordered; auto using pointer_ordered, depth_ordered].
  intros [e f] [e' f']. split.
  - cbn [on lt_ distribution_cmp kind Nat.eqb less fst snd]. rewrite two_lt. unfold pair_cmp. cbn [lt_ tie tie_lt on fst snd]. rewrite andb_false_r, !orb_false_r. auto.
  - cbn [on eq_ distribution_cmp equal fst snd]. rewrite eq_refl_dc. unfold pair_cmp. cbn [eq_ tie tie_eq on fst snd]. rewrite andb_true_r. auto.
Qed.

Lemma decay_ordered r : ordered (on (fun p => DecayRangePosition D r (fst p) (snd p)) c).
Proof.
  apply (ordered_ext _ (pair_cmp dc (pointer_cmp (range_cmp D dc)))); [|apply pair_ordered; auto using pointer_ordered, range_ordered].
  intros [e f] [e' f']. split.
  - cbn [on lt_ distribution_cmp kind Nat.eqb less fst snd]. rewrite two_lt. unfold pair_cmp. cbn [lt_ tie tie_lt on fst snd]. rewrite andb_false_r, !orb_false_r. auto.
  - cbn [on eq_ distribution_cmp equal fst snd]. rewrite eq_refl_dc. unfold pair_cmp. cbn [eq_ tie tie_eq on fst snd]. rewrite andb_true_r. auto.
Qed.

Lemma source_ordered o : ordered (on (PointSource D o) c).
Proof.
  apply (ordered_ext _ dc); auto. intros m m'. pose proof (vector_ordered D dc Hdc) as V. split.
  - cbn [on lt_ distribution_cmp kind Nat.eqb less]. unfold pair_cmp. cbn [lt_ tie tie_lt on fst snd]. rewrite (ord_irrefl _ V). cbn. rewrite andb_false_r, orb_false_r. auto.
  - cbn [on eq_ distribution_cmp equal]. rewrite (ord_refl _ V). auto.
Qed.

Lemma range_position_ordered r f : ordered (on (fun p => RangePosition D r (fst p) f (snd p)) c).
Proof.
  apply (ordered_ext _ (pair_cmp dc (vec int_cmp))); [|apply pair_ordered; auto using vec_ordered, int_ordered].
  intros [e t] [e' t']. pose proof (pointer_ordered _ range_ordered) as P. split.
  - cbn [on lt_ distribution_cmp kind Nat.eqb less fst snd]. rewrite (ord_irrefl _ P). unfold pair_cmp at 1. cbn [lt_ tie tie_lt on fst snd]. rewrite !two_lt.
    rewrite !andb_false_r, !orb_false_r. unfold pair_cmp. cbn [lt_ tie tie_lt on fst snd]. rewrite andb_false_r, !orb_false_r. auto.
  - cbn [on eq_ distribution_cmp equal fst snd]. rewrite eq_refl_dc, (ord_refl _ P). unfold pair_cmp. cbn [eq_ tie tie_eq on fst snd]. rewrite andb_true_r. cbn. rewrite andb_true_r. auto.
Qed.
End Dist.

Section Same.
Variable D : Type.
Variable dc : cmp D.
Variable solid_cmp : cmp (solid D).
Variable aligned : spot D -> spot D -> bool.
Hypothesis Hdc : forall a b, eq_ dc a b = true <-> a = b.
Hypothesis Hsc : forall a b, eq_ solid_cmp a b = true <-> a = b.

Lemma pointer_same {A} (c : cmp A) : (forall a b, eq_ c a b = true <-> a = b) -> forall a b, eq_ (pointer_cmp c) a b = true <-> a = b.
Proof. intros H [a|] [b|]; cbn; try (split; auto; discriminate). rewrite H. split; [intros ->; auto|intros E; inversion E; auto]. Qed.
Lemma pair_same {A B} (c : cmp A) (d : cmp B) : (forall a b, eq_ c a b = true <-> a = b) -> (forall a b, eq_ d a b = true <-> a = b) ->
  forall a b, eq_ (pair_cmp c d) a b = true <-> a = b.
Proof. intros H K [a x] [b y]. cbn. rewrite !andb_true_iff, H, K. split; [intros (-> & -> & _); auto|intros E; inversion E; auto]. Qed.

Ltac done := split; [intros E; repeat match goal with H : _ /\ _ |- _ => destruct H end; subst; auto|intros E; inversion E; subst; repeat split; auto].
Let v1 := vec_same dc Hdc.
Let v2 := vec_same _ v1.
Let vi := vec_same int_cmp int_same.
Let vs := vec_same string_cmp string_same.

Ltac open := cbn [eq_ tie tie_eq on df_mu_alpha df_mu_beta df_tau_alpha df_tau_beta df_scale df_max_depth df_tau_primaries t1_x t1_f t2_x t2_y t2_f].
Lemma range_same a b : eq_ (range_cmp D dc) a b = true <-> a = b.
Proof. destruct a, b. cbn. rewrite !andb_true_iff, !Hdc. done. Qed.
Lemma depth_same a b : eq_ (depth_cmp D dc) a b = true <-> a = b.
Proof. destruct a, b. unfold depth_cmp. open. rewrite !andb_true_iff, !Hdc, vi. done. Qed.
Lemma table1_same a b : eq_ (table1_cmp D dc) a b = true <-> a = b.
Proof. destruct a, b. unfold table1_cmp. open. rewrite !andb_true_iff, !v1. done. Qed.
Lemma table2_same a b : eq_ (table2_cmp D dc) a b = true <-> a = b.
Proof. destruct a, b. unfold table2_cmp. open. rewrite !andb_true_iff, !v1. done. Qed.
Let vv := vector_same D dc Hdc.
Let pr := pointer_same _ range_same.
Let pd := pointer_same _ depth_same.
Let ps := pointer_same _ Hsc.
Let q1 := pair_same _ _ v1 table1_same.
Let q2 := pair_same _ _ v1 table2_same.

Lemma equal_same n a b : complete D a = true -> complete D b = true ->
  equal D dc solid_cmp aligned a b = true <-> renormalized D n a = renormalized D n b.
Proof.
  intros A B. destruct a; try discriminate A; destruct b; try discriminate B; cbn [equal renormalized];
    try (split; discriminate); try (split; reflexivity);
    rewrite ?andb_true_iff; unfold nums; rewrite ?q1, ?q2, ?v2, ?v1, ?vs, ?vi, ?vv, ?pr, ?pd, ?ps, ?Hsc, ?Hdc;
    (split; [intros E; repeat match goal with H : _ /\ _ |- _ => destruct H end; repeat match goal with H : (_, _) = (_, _) |- _ => inversion H; clear H | H : _ :: _ = _ :: _ |- _ => inversion H; clear H end; subst; auto
            |intros E; inversion E; subst; repeat split; auto]).
Qed.
End Same.

Lemma num_ordered : ordered num_cmp.
Proof.
  split; cbn; intros; repeat match goal with |- context [Rlt_dec ?a ?b] => destruct (Rlt_dec a b) | H : context [Rlt_dec ?a ?b] |- _ => destruct (Rlt_dec a b)
    | |- context [Req_EM_T ?a ?b] => destruct (Req_EM_T a b) | H : context [Req_EM_T ?a ?b] |- _ => destruct (Req_EM_T a b) end; auto; try discriminate; try lra;
  try (split; auto; fail); try (split; [discriminate|intros [? ?]; discriminate]); try (split; [discriminate|intros [? ?]; lra]).
Qed.

Lemma num_same a b : eq_ num_cmp a b = true <-> a = b.
Proof. cbn. destruct (Req_EM_T a b); split; auto; discriminate. Qed.
