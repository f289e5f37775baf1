(** Merging GDML files: theorems. *)
From Coq Require Import List Bool Arith Lia Ascii String.
From Verif Require Import GdmlModel GdmlProofs InstModel InstSpec InstProofs MergeModel MergeSpec MergeProofs.
Import ListNotations.

Section Lemmas.
Context {F G P : Type}.
Variable numbers_eq : F * F * F -> F * F * F -> bool.
Variable composition_eq : list (list ascii * F) -> list (list ascii * F) -> bool.
Variable solid_eq : G -> G -> bool.
Variable placement_eq : P -> P -> bool.
Notation data := (data F G P).
Notation merge := (merge_from numbers_eq composition_eq solid_eq placement_eq).
Notation diff := (differs numbers_eq composition_eq solid_eq placement_eq).
Notation sm := (same_material numbers_eq composition_eq).
Notation sv := (same_volume placement_eq).
Variable this other : data.
Hypothesis S1 : sound this.
Hypothesis S2 : sound other.

Lemma known_names : forall (d : data) n, known d n <-> In n (names d).
Proof using F G P.
  clear.
  intros d n. unfold names. rewrite !in_app_iff.
  assert (X : forall A (m : list (list ascii * A)), (exists a, is m n a) <-> In n (map fst m)).
  { intros A m. rewrite in_map_iff. split; [intros (a & I); now exists (n, a)|intros ([x a] & E & I); cbn in E; subst; now exists a]. }
  unfold known. rewrite !X.
  assert (Y : (exists k a, is (namespace k d) n a) <-> In n (map fst (d_materials d)) \/ In n (map fst (d_elements d)) \/ In n (map fst (d_isotopes d))).
  { rewrite <- !X. split.
    - intros ([] & a & I); cbn in I; eauto.
    - intros [(a & I)|[(a & I)|(a & I)]]; [exists Materials|exists Elements|exists Isotopes]; now exists a. }
  rewrite Y. tauto.
Qed.

Lemma collisions_good : exists ren, collisions numbers_eq composition_eq solid_eq placement_eq this other = Some ren /\
  good this other ren /\ forall n, assoc ren n <> None <-> diff this other n.
Proof.
  destruct S1 as (M1 & L1 & [V1 W1] & _). destruct S2 as (M2 & L2 & [V2 W2] & _). unfold collisions.
  destruct (check_good this other _ (material_eq numbers_eq composition_eq) (d_isotopes this) (d_isotopes other) [] (good_nil _ _) (proj1 (M2 Isotopes)))
    as (r1 & C1 & G1 & K1). rewrite C1.
  destruct (check_good this other _ (material_eq numbers_eq composition_eq) (d_elements this) (d_elements other) r1 G1 (proj1 (M2 Elements)))
    as (r2 & C2 & G2 & K2). rewrite C2.
  destruct (check_good this other _ (material_eq numbers_eq composition_eq) (d_materials this) (d_materials other) r2 G2 (proj1 (M2 Materials)))
    as (r3 & C3 & G3 & K3). rewrite C3.
  destruct (check_good this other _ solid_eq (d_solids this) (d_solids other) r3 G3 L2) as (r4 & C4 & G4 & K4). rewrite C4.
  destruct (check_good this other _ (volume_eq placement_eq) (d_volumes this) (d_volumes other) r4 G4 V2) as (r5 & C5 & G5 & K5).
  exists r5. split; [exact C5|split; [exact G5|]]. intros n. rewrite K5, K4, K3, K2, K1. cbn [assoc].
  assert (A : forall A (m : list (list ascii * A)), once m -> forall a, assoc m n = Some a <-> is m n a).
  { intros A m O a. split; [apply assoc_in|now apply in_assoc]. }
  unfold differs. split.
  - intros [[[[[H|(a & b & X & Y & Z)]|(a & b & X & Y & Z)]|(a & b & X & Y & Z)]|(a & b & X & Y & Z)]|(a & b & X & Y & Z)].
    + contradiction.
    + left. exists Isotopes, a, b. split; [now apply assoc_in|now split].
    + left. exists Elements, a, b. split; [now apply assoc_in|now split].
    + left. exists Materials, a, b. split; [now apply assoc_in|now split].
    + right. left. exists a, b. split; [now apply assoc_in|now split].
    + right. right. exists a, b. split; [now apply assoc_in|now split].
  - intros [([] & a & b & X & Y & Z)|[(a & b & X & Y & Z)|(a & b & X & Y & Z)]].
    + left; left; left; left. right. exists a, b. split; [apply in_assoc; [exact (proj1 (M1 Isotopes))|exact X]|now split].
    + left; left; left. right. exists a, b. split; [apply in_assoc; [exact (proj1 (M1 Elements))|exact X]|now split].
    + left; left. right. exists a, b. split; [apply in_assoc; [exact (proj1 (M1 Materials))|exact X]|now split].
    + left. right. exists a, b. split; [now apply in_assoc|now split].
    + right. exists a, b. split; [now apply in_assoc|now split].
Qed.

Variable ren : list (list ascii * list ascii).
Hypothesis GR : good this other ren.
Hypothesis RD : forall n, assoc ren n <> None <-> diff this other n.
Notation r := (renamed ren).

Lemma r_inj : forall n m, In n (names other) -> In m (names other) -> r n = r m -> n = m.
Proof.
  destruct GR as (_ & R2 & R3). intros n m N M. unfold renamed.
  destruct (assoc ren n) as [c|] eqn:A; destruct (assoc ren m) as [d|] eqn:B; intros E.
  - subst d. eapply R3; eassumption.
  - subst c. destruct (R2 _ _ A). contradiction.
  - subst d. destruct (R2 _ _ B). contradiction.
  - exact E.
Qed.
Lemma r_fresh : forall n, r n <> n -> ~ In (r n) (names this) /\ diff this other n.
Proof.
  intros n N. unfold renamed in *. destruct (assoc ren n) as [c|] eqn:A; [|contradiction].
  destruct GR as (_ & R2 & _). split; [now apply (R2 n)|]. apply RD. now rewrite A.
Qed.
Lemma r_kept : forall n, ~ diff this other n -> r n = n.
Proof.
  intros n D. unfold renamed. destruct (assoc ren n) eqn:A; [|reflexivity]. exfalso. apply D, RD. now rewrite A.
Qed.
Lemma r_moved : forall n, In n (names other) -> diff this other n -> r n <> n.
Proof.
  intros n N D E. apply RD in D. unfold renamed in E. destruct (assoc ren n) as [c|] eqn:A; [|contradiction].
  destruct GR as (_ & R2 & _). destruct (R2 _ _ A) as [_ X]. rewrite E in X. contradiction.
Qed.

(** The general entry of a merged map. *)
Lemma entry_general : forall A (f : A -> A) (sub dst : list (list ascii * A)) n d,
  incl (map fst sub) (names other) -> incl (map fst dst) (names this) -> once sub -> is sub n d ->
  let sub' := map (fun e => (fst e, f (snd e))) sub in
  (assoc dst (r n) = None /\ assoc (merge_map r sub' dst) (r n) = Some (f d)) \/
  (r n = n /\ exists a, assoc dst n = Some a /\ assoc (merge_map r sub' dst) n = Some a).
Proof.
  intros A f sub dst n d I1 I2 O D sub'.
  assert (E1 : map fst sub' = map fst sub) by (unfold sub'; rewrite map_map; reflexivity).
  assert (N : In n (map fst sub)) by (apply in_map_iff; now exists (n, d)).
  assert (M : assoc (map (fun e => (r (fst e), snd e)) sub') (r n) = Some (f d)).
  { rewrite mapped.
    - apply in_assoc; [unfold once; now rewrite E1|]. unfold sub'. apply in_map_iff. now exists (n, d).
    - rewrite E1. intros a b X Y. apply r_inj; now apply I1.
    - now rewrite E1. }
  destruct (assoc dst (r n)) as [a|] eqn:Q.
  - right. assert (E : r n = n).
    { destruct (list_eq_dec ascii_dec (r n) n) as [E|E]; [exact E|]. exfalso. apply r_fresh in E as [E _]. apply E.
      apply I2. apply assoc_in in Q. apply in_map_iff. now exists (r n, a). }
    split; [exact E|]. exists a. rewrite E in Q. rewrite merge_assoc, Q. auto.
  - left. split; [reflexivity|]. now rewrite merge_assoc, Q.
Qed.
Lemma parent_kept : forall A (sub dst : list (list ascii * A)) n d, assoc dst n = Some d -> assoc (merge_map r sub dst) n = Some d.
Proof. intros A sub dst n d E. now rewrite merge_assoc, E. Qed.

Lemma incl_ns : forall k (d : data), incl (map fst (namespace k d)) (names d).
Proof. intros k d x I. unfold names. rewrite !in_app_iff. destruct k; cbn in I; tauto. Qed.
Lemma incl_solids : forall d : data, incl (map fst (d_solids d)) (names d).
Proof. intros d x I. unfold names. rewrite !in_app_iff. tauto. Qed.
Lemma incl_volumes : forall d : data, incl (map fst (d_volumes d)) (names d).
Proof. intros d x I. unfold names. rewrite !in_app_iff. tauto. Qed.

Lemma rebuilt : forall (l acc : list (list ascii * F)) (q : list ascii -> list ascii),
  NoDup (map fst acc ++ map q (map fst l)) ->
  fold_left (fun c e => assign c (q (fst e)) (snd e)) l acc = acc ++ map (fun e => (q (fst e), snd e)) l.
Proof.
  induction l as [|[k v] l IH]; intros acc q N; cbn [fold_left map fst snd]; [now rewrite app_nil_r|].
  cbn in N. apply NoDup_remove in N as [N1 N2]. rewrite in_app_iff in N2.
  rewrite assign_new by tauto. rewrite IH.
  - rewrite <- app_assoc. reflexivity.
  - rewrite map_app, <- app_assoc. cbn. clear -N1 N2. induction (map fst acc) as [|x l0 IH]; cbn in *.
    + constructor; tauto.
    + inversion N1. subst. constructor; [|apply IH; [assumption|tauto]].
      rewrite in_app_iff in *. cbn. intuition.
Qed.

Lemma under_pairs : forall A (q : list ascii -> list ascii) (l : list (list ascii * A)),
  Forall2 (fun x y => fst y = q (fst x) /\ snd y = snd x) l (map (fun e => (q (fst e), snd e)) l).
Proof. induction l; constructor; auto. Qed.

Lemma material_renamed : forall a : material F, once (m_composition a) -> (forall n, material_mentions a n -> known other n) ->
  material_under r a (rename_material r a).
Proof.
  intros a O C. unfold material_under, rename_material. cbn. split; [reflexivity|split; [reflexivity|]].
  rewrite rebuilt; cbn; [apply under_pairs|]. unfold once in O. revert O.
  assert (C' : forall n, In n (map fst (m_composition a)) -> In n (names other)) by (intros n I; apply known_names; now apply C).
  revert C'. induction (map fst (m_composition a)) as [|x l IH]; intros C' O; cbn; constructor.
  - inversion O. subst. intros I. apply in_map_iff in I as (y & E & I). apply r_inj in E; [subst; contradiction|apply C'; now right|apply C'; now left].
  - inversion O. apply IH; [intros; apply C'; now right|assumption].
Qed.
Lemma volume_renamed : forall a : volume P, volume_under r a (rename_volume r a).
Proof. intros a. unfold volume_under, rename_volume. cbn. repeat split. apply under_pairs. Qed.

Lemma material_same : forall a : material F, once (m_composition a) -> (forall n, material_mentions a n -> ~ diff this other n) -> r (m_name a) = m_name a ->
  material_under r a a.
Proof.
  intros a O D E. unfold material_under. split; [now symmetry|split; [reflexivity|]].
  assert (X : forall l, (forall n, In n (map fst l) -> ~ diff this other n) ->
     Forall2 (fun x y : list ascii * F => fst y = r (fst x) /\ snd y = snd x) l l).
  { induction l as [|e l IH]; intros H; constructor; [|apply IH; intros; apply H; now right].
    split; [|reflexivity]. symmetry. apply r_kept. apply H. now left. }
  now apply X.
Qed.
Lemma volume_same : forall a : volume P, (forall n, volume_mentions a n -> ~ diff this other n) -> r (v_name a) = v_name a ->
  volume_under r a a.
Proof.
  intros a D E. unfold volume_under. split; [now symmetry|]. 
  split; [symmetry; apply r_kept, D; now left|]. split; [symmetry; apply r_kept, D; right; now left|split; [reflexivity|]].
  assert (X : forall l, (forall n, In n (map fst l) -> ~ diff this other n) ->
     Forall2 (fun x y : list ascii * P => fst y = r (fst x) /\ snd y = snd x) l l).
  { induction l as [|e l IH]; intros H; constructor; [|apply IH; intros; apply H; now right].
    split; [|reflexivity]. symmetry. apply r_kept. apply H. now left. }
  apply X. intros n I. apply D. right. now right.
Qed.

(** Renaming nothing changes nothing. *)
Lemma rename_nil : ren = [] -> (forall a : material F, once (m_composition a) -> rename_material r a = a) /\ (forall a : volume P, rename_volume r a = a).
Proof.
  intros E. assert (R : forall n, r n = n) by (intros; rewrite E; reflexivity). split.
  - intros [n f c] O. unfold rename_material. cbn in *. rewrite R. f_equal. rewrite rebuilt; cbn.
    + clear O. induction c as [|[x y] c IH]; cbn; [reflexivity|]. now rewrite R, IH.
    + unfold once in O. replace (map r (map fst c)) with (map fst c); [exact O|].
      symmetry. clear O. induction (map fst c) as [|x l IH]; cbn; [reflexivity|]. now rewrite R, IH.
  - intros [n s m a c]. unfold rename_volume. cbn. rewrite !R. f_equal.
    induction c as [|[x y] c IH]; cbn; [reflexivity|]. now rewrite R, IH.
Qed.

Lemma renamed_maps : let o := rename_data ren other in
  (forall k, namespace k o = map (fun e => (fst e, rename_material r (snd e))) (namespace k other)) /\
  d_solids o = map (fun e => (fst e, snd e)) (d_solids other) /\
  d_volumes o = map (fun e => (fst e, rename_volume r (snd e))) (d_volumes other) /\
  d_positions o = d_positions other /\ d_rotations o = d_rotations other /\ d_constants o = d_constants other /\
  d_world o = r (d_world other).
Proof.
  clear GR RD. assert (ID : forall A (l : list (list ascii * A)), l = map (fun e => (fst e, snd e)) l).
  { intros A l. induction l as [|[x y] l IH]; cbn; [reflexivity|]. now rewrite <- IH. }
  destruct ren as [|e l] eqn:E.
  - cbn. rewrite <- E in *. destruct (rename_nil E) as [A B]. destruct S2 as (M2 & _ & _). split; [|split; [|split; [|repeat split]]].
    + intros k. destruct (M2 k) as [_ M]. assert (X : forall l : list (list ascii * material F), (forall n a, In (n, a) l -> once (m_composition a)) ->
        l = map (fun e => (fst e, rename_material r (snd e))) l).
      { induction l as [|[x y] l IH]; intros H; cbn; [reflexivity|]. rewrite (A y) by (apply (H x); now left).
        rewrite <- IH; [reflexivity|]. intros n a I. apply (H n). now right. }
      apply X. intros n a I. now apply (M n).
    + apply ID.
    + induction (d_volumes other) as [|[x y] l IH]; cbn; [reflexivity|]. now rewrite B, <- IH.
  - rewrite <- E in *. unfold rename_data. rewrite E. rewrite <- E. cbv zeta. cbn.
    split; [intros []; reflexivity|]. split; [apply ID|]. repeat split; reflexivity.
Qed.

End Lemmas.

(** ** C148 *)
Section Theorems.
Context {F G P : Type}.
Variable numbers_eq : F * F * F -> F * F * F -> bool.
Variable composition_eq : list (list ascii * F) -> list (list ascii * F) -> bool.
Variable solid_eq : G -> G -> bool.
Variable placement_eq : P -> P -> bool.
Notation merge := (merge_from numbers_eq composition_eq solid_eq placement_eq).
Notation diff := (differs numbers_eq composition_eq solid_eq placement_eq).
Notation sm := (same_material numbers_eq composition_eq).
Notation sv := (same_volume placement_eq).

(** C148: the search for free names always ends; exactly the names that the files define differently are renamed,
    to names that neither file has, different ones for different names. *)
Theorem C148_names : forall this other : data F G P, sound this -> sound other ->
  exists merged other' ren, merge this other = Some (merged, other', ren) /\
    (forall n, known other n -> (renamed ren n <> n <-> diff this other n)) /\
    (forall n, renamed ren n <> n -> ~ known this (renamed ren n) /\ ~ known other (renamed ren n)) /\
    (forall n m, known other n -> known other m -> renamed ren n = renamed ren m -> n = m) /\
    d_world other' = renamed ren (d_world other) /\ d_world merged = d_world this.
Proof.
  intros this other S1 S2. destruct (collisions_good numbers_eq composition_eq solid_eq placement_eq this other S1 S2) as (ren & C & GR & RD).
  unfold merge_from. rewrite C. eexists _, _, ren. split; [reflexivity|]. split; [|split; [|split; [|split]]].
  - intros n K. split.
    + intros N. now apply (r_fresh numbers_eq composition_eq solid_eq placement_eq this other ren GR RD).
    + intros D. apply (r_moved numbers_eq composition_eq solid_eq placement_eq this other ren GR RD); [now apply known_names|exact D].
  - intros n N. rewrite !known_names. unfold renamed in *. destruct (assoc ren n) as [c|] eqn:A; [|contradiction].
    destruct GR as (_ & R2 & _). now apply (R2 n).
  - intros n m N M. apply (r_inj this other ren GR); now apply known_names.
  - destruct (renamed_maps other S2 ren) as (_ & _ & _ & _ & _ & _ & W). exact W.
  - reflexivity.
Qed.
Print Assumptions C148_names.

(** C148: all that this file defines stays as it is. *)
Theorem C148_parent : forall (this other merged other' : data F G P) ren, merge this other = Some (merged, other', ren) ->
  (forall k n a, assoc (namespace k this) n = Some a -> assoc (namespace k merged) n = Some a) /\
  (forall n a, assoc (d_solids this) n = Some a -> assoc (d_solids merged) n = Some a) /\
  (forall n a, assoc (d_volumes this) n = Some a -> assoc (d_volumes merged) n = Some a) /\
  (forall n a, assoc (d_positions this) n = Some a -> assoc (d_positions merged) n = Some a) /\
  (forall n a, assoc (d_rotations this) n = Some a -> assoc (d_rotations merged) n = Some a) /\
  (forall n a, assoc (d_constants this) n = Some a -> assoc (d_constants merged) n = Some a).
Proof.
  intros this other merged other' ren H. unfold merge_from in H.
  destruct (collisions _ _ _ _ this other) as [r0|]; [|discriminate]. injection H as <- <- <-.
  repeat split; cbn; intros; try (apply parent_kept; assumption). destruct k; cbn in *; now apply parent_kept.
Qed.
Print Assumptions C148_parent.

(** C148: all that the other file defines is there under its new name: itself with its references renamed,
    or, if the name was kept and this file had it, what this file had, which is the same on paper. *)
Theorem C148_entries : forall (this other merged other' : data F G P) ren, sound this -> sound other ->
  (forall k n a m, is (namespace k other) n a -> material_mentions a m -> known other m) ->
  merge this other = Some (merged, other', ren) ->
  let r := renamed ren in
  (forall k n a, is (namespace k other) n a -> exists b, assoc (namespace k merged) (r n) = Some b /\
     (material_under r a b \/ (r n = n /\ is (namespace k this) n b /\ sm b a = true))) /\
  (forall n a, is (d_solids other) n a -> exists b, assoc (d_solids merged) (r n) = Some b /\
     (b = a \/ (r n = n /\ is (d_solids this) n b /\ solid_eq b a = true))) /\
  (forall n a, is (d_volumes other) n a -> exists b, assoc (d_volumes merged) (r n) = Some b /\
     (volume_under r a b \/ (r n = n /\ is (d_volumes this) n b /\ sv b a = true))).
Proof.
  intros this other merged other' ren S1 S2 CL H r.
  destruct (collisions_good numbers_eq composition_eq solid_eq placement_eq this other S1 S2) as (ren0 & C & GR & RD).
  unfold merge_from in H. rewrite C in H. injection H as <- <- <-.
  destruct (renamed_maps other S2 ren0) as (M1 & M2 & M3 & _).
  pose proof S2 as (N2 & L2 & [V2 _] & _). pose proof S1 as (N1 & L1 & [V1 _] & _).
  split; [|split].
  - intros k n a I.
    pose proof (entry_general numbers_eq composition_eq solid_eq placement_eq this other ren0 GR RD _ (rename_material r) (namespace k other) (namespace k this) n a
                  (incl_ns k other) (incl_ns k this) (proj1 (N2 k)) I) as E. cbv zeta in E. fold r in E.
    assert (Q : namespace k (mkdata (merge_map r (d_isotopes (rename_data ren0 other)) (d_isotopes this)) (merge_map r (d_elements (rename_data ren0 other)) (d_elements this))
       (merge_map r (d_materials (rename_data ren0 other)) (d_materials this)) (merge_map r (d_solids (rename_data ren0 other)) (d_solids this))
       (merge_map r (d_volumes (rename_data ren0 other)) (d_volumes this)) (merge_map r (d_positions (rename_data ren0 other)) (d_positions this))
       (merge_map r (d_rotations (rename_data ren0 other)) (d_rotations this)) (merge_map r (d_constants (rename_data ren0 other)) (d_constants this)) (d_world this))
       = merge_map r (map (fun e => (fst e, rename_material r (snd e))) (namespace k other)) (namespace k this)).
    { pose proof (M1 k) as X. unfold r. rewrite <- X. destruct k; reflexivity. }
    fold r. rewrite Q. destruct E as [[E1 E2]|[E1 (b & E2 & E3)]].
    + eexists. split; [exact E2|]. left.
      apply (material_renamed this other ren0 GR); [now apply (proj2 (N2 k) n a)|]. intros m. now apply (CL k n a m).
    + exists b. rewrite E1. split; [exact E3|]. right. split; [reflexivity|]. apply assoc_in in E2. split; [exact E2|].
      destruct (sm b a) eqn:T; [reflexivity|]. exfalso.
      assert (D : diff this other n) by (left; exists k, b, a; auto).
      apply (r_moved numbers_eq composition_eq solid_eq placement_eq this other ren0 GR RD) in D; [contradiction|].
      apply (incl_ns k). apply in_map_iff. now exists (n, a).
  - intros n a I.
    pose proof (entry_general numbers_eq composition_eq solid_eq placement_eq this other ren0 GR RD _ (fun x => x) (d_solids other) (d_solids this) n a
                  (incl_solids other) (incl_solids this) L2 I) as E. cbv zeta in E. cbn [d_solids]. rewrite M2. fold r in E |- *.
    destruct E as [[E1 E2]|[E1 (b & E2 & E3)]].
    + exists a. split; [exact E2|now left].
    + exists b. rewrite E1. split; [exact E3|]. right. split; [reflexivity|]. apply assoc_in in E2. split; [exact E2|].
      destruct (solid_eq b a) eqn:T; [reflexivity|]. exfalso.
      assert (D : diff this other n) by (right; left; exists b, a; auto).
      apply (r_moved numbers_eq composition_eq solid_eq placement_eq this other ren0 GR RD) in D; [contradiction|].
      apply incl_solids. apply in_map_iff. now exists (n, a).
  - intros n a I.
    pose proof (entry_general numbers_eq composition_eq solid_eq placement_eq this other ren0 GR RD _ (rename_volume r) (d_volumes other) (d_volumes this) n a
                  (incl_volumes other) (incl_volumes this) V2 I) as E. cbv zeta in E. cbn [d_volumes]. rewrite M3. fold r in E |- *.
    destruct E as [[E1 E2]|[E1 (b & E2 & E3)]].
    + eexists. split; [exact E2|left; apply volume_renamed].
    + exists b. rewrite E1. split; [exact E3|]. right. split; [reflexivity|]. apply assoc_in in E2. split; [exact E2|].
      destruct (sv b a) eqn:T; [reflexivity|]. exfalso.
      assert (D : diff this other n) by (right; right; exists b, a; auto).
      apply (r_moved numbers_eq composition_eq solid_eq placement_eq this other ren0 GR RD) in D; [contradiction|].
      apply incl_volumes. apply in_map_iff. now exists (n, a).
Qed.
Print Assumptions C148_entries.

(** ** C149 *)

(** C149: if the definitions on which the files agree mention no names on which they differ, then the included
    file means the same after the merge: every definition is there with its references renamed. *)
Theorem C149_faithful : forall (this other merged other' : data F G P) ren, sound this -> sound other ->
  (forall a b, numbers_eq a b = true -> a = b) -> (forall a b, composition_eq a b = true -> a = b) ->
  (forall a b, solid_eq a b = true -> a = b) -> (forall a b, placement_eq a b = true -> a = b) ->
  (forall k n a m, is (namespace k other) n a -> material_mentions a m -> known other m) ->
  deep numbers_eq composition_eq solid_eq placement_eq this other ->
  merge this other = Some (merged, other', ren) ->
  let r := renamed ren in
  (forall k n a, is (namespace k other) n a -> exists b, assoc (namespace k merged) (r n) = Some b /\ material_under r a b) /\
  (forall n a, is (d_solids other) n a -> assoc (d_solids merged) (r n) = Some a) /\
  (forall n a, is (d_volumes other) n a -> exists b, assoc (d_volumes merged) (r n) = Some b /\ volume_under r a b).
Proof.
  intros this other merged other' ren S1 S2 E1 E2 E3 E4 CL [D1 D2] H r.
  destruct (C148_entries this other merged other' ren S1 S2 CL H) as (A & B & C). fold r in A, B, C.
  destruct (collisions_good numbers_eq composition_eq solid_eq placement_eq this other S1 S2) as (ren0 & CC & GR & RD).
  assert (R0 : ren0 = ren).
  { unfold merge_from in H. rewrite CC in H. now injection H as _ _ ->. }
  subst ren0. pose proof S2 as (N2 & L2 & [V2 W2] & _). pose proof S1 as (N1 & L1 & [V1 W1] & _). split; [|split].
  - intros k n a I. destruct (A k n a I) as (b & X & [Y|(Y1 & Y2 & Y3)]); [now exists b|]. exists b. split; [exact X|].
    assert (Q : b = a).
    { unfold same_material, material_eq in Y3. apply andb_prop in Y3 as [Y3 Z3]. apply andb_prop in Y3 as [Y3 Z2].
      apply str_eqb_eq in Y3. apply E1 in Z2. apply E2 in Z3. destruct a, b. cbn in *. now subst. }
    rewrite Q in *. apply (material_same numbers_eq composition_eq solid_eq placement_eq this other ren RD).
    + now apply (proj2 (N2 k) n a).
    + intros m. now apply (D1 k n a a m).
    + fold r. rewrite (proj1 (proj2 (N2 k) n a I)). exact Y1.
  - intros n a I. destruct (B n a I) as (b & X & [->|(Y1 & Y2 & Y3)]); [exact X|]. apply E3 in Y3. now subst b.
  - intros n a I. destruct (C n a I) as (b & X & [Y|(Y1 & Y2 & Y3)]); [now exists b|]. exists b. split; [exact X|].
    assert (Q : b = a).
    { pose proof (W1 n b Y2) as Z1. pose proof (W2 n a I) as Z2. unfold same_volume, volume_eq in Y3.
      apply andb_prop in Y3 as [Y3 X4]. apply andb_prop in Y3 as [Y3 X3]. apply andb_prop in Y3 as [X1 X2].
      apply str_eqb_eq in X1, X2. apply eqb_prop in X3.
      assert (X5 : forall x y, children_eq placement_eq x y = true -> x = y).
      { induction x as [|[u v] x IH]; intros [|[u' v'] y] Z; cbn in Z; try discriminate; [reflexivity|].
        apply andb_prop in Z as [Z Z3]. apply andb_prop in Z as [Z0 Z4]. apply str_eqb_eq in Z0. apply E4 in Z4. subst.
        f_equal. now apply IH. }
      apply X5 in X4. destruct a, b. cbn in *. now subst. }
    rewrite Q in *. apply (volume_same numbers_eq composition_eq solid_eq placement_eq this other ren RD).
    + intros m. now apply (D2 n a a m).
    + fold r. rewrite (W2 n a I). exact Y1.
Qed.
Print Assumptions C149_faithful.

End Theorems.

(** ** Examples *)

(** A file with one solid and one volume. *)
Definition small (solid : nat) (vol : string) : data nat nat nat :=
  mkdata [] [] [(text "Air", mkmaterial (text "Air") (1, 7, 14)%nat [])] [(text "Box", solid)]
    [(text vol, mkvolume (text vol) (text "Box") (text "Air") false [])] [] [] [] (text vol).
Definition numbers3 (a b : nat * nat * nat) : bool :=
  (fst (fst a) =? fst (fst b))%nat && (snd (fst a) =? snd (fst b))%nat && (snd a =? snd b)%nat.
Definition no_composition (a b : list (list ascii * nat)) : bool :=
  match a, b with [], [] => true | _, _ => false end.

(** C149 is false of two files that agree on the text of a volume but not on the solid that it mentions:
    the included volume silently becomes the volume of this file, with the solid of this file. *)
Theorem C149_shallow_refuted : exists (this other merged other' : data nat nat nat) ren v,
  merge_from numbers3 no_composition Nat.eqb Nat.eqb this other = Some (merged, other', ren) /\
  assoc (d_volumes other) (d_world other) = Some v /\
  exists v' s s', assoc (d_volumes merged) (d_world other') = Some v' /\
    assoc (d_solids other) (v_solid v) = Some s /\ assoc (d_solids merged) (v_solid v') = Some s' /\ s <> s'.
Proof.
  exists (small 1 "V"), (small 2 "V"). eexists _, _, _, _. split; [vm_compute; reflexivity|]. split; [vm_compute; reflexivity|].
  eexists _, 2%nat, 1%nat. split; [vm_compute; reflexivity|]. repeat split; try (vm_compute; reflexivity). discriminate.
Qed.
Print Assumptions C149_shallow_refuted.

Lemma small_sound : forall s v, sound (small s v).
Proof.
  intros s v. unfold sound, once. split; [|split; [|split; [split|]]].
  - intros k. split; [destruct k; cbn; repeat constructor; intros []|].
    intros n a H. destruct k; cbn in H; try contradiction. destruct H as [H|[]]. injection H as <- <-. split; [reflexivity|constructor].
  - cbn. repeat constructor. intros [].
  - cbn. repeat constructor. intros [].
  - intros n a [H|[]]. now injection H as <- <-.
  - cbn. repeat split; constructor.
Qed.
Example C148_case : sound (small 1 "V") /\ sound (small 2 "W") /\
  differs numbers3 no_composition Nat.eqb Nat.eqb (small 1 "V") (small 2 "W") (text "Box") /\
  exists m o, merge_from numbers3 no_composition Nat.eqb Nat.eqb (small 1 "V") (small 2 "W") = Some (m, o, [(text "Box", text "Box_2")]).
Proof.
  split; [apply small_sound|split; [apply small_sound|split]].
  - right. left. exists 1%nat, 2%nat. repeat split; try (now left).
  - eexists _, _. vm_compute. reflexivity.
Qed.
Example C149_case : deep numbers3 no_composition Nat.eqb Nat.eqb (small 1 "V") (small 2 "W") /\
  exists m o ren v, merge_from numbers3 no_composition Nat.eqb Nat.eqb (small 1 "V") (small 2 "W") = Some (m, o, ren) /\
    assoc (d_volumes m) (text "W") = Some v /\ v_solid v = text "Box_2" /\ assoc (d_solids m) (text "Box_2") = Some 2%nat.
Proof.
  split.
  - split.
    + intros k n a b m I J T M. destruct k; cbn in J; try contradiction. destruct J as [J|[]]. injection J as <- <-. destruct M.
    + intros n a b m I J. cbn in I, J. destruct I as [I|[]]. destruct J as [J|[]]. injection I as <- _. discriminate.
  - eexists _, _, _, _. split; [vm_compute; reflexivity|]. repeat split; vm_compute; reflexivity.
Qed.
