(** Merging GDML files: lemmas. *)
From Coq Require Import List Bool Arith Lia Ascii String FinFun.
From Verif Require Import GdmlModel GdmlProofs InstModel InstSpec InstProofs MergeModel MergeSpec.
Import ListNotations.

(** ** Maps *)

Lemma assoc_in : forall A (m : list (list ascii * A)) k v, assoc m k = Some v -> In (k, v) m.
Proof.
  induction m as [|[x w] m IH]; intros k v H; cbn in H; [discriminate|].
  destruct (str_eqb x k) eqn:E; [apply str_eqb_eq in E; subst; injection H as ->; now left|right; now apply IH].
Qed.
Lemma in_assoc : forall A (m : list (list ascii * A)) k v, once m -> In (k, v) m -> assoc m k = Some v.
Proof.
  unfold once. induction m as [|[x w] m IH]; intros k v N I; [contradiction|]. cbn in *. inversion N as [|? ? N1 N2]. subst.
  destruct I as [E|I].
  - injection E as -> ->. now rewrite seq_refl.
  - rewrite seq_neq; [now apply IH|]. intros ->. apply N1. apply in_map_iff. now exists (k, v).
Qed.
Lemma assoc_none : forall A (m : list (list ascii * A)) k, assoc m k = None <-> ~ In k (map fst m).
Proof.
  induction m as [|[x w] m IH]; intros k; cbn; [tauto|]. destruct (str_eqb x k) eqn:E.
  - apply str_eqb_eq in E. subst. split; [discriminate|]. intros H. exfalso. apply H. now left.
  - rewrite IH. split; [intros H [->|I]; [rewrite seq_refl in E; discriminate|now apply H]|tauto].
Qed.
Lemma has_in : forall A (m : list (list ascii * A)) k, has m k = true <-> In k (map fst m).
Proof.
  intros A m k. unfold has. destruct (assoc m k) eqn:E.
  - split; [|reflexivity]. intros _. apply assoc_in in E. apply in_map_iff. now exists (k, a).
  - apply assoc_none in E. split; [discriminate|contradiction].
Qed.
Lemma assoc_assign : forall A (m : list (list ascii * A)) k v x, assoc (assign m k v) x = if str_eqb k x then Some v else assoc m x.
Proof.
  induction m as [|[y w] m IH]; intros k v x; cbn; [reflexivity|].
  destruct (str_eqb y k) eqn:E; cbn.
  - apply str_eqb_eq in E. subst. now destruct (str_eqb k x).
  - rewrite IH. destruct (str_eqb y x) eqn:Q; [|reflexivity]. apply str_eqb_eq in Q. subst.
    destruct (str_eqb k x) eqn:W; [|reflexivity]. apply str_eqb_eq in W. subst. rewrite seq_refl in E. discriminate.
Qed.
Lemma assign_new : forall A (m : list (list ascii * A)) k v, ~ In k (map fst m) -> assign m k v = m ++ [(k, v)].
Proof.
  induction m as [|[y w] m IH]; intros k v N; cbn in *; [reflexivity|].
  rewrite seq_neq by tauto. f_equal. apply IH. tauto.
Qed.
Lemma assign_fst : forall A (m : list (list ascii * A)) k v x, In x (map fst (assign m k v)) <-> x = k \/ In x (map fst m).
Proof.
  induction m as [|[y w] m IH]; intros k v x; cbn; [intuition|].
  destruct (str_eqb y k) eqn:E; cbn; [apply str_eqb_eq in E; subst; intuition|rewrite IH; intuition].
Qed.
Lemma assign_once : forall A (m : list (list ascii * A)) k v, once m -> once (assign m k v).
Proof.
  unfold once. induction m as [|[y w] m IH]; intros k v N; cbn; [repeat constructor; intros []|].
  cbn in N. inversion N as [|? ? N1 N2]. subst. destruct (str_eqb y k) eqn:E; cbn; [now constructor|].
  constructor; [|now apply IH]. rewrite assign_fst. intros [->|I]; [rewrite seq_refl in E; discriminate|contradiction].
Qed.

Lemma emplace_assoc : forall A (m : list (list ascii * A)) k v x,
  assoc (emplace m k v) x = match assoc m x with Some d => Some d | None => if str_eqb k x then Some v else None end.
Proof.
  intros A m k v x. unfold emplace, has. destruct (assoc m k) eqn:E.
  - destruct (assoc m x) eqn:Q; [reflexivity|]. rewrite seq_neq; [reflexivity|]. intros ->. congruence.
  - assert (H : forall l, assoc (l ++ [(k, v)]) x = match assoc l x with Some d => Some d | None => if str_eqb k x then Some v else None end).
    { induction l as [|[y w] l IH]; cbn; [reflexivity|]. destruct (str_eqb y x); [reflexivity|exact IH]. }
    apply H.
Qed.
Lemma emplace_all : forall A (l m : list (list ascii * A)) x,
  assoc (fold_left (fun d e => emplace d (fst e) (snd e)) l m) x = match assoc m x with Some d => Some d | None => assoc l x end.
Proof.
  induction l as [|[k v] l IH]; intros m x; cbn [fold_left fst snd]; [now destruct (assoc m x)|].
  rewrite IH, emplace_assoc. cbn. destruct (assoc m x); [reflexivity|]. now destruct (str_eqb k x).
Qed.
Lemma staged_all : forall A r (l m : list (list ascii * A)) x,
  assoc (fold_left (fun d e => emplace d (r (fst e)) (snd e)) l m) x =
  match assoc m x with Some d => Some d | None => assoc (map (fun e => (r (fst e), snd e)) l) x end.
Proof.
  induction l as [|[k v] l IH]; intros m x; cbn [fold_left fst snd]; [now destruct (assoc m x)|].
  rewrite IH, emplace_assoc. cbn. destruct (assoc m x); [reflexivity|]. now destruct (str_eqb (r k) x).
Qed.
Lemma merge_assoc : forall A r (sub dst : list (list ascii * A)) x,
  assoc (merge_map r sub dst) x = match assoc dst x with Some d => Some d | None => assoc (map (fun e => (r (fst e), snd e)) sub) x end.
Proof.
  intros. unfold merge_map. rewrite emplace_all, staged_all. cbn [assoc]. reflexivity.
Qed.
Lemma mapped : forall A (r : list ascii -> list ascii) (sub : list (list ascii * A)) k,
  (forall a b, In a (map fst sub) -> In b (map fst sub) -> r a = r b -> a = b) -> In k (map fst sub) ->
  assoc (map (fun e => (r (fst e), snd e)) sub) (r k) = assoc sub k.
Proof.
  induction sub as [|[y w] sub IH]; intros k J I; [contradiction|]. cbn in *.
  destruct (str_eqb y k) eqn:E.
  - apply str_eqb_eq in E. subst. now rewrite seq_refl.
  - rewrite seq_neq.
    + apply IH; [intros; apply J; auto|]. destruct I as [->|I]; [rewrite seq_refl in E; discriminate|exact I].
    + intros Q. assert (X : y = k) by (apply J; auto; now left). subst. rewrite seq_refl in E. discriminate.
Qed.

(** ** The search for a free name *)
Section Search.
Context {F G P : Type}.
Variable this other : data F G P.

(** All names of a file. *)
Definition names (d : data F G P) : list (list ascii) :=
  map fst (d_materials d) ++ map fst (d_elements d) ++ map fst (d_isotopes d) ++ map fst (d_solids d) ++
  map fst (d_volumes d) ++ map fst (d_positions d) ++ map fst (d_rotations d) ++ map fst (d_constants d).
Lemma in_any_names : forall d c, in_any c d = true <-> In c (names d).
Proof.
  intros d c. unfold in_any, names. rewrite !orb_true_iff, !has_in, !in_app_iff. tauto.
Qed.
Lemma names_length : forall d, List.length (names d) = size d.
Proof. intros d. unfold names, size. rewrite !app_length, !map_length. lia. Qed.
Lemma taken_in : forall ren c, taken this other ren c = true <-> In c (names this ++ names other ++ map snd ren).
Proof.
  intros ren c. unfold taken. rewrite !orb_true_iff, !in_any_names, !in_app_iff, existsb_exists.
  assert (X : (exists x, In x ren /\ str_eqb (snd x) c = true) <-> In c (map snd ren)).
  { rewrite in_map_iff. split; intros (x & A & B); exists x; [apply str_eqb_eq in B|split; [exact B|now apply str_eqb_eq]]; auto. }
  rewrite X. tauto.
Qed.

(** The names that are tried. *)
Definition candidate (n : list ascii) (i : nat) : list ascii := n ++ text "_" ++ decimal i.
Lemma candidate_inj : forall n i j, candidate n i = candidate n j -> i = j.
Proof. intros n i j E. unfold candidate in E. apply app_inv_head in E. apply app_inv_head in E. now apply decimal_inj. Qed.

Lemma search_none : forall ren n fuel s, find_unique fuel this other ren n s = None ->
  forall i, (i < fuel)%nat -> taken this other ren (candidate n (s + i)) = true.
Proof.
  induction fuel as [|fuel IH]; intros s H i L; [lia|]. cbn [find_unique] in H. cbv zeta in H. fold (candidate n s) in H.
  destruct (taken this other ren (candidate n s)) eqn:E; [|discriminate].
  destruct i as [|i]; [now rewrite Nat.add_0_r|]. replace (s + S i)%nat with (S s + i)%nat by lia. apply IH; [exact H|lia].
Qed.
Lemma search_some : forall ren n fuel s c, find_unique fuel this other ren n s = Some c ->
  taken this other ren c = false /\ c <> n.
Proof.
  induction fuel as [|fuel IH]; intros s c H; [discriminate|]. cbn [find_unique] in H. cbv zeta in H. fold (candidate n s) in H.
  destruct (taken this other ren (candidate n s)) eqn:E; [eapply IH; exact H|]. injection H as <-. split; [exact E|].
  intros Q. apply (f_equal (@List.length ascii)) in Q. unfold candidate in Q. rewrite !app_length in Q. cbn in Q. lia.
Qed.
Lemma unique_some : forall ren n, exists c, unique this other ren n = Some c /\ taken this other ren c = false /\ c <> n.
Proof.
  intros ren n. destruct (unique this other ren n) as [c|] eqn:E.
  - exists c. split; [reflexivity|]. eapply search_some. exact E.
  - exfalso. unfold unique in E. set (fuel := S _) in E.
    assert (N : NoDup (map (candidate n) (seq 2 fuel))).
    { apply Injective_map_NoDup; [intros i j; apply candidate_inj|apply seq_NoDup]. }
    assert (I : incl (map (candidate n) (seq 2 fuel)) (names this ++ names other ++ map snd ren)).
    { intros x X. apply in_map_iff in X as (i & <- & X). apply in_seq in X. apply taken_in.
      replace i with (2 + (i - 2))%nat by lia. eapply search_none; [exact E|lia]. }
    pose proof (NoDup_incl_length N I) as L. rewrite map_length, seq_length, !app_length, !names_length, map_length in L.
    unfold fuel in L. lia.
Qed.

(** What holds of the renames at each moment. *)
Definition good (ren : list (list ascii * list ascii)) : Prop :=
  once ren /\
  (forall n c, assoc ren n = Some c -> ~ In c (names this) /\ ~ In c (names other)) /\
  (forall n m c, assoc ren n = Some c -> assoc ren m = Some c -> n = m).

Lemma good_nil : good [].
Proof. split; [constructor|split; intros; discriminate]. Qed.

Lemma check_good : forall A (eqd : A -> A -> bool) mine sub ren, good ren -> once sub ->
  exists ren', check eqd this other mine sub ren = Some ren' /\ good ren' /\
    forall n, (assoc ren' n <> None <-> assoc ren n <> None \/ exists a b, assoc mine n = Some a /\ In (n, b) sub /\ eqd a b = false).
Proof.
  intros A eqd mine. induction sub as [|[n b] sub IH]; intros ren GR ON.
  - exists ren. split; [reflexivity|split; [exact GR|]]. intros n. split; [now left|]. intros [H|(a & b & _ & [] & _)]. exact H.
  - unfold once in ON. cbn in ON. inversion ON as [|? ? O1 O2]. subst. cbn [check].
    assert (SKIP : forall a0, (forall a, assoc mine n = Some a -> eqd a b = a0) -> a0 = true ->
      exists ren', check eqd this other mine sub ren = Some ren' /\ good ren' /\
      forall m, (assoc ren' m <> None <-> assoc ren m <> None \/ exists a b', assoc mine m = Some a /\ In (m, b') ((n, b) :: sub) /\ eqd a b' = false)).
    { intros a0 E T. destruct (IH ren GR O2) as (ren' & C & G' & K). exists ren'. split; [exact C|split; [exact G'|]].
      intros m. rewrite K. split.
      - intros [H|(a & b' & A1 & A2 & A3)]; [now left|right; exists a, b'; split; [exact A1|split; [now right|exact A3]]].
      - intros [H|(a & b' & A1 & [A2|A2] & A3)]; [now left| |right; exists a, b'; auto].
        injection A2 as <- <-. rewrite (E _ A1) in A3. congruence. }
    destruct (assoc mine n) as [a|] eqn:M.
    + destruct (eqd a b) eqn:Q.
      * apply (SKIP true); [|reflexivity]. intros a' H. injection H as <-. exact Q.
      * destruct (unique_some ren n) as (c & U & T & N). rewrite U.
        assert (G1 : good (assign ren n c)).
        { destruct GR as (R1 & R2 & R3). assert (T' : ~ In c (names this ++ names other ++ map snd ren)).
          { intros I. apply taken_in in I. congruence. }
          rewrite !in_app_iff in T'. split; [now apply assign_once|split].
          - intros m d H. rewrite assoc_assign in H. destruct (str_eqb n m); [injection H as <-; tauto|now apply R2 in H].
          - intros m m' d H H'. rewrite assoc_assign in H, H'.
            assert (V : forall x y, assoc ren x = Some y -> In y (map snd ren)).
            { intros x y X. apply assoc_in in X. apply in_map_iff. now exists (x, y). }
            destruct (str_eqb n m) eqn:E1; destruct (str_eqb n m') eqn:E2.
            + apply str_eqb_eq in E1, E2. congruence.
            + injection H as <-. apply V in H'. tauto.
            + injection H' as <-. apply V in H. tauto.
            + eapply R3; eassumption. }
        destruct (IH _ G1 O2) as (ren' & C & G' & K). exists ren'. split; [exact C|split; [exact G'|]].
        intros m. rewrite K, assoc_assign. destruct (str_eqb n m) eqn:E.
        -- apply str_eqb_eq in E. subst m. split; [|now left; discriminate].
           intros _. right. exists a, b. split; [exact M|split; [now left|exact Q]].
        -- split.
           ++ intros [H|(x & y & A1 & A2 & A3)]; [now left|right; exists x, y; split; [exact A1|split; [now right|exact A3]]].
           ++ intros [H|(x & y & A1 & [A2|A2] & A3)]; [now left| |right; exists x, y; auto].
              injection A2 as <- <-. rewrite seq_refl in E. discriminate.
    + apply (SKIP true); [|reflexivity]. intros a' H. discriminate.
Qed.
End Search.
