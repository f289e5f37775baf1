(** Proofs about HepMC3 import. *)
From Coq Require Import String List Bool ZArith Reals Lia Permutation.
From Verif Require Import TraversalModel TreeModel TreeSpec TreeProofs OrderModel InjectorModel HepgraphModel HepgraphSpec.
Import ListNotations.
Open Scope nat_scope.

(** ** Trees built from scratch *)
Section Layout.
Context {A : Type}.
Notation entry := (A * option nat)%type.

Definition under (es : list entry) (i j : nat) : bool :=
  match nth_error es j with Some (_, Some p) => Nat.eqb p i | _ => false end.
Definition children (es : list entry) (i : nat) : list Z :=
  map Z.of_nat (filter (under es i) (seq 0 (length es))).
Definition node (es : list entry) (i : nat) (x : entry) : datum A :=
  mkdatum (fst x) (Z.of_nat i) (parent_no (snd x)) (children es i) None [].
Fixpoint nodes (es l : list entry) (i : nat) : list (datum A) :=
  match l with [] => [] | x :: r => node es i x :: nodes es r (S i) end.
Definition layout (es : list entry) : state A := mkstate (nodes es es 0) (map Some (seq 0 (length es))).

Lemma nodes_nth es l : forall i j, nth_error (nodes es l i) j = option_map (node es (i + j)) (nth_error l j).
Proof.
  induction l as [|x l IH]; intros i [|j]; cbn [nodes nth_error option_map]; auto.
  - rewrite Nat.add_0_r. auto.
  - rewrite IH. f_equal. f_equal. lia.
Qed.
Lemma nodes_length es l : forall i, length (nodes es l i) = length l.
Proof. induction l; intros; cbn; auto. Qed.

Lemma list_ext {B} (l m : list B) : (forall i, nth_error l i = nth_error m i) -> l = m.
Proof.
  revert m. induction l as [|a l IH]; intros [|b m] H; auto.
  - specialize (H 0). discriminate.
  - specialize (H 0). discriminate.
  - pose proof (H 0) as E. injection E as ->. f_equal. apply IH. intros i. apply (H (S i)).
Qed.

Lemma children_app es x i : children (es ++ [x]) i =
  children es i ++ (match snd x with Some p => if Nat.eqb p i then [Z.of_nat (length es)] else [] | None => [] end).
Proof.
  unfold children. rewrite app_length, seq_app, filter_app, map_app. cbn [length Nat.add seq filter map]. f_equal.
  - f_equal. apply filter_ext_in. intros j J. apply in_seq in J. unfold under. rewrite nth_error_app1 by lia. auto.
  - unfold under. rewrite nth_error_app2, Nat.sub_diag by lia. cbn [nth_error]. destruct x as [r [p|]]; cbn; auto.
    destruct (Nat.eqb p i); auto.
Qed.

Lemma children_fresh es i : (forall j x p, nth_error es j = Some (x, Some p) -> p < j) -> length es <= i -> children es i = [].
Proof.
  intros H L. unfold children.
  assert (E : forall l, (forall j, In j l -> j < length es) -> filter (under es i) l = []).
  { induction l as [|j l IH]; intros Q; auto. cbn [filter]. unfold under.
    destruct (nth_error es j) as [[x [p|]]|] eqn:F; try (apply IH; intros; apply Q; right; auto).
    destruct (Nat.eqb_spec p i); [|apply IH; intros; apply Q; right; auto].
    subst. apply H in F. assert (j < length es) by (apply Q; left; auto). lia. }
  rewrite E; auto. intros j J. apply in_seq in J. lia.
Qed.

Definition down (es : list entry) : Prop := forall j x p, nth_error es j = Some (x, Some p) -> p < j.

Lemma down_app es r par : down es -> (match par with Some q => q < length es | None => True end) -> down (es ++ [(r, par)]).
Proof.
  intros D P j x p H. destruct (Nat.lt_ge_cases j (length es)) as [L|L].
  - rewrite nth_error_app1 in H by auto. eapply D; eauto.
  - rewrite nth_error_app2 in H by auto. destruct (j - length es) as [|k] eqn:E; cbn in H; [|destruct k; discriminate].
    injection H as -> ->. lia.
Qed.

Lemma add_layout es r par : down es -> (Z.of_nat (length es) < kNoParent)%Z ->
  (match par with Some q => q < length es | None => True end) ->
  add_record (layout es) r par = Ok (layout (es ++ [(r, par)]), length es).
Proof.
  intros D B P. unfold add_record, alloc, add_ptr, layout. cbn [st_heap st_tree].
  rewrite !map_length, !seq_length. set (n := length es) in *.
  assert (LN : length (nodes es es 0) = n) by (rewrite nodes_length; auto).
  rewrite !LN. rewrite nth_error_app2 by lia. rewrite LN, Nat.sub_diag. cbn [nth_error].
  assert (U : to_u32 (Z.of_nat n) = Z.of_nat n) by (unfold to_u32; apply Z.mod_small; unfold kNoParent in B; lia).
  rewrite U.
  assert (T : forall l, map Some (seq 0 n) ++ [Some n] = map Some (seq 0 (length (es ++ [l : entry])))).
  { intros l. rewrite app_length, seq_app, map_app. reflexivity. }
  assert (N : forall j, j < n -> exists x, nth_error es j = Some x).
  { intros j J. destruct (nth_error es j) eqn:E; eauto. apply nth_error_None in E. lia. }
  assert (HS : forall d, heap_set (nodes es es 0 ++ [new_datum r]) n d = nodes es es 0 ++ [d]).
  { intros d. apply list_ext. intros i. destruct (Nat.eq_dec n i) as [<-|Q].
    - rewrite heap_set_same by (rewrite app_length; cbn; lia). rewrite nth_error_app2, LN, Nat.sub_diag by lia. auto.
    - rewrite heap_set_other by auto. destruct (Nat.lt_ge_cases i n); [rewrite !nth_error_app1 by lia; auto|].
      rewrite !nth_error_app2 by lia. destruct (i - length (nodes es es 0)) as [|k] eqn:E; [lia|]. destruct k; auto. }
  destruct par as [q|].
  - rewrite HS. rewrite nth_error_app1 by lia. rewrite nodes_nth. destruct (N q P) as [xq Eq]. rewrite Eq. cbn [option_map Nat.add].
    rewrite <- HS, heap_set_set, HS. rewrite nth_error_app1 by lia. rewrite nodes_nth, Eq. cbn [option_map Nat.add].
    rewrite (T (r, Some q)). do 3 f_equal. apply list_ext. intros i. rewrite nodes_nth. cbn [Nat.add].
    destruct (Nat.eq_dec q i) as [<-|Q].
    + rewrite heap_set_same by (rewrite app_length; lia). rewrite nth_error_app1, Eq by auto. cbn [option_map].
      unfold node, set_ids. cbn. rewrite children_app. cbn. rewrite Nat.eqb_refl. reflexivity.
    + rewrite heap_set_other by auto. destruct (Nat.lt_ge_cases i n) as [L|L].
      * rewrite !nth_error_app1 by lia. rewrite nodes_nth. destruct (nth_error es i); auto. cbn. unfold node. rewrite children_app. cbn.
        destruct (Nat.eqb_spec q i); [contradiction|]. rewrite app_nil_r. auto.
      * rewrite !nth_error_app2 by lia. rewrite LN. fold n. destruct (i - n) as [|k] eqn:E; [|destruct k; auto].
        assert (i = n) by lia. subst i. cbn. unfold node, set_ids. cbn. rewrite children_app. cbn.
        destruct (Nat.eqb_spec q n); [lia|]. rewrite children_fresh; auto.
  - rewrite heap_set_set, HS, (T (r, None)). do 3 f_equal. apply list_ext. intros i. rewrite nodes_nth. cbn [Nat.add].
    destruct (Nat.lt_ge_cases i n) as [L|L].
    + rewrite !nth_error_app1 by lia. rewrite nodes_nth. destruct (nth_error es i); auto. cbn. unfold node. rewrite children_app. cbn.
      rewrite app_nil_r. auto.
    + rewrite !nth_error_app2 by lia. rewrite LN. fold n. destruct (i - n) as [|k] eqn:E; [|destruct k; auto].
      assert (i = n) by lia. subst i. cbn. unfold node, set_ids. cbn. rewrite children_app. cbn. rewrite children_fresh; auto.
Qed.

(** What a layout shows. *)
Fixpoint rows (es l : list entry) (i : nat) : list (row A) :=
  match l with [] => [] | x :: r => (fst x, Z.of_nat i, parent_no (snd x), children es i) :: rows es r (S i) end.

Lemma rows_nth es l : forall i j, nth_error (rows es l i) j =
  option_map (fun x => (fst x, Z.of_nat (i + j), parent_no (snd x), children es (i + j))) (nth_error l j).
Proof.
  induction l as [|x l IH]; intros i [|j]; cbn [rows nth_error option_map]; auto.
  - rewrite Nat.add_0_r. auto.
  - rewrite IH. replace (S i + j) with (i + S j) by lia. auto.
Qed.
Lemma rows_length es l : forall i, length (rows es l i) = length l.
Proof. induction l; intros; cbn; auto. Qed.

Lemma layout_shows_gen es l : forall i, (forall j, nth_error (nodes es es 0) (i + j) = option_map (node es (i + j)) (nth_error l j)) ->
  Forall2 (fun e x => exists p d, e = Some p /\ nth_error (nodes es es 0) p = Some d /\
             x = (d_record d, d_node_id d, d_parent d, d_daughters d)) (map Some (seq i (length l))) (rows es l i).
Proof.
  induction l as [|x l IH]; intros i H; cbn [length seq map rows]; constructor.
  - exists i, (node es i x). split; auto. split; auto. pose proof (H 0) as H0. rewrite Nat.add_0_r in H0. auto.
  - apply IH. intros j. replace (S i + j) with (i + S j) by lia. apply H.
Qed.

Lemma layout_shows es : shows (layout es) (rows es es 0).
Proof. apply (layout_shows_gen es es 0). intros j. apply nodes_nth. Qed.

Lemma layout_well_formed es : down es -> (Z.of_nat (length es) <= kNoParent)%Z -> well_formed (rows es es 0).
Proof.
  intros D B.
  assert (AP : forall i x, at_pos (rows es es 0) i x -> exists e, nth_error es (Z.to_nat i) = Some e /\ (0 <= i < Z.of_nat (length es))%Z /\
     x = (fst e, i, parent_no (snd e), children es (Z.to_nat i))).
  { intros i x [H0 H]. rewrite rows_nth in H. cbn [Nat.add] in H. destruct (nth_error es (Z.to_nat i)) as [e|] eqn:E; [|discriminate].
    exists e. split; auto. cbn in H. injection H as <-. rewrite Z2Nat.id by auto. split; auto.
    assert (Z.to_nat i < length es) by (apply nth_error_Some; congruence). lia. }
  assert (PN : forall e j, nth_error es j = Some e -> parent_no (snd e) = kNoParent \/ exists p, snd e = Some p /\ p < j).
  { intros [r [p|]] j H; cbn; auto. right. exists p. split; auto. eapply D; eauto. }
  split.
  - intros i x H. destruct (AP _ _ H) as [e [_ [_ ->]]]. auto.
  - intros i x H. destruct (AP _ _ H) as [e [E [L ->]]]. cbn. destruct (PN _ _ E) as [->|[p [-> Q]]]; auto. cbn. right. lia.
  - intros i j x y Hx Hy. destruct (AP _ _ Hx) as [e [E [L ->]]]. destruct (AP _ _ Hy) as [f [F [M ->]]]. cbn.
    assert (C : count_occ Z.eq_dec (children es (Z.to_nat i)) j = if under es (Z.to_nat i) (Z.to_nat j) then 1 else 0).
    { unfold children. assert (G : forall l, NoDup l -> count_occ Z.eq_dec (map Z.of_nat (filter (under es (Z.to_nat i)) l)) j =
        if in_dec Nat.eq_dec (Z.to_nat j) l then if under es (Z.to_nat i) (Z.to_nat j) then 1 else 0 else 0).
      { induction l as [|a l IH]; intros ND; auto. inversion ND as [|? ? NI ND']; subst. cbn [filter].
        destruct (in_dec Nat.eq_dec (Z.to_nat j) (a :: l)) as [I|I].
        - destruct (Nat.eq_dec a (Z.to_nat j)) as [->|Q].
          + destruct (under es (Z.to_nat i) (Z.to_nat j)) eqn:U; [cbn [map]; rewrite count_occ_cons_eq by lia|]; rewrite IH by auto;
            destruct (in_dec Nat.eq_dec (Z.to_nat j) l); try contradiction; auto.
          + destruct I as [I|I]; [contradiction|].
            destruct (under es (Z.to_nat i) a); [cbn [map]; rewrite count_occ_cons_neq by lia|]; rewrite IH by auto;
            destruct (in_dec Nat.eq_dec (Z.to_nat j) l); try contradiction; auto.
        - assert (a <> Z.to_nat j) by (intros ->; apply I; left; auto).
          destruct (under es (Z.to_nat i) a); [cbn [map]; rewrite count_occ_cons_neq by lia|]; rewrite IH by auto;
            destruct (in_dec Nat.eq_dec (Z.to_nat j) l); auto; exfalso; apply I; right; auto. }
      rewrite G by apply seq_NoDup. destruct (in_dec Nat.eq_dec (Z.to_nat j) (seq 0 (length es))) as [I|I]; auto.
      exfalso. apply I. apply in_seq. lia. }
    rewrite C. unfold under. rewrite F. destruct f as [r [p|]]; cbn [snd parent_no].
    + destruct (Nat.eqb_spec p (Z.to_nat i)), (Z.eqb_spec (Z.of_nat p) i); auto; lia.
    + destruct (Z.eqb_spec kNoParent i); auto. unfold kNoParent in *. lia.
  - intros i x j H I. destruct (AP _ _ H) as [e [E [L ->]]]. cbn in I. unfold children in I. apply in_map_iff in I.
    destruct I as [k [<- I]]. apply filter_In in I. destruct I as [I U]. apply in_seq in I. rewrite rows_length.
    unfold under in U. destruct (nth_error es k) as [[r [p|]]|] eqn:F; try discriminate. apply Nat.eqb_eq in U. subst p.
    apply D in F. lia.
Qed.
End Layout.

(** ** Maps by vertex id *)
Lemma find_vid_none {A} (m : list (Z * A)) k : find_vid m k = None <-> ~ In k (map fst m).
Proof.
  induction m as [|[j a] m IH]; cbn; [tauto|]. destruct (Z.eqb_spec j k) as [->|N]; [split; [discriminate|intros H; exfalso; apply H; auto]|].
  rewrite IH. tauto.
Qed.
Lemma find_vid_in {A} (m : list (Z * A)) k a : NoDup (map fst m) -> In (k, a) m -> find_vid m k = Some a.
Proof.
  induction m as [|[j b] m IH]; cbn; intros ND I; [destruct I|]. inversion ND; subst. destruct I as [E|I].
  - injection E as -> ->. rewrite Z.eqb_refl. auto.
  - destruct (Z.eqb_spec j k) as [->|N]; auto. exfalso. apply H1. apply in_map_iff. exists (k, a). auto.
Qed.

(** ** Insertion *)
Section Place.
Variable recs : list (Z * record).
Variable pars : list (Z * Z).
Variable vs : list Z.
Hypothesis ND : NoDup vs.
Hypothesis KEYS : forall v, In v (map fst recs) <-> In v vs.
Hypothesis SIZE : (Z.of_nat (length vs) <= kNoParent)%Z.
Notation par := (parent_of_vid pars).

Definition rootv (v : Z) : Prop := par v = 0%Z \/ ~ In (par v) vs.

(** Vertices with a finite line of ancestors. *)
Inductive grounded : Z -> Prop :=
| grounded_root v : In v vs -> rootv v -> grounded v
| grounded_step v : In v vs -> ~ rootv v -> grounded (par v) -> grounded v.

Definition index_of (ord : list Z) (d : list (Z * ptr)) : Prop :=
  forall v, match find_vid d v with Some p => nth_error ord p = Some v | None => ~ In v ord end.

Record Placed (left : bool) (ord : list Z) (es : list (record * option nat)) : Prop := {
  pl_len : length es = length ord;
  pl_nd : NoDup ord;
  pl_incl : incl ord vs;
  pl_down : down es;
  pl_entry : forall i v, nth_error ord i = Some v -> exists pp, nth_error es i = Some (record_of recs v, pp) /\
     match pp with
     | None => rootv v \/ (left = true /\ ~ grounded v)
     | Some j => ~ rootv v /\ j < i /\ nth_error ord j = Some (par v) /\ grounded v
     end
}.

Lemma nth_app_new {A} (l : list A) x i y : nth_error (l ++ [x]) i = Some y -> nth_error l i = Some y \/ (i = length l /\ y = x).
Proof.
  intros H. destruct (Nat.lt_ge_cases i (length l)); [rewrite nth_error_app1 in H by auto; auto|].
  rewrite nth_error_app2 in H by auto. destruct (i - length l) as [|k] eqn:E; cbn in H; [|destruct k; discriminate].
  injection H as ->. right. split; auto. lia.
Qed.

Lemma index_add ord d v : index_of ord d -> ~ In v ord -> index_of (ord ++ [v]) ((v, length ord) :: d).
Proof.
  intros I N u. cbn [find_vid]. destruct (Z.eqb_spec v u) as [<-|Q].
  - rewrite nth_error_app2, Nat.sub_diag by lia. auto.
  - specialize (I u). destruct (find_vid d u).
    + rewrite nth_error_app1; auto. apply nth_error_Some. congruence.
    + intros J. apply in_app_iff in J. destruct J as [J|[J|[]]]; auto.
Qed.

Lemma placed_add left ord es v pp : Placed left ord es -> In v vs -> ~ In v ord ->
  match pp with
  | None => rootv v \/ (left = true /\ ~ grounded v)
  | Some j => ~ rootv v /\ j < length ord /\ nth_error ord j = Some (par v) /\ grounded v
  end -> Placed left (ord ++ [v]) (es ++ [(record_of recs v, pp)]).
Proof.
  intros P IV NV H. destruct P as [A B C D E]. split.
  - rewrite !app_length. cbn. lia.
  - apply NoDup_rev in B. rewrite <- (rev_involutive (ord ++ [v])). apply NoDup_rev. rewrite rev_app_distr. cbn. constructor; auto.
    rewrite <- in_rev. auto.
  - intros u I. apply in_app_iff in I. destruct I as [I|[<-|[]]]; auto.
  - apply down_app; auto. destruct pp; auto. rewrite A. tauto.
  - intros i u Hu. apply nth_app_new in Hu. destruct Hu as [Hu|[-> ->]].
    + destruct (E i u Hu) as [q [Q1 Q2]]. exists q. rewrite nth_error_app1 by (apply nth_error_Some; congruence). split; auto.
      destruct q as [j|]; auto. destruct Q2 as [X [Y [W GV]]]. split; auto. split; auto. split; auto. rewrite nth_error_app1; auto.
      apply nth_error_Some. congruence.
    + exists pp. rewrite nth_error_app2 by lia. rewrite A, Nat.sub_diag. split; auto. destruct pp as [j|]; auto.
      destruct H as [X [Y [W GV]]]. split; auto. split; auto. split; auto. rewrite nth_error_app1; auto.
Qed.

Lemma placed_grounded ord es v : Placed false ord es -> In v ord -> grounded v.
Proof.
  intros P I. apply In_nth_error in I as H. destruct H as [i H]. destruct (pl_entry _ _ _ P i v H) as [[j|] [_ W]]; [tauto|].
  destruct W as [W|[W _]]; [|discriminate]. apply grounded_root; auto. apply (pl_incl _ _ _ P). auto.
Qed.

Lemma placed_room left ord es v : Placed left ord es -> In v vs -> ~ In v ord -> (Z.of_nat (length es) < kNoParent)%Z.
Proof.
  intros P IV NV. assert (length (v :: ord) <= length vs).
  { apply NoDup_incl_length; [constructor; [auto|apply (pl_nd _ _ _ P)]|]. intros u [<-|I]; auto. apply (pl_incl _ _ _ P). auto. }
  cbn in H. rewrite (pl_len _ _ _ P). lia.
Qed.

Definition is_rootb (v : Z) : bool := (par v =? 0)%Z || match find_vid recs (par v) with None => true | Some _ => false end.
Lemma is_rootb_ok v : is_rootb v = true <-> rootv v.
Proof.
  unfold is_rootb, rootv. rewrite orb_true_iff, Z.eqb_eq. destruct (find_vid recs (par v)) eqn:F.
  - assert (In (par v) vs). { apply KEYS. destruct (in_dec Z.eq_dec (par v) (map fst recs)); auto. apply find_vid_none in n. congruence. }
    split; [intros [H0|H0]; [auto|discriminate]|intros [H0|H0]; auto; contradiction].
  - apply find_vid_none in F. rewrite KEYS in F. tauto.
Qed.

Lemma round_ok us : incl us vs -> forall ord es d pr, Placed false ord es -> index_of ord d ->
  exists ord' es' d' pr', round recs pars us (mkplacing (layout es) d (length ord) pr) = Ok (mkplacing (layout es') d' (length ord') pr') /\
    Placed false ord' es' /\ index_of ord' d' /\ (exists ext, ord' = ord ++ ext /\ incl ext us) /\
    (length ord < length ord' -> pr' = true) /\
    (length ord' = length ord -> pr' = pr /\ forall v, In v us -> In v ord \/ (~ rootv v /\ ~ In (par v) ord)).
Proof.
  induction us as [|v us IH]; intros IU ord es d pr P I.
  - cbn [round]. exists ord, es, d, pr. split; auto. split; auto. split; auto. split; [exists []; rewrite app_nil_r; split; auto; intros x []|]. split; [lia|]. intros _. split; auto; intros v [].
  - cbn [round]. cbn [pl_datums pl_tree pl_placed].
    assert (IV : In v vs) by (apply IU; left; auto). assert (IU' : incl us vs) by (intros x X; apply IU; right; auto).
    pose proof (I v) as Iv. destruct (find_vid d v) as [p|].
    + destruct (IH IU' ord es d pr P I) as [ord' [es' [d' [pr' [E [P' [I' [[ext [X1 X2]] [M N]]]]]]]]].
      exists ord', es', d', pr'. split; auto. split; auto. split; auto.
      split; [exists ext; split; auto; intros x X; right; auto|]. split; auto. intros L. destruct (N L) as [N1 N2]. split; auto.
      intros u [<-|U]; auto. left. eapply nth_error_In; eauto.
    + assert (Add : forall pp, match pp with None => rootv v \/ (false = true /\ ~ grounded v)
                               | Some j => ~ rootv v /\ j < length ord /\ nth_error ord j = Some (par v) /\ grounded v end ->
        exists ord' es' d' pr',
          match add_record (layout es) (record_of recs v) pp with
          | Ok (t, p) => round recs pars us (mkplacing t ((v, p) :: d) (S (length ord)) true)
          | Throw => Throw | UB => UB end = Ok (mkplacing (layout es') d' (length ord') pr') /\
    Placed false ord' es' /\ index_of ord' d' /\ (exists ext, ord' = ord ++ ext /\ incl ext (v :: us)) /\
    (length ord < length ord' -> pr' = true) /\
    (length ord' = length ord -> pr' = pr /\ forall u, In u (v :: us) -> In u ord \/ (~ rootv u /\ ~ In (par u) ord))).
      { intros pp H. rewrite add_layout; [|apply (pl_down _ _ _ P)|eapply placed_room; eauto|].
        2: { destruct pp; auto. rewrite (pl_len _ _ _ P). tauto. }
        rewrite (pl_len _ _ _ P). pose proof (placed_add _ _ _ _ _ P IV Iv H) as P2. pose proof (index_add _ _ _ I Iv) as I2.
        replace (S (length ord)) with (length (ord ++ [v])) by (rewrite app_length; cbn; lia).
        destruct (IH IU' _ _ _ true P2 I2) as [ord' [es' [d' [pr' [E [P' [I' [[ext [X1 X2]] [M N]]]]]]]]].
        exists ord', es', d', pr'. split; auto. split; auto. split; auto.
        assert (L : length ord < length ord') by (subst ord'; rewrite !app_length; cbn; lia).
        split; [exists (v :: ext); split; [subst ord'; rewrite <- app_assoc; auto|intros x [<-|X]; [left; auto|right; auto]]|].
        split; [|intros L2; lia]. intros _. destruct (Nat.eq_dec (length ord') (length (ord ++ [v]))) as [Q|Q]; [apply N; auto|].
        apply M. subst ord'. rewrite !app_length in *. cbn in *. lia. }
      fold (is_rootb v). destruct (is_rootb v) eqn:RB.
      * apply is_rootb_ok in RB. apply (Add None). auto.
      * assert (NR : ~ rootv v) by (rewrite <- is_rootb_ok; congruence).
        pose proof (I (par v)) as Ip. destruct (find_vid d (par v)) as [q|].
        -- apply (Add (Some q)). split; auto. split; [apply nth_error_Some; congruence|]. split; auto.
           apply grounded_step; auto. apply (placed_grounded ord es); auto. eapply nth_error_In; eauto.
        -- destruct (IH IU' ord es d pr P I) as [ord' [es' [d' [pr' [E [P' [I' [[ext [X1 X2]] [M N]]]]]]]]].
           exists ord', es', d', pr'. split; auto. split; auto. split; auto.
           split; [exists ext; split; auto; intros x X; right; auto|]. split; auto. intros L. destruct (N L) as [N1 N2]. split; auto.
           intros u [<-|U]; auto.
Qed.

Lemma full_in ord : NoDup ord -> incl ord vs -> length vs <= length ord -> forall v, In v vs -> In v ord.
Proof. intros N I L. exact (NoDup_length_incl N L I). Qed.

Lemma rounds_ok fuel : forall ord es d pr, Placed false ord es -> index_of ord d ->
  (pr = false -> forall v, In v vs -> In v ord \/ (~ rootv v /\ ~ In (par v) ord)) ->
  length vs - length ord < fuel ->
  exists ord' es' d' pr', rounds fuel recs pars vs (mkplacing (layout es) d (length ord) pr) = Some (Ok (mkplacing (layout es') d' (length ord') pr')) /\
    Placed false ord' es' /\ index_of ord' d' /\ (exists ext, ord' = ord ++ ext) /\
    forall v, In v vs -> In v ord' \/ (~ rootv v /\ ~ In (par v) ord').
Proof.
  induction fuel as [|f IH]; intros ord es d pr P I Q F; [lia|]. cbn [rounds pl_placed pl_progress pl_tree pl_datums].
  destruct (Nat.ltb_spec (length ord) (length vs)) as [L|L]; cbn [andb].
  2: { exists ord, es, d, pr. split; auto. split; auto. split; auto. split; [exists []; rewrite app_nil_r; auto|]. intros v V. left.
       apply full_in; auto; [apply (pl_nd _ _ _ P)|apply (pl_incl _ _ _ P)]. }
  destruct pr.
  2: { exists ord, es, d, false. split; auto. split; auto. split; auto. split; [exists []; rewrite app_nil_r; auto|]. auto. }
  destruct (round_ok vs (incl_refl _) ord es d false P I) as [ord' [es' [d' [pr' [E [P' [I' [[ext [X1 X2]] [M N]]]]]]]]].
  rewrite E. clear E.
  assert (LE : length ord <= length ord') by (subst ord'; rewrite app_length; lia).
  destruct (Nat.eq_dec (length ord') (length ord)) as [Eq|Ne].
  - destruct (N Eq) as [-> N2].
    assert (ext = []). { subst ord'. rewrite app_length in Eq. destruct ext; auto. cbn in Eq. lia. }
    subst ext. rewrite app_nil_r in X1. subst ord'.
    destruct f as [|f']; cbn [rounds pl_placed pl_progress]; [rewrite andb_false_r|destruct (Nat.ltb (length ord) (length vs)); cbn [andb]];
    (exists ord, es', d', false; split; auto; split; auto; split; auto; split; [exists []; rewrite app_nil_r; auto|auto]).
  - assert (pr' = true) by (apply M; lia). subst pr'.
    destruct (IH ord' es' d' true P' I' ltac:(discriminate) ltac:(lia)) as [o2 [e2 [d2 [p2 [E2 [P2 [I2 [[x2 X3] R2]]]]]]]].
    exists o2, e2, d2, p2. split; auto. split; auto. split; auto. split; auto. exists (ext ++ x2). subst. rewrite app_assoc. auto.
Qed.

(** Vertices that stay behind have no finite line of ancestors. *)
Lemma stuck ord : (forall v, In v vs -> In v ord \/ (~ rootv v /\ ~ In (par v) ord)) -> forall v, grounded v -> In v ord.
Proof.
  intros Q v G. induction G as [v IV R|v IV NR G IH]; destruct (Q v IV) as [H|[H1 H2]]; auto; contradiction.
Qed.

Lemma placed_weaken ord es : Placed false ord es -> Placed true ord es.
Proof.
  intros [A B C D E]. split; auto. intros i v H. destruct (E i v H) as [pp [E1 E2]]. exists pp. split; auto.
  destruct pp; auto. destruct E2 as [E2|[E2 _]]; [auto|discriminate].
Qed.

Lemma leftovers_ok us : incl us vs -> forall ord es d pl pr, Placed true ord es -> index_of ord d ->
  (forall v, In v us -> In v ord \/ ~ grounded v) ->
  exists ord' es' d', leftovers recs us (mkplacing (layout es) d pl pr) = Ok (mkplacing (layout es') d' pl pr) /\
    Placed true ord' es' /\ index_of ord' d' /\ (exists ext, ord' = ord ++ ext) /\ forall v, In v us -> In v ord'.
Proof.
  induction us as [|v us IH]; intros IU ord es d pl pr P I G; cbn [leftovers pl_datums pl_tree pl_placed pl_progress].
  - exists ord, es, d. split; auto. split; auto. split; auto. split; [exists []; rewrite app_nil_r; auto|intros v []].
  - assert (IV : In v vs) by (apply IU; left; auto). assert (IU' : incl us vs) by (intros x X; apply IU; right; auto).
    pose proof (I v) as Iv. destruct (find_vid d v) as [p|].
    + apply nth_error_In in Iv. destruct (IH IU' ord es d pl pr P I) as [o [e' [d' [E [P' [I' [[x X] A]]]]]]]; [intros; apply G; right; auto|].
      exists o, e', d'. split; auto. split; auto. split; auto. split; [exists x; auto|]. intros u [<-|U]; auto. subst o.
      apply in_app_iff. auto.
    + destruct (G v (or_introl eq_refl)) as [H|NG]; [contradiction|].
      rewrite add_layout; [|apply (pl_down _ _ _ P)|eapply placed_room; eauto|exact Logic.I].
      rewrite (pl_len _ _ _ P). pose proof (placed_add _ _ _ _ None P IV Iv (or_intror (conj eq_refl NG))) as P2.
      pose proof (index_add _ _ _ I Iv) as I2.
      destruct (IH IU' _ _ _ pl pr P2 I2) as [o [e' [d' [E [P' [I' [[x X] A]]]]]]].
      { intros u U. destruct (G u (or_intror U)); auto. left. apply in_app_iff. auto. }
      exists o, e', d'. split; auto. split; auto. split; auto. split; [exists (v :: x); subst o; rewrite <- app_assoc; auto|].
      intros u [<-|U]; auto. subst o. apply in_app_iff. left. apply in_app_iff. right. left. auto.
Qed.

Definition finish (s : placing) : option (outcome (state record)) :=
  match leftovers recs vs s with Ok s' => Some (Ok (pl_tree s')) | Throw => Some Throw | UB => Some UB end.

Theorem place_all : exists ord es,
  match rounds (S (length vs)) recs pars vs (mkplacing (mkstate [] []) [] 0 true) with
  | None => None | Some (Ok s) => finish s | Some Throw => Some Throw | Some UB => Some UB end = Some (Ok (layout es)) /\
  Placed true ord es /\ Permutation ord vs /\ (forall v, In v vs -> grounded v \/ ~ grounded v).
Proof.
  assert (P0 : Placed false [] []).
  { split; auto; [constructor|intros x []|intros [|j] x p; discriminate|intros [|i] v; discriminate]. }
  assert (I0 : index_of [] []) by (intros v; cbn; auto).
  destruct (rounds_ok (S (length vs)) [] [] [] true P0 I0) as [o [es [d [pr [E [P [I [_ Q]]]]]]]]; [discriminate|cbn; lia|].
  change (mkplacing (mkstate [] []) [] 0 true) with (mkplacing (layout (A := record) []) [] (length (@nil Z)) true). rewrite E.
  assert (GI : forall i v, nth_error o i = Some v -> grounded v).
  { intros i v H. apply (placed_grounded o es); auto. eapply nth_error_In; eauto. }
  assert (GD : forall v, In v vs -> In v o \/ ~ grounded v).
  { intros v V. destruct (in_dec Z.eq_dec v o); auto. right. intros G. apply n. apply (stuck o Q). auto. }
  unfold finish. destruct (leftovers_ok vs (incl_refl _) o es d (length o) pr (placed_weaken _ _ P) I GD) as [o' [es' [d' [E' [P' [I' [[x X] A]]]]]]].
  rewrite E'. exists o', es'. split; auto. split; auto. split.
  - apply NoDup_Permutation; auto; [apply (pl_nd _ _ _ P')|]. intros v. split; [apply (pl_incl _ _ _ P')|apply A].
  - intros v V. destruct (GD v V) as [H|H]; auto. left. apply In_nth_error in H. destruct H as [i H]. eapply GI; eauto.
Qed.

(** When parents come first, one round places everything in the given order. *)
Lemma round_order us : forall done es d pr, vs = done ++ us ->
  (forall a v b, vs = a ++ v :: b -> rootv v \/ In (par v) a) -> Placed false done es -> index_of done d ->
  exists es' d' pr', round recs pars us (mkplacing (layout es) d (length done) pr) = Ok (mkplacing (layout es') d' (length vs) pr') /\
    Placed false vs es' /\ index_of vs d'.
Proof.
  induction us as [|v us IH]; intros done es d pr E PF P I; cbn [round].
  - rewrite app_nil_r in E. subst done. exists es, d, pr. auto.
  - cbn [pl_datums pl_tree pl_placed].
    assert (IV : In v vs) by (rewrite E; apply in_app_iff; right; left; auto).
    assert (NV : ~ In v done).
    { intros J. rewrite E in ND. apply NoDup_remove_2 in ND. apply ND. apply in_app_iff. auto. }
    pose proof (I v) as Iv. destruct (find_vid d v) as [p|]; [exfalso; apply NV; eapply nth_error_In; eauto|].
    assert (Add : forall pp, match pp with None => rootv v \/ (false = true /\ ~ grounded v)
                               | Some j => ~ rootv v /\ j < length done /\ nth_error done j = Some (par v) /\ grounded v end ->
        exists es' d' pr', match add_record (layout es) (record_of recs v) pp with
          | Ok (t, p) => round recs pars us (mkplacing t ((v, p) :: d) (S (length done)) true)
          | Throw => Throw | UB => UB end = Ok (mkplacing (layout es') d' (length vs) pr') /\ Placed false vs es' /\ index_of vs d').
    { intros pp H. rewrite add_layout; [|apply (pl_down _ _ _ P)|eapply placed_room; eauto|].
      2: { destruct pp; auto. rewrite (pl_len _ _ _ P). tauto. }
      rewrite (pl_len _ _ _ P). pose proof (placed_add _ _ _ _ _ P IV NV H) as P2. pose proof (index_add _ _ _ I NV) as I2.
      replace (S (length done)) with (length (done ++ [v])) by (rewrite app_length; cbn; lia).
      apply IH; auto. rewrite <- app_assoc. auto. }
    fold (is_rootb v). destruct (is_rootb v) eqn:RB; [apply is_rootb_ok in RB; apply (Add None); auto|].
    assert (NR : ~ rootv v) by (rewrite <- is_rootb_ok; congruence).
    destruct (PF done v us E) as [R|J]; [contradiction|].
    pose proof (I (par v)) as Ip. destruct (find_vid d (par v)) as [q|]; [|contradiction].
    apply (Add (Some q)). split; auto. split; [apply nth_error_Some; congruence|]. split; auto.
    apply grounded_step; auto. apply (placed_grounded done es); auto.
Qed.

Lemma leftovers_none us : forall s, (forall v, In v us -> find_vid (pl_datums s) v <> None) -> leftovers recs us s = Ok s.
Proof.
  induction us as [|v us IH]; intros s H; cbn [leftovers]; auto.
  destruct (find_vid (pl_datums s) v) eqn:F; [apply IH; intros; apply H; right; auto|]. exfalso. apply (H v); auto. left. auto.
Qed.

Theorem place_in_order : (forall a v b, vs = a ++ v :: b -> rootv v \/ In (par v) a) -> exists es,
  match rounds (S (length vs)) recs pars vs (mkplacing (mkstate [] []) [] 0 true) with
  | None => None | Some (Ok s) => finish s | Some Throw => Some Throw | Some UB => Some UB end = Some (Ok (layout es)) /\
  Placed true vs es.
Proof.
  intros PF.
  assert (P0 : Placed false [] []).
  { split; auto; [constructor|intros x []|intros [|j] x p; discriminate|intros [|i] v; discriminate]. }
  assert (I0 : index_of [] []) by (intros v; cbn; auto).
  destruct (round_order vs [] [] [] false eq_refl PF P0 I0) as [es [d [pr [E [P I]]]]].
  exists es. split; [|apply placed_weaken; auto].
  cbn [rounds pl_placed pl_progress pl_tree pl_datums].
  destruct (Nat.ltb_spec 0 (length vs)) as [L|L]; cbn [andb].
  - change (mkplacing (mkstate [] []) [] 0 false) with (mkplacing (layout (A := record) []) [] (length (@nil Z)) false). rewrite E.
    assert (R : forall fuel, rounds fuel recs pars vs (mkplacing (layout es) d (length vs) pr) = Some (Ok (mkplacing (layout es) d (length vs) pr))).
    { intros [|n]; cbn [rounds pl_placed]; rewrite Nat.ltb_irrefl; auto. }
    rewrite R. unfold finish. rewrite leftovers_none; auto. intros v V. cbn. pose proof (I v) as Iv. destruct (find_vid d v); [discriminate|contradiction].
  - assert (length vs = 0) as LZ by lia. apply length_zero_iff_nil in LZ.
    assert (es = []). { pose proof (pl_len _ _ _ P). rewrite LZ in H. cbn in H. apply length_zero_iff_nil. auto. } subst es.
    unfold finish. rewrite leftovers_none; auto. rewrite LZ. intros v [].
Qed.
End Place.

(** ** Records *)
Section Read.
Variable cm c second : R.
Context {W : Type}.
Variable gen : W -> particle_id * W.
Variable e : event.

Definition grows (a b : list (nat * particle_id)) : Prop := forall i d, find_nat a i = Some d -> find_nat b i = Some d.
Definition honest (a : list (nat * particle_id)) : Prop :=
  forall i d, find_nat a i = Some d -> id_set (stored_id (part e i)) = true -> d = stored_id (part e i).

Lemma get_id_ok i ids w d ids' w' : get_id gen e i ids w = (d, ids', w') -> honest ids ->
  grows ids ids' /\ honest ids' /\ find_nat ids' i = Some d.
Proof.
  unfold get_id. intros H Hon. destruct (find_nat ids i) as [d0|] eqn:F.
  - injection H as <- <- <-. split; [intros j x; auto|]. auto.
  - assert (G : forall x, grows ids ((i, x) :: ids)).
    { intros x j y Hy. cbn. destruct (Nat.eqb_spec i j) as [<-|N]; [congruence|auto]. }
    destruct (id_set (stored_id (part e i))) eqn:S0.
    + injection H as <- <- <-. split; auto. split; [|cbn; rewrite Nat.eqb_refl; auto].
      intros j x. cbn. destruct (Nat.eqb_spec i j) as [<-|N]; [intros E _; congruence|apply Hon].
    + destruct (gen w) as [d1 w1]. injection H as <- <- <-. split; auto. split; [|cbn; rewrite Nat.eqb_refl; auto].
      intros j x. cbn. destruct (Nat.eqb_spec i j) as [<-|N]; [congruence|apply Hon].
Qed.

Lemma grows_trans a b d : grows a b -> grows b d -> grows a d.
Proof. intros H K i x F. auto. Qed.

Lemma out_ids_ok l : forall ids w ds ids' w', out_ids gen e l ids w = (ds, ids', w') -> honest ids ->
  grows ids ids' /\ honest ids' /\ map Some ds = map (find_nat ids') l.
Proof.
  induction l as [|i l IH]; intros ids w ds ids' w' H Hon; cbn [out_ids] in H.
  - injection H as <- <- <-. split; [intros j x; auto|auto].
  - destruct (get_id gen e i ids w) as [[d ids1] w1] eqn:E1. destruct (out_ids gen e l ids1 w1) as [[ds2 ids2] w2] eqn:E2.
    injection H as <- <- <-. destruct (get_id_ok _ _ _ _ _ _ E1 Hon) as [A [B C]]. destruct (IH _ _ _ _ _ E2 B) as [D [E F]].
    split; [eapply grows_trans; eauto|]. split; auto. cbn. rewrite F. f_equal. symmetry. auto.
Qed.

Definition idf (m : list (nat * particle_id)) (i : nat) : particle_id :=
  match find_nat m i with Some d => d | None => stored_id (part e i) end.

Lemma required_ok strict p name x : required_attr strict p name = Some x -> x = double_attr p name.
Proof. unfold required_attr, double_attr. destruct (attribute (p_attributes p) name); [congruence|]. destruct strict; congruence. Qed.

Lemma all_some_ok {A B} (f : A -> option B) (g : A -> B) l : forall ys, (forall a b, f a = Some b -> b = g a) ->
  all_some (map f l) = Some ys -> ys = map g l.
Proof.
  induction l as [|a l IH]; intros ys H E; cbn in E; [injection E as <-; auto|].
  destruct (f a) as [b|] eqn:F; [|discriminate]. destruct (all_some (map f l)) as [zs|] eqn:G; [|discriminate].
  injection E as <-. cbn. f_equal; auto.
Qed.

Lemma grows_idf m m' l ds : grows m m' -> map Some ds = map (find_nat m) l -> ds = map (idf m') l.
Proof.
  intros G. revert ds. induction l as [|i l IH]; intros [|d ds] H; try discriminate; auto. cbn in H. injection H as H1 H2. cbn.
  f_equal; auto. symmetry in H1. apply G in H1. unfold idf. rewrite H1. auto.
Qed.

Lemma vertex_record_ok strict v ids w x ids' w' : vertex_record cm c second gen e strict v ids w = (Some x, ids', w') -> honest ids ->
  grows ids ids' /\ honest ids' /\ forall m, grows ids' m -> describes cm c second e v (idf m) x.
Proof.
  unfold vertex_record. intros H Hon. destruct (v_position v) as [[[a b] d] t] eqn:VP.
  destruct (find_primary e v) as [ip|] eqn:FP.
  2: {
    destruct (out_ids gen e (v_out v) ids w) as [[sids ids2] w2] eqn:E2. destruct (out_ids_ok _ _ _ _ _ _ E2 Hon) as [A [B C]].
    injection H as HX <- <-. split; auto. split; auto. intros m GM.
    destruct (all_some _) as [hs|] eqn:AS; [|destruct (find_target e v) as [it|]; [destruct (required_attr strict (part e it) "siren.helicity")|]; discriminate].
    rewrite map_map in AS. apply (all_some_ok _ (fun i => double_attr (part e i) "siren.helicity")) in AS; [|intros; eapply required_ok; eauto].
    assert (SI : sids = map (idf m) (v_out v)) by (eapply grows_idf; eauto).
    destruct (find_target e v) as [it|] eqn:FT.
    - destruct (required_attr strict (part e it) "siren.helicity") as [h|] eqn:RH; [|discriminate]. apply required_ok in RH. injection HX as <-.
      split; cbn [r_signature r_primary_id r_secondary_ids primary_type target_type secondary_types r_target_mass r_target_helicity
        r_target_id r_secondary_momenta r_secondary_masses r_secondary_helicities r_secondary_times r_interaction_parameters r_interaction_vertex r_interaction_time];
        rewrite ?FP, ?FT, ?VP, ?map_map; auto; try congruence.
      intros i E. injection E as <-. auto.
    - injection HX as <-.
      split; cbn [r_signature r_primary_id r_secondary_ids primary_type target_type secondary_types r_target_mass r_target_helicity
        r_target_id r_secondary_momenta r_secondary_masses r_secondary_helicities r_secondary_times r_interaction_parameters r_interaction_vertex r_interaction_time];
        rewrite ?FP, ?FT, ?VP, ?map_map; auto; congruence. }
  destruct (get_id gen e ip ids w) as [[pid ids1] w1] eqn:E1. destruct (get_id_ok _ _ _ _ _ _ E1 Hon) as [A1 [B1 C1]].
  destruct (out_ids gen e (v_out v) ids1 w1) as [[sids ids2] w2] eqn:E2. destruct (out_ids_ok _ _ _ _ _ _ E2 B1) as [A [B C]].
  injection H as HX <- <-. split; [eapply grows_trans; eauto|]. split; auto. intros m GM.
  destruct (required_attr strict (part e ip) "siren.helicity") as [h1|] eqn:R1; [|discriminate].
  destruct (required_attr strict (part e ip) "siren.primary_initial_position.x") as [x1|] eqn:R2; [|discriminate].
  destruct (required_attr strict (part e ip) "siren.primary_initial_position.y") as [y1|] eqn:R3; [|discriminate].
  destruct (required_attr strict (part e ip) "siren.primary_initial_position.z") as [z1|] eqn:R4; [|discriminate].
  destruct (required_attr strict (part e ip) "siren.primary_initial_time") as [t1|] eqn:R5; [|discriminate].
  apply required_ok in R1, R2, R3, R4, R5.
  destruct (all_some _) as [hs|] eqn:AS; [|destruct (find_target e v) as [it|]; [destruct (required_attr strict (part e it) "siren.helicity")|]; discriminate].
  rewrite map_map in AS. apply (all_some_ok _ (fun i => double_attr (part e i) "siren.helicity")) in AS; [|intros; eapply required_ok; eauto].
  assert (SI : sids = map (idf m) (v_out v)) by (eapply grows_idf; eauto).
  assert (PI : pid = idf m ip). { apply A in C1. apply GM in C1. unfold idf. rewrite C1. auto. }
  destruct (find_target e v) as [it|] eqn:FT.
  - destruct (required_attr strict (part e it) "siren.helicity") as [h|] eqn:RH; [|discriminate]. apply required_ok in RH. injection HX as <-.
    split; cbn [r_signature r_primary_id r_secondary_ids primary_type target_type secondary_types r_target_mass r_target_helicity r_primary_momentum
        r_primary_mass r_primary_helicity r_primary_initial_position r_primary_initial_time
        r_target_id r_secondary_momenta r_secondary_masses r_secondary_helicities r_secondary_times r_interaction_parameters r_interaction_vertex r_interaction_time];
        rewrite ?FP, ?FT, ?VP, ?map_map; auto; try congruence.
    + intros i E. injection E as <-. rewrite <- R1, <- R2, <- R3, <- R4, <- R5. repeat split; auto.
    + intros i E. injection E as <-. auto.
  - injection HX as <-.
    split; cbn [r_signature r_primary_id r_secondary_ids primary_type target_type secondary_types r_target_mass r_target_helicity r_primary_momentum
        r_primary_mass r_primary_helicity r_primary_initial_position r_primary_initial_time
        r_target_id r_secondary_momenta r_secondary_masses r_secondary_helicities r_secondary_times r_interaction_parameters r_interaction_vertex r_interaction_time];
        rewrite ?FP, ?FT, ?VP, ?map_map; auto; try congruence.
    intros i E. injection E as <-. rewrite <- R1, <- R2, <- R3, <- R4, <- R5. repeat split; auto.
Qed.

Lemma required_some strict p name : strict = false \/ has p name -> exists x, required_attr strict p name = Some x.
Proof.
  unfold required_attr. intros [->|[x H]]; [destruct (attribute (p_attributes p) name); eauto|rewrite H; eauto].
Qed.

Lemma all_some_some {A B} (f : A -> option B) l : (forall a, In a l -> exists b, f a = Some b) -> exists ys, all_some (map f l) = Some ys.
Proof.
  induction l as [|a l IH]; intros H; cbn; eauto. destruct (H a (or_introl eq_refl)) as [b ->].
  destruct IH as [ys ->]; eauto. intros; apply H; right; auto.
Qed.

Lemma vertex_record_some strict v ids w : strict = false \/ complete e v ->
  exists x ids' w', vertex_record cm c second gen e strict v ids w = (Some x, ids', w').
Proof.
  intros H. unfold vertex_record. destruct (v_position v) as [[[a b] d] t].
  assert (HS : exists hs, all_some (map (fun p => required_attr strict p "siren.helicity") (map (part e) (v_out v))) = Some hs).
  { apply all_some_some. intros p I. apply in_map_iff in I. destruct I as [i [<- I]]. apply required_some.
    destruct H as [H|[_ [_ H]]]; auto. }
  destruct HS as [hs HS]. rewrite HS.
  assert (HT : forall i, find_target e v = Some i -> exists h, required_attr strict (part e i) "siren.helicity" = Some h).
  { intros i F. apply required_some. destruct H as [H|[_ [H _]]]; auto. }
  destruct (find_primary e v) as [ip|] eqn:FP.
  - destruct (get_id gen e ip ids w) as [[pid ids1] w1]. destruct (out_ids gen e (v_out v) ids1 w1) as [[sids ids2] w2].
    assert (HP : forall n, In n primary_attributes -> exists h, required_attr strict (part e ip) n = Some h).
    { intros n I. apply required_some. destruct H as [H|[H _]]; auto. specialize (H ip FP). rewrite Forall_forall in H. auto. }
    destruct (HP "siren.helicity"%string) as [h1 ->]; [cbn; tauto|].
    destruct (HP "siren.primary_initial_position.x"%string) as [h2 ->]; [cbn; tauto|].
    destruct (HP "siren.primary_initial_position.y"%string) as [h3 ->]; [cbn; tauto|].
    destruct (HP "siren.primary_initial_position.z"%string) as [h4 ->]; [cbn; tauto|].
    destruct (HP "siren.primary_initial_time"%string) as [h5 ->]; [cbn; tauto|].
    destruct (find_target e v) as [it|]; [destruct (HT it eq_refl) as [h6 ->]|]; eauto.
  - destruct (out_ids gen e (v_out v) ids w) as [[sids ids2] w2].
    destruct (find_target e v) as [it|]; [destruct (HT it eq_refl) as [h6 ->]|]; eauto.
Qed.

Lemma read_ok strict vs : forall recs pars ids w, honest ids -> (strict = false \/ Forall (complete e) vs) ->
  exists xs m w', read_vertices cm c second gen e strict vs recs pars ids w =
      (Some (rev (combine (map v_id vs) xs) ++ recs, rev (map (fun v => (v_id v, parent_vertex e v)) vs) ++ pars), w') /\
    grows ids m /\ honest m /\ length xs = length vs /\ Forall2 (fun v x => describes cm c second e v (idf m) x) vs xs.
Proof.
  induction vs as [|v vs IH]; intros recs pars ids w Hon H; cbn [read_vertices].
  - exists [], ids, w. split; auto. split; [intros i d; auto|]. auto.
  - destruct (vertex_record_some strict v ids w) as [x [ids1 [w1 E]]].
    { destruct H as [H|H]; auto. right. inversion H; auto. }
    rewrite E. destruct (vertex_record_ok _ _ _ _ _ _ _ E Hon) as [A [B C]].
    destruct (IH ((v_id v, x) :: recs) ((v_id v, parent_vertex e v) :: pars) ids1 w1 B) as [xs [m [w' [E2 [G [Hm [L F]]]]]]].
    { destruct H as [H|H]; auto. right. inversion H; auto. }
    exists (x :: xs), m, w'. rewrite E2. cbn [map combine rev]. rewrite <- !app_assoc. cbn [app].
    split; auto. split; [eapply grows_trans; eauto|]. split; auto. split; [cbn; auto|]. constructor; auto.
Qed.
End Read.

(** ** The whole import *)
Section Import.
Variable cm c second : R.
Context {W : Type}.
Variable gen : W -> particle_id * W.
Variable e : event.
Hypothesis GR : graph e.

Lemma vertex_unique u v : In u (ev_vertices e) -> In v (ev_vertices e) -> v_id u = v_id v -> u = v.
Proof.
  intros I J E. pose proof (gr_ids _ GR) as N. revert I J N. generalize (ev_vertices e). intros l. induction l as [|x l IH]; intros I J N; [destruct I|].
  cbn in N. inversion N as [|? ? NI N']; subst. destruct I as [->|I], J as [->|J]; auto.
  - exfalso. apply NI. rewrite E. apply in_map. auto.
  - exfalso. apply NI. rewrite <- E. apply in_map. auto.
Qed.

Definition vids : list Z := map v_id (ev_vertices e).
Definition pars : list (Z * Z) := rev (map (fun v => (v_id v, parent_vertex e v)) (ev_vertices e)) ++ [].

Lemma pars_ok v : In v (ev_vertices e) -> parent_of_vid pars (v_id v) = parent_vertex e v.
Proof.
  intros I. unfold parent_of_vid, pars. rewrite app_nil_r. rewrite (find_vid_in _ (v_id v) (parent_vertex e v)); auto.
  - rewrite map_rev, map_map. cbn. apply NoDup_rev. apply (gr_ids _ GR).
  - rewrite <- in_rev. apply in_map_iff. exists v. auto.
Qed.

Lemma produced_iff u v : produced e u v <-> In u (ev_vertices e) /\ In v (ev_vertices e) /\ parent_vertex e v = v_id u.
Proof.
  unfold produced, parent_vertex. split.
  - intros [A [B [i [C D]]]]. rewrite C. auto.
  - intros [A [B C]]. split; auto. split; auto. destruct (find_primary e v) as [i|]; eauto.
    exfalso. apply (gr_nonzero _ GR u A). auto.
Qed.

Lemma rootv_iff v : In v (ev_vertices e) -> (rootv pars vids (v_id v) <-> forall u, ~ produced e u v).
Proof.
  intros I. unfold rootv. rewrite (pars_ok v I). split.
  - intros H u P. apply produced_iff in P. destruct P as [A [_ B]]. destruct H as [H|H].
    + apply (gr_nonzero _ GR u A). congruence.
    + apply H. rewrite B. unfold vids. apply in_map. auto.
  - intros H. destruct (Z.eq_dec (parent_vertex e v) 0); auto. right. intros J. unfold vids in J. apply in_map_iff in J.
    destruct J as [u [E J]]. apply (H u). apply produced_iff. auto.
Qed.

Lemma grounded_iff v : In v (ev_vertices e) -> (grounded pars vids (v_id v) <-> rooted e v).
Proof.
  intros I. split.
  - intros G. remember (v_id v) as z eqn:Ez. revert v I Ez. induction G as [z Iz R|z Iz NR G IH]; intros v I ->.
    + apply rooted_first; auto. apply rootv_iff; auto.
    + unfold rootv in NR. rewrite (pars_ok v I) in *. assert (J : In (parent_vertex e v) vids).
      { destruct (in_dec Z.eq_dec (parent_vertex e v) vids); auto. exfalso. apply NR. auto. }
      unfold vids in J. apply in_map_iff in J. destruct J as [u [E J]]. apply rooted_next with u; [apply produced_iff; auto|].
      apply IH; auto.
  - intros H. induction H as [v Iv N|u v P H IH].
    + apply grounded_root; [unfold vids; apply in_map; auto|apply rootv_iff; auto].
    + pose proof P as P0. apply produced_iff in P0. destruct P0 as [A [B C]]. apply grounded_step; [unfold vids; apply in_map; auto| |].
      * rewrite rootv_iff by auto. intros Q. apply (Q u). auto.
      * rewrite (pars_ok v B), C. apply IH. auto.
Qed.

Lemma in_combine_forall2 {A B} (P : A -> B -> Prop) (g : A -> Z) (l : list A) m a : Forall2 P l m -> In a l ->
  exists b, In (g a, b) (combine (map g l) m) /\ P a b.
Proof.
  intros F. induction F as [|x y l m Hxy F IH]; intros I; [destruct I|]. destruct I as [->|I].
  - exists y. split; auto. left. auto.
  - destruct (IH I) as [b [J Q]]. exists b. split; auto. right. auto.
Qed.

Lemma import_read strict w : (strict = false \/ Forall (complete e) (ev_vertices e)) ->
  exists recs f w', import_event cm c second gen e strict w =
      (match rounds (S (length vids)) recs pars vids (mkplacing (mkstate [] []) [] 0 true) with
       | None => None | Some (Ok s) => finish recs vids s | Some Throw => Some Throw | Some UB => Some UB end, w') /\
    (forall v, In v (map fst recs) <-> In v vids) /\
    (forall i, id_set (stored_id (part e i)) = true -> f i = stored_id (part e i)) /\
    (forall v, In v (ev_vertices e) -> describes cm c second e v f (record_of recs (v_id v))).
Proof.
  intros H. destruct (read_ok cm c second gen e strict (ev_vertices e) [] [] [] w) as [xs [m [w' [E [_ [Hm [L F]]]]]]]; auto.
  { intros i d; discriminate. }
  unfold import_event. rewrite E. clear E. set (recs := rev (combine (map v_id (ev_vertices e)) xs) ++ []). fold pars. fold vids.
  assert (KF : map fst recs = rev vids).
  { unfold recs. rewrite app_nil_r, map_rev. f_equal. unfold vids. revert L. clear. generalize (ev_vertices e). intros l. revert xs.
    induction l as [|v l IH]; intros [|x xs] L; try discriminate; auto. cbn. f_equal. apply IH. auto. }
  assert (KEYS : forall v, In v (map fst recs) <-> In v vids) by (intros v; rewrite KF, <- in_rev; tauto).
  assert (RO : forall v, In v (ev_vertices e) -> describes cm c second e v (idf e m) (record_of recs (v_id v))).
  { intros v I. destruct (in_combine_forall2 _ v_id _ _ v F I) as [x [J D]]. unfold record_of. rewrite (find_vid_in _ _ x); auto.
    - rewrite KF. apply NoDup_rev. apply (gr_ids _ GR).
    - unfold recs. rewrite app_nil_r, <- in_rev. auto. }
  exists recs, (idf e m), w'. split; auto. split; auto. split; auto.
  intros i S0. unfold idf. destruct (find_nat m i) as [d|] eqn:Fm; auto.
Qed.

(** What the import produced, given the order of insertion. *)
Notation imported := (HepgraphSpec.imported cm c second e).

Lemma import_from recs f vo es : Placed recs pars vids true (map v_id vo) es -> Permutation (ev_vertices e) vo ->
  (Z.of_nat (length (ev_vertices e)) <= kNoParent)%Z ->
  (forall v, In v (ev_vertices e) -> describes cm c second e v f (record_of recs (v_id v))) ->
  shows (layout es) (rows es es 0) /\ well_formed (rows es es 0) /\ imported f (rows es es 0) vo.
Proof.
  intros P PV SZ RO. split; [apply layout_shows|].
  pose proof (pl_len _ _ _ _ _ _ P) as LE. rewrite map_length in LE.
  split. { apply layout_well_formed; [apply (pl_down _ _ _ _ _ _ P)|]. rewrite LE, <- (Permutation_length PV). auto. }
  split; [rewrite rows_length; auto|].
  intros k v Hk. assert (IV : In v (ev_vertices e)) by (apply (Permutation_in _ (Permutation_sym PV)); eapply nth_error_In; eauto).
  destruct (pl_entry _ _ _ _ _ _ P k (v_id v)) as [pp [E Q]]. { rewrite nth_error_map, Hk. auto. }
  exists (record_of recs (v_id v), Z.of_nat k, parent_no pp, children es k). split; [rewrite rows_nth, E; auto|]. split; [apply RO; auto|].
  cbn [row_parent]. split.
  - intros u PR RV. destruct pp as [j|].
    + destruct Q as [Q1 [Q2 [Q3 QG]]]. exists j. split; auto. split; auto. rewrite nth_error_map in Q3.
      destruct (nth_error vo j) as [u'|] eqn:Eu; [|discriminate]. cbn in Q3. injection Q3 as Q3. rewrite (pars_ok v IV) in Q3.
      f_equal. apply produced_iff in PR. destruct PR as [A [_ B]]. apply vertex_unique; [|auto|congruence].
      apply (Permutation_in _ (Permutation_sym PV)). eapply nth_error_In; eauto.
    + exfalso. destruct Q as [Q|[_ Q]].
      * apply (proj1 (rootv_iff v IV) Q u). auto.
      * apply Q. apply grounded_iff; auto.
  - intros Q2. destruct pp as [j|]; auto. exfalso. destruct Q as [Q1 [QL [Q3 QG]]]. destruct Q2 as [Q2|Q2].
    + apply Q1. apply (proj2 (rootv_iff v IV)). auto.
    + apply Q2. apply (proj1 (grounded_iff v IV)). auto.
Qed.

Theorem import_ok strict w : (strict = false \/ Forall (complete e) (ev_vertices e)) ->
  (Z.of_nat (length (ev_vertices e)) <= kNoParent)%Z ->
  exists s t ord f w', import_event cm c second gen e strict w = (Some (Ok s), w') /\ shows s t /\ well_formed t /\
    Permutation ord (ev_vertices e) /\
    (forall i, id_set (stored_id (part e i)) = true -> f i = stored_id (part e i)) /\ imported f t ord.
Proof.
  intros H SZ. destruct (import_read strict w H) as [recs [f [w' [E [KEYS [FS RO]]]]]]. rewrite E. clear E.
  assert (NDV : NoDup vids) by apply (gr_ids _ GR).
  assert (SZ' : (Z.of_nat (length vids) <= kNoParent)%Z) by (unfold vids; rewrite map_length; auto).
  destruct (place_all recs pars vids NDV KEYS SZ') as [ord [es [E [P [PE DEC]]]]]. rewrite E. clear E.
  unfold vids in PE. apply Permutation_map_inv in PE. destruct PE as [vo [-> PV]].
  destruct (import_from recs f vo es P PV SZ RO) as [A [B C]].
  exists (layout es), (rows es es 0), vo, f, w'. split; auto. split; auto. split; auto.
  split; [apply Permutation_sym; auto|]. split; auto.
Qed.

(** A vertex after those that produced its primary: imported in the given order. *)
Theorem import_in_order strict w : (strict = false \/ Forall (complete e) (ev_vertices e)) ->
  (Z.of_nat (length (ev_vertices e)) <= kNoParent)%Z ->
  (forall i v u, nth_error (ev_vertices e) i = Some v -> produced e u v -> exists j, j < i /\ nth_error (ev_vertices e) j = Some u) ->
  exists s t f w', import_event cm c second gen e strict w = (Some (Ok s), w') /\ shows s t /\ well_formed t /\
    (forall i, id_set (stored_id (part e i)) = true -> f i = stored_id (part e i)) /\ imported f t (ev_vertices e).
Proof.
  intros H SZ PF. destruct (import_read strict w H) as [recs [f [w' [E [KEYS [FS RO]]]]]]. rewrite E. clear E.
  assert (NDV : NoDup vids) by apply (gr_ids _ GR).
  assert (SZ' : (Z.of_nat (length vids) <= kNoParent)%Z) by (unfold vids; rewrite map_length; auto).
  destruct (place_in_order recs pars vids NDV KEYS SZ') as [es [E P]].
  { intros a z b Eq. destruct (nth_error (ev_vertices e) (length a)) as [v|] eqn:Ev.
    2: { exfalso. apply nth_error_None in Ev. assert (length vids = length (ev_vertices e)) by (unfold vids; apply map_length).
         rewrite Eq, app_length in H0. cbn in H0. lia. }
    assert (v_id v = z).
    { assert (N : nth_error vids (length a) = Some (v_id v)) by (unfold vids; rewrite nth_error_map, Ev; auto).
      rewrite Eq, nth_error_app2, Nat.sub_diag in N by lia. cbn in N. congruence. }
    subst z. assert (IV : In v (ev_vertices e)) by (eapply nth_error_In; eauto).
    destruct (in_dec Z.eq_dec (parent_vertex e v) vids) as [J|J].
    - unfold vids in J. apply in_map_iff in J. destruct J as [u [Eu Ju]]. destruct (PF _ v u Ev) as [j [L N]]; [apply produced_iff; auto|].
      right. rewrite (pars_ok v IV), <- Eu. assert (N2 : nth_error vids j = Some (v_id u)) by (unfold vids; rewrite nth_error_map, N; auto).
      rewrite Eq, nth_error_app1 in N2 by auto. eapply nth_error_In; eauto.
    - left. unfold rootv. rewrite (pars_ok v IV). auto. }
  rewrite E. destruct (import_from recs f (ev_vertices e) es P (Permutation_refl _) SZ RO) as [A [B C]].
  exists (layout es), (rows es es 0), f, w'. auto 10.
Qed.
End Import.
