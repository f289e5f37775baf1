(** Properties C104 and C105. *)
From Coq Require Import Reals List ZArith Bool Sorted Permutation Lia Lra.
From Verif Require Import TraversalModel TransModel TransSpec TransProofs TransProps IdxModel IdxSpec IdxProofs.
Import ListNotations.
Open Scope R_scope.

(** ** C104 *)

Lemma few_none data : (forall a b, In a data -> In b data -> a = b) \/ exists s, Permutation data s /\ ascending s /\ (2 <= length s)%nat /\ hd 0 s < last s 0.
Proof.
  pose proof (sort_perm data) as P. pose proof (sort_sorted data) as A. set (s := sort data) in *.
  destruct (le_lt_dec 2 (length s)) as [N|N].
  - destruct (Rlt_dec (hd 0 s) (last s 0)) as [L|L]; [right; exists s; auto|left]. intros a b I J.
    assert (H : forall c, In c s -> c = hd 0 s).
    { intros c C. apply In_nth with (d := 0) in C. destruct C as [i [I' <-]]. rewrite hd_nth in *. rewrite last_nth in L. pose proof (ascending_nth s 0 i A ltac:(lia) I'). pose proof (ascending_nth s i (length s - 1) A ltac:(lia) ltac:(lia)). lra. }
    rewrite (H a (Permutation_in a P I)), (H b (Permutation_in b P J)). reflexivity.
  - left. intros a b I J. apply (Permutation_in a P) in I. apply (Permutation_in b P) in J. destruct s as [|c [|e u]]; cbn in N; try lia; [destruct I|]. destruct I as [<-|[]]. destruct J as [<-|[]]. reflexivity.
Qed.

(** The constructors throw exactly if the data do not have two different values, and never take data as reversed. *)
Theorem C104_constructed : forall data,
  (make_regular data = None <-> forall a b, In a data -> In b data -> a = b) /\
  (make_irregular data = None <-> forall a b, In a data -> In b data -> a = b) /\
  (forall g, make_regular data = Some g -> g_reversed g = false) /\
  (forall h, make_irregular data = Some h -> h_reversed h = false).
Proof.
  intros data. destruct (few_none data) as [F|[s [P [A [N L]]]]].
  - assert (H : (length data <? 2)%nat = true \/ Rabs (last (sort data) 0 - hd 0 (sort data)) <= 0).
    { destruct (Nat.ltb_spec (length data) 2) as [|N]; [auto|right]. pose proof (sort_perm data) as P. set (s := sort data) in *. rewrite (Permutation_length P) in N.
      assert (E : last s 0 = hd 0 s). { apply F; apply (Permutation_in _ (Permutation_sym P)); rewrite ?hd_nth, ?last_nth; apply nth_In; lia. } rewrite E, Rminus_eq_0, Rabs_R0. lra. }
    assert (R : make_regular data = None) by (unfold make_regular; destruct H as [->|H]; [reflexivity|]; destruct (length data <? 2)%nat; [reflexivity|]; destruct (Rle_dec _ 0); [reflexivity|lra]).
    assert (I : make_irregular data = None) by (unfold make_irregular; destruct H as [->|H]; [reflexivity|]; destruct (length data <? 2)%nat; [reflexivity|]; destruct (Rle_dec _ 0); [reflexivity|lra]).
    rewrite R, I. split; [tauto|]. split; [tauto|]. split; discriminate.
  - rewrite (make_regular_some data s P A N L), (make_irregular_some data s P A N L).
    assert (W : ~ forall a b, In a data -> In b data -> a = b).
    { intros F. assert (E : hd 0 s = last s 0); [|lra]. apply F; apply (Permutation_in _ (Permutation_sym P)); rewrite ?hd_nth, ?last_nth; apply nth_In; lia. }
    split; [split; [discriminate|contradiction]|]. split; [split; [discriminate|contradiction]|]. split; intros ? E; injection E as <-; reflexivity.
Qed.
Print Assumptions C104_constructed.

(** A regular indexer of data that, sorted, have equal steps finds the two neighbours of every number within them, lower end included; numbers outside are put in the end bins if it returns at all. *)
Theorem C104_located : forall data s, Permutation data s -> equal_steps s -> (2 <= length s)%nat -> (Z.of_nat (length s) < 2 ^ 31)%Z ->
  exists g, make_regular data = Some g /\
  (forall x, hd 0 s <= x <= last s 0 -> exists i j, regular_at g x = Ok (i, j)) /\
  (forall x i j, regular_at g x = Ok (i, j) -> located s x i j /\ (hd 0 s <= x < last s 0 -> x < nth j s 0)).
Proof.
  intros data s P E N B. eexists. split; [apply (make_regular_some data s P (steps_ascending s E) N (steps_less s E N))|]. split.
  - intros x X. destruct (regular_defined s x E N B X) as [i H]. eauto.
  - intros x i j. apply regular_located; auto.
Qed.
Print Assumptions C104_located.

(** Whatever the data, the places returned are within them. *)
Theorem C104_within : forall data g x i j, make_regular data = Some g -> regular_at g x = Ok (i, j) -> j = S i /\ (j < length data)%nat.
Proof.
  intros data g x i j M R. unfold make_regular in M. destruct (Nat.ltb_spec (length data) 2); [discriminate|]. destruct (Rle_dec _ 0); [discriminate|]. injection M as <-.
  unfold regular_at in R. cbn [g_low g_high g_range g_reversed g_n] in R. destruct (fits_int _); [|discriminate]. injection R as <- <-. split; [reflexivity|].
  set (k := if reversed_flag data then _ else _). clearbody k. destruct (Z.ltb_spec k 0); [cbn; lia|]. destruct (Z.leb_spec (Z.of_nat (length data) - 1) k); lia.
Qed.
Print Assumptions C104_within.

(** Far outside the data the conversion to an integer overflows. *)
Theorem C104_overflow_refuted : exists data g x, make_regular data = Some g /\ regular_at g x = UB.
Proof.
  exists [0; 1]. eexists. exists (2 ^ 31). split.
  - apply (make_regular_some _ [0; 1]); [reflexivity| |cbn; lia|cbn; lra]. repeat constructor; lra.
  - unfold regular_at. cbn [g_low g_high g_range g_reversed g_n hd last length Nat.sub INR]. replace (Int_part ((2 ^ 31 - 0) / (1 - 0) * 1)) with (2 ^ 31)%Z; [reflexivity|].
    symmetry. apply floor_at. replace (IZR (2 ^ 31)) with (2 ^ 31); [lra|]. rewrite (pow_IZR 2 31). reflexivity.
Qed.
Print Assumptions C104_overflow_refuted.

(** Descending data are taken as unsorted: the places returned are those in the ascending list, between whose values in the data the number does not lie. *)
Theorem C104_reversed_refuted : exists data g h x i j, make_regular data = Some g /\ make_irregular data = Some h /\ regular_at g x = Ok (i, j) /\ irregular_at h x = (i, j) /\
  StronglySorted Rgt data /\ last data 0 < x < hd 0 data /\ ~ brackets data x i j.
Proof.
  assert (P : Permutation [2; 1; 0] [0; 1; 2]) by apply (Permutation_rev [2; 1; 0]).
  assert (A : ascending [0; 1; 2]) by (repeat constructor; lra).
  exists [2; 1; 0]. eexists. eexists. exists (1/2), 0%nat, 1%nat. split; [apply (make_regular_some _ _ P A); cbn; lia || lra|]. split; [apply (make_irregular_some _ _ P A); cbn; lia || lra|].
  split; [|split; [|split; [|split]]].
  - unfold regular_at. cbn [g_low g_high g_range g_reversed g_n hd last length Nat.sub]. replace (Int_part _) with 0%Z; [reflexivity|]. symmetry. apply floor_at. cbn. lra.
  - unfold irregular_at. cbn [h_data h_low h_high h_reversed hd last length]. destruct (Rle_dec (1/2) 0); [lra|]. destruct (Rle_dec 2 (1/2)); [lra|]. cbn. destruct (Rlt_dec 0 (1/2)); [|lra]. destruct (Rlt_dec 1 (1/2)); [lra|]. reflexivity.
  - repeat constructor; lra.
  - cbn. lra.
  - unfold brackets. cbn. lra.
Qed.
Print Assumptions C104_reversed_refuted.

(** Three equal steps. *)
Example C104_case : equal_steps [1; 2; 3] /\ Permutation [3; 1; 2] [1; 2; 3] /\ exists g, make_regular [3; 1; 2] = Some g /\ regular_at g (5/2) = Ok (1, 2)%nat.
Proof.
  assert (P : Permutation [3; 1; 2] [1; 2; 3]) by (etransitivity; [apply perm_swap|constructor; apply perm_swap]).
  split; [|split; [exact P|]].
  - exists 1. split; [lra|]. intros [|[|[|i]]] H; cbn in *; try lia; lra.
  - eexists. split; [apply (make_regular_some _ _ P); [repeat constructor; lra|cbn; lia|cbn; lra]|].
    unfold regular_at. cbn [g_low g_high g_range g_reversed g_n hd last length Nat.sub]. replace (Int_part _) with 1%Z; [reflexivity|]. symmetry. apply floor_at. cbn. lra.
Qed.

(** ** C105 *)

(** An irregular indexer finds, for every number, its neighbours in the sorted data. *)
Theorem C105_located : forall data s, Permutation data s -> ascending s -> (exists a b, In a s /\ In b s /\ a <> b) ->
  exists h, make_irregular data = Some h /\ forall x, located s x (fst (irregular_at h x)) (snd (irregular_at h x)).
Proof.
  intros data s P A [a [b [I [J N]]]].
  destruct (few_none s) as [F|[s' [P' [A' [N' L]]]]]; [exfalso; apply N, F; auto|]. assert (s' = s) by (apply ascending_unique; auto; symmetry; auto). subst s'.
  eexists. split; [apply (make_irregular_some data s P A N' L)|]. intros x. apply irregular_located; auto.
Qed.
Print Assumptions C105_located.

(** Below a rising transform an irregular indexer of the transformed ascending data finds the neighbours in the original ones. *)
Theorem C105_transformed : forall t s, built t -> rising (apply t) -> ascending s -> (exists a b, In a s /\ In b s /\ a <> b) ->
  (forall a, In a s -> apply t a <> None) ->
  exists i, new_irregular (all_applied t s) = Ok i /\
  forall x, apply t x <> None -> exists p q, index_at (Transformed i t) x = Ok (p, q) /\ located s x p q.
Proof.
  intros t s BT RT A [a [b [I [J N]]]] D. set (f := fun x => match apply t x with Some u => u | None => 0 end).
  assert (LT : forall x y, apply t x <> None -> apply t y <> None -> x < y -> f x < f y).
  { intros x y X Y L. unfold f. destruct (apply t x) eqn:EX; [|contradiction]. destruct (apply t y) eqn:EY; [|contradiction]. eapply RT; eauto. }
  assert (LE : forall x y, apply t x <> None -> apply t y <> None -> x <= y -> f x <= f y).
  { intros x y X Y [L|<-]; [left; auto|right; reflexivity]. }
  assert (EL : forall x y, apply t x <> None -> apply t y <> None -> f x <= f y -> x <= y).
  { intros x y X Y L. destruct (Rle_dec x y); auto. specialize (LT y x Y X ltac:(lra)). lra. }
  assert (TL : forall x y, apply t x <> None -> apply t y <> None -> f x < f y -> x < y).
  { intros x y X Y L. destruct (Rlt_dec x y); auto. specialize (LE y x Y X ltac:(lra)). lra. }
  assert (AF : ascending (all_applied t s)).
  { unfold all_applied. fold f. clear -A D LE. induction s as [|c u IH]; [constructor|]. unfold ascending in *. apply StronglySorted_inv in A as [A F]. cbn. constructor; [apply IH; auto; intros; apply D; cbn; auto|].
    rewrite Forall_forall in *. intros e E. apply in_map_iff in E. destruct E as [g [<- G]]. apply LE; auto; apply D; cbn; auto. }
  destruct (C105_located (all_applied t s) (all_applied t s) (Permutation_refl _) AF) as [h [H1 H2]].
  { exists (f a), (f b). unfold all_applied. fold f. split; [apply in_map, I|]. split; [apply in_map, J|]. destruct (Rtotal_order a b) as [L|[L|L]]; [| contradiction|]; [specialize (LT a b (D a I) (D b J) L)|specialize (LT b a (D b J) (D a I) L)]; lra. }
  exists (Irregular h). split; [unfold new_irregular; rewrite H1; reflexivity|]. intros x X.
  exists (fst (irregular_at h (f x))), (snd (irregular_at h (f x))). split.
  - cbn. unfold f. destruct (apply t x); [|contradiction]. cbn. destruct (irregular_at h r); reflexivity.
  - specialize (H2 (f x)). set (p := fst (irregular_at h (f x))) in *. set (q := snd (irregular_at h (f x))) in *. clearbody p q.
    destruct H2 as [E [L [M [O W]]]]. unfold all_applied in *. fold f in L, M, O, W. rewrite map_length in L, W.
    assert (NE : s <> []) by (destruct s; [destruct I|discriminate]). assert (LEN : (1 <= length s)%nat) by (destruct s; [contradiction|cbn; lia]).
    assert (NTH : forall i, (i < length s)%nat -> nth i (map f s) 0 = f (nth i s 0)).
    { intros i Hi. rewrite (nth_indep (map f s) 0 (f 0)) by (rewrite map_length; lia). apply map_nth. }
    assert (DN : forall i, (i < length s)%nat -> apply t (nth i s 0) <> None) by (intros i Hi; apply D, nth_In, Hi).
    rewrite !hd_nth, !last_nth, !map_length in *. rewrite (NTH 0%nat) in M, O by lia. rewrite (NTH (length s - 1)%nat) in M, W by lia. rewrite (NTH p), (NTH q) in M by lia.
    split; [exact E|]. split; [exact L|]. split; [|split].
    + intros [X1 X2]. rewrite hd_nth in X1. rewrite last_nth in X2. destruct M as [M1 M2]; [split; apply LE; auto; apply DN; lia|]. split; apply EL; auto; apply DN; lia.
    + intros X1. rewrite hd_nth in X1. apply O, LT; auto; apply DN; lia.
    + intros X1. rewrite last_nth in X1. apply W, LT; auto; apply DN; lia.
Qed.
Print Assumptions C105_transformed.

(** Powers of ten, unsorted. *)
Example C105_case : exists h, make_irregular [100; 1; 10] = Some h /\ irregular_at h 50 = (1, 2)%nat /\ located [1; 10; 100] 50 1 2.
Proof.
  assert (P : Permutation [100; 1; 10] [1; 10; 100]) by (etransitivity; [apply perm_swap|constructor; apply perm_swap]).
  eexists. split; [apply (make_irregular_some _ _ P); [repeat constructor; lra|cbn; lia|cbn; lra]|]. split.
  - unfold irregular_at. cbn [h_data h_low h_high h_reversed hd last length]. destruct (Rle_dec 50 1); [lra|]. destruct (Rle_dec 100 50); [lra|]. cbn. destruct (Rlt_dec 1 50); [|lra]. destruct (Rlt_dec 10 50); [|lra]. destruct (Rlt_dec 100 50); [lra|]. reflexivity.
  - unfold located. cbn. repeat split; try lia; lra.
Qed.

(** The same in logarithmic coordinates. *)
Example C105_transformed_case : exists i p q, new_irregular (all_applied Log [1; 10; 100]) = Ok i /\ index_at (Transformed i Log) 50 = Ok (p, q) /\ located [1; 10; 100] 50 p q.
Proof.
  destruct (C105_transformed Log [1; 10; 100]) as [i [E H]].
  - constructor.
  - destruct (C101_order Log built_log) as [[R _]|[_ [low [high [E _]]]]]; [exact R|]. unfold range_of in E. destruct (Req_EM_T _ _); discriminate.
  - repeat constructor; lra.
  - exists 1, 10. cbn. repeat split; auto. lra.
  - intros a I. cbn in *. destruct (Rlt_dec 0 a); [discriminate|]. exfalso. repeat destruct I as [<-|I]; try lra.
  - exists i. destruct (H 50) as [p [q [X Y]]]; [cbn; destruct (Rlt_dec 0 50); [discriminate|lra]|]. exists p, q. auto.
Qed.
