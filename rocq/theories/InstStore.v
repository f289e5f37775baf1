(** The names of GDML definitions: what the tracker holds. *)
From Coq Require Import List Bool Arith Lia Ascii String.
From Verif Require Import GdmlModel GdmlProofs GdmlLoopModel InstModel InstSpec InstProofs.
Import ListNotations.
Open Scope char_scope.

Section Store.
Context {T : Type}.
Variable same_item : T -> T -> bool.
Variable en : bool.
Variable al : list ascii -> option (list ascii).

(** The state of the tracker after the definitions of a document; the aliases were [al] before. *)
Record holds (log : list (list ascii * T)) (st : tracker T) : Prop := {
  h_counts : forall b, counts st b = match instances st b with [] => None | l => Some (List.length l) end;
  h_all : forall o t, In (o, t) log -> exists u, In u (instances st (strip en o)) /\ same same_item u t;
  h_stored : forall b u, In u (instances st b) -> exists o, In (o, u) log /\ strip en o = b;
  h_alias : forall o t, latest log o t -> strip en o <> o ->
    exists i u, aliases st o = Some (flat (strip en o) i) /\ nth_error (instances st (strip en o)) i = Some u /\ same same_item u t;
  h_other : forall o, strip en o = o -> aliases st o = al o;
  h_last : forall b t, latest_of en log b t ->
    exists u, nth_error (instances st b) (List.length (instances st b) - 1) = Some u /\ same same_item u t;
  h_apart : forall b i u v, nth_error (instances st b) i = Some u -> nth_error (instances st b) (S i) = Some v -> same_item u v = false
}.

Lemma latest_app : forall (log : list (list ascii * T)) e o t, latest (log ++ [e]) o t ->
  (e = (o, t)) \/ (fst e <> o /\ latest log o t).
Proof.
  intros log e o t (l1 & l2 & E & F). destruct (exists_last (l := (o, t) :: l2)) as (l & x & X); [discriminate|].
  rewrite X, app_assoc in E. apply app_inj_tail in E as [E1 E2]. subst x.
  destruct l as [|y l].
  - cbn in X. injection X as X Y. left. now symmetry.
  - cbn in X. injection X as X Y. subst y. right. subst l2. rewrite Forall_app in F. destruct F as [F1 F2].
    split; [now inversion F2|]. exists l1, l. now split.
Qed.
Lemma latest_of_app : forall (log : list (list ascii * T)) e b t, latest_of en (log ++ [e]) b t ->
  (snd e = t /\ strip en (fst e) = b) \/ (strip en (fst e) <> b /\ latest_of en log b t).
Proof.
  intros log e b t (l1 & o & l2 & E & B & F). destruct (exists_last (l := (o, t) :: l2)) as (l & x & X); [discriminate|].
  rewrite X, app_assoc in E. apply app_inj_tail in E as [E1 E2]. subst x.
  destruct l as [|y l].
  - cbn in X. injection X as X Y. left. subst e. split; [reflexivity|now apply base_strip].
  - cbn in X. injection X as X Y. subst y. right. subst l2. rewrite Forall_app in F. destruct F as [F1 F2].
    split; [inversion F2; intros Q; apply H1; now apply base_strip|]. exists l1, o, l. now split.
Qed.

Lemma rev_last : forall (l : list T) x r, rev l = x :: r -> nth_error l (List.length l - 1) = Some x /\ In x l /\ l <> [].
Proof.
  intros l x r H. assert (E : l = rev r ++ [x]) by (rewrite <- (rev_involutive l), H; reflexivity).
  subst l. rewrite app_length. cbn. replace (List.length (rev r) + 1 - 1)%nat with (List.length (rev r)) by lia.
  split; [|split; [apply in_or_app; right; now left|now destruct (rev r)]].
  rewrite nth_error_app2; [|lia]. now rewrite Nat.sub_diag.
Qed.

Lemma put_same : forall A (m : list ascii -> option A) k v, put m k v k = Some v.
Proof. intros. unfold put. now rewrite seq_refl. Qed.
Lemma put_other : forall A (m : list ascii -> option A) k v x, x <> k -> put m k v x = m x.
Proof. intros. unfold put. now rewrite seq_neq. Qed.

Lemma store_holds : forall log st o t, holds log st -> holds (log ++ [(o, t)]) (store same_item en st o t).
Proof.
  intros log st o t H. set (b := strip en o).
  assert (AL : forall k st', aliases st' = (if negb (str_eqb b o) then put (aliases st) o (flat b k) else aliases st) ->
    (forall u, nth_error (instances st' b) k = Some u -> same same_item u t -> 
      (forall c, exists l, instances st' c = instances st c ++ l) ->
      (forall o' t', latest (log ++ [(o, t)]) o' t' -> strip en o' <> o' ->
       exists i u, aliases st' o' = Some (flat (strip en o') i) /\ nth_error (instances st' (strip en o')) i = Some u /\ same same_item u t'))
    /\ (forall o', strip en o' = o' -> aliases st' o' = al o')).
  { intros k st' E. split.
    - intros u U S P o' t' L N. apply latest_app in L as [L|[L1 L2]].
      + injection L as <- <-. fold b. exists k, u. rewrite E. fold b in N. rewrite (seq_neq _ _ N). cbn [negb].
        rewrite put_same. auto.
      + cbn in L1. destruct (h_alias _ _ H _ _ L2 N) as (i & v & A & B & C). exists i, v. rewrite E.
        split; [|split].
        * destruct (negb (str_eqb b o)); [rewrite put_other by (intro; subst; contradiction)|]; exact A.
        * destruct (P (strip en o')) as [l X]. rewrite X. rewrite nth_error_app1; [exact B|].
          apply nth_error_Some. now rewrite B.
        * exact C.
    - intros o' N. rewrite E. destruct (str_eqb b o) eqn:Q; cbn [negb]; [now apply (h_other _ _ H)|].
      rewrite put_other; [now apply (h_other _ _ H)|]. intros ->. fold b in N. rewrite N, seq_refl in Q. discriminate. }
  unfold store. fold b. destruct (rev (instances st b)) as [|back r] eqn:R.
  - (* first instance *)
    assert (E0 : instances st b = []) by (rewrite <- (rev_involutive (instances st b)), R; reflexivity).
    match goal with |- holds _ ?s => set (st' := s) end.
    assert (I1 : instances st' b = [t]) by (cbn; now rewrite seq_refl, E0).
    assert (I2 : forall c, c <> b -> instances st' c = instances st c) by (intros c N; cbn; now rewrite seq_neq).
    assert (P : forall c, exists l, instances st' c = instances st c ++ l).
    { intros c. destruct (list_eq_dec ascii_dec c b) as [->|N]; [exists [t]; now rewrite I1, E0|exists []; rewrite app_nil_r; now apply I2]. }
    destruct (AL (List.length (instances st b)) st' eq_refl) as [AL1 AL2].
    constructor.
    + intros c. destruct (list_eq_dec ascii_dec c b) as [->|N].
      * rewrite I1. cbn. rewrite put_same, E0. reflexivity.
      * rewrite I2 by exact N. cbn. rewrite put_other by exact N. apply (h_counts _ _ H).
    + intros o' t' I. apply in_app_or in I as [I|[I|[]]].
      * destruct (h_all _ _ H _ _ I) as (u & U & S). exists u. split; [|exact S].
        destruct (P (strip en o')) as [l X]. rewrite X. apply in_or_app. now left.
      * injection I as <- <-. exists t. fold b. rewrite I1. split; [now left|now left].
    + intros c u I. destruct (list_eq_dec ascii_dec c b) as [->|N].
      * rewrite I1 in I. destruct I as [<-|[]]. exists o. split; [apply in_or_app; right; now left|reflexivity].
      * rewrite I2 in I by exact N. destruct (h_stored _ _ H _ _ I) as (o' & A & B). exists o'.
        split; [apply in_or_app; now left|exact B].
    + apply (AL1 t); [rewrite I1, E0; reflexivity|now left|exact P].
    + exact AL2.
    + intros c t' L. apply latest_of_app in L as [[L1 L2]|[L1 L2]]; cbn in L1.
      * cbn in L2. fold b in L2. subst c t'. rewrite I1. exists t. split; [reflexivity|now left].
      * cbn in L1. fold b in L1. rewrite I2 by (intro; subst; contradiction). now apply (h_last _ _ H).
    + intros c i u v A B. destruct (list_eq_dec ascii_dec c b) as [->|N].
      * rewrite I1 in A, B. destruct i; cbn in B; [discriminate|destruct i; discriminate].
      * rewrite I2 in A, B by exact N. eapply (h_apart _ _ H); eassumption.
  - destruct (rev_last _ _ _ R) as (LA & LI & NE). destruct (same_item back t) eqn:SI.
    + (* the same again *)
      match goal with |- holds _ ?s => set (st' := s) end.
      assert (P : forall c, exists l, instances st' c = instances st c ++ l) by (intros c; exists []; now rewrite app_nil_r).
      destruct (AL (List.length (instances st b) - 1)%nat st' eq_refl) as [AL1 AL2].
      constructor.
      * intros c. apply (h_counts _ _ H).
      * intros o' t' I. apply in_app_or in I as [I|[I|[]]]; [exact (h_all _ _ H _ _ I)|].
        injection I as <- <-. exists back. split; [exact LI|now right].
      * intros c u I. destruct (h_stored _ _ H _ _ I) as (o' & A & B). exists o'. split; [apply in_or_app; now left|exact B].
      * apply (AL1 back); [exact LA|now right|exact P].
      * exact AL2.
      * intros c t' L. apply latest_of_app in L as [[L1 L2]|[L1 L2]]; cbn in L1.
        -- cbn in L2. fold b in L2. subst c t'. exists back. split; [exact LA|now right].
        -- now apply (h_last _ _ H).
      * intros c i u v A B. eapply (h_apart _ _ H); eassumption.
    + (* another instance *)
      match goal with |- holds _ ?s => set (st' := s) end.
      assert (I1 : instances st' b = instances st b ++ [t]) by (cbn; now rewrite seq_refl).
      assert (I2 : forall c, c <> b -> instances st' c = instances st c) by (intros c N; cbn; now rewrite seq_neq).
      assert (P : forall c, exists l, instances st' c = instances st c ++ l).
      { intros c. destruct (list_eq_dec ascii_dec c b) as [->|N]; [exists [t]; now rewrite I1|exists []; rewrite app_nil_r; now apply I2]. }
      destruct (AL (List.length (instances st b)) st' eq_refl) as [AL1 AL2].
      assert (LT : nth_error (instances st' b) (List.length (instances st b)) = Some t).
      { rewrite I1, nth_error_app2, Nat.sub_diag; [reflexivity|lia]. }
      constructor.
      * intros c. destruct (list_eq_dec ascii_dec c b) as [->|N].
        -- rewrite I1. cbn. rewrite put_same. destruct (instances st b) as [|x l] eqn:X; [contradiction|].
           cbn [app]. f_equal. cbn. rewrite app_length. cbn. lia.
        -- rewrite I2 by exact N. cbn. rewrite put_other by exact N. apply (h_counts _ _ H).
      * intros o' t' I. apply in_app_or in I as [I|[I|[]]].
        -- destruct (h_all _ _ H _ _ I) as (u & U & S'). exists u. split; [|exact S'].
           destruct (P (strip en o')) as [l X]. rewrite X. apply in_or_app. now left.
        -- injection I as <- <-. exists t. fold b. rewrite I1. split; [apply in_or_app; right; now left|now left].
      * intros c u I. destruct (list_eq_dec ascii_dec c b) as [->|N].
        -- rewrite I1 in I. apply in_app_or in I as [I|[<-|[]]].
           ++ destruct (h_stored _ _ H _ _ I) as (o' & A & B). exists o'. split; [apply in_or_app; now left|exact B].
           ++ exists o. split; [apply in_or_app; right; now left|reflexivity].
        -- rewrite I2 in I by exact N. destruct (h_stored _ _ H _ _ I) as (o' & A & B). exists o'.
           split; [apply in_or_app; now left|exact B].
      * apply (AL1 t); [exact LT|now left|exact P].
      * exact AL2.
      * intros c t' L. apply latest_of_app in L as [[L1 L2]|[L1 L2]]; cbn in L1.
        -- cbn in L2. fold b in L2. subst c t'. exists t. split; [|now left].
           replace (List.length (instances st' b) - 1)%nat with (List.length (instances st b)); [exact LT|].
           rewrite I1, app_length. cbn. lia.
        -- cbn in L1. fold b in L1. rewrite I2 by (intro; subst; contradiction). now apply (h_last _ _ H).
      * intros c i u v A B. destruct (list_eq_dec ascii_dec c b) as [->|N].
        -- rewrite I1 in A, B. assert (LB : (S i < List.length (instances st b ++ [t]))%nat) by (apply nth_error_Some; now rewrite B).
           rewrite app_length in LB. cbn in LB. rewrite nth_error_app1 in A by lia.
           destruct (Nat.eq_dec (S i) (List.length (instances st b))) as [Q|Q].
           ++ rewrite nth_error_app2 in B by lia. rewrite Q, Nat.sub_diag in B. injection B as <-.
              rewrite <- Q in LA. replace (S i - 1)%nat with i in LA by lia. rewrite A in LA. now injection LA as ->.
           ++ rewrite nth_error_app1 in B by lia. eapply (h_apart _ _ H); eassumption.
        -- rewrite I2 in A, B by exact N. eapply (h_apart _ _ H); eassumption.
Qed.

Lemma fresh_holds : holds [] (fresh al).
Proof.
  constructor; cbn; try reflexivity; try contradiction.
  - intros o t (l1 & l2 & E & _). destruct l1; discriminate.
  - intros b t (l1 & o & l2 & E & _). destruct l1; discriminate.
  - intros b [|i] u v E; discriminate.
Qed.

Lemma all_holds : forall log, holds log (store_all same_item en log (fresh al)).
Proof.
  induction log as [|[o t] log IH] using rev_ind; [apply fresh_holds|].
  unfold store_all. rewrite fold_left_app. cbn [fold_left fst snd]. now apply store_holds.
Qed.

Lemma defined_instances : forall log st b, holds log st -> (defined en log b <-> instances st b <> []).
Proof.
  intros log st b H. split.
  - intros (o & t & I & B). apply base_strip in B. subst b. destruct (h_all _ _ H _ _ I) as (u & U & _).
    intros E. rewrite E in U. contradiction.
  - intros N. destruct (instances st b) as [|u l] eqn:E; [contradiction|].
    destruct (h_stored _ _ H b u) as (o & I & B); [rewrite E; now left|]. exists o, u. split; [exact I|now apply base_strip].
Qed.

End Store.
