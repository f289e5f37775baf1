(** The <define> sections of GDML files: theorems. *)
From Coq Require Import Reals ZArith Bool List String Lra Lia Arith.
From Verif Require Import VectorModel DefModel DefSpec DefProofs.
Import ListNotations.
Open Scope R_scope.

(** C142: when sections and nested loops together are not more than 64, the stack ends with exactly what
    the document means: elements in the order of the document, loops repeated in place. *)
Theorem C142_meaning : forall (Q T : Type) (t : texts Q T) sections d d',
  Forall (fun s => (deepest s + List.length sections <= 64)%nat) sections ->
  ((exists n, turns t n (start d sections) = Done d') <-> document t sections d d').
Proof.
  intros Q T t l d d' F. split.
  - intros [n N]. eapply document_explained; [exact N|exact F].
  - intros H. apply document_reaches; [exact H|exact F].
Qed.
Print Assumptions C142_meaning.

(** C142: the result does not depend on how long one waits. *)
Theorem C142_result : forall (Q T : Type) (t : texts Q T) sections d n m d1 d2,
  turns t n (start d sections) = Done d1 -> turns t m (start d sections) = Done d2 -> d1 = d2.
Proof.
  intros Q T t l d n m d1 d2 A B. pose proof (turns_done t n m _ _ A) as A'. pose proof (turns_done t m n _ _ B) as B'.
  rewrite Nat.add_comm in B'. rewrite A' in B'. now injection B'.
Qed.
Print Assumptions C142_result.

(** Texts for the examples: the digits 1 to 3, and names of constants. *)
Definition plain : texts unit unit :=
  mktexts unit unit (fun _ s => s)
    (fun d s => if String.eqb s "1" then Some 1 else if String.eqb s "2" then Some 2
                else if String.eqb s "3" then Some 3 else constants d s)
    (fun d s => constants d s) (fun _ => None) (fun _ _ _ => None) (fun _ _ _ => None) (fun _ _ _ => tt)
    (fun _ _ _ _ => None) (fun _ _ => 1) (fun s => String.eqb s "pi").
(** No data but pi. *)
Definition empty : data unit unit :=
  mkdata (fun s => if String.eqb s "pi" then Some PI else None) (fun _ => None) (fun _ => None) (fun _ => None) (fun _ => None).

Lemma range_up : forall v to step, 0 < step -> v <= to + / 10 ^ 9 -> in_range v to step = true.
Proof. intros. unfold in_range. destruct (Rlt_dec 0 step); [|lra]. destruct (Rle_dec _ _); [reflexivity|contradiction]. Qed.
Lemma range_over : forall v to step, 0 < step -> to + / 10 ^ 9 < v -> in_range v to step = false.
Proof. intros. unfold in_range. destruct (Rlt_dec 0 step); [|lra]. destruct (Rle_dec _ _); [lra|reflexivity]. Qed.

Lemma plain_head : forall d n body, In n body ->
  head plain d "i" "1" "2" "1" body = Runs 1 2 1 /\ head plain d "i" "1" "1" "1" body = Runs 1 1 1 /\
  head plain d "i" "1" "3" "1" body = Runs 1 3 1.
Proof.
  intros d n body I. destruct body as [|b body]; [contradiction|]. unfold head. cbn.
  destruct (Req_EM_T 1 0) as [C|_]; [lra|]. rewrite !range_up by lra. auto.
Qed.

(** The constant behind the loop sees the last value, the one before it the first. *)
Example C142_case : exists d', document plain
  [[Leaf (Constant "i" "3"); Leaf (Constant "a" "i"); Loop "i" "1" "2" "1" [Leaf (Constant "b" "i")]];
   [Leaf (Constant "c" "i")]] empty d' /\
  constants d' "a"%string = Some 3 /\ constants d' "b"%string = Some 2 /\ constants d' "c"%string = Some 2.
Proof.
  eexists. split.
  - eapply document_cons; [|eapply document_cons; [|apply document_nil]].
    + eapply means_leaf; [reflexivity|]. eapply means_leaf; [reflexivity|]. eapply means_loop.
      * apply (plain_head _ (Leaf (Constant "b" "i"))). left. reflexivity.
      * eapply repeats_more; [eapply means_leaf; [reflexivity|apply means_nil]| |].
        -- cbn. apply range_up; lra.
        -- eapply repeats_last; [eapply means_leaf; [reflexivity|apply means_nil]|].
           cbn. apply range_over; lra.
      * apply means_nil.
    + eapply means_leaf; [reflexivity|apply means_nil].
  - cbn. split; [reflexivity|]. split; f_equal; ring.
Qed.

(** Empty sections are taken off. *)
Lemma empties : forall k (d : data unit unit), turns plain (S k) (mkmachine d (repeat (mkframe [] None) k) 0) = Done d.
Proof. induction k as [|k IH]; intros d; [reflexivity|]. cbn [turns turn repeat m_stack rest looping m_data m_depth] in *. apply IH. Qed.

Lemma two_turns : forall k m1 m2 m3 (d : data unit unit), turns plain k m3 = Done d ->
  turn plain m1 = Running m2 -> turn plain m2 = Running m3 -> turns plain (S (S k)) m1 = Done d.
Proof. intros k m1 m2 m3 d H A B. cbn [turns]. rewrite A, B. exact H. Qed.
Lemma skip_turn : forall (d : data unit unit) v f e s body st, Nat.leb MAX_DEPTH (S (List.length st)) = true ->
  turn plain (mkmachine d (mkframe [Loop v f e s body] None :: st) 0) = Running (mkmachine d (mkframe [] None :: st) 0).
Proof. intros d v f e s body st H. unfold turn. cbn [m_stack rest looping m_data m_depth List.length]. now rewrite H. Qed.

(** C142: in a document of 64 sections the loops of the first are left out without a word, although
    nothing is nested: the sections still to come count as depth. *)
Theorem C142_sections_refuted : exists sections d1 d2, Forall (fun s => (deepest s <= 1)%nat) sections /\
  document plain sections empty d1 /\ (exists n, turns plain n (start empty sections) = Done d2) /\
  constants d1 "a"%string = Some 1 /\ constants d2 "a"%string = None.
Proof.
  set (body := [Leaf (Constant "a" "1")]).
  exists ([Loop "i" "1" "1" "1" body] :: repeat [] 63). eexists _, empty. split; [|split; [|split; [|split]]].
  - constructor; [cbn; lia|]. apply Forall_forall. intros x X. apply repeat_spec in X. subst x. cbn. lia.
  - eapply document_cons.
    + eapply means_loop.
      * apply (plain_head _ (Leaf (Constant "a" "1"))). left. reflexivity.
      * eapply repeats_last; [eapply means_leaf; [reflexivity|apply means_nil]|]. cbn. apply range_over; lra.
      * apply means_nil.
    + assert (N : forall k d, document plain (repeat [] k) d d).
      { induction k as [|k IH]; intros d; [apply document_nil|]. eapply document_cons; [apply means_nil|apply IH]. }
      apply N.
  - exists (S (S (S 63))). unfold start. cbn [map].
    assert (M : map (fun s => mkframe s None) (repeat [] 63) = repeat (mkframe [] None) 63) by reflexivity.
    rewrite M. pose proof (empties 63 empty) as E. refine (two_turns _ _ (mkmachine empty (mkframe [] None :: repeat (mkframe [] None) 63) 0) _ _ E _ _); [|reflexivity].
    apply skip_turn. rewrite repeat_length. reflexivity.
  - reflexivity.
  - reflexivity.
Qed.
Print Assumptions C142_sections_refuted.

(** C143: the resolution stops, with a result or an exception, for every document in which no loop
    changes its own variable, whatever the expressions. *)
Theorem C143_stops : forall (Q T : Type) (t : texts Q T) sections d, Forall (Forall (orderly t)) sections ->
  exists n, turns t n (start d sections) = Failed \/ exists d', turns t n (start d sections) = Done d'.
Proof. intros. apply sections_stop. assumption. Qed.
Print Assumptions C143_stops.

(** C143: built-in constants keep their values, at every moment and for every document. *)
Theorem C143_built_in : forall (Q T : Type) (t : texts Q T) sections d n x, built_in t x = true ->
  match turns t n (start d sections) with
  | Running m => constants (m_data m) x = constants d x
  | Done d' => constants d' x = constants d x
  | Failed => True
  end.
Proof.
  intros Q T t l d n x X. assert (C : clean t (start d l)).
  { unfold clean, start. cbn. apply Forall_forall. intros f F. apply in_map_iff in F. destruct F as [s [<- _]]. exact Logic.I. }
  pose proof (turns_built_in t n _ C) as H. destruct (turns t n (start d l)); [apply H; exact X|apply H; exact X|exact Logic.I].
Qed.
Print Assumptions C143_built_in.

Example C143_case : orderly plain (Loop "i" "1" "2" "1" [Leaf (Constant "b" "i"); Loop "j" "" "i" "1" [Leaf (Constant "pi" "j")]]) /\
  ~ orderly plain (Loop "i" "1" "3" "1" [Leaf (Constant "i" "1")]) /\ built_in plain "pi" = true.
Proof.
  split; [|split; [|reflexivity]].
  - rewrite orderly_body. split; [|constructor; [exact Logic.I|constructor; [|constructor]]].
    + constructor; [|constructor; [|constructor]].
      * intros b d d' H. cbn in H. destruct b; cbn in H; destruct (constants d "i") eqn:X; try discriminate; injection H as <-; rewrite <- X; apply put_other; discriminate.
      * rewrite spares_body. split; [discriminate|]. constructor; [|constructor].
        intros b d d' H. cbn in H. injection H as <-. reflexivity.
    + rewrite orderly_body. split; [|constructor; [exact Logic.I|constructor]]. constructor; [|constructor].
      intros b d d' H. cbn in H. injection H as <-. reflexivity.
  - rewrite orderly_body. intros [H _]. inversion H as [|? ? S _]; subst.
    specialize (S false empty _ eq_refl). cbn in S. discriminate S.
Qed.

(** C143: a loop from 1 to 3 whose body sets its variable back to 1 is never left: reading the file does
    not end. *)
Theorem C143_forever_refuted : exists sections, forall n, exists m, turns plain n (start empty sections) = Running m.
Proof.
  set (body := [Leaf (Constant "i" "1")]). exists [[Loop "i" "1" "3" "1" body]].
  assert (A : forall n, (forall d, exists m, turns plain n
      (mkmachine d (mkframe body (Some ("i"%string, 3, 1, body)) :: [mkframe [] None]) 1) = Running m) /\
    (forall d, exists m, turns plain (S n)
      (mkmachine d (mkframe body (Some ("i"%string, 3, 1, body)) :: [mkframe [] None]) 1) = Running m)).
  { induction n as [|n [IH1 IH2]].
    - split; intros d; eexists; reflexivity.
    - split; [exact IH2|]. intros d. set (d1 := put_constant "i" 1 d). destruct (IH1 (put_constant "i" (1 + 1) d1)) as [m M].
      exists m. rewrite <- M. cbn [turns turn m_stack rest looping m_data m_depth body effect brackets plain number].
      cbn -[turns in_range]. fold body. rewrite range_up by lra. reflexivity. }
  intros [|n]; [eexists; reflexivity|]. unfold start. cbn [map turns turn m_stack rest looping m_data m_depth List.length Nat.leb MAX_DEPTH].
  destruct (plain_head empty (Leaf (Constant "i" "1")) body) as [_ [_ H]]; [left; reflexivity|]. rewrite H.
  apply (proj1 (A n)).
Qed.
Print Assumptions C143_forever_refuted.

(** C144: a loop whose body does not change its variable is the body once for each of the values
    [x], [x + z], ... up to the last one in range, and no other; the variable is left at that value. *)
Theorem C144_unrolled : forall (Q T : Type) (t : texts Q T) v y z body x d d', Forall (spares t v) body ->
  (repeats t v y z body (put_constant v x d) d' <->
   exists k, (forall i, (i < k)%nat -> in_range (x + INR (S i) * z) y z = true) /\
             in_range (x + INR (S k) * z) y z = false /\ unrolled t v body (values x z k) d d').
Proof.
  intros Q T t v y z body x d d' S. split.
  - intros H. destruct (repeats_unrolled t v y z body S _ _ H x d eq_refl) as [k [A [B [U _]]]]. exists k. auto.
  - intros [k [A [B U]]]. eapply unrolled_repeats; eassumption.
Qed.
Print Assumptions C144_unrolled.

(** C144: after the loop the variable has the last value in range. *)
Theorem C144_left : forall (Q T : Type) (t : texts Q T) v y z body x d d', Forall (spares t v) body ->
  repeats t v y z body (put_constant v x d) d' -> in_range x y z = true ->
  exists k, value_of d' v = x + INR k * z /\ in_range (value_of d' v) y z = true /\ in_range (value_of d' v + z) y z = false.
Proof.
  intros Q T t v y z body x d d' S H R. destruct (repeats_unrolled t v y z body S _ _ H x d eq_refl) as [k [A [B [_ V]]]].
  exists k. split; [exact V|]. rewrite V. split.
  - destruct k as [|k]; [cbn [INR]; replace (x + 0 * z) with x by ring; exact R|apply A; lia].
  - rewrite S_INR in B. replace (x + INR k * z + z) with (x + (INR k + 1) * z) by ring. exact B.
Qed.
Print Assumptions C144_left.

(** C144: the values of a loop are those of the arithmetic series. *)
Theorem C144_values : forall x z k i, nth_error (values x z k) i = if Nat.leb i k then Some (x + INR i * z) else None.
Proof.
  intros x z k. revert x. induction k as [|k IH]; intros x i.
  - destruct i as [|i]; cbn; [f_equal; ring|]. destruct i; reflexivity.
  - destruct i as [|i]; cbn [values nth_error Nat.leb]; [f_equal; cbn [INR]; ring|]. rewrite IH.
    destruct (Nat.leb i k); [|reflexivity]. f_equal. rewrite (S_INR i). ring.
Qed.
Print Assumptions C144_values.

(** C144: no step but a step of 1 is taken for a step of zero, so that a loop that runs has a step. *)
Theorem C144_step : forall (Q T : Type) (t : texts Q T) d v f e s body x y z, head t d v f e s body = Runs x y z ->
  z <> 0 /\ in_range x y z = true /\ built_in t v = false /\
  (number t d s = Some 0 -> z = 1) /\ (forall w, number t d s = Some w -> w <> 0 -> z = w).
Proof.
  intros Q T t d v f e s body x y z H. destruct (head_step t _ _ _ _ _ _ _ _ _ H) as [A [B C]].
  split; [exact A|]. split; [exact C|]. split; [exact B|]. unfold head in H. rewrite B in H.
  destruct (if String.eqb f "" then _ else _); [|discriminate]. destruct (number t d e); [|discriminate].
  destruct (number t d s) as [a|]; [|discriminate]. destruct (in_range _ _ _); [|discriminate].
  destruct body; [discriminate|]. injection H as <- <- <-. split.
  - intros X. injection X as ->. destruct (Req_EM_T 0 0); [reflexivity|contradiction].
  - intros w X N. injection X as ->. destruct (Req_EM_T w 0); [contradiction|reflexivity].
Qed.
Print Assumptions C144_step.

Example C144_case : Forall (spares plain "i") [Leaf (Constant "b" "i")] /\ values 1 1 1 = [1; 1 + 1] /\
  in_range (1 + INR 1 * 1) 2 1 = true /\ in_range (1 + INR 2 * 1) 2 1 = false.
Proof.
  split; [|split; [reflexivity|split]].
  - constructor; [|constructor]. intros b d d' H. cbn in H. destruct b; cbn in H; destruct (constants d "i") eqn:X; try discriminate; injection H as <-; rewrite <- X; apply put_other; discriminate.
  - cbn [INR]. apply range_up; lra.
  - cbn [INR]. apply range_over; lra.
Qed.
