(** Proofs about the material registry. *)
From Coq Require Import String Ascii List Bool ZArith Reals Lia Lra.
From Verif Require Import TraversalModel MaterialModel.
Import ListNotations.
Open Scope R_scope.

(** ** Nuclear codes *)
Lemma digits_step f n : (n <? 10)%Z = false -> digits (S f) n = digits f (n / 10) ++ [Digit (n mod 10)].
Proof. intros H. cbn [digits]. rewrite H. reflexivity. Qed.

Lemma digits_10 d9 d8 d7 d6 d5 d4 d3 d2 d1 d0 :
  (1 <= d9 <= 9)%Z -> (0 <= d8 <= 9)%Z -> (0 <= d7 <= 9)%Z -> (0 <= d6 <= 9)%Z -> (0 <= d5 <= 9)%Z ->
  (0 <= d4 <= 9)%Z -> (0 <= d3 <= 9)%Z -> (0 <= d2 <= 9)%Z -> (0 <= d1 <= 9)%Z -> (0 <= d0 <= 9)%Z ->
  digits 10 (((((((((d9*10+d8)*10+d7)*10+d6)*10+d5)*10+d4)*10+d3)*10+d2)*10+d1)*10+d0)%Z
  = map Digit [d9;d8;d7;d6;d5;d4;d3;d2;d1;d0].
Proof.
  intros ? ? ? ? ? ? ? ? ? ?.
  assert (ST : forall f q r, (1 <= q)%Z -> (0 <= r <= 9)%Z -> digits (S f) (q * 10 + r) = digits f q ++ [Digit r]).
  { intros f q r Hq Hr. assert (GE : (q * 10 + r <? 10)%Z = false) by (apply Z.ltb_ge; lia). rewrite digits_step by exact GE.
    replace ((q * 10 + r) / 10)%Z with q by (apply (Z.div_unique _ 10 q r); lia).
    replace ((q * 10 + r) mod 10)%Z with r by (apply (Z.mod_unique _ 10 q r); lia). reflexivity. }
  rewrite !ST by lia. cbn [digits]. assert (E : (d9 <? 10)%Z = true) by (apply Z.ltb_lt; lia). rewrite E. reflexivity.
Qed.

(** Splitting a three-digit number. *)
Lemma three n : (0 <= n <= 999)%Z -> exists a b c, (0 <= a <= 9)%Z /\ (0 <= b <= 9)%Z /\ (0 <= c <= 9)%Z /\ n = ((a*10+b)*10+c)%Z.
Proof.
  intros H. exists (n / 100)%Z, (n / 10 mod 10)%Z, (n mod 10)%Z.
  pose proof (Z.div_mod n 10 ltac:(lia)). pose proof (Z.mod_pos_bound n 10 ltac:(lia)).
  pose proof (Z.div_mod (n/10) 10 ltac:(lia)). pose proof (Z.mod_pos_bound (n/10) 10 ltac:(lia)).
  rewrite Z.div_div in * by lia. change (10*10)%Z with 100%Z in *. lia.
Qed.

Theorem content_decodes p L Z A I :
  (10 <= p <= 99)%Z -> (0 <= L <= 9)%Z -> (0 <= Z <= 999)%Z -> (0 <= A <= 999)%Z -> (0 <= I <= 9)%Z ->
  nucleon_content (p * 100000000 + L * 10000000 + Z * 10000 + A * 10 + I)%Z = Ok (L, A - Z - L, Z, A)%Z.
Proof.
  intros Hp HL HZ HA HI.
  destruct (three Z HZ) as [z2 [z1 [z0 [? [? [? ->]]]]]]. destruct (three A HA) as [a2 [a1 [a0 [? [? [? ->]]]]]].
  assert (P : exists p1 p0, (1 <= p1 <= 9)%Z /\ (0 <= p0 <= 9)%Z /\ p = (p1*10+p0)%Z).
  { exists (p/10)%Z, (p mod 10)%Z. pose proof (Z.div_mod p 10 ltac:(lia)). pose proof (Z.mod_pos_bound p 10 ltac:(lia)). lia. }
  destruct P as [p1 [p0 [? [? ->]]]].
  replace ((p1 * 10 + p0) * 100000000 + L * 10000000 + ((z2 * 10 + z1) * 10 + z0) * 10000 + ((a2 * 10 + a1) * 10 + a0) * 10 + I)%Z
    with (((((((((p1*10+p0)*10+L)*10+z2)*10+z1)*10+z0)*10+a2)*10+a1)*10+a0)*10+I)%Z by ring.
  unfold nucleon_content, print.
  match goal with |- context[(?c <? 0)%Z] => replace (c <? 0)%Z with false by (symmetry; apply Z.ltb_ge; lia) end.
  rewrite digits_10 by lia. cbn [map scan scan_digits].
  f_equal. f_equal; [f_equal; [f_equal|]|]; ring.
Qed.

(** Shorter codes are rejected. *)
Lemma digits_length f : forall n k, (0 <= n < 10 ^ Z.of_nat k)%Z -> (0 < k)%nat -> (length (digits f n) <= k)%nat.
Proof.
  induction f as [|f IH]; intros n k H K; cbn; [lia|].
  destruct (Z.ltb_spec n 10); cbn; [lia|]. rewrite app_length. cbn.
  destruct k as [|[|k]]; [lia|cbn in H; lia|].
  assert (length (digits f (n/10)) <= S k)%nat; [|lia]. apply IH; [|lia].
  split; [apply Z.div_pos; lia|]. apply Z.div_lt_upper_bound; [lia|].
  replace (10 * 10 ^ Z.of_nat (S k))%Z with (10 ^ Z.of_nat (S (S k)))%Z; [lia|].
  rewrite (Nat2Z.inj_succ (S k)), Z.pow_succ_r by lia. reflexivity.
Qed.

Lemma digits_all f : forall n, (0 <= n)%Z -> Forall (fun c => exists d, c = Digit d /\ (0 <= d <= 9)%Z) (digits f n).
Proof.
  induction f as [|f IH]; intros n H; cbn; [constructor|].
  destruct (Z.ltb_spec n 10).
  - constructor; [|constructor]. exists n. split; auto. lia.
  - apply Forall_app. split; [apply IH; apply Z.div_pos; lia|]. constructor; [|constructor].
    eexists. split; eauto. pose proof (Z.mod_pos_bound n 10). lia.
Qed.

Lemma scan_short w l v r : (0 < w)%nat -> Forall (fun c => exists d, c = Digit d /\ (0 <= d <= 9)%Z) l ->
  scan w l = Some (v, r) -> Forall (fun c => exists d, c = Digit d /\ (0 <= d <= 9)%Z) r /\
   length r = (length l - w)%nat /\ (0 < length l)%nat.
Proof.
  intros W F H. destruct l as [|[|d] l]; try discriminate.
  - inversion F as [|? ? [d [E _]]]. discriminate.
  - cbn [scan] in H. destruct w as [|w]; [lia|]. remember (S w) as w'. clear Heqw' W w.
    assert (G : forall w acc l, Forall (fun c => exists d, c = Digit d /\ (0 <= d <= 9)%Z) l -> 
       Forall (fun c => exists d, c = Digit d /\ (0 <= d <= 9)%Z) (snd (scan_digits w acc l)) /\
       length (snd (scan_digits w acc l)) = (length l - w)%nat).
    { clear. induction w as [|w IH]; intros acc l F; cbn.
      - split; auto. lia.
      - destruct l as [|[|d] l]; cbn; auto. inversion F as [|? ? [d [E _]]]; discriminate.
        inversion F; subst. apply IH. auto. }
    specialize (G w' 0%Z (Digit d :: l) F). destruct (scan_digits w' 0 (Digit d :: l)) as [v' r']. injection H as -> ->.
    cbn [snd] in G. destruct G. repeat split; auto. cbn. lia.
Qed.

Theorem content_rejects code : (0 <= code < 1000000000)%Z -> nucleon_content code = Throw.
Proof.
  intros H. unfold nucleon_content, print. destruct (Z.ltb_spec code 0); [lia|].
  pose proof (digits_all 10 code ltac:(lia)) as F. pose proof (digits_length 10 code 9 ltac:(cbn; lia) ltac:(lia)) as L.
  destruct (scan 2 _) as [[v1 l1]|] eqn:E1; auto. apply scan_short in E1; auto. destruct E1 as [F1 [L1 _]].
  destruct (scan 1 l1) as [[v2 l2]|] eqn:E2; auto. apply scan_short in E2; auto. destruct E2 as [F2 [L2 _]].
  destruct (scan 3 l2) as [[v3 l3]|] eqn:E3; auto. apply scan_short in E3; auto. destruct E3 as [F3 [L3 _]].
  destruct (scan 3 l3) as [[v4 l4]|] eqn:E4; auto. apply scan_short in E4; auto. destruct E4 as [F4 [L4 _]].
  destruct (scan 1 l4) as [[v5 l5]|] eqn:E5; auto. apply scan_short in E5; auto. destruct E5 as [F5 [L5 P]]. lia.
Qed.

(** ** Registry *)
Section Materials.
Variable atomic_mass : Z * Z * Z * Z -> option R.
Variable empirical_mass : Z * Z * Z * Z -> R.
Variable avogadro electron_molar_mass : R.
Variable x0 : Z -> Z -> R.
Notation add := (add_material atomic_mass empirical_mass avogadro electron_molar_mass x0).
Notation comps := (all_components atomic_mass empirical_mass avogadro electron_molar_mass).
Notation mk := (make_component atomic_mass empirical_mass electron_molar_mass).

(** A history: definitions in order, continuing after exceptions. *)
Definition defined (l : list (string * list (Z * R))) : materials :=
  fold_left (fun s d => fst (add s (fst d) (snd d))) l no_materials.

Lemma defined_snoc l d : defined (l ++ [d]) = fst (add (defined l) (fst d) (snd d)).
Proof. unfold defined. rewrite fold_left_app. reflexivity. Qed.

(** Names in order of first occurrence. *)
Fixpoint firsts (l : list string) : list string :=
  match l with [] => [] | n :: r => n :: filter (fun m => negb (String.eqb n m)) (firsts r) end.

Lemma firsts_in l n : In n (firsts l) <-> In n l.
Proof.
  induction l as [|m l IH]; cbn; [tauto|]. rewrite filter_In, IH, negb_true_iff.
  destruct (String.eqb_spec m n); subst; intuition congruence.
Qed.

Lemma filter_filter_comm {A} (p q : A -> bool) l : filter p (filter q l) = filter q (filter p l).
Proof.
  induction l as [|x l IH]; cbn; auto. destruct (q x) eqn:Q, (p x) eqn:P; cbn; rewrite ?P, ?Q, ?IH; auto.
Qed.

Lemma firsts_snoc l n : firsts (l ++ [n]) = if existsb (String.eqb n) l then firsts l else firsts l ++ [n].
Proof.
  induction l as [|m l IH]; cbn; auto. rewrite IH, (String.eqb_sym n m).
  destruct (String.eqb_spec m n) as [->|N]; cbn [orb].
  - destruct (existsb (String.eqb n) l); auto. rewrite filter_app. cbn. rewrite String.eqb_refl. cbn. rewrite app_nil_r. auto.
  - destruct (existsb (String.eqb n) l); auto. rewrite filter_app. cbn.
    destruct (String.eqb_spec m n); [congruence|]. auto.
Qed.

Lemma firsts_nodup l : NoDup (firsts l).
Proof.
  induction l as [|m l IH]; cbn; constructor.
  - rewrite filter_In, String.eqb_refl. intros [_ H]. discriminate.
  - apply NoDup_filter. auto.
Qed.

(** Invariant of the registry. *)
Record ok (s : materials) (names : list string) : Prop := {
  ok_names : m_names s = names;
  ok_ids : m_ids s = combine names (seq 0 (List.length names));
  ok_components : List.length (m_components s) = List.length names;
  ok_keys : forall i t c, find_key (m_by_id s) (i, t) = Some c -> (i < List.length names)%nat
}.

Lemma find_combine names : forall k n,
  find_name (combine names (seq k (List.length names))) n =
  match find (fun p => String.eqb (fst p) n) (combine names (seq k (List.length names))) with Some p => Some (snd p) | None => None end.
Proof.
  induction names as [|m names IH]; intros k n; cbn; auto. destruct (String.eqb m n); cbn; auto. 
Qed.

Lemma find_name_nth names n : NoDup names -> forall k i,
  find_name (combine names (seq k (List.length names))) n = Some i <-> (k <= i)%nat /\ nth_error names (i - k) = Some n.
Proof.
  induction 1 as [|m names NI ND IH]; intros k i; cbn.
  - split; [discriminate|]. intros [_ H]. destruct (i - k)%nat; discriminate.
  - destruct (String.eqb_spec m n) as [->|N].
    + split.
      * intros E. injection E as ->. split; auto. rewrite Nat.sub_diag. auto.
      * intros [L E]. destruct (i - k)%nat as [|j] eqn:D; [f_equal; lia|]. exfalso. apply NI. cbn in E. eapply nth_error_In; eauto.
    + rewrite IH. split.
      * intros [L E]. split; [lia|]. replace (i - k)%nat with (S (i - S k)) by lia. auto.
      * intros [L E]. destruct (i - k)%nat as [|j] eqn:D; [cbn in E; congruence|]. split; [lia|].
        replace (i - S k)%nat with j by lia. auto.
Qed.

Lemma find_name_none names n : forall k, find_name (combine names (seq k (List.length names))) n = None <-> ~ In n names.
Proof.
  induction names as [|m names IH]; intros k; cbn; [tauto|].
  destruct (String.eqb_spec m n) as [->|N]; [split; [discriminate|tauto]|]. rewrite IH. intuition.
Qed.

Lemma replace_length {A} n (a : A) l : List.length (replace_nth n a l) = List.length l.
Proof. revert n. induction l as [|x l IH]; intros [|n]; cbn; auto. Qed.

Lemma replace_same {A} n (a : A) l : (n < List.length l)%nat -> nth_error (replace_nth n a l) n = Some a.
Proof. revert n. induction l as [|x l IH]; intros [|n] H; cbn in *; try lia; auto. apply IH. lia. Qed.

Lemma replace_other {A} n (a : A) l m : n <> m -> nth_error (replace_nth n a l) m = nth_error l m.
Proof. revert n m. induction l as [|x l IH]; intros [|n] [|m] H; cbn; auto. congruence. Qed.

Lemma key_eqb_eq a b : key_eqb a b = true <-> a = b.
Proof.
  unfold key_eqb. destruct a, b. cbn. rewrite andb_true_iff, Nat.eqb_eq, Z.eqb_eq. split; [intros [-> ->]|intros H; inversion H]; auto.
Qed.

Lemma key_eqb_refl a : key_eqb a a = true.
Proof. apply key_eqb_eq. auto. Qed.

Lemma find_app {A} (m m' : list ((nat * Z) * A)) k : find_key (m ++ m') k = match find_key m k with Some a => Some a | None => find_key m' k end.
Proof. induction m as [|[j b] m IH]; cbn; auto. destruct (key_eqb j k); auto. Qed.

Lemma find_insert {A} (m : list ((nat * Z) * A)) k a j :
  find_key (insert_key m k a) j =
  if key_eqb k j then match find_key m j with Some b => Some b | None => Some a end else find_key m j.
Proof.
  unfold insert_key. destruct (key_eqb k j) eqn:E.
  - apply key_eqb_eq in E. subst j. destruct (find_key m k) eqn:F; auto. rewrite find_app, F. cbn. rewrite key_eqb_refl. auto.
  - destruct (find_key m k); auto. rewrite find_app. cbn. rewrite E. destruct (find_key m j); auto.
Qed.

Lemma find_assign {A} (m : list ((nat * Z) * A)) k a j :
  find_key (assign_key m k a) j = if key_eqb k j then Some a else find_key m j.
Proof.
  induction m as [|[i b] m IH]; cbn.
  - destruct (key_eqb k j); auto.
  - destruct (key_eqb i k) eqn:E; cbn.
    + apply key_eqb_eq in E. subst i. destruct (key_eqb k j); auto.
    + destruct (key_eqb i j) eqn:F; auto. apply key_eqb_eq in F. subst i.
      destruct (key_eqb k j) eqn:G; auto. apply key_eqb_eq in G. subst. rewrite key_eqb_refl in E. discriminate.
Qed.

(** First and last component of a type. *)
Definition first_of (cs : list mcomponent) (t : Z) : option mcomponent := find (fun c => (c_type (mc_component c) =? t)%Z) cs.
Definition last_of (cs : list mcomponent) (t : Z) : option mcomponent := first_of (rev cs) t.

Lemma insert_all id cs : forall m j t,
  find_key (fold_left (fun m c => insert_key m (id, c_type (mc_component c)) c) cs m) (j, t) =
  match find_key m (j, t) with Some b => Some b | None => if Nat.eqb id j then first_of cs t else None end.
Proof.
  induction cs as [|c cs IH]; intros m j t; cbn [fold_left].
  - destruct (find_key m (j, t)); auto. destruct (Nat.eqb id j); auto.
  - rewrite IH, find_insert. unfold key_eqb at 1. cbn [fst snd first_of find].
    destruct (Nat.eqb_spec id j) as [->|N]; cbn [andb].
    + destruct (c_type (mc_component c) =? t)%Z; destruct (find_key m (j, t)); auto.
    + destruct (find_key m (j, t)); auto.
Qed.

Lemma find_rev_snoc cs c t : last_of (cs ++ [c]) t = if (c_type (mc_component c) =? t)%Z then Some c else last_of cs t.
Proof. unfold last_of. rewrite rev_app_distr. cbn. reflexivity. Qed.

Lemma assign_all id cs : forall m j t,
  find_key (fold_left (fun m c => assign_key m (id, c_type (mc_component c)) c) cs m) (j, t) =
  if Nat.eqb id j then match last_of cs t with Some c => Some c | None => find_key m (j, t) end else find_key m (j, t).
Proof.
  induction cs as [|c cs IH] using rev_ind; intros m j t.
  - cbn. destruct (Nat.eqb id j); auto.
  - rewrite fold_left_app. cbn [fold_left]. rewrite find_assign, IH, find_rev_snoc. unfold key_eqb. cbn [fst snd].
    destruct (Nat.eqb id j); cbn [andb]; auto. destruct (c_type (mc_component c) =? t)%Z; auto.
Qed.

Lemma first_of_in cs t c : first_of cs t = Some c -> In c cs /\ c_type (mc_component c) = t.
Proof. intros H. apply find_some in H. destruct H as [I E]. apply Z.eqb_eq in E. auto. Qed.

Lemma ok_add s names n f : ok s names -> NoDup names -> let s' := fst (add s n f) in
  ok s' (if existsb (String.eqb n) names then names else names ++ [n]).
Proof.
  intros K ND. cbv zeta. unfold add_material.
  assert (EX : existsb (String.eqb n) names = true <-> In n names).
  { rewrite existsb_exists. split; [intros [x [I E]]; apply String.eqb_eq in E; subst; auto|].
    intros I. exists n. split; auto. apply String.eqb_refl. }
  destruct K as [K1 K2 K3 K4].
  destruct (find_name (m_ids s) n) as [id|] eqn:FN.
  - assert (I : In n names).
    { rewrite K2 in FN. destruct (in_dec string_dec n names) as [J|J]; auto. apply (find_name_none names n 0) in J. congruence. }
    apply EX in I. rewrite I.
    assert (L : (id < List.length names)%nat).
    { rewrite K2, find_name_nth in FN by auto. destruct FN as [_ E]. rewrite Nat.sub_0_r in E. apply nth_error_Some. congruence. }
    destruct (comps f) as [cs| |]; cbn; [|split; auto..]. split; cbn; auto.
    + rewrite replace_length. auto.
    + intros i t c H. rewrite assign_all in H. destruct (Nat.eqb_spec id i); [subst; auto|]. eauto.
  - assert (I : ~ In n names) by (rewrite K2 in FN; apply find_name_none in FN; auto).
    destruct (existsb (String.eqb n) names) eqn:E; [exfalso; apply I, EX; auto|].
    assert (IDS : m_ids s ++ [(n, List.length (m_names s))] = combine (names ++ [n]) (seq 0 (List.length (names ++ [n])))).
    { rewrite K2, K1, app_length, seq_app. change 0%nat with (0 + 0)%nat at 2. clear.
      assert (G : forall k, combine names (seq k (List.length names)) ++ [(n, (k + List.length names)%nat)]
                = combine (names ++ [n]) (seq k (List.length names) ++ [(k + List.length names)%nat])).
      { induction names as [|m names IH]; intros k; cbn; auto. rewrite <- plus_n_Sm. f_equal. exact (IH (S k)). }
      exact (G 0%nat). }
    assert (LEN : List.length (m_components s ++ [[]]) = List.length (names ++ [n])) by (rewrite !app_length, K3; auto).
    destruct (comps f) as [cs| |]; cbn; split; cbn; auto; try (rewrite K1; auto).
    + rewrite replace_length. auto.
    + intros i t c H. rewrite insert_all in H. rewrite app_length. cbn. destruct (find_key (m_by_id s) (i, t)) eqn:F.
      * apply K4 in F. lia.
      * revert H. destruct (Nat.eqb_spec (List.length names) i); [|discriminate]. intros _. lia.
    + intros i t c H. apply K4 in H. rewrite app_length. lia.
    + intros i t c H. apply K4 in H. rewrite app_length. lia.
Qed.

Lemma defined_ok l : ok (defined l) (firsts (map fst l)).
Proof.
  induction l as [|d l IH] using rev_ind.
  - split; auto. discriminate.
  - rewrite defined_snoc, map_app. cbn [map]. rewrite firsts_snoc.
    pose proof (ok_add _ _ (fst d) (snd d) IH (firsts_nodup _)) as K. cbv zeta in K.
    assert (E : existsb (String.eqb (fst d)) (firsts (map fst l)) = existsb (String.eqb (fst d)) (map fst l)).
    { apply eq_true_iff_eq. rewrite !existsb_exists. split; intros [x [I J]]; exists x; split; auto; apply firsts_in; auto. }
    rewrite <- E. destruct (existsb (String.eqb (fst d)) (firsts (map fst l))); auto.
Qed.

Theorem names_dense l :
  let s := defined l in
  m_names s = firsts (map fst l) /\
  (forall n i, material_id s n = Ok i <-> material_name s i = Ok n) /\
  (forall n, has_name s n = true <-> In n (map fst l)) /\
  (forall i, has_id s i = true <-> exists n, material_name s i = Ok n) /\
  (forall n i, material_name s i = Ok n -> (0 <= i < Z.of_nat (List.length (m_names s)))%Z).
Proof.
  intros s. destruct (defined_ok l) as [K1 K2 K3 K4]. fold s in K1, K2, K3, K4. pose proof (firsts_nodup (map fst l)) as ND.
  assert (RANGE : forall n i, material_name s i = Ok n -> (0 <= i < Z.of_nat (List.length (m_names s)))%Z).
  { intros n i. unfold material_name. destruct (Z.ltb_spec i 0); [discriminate|].
    destruct (nth_error (m_names s) (Z.to_nat i)) eqn:E; [|discriminate]. intros _.
    assert (Z.to_nat i < List.length (m_names s))%nat by (apply nth_error_Some; congruence). lia. }
  split; auto. split; [|split; [|split; auto]].
  - intros n i. unfold material_id, material_name. rewrite K2, K1. split.
    + destruct (find_name _ n) as [j|] eqn:E; [|discriminate]. intros H. injection H as <-.
      apply find_name_nth in E; auto. destruct E as [_ E]. rewrite Nat.sub_0_r in E.
      destruct (Z.ltb_spec (Z.of_nat j) 0); [lia|]. rewrite Nat2Z.id, E. auto.
    + destruct (Z.ltb_spec i 0); [discriminate|]. destruct (nth_error _ (Z.to_nat i)) eqn:E; [|discriminate].
      intros X. injection X as ->.
      assert (F : find_name (combine (firsts (map fst l)) (seq 0 (List.length (firsts (map fst l))))) n = Some (Z.to_nat i)).
      { apply find_name_nth; auto. split; [lia|]. rewrite Nat.sub_0_r. auto. }
      rewrite F. rewrite Z2Nat.id by lia. auto.
  - intros n. unfold has_name. rewrite K2. destruct (find_name _ n) as [j|] eqn:E.
    + split; auto. intros _. apply firsts_in. apply find_name_nth in E; auto. destruct E as [_ E]. eapply nth_error_In; eauto.
    + split; [discriminate|]. intros I. apply find_name_none in E. exfalso. apply E, firsts_in. auto.
  - intros i. unfold has_id. destruct (Z.ltb_spec i 0).
    + split; [discriminate|]. intros [n H']. apply RANGE in H'. lia.
    + rewrite Z.ltb_lt. split.
      * intros L. unfold material_name. destruct (Z.ltb_spec i 0); [lia|].
        destruct (nth_error (m_names s) (Z.to_nat i)) eqn:E; eauto. apply nth_error_None in E. lia.
      * intros [n Hn]. apply RANGE in Hn. lia.
Qed.

Theorem redefinition_keeps_id l d n i : material_id (defined l) n = Ok i -> material_id (defined (l ++ [d])) n = Ok i.
Proof.
  intros H. destruct (names_dense l) as [N1 [B1 _]]. destruct (names_dense (l ++ [d])) as [N2 [B2 _]].
  apply B1 in H. apply B2. unfold material_name in *. destruct (i <? 0)%Z; [discriminate|].
  rewrite N1 in H. rewrite N2, map_app. cbn [map]. rewrite firsts_snoc.
  destruct (existsb _ _); auto. destruct (nth_error (firsts (map fst l)) (Z.to_nat i)) eqn:E; [|discriminate].
  rewrite nth_error_app1, E; auto. apply nth_error_Some. congruence.
Qed.

(** ** Components of the latest definition *)

(** The table knows the neutron and the hydrogen atom. *)
Definition table_ok : Prop := atomic_mass (0, 1, 0, 1)%Z <> None /\ atomic_mass (0, 0, 1, 1)%Z <> None.

Lemma mk_ok t : table_ok -> exists c, mk t = Ok c /\ c_type c = t.
Proof.
  intros [A B]. unfold make_component.
  destruct (t =? PPlus)%Z; [destruct (atomic_mass (0, 0, 1, 1)%Z); [eexists; split; reflexivity|congruence]|].
  destruct (t =? Neutron)%Z; [destruct (atomic_mass (0, 1, 0, 1)%Z); [eexists; split; reflexivity|congruence]|].
  destruct (t =? Nucleon)%Z.
  { destruct (atomic_mass (0, 1, 0, 1)%Z); [|congruence]. destruct (atomic_mass (0, 0, 1, 1)%Z); [eexists; split; reflexivity|congruence]. }
  destruct (t =? EMinus)%Z; [eexists; split; reflexivity|].
  destruct (nucleon_content t) as [[[[z z0] z1] z2]| |]; [destruct (atomic_mass (z, z0, z1, z2)); eexists; split; reflexivity|eexists; split; reflexivity|eexists; split; reflexivity].
Qed.

(** Sum of fraction / molar mass times a count, over a definition. *)
Fixpoint per_gram (count : component -> Z) (l : list (Z * R)) : R :=
  match l with
  | [] => 0
  | (t, f) :: r => (match mk t with Ok c => f / c_molar c * IZR (count c) | _ => 0 end) + per_gram count r
  end.

Lemma given_ok l : table_ok -> exists cs,
  given_components atomic_mass empirical_mass avogadro electron_molar_mass l
  = Ok (cs, (per_gram c_neutrons l, per_gram c_nucleons l, per_gram c_protons l)) /\
  Forall2 (fun c p => mk (fst p) = Ok (mc_component c) /\ mc_mass c = snd p /\
             mc_particles c = avogadro * snd p / c_molar (mc_component c)) cs l.
Proof.
  intros T. induction l as [|[t f] l [cs [E F]]]; cbn [given_components per_gram].
  - exists []. split; auto.
  - destruct (mk_ok t T) as [c [M _]]. rewrite M, E. eexists. split; [reflexivity|].
    constructor; auto.
Qed.

(** One derived component. *)
Definition is_derived (t : Z) (x : R) (c : mcomponent) : Prop :=
  mk t = Ok (mc_component c) /\ mc_mass c = x * c_molar (mc_component c) /\ mc_particles c = x * avogadro.

Lemma derived_ok t x : table_ok -> exists c, derived atomic_mass empirical_mass avogadro electron_molar_mass t x = Ok c /\ is_derived t x c.
Proof.
  intros T. unfold derived. destruct (mk_ok t T) as [c [M _]]. rewrite M. eexists. split; [reflexivity|]. split; auto.
Qed.

Theorem components_of_definition l : table_ok -> exists cs dn da dp,
  comps l = Ok (cs ++ dn ++ da ++ dp) /\
  Forall2 (fun c p => mk (fst p) = Ok (mc_component c) /\ mc_mass c = snd p /\
             mc_particles c = avogadro * snd p / c_molar (mc_component c)) cs l /\
  (if Rlt_dec 0 (per_gram c_neutrons l) then exists c, dn = [c] /\ is_derived Neutron (per_gram c_neutrons l) c else dn = []) /\
  (if Rlt_dec 0 (per_gram c_nucleons l) then exists c, da = [c] /\ is_derived Nucleon (per_gram c_nucleons l) c else da = []) /\
  (if Rlt_dec 0 (per_gram c_protons l) then
     exists c e, dp = [c; e] /\ is_derived PPlus (per_gram c_protons l) c /\ is_derived EMinus (per_gram c_protons l) e
   else dp = []).
Proof.
  intros T. destruct (given_ok l T) as [cs [E F]]. unfold all_components. rewrite E.
  unfold append_derived.
  destruct (derived_ok Neutron (per_gram c_neutrons l) T) as [dn [En Hn]].
  destruct (derived_ok Nucleon (per_gram c_nucleons l) T) as [da [Ea Ha]].
  destruct (derived_ok PPlus (per_gram c_protons l) T) as [dp [Ep Hp]].
  destruct (derived_ok EMinus (per_gram c_protons l) T) as [de [Ee He]].
  exists cs, (if Rlt_dec 0 (per_gram c_neutrons l) then [dn] else []), (if Rlt_dec 0 (per_gram c_nucleons l) then [da] else []),
    (if Rlt_dec 0 (per_gram c_protons l) then [dp; de] else []).
  cbn [fold_left].
  destruct (Rlt_dec 0 (per_gram c_neutrons l)); destruct (Rlt_dec 0 (per_gram c_nucleons l)); destruct (Rlt_dec 0 (per_gram c_protons l));
    rewrite ?En, ?Ea, ?Ep, ?Ee; (split; [rewrite ?app_nil_r, <- ?app_assoc; reflexivity|]); eauto 12.
Qed.

Lemma comps_ok l : table_ok -> exists cs, comps l = Ok cs.
Proof. intros T. destruct (components_of_definition l T) as [cs [dn [da [dp [E _]]]]]. eauto. Qed.

(** The last definition under a name. *)
Fixpoint last_definition (l : list (string * list (Z * R))) (n : string) : option (list (Z * R)) :=
  match l with
  | [] => None
  | (m, f) :: r => match last_definition r n with Some g => Some g | None => if String.eqb m n then Some f else None end
  end.

Lemma last_definition_snoc l m f n : last_definition (l ++ [(m, f)]) n = if String.eqb m n then Some f else last_definition l n.
Proof.
  induction l as [|[k g] l IH]; cbn; [destruct (String.eqb m n); auto|]. rewrite IH.
  destruct (String.eqb m n); auto.
Qed.

Lemma id_of s names n : ok s names -> NoDup names -> forall i, find_name (m_ids s) n = Some i <-> nth_error names i = Some n.
Proof.
  intros K ND i. rewrite (ok_ids _ _ K), find_name_nth by auto. rewrite Nat.sub_0_r. intuition lia.
Qed.

Theorem latest_components l n f i : table_ok -> last_definition l n = Some f ->
  material_id (defined l) n = Ok (Z.of_nat i) ->
  exists cs, comps f = Ok cs /\ nth_error (m_components (defined l)) i = Some cs /\
    material_targets (defined l) (Z.of_nat i) = Ok (map (fun c => c_type (mc_component c)) cs).
Proof.
  intros T. revert n f i. induction l as [|[m g] l IH] using rev_ind; [discriminate|]. intros n f i LD ID.
  rewrite last_definition_snoc in LD.
  assert (MAIN : exists cs, comps f = Ok cs /\ nth_error (m_components (defined (l ++ [(m, g)]))) i = Some cs).
  { pose proof (defined_ok l) as K. pose proof (firsts_nodup (map fst l)) as ND.
    pose proof (defined_ok (l ++ [(m, g)])) as K'. pose proof (firsts_nodup (map fst (l ++ [(m, g)]))) as ND'.
    unfold material_id in ID. destruct (find_name (m_ids (defined (l ++ [(m, g)]))) n) as [j|] eqn:FJ; [|discriminate].
    injection ID as ID. apply Nat2Z.inj in ID. subst j.
    apply (id_of _ _ n K' ND') in FJ. rewrite map_app in FJ. cbn [map fst] in FJ. rewrite firsts_snoc in FJ.
    rewrite defined_snoc. unfold add_material. cbn [fst snd]. destruct (comps_ok g T) as [cg Eg]. rewrite Eg.
    destruct (find_name (m_ids (defined l)) m) as [id|] eqn:FM.
    - assert (NI : nth_error (firsts (map fst l)) id = Some m) by (apply (id_of _ _ m K ND); auto).
      assert (EX : existsb (String.eqb m) (map fst l) = true).
      { apply existsb_exists. exists m. split; [|apply String.eqb_refl]. apply firsts_in. eapply nth_error_In; eauto. }
      rewrite EX in FJ. cbn [fst m_components].
      destruct (String.eqb_spec m n) as [->|N].
      + injection LD as <-. exists cg. split; auto.
        assert (id = i). { eapply (proj1 (NoDup_nth_error _) ND); [apply nth_error_Some; congruence|congruence]. } subst id.
        apply replace_same. rewrite (ok_components _ _ K). apply nth_error_Some. congruence.
      + assert (id <> i) by (intros ->; congruence). rewrite replace_other by auto.
        destruct (IH n f i LD) as [cs [C1 [C2 _]]]; eauto. unfold material_id.
        assert (X : find_name (m_ids (defined l)) n = Some i) by (apply (id_of _ _ n K ND); auto). rewrite X. auto.
    - assert (NI : ~ In m (firsts (map fst l))).
      { rewrite (ok_ids _ _ K) in FM. apply find_name_none in FM. auto. }
      assert (EX : existsb (String.eqb m) (map fst l) = false).
      { apply not_true_iff_false. rewrite existsb_exists. intros [x [I E]]. apply String.eqb_eq in E. subst x. apply NI, firsts_in. auto. }
      rewrite EX in FJ. cbn [fst m_components m_names].
      rewrite (ok_names _ _ K).
      destruct (String.eqb_spec m n) as [->|N].
      + injection LD as <-. exists cg. split; auto.
        assert (i = List.length (firsts (map fst l))).
        { destruct (Nat.lt_ge_cases i (List.length (firsts (map fst l)))) as [L|L].
          - rewrite nth_error_app1 in FJ by auto. exfalso. apply NI. eapply nth_error_In; eauto.
          - assert (i < List.length (firsts (map fst l) ++ [n]))%nat by (apply nth_error_Some; congruence).
            rewrite app_length in *. cbn in *. lia. }
        subst i. apply replace_same. rewrite app_length, (ok_components _ _ K). cbn. lia.
      + assert (L : (i < List.length (firsts (map fst l)))%nat).
        { destruct (Nat.lt_ge_cases i (List.length (firsts (map fst l)))) as [L|L]; auto. exfalso.
          rewrite nth_error_app2 in FJ by auto. destruct (i - List.length (firsts (map fst l)))%nat as [|[|]]; cbn in FJ; congruence. }
        rewrite nth_error_app1 in FJ by auto. rewrite replace_other by lia.
        rewrite nth_error_app1 by (rewrite (ok_components _ _ K); auto).
        destruct (IH n f i LD) as [cs [C1 [C2 _]]]; eauto. unfold material_id.
        assert (X : find_name (m_ids (defined l)) n = Some i) by (apply (id_of _ _ n K ND); auto). rewrite X. auto. }
  destruct MAIN as [cs [C1 C2]]. exists cs. repeat split; auto. unfold material_targets.
  destruct (Z.ltb_spec (Z.of_nat i) 0); [lia|]. rewrite Nat2Z.id, C2. auto.
Qed.

Lemma map_replace {A B} (f : A -> B) n a l : map f (replace_nth n a l) = replace_nth n (f a) (map f l).
Proof. revert n. induction l as [|x l IH]; intros [|n]; cbn; auto. rewrite IH. auto. Qed.
Lemma replace_end {A} (l : list A) a b : replace_nth (List.length l) a (l ++ [b]) = l ++ [a].
Proof. induction l as [|x l IH]; cbn; auto. rewrite IH. auto. Qed.

(** The radiation lengths follow the components. *)
Lemma radiation_lengths l : table_ok -> m_radiation (defined l) = map (radiation_length x0) (m_components (defined l)).
Proof.
  intros T. induction l as [|[m g] l IH] using rev_ind; [reflexivity|]. pose proof (defined_ok l) as K.
  rewrite defined_snoc. unfold add_material. cbn [fst snd]. destruct (comps_ok g T) as [cg Eg]. rewrite Eg.
  destruct (find_name (m_ids (defined l)) m) as [id|]; cbn [fst m_radiation m_components m_names].
  - rewrite IH, map_replace. reflexivity.
  - rewrite (ok_names _ _ K), <- (ok_components _ _ K), replace_end, map_app, IH. reflexivity.
Qed.

Lemma latest_radiation l n f i : table_ok -> last_definition l n = Some f -> material_id (defined l) n = Ok (Z.of_nat i) ->
  exists cs, comps f = Ok cs /\ nth_error (m_radiation (defined l)) i = Some (radiation_length x0 cs).
Proof.
  intros T D ID. destruct (latest_components l n f i T D ID) as [cs [C1 [C2 _]]]. exists cs. split; auto.
  rewrite radiation_lengths by auto. apply map_nth_error. auto.
Qed.

(** Adding a material under another name changes nothing of this one. *)
Lemma other_name l m g n i t : table_ok -> material_id (defined l) n = Ok (Z.of_nat i) -> m <> n ->
  find_key (m_by_id (defined (l ++ [(m, g)]))) (i, t) = find_key (m_by_id (defined l)) (i, t).
Proof.
  intros T ID N. pose proof (defined_ok l) as K. pose proof (firsts_nodup (map fst l)) as ND.
  unfold material_id in ID. destruct (find_name (m_ids (defined l)) n) as [j|] eqn:FJ; [|discriminate].
  injection ID as ID. apply Nat2Z.inj in ID. subst j. apply (id_of _ _ n K ND) in FJ.
  rewrite defined_snoc. unfold add_material. cbn [fst snd]. destruct (comps_ok g T) as [cg Eg]. rewrite Eg.
  destruct (find_name (m_ids (defined l)) m) as [id|] eqn:FM; cbn [fst m_by_id m_names].
  - apply (id_of _ _ m K ND) in FM. rewrite assign_all. destruct (Nat.eqb_spec id i); auto. congruence.
  - rewrite insert_all. rewrite (ok_names _ _ K). assert (i < List.length (firsts (map fst l)))%nat by (apply nth_error_Some; congruence).
    destruct (Nat.eqb_spec (List.length (firsts (map fst l))) i); [lia|]. destruct (find_key _ _); auto.
Qed.

(** How often a name was defined. *)
Definition times (l : list (string * list (Z * R))) (n : string) : nat :=
  List.length (filter (fun d => String.eqb (fst d) n) l).

Lemma defined_once_map l n f i t : table_ok -> last_definition l n = Some f -> times l n = 1%nat ->
  material_id (defined l) n = Ok (Z.of_nat i) ->
  exists cs, comps f = Ok cs /\ find_key (m_by_id (defined l)) (i, t) = first_of cs t.
Proof.
  intros T. revert n f i. induction l as [|[m g] l IH] using rev_ind; [discriminate|]. intros n f i LD TM ID.
  rewrite last_definition_snoc in LD. unfold times in TM. rewrite filter_app, app_length in TM. cbn in TM.
  pose proof (defined_ok l) as K. pose proof (firsts_nodup (map fst l)) as ND.
  destruct (String.eqb_spec m n) as [->|N].
  - injection LD as <-. cbn in TM. assert (Z0 : filter (fun d => String.eqb (fst d) n) l = []) by (destruct (filter _ l); auto; cbn in TM; lia).
    assert (NI : ~ In n (map fst l)).
    { rewrite in_map_iff. intros [[k h] [E I]]. cbn in E. subst k.
      assert (J : In (n, h) (filter (fun d => String.eqb (fst d) n) l)) by (apply filter_In; split; auto; apply String.eqb_refl).
      rewrite Z0 in J. destruct J. }
    rewrite <- firsts_in in NI.
    assert (FM : find_name (m_ids (defined l)) n = None) by (rewrite (ok_ids _ _ K); apply find_name_none; auto).
    revert ID. rewrite defined_snoc. unfold add_material. cbn [fst snd]. rewrite FM. destruct (comps_ok g T) as [cg Eg]. rewrite Eg.
    cbn [fst m_by_id m_names]. unfold material_id. cbn [m_ids]. intros ID.
    exists cg. split; auto. rewrite insert_all.
    assert (i = List.length (m_names (defined l))).
    { assert (FA : forall (a : list (string * nat)) b, find_name a n = None -> find_name (a ++ b) n = find_name b n).
      { clear. induction a as [|[k j] a IH]; cbn; auto. intros b. destruct (String.eqb k n); [discriminate|auto]. }
      rewrite FA in ID by auto. cbn in ID. rewrite String.eqb_refl in ID. injection ID as ID. lia. }
    subst i. rewrite Nat.eqb_refl. destruct (find_key _ _) eqn:F; auto.
    apply (ok_keys _ _ K) in F. rewrite (ok_names _ _ K) in F. lia.
  - cbn in TM. rewrite Nat.add_0_r in TM.
    assert (ID0 : material_id (defined l) n = Ok (Z.of_nat i)).
    { destruct (names_dense l) as [_ [B1 [H1 _]]]. assert (HN : has_name (defined l) n = true).
      { apply H1. clear -LD. revert LD. revert f. induction l as [|[k h] l IH]; cbn; [discriminate|]. intros f.
        destruct (last_definition l n) eqn:E; [right; eapply IH; eauto|]. destruct (String.eqb_spec k n); [auto|discriminate]. }
      unfold has_name in HN. destruct (find_name (m_ids (defined l)) n) as [j|] eqn:FJ; [|discriminate].
      assert (J : material_id (defined l) n = Ok (Z.of_nat j)) by (unfold material_id; rewrite FJ; auto).
      pose proof (redefinition_keeps_id l (m, g) n _ J) as J2. rewrite J2 in ID. injection ID as ID. rewrite <- ID. auto. }
    rewrite (other_name l m g n i t T ID0 N). exact (IH n f i LD TM ID0).
Qed.

Theorem defined_once l n f i t : table_ok -> last_definition l n = Some f -> times l n = 1%nat ->
  material_id (defined l) n = Ok (Z.of_nat i) ->
  exists cs, comps f = Ok cs /\
    mass_fraction (defined l) i t = (match first_of cs t with Some c => mc_mass c | None => 0 end) /\
    particle_fraction (defined l) i t = (match first_of cs t with Some c => mc_particles c | None => 0 end).
Proof.
  intros T LD TM ID. destruct (defined_once_map l n f i t T LD TM ID) as [cs [C F]].
  exists cs. split; auto. unfold mass_fraction, particle_fraction. rewrite F. auto.
Qed.

(** Right after a redefinition: types of the new definition have their last entry,
    other types keep what they had. *)
Theorem redefined l n f i t : table_ok -> material_id (defined l) n = Ok (Z.of_nat i) ->
  exists cs, comps f = Ok cs /\
    mass_fraction (defined (l ++ [(n, f)])) i t
    = match last_of cs t with Some c => mc_mass c | None => mass_fraction (defined l) i t end.
Proof.
  intros T ID. unfold material_id in ID. destruct (find_name (m_ids (defined l)) n) as [j|] eqn:FJ; [|discriminate].
  injection ID as ID. apply Nat2Z.inj in ID. subst j.
  rewrite defined_snoc. unfold add_material. cbn [fst snd]. rewrite FJ. destruct (comps_ok f T) as [cs E]. rewrite E.
  exists cs. split; auto. unfold mass_fraction. cbn [fst m_by_id]. rewrite assign_all, Nat.eqb_refl.
  destruct (last_of cs t); auto.
Qed.

(** ** Balance of nucleons *)

(** The nucleus behind a component code. *)
Definition nucleus (t : Z) : Prop := exists c, mk t = Ok c /\ c_is_atom c = true /\ c_molar c <> 0 /\
  c_neutrons c = (c_nucleons c - c_protons c - c_strange c)%Z.

Lemma atom_counts t c : mk t = Ok c -> c_is_atom c = true ->
  c_neutrons c = (c_nucleons c - c_protons c - c_strange c)%Z.
Proof.
  unfold make_component.
  repeat match goal with
  | |- context[(t =? ?x)%Z] => destruct (t =? x)%Z
  end.
  1-4: try (destruct (atomic_mass _)); try (destruct (atomic_mass (0, 0, 1, 1)%Z)); intros H; inversion H; subst; cbn; try discriminate.
  destruct (nucleon_content t) as [[[[a b] d] e]| |] eqn:E.
  - assert (X : b = (e - d - a)%Z).
    { unfold nucleon_content in E. repeat match type of E with
      | match ?x with Some _ => _ | None => _ end = _ => destruct x as [[? ?]|]; try discriminate end.
      inversion E. auto. }
    destruct (atomic_mass _); intros H; inversion H; subst; cbn; auto.
  - intros H; inversion H; subst; cbn; auto.
  - intros H; inversion H; subst; cbn; auto.
Qed.

Theorem balance l : table_ok ->
  (forall t f, In (t, f) l -> exists c, mk t = Ok c /\ c_is_atom c = true) ->
  per_gram c_nucleons l = per_gram c_protons l + per_gram c_neutrons l + per_gram c_strange l.
Proof.
  intros T. induction l as [|[t f] l IH]; intros H; cbn [per_gram]; [lra|].
  destruct (H t f (or_introl eq_refl)) as [c [M A]]. rewrite M.
  rewrite IH by (intros; eapply H; right; eauto). pose proof (atom_counts t c M A) as E.
  replace (c_nucleons c) with (c_protons c + c_neutrons c + c_strange c)%Z by lia. rewrite !plus_IZR. lra.
Qed.

(** ** Radiation fractions *)
Lemma radiation_loop_char s id ts : forall fs inv,
  radiation_loop x0 s id ts fs inv =
  if forallb (fun t => match find_key (m_by_id s) (id, t) with Some _ => true | None => false end) ts
  then Ok (fs ++ map (fun _ => 0) ts, inv) else Throw.
Proof.
  induction ts as [|t ts IH]; intros fs inv; cbn.
  - rewrite app_nil_r. auto.
  - destruct (find_key (m_by_id s) (id, t)); cbn; auto. rewrite IH. destruct (forallb _ ts); auto.
    rewrite <- app_assoc. auto.
Qed.

Theorem radiation_useless s id ts :
  radiation_fractions x0 s id ts =
  if forallb (fun t => match find_key (m_by_id s) (id, t) with Some _ => true | None => false end) ts
  then Ok (map (fun _ => None) ts) else Throw.
Proof.
  unfold radiation_fractions. rewrite radiation_loop_char. destruct (forallb _ ts); auto. cbn.
  rewrite map_map. f_equal. apply map_ext. intros t. unfold quotient. destruct (Req_EM_T 0 0); auto. congruence.
Qed.
End Materials.
