(** Proofs about comparison operators. *)
From Coq Require Import List Bool ZArith Lia.
From Verif Require Import OrderModel OrderSpec.
Import ListNotations.
Open Scope Z_scope.

Section O.
Context {A : Type} (c : cmp A) (H : ordered c).

Lemma ord_refl x : eq_ c x x = true.
Proof. apply (ord_eq _ H). split; apply (ord_irrefl _ H). Qed.

Lemma ord_eq_sym x y : eq_ c x y = true -> eq_ c y x = true.
Proof. intros E. apply (ord_eq _ H). apply (ord_eq _ H) in E. tauto. Qed.

Lemma ord_asym x y : lt_ c x y = true -> lt_ c y x = false.
Proof.
  intros L. destruct (lt_ c y x) eqn:E; auto. pose proof (ord_trans _ H _ _ _ L E).
  rewrite (ord_irrefl _ H) in H0. discriminate.
Qed.

Lemma ord_cases x y : {lt_ c x y = true} + {eq_ c x y = true} + {lt_ c y x = true}.
Proof.
  destruct (lt_ c x y) eqn:E; [auto|]. destruct (lt_ c y x) eqn:E2; [auto|].
  left; right. apply (ord_eq _ H). auto.
Qed.

Lemma ord_lt_eq x y z : lt_ c x y = true -> eq_ c y z = true -> lt_ c x z = true.
Proof.
  intros L E. destruct (ord_cases x z) as [[|E2]|L2]; auto; exfalso.
  - pose proof (ord_eq_trans _ H _ _ _ E2 (ord_eq_sym _ _ E)) as E3. apply (ord_eq _ H) in E3. destruct E3; congruence.
  - pose proof (ord_trans _ H _ _ _ L2 L) as L3. apply (ord_eq _ H) in E. destruct E; congruence.
Qed.

Lemma ord_eq_lt x y z : eq_ c x y = true -> lt_ c y z = true -> lt_ c x z = true.
Proof.
  intros E L. destruct (ord_cases x z) as [[|E2]|L2]; auto; exfalso.
  - pose proof (ord_eq_trans _ H _ _ _ (ord_eq_sym _ _ E) E2) as E3. apply (ord_eq _ H) in E3. destruct E3; congruence.
  - pose proof (ord_trans _ H _ _ _ L L2) as L3. apply (ord_eq _ H) in E. destruct E; congruence.
Qed.
End O.

Lemma on_ordered {A B} (f : A -> B) c : ordered c -> ordered (on f c).
Proof.
  intros H. split; cbn.
  - intros; apply (ord_irrefl _ H).
  - intros x y z; apply (ord_trans _ H).
  - intros; apply (ord_eq _ H).
  - intros x y z; apply (ord_eq_trans _ H).
Qed.

Lemma tie_ordered {A} (l : list (cmp A)) : Forall ordered l -> ordered (tie l).
Proof.
  induction 1 as [|c l H F IH].
  - split; cbn; auto; discriminate || tauto.
  - assert (K : forall x y, lt_ (tie (c :: l)) x y = true <->
        lt_ c x y = true \/ (eq_ c x y = true /\ lt_ (tie l) x y = true)).
    { intros x y. cbn. rewrite orb_true_iff, andb_true_iff, negb_true_iff, (ord_eq _ H).
      destruct (lt_ c x y) eqn:E; intuition congruence. }
    assert (E : forall x y, eq_ (tie (c :: l)) x y = true <-> eq_ c x y = true /\ eq_ (tie l) x y = true).
    { intros; cbn; apply andb_true_iff. }
    assert (NL : forall x y, lt_ (tie (c :: l)) x y = false <-> ~ lt_ (tie (c :: l)) x y = true)
      by (intros; rewrite not_true_iff_false; tauto).
    split.
    + intros x. apply NL. rewrite K, (ord_irrefl _ H), (ord_irrefl _ IH). intuition congruence.
    + intros x y z. rewrite !K. intros [L1|[E1 L1]] [L2|[E2 L2]].
      * left. eapply (ord_trans _ H); eauto.
      * left. eapply ord_lt_eq; eauto.
      * left. eapply ord_eq_lt; eauto.
      * right. split; [eapply (ord_eq_trans _ H); eauto|eapply (ord_trans _ IH); eauto].
    + intros x y. rewrite !NL, E, !K. rewrite (ord_eq _ H x y), (ord_eq _ IH x y), (ord_eq _ H y x).
      destruct (lt_ c x y), (lt_ c y x), (lt_ (tie l) x y), (lt_ (tie l) y x); intuition congruence.
    + intros x y z. rewrite !E. intros [? ?] [? ?]. split; [eapply (ord_eq_trans _ H)|eapply (ord_eq_trans _ IH)]; eauto.
Qed.

Lemma vec_ordered {A} (c : cmp A) : ordered c -> ordered (vec c).
Proof.
  intros H. split; cbn.
  - induction x as [|a r IH]; cbn; auto. rewrite (ord_irrefl _ H). auto.
  - induction x as [|a r IH]; intros [|b s] [|d t]; cbn; try congruence.
    intros L1 L2. destruct (ord_cases c H a b) as [[L|E]|L].
    + destruct (ord_cases c H b d) as [[M|M]|M].
      * rewrite (ord_trans _ H _ _ _ L M). auto.
      * rewrite (ord_lt_eq _ H _ _ _ L M). auto.
      * rewrite (ord_asym _ H _ _ M), M in L2. discriminate.
    + apply (ord_eq _ H) in E as E'. destruct E' as [E1 E2]. rewrite E1, E2 in L1.
      destruct (ord_cases c H b d) as [[M|M]|M].
      * rewrite (ord_eq_lt _ H _ _ _ E M). auto.
      * pose proof (ord_eq_trans _ H _ _ _ E M) as EM. apply (ord_eq _ H) in EM. destruct EM as [EM1 EM2]. rewrite EM1, EM2.
        apply (ord_eq _ H) in M. destruct M as [M1 M2]. rewrite M1, M2 in L2. eapply IH; eauto.
      * rewrite (ord_asym _ H _ _ M), M in L2. discriminate.
    + rewrite (ord_asym _ H _ _ L), L in L1. discriminate.
  - induction x as [|a r IH]; intros [|b s]; cbn; try (intuition congruence).
    rewrite andb_true_iff, (ord_eq _ H), IH. destruct (lt_ c a b), (lt_ c b a); intuition congruence.
  - induction x as [|a r IH]; intros [|b s] [|d t]; cbn; try congruence.
    rewrite !andb_true_iff. intros [? ?] [? ?]. split; [eapply (ord_eq_trans _ H)|eapply IH]; eauto.
Qed.

Lemma int_ordered : ordered int_cmp.
Proof. split; cbn; intros; lia. Qed.

Lemma bool_ordered : ordered bool_cmp.
Proof.
  split; cbn.
  - intros []; auto.
  - intros [] [] []; auto.
  - intros [] []; cbn; intuition congruence.
  - intros [] [] []; auto.
Qed.

Lemma pair_ordered {A B} (c : cmp A) (d : cmp B) : ordered c -> ordered d -> ordered (pair_cmp c d).
Proof. intros. apply tie_ordered. repeat (constructor; [apply on_ordered; auto|]). constructor. Qed.

Lemma string_ordered : ordered string_cmp.
Proof. apply vec_ordered, int_ordered. Qed.

Lemma signature_ordered : ordered signature_cmp.
Proof.
  apply tie_ordered. repeat (constructor; [apply on_ordered; auto using int_ordered, vec_ordered|]). constructor.
Qed.

Lemma id_ordered : ordered id_cmp.
Proof. apply tie_ordered. repeat (constructor; [apply on_ordered; auto using int_ordered, bool_ordered|]). constructor. Qed.

Lemma record_ordered (D : Type) (dc : cmp D) : ordered dc -> ordered (record_cmp D dc).
Proof.
  intros H. apply tie_ordered.
  repeat (constructor; [apply on_ordered; auto 8 using int_ordered, string_ordered, id_ordered, signature_ordered, vec_ordered, pair_ordered|]).
  constructor.
Qed.

(** Equality is member-wise equality. *)
Lemma tie_eq_iff {A} (l : list (cmp A)) x y : eq_ (tie l) x y = true <-> Forall (fun c => eq_ c x y = true) l.
Proof.
  induction l as [|c l IH]; cbn.
  - split; auto.
  - rewrite andb_true_iff. cbn in IH. rewrite IH. split; [intros []; auto|intros F; inversion F; auto].
Qed.

Lemma vec_int_eq l m : eq_ (vec int_cmp) l m = true <-> l = m.
Proof.
  revert m. induction l as [|a l IH]; intros [|b m]; cbn; try (intuition congruence).
  rewrite andb_true_iff. cbn in IH. rewrite IH, Z.eqb_eq. split; [intros []; congruence|]. intros E; inversion E; auto.
Qed.

Lemma signature_eq_iff a b : eq_ signature_cmp a b = true <-> a = b.
Proof.
  unfold signature_cmp. rewrite tie_eq_iff. split.
  - intros F. inversion F as [|? ? F1 F']; subst. inversion F' as [|? ? F2 F'']; subst. inversion F'' as [|? ? F3 F''']; subst.
    cbn in F1, F2. change (eq_ (vec int_cmp) (secondary_types a) (secondary_types b) = true) in F3.
    rewrite Z.eqb_eq in F1, F2. apply vec_int_eq in F3. destruct a, b; cbn in *; congruence.
  - intros ->. repeat constructor; cbn; try apply Z.eqb_refl. apply (vec_int_eq _ _). auto.
Qed.

Lemma id_eq_iff a b : eq_ id_cmp a b = true <-> a = b.
Proof.
  destruct a, b. cbn. rewrite !andb_true_iff, !Z.eqb_eq, Bool.eqb_true_iff. split.
  - intros [? [? [? _]]]. congruence.
  - intros E. inversion E. auto.
Qed.

(** Floating point with NaN: every comparison involving it is false. *)
Definition nan_cmp : cmp (option Z) :=
  mkcmp (fun x y => match x, y with Some a, Some b => a <? b | _, _ => false end)
        (fun x y => match x, y with Some a, Some b => a =? b | _, _ => false end).

Definition ex_record {D} (z : D) (t : D) : interaction_record D :=
  mkrec (mksig 14 2212 [13; 211]) (mkid true 5 1) [z; z; z] z t [z; z; z; z] z (mkid true 5 2) z z [z; z; z] z
    [mkid true 5 3; mkid true 5 4] [z; t] [[z; z; z; z]; [z; t; z; t]] [z; z] [z; z] [([120], z); ([121], t)].

Lemma nan_breaks : exists x : interaction_record (option Z),
  lt_ (record_cmp _ nan_cmp) x x = false /\ eq_ (record_cmp _ nan_cmp) x x = false.
Proof. exists (ex_record (Some 0) None). split; vm_compute; reflexivity. Qed.

(** Equality as identity. *)
Definition exact_eq {A} (c : cmp A) : Prop := forall a b, eq_ c a b = true <-> a = b.

Lemma vec_exact {A} (c : cmp A) : exact_eq c -> exact_eq (vec c).
Proof.
  intros H l. induction l as [|a l IH]; intros [|b m]; cbn; try (intuition congruence).
  rewrite andb_true_iff. cbn in IH. rewrite IH, (H a b). split; [intros []; congruence|]. intros E; inversion E; auto.
Qed.
Lemma pair_exact {A B} (c : cmp A) (d : cmp B) : exact_eq c -> exact_eq d -> exact_eq (pair_cmp c d).
Proof.
  intros H K [a b] [a' b']. unfold pair_cmp. rewrite tie_eq_iff. split.
  - intros F. inversion F as [|? ? F1 F']; subst. inversion F' as [|? ? F2 ?]; subst. cbn in F1, F2. apply H in F1. apply K in F2. congruence.
  - intros E. injection E as <- <-. constructor; [apply H; auto|]. constructor; [apply K; auto|constructor].
Qed.
Lemma int_exact : exact_eq int_cmp.
Proof. intros a b. apply Z.eqb_eq. Qed.

Lemma record_eq_iff (D : Type) (dc : cmp D) : exact_eq dc -> exact_eq (record_cmp D dc).
Proof.
  intros H r s. unfold record_cmp. rewrite tie_eq_iff.
  pose proof (vec_exact dc H) as V. pose proof (vec_exact _ id_eq_iff) as VI. pose proof (vec_exact _ V) as VV.
  pose proof (vec_exact _ (pair_exact _ _ (vec_exact _ int_exact) H)) as VP.
  split.
  - intros F.
    repeat match goal with F : Forall _ (_ :: _) |- _ => let G := fresh "G" in let F' := fresh "F" in
      inversion F as [|? ? G F']; subst; clear F; cbn [on eq_] in G end.
    repeat match goal with
    | G : eq_ signature_cmp _ _ = true |- _ => apply signature_eq_iff in G
    | G : eq_ id_cmp _ _ = true |- _ => apply id_eq_iff in G
    | G : eq_ dc _ _ = true |- _ => apply H in G
    | G : eq_ (vec id_cmp) _ _ = true |- _ => apply VI in G
    | G : eq_ (vec dc) _ _ = true |- _ => apply V in G
    | G : eq_ (vec (vec dc)) _ _ = true |- _ => apply VV in G
    | G : eq_ (vec (pair_cmp string_cmp dc)) _ _ = true |- _ => apply VP in G
    end. clear V VI VV VP H. destruct r, s. cbn in *. subst. reflexivity.
  - intros ->. repeat apply Forall_cons; try apply Forall_nil; cbn [on eq_];
    match goal with
    | |- eq_ signature_cmp _ _ = true => apply signature_eq_iff
    | |- eq_ id_cmp _ _ = true => apply id_eq_iff
    | |- eq_ dc _ _ = true => apply H
    | |- eq_ (vec id_cmp) _ _ = true => apply VI
    | |- eq_ (vec dc) _ _ = true => apply V
    | |- eq_ (vec (vec dc)) _ _ = true => apply VV
    | |- eq_ (vec (pair_cmp string_cmp dc)) _ _ = true => apply VP
    end; reflexivity.
Qed.
