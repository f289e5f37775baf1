(** Property theorems about process distribution lists (C22). *)
From Coq Require Import List Bool ZArith Lia.
From Verif Require Import ProcessModel.
Import ListNotations.

(** The calls of a user on an injection process. *)
Inductive pcall := PAdd (d : nat) | PSet (l : list nat) | PAddPhysical (d : nat) | PSetPhysical (l : list nat).

Definition run {V} (equal : V -> V -> bool) (value : nat -> V) (s : process) (c : pcall) : call_result :=
  match c with
  | PAdd d => add_injection V equal value s d
  | PSet l => set_injection s l
  | PAddPhysical d => add_physical_injection s d
  | PSetPhysical l => set_physical s l
  end.

(** The object after a sequence of calls, continuing after exceptions. *)
Definition runs {V} (equal : V -> V -> bool) (value : nat -> V) (l : list pcall) : process :=
  fold_left (fun s c => after (run equal value s c)) l new_process.

Definition not_set_physical (c : pcall) : Prop := match c with PSetPhysical _ => False | _ => True end.
Definition not_set (c : pcall) : Prop := match c with PSetPhysical _ | PSet _ => False | _ => True end.

Lemma existsb_eq p l : existsb (fun q => Nat.eqb p q) l = false <-> ~ In p l.
Proof.
  split; intros H.
  - intros I. assert (existsb (fun q => Nat.eqb p q) l = true); [|congruence].
    apply existsb_exists. exists p. split; auto. apply Nat.eqb_refl.
  - apply not_true_iff_false. rewrite existsb_exists. intros [x [I E]]. apply Nat.eqb_eq in E. subst. auto.
Qed.

Lemma has_dup_nodup l : has_dup l = false <-> NoDup l.
Proof.
  induction l as [|p l IH]; cbn; [split; [constructor|auto]|].
  rewrite orb_false_iff, IH, existsb_eq. split.
  - intros [A B]. constructor; auto.
  - intros H. inversion H; auto.
Qed.

Lemma runs_snoc {V} (equal : V -> V -> bool) value l c :
  runs equal value (l ++ [c]) = after (run equal value (runs equal value l) c).
Proof. unfold runs. rewrite fold_left_app. reflexivity. Qed.

Lemma mirror_inv {V} (equal : V -> V -> bool) value l : Forall not_set_physical l ->
  physical (runs equal value l) = injection (runs equal value l) /\ NoDup (injection (runs equal value l)).
Proof.
  induction l as [|c l IH] using rev_ind; intros F.
  - cbn. split; auto. constructor.
  - apply Forall_app in F. destruct F as [F1 F2]. inversion F2; subst. destruct (IH F1) as [E N].
    rewrite runs_snoc. set (s := runs equal value l) in *.
    destruct c as [d|ds|d|ds]; cbn in *; try contradiction.
    + unfold add_injection. destruct (existsb _ (injection s)) eqn:X; cbn; auto. rewrite E. split; auto.
      assert (NI : ~ In d (injection s)).
      { intros I. assert (existsb (fun x => dist_eqb V equal value x d) (injection s) = true); [|congruence].
        apply existsb_exists. exists d. split; auto. unfold dist_eqb. rewrite Nat.eqb_refl. auto. }
      clear -N NI. induction (injection s) as [|x r IH]; cbn; [constructor; auto; constructor|].
      inversion N; subst. constructor.
      * rewrite in_app_iff. cbn. intros [I|[I|[]]]; auto. subst. apply NI. left. auto.
      * apply IH; auto. intros I. apply NI. right. auto.
    + unfold set_injection. destruct (has_dup ds) eqn:X; cbn; auto. split; auto. apply has_dup_nodup. auto.
    + auto.
Qed.

(** C22: through the interface of the injection process itself the physical
    distributions are the injection distributions, and no pointer is held twice.
    The English statement also asks that no two of them compare equal, and covers
    the inherited setter: see the refutations and the last theorem. *)
Theorem C22_mirror_partial : forall V (equal : V -> V -> bool) value l,
  Forall not_set_physical l ->
  physical (runs equal value l) = injection (runs equal value l) /\ NoDup (injection (runs equal value l)).
Proof. exact (@mirror_inv). Qed.
Print Assumptions C22_mirror_partial.

Lemma rejected_unchanged {V} (equal : V -> V -> bool) value s c s' :
  run equal value s c = Thrown s' -> s' = s.
Proof.
  destruct c as [d|ds|d|ds]; cbn; unfold add_injection, set_injection, add_physical_injection, set_physical.
  - destruct (existsb _ _); intros H; inversion H; auto.
  - destruct (has_dup ds); intros H; inversion H; auto.
  - intros H; inversion H; auto.
  - destruct (has_dup ds); intros H; inversion H; auto.
Qed.

(** C22: a rejected call changes nothing. *)
Theorem C22_rejected_call_changes_nothing : forall V (equal : V -> V -> bool) value s c s',
  run equal value s c = Thrown s' -> s' = s.
Proof. exact (@rejected_unchanged). Qed.
Print Assumptions C22_rejected_call_changes_nothing.

(** [p] stands before [q] in [l]. *)
Definition before {A} (l : list A) (p q : A) : Prop := exists l1 l2 l3, l = l1 ++ p :: l2 ++ q :: l3.

Lemma adds_distinct {V} (equal : V -> V -> bool) value l : Forall not_set l ->
  forall p q, before (injection (runs equal value l)) p q -> equal (value p) (value q) = false.
Proof.
  induction l as [|c l IH] using rev_ind; intros F p q.
  - cbn. intros [l1 [l2 [l3 E]]]. destruct l1; discriminate.
  - apply Forall_app in F. destruct F as [F1 F2]. inversion F2; subst.
    rewrite runs_snoc. set (s := runs equal value l) in *.
    destruct c as [d|ds|d|ds]; cbn in *; try contradiction; auto.
    unfold add_injection. destruct (existsb _ (injection s)) eqn:X; cbn; [apply IH; auto|].
    intros [l1 [l2 [l3 E]]]. destruct l3 as [|x l3 _] using rev_ind.
    + rewrite app_comm_cons, app_assoc in E. apply app_inj_tail in E. destruct E as [E ->].
      assert (I : In p (injection s)) by (rewrite E; apply in_elt).
      destruct (equal (value p) (value q)) eqn:EQ; auto. exfalso.
      assert (existsb (fun x => dist_eqb V equal value x q) (injection s) = true); [|congruence].
      apply existsb_exists. exists p. split; auto. unfold dist_eqb. rewrite EQ. apply orb_true_r.
    + apply (IH F1). exists l1, l2, l3.
      replace (l1 ++ p :: l2 ++ q :: l3 ++ [x]) with ((l1 ++ p :: l2 ++ q :: l3) ++ [x]) in E
        by (rewrite <- !app_assoc; cbn; rewrite <- !app_assoc; reflexivity).
      apply app_inj_tail in E. tauto.
Qed.

(** C22: a process filled by Add calls alone holds no two equal distributions. *)
Theorem C22_adds_hold_no_equal_partial : forall V (equal : V -> V -> bool) value l,
  Forall not_set l -> forall p q, before (injection (runs equal value l)) p q -> equal (value p) (value q) = false.
Proof. exact (@adds_distinct). Qed.
Print Assumptions C22_adds_hold_no_equal_partial.

(** Rejected duplicate by value among four calls. *)
Example C22_case :
  runs Nat.eqb (fun p => Nat.div p 2) [PAdd 2; PAdd 3; PAddPhysical 9; PAdd 4] = mkprocess [2; 4] [2; 4].
Proof. reflexivity. Qed.

(** C22 fails for Set: it accepts two equal distributions behind different pointers. *)
Theorem C22_set_accepts_equal_refuted : exists (value : nat -> nat) p q,
  p <> q /\ value p = value q /\
  run Nat.eqb value new_process (PSet [p; q]) = Changed (mkprocess [p; q] [p; q]) /\
  run Nat.eqb value (mkprocess [p] [p]) (PAdd q) = Thrown (mkprocess [p] [p]).
Proof. exists (fun p => Nat.div p 2), 2, 3. repeat split. discriminate. Qed.
Print Assumptions C22_set_accepts_equal_refuted.

(** C22 fails for the inherited SetPhysicalDistributions: the lists differ. *)
Theorem C22_set_physical_breaks_mirror_refuted : exists (l : list pcall),
  physical (runs Nat.eqb (fun p => p) l) <> injection (runs Nat.eqb (fun p => p) l).
Proof. exists [PAdd 1; PSetPhysical [2]]. cbn. discriminate. Qed.
Print Assumptions C22_set_physical_breaks_mirror_refuted.

Lemma accepted_iff {V} (equal : V -> V -> bool) value l d :
  (existsb (fun x => dist_eqb V equal value x d) l = false) <-> (forall x, In x l -> x <> d /\ equal (value x) (value d) = false).
Proof.
  split.
  - intros H x I. split.
    + intros ->. assert (existsb (fun x => dist_eqb V equal value x d) l = true); [|congruence].
      apply existsb_exists. exists d. split; auto. unfold dist_eqb. rewrite Nat.eqb_refl. auto.
    + destruct (equal (value x) (value d)) eqn:E; auto. exfalso.
      assert (existsb (fun x => dist_eqb V equal value x d) l = true); [|congruence].
      apply existsb_exists. exists x. split; auto. unfold dist_eqb. rewrite E. apply orb_true_r.
  - intros H. apply not_true_iff_false. rewrite existsb_exists. intros [x [I E]]. destruct (H x I) as [A B].
    unfold dist_eqb in E. rewrite B, orb_false_r in E. apply Nat.eqb_eq in E. auto.
Qed.

Lemma adds_accept {V} (equal : V -> V -> bool) value :
  (forall s d, (forall x, In x (injection s) -> x <> d /\ equal (value x) (value d) = false) ->
     add_injection V equal value s d = Changed (mkprocess (injection s ++ [d]) (physical s ++ [d]))) /\
  (forall s d x, In x (injection s) -> x = d \/ equal (value x) (value d) = true -> add_injection V equal value s d = Thrown s) /\
  (forall l d, (forall x, In x l -> x <> d /\ equal (value x) (value d) = false) -> add_physical V equal value l d = Some (l ++ [d])) /\
  (forall l d x, In x l -> x = d \/ equal (value x) (value d) = true -> add_physical V equal value l d = None).
Proof.
  assert (T : forall l d x, In x l -> x = d \/ equal (value x) (value d) = true -> existsb (fun x => dist_eqb V equal value x d) l = true).
  { intros l d x I H. apply existsb_exists. exists x. split; auto. unfold dist_eqb. destruct H as [-> | ->]; [rewrite Nat.eqb_refl; auto|apply orb_true_r]. }
  unfold add_injection, add_physical. split; [|split; [|split]].
  - intros s d H. apply accepted_iff in H. rewrite H. auto.
  - intros s d x I H. rewrite (T _ d x); auto.
  - intros l d H. apply accepted_iff in H. rewrite H. auto.
  - intros l d x I H. rewrite (T _ d x); auto.
Qed.

(** C22: Add, for injection and for physical processes, puts a new distribution last
    and rejects one that is equal to one already there. *)
Theorem C22_add_accepts_exactly_new : forall V (equal : V -> V -> bool) value,
  (forall s d, (forall x, In x (injection s) -> x <> d /\ equal (value x) (value d) = false) ->
     add_injection V equal value s d = Changed (mkprocess (injection s ++ [d]) (physical s ++ [d]))) /\
  (forall s d x, In x (injection s) -> x = d \/ equal (value x) (value d) = true -> add_injection V equal value s d = Thrown s) /\
  (forall l d, (forall x, In x l -> x <> d /\ equal (value x) (value d) = false) -> add_physical V equal value l d = Some (l ++ [d])) /\
  (forall l d x, In x l -> x = d \/ equal (value x) (value d) = true -> add_physical V equal value l d = None).
Proof. exact (@adds_accept). Qed.
Print Assumptions C22_add_accepts_exactly_new.

Example C22_add_case : add_physical nat Nat.eqb (fun p => Nat.div p 2) [2; 4] 6 = Some [2; 4; 6] /\ add_physical nat Nat.eqb (fun p => Nat.div p 2) [2; 4] 5 = None.
Proof. split; reflexivity. Qed.
