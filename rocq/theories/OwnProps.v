(** Properties C187 and C188: injectors that make their own position distribution. *)
From Coq Require Import List Bool Arith Lia.
From Verif Require Import OwnModel.
Import ListNotations.

Section Props.
Context {D : Type}.
Variable same : D -> D -> bool.
Variable is_vertex : D -> bool.
Notation run := (run same is_vertex).
Notation construct := (construct same is_vertex).
Notation placed_by := (placed_by is_vertex).

Lemma find_some_app (l : list D) d : is_vertex d = true -> exists v, find_vertex is_vertex (l ++ [d]) = Some v.
Proof. intros H. unfold find_vertex. induction l as [|a l IH]; cbn; [rewrite H; eauto|]. destruct (is_vertex a); eauto. Qed.

(** ** C187: construction *)

(** C187: a constructor with a position distribution throws exactly if the process already has an equal distribution; otherwise that distribution is
    appended to the process and nothing else changes. It never ends the program. *)
Theorem C187_construct h p d : is_vertex d = true ->
  (construct h p d = Thrown <-> exists e, In e (h p) /\ same e d = true) /\
  (forall h' i, construct h p d = Made h' i -> h' p = h p ++ [d] /\ (forall q, q <> p -> h' q = h q) /\ i_process i = p /\ i_own i = d) /\
  construct h p d <> Exited.
Proof.
  intros V. unfold OwnModel.construct, add_distribution. destruct (existsb (fun e => same e d) (h p)) eqn:E.
  - apply existsb_exists in E. split; [split; auto|]. split; [intros ? ? [=]|discriminate].
  - assert (S0 : store h p (h p ++ [d]) p = h p ++ [d]) by (unfold store; now rewrite Nat.eqb_refl). rewrite S0.
    destruct (find_some_app (h p) d V) as [v ->]. split; [split; [discriminate|]|].
    + intros (e & I & Q). exfalso. assert (existsb (fun e => same e d) (h p) = true) by (apply existsb_exists; eauto). congruence.
    + split; [|discriminate]. intros h' i [= <- <-]. rewrite S0. repeat split; auto. intros q N. unfold store. apply Nat.eqb_neq in N. now rewrite N.
Qed.

(** C187: after any sequence of constructions a process has its first distributions and after them those of its injectors, in the order in which they were made. *)
Theorem C187_run ops : Forall (fun o => is_vertex (snd o) = true) ops -> forall h, exists h' l, run h ops = Some (h', l) /\
  (forall q, h' q = h q ++ map i_own (filter (fun i => Nat.eqb (i_process i) q) l)) /\ Forall (fun i => is_vertex (i_own i) = true) l.
Proof.
  induction 1 as [|[p d] r V H IH]; intros h; cbn [OwnModel.run].
  - exists h, []. split; [auto|]. split; [|constructor]. intros q. cbn. now rewrite app_nil_r.
  - cbn [snd] in V. destruct (C187_construct h p d V) as (_ & C2 & C3). destruct (construct h p d) as [| |h1 i] eqn:E.
    + apply IH.
    + contradiction.
    + destruct (C2 _ _ eq_refl) as (A1 & A2 & A3 & A4). destruct (IH h1) as (h' & l & -> & Q & F). exists h', (i :: l). split; [auto|]. split; [|constructor; [congruence|auto]].
      intros q. rewrite Q. cbn [filter]. rewrite A3. destruct (Nat.eqb_spec p q) as [<- | N].
      * rewrite A1, <- app_assoc. cbn [map app]. now rewrite A4.
      * now rewrite A2 by auto.
Qed.

(** ** C188: who places the vertex *)

Lemma fold_last (l : list D) : forall acc d, is_vertex d = true -> fold_left (fun acc d => if is_vertex d then Some d else acc) (l ++ [d]) acc = Some d.
Proof. induction l as [|a l IH]; intros acc d V; cbn; [now rewrite V|auto]. Qed.

Lemma filter_none (l : list (@injector D)) q : (forall j, In j l -> i_process j <> q) -> filter (fun i => Nat.eqb (i_process i) q) l = [].
Proof. induction l as [|a l IH]; intros H; cbn; [auto|]. destruct (Nat.eqb_spec (i_process a) q) as [Q|_]; [exfalso; apply (H a); cbn; auto|apply IH; intros; apply H; cbn; auto]. Qed.

(** C188: the vertex of an injector is placed by the distribution whose bounds it gives, as long as no later injector is made from the same process. *)
Theorem C188_placed ops h h' before i after : Forall (fun o => is_vertex (snd o) = true) ops -> run h ops = Some (h', before ++ i :: after) ->
  (forall j, In j after -> i_process j <> i_process i) -> placed_by h' i = Some (bounded_by i).
Proof.
  intros V H N. destruct (C187_run ops V h) as (h2 & l & R & Q & F). assert (h2 = h' /\ l = before ++ i :: after) as [-> ->] by (split; congruence).
  unfold OwnModel.placed_by. rewrite Q. rewrite filter_app. cbn [filter]. rewrite Nat.eqb_refl, (filter_none after) by auto. rewrite map_app. cbn [map].
  rewrite app_assoc. apply fold_last. rewrite Forall_forall in F. apply F. apply in_or_app. cbn. auto.
Qed.

(** C188: if moreover the process came without a vertex distribution and no other injector was made from it, then there is one density for the position, that of the same distribution. *)
Theorem C188_density ops h h' before i after : Forall (fun o => is_vertex (snd o) = true) ops -> run h ops = Some (h', before ++ i :: after) ->
  (forall j, In j before \/ In j after -> i_process j <> i_process i) -> (forall d, In d (h (i_process i)) -> is_vertex d = false) ->
  position_densities is_vertex h' i = [bounded_by i].
Proof.
  intros V H N Z. destruct (C187_run ops V h) as (h2 & l & R & Q & F). assert (h2 = h' /\ l = before ++ i :: after) as [-> ->] by (split; congruence).
  unfold position_densities. rewrite Q, filter_app. rewrite filter_app. cbn [filter]. rewrite Nat.eqb_refl, (filter_none after), (filter_none before) by auto. cbn [map app filter].
  rewrite Forall_forall in F. rewrite (F i) by (apply in_or_app; cbn; auto). assert (E : filter is_vertex (h (i_process i)) = []).
  { clear -Z. induction (h (i_process i)) as [|a r IH]; cbn; [auto|]. rewrite (Z a) by (cbn; auto). apply IH. intros d I. apply Z. cbn. auto. }
  now rewrite E.
Qed.
End Props.
Print Assumptions C187_construct.
Print Assumptions C187_run.
Print Assumptions C188_placed.
Print Assumptions C188_density.

(** Distributions: an energy spectrum, or positions in a disk of a radius. *)
Inductive dist := Energy | Disk (radius : nat).
Definition dist_same (a b : dist) : bool := match a, b with Energy, Energy => true | Disk r, Disk s => Nat.eqb r s | _, _ => false end.
Definition is_disk (d : dist) : bool := match d with Disk _ => true | _ => false end.
Definition start : heap := fun _ => [Energy].

Example C187_case : exists h i, construct dist_same is_disk start 0 (Disk 5) = Made h i /\ h 0 = [Energy; Disk 5] /\ h 1 = [Energy].
Proof. eexists _, _. split; [reflexivity|]. split; reflexivity. Qed.
Example C188_case : exists h i j, run dist_same is_disk start [(0, Disk 5); (1, Disk 7)] = Some (h, [i; j]) /\ placed_by is_disk h i = Some (Disk 5) /\ position_densities is_disk h i = [Disk 5].
Proof. eexists _, _, _. split; [reflexivity|]. split; reflexivity. Qed.

(** Finding (C187): a second injector with the same parameters cannot be made from the same process: the first constructor has changed the process it was given (RangedLeptonInjector.cxx:43, Process.cxx:127-131). *)
Theorem C187_again_refuted : exists h i, construct dist_same is_disk start 0 (Disk 5) = Made h i /\ construct dist_same is_disk h 0 (Disk 5) = Thrown.
Proof. eexists _, _. split; reflexivity. Qed.
Print Assumptions C187_again_refuted.

(** Finding (C188): when two injectors are made from one process, the vertices of the first are placed by the distribution of the second while its bounds are those of its own, and both densities enter its generation probability (RangedLeptonInjector.cxx:42-44 and 60-62). *)
Theorem C188_shared_refuted : exists h i j, run dist_same is_disk start [(0, Disk 5); (0, Disk 7)] = Some (h, [i; j]) /\
  bounded_by i = Disk 5 /\ placed_by is_disk h i = Some (Disk 7) /\ position_densities is_disk h i = [Disk 5; Disk 7] /\
  i_base j = Disk 5 /\ bounded_by j = Disk 7.
Proof. eexists _, _, _. split; [reflexivity|]. repeat split; reflexivity. Qed.
Print Assumptions C188_shared_refuted.
