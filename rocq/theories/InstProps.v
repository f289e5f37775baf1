(** The names of GDML definitions: theorems. *)
From Coq Require Import List Bool Arith Lia Ascii String Permutation.
From Verif Require Import GdmlModel GdmlProofs GdmlLoopModel InstModel InstSpec InstProofs InstStore InstFlat.
Import ListNotations.
Open Scope char_scope.

(** ** C145: pointer suffixes *)

(** C145: StripPointerSuffix removes exactly the addresses of pointers: 0x and at least seven hexadecimal
    digits at the end of a longer name. *)
Theorem C145_strip : forall enabled n b, strip enabled n = b <-> base enabled n b.
Proof. intros. symmetry. apply base_strip. Qed.
Print Assumptions C145_strip.

(** C145: every name means one name. *)
Theorem C145_meaning : forall enabled n, exists! b, base enabled n b.
Proof.
  intros en n. exists (strip en n). split; [apply strip_base|]. intros b B. now apply base_strip.
Qed.
Print Assumptions C145_meaning.

(** C145: numbered names are distinct, and the number and the name can be read back. *)
Theorem C145_numbered : forall n i, numbered n (flat n i) /\ (n <> [] -> parse_flat (flat n i) = Some (n, i))
  /\ forall m j, flat n i = flat m j -> n = m /\ i = j.
Proof. intros n i. split; [apply flat_numbered|split; [apply parse_back|apply flat_parts]]. Qed.
Print Assumptions C145_numbered.

(** C145 is false of removing twice: a name with two addresses loses them one at a time, so that a
    name once stripped may be changed by the next reader. *)
Theorem C145_twice_refuted : exists n, strip true (strip true n) <> strip true n.
Proof. exists (text "Si0x12345670x7654321"). vm_compute. discriminate. Qed.
Print Assumptions C145_twice_refuted.

Example C145_case : strip true (text "Si0x7f3a4c002a") = text "Si" /\ strip true (text "Mat0xbeef") = text "Mat0xbeef"
  /\ strip false (text "Si0x7f3a4c002a") = text "Si0x7f3a4c002a" /\ flat (text "Fe") 11 = text "Fe__12".
Proof. repeat split; vm_compute; reflexivity. Qed.

(** ** C146: no definition is lost *)

(** C146: after Flatten every definition of the document is in the map, itself or one that the equality
    takes for it, under its name or a number of its name; whatever the order of the hash maps. *)
Theorem C146_kept : forall (T : Type) (eq : T -> T -> bool) (set_name : T -> list ascii -> T) enabled al log keys order dest,
  (forall t a b, set_name (set_name t a) b = set_name t b) ->
  no_clash enabled log ->
  let st := store_all eq enabled log (fresh al) in
  names_of enabled log keys -> NoDup order ->
  (forall n, In n order <-> In n keys /\ sole st n = true) ->
  forall o t b, In (o, t) log -> base enabled o b ->
  exists k u, flatten set_name st keys order dest k = Some (set_name u k) /\ same eq u t /\ (k = b \/ numbered b k).
Proof.
  intros T eq sn en al log keys order dest SN NC st K O1 O2 o t b I B.
  pose proof (all_holds eq en al log) as H. fold st in H. apply base_strip in B. subst b.
  destruct (h_all _ _ _ _ _ H _ _ I) as (u & U & SU). apply In_nth_error in U as [i U].
  assert (O2' : forall n, In n order <-> In n keys /\ List.length (instances st n) = 1%nat).
  { intros n. rewrite O2. unfold sole. now rewrite Nat.eqb_eq. }
  destruct (final_key sn eq en al log st H NC keys order K O1 O2' SN dest _ _ _ U) as (k & _ & A & D).
  exists k, u. auto.
Qed.
Print Assumptions C146_kept.

(** C146: a name with one definition only is a key of the map, and all that is stored under it is this
    definition. *)
Theorem C146_sole : forall (T : Type) (eq : T -> T -> bool) (set_name : T -> list ascii -> T) enabled al log keys order dest,
  (forall t a b, set_name (set_name t a) b = set_name t b) ->
  no_clash enabled log ->
  let st := store_all eq enabled log (fresh al) in
  names_of enabled log keys -> NoDup order ->
  (forall n, In n order <-> In n keys /\ sole st n = true) ->
  forall b, In b order ->
  exists u, flatten set_name st keys order dest b = Some (set_name u b) /\
    forall o t, In (o, t) log -> base enabled o b -> same eq u t.
Proof.
  intros T eq sn en al log keys order dest SN NC st K O1 O2 b I.
  pose proof (all_holds eq en al log) as H. fold st in H.
  assert (O2' : forall n, In n order <-> In n keys /\ List.length (instances st n) = 1%nat).
  { intros n. rewrite O2. unfold sole. now rewrite Nat.eqb_eq. }
  apply O2' in I as [I L]. destruct (instances st b) as [|u [|v l]] eqn:E; try discriminate.
  exists u. split; [exact (flatten_sole sn eq en al log st H NC keys order K O1 O2' SN dest b u E)|].
  intros o t J B. apply base_strip in B. destruct (h_all _ _ _ _ _ H _ _ J) as (w & W & SW). rewrite B, E in W.
  destruct W as [->|[]]. exact SW.
Qed.
Print Assumptions C146_sole.

(** C146: keys that are neither a name of the document nor a number of one keep what they had. *)
Theorem C146_others : forall (T : Type) (eq : T -> T -> bool) (set_name : T -> list ascii -> T) enabled al log keys order dest,
  let st := store_all eq enabled log (fresh al) in
  names_of enabled log keys ->
  (forall n, In n order <-> In n keys /\ sole st n = true) ->
  forall k, (forall b, defined enabled log b -> k <> b /\ ~ numbered b k) ->
  flatten set_name st keys order dest k = dest k.
Proof.
  intros T eq sn en al log keys order dest st K O2 k F.
  assert (O2' : forall n, In n order <-> In n keys /\ List.length (instances st n) = 1%nat).
  { intros n. rewrite O2. unfold sole. now rewrite Nat.eqb_eq. }
  exact (flatten_other sn en log st keys order K O2' dest k F).
Qed.
Print Assumptions C146_others.

(** C146 is false of a name that looks like a number of another name: Fe is defined twice and Fe__2 once;
    then the second definition of Fe is lost. *)
Theorem C146_lost_refuted : exists (log : list (list ascii * nat)) keys order,
  let st := store_all Nat.eqb true log (fresh (fun _ => None)) in
  names_of true log keys /\ NoDup order /\ (forall n, In n order <-> In n keys /\ sole st n = true) /\
  In (text "Fe", 2%nat) log /\ forall k, flatten (fun t _ => t) st keys order (fun _ => None) k <> Some 2%nat.
Proof.
  exists [(text "Fe", 1%nat); (text "Fe", 2%nat); (text "Fe__2", 3%nat)], [text "Fe"; text "Fe__2"], [text "Fe__2"].
  split; [|split; [|split; [|split]]].
  - split; [repeat constructor; cbn; intuition discriminate|]. intros b. split.
    + intros [<-|[<-|[]]].
      * exists (text "Fe"), 1%nat. split; [now left|]. apply base_strip. vm_compute. reflexivity.
      * exists (text "Fe__2"), 3%nat. split; [right; right; now left|]. apply base_strip. vm_compute. reflexivity.
    + intros (o & t & [I|[I|[I|[]]]] & B); injection I as <- <-; apply base_strip in B; vm_compute in B; subst b; cbn; auto.
  - repeat constructor. cbn. tauto.
  - intros n. cbn [In]. split.
    + intros [<-|[]]. split; [auto|vm_compute; reflexivity].
    + intros [[<-|[<-|[]]] S]; [vm_compute in S; discriminate|now left].
  - right. now left.
  - intros k. destruct (list_eq_dec ascii_dec k (text "Fe__1")) as [->|A]; [vm_compute; discriminate|].
    destruct (list_eq_dec ascii_dec k (text "Fe__2")) as [->|B]; [vm_compute; discriminate|].
    destruct (list_eq_dec ascii_dec k (text "Fe__2__1")) as [->|C]; [vm_compute; discriminate|].
    unfold flatten. rewrite rename_all_out.
    + rewrite spread_all_out; [discriminate|]. intros n j [<-|[<-|[]]] J.
      * assert (L : (j < 2)%nat) by (vm_compute in J; lia). destruct j as [|[|j]]; [exact A|exact B|lia].
      * assert (L : (j < 1)%nat) by (vm_compute in J; lia). destruct j as [|j]; [exact C|lia].
    + intros n [<-|[]]. split; [exact B|exact C].
Qed.
Print Assumptions C146_lost_refuted.

(** C146 is false of such names even when each is defined once: what A means depends on the order of the
    hash map. *)
Theorem C146_order_refuted : exists (log : list (list ascii * nat)) keys order order',
  let st := store_all Nat.eqb true log (fresh (fun _ => None)) in
  NoDup keys /\ Permutation.Permutation order order' /\ Forall (fun n => In n keys /\ sole st n = true) order /\
  flatten (fun t _ => t) st keys order (fun _ => None) (text "A") = Some 1%nat /\
  flatten (fun t _ => t) st keys order' (fun _ => None) (text "A") = Some 2%nat.
Proof.
  exists [(text "A", 1%nat); (text "A__1", 2%nat)], [text "A"; text "A__1"], [text "A"; text "A__1"], [text "A__1"; text "A"].
  split; [repeat constructor; cbn; intuition discriminate|].
  split; [apply Permutation.perm_swap|].
  split; [apply Forall_cons; [|apply Forall_cons; [|constructor]]; (split; [cbn; auto|reflexivity])|].
  split; vm_compute; reflexivity.
Qed.
Print Assumptions C146_order_refuted.

(** Three definitions of two names. *)
Definition document3 : list (list ascii * nat) :=
  [(text "Si0x1234567", 1%nat); (text "Si0x7654321", 2%nat); (text "Fe", 3%nat)].
Lemma document3_defined : forall b, defined true document3 b <-> b = text "Si" \/ b = text "Fe".
Proof.
  intros b. split.
  - intros (o & t & [I|[I|[I|[]]]] & B); injection I as <- <-; apply base_strip in B; vm_compute in B; subst b; auto.
  - intros [-> | ->].
    + exists (text "Si0x1234567"), 1%nat. split; [now left|]. apply base_strip. reflexivity.
    + exists (text "Fe"), 3%nat. split; [right; right; now left|]. apply base_strip. reflexivity.
Qed.
Lemma document3_free : no_clash true document3.
Proof.
  intros a b A B (ds & E & N & F). apply document3_defined in A. apply document3_defined in B.
  assert (X : (List.length b = 2)%nat) by (destruct B; subst; reflexivity).
  rewrite E, !app_length in X. destruct A; subst a; cbn in X; lia.
Qed.
Example C146_case : no_clash true document3 /\ names_of true document3 [text "Si"; text "Fe"] /\
  let st := store_all Nat.eqb true document3 (fresh (fun _ => None)) in
  flatten (fun t _ => t) st [text "Si"; text "Fe"] [text "Fe"] (fun _ => None) (text "Si__2") = Some 2%nat /\
  flatten (fun t _ => t) st [text "Si"; text "Fe"] [text "Fe"] (fun _ => None) (text "Fe") = Some 3%nat.
Proof.
  split; [exact document3_free|]. split.
  - split; [repeat constructor; cbn; intuition discriminate|]. intros b. rewrite document3_defined. cbn. intuition.
  - split; vm_compute; reflexivity.
Qed.

(** ** C147: references *)

(** C147: a volume that refers to a name of the document gets the last definition under exactly this name;
    it gets an exception only if the name has no pointer suffix and two different definitions. *)
Theorem C147_reference : forall (T : Type) (eq : T -> T -> bool) (set_name : T -> list ascii -> T) enabled al log keys order dest,
  (forall t a b, set_name (set_name t a) b = set_name t b) ->
  no_clash enabled log ->
  (forall o, al o <> None -> enabled = true /\ exists b, suffixed o b) ->
  let st := store_all eq enabled log (fresh al) in
  names_of enabled log keys -> NoDup order ->
  (forall n, In n order <-> In n keys /\ sole st n = true) ->
  forall raw t, raw <> [] -> latest log raw t ->
  match reference (flatten_aliases st keys) (instance_counts st keys) raw with
  | Val k => exists u, flatten set_name st keys order dest k = Some (set_name u k) /\ same eq u t
  | Thrown => exists o1 t1 o2 t2, In (o1, t1) log /\ In (o2, t2) log /\
                base enabled o1 raw /\ base enabled o2 raw /\ eq t1 t2 = false
  end.
Proof.
  intros T eq sn en al log keys order dest SN NC AL st K O1 O2 raw t NE L.
  pose proof (all_holds eq en al log) as H. fold st in H.
  assert (O2' : forall n, In n order <-> In n keys /\ List.length (instances st n) = 1%nat).
  { intros n. rewrite O2. unfold sole. now rewrite Nat.eqb_eq. }
  apply (reference_right sn eq en al log st H NC keys order K O1 O2' SN dest raw t NE); [|exact L].
  intros o O. destruct (AL o O) as [-> [b B]]. rewrite (strip_suffix _ _ B). intros E. subst b.
  destruct B as (h & E & _ & _ & _). apply (f_equal (@List.length ascii)) in E. rewrite !app_length in E. cbn in E. lia.
Qed.
Print Assumptions C147_reference.

(** C147: a reference that is resolved while the document is read keeps meaning the last definition before
    it, whatever is defined afterwards. *)
Theorem C147_resolved : forall (T : Type) (eq : T -> T -> bool) (set_name : T -> list ascii -> T) enabled al log1 log2 keys order dest,
  (forall t a b, set_name (set_name t a) b = set_name t b) ->
  no_clash enabled (log1 ++ log2) ->
  let st1 := store_all eq enabled log1 (fresh al) in
  let st := store_all eq enabled (log1 ++ log2) (fresh al) in
  names_of enabled (log1 ++ log2) keys -> NoDup order ->
  (forall n, In n order <-> In n keys /\ sole st n = true) ->
  forall ref b t, base enabled ref b -> latest_of enabled log1 b t ->
  let s := resolve enabled st1 ref in
  let k := match renames st keys s with Some c => c | None => s end in
  exists u, flatten set_name st keys order dest k = Some (set_name u k) /\ same eq u t.
Proof.
  intros T eq sn en al log1 log2 keys order dest SN NC st1 st K O1 O2 ref b t B L s k.
  pose proof (all_holds eq en al (log1 ++ log2)) as H. fold st in H.
  pose proof (all_holds eq en al log1) as H1. fold st1 in H1.
  assert (O2' : forall n, In n order <-> In n keys /\ List.length (instances st n) = 1%nat).
  { intros n. rewrite O2. unfold sole. now rewrite Nat.eqb_eq. }
  apply base_strip in B. destruct (h_last _ _ _ _ _ H1 _ _ L) as (u & U & SU).
  assert (P : forall l s0 c, exists x, instances (store_all eq en l s0) c = instances s0 c ++ x).
  { intros l. induction l as [|[o v] l IH]; intros s0 c; [exists []; cbn; now rewrite app_nil_r|].
    cbn [store_all fold_left fst snd]. fold (store_all eq en l (store eq en s0 o v)).
    destruct (IH (store eq en s0 o v) c) as [x X]. rewrite X.
    assert (Y : exists y, instances (store eq en s0 o v) c = instances s0 c ++ y).
    { unfold store. destruct (rev (instances s0 (strip en o))) as [|bk r]; [|destruct (eq bk v)]; cbn [instances].
      - destruct (str_eqb c (strip en o)) eqn:Q; [apply str_eqb_eq in Q; subst c; now exists [v]|exists []; now rewrite app_nil_r].
      - exists []. now rewrite app_nil_r.
      - destruct (str_eqb c (strip en o)) eqn:Q; [apply str_eqb_eq in Q; subst c; now exists [v]|exists []; now rewrite app_nil_r]. }
    destruct Y as [y Y]. rewrite Y. exists (y ++ x). now rewrite app_assoc. }
  assert (E : st = store_all eq en log2 st1) by (unfold st, st1, store_all; now rewrite fold_left_app).
  destruct (P log2 st1 b) as [x X]. rewrite <- E in X.
  assert (U' : nth_error (instances st b) (List.length (instances st1 b) - 1) = Some u).
  { rewrite X. rewrite nth_error_app1; [exact U|]. apply nth_error_Some. now rewrite U. }
  assert (S : s = flat b (List.length (instances st1 b) - 1)).
  { unfold s, resolve. rewrite B, (h_counts _ _ _ _ _ H1). destruct (instances st1 b) as [|y l] eqn:Q; [discriminate|]. reflexivity. }
  destruct (final_key sn eq en al (log1 ++ log2) st H NC keys order K O1 O2' SN dest _ _ _ U') as (k' & A & D & _).
  exists u. assert (KE : k = k') by (unfold k; rewrite S; exact A). rewrite KE. now split.
Qed.
Print Assumptions C147_resolved.

(** C147: while the document is read, Lookup finds the last definition under the name: of exactly this name if
    it has a pointer suffix, of all names that mean it if it has none. *)
Theorem C147_lookup : forall (T : Type) (eq : T -> T -> bool) enabled al log o t,
  (forall o, al o <> None -> enabled = true /\ exists b, suffixed o b) ->
  latest log o t -> (base enabled o o -> latest_of enabled log o t) ->
  exists u, lookup enabled (store_all eq enabled log (fresh al)) o = Some u /\ same eq u t.
Proof.
  intros T eq en al log o t AL L LO.
  apply (lookup_right eq en al log _ (all_holds eq en al log)); [|exact L|].
  - intros x X. destruct (AL x X) as [-> [b B]]. rewrite (strip_suffix _ _ B). intros E. subst b.
    destruct B as (h & E & _ & _ & _). apply (f_equal (@List.length ascii)) in E. rewrite !app_length in E. cbn in E. lia.
  - intros E. apply LO. now apply base_strip.
Qed.
Print Assumptions C147_lookup.

(** The aliases of another tracker put into this one; modelling device for the shared map of
    GDMLParserPrivate.h:297. *)
Definition with_aliases {T} (st : tracker T) (al : list ascii -> option (list ascii)) : tracker T :=
  mktracker (instances st) (counts st) al.

(** C147 is false of names shared by elements and materials: the element Si is defined once and the material
    Si twice; flattening the elements makes the alias of the first material mean Si, which is no material. *)
Theorem C147_shared_refuted : exists (elements materials : list (list ascii * nat)) raw t,
  let e := store_all Nat.eqb true elements (fresh (fun _ => None)) in
  let m := store_all Nat.eqb true materials (fresh (aliases e)) in
  let al := flatten_aliases (with_aliases e (aliases m)) [text "Si"] in
  let m' := with_aliases m al in
  latest materials raw t /\
  exists k, reference (flatten_aliases m' [text "Si"]) (instance_counts m' [text "Si"]) raw = Val k /\
    flatten (fun t _ => t) m' [text "Si"] [] (fun _ => None) k = None.
Proof.
  exists [(text "Si", 9%nat)], [(text "Si0x1234567", 1%nat); (text "Si0x7654321", 2%nat)], (text "Si0x1234567"), 1%nat.
  split.
  - exists [], [(text "Si0x7654321", 2%nat)]. split; [reflexivity|]. repeat constructor. discriminate.
  - exists (text "Si"). split; vm_compute; reflexivity.
Qed.
Print Assumptions C147_shared_refuted.

Example C147_case : latest document3 (text "Si0x1234567") 1%nat /\
  let st := store_all Nat.eqb true document3 (fresh (fun _ => None)) in
  reference (flatten_aliases st [text "Si"; text "Fe"]) (instance_counts st [text "Si"; text "Fe"]) (text "Si0x1234567") = Val (text "Si__1")
  /\ reference (flatten_aliases st [text "Si"; text "Fe"]) (instance_counts st [text "Si"; text "Fe"]) (text "Fe") = Val (text "Fe")
  /\ reference (flatten_aliases st [text "Si"; text "Fe"]) (instance_counts st [text "Si"; text "Fe"]) (text "Si") = Thrown
  /\ lookup true st (text "Si0x1234567") = Some 1%nat /\ lookup true st (text "Si") = Some 2%nat.
Proof.
  split; [exists [], [(text "Si0x7654321", 2%nat); (text "Fe", 3%nat)]; split; [reflexivity|repeat constructor; discriminate]|].
  repeat split; vm_compute; reflexivity.
Qed.
