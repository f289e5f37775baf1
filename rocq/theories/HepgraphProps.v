(** Property theorems about HepMC3 event graphs (C68). *)
From Coq Require Import String List Bool ZArith Reals Permutation Lia Lra.
From Verif Require Import TraversalModel TreeModel TreeSpec OrderModel InjectorModel HepgraphModel HepgraphSpec HepgraphProofs HepgraphRound.
Import ListNotations.
Open Scope R_scope.

(** C68. Reading ends with a well-formed tree that has every vertex once; the row of a
    vertex describes it, particles with stored ids keep them, and rows are
    attached as the producing vertices say, cycles becoming roots. *)
Theorem C68_import cm c second {W} (gen : W -> particle_id * W) e strict w : graph e ->
  strict = false \/ Forall (complete e) (ev_vertices e) ->
  (Z.of_nat (List.length (ev_vertices e)) <= kNoParent)%Z ->
  exists s t ord f w', import_event cm c second gen e strict w = (Some (Ok s), w') /\ shows s t /\ well_formed t /\
    Permutation ord (ev_vertices e) /\
    (forall i, id_set (stored_id (part e i)) = true -> f i = stored_id (part e i)) /\ imported cm c second e f t ord.
Proof. exact (fun G => import_ok cm c second gen e G strict w). Qed.
Print Assumptions C68_import.

(** In strict mode a missing attribute is reported. *)
Theorem C68_strict cm c second {W} (gen : W -> particle_id * W) e w s w' :
  import_event cm c second gen e true w = (Some (Ok s), w') -> Forall (complete e) (ev_vertices e).
Proof. exact (strict_complete cm c second gen e w s w'). Qed.
Print Assumptions C68_strict.

(** The primary of an attached interaction is a secondary of the interaction above it. *)
Theorem C68_joined cm c second e f t ord u v j k x y : graph e -> imported cm c second e f t ord ->
  nth_error ord j = Some u -> nth_error ord k = Some v -> produced e u v ->
  nth_error t j = Some x -> nth_error t k = Some y -> exists m, continues (row_record x) (row_record y) m.
Proof. exact (joined_rows cm c second e f t ord u v j k x y). Qed.
Print Assumptions C68_joined.

(** Writing a tree and reading it back gives the same records in the same places. *)
Theorem C68_round_trip cm c second computed_mass : cm <> 0 -> c <> 0 -> second <> 0 ->
  forall l, exportable l -> forall {W} (gen : W -> particle_id * W) w, (Z.of_nat (List.length l) <= kNoParent)%Z ->
  exists s t w', import_event cm c second gen (export_tree cm c second computed_mass (flags l)) true w = (Some (Ok s), w') /\
    shows s t /\ well_formed t /\ List.length t = List.length l /\
    forall k q r, nth_error l k = Some (q, r) -> exists y, nth_error t k = Some y /\ row_record y = r /\ row_parent y = parent_no q.
Proof. exact (fun A B C l X W => round_trip cm c second computed_mass A B C l X). Qed.
Print Assumptions C68_round_trip.

(** Two vertices that produce each other's primary, and one below them: all three are
    read, the cycle as roots. *)
Definition ex_particle (pid prod : Z) : particle := mkpart pid 2 (0, 0, 1, 1) 0 prod [] None None.
Definition ex_cycle : event := mkevent [ex_particle 14 (-2); ex_particle 16 (-1); ex_particle 11 (-1)]
  [mkvert (-3) (0, 0, 0, 0) [2%nat] [] [] None; mkvert (-1) (0, 0, 0, 0) [0%nat] [1%nat; 2%nat] [] None;
   mkvert (-2) (0, 0, 0, 0) [1%nat] [0%nat] [] None].
Example C68_cycle : graph ex_cycle.
Proof.
  split.
  - repeat constructor; cbn; intuition lia.
  - intros v H. repeat (destruct H as [<-|H]; [cbn; lia|]). destruct H.
  - intros v i H E. destruct i as [|[|[|i]]]; cbn in E; repeat (destruct H as [<-|H]; [cbn in E |- *; try lia; auto|]); try destruct H;
      destruct i; cbn in E; lia.
Qed.

(** A neutrino interaction whose second secondary decays into two particles. *)
Definition ex_first : record :=
  mkrec (mksig 14 2212 [13; 5914]%Z) (mkid true 7 1) [0; 0; -5] 2 0 [10; 0; 0; 10] (-1) (mkid false 0 0) 1 0 [0; 0; 1] 3
    [mkid true 7 2; mkid true 7 3] [0.1; 0.4] [[4; 0; 0; 3]; [6; 0; 1; 5]] [1; -1] [3; 3] [([66; 106]%Z, 0.3)].
Definition ex_second : record :=
  mkrec (mksig 5914 decay_type [14; 22]%Z) (mkid true 7 3) [0; 0; 1] 3 0.4 [6; 0; 1; 5] (-1) (mkid false 0 0) 0 0 [0; 1; 2] 4
    [mkid true 7 4; mkid true 7 5] [0; 0] [[4; 0; 0; 3]; [2; 0; 1; 2]] [-1; 1] [4; 4] [].
Example C68_case : exportable [(None, ex_first); (Some 0%nat, ex_second)].
Proof.
  split.
  - repeat apply Forall_cons; try apply Forall_nil; split; cbn; auto; try (repeat (apply Forall_cons || apply Forall_nil); cbn; auto; discriminate);
      intros [E|E]; discriminate.
  - cbn. repeat constructor; cbn; intuition discriminate.
  - cbn. repeat constructor; cbn; intuition discriminate.
  - intros [|[|k]] p r H; cbn in H; try discriminate; [|destruct k; discriminate]. injection H as <- <-. split; [lia|].
    exists None, ex_first, 1%nat. split; auto. split; reflexivity.
Qed.
