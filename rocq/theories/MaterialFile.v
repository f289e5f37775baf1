(** Proofs about reading material files. *)
From Coq Require Import String Ascii List Bool ZArith Reals Lia Lra Sorted.
From Verif Require Import TraversalModel MaterialModel MaterialProofs.
Import ListNotations.
Open Scope R_scope.

Section File.
Variable atomic_mass : Z * Z * Z * Z -> option R.
Variable empirical_mass : Z * Z * Z * Z -> R.
Variable avogadro electron_molar_mass : R.
Variable x0 : Z -> Z -> R.
Variable parse_header : string -> string * nat.
Variable parse_component : string -> Z * R.
Notation read := (read_file atomic_mass empirical_mass avogadro electron_molar_mass x0 parse_header parse_component).
Notation comps := (read_components parse_component).
Notation add := (add_material atomic_mass empirical_mass avogadro electron_molar_mass x0).

Definition content (l : list string) : list string := filter (fun x => negb (skipped x)) l.

(** What the lines of one block define. *)
Definition block_fractions (ls : list string) : list (Z * R) :=
  fold_left (fun m l => assign_fraction m (fst (parse_component l)) (snd (parse_component l))) ls [].

Lemma read_components_ok lines : forall fuel n b m last cs rest,
  content lines = cs ++ rest -> List.length cs = n -> (List.length lines <= fuel)%nat ->
  exists lines' b', comps fuel n (mkstream lines (Some last)) b m
    = Some (mkstream lines' (Some last), b', fold_left (fun m l => assign_fraction m (fst (parse_component l)) (snd (parse_component l))) cs m) /\
    content lines' = rest /\ (List.length lines' <= List.length lines)%nat.
Proof.
  induction lines as [|l lines IH]; intros fuel n b m last cs rest C L F.
  - destruct cs; [|discriminate]. cbn in *. subst n. exists [], b. destruct fuel; cbn; auto.
  - destruct cs as [|c cs]; cbn in L; subst n.
    + exists (l :: lines), b. destruct fuel; cbn; auto.
    + destruct fuel as [|fuel]; [cbn in F; lia|]. cbn [read_components getline st_lines st_last]. cbn in C.
      destruct (skipped l) eqn:SK; cbn in C.
      * destruct (IH fuel (S (List.length cs)) l m last (c :: cs) rest C eq_refl ltac:(cbn in F; lia)) as [l' [b' [E [C' LL]]]].
        exists l', b'. rewrite E. repeat split; auto. cbn. lia.
      * injection C as <- C. destruct (parse_component l) as [k v] eqn:P.
        destruct (IH fuel (List.length cs) l (assign_fraction m k v) last cs rest C eq_refl ltac:(cbn in F; lia)) as [l' [b' [E [C' LL]]]].
        exists l', b'. rewrite E. cbn [fold_left]. rewrite P. repeat split; auto. cbn. lia.
Qed.

(** A block: header line and component lines. *)
Definition good_block (b : string * list string) : Prop := snd (parse_header (fst b)) = List.length (snd b).

Definition definitions (bs : list (string * list string)) : list (string * list (Z * R)) :=
  map (fun b => (fst (parse_header (fst b)), block_fractions (snd b))) bs.

Lemma add_ok s n f : table_ok atomic_mass -> snd (add s n f) = Ok tt.
Proof.
  intros T. unfold add_material.
  destruct (comps_ok atomic_mass empirical_mass avogadro electron_molar_mass f T) as [cs E].
  rewrite E. destruct (find_name (m_ids s) n); auto.
Qed.

Lemma read_file_ok bs : table_ok atomic_mass -> Forall good_block bs -> forall fuel lines b s,
  content lines = flat_map (fun x => fst x :: snd x) bs -> (List.length lines + 1 <= fuel)%nat ->
  read fuel (mkstream lines (Some EmptyString)) b s
  = Some (fold_left (fun s d => fst (add s (fst d) (snd d))) (definitions bs) s, Ok tt).
Proof.
  intros T G fuel. revert bs G. induction fuel as [|fuel IH]; intros bs G lines b s C F; [lia|].
  cbn [read_file st_last]. destruct lines as [|l lines].
  - cbn. destruct bs as [|[h cs] bs]; [|discriminate]. cbn. destruct fuel; cbn; auto.
  - cbn [getline st_lines st_last]. cbn in C. cbn in F. destruct (skipped l) eqn:SK; cbn in C.
    + apply IH; auto. cbn. lia.
    + destruct bs as [|[h cs] bs]; [discriminate|]. cbn in C. injection C as -> C.
      inversion G as [|? ? G1 G2]; subst. unfold good_block in G1. cbn in G1.
      destruct (parse_header h) as [name n] eqn:P. cbn in G1. subst n.
      destruct (read_components_ok lines fuel (List.length cs) h [] EmptyString cs (flat_map (fun x => fst x :: snd x) bs) C eq_refl ltac:(lia)) as [l' [b' [E [C' LL]]]].
      rewrite E. fold (block_fractions cs).
      pose proof (add_ok s name (block_fractions cs) T) as A. destruct (add s name (block_fractions cs)) as [s' o] eqn:EA. cbn in A. subst o.
      rewrite (IH bs G2 l' b' s' C' ltac:(lia)). cbn [definitions map fold_left fst snd]. rewrite P. cbn [fst]. rewrite EA. auto.
Qed.

(** ** What a block defines, by itself *)

(** The value on the last line for a component. *)
Fixpoint last_value (ls : list string) (k : Z) : option R :=
  match ls with
  | [] => None
  | l :: r => match last_value r k with
              | Some v => Some v
              | None => if (fst (parse_component l) =? k)%Z then Some (snd (parse_component l)) else None
              end
  end.

Definition increasing (m : list (Z * R)) : Prop := StronglySorted Z.lt (map fst m).

Lemma assign_in m k v : increasing m -> forall j w, In (j, w) (assign_fraction m k v) <-> (j = k /\ w = v) \/ (j <> k /\ In (j, w) m).
Proof.
  unfold increasing. induction m as [|[a b] m IH]; intros SS j w; cbn [assign_fraction].
  - cbn. split; [intros [H|[]]; injection H as -> ->; auto|intros [[-> ->]|[_ []]]; auto].
  - cbn in SS. apply StronglySorted_inv in SS. destruct SS as [S1 S2]. rewrite Forall_forall in S2.
    assert (AB : forall j w, In (j, w) m -> (a < j)%Z) by (intros j' w' I; exact (S2 _ (in_map fst _ _ I))).
    destruct (Z.ltb_spec k a) as [L|L].
    + cbn. split.
      * intros [H|[H|H]]; [injection H as -> ->; auto|injection H as -> ->; right; split; auto; lia|]. right. split; auto. apply AB in H. lia.
      * intros [[-> ->]|[N [H|H]]]; auto.
    + destruct (Z.eqb_spec k a) as [->|N].
      * cbn. split.
        -- intros [H|H]; [injection H as -> ->; auto|]. right. split; auto. apply AB in H. lia.
        -- intros [[-> ->]|[NE [H|H]]]; auto. injection H as -> ->. congruence.
      * cbn. rewrite IH by auto. split.
        -- intros [H|[H|H]]; auto; [injection H as -> ->; right; split; auto|right; tauto].
        -- intros [H|[NE [H|H]]]; auto.
Qed.

Lemma assign_increasing m k v : increasing m -> increasing (assign_fraction m k v).
Proof.
  unfold increasing. induction m as [|[a b] m IH]; intros SS; cbn [assign_fraction]; [repeat constructor|].
  pose proof SS as SS0. cbn in SS. apply StronglySorted_inv in SS. destruct SS as [S1 S2].
  destruct (Z.ltb_spec k a) as [L|L].
  - cbn. constructor; auto. constructor; auto. rewrite Forall_forall in *. intros x X. specialize (S2 x X). lia.
  - destruct (Z.eqb_spec k a) as [->|N]; [exact SS0|]. cbn. constructor; [apply IH; auto|].
    rewrite Forall_forall in *. intros x X. apply in_map_iff in X. destruct X as [[j w] [<- X]]. cbn.
    apply assign_in in X; auto. destruct X as [[-> _]|[_ X]]; [lia|]. apply S2, (in_map fst _ _ X).
Qed.

Lemma last_value_snoc ls l k : last_value (ls ++ [l]) k = if (fst (parse_component l) =? k)%Z then Some (snd (parse_component l)) else last_value ls k.
Proof.
  induction ls as [|x ls IH]; cbn; [destruct (_ =? k)%Z; auto|]. rewrite IH. destruct (fst (parse_component l) =? k)%Z; auto.
Qed.

Lemma block_fractions_ok ls : increasing (block_fractions ls) /\ forall k v, In (k, v) (block_fractions ls) <-> last_value ls k = Some v.
Proof.
  induction ls as [|l ls [IH1 IH2]] using rev_ind; [split; [constructor|cbn; split; [tauto|discriminate]]|].
  unfold block_fractions in *. rewrite fold_left_app. cbn [fold_left]. split; [apply assign_increasing; auto|].
  intros k v. rewrite assign_in by auto. rewrite last_value_snoc. destruct (Z.eqb_spec (fst (parse_component l)) k) as [<-|N].
  - split; [intros [[_ ->]|[NE _]]; congruence|intros H; injection H as <-; auto].
  - rewrite IH2. split; [intros [[-> _]|[_ H]]; [congruence|auto]|auto].
Qed.

Lemma skipped_iff b : skipped b = true <-> b = EmptyString \/ exists c r, b = String c r /\ In c [" "%char; "009"%char; "#"%char].
Proof.
  destruct b as [|c r]; cbn; [tauto|]. rewrite !orb_true_iff, !Ascii.eqb_eq. split.
  - intros H. right. exists c, r. split; auto. intuition.
  - intros [H|[c' [r' [H1 H2]]]]; [discriminate|]. injection H1 as -> ->. intuition.
Qed.

(** A block that is cut short at a final newline is never left. *)
Lemma read_components_end fuel : forall n b m, skipped b = true -> comps fuel (S n) (mkstream [] None) b m = None.
Proof.
  induction fuel as [|fuel IH]; intros n b m S; cbn; auto. rewrite S. apply IH. auto.
Qed.

Lemma read_components_diverges lines : forall fuel n b m last,
  skipped last = true -> (List.length (content lines) < n)%nat ->
  comps fuel n (mkstream lines (Some last)) b m = None.
Proof.
  induction lines as [|l lines IH]; intros fuel n b m last SKL L.
  - destruct n as [|n]; [cbn in L; lia|]. destruct fuel as [|fuel]; auto. cbn. rewrite SKL. apply read_components_end. auto.
  - destruct n as [|n]; [lia|]. destruct fuel as [|fuel]; auto. cbn [read_components getline st_lines st_last]. unfold content in L. cbn [filter] in L.
    destruct (skipped l) eqn:SL; cbn [negb] in L.
    + apply IH; auto.
    + destruct (parse_component l). apply IH; [auto|]. cbn [List.length] in L. unfold content. lia.
Qed.

Theorem truncated_file_hangs header cs fuel s : skipped header = false -> 
  (List.length (content cs) < snd (parse_header header))%nat ->
  read fuel (mkstream (header :: cs) (Some EmptyString)) EmptyString s = None.
Proof.
  intros S L. destruct fuel as [|fuel]; auto. cbn [read_file st_last getline st_lines]. rewrite S.
  destruct (parse_header header) as [name n]. cbn in L. rewrite read_components_diverges; auto.
Qed.
End File.
