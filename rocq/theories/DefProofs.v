(** Lemmas on the <define> sections. *)
From Coq Require Import Reals ZArith Bool List String Lra Lia Arith.
From Verif Require Import VectorModel DefModel DefSpec.
Import ListNotations.
Open Scope R_scope.

Section D.
Context {Q T : Type} (t : texts Q T).

Lemma turns_then : forall n k m m', turns t n m = Running m' -> turns t (n + k) m = turns t k m'.
Proof.
  induction n as [|n IH]; intros k m m' H; cbn in *.
  - injection H as <-. reflexivity.
  - destruct (turn t m) as [m1| |]; try discriminate H. apply IH. exact H.
Qed.
Lemma turns_done : forall n k m d, turns t n m = Done d -> turns t (n + k) m = Done d.
Proof.
  induction n as [|n IH]; intros k m d H; cbn in *; [discriminate H|].
  destruct (turn t m) as [m1| |]; try discriminate H; [apply IH|]; exact H.
Qed.
Lemma turns_failed : forall n k m, turns t n m = Failed -> turns t (n + k) m = Failed.
Proof.
  induction n as [|n IH]; intros k m H; cbn in *; [discriminate H|].
  destruct (turn t m) as [m1| |]; try discriminate H; [apply IH|]; exact H.
Qed.

Scheme means_mut := Induction for means Sort Prop
with repeats_mut := Induction for repeats Sort Prop.

Definition room (ns : list dnode) (st : list frame) : Prop := (deepest ns + S (List.length st) <= MAX_DEPTH)%nat.

Lemma room_tail : forall n ns st, room (n :: ns) st -> room ns st.
Proof. intros n ns st H. unfold room, deepest in *. cbn in H. lia. Qed.
Lemma room_body : forall v f e s body ns lp st, room (Loop v f e s body :: ns) st ->
  room body (mkframe ns lp :: st) /\ Nat.leb MAX_DEPTH (S (List.length st)) = false.
Proof.
  intros v f e s body ns lp st H. unfold room, deepest in *. cbn [map fold_right nesting List.length] in *.
  split; [lia|]. apply Nat.leb_gt. lia.
Qed.

(** What the meaning gives, the stack reaches. *)
Lemma reaches : forall b ns d d', means t b ns d d' -> forall st lp depth,
  (0 <= depth)%Z -> Z.ltb 0 depth = b -> room ns st ->
  exists n, turns t n (mkmachine d (mkframe ns lp :: st) depth) = Running (mkmachine d' (mkframe [] lp :: st) depth).
Proof.
  apply (means_mut Q T t
    (fun b ns d d' _ => forall st lp depth, (0 <= depth)%Z -> Z.ltb 0 depth = b -> room ns st ->
      exists n, turns t n (mkmachine d (mkframe ns lp :: st) depth) = Running (mkmachine d' (mkframe [] lp :: st) depth))
    (fun v y z body d d' _ => forall st depth, (0 <= depth)%Z -> room body st ->
      exists n, turns t n (mkmachine d (mkframe body (Some (v, y, z, body)) :: st) (depth + 1)) = Running (mkmachine d' st depth))).
  - intros. exists 0%nat. reflexivity.
  - intros b l ns d d1 d2 E _ IH st lp depth D B R. destruct (IH st lp depth D B (room_tail _ _ _ R)) as [n N].
    exists (S n). cbn [turns turn m_stack rest m_data m_depth looping]. rewrite B, E. exact N.
  - intros b v f e s body ns d d1 E _ IH st lp depth D B R. destruct (IH st lp depth D B (room_tail _ _ _ R)) as [n N].
    exists (S n). cbn [turns turn m_stack rest m_data m_depth looping List.length].
    destruct (room_body _ _ _ _ _ _ lp _ R) as [_ L]. rewrite L, E. exact N.
  - intros b v f e s body ns d d1 d2 x y z E _ IH1 _ IH2 st lp depth D B R.
    destruct (room_body _ _ _ _ _ _ lp _ R) as [RB L].
    destruct (IH1 (mkframe ns lp :: st) depth D RB) as [n1 N1].
    destruct (IH2 st lp depth D B (room_tail _ _ _ R)) as [n2 N2].
    exists (S (n1 + n2)). cbn [turns turn m_stack rest m_data m_depth looping List.length]. rewrite L, E.
    rewrite (turns_then _ _ _ _ N1). exact N2.
  - intros v y z body d d1 _ IH E st depth D R.
    destruct (IH st (Some (v, y, z, body)) (depth + 1)%Z ltac:(lia) ltac:(apply Z.ltb_lt; lia) R) as [n N].
    exists (n + 1)%nat. rewrite (turns_then _ _ _ _ N). cbn [turns turn m_stack rest m_data m_depth looping].
    rewrite E. do 2 f_equal. lia.
  - intros v y z body d d1 d2 _ IH1 E _ IH2 st depth D R.
    destruct (IH1 st (Some (v, y, z, body)) (depth + 1)%Z ltac:(lia) ltac:(apply Z.ltb_lt; lia) R) as [n1 N1].
    destruct (IH2 st depth D R) as [n2 N2].
    exists (n1 + S n2)%nat. rewrite (turns_then _ _ _ _ N1). cbn [turns turn m_stack rest m_data m_depth looping].
    rewrite E. exact N2.
Qed.

(** What the stack reaches, the meaning gives. *)
Lemma explained : forall n,
  (forall ns d lp st depth d', (0 <= depth)%Z -> room ns st ->
    turns t n (mkmachine d (mkframe ns lp :: st) depth) = Done d' ->
    exists d1 k, (k <= n)%nat /\ means t (Z.ltb 0 depth) ns d d1 /\
      turns t k (mkmachine d1 (mkframe [] lp :: st) depth) = Done d') /\
  (forall v y z body d st depth d', (0 <= depth)%Z -> room body st ->
    turns t n (mkmachine d (mkframe body (Some (v, y, z, body)) :: st) (depth + 1)) = Done d' ->
    exists d1 k, (k < n)%nat /\ repeats t v y z body d d1 /\ turns t k (mkmachine d1 st depth) = Done d').
Proof.
  intros n. induction n as [n IH] using (well_founded_induction lt_wf).
  assert (A : forall ns d lp st depth d', (0 <= depth)%Z -> room ns st ->
    turns t n (mkmachine d (mkframe ns lp :: st) depth) = Done d' ->
    exists d1 k, (k <= n)%nat /\ means t (Z.ltb 0 depth) ns d d1 /\
      turns t k (mkmachine d1 (mkframe [] lp :: st) depth) = Done d').
  { intros ns d lp st depth d' D R H. destruct ns as [|[l|v f e s body] ns].
    - exists d, n. split; [lia|]. split; [constructor|exact H].
    - destruct n as [|n]; [discriminate H|]. cbn [turns turn m_stack rest m_data m_depth looping] in H.
      destruct (effect t (Z.ltb 0 depth) l d) as [d1|] eqn:E; [|discriminate H].
      destruct (IH n ltac:(lia)) as [IA _].
      destruct (IA ns d1 lp st depth d' D (room_tail _ _ _ R) H) as [d2 [k [K [M G]]]].
      exists d2, k. split; [lia|]. split; [|exact G]. eapply means_leaf; eassumption.
    - destruct n as [|n]; [discriminate H|]. cbn [turns turn m_stack rest m_data m_depth looping List.length] in H.
      destruct (room_body _ _ _ _ _ _ lp _ R) as [RB L]. rewrite L in H.
      destruct (head t d v f e s body) as [| |x y z] eqn:E; [discriminate H| |].
      + destruct (IH n ltac:(lia)) as [IA _].
        destruct (IA ns d lp st depth d' D (room_tail _ _ _ R) H) as [d2 [k [K [M G]]]].
        exists d2, k. split; [lia|]. split; [|exact G]. eapply means_skip; eassumption.
      + destruct (IH n ltac:(lia)) as [_ IB].
        destruct (IB v y z body _ _ depth d' D RB H) as [d1 [k1 [K1 [M1 G1]]]].
        destruct (IH k1 ltac:(lia)) as [IA _].
        destruct (IA ns d1 lp st depth d' D (room_tail _ _ _ R) G1) as [d2 [k [K [M G]]]].
        exists d2, k. split; [lia|]. split; [|exact G]. eapply means_loop; eassumption. }
  split; [exact A|].
  intros v y z body d st depth d' D R H.
  destruct (A body d (Some (v, y, z, body)) st (depth + 1)%Z d' ltac:(lia) R H) as [d1 [k [K [M G]]]].
  replace (Z.ltb 0 (depth + 1)) with true in M by (symmetry; apply Z.ltb_lt; lia).
  destruct k as [|k]; [discriminate G|]. cbn [turns turn m_stack rest m_data m_depth looping] in G.
  destruct (in_range (value_of d1 v + z) y z) eqn:E.
  - destruct (IH k ltac:(lia)) as [_ IB].
    destruct (IB v y z body _ st depth d' D R G) as [d2 [k2 [K2 [M2 G2]]]].
    exists d2, k2. split; [lia|]. split; [|exact G2]. eapply repeats_more; eassumption.
  - replace (depth + 1 - 1)%Z with depth in G by lia.
    exists d1, k. split; [lia|]. split; [|exact G]. eapply repeats_last; eassumption.
Qed.

(** Sections. *)
Definition fits (sections : list (list dnode)) : Prop :=
  Forall (fun s => (deepest s + List.length sections <= MAX_DEPTH)%nat) sections.

Lemma fits_tail : forall s l, fits (s :: l) -> fits l.
Proof.
  intros s l H. inversion H as [|a b _ F]; subst. unfold fits. eapply Forall_impl; [|exact F]. cbn. intros x X. lia.
Qed.
Lemma fits_head : forall s l, fits (s :: l) -> room s (map (fun s => mkframe s None) l).
Proof. intros s l H. inversion H as [|a b F _]; subst. unfold room. rewrite map_length. exact F. Qed.

Lemma document_reaches : forall l d d', document t l d d' -> fits l -> exists n, turns t n (start d l) = Done d'.
Proof.
  intros l d d' H. induction H as [d|s l d d1 d2 M H IH]; intros F.
  - exists 1%nat. reflexivity.
  - destruct (reaches _ _ _ _ M (map (fun s => mkframe s None) l) None 0%Z ltac:(lia) eq_refl (fits_head _ _ F)) as [n N].
    destruct (IH (fits_tail _ _ F)) as [k K]. exists (n + S k)%nat.
    unfold start. cbn [map]. rewrite (turns_then _ _ _ _ N). cbn [turns turn m_stack rest m_data m_depth looping]. exact K.
Qed.
Lemma document_explained : forall l n d d', turns t n (start d l) = Done d' -> fits l -> document t l d d'.
Proof.
  induction l as [|s l IH]; intros n d d' H F.
  - destruct n as [|n]; [discriminate H|]. cbn in H. injection H as <-. constructor.
  - unfold start in H. cbn [map] in H.
    destruct (proj1 (explained n) s d None _ 0%Z d' ltac:(lia) (fits_head _ _ F) H) as [d1 [k [_ [M G]]]].
    destruct k as [|k]; [discriminate G|]. cbn [turns turn m_stack rest m_data m_depth looping] in G.
    eapply document_cons; [exact M|]. eapply IH; [exact G|]. eapply fits_tail; exact F.
Qed.

(** An induction for nodes. *)
Lemma dnode_induction (P : dnode -> Prop) :
  (forall l, P (Leaf l)) -> (forall v f e s body, Forall P body -> P (Loop v f e s body)) -> forall n, P n.
Proof.
  intros HL HN. fix IH 1. intros [l|v f e s body]; [apply HL|apply HN].
  induction body as [|n body IHb]; constructor; [apply IH|exact IHb].
Qed.

Lemma spares_body : forall v w f e s body, spares t v (Loop w f e s body) <-> w <> v /\ Forall (spares t v) body.
Proof.
  intros v w f e s body. cbn [spares]. split; intros [N H]; (split; [exact N|]); clear N.
  - induction body as [|n body IH]; constructor; [apply H|apply IH, H].
  - induction H as [|n body S H IH]; [exact Logic.I|]. split; [exact S|exact IH].
Qed.
Lemma orderly_body : forall w f e s body, orderly t (Loop w f e s body) <-> Forall (spares t w) body /\ Forall (orderly t) body.
Proof.
  intros w f e s body. cbn [orderly]. split; intros [N H]; (split; [exact N|]); clear N.
  - induction body as [|n body IH]; constructor; [apply H|apply IH, H].
  - induction H as [|n body S H IH]; [exact Logic.I|]. split; [exact S|exact IH].
Qed.

Lemma put_same : forall v x (d : data Q T), constants (put_constant v x d) v = Some x.
Proof. intros. cbn. unfold put. now rewrite String.eqb_refl. Qed.
Lemma put_other : forall v w x (d : data Q T), v <> w -> constants (put_constant v x d) w = constants d w.
Proof.
  intros v w x d N. cbn. unfold put. destruct (String.eqb_spec w v) as [C|_]; [congruence|reflexivity].
Qed.

(** A block of nodes stops. *)
Definition block (ns : list dnode) : Prop := forall sib d st lp depth,
  exists n, turns t n (mkmachine d (mkframe (ns ++ sib) lp :: st) depth) = Failed \/
  exists d', turns t n (mkmachine d (mkframe (ns ++ sib) lp :: st) depth) = Running (mkmachine d' (mkframe sib lp :: st) depth) /\
             forall v, Forall (spares t v) ns -> constants d' v = constants d v.

Lemma block_app : forall n ns, block [n] -> block ns -> block (n :: ns).
Proof.
  intros n ns A B sib d st lp depth. destruct (A (ns ++ sib)%list d st lp depth) as [k1 [F|[d1 [R1 S1]]]].
  - exists k1. left. exact F.
  - destruct (B sib d1 st lp depth) as [k2 [F|[d2 [R2 S2]]]]; exists (k1 + k2)%nat; cbn [app] in *.
    + left. rewrite (turns_then _ _ _ _ R1). exact F.
    + right. exists d2. split; [rewrite (turns_then _ _ _ _ R1); exact R2|].
      intros v V. inversion V; subst. rewrite S2 by assumption. apply S1. constructor; [assumption|constructor].
Qed.
Lemma block_list : forall ns, Forall (fun n => block [n]) ns -> block ns.
Proof.
  induction 1 as [|n ns H _ IH]; [|apply block_app; assumption].
  intros sib d st lp depth. exists 0%nat. right. exists d. split; [reflexivity|]. reflexivity.
Qed.

Lemma unbounded : forall r, exists k, r < INR k.
Proof.
  intros r. destruct (archimed r) as [A _]. exists (Z.to_nat (Z.max 0 (up r))). rewrite INR_IZR_INZ, Z2Nat.id by lia.
  apply Rlt_le_trans with (IZR (up r)); [lra|]. apply IZR_le. lia.
Qed.

(** How far the variable may still go. *)
Definition way (x y z : R) : R := if Rlt_dec 0 z then y + / 10 ^ 9 - x else x - (y - / 10 ^ 9).
Lemma way_next : forall x y z, z <> 0 -> way (x + z) y z = way x y z - Rabs z.
Proof.
  intros x y z Z. unfold way. destruct (Rlt_dec 0 z) as [P|P].
  - rewrite Rabs_right by lra. lra.
  - rewrite Rabs_left by lra. lra.
Qed.
Lemma way_range : forall x y z, in_range x y z = true -> 0 <= way x y z.
Proof.
  intros x y z H. unfold in_range, way in *. destruct (Rlt_dec 0 z); destruct (Rle_dec _ _); try discriminate; lra.
Qed.

(** A loop whose body stops and spares its variable stops. *)
Lemma loop_stops : forall v y z body, z <> 0 -> block body -> Forall (spares t v) body ->
  forall k d st depth, way (value_of d v) y z < INR k * Rabs z ->
  exists n, turns t n (mkmachine d (mkframe body (Some (v, y, z, body)) :: st) (depth + 1)) = Failed \/
  exists d', turns t n (mkmachine d (mkframe body (Some (v, y, z, body)) :: st) (depth + 1)) = Running (mkmachine d' st depth) /\
             forall w, v <> w -> Forall (spares t w) body -> constants d' w = constants d w.
Proof.
  intros v y z body Z B S. induction k as [|k IH]; intros d st depth W.
  - destruct (B [] d st (Some (v, y, z, body)) (depth + 1)%Z) as [n [F|[d1 [R1 S1]]]]; rewrite app_nil_r in *.
    + exists n. left. exact F.
    + exists (n + 1)%nat. right. exists d1. split; [|intros w _ SW; apply S1; exact SW].
      rewrite (turns_then _ _ _ _ R1). cbn [turns turn m_stack rest m_data m_depth looping].
      assert (V : value_of d1 v = value_of d v) by (unfold value_of; rewrite S1 by exact S; reflexivity).
      rewrite V. destruct (in_range (value_of d v + z) y z) eqn:E.
      * exfalso. apply way_range in E. rewrite way_next in E by exact Z. cbn in W.
        pose proof (Rabs_pos z). lra.
      * do 2 f_equal. lia.
  - destruct (B [] d st (Some (v, y, z, body)) (depth + 1)%Z) as [n [F|[d1 [R1 S1]]]]; rewrite app_nil_r in *.
    + exists n. left. exact F.
    + assert (V : value_of d1 v = value_of d v) by (unfold value_of; rewrite S1 by exact S; reflexivity).
      destruct (in_range (value_of d1 v + z) y z) eqn:E.
      * destruct (IH (put_constant v (value_of d1 v + z) d1) st depth) as [n2 H].
        { unfold value_of at 1. rewrite put_same, way_next, V by exact Z. rewrite S_INR in W. lra. }
        assert (P : turns t (n + Datatypes.S n2) (mkmachine d (mkframe body (Some (v, y, z, body)) :: st) (depth + 1)) =
                    turns t n2 (mkmachine (put_constant v (value_of d1 v + z) d1)
                      (mkframe body (Some (v, y, z, body)) :: st) (depth + 1))).
        { rewrite (turns_then _ _ _ _ R1). cbn [turns turn m_stack rest m_data m_depth looping]. rewrite E. reflexivity. }
        exists (n + Datatypes.S n2)%nat. rewrite P. destruct H as [F|[d2 [R2 S2]]]; [left; exact F|right].
        exists d2. split; [exact R2|]. intros w N SW. rewrite S2 by assumption. rewrite put_other by exact N.
        apply S1. exact SW.
      * exists (n + 1)%nat. right. exists d1. split; [|intros w _ SW; apply S1; exact SW].
        rewrite (turns_then _ _ _ _ R1). cbn [turns turn m_stack rest m_data m_depth looping]. rewrite E. do 2 f_equal. lia.
Qed.

Lemma head_step : forall d v f e s body x y z, head t d v f e s body = Runs x y z ->
  z <> 0 /\ built_in t v = false /\ in_range x y z = true.
Proof.
  intros d v f e s body x y z H. unfold head in H. destruct (built_in t v); [discriminate|].
  destruct (if String.eqb f "" then _ else _); [|discriminate]. destruct (number t d e); [|discriminate].
  destruct (number t d s) as [a|]; [|discriminate].
  destruct (in_range r r0 (if Req_EM_T a 0 then 1 else a)) eqn:E; [|discriminate].
  destruct body; [discriminate|]. injection H as <- <- <-.
  split; [|split; [reflexivity|exact E]]. destruct (Req_EM_T a 0); lra.
Qed.

Lemma node_block : forall n, orderly t n -> block [n].
Proof.
  induction n as [l|v f e s body IH] using dnode_induction; intros O sib d st lp depth; cbn [app].
  - destruct (effect t (Z.ltb 0 depth) l d) as [d1|] eqn:E.
    + exists 1%nat. right. exists d1. cbn [turns turn m_stack rest m_data m_depth looping]. rewrite E. split; [reflexivity|].
      intros v V. inversion V; subst. eapply H1. exact E.
    + exists 1%nat. left. cbn [turns turn m_stack rest m_data m_depth looping]. now rewrite E.
  - apply orderly_body in O. destruct O as [S O].
    assert (B : block body).
    { apply block_list. clear S. induction IH as [|n ns H _ IHn]; [constructor|]. inversion O; subst. constructor; auto. }
    destruct (Nat.leb MAX_DEPTH (List.length (mkframe sib lp :: st))) eqn:L.
    { exists 1%nat. right. exists d. cbn [turns turn m_stack rest m_data m_depth looping]. rewrite L. split; [reflexivity|reflexivity]. }
    destruct (head t d v f e s body) as [| |x y z] eqn:E.
    + exists 1%nat. left. cbn [turns turn m_stack rest m_data m_depth looping]. now rewrite L, E.
    + exists 1%nat. right. exists d. cbn [turns turn m_stack rest m_data m_depth looping]. rewrite L, E. split; reflexivity.
    + destruct (head_step _ _ _ _ _ _ _ _ _ E) as [Z _].
      set (d0 := put_constant v x d). pose proof (Rabs_pos_lt z Z) as A.
      destruct (unbounded (way (value_of d0 v) y z / Rabs z)) as [k K].
      destruct (loop_stops v y z body Z B S k d0 (mkframe sib lp :: st) depth) as [n H].
      { apply Rmult_lt_reg_r with (/ Rabs z); [apply Rinv_0_lt_compat; exact A|].
        replace (INR k * Rabs z * / Rabs z) with (INR k) by (field; lra). exact K. }
      exists (Datatypes.S n). cbn [turns turn m_stack rest m_data m_depth looping]. rewrite L, E. fold d0.
      destruct H as [F|[d' [R SP]]]; [left; exact F|right]. exists d'. split; [exact R|].
      intros w W. inversion W as [|? ? W1 _]; subst. apply spares_body in W1. destruct W1 as [N W1].
      rewrite SP by assumption. apply put_other. exact N.
Qed.

Lemma sections_stop : forall l d, Forall (Forall (orderly t)) l ->
  exists n, turns t n (start d l) = Failed \/ exists d', turns t n (start d l) = Done d'.
Proof.
  induction l as [|s l IH]; intros d O.
  - exists 1%nat. right. exists d. reflexivity.
  - inversion O as [|? ? OS OL]; subst.
    assert (B : block s).
    { apply block_list. eapply Forall_impl; [|exact OS]. intros a. apply node_block. }
    unfold start. cbn [map]. destruct (B [] d (map (fun s => mkframe s None) l) None 0%Z) as [n [F|[d1 [R1 _]]]];
      rewrite app_nil_r in *.
    + exists n. left. exact F.
    + destruct (IH d1 OL) as [k H]. exists (n + S k)%nat. rewrite (turns_then _ _ _ _ R1).
      cbn [turns turn m_stack rest m_data m_depth looping]. exact H.
Qed.

(** Built-in names. *)
Lemma effect_built_in : forall b l d d' x, effect t b l d = Some d' -> built_in t x = true -> constants d' x = constants d x.
Proof.
  intros b l d d' x H X. destruct l as [n v|n v u ty|n u a1 a2 a3|n u a1 a2 a3|n cd vs|]; cbn in H.
  - destruct (String.eqb _ ""); [injection H as <-; reflexivity|].
    destruct (built_in t (brackets t d n)) eqn:E; [injection H as <-; reflexivity|].
    destruct (number _ _ _); [|discriminate]. injection H as <-. apply put_other. congruence.
  - destruct (String.eqb _ ""); [injection H as <-; reflexivity|].
    destruct (built_in t (brackets t d n)) eqn:E; [injection H as <-; reflexivity|].
    destruct (number _ _ _); [|discriminate]. injection H as <-. 
    destruct (quantity_type _ _ _ _ _); cbn [constants]; apply put_other; congruence.
  - destruct (String.eqb _ ""); [injection H as <-; reflexivity|].
    destruct (len _ _ _ _); [|discriminate]. destruct (len _ _ _ _); [|discriminate]. destruct (len _ _ _ _); [|discriminate].
    injection H as <-. reflexivity.
  - destruct (String.eqb _ ""); [injection H as <-; reflexivity|].
    destruct (angle _ _ _ _); [|discriminate]. destruct (angle _ _ _ _); [|discriminate]. destruct (angle _ _ _ _); [|discriminate].
    injection H as <-. reflexivity.
  - destruct (String.eqb _ ""); [injection H as <-; reflexivity|].
    destruct (all_values _ _ _) as [[|]|]; [| |discriminate]; injection H as <-; reflexivity.
  - injection H as <-. reflexivity.
Qed.

Definition clean (m : machine Q T) : Prop :=
  Forall (fun f => match looping f with Some (v, _, _, _) => built_in t v = false | None => True end) (m_stack m).

Lemma turn_built_in : forall m o, clean m -> turn t m = o ->
  match o with
  | Running m' => clean m' /\ forall x, built_in t x = true -> constants (m_data m') x = constants (m_data m) x
  | Done d => forall x, built_in t x = true -> constants d x = constants (m_data m) x
  | Failed => True
  end.
Proof.
  intros [d st depth] o C <-. unfold clean in *. cbn [turn m_stack m_data m_depth] in *.
  destruct st as [|[ns lp] st]; [intros x _; reflexivity|]. inversion C as [|? ? C1 C2]; subst.
  unfold turn. cbn [rest looping m_data m_stack m_depth] in *.
  destruct ns as [|[l|v f e s body] ns].
  - destruct lp as [[[[v y] z] body]|].
    + cbn [rest looping m_data m_stack m_depth]. destruct (in_range _ _ _); cbn [m_stack m_data].
      * split; [constructor; assumption|]. intros x X. apply put_other. congruence.
      * split; [assumption|reflexivity].
    + cbn. split; [assumption|reflexivity].
  - destruct (effect t (0 <? depth)%Z l d) as [d1|] eqn:E; [|exact Logic.I]. cbn [m_stack m_data].
    split; [constructor; assumption|]. intros x X. eapply effect_built_in; eassumption.
  - destruct (Nat.leb _ _); cbn [m_stack m_data].
    { split; [constructor; assumption|reflexivity]. }
    destruct (head t d v f e s body) as [| |a y z] eqn:E; cbn [m_stack m_data]; [exact Logic.I| |].
    + split; [constructor; assumption|reflexivity].
    + destruct (head_step _ _ _ _ _ _ _ _ _ E) as [_ [N _]].
      split; [constructor; [exact N|constructor; assumption]|]. intros x X. apply put_other. congruence.
Qed.

Lemma turns_built_in : forall n m, clean m ->
  match turns t n m with
  | Running m' => forall x, built_in t x = true -> constants (m_data m') x = constants (m_data m) x
  | Done d => forall x, built_in t x = true -> constants d x = constants (m_data m) x
  | Failed => True
  end.
Proof.
  induction n as [|n IH]; intros m C; [intros x _; reflexivity|]. cbn [turns]. pose proof (turn_built_in m _ C eq_refl) as H.
  destruct (turn t m) as [m1|d1|]; [|exact H|exact Logic.I]. destruct H as [C1 H]. specialize (IH m1 C1).
  destruct (turns t n m1) as [m2|d2|]; [| |exact Logic.I]; intros x X; cbv beta iota in IH; rewrite IH by exact X; apply H; exact X.
Qed.

(** What is spared stays. *)
Lemma means_spares : forall b ns d d', means t b ns d d' -> forall v, Forall (spares t v) ns -> constants d' v = constants d v.
Proof.
  apply (means_mut Q T t
    (fun b ns d d' _ => forall v, Forall (spares t v) ns -> constants d' v = constants d v)
    (fun w y z body d d' _ => forall v, w <> v -> Forall (spares t v) body -> constants d' v = constants d v)).
  - reflexivity.
  - intros b l ns d d1 d2 E _ IH v F. inversion F; subst. rewrite IH by assumption. eapply H1. exact E.
  - intros b v f e s body ns d d1 _ _ IH w F. inversion F; subst. apply IH. assumption.
  - intros b v f e s body ns d d1 d2 x y z E _ IH1 _ IH2 w F. inversion F as [|? ? F1 F2]; subst.
    apply spares_body in F1. destruct F1 as [N F1]. rewrite IH2, IH1 by assumption. apply put_other. exact N.
  - intros w y z body d d1 _ IH _ v N F. apply IH. exact F.
  - intros w y z body d d1 d2 _ IH1 _ _ IH2 v N F. rewrite IH2 by assumption. rewrite put_other by exact N. apply IH1. exact F.
Qed.

(** The values of the variable of a loop. *)
Fixpoint values (x z : R) (k : nat) : list R :=
  match k with O => [x] | S k => x :: values (x + z) z k end.

Lemma repeats_unrolled : forall v y z body, Forall (spares t v) body -> forall d0 d',
  repeats t v y z body d0 d' -> forall x d, d0 = put_constant v x d ->
  exists k, (forall i, (i < k)%nat -> in_range (x + INR (S i) * z) y z = true) /\
            in_range (x + INR (S k) * z) y z = false /\
            unrolled t v body (values x z k) d d' /\ value_of d' v = x + INR k * z.
Proof.
  intros v y z body S d0 d' H. induction H as [v y z body d0 d1 M E|v y z body d0 d1 d2 M E H IH]; intros x d ->.
  - assert (V : value_of d1 v = x).
    { unfold value_of. rewrite (means_spares _ _ _ _ M v S), put_same. reflexivity. }
    exists 0%nat. split; [intros; lia|]. rewrite V in E. cbn [INR values]. split; [rewrite Rmult_1_l; exact E|].
    split; [|rewrite V; ring]. econstructor; [exact M|constructor].
  - assert (V : value_of d1 v = x).
    { unfold value_of. rewrite (means_spares _ _ _ _ M v S), put_same. reflexivity. }
    destruct (IH S _ _ eq_refl) as [k [A [B [U W]]]]. rewrite V in *. exists (Datatypes.S k). split; [|split; [|split]].
    + intros [|i] I; [cbn [INR]; rewrite Rmult_1_l; exact E|].
      replace (x + INR (Datatypes.S (Datatypes.S i)) * z) with (x + z + INR (Datatypes.S i) * z)
        by (rewrite (S_INR (Datatypes.S i)); ring). apply A. lia.
    + replace (x + INR (Datatypes.S (Datatypes.S k)) * z) with (x + z + INR (Datatypes.S k) * z)
        by (rewrite (S_INR (Datatypes.S k)); ring). exact B.
    + cbn [values]. econstructor; [exact M|exact U].
    + rewrite W, S_INR. ring.
Qed.

Lemma unrolled_repeats : forall v y z body, Forall (spares t v) body -> forall k x d d',
  (forall i, (i < k)%nat -> in_range (x + INR (S i) * z) y z = true) ->
  in_range (x + INR (S k) * z) y z = false -> unrolled t v body (values x z k) d d' ->
  repeats t v y z body (put_constant v x d) d'.
Proof.
  intros v y z body S. induction k as [|k IH]; intros x d d' A B U; cbn [values] in U; inversion U as [|? ? ? d1 ? M U1]; subst.
  - inversion U1; subst. apply repeats_last; [exact M|]. unfold value_of. rewrite (means_spares _ _ _ _ M v S), put_same.
    cbn [INR] in B. rewrite Rmult_1_l in B. exact B.
  - assert (V : value_of d1 v = x).
    { unfold value_of. rewrite (means_spares _ _ _ _ M v S), put_same. reflexivity. }
    eapply repeats_more; [exact M| |].
    + rewrite V. specialize (A 0%nat ltac:(lia)). cbn [INR] in A. rewrite Rmult_1_l in A. exact A.
    + rewrite V. apply IH; [| |exact U1].
      * intros i I. specialize (A (Datatypes.S i) ltac:(lia)).
        replace (x + z + INR (Datatypes.S i) * z) with (x + INR (Datatypes.S (Datatypes.S i)) * z)
          by (rewrite (S_INR (Datatypes.S i)); ring). exact A.
      * replace (x + z + INR (Datatypes.S k) * z) with (x + INR (Datatypes.S (Datatypes.S k)) * z)
          by (rewrite (S_INR (Datatypes.S k)); ring). exact B.
Qed.
End D.
