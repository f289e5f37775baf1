(** Lemmas about the sampling of a tabulated flux. *)
From Coq Require Import Reals List Sorted Lia Lra Psatz.
From Verif Require Import TraversalModel TableModel TableSpec TableProofs TableProps FluxModel FluxSpec.
Import ListNotations.
Open Scope R_scope.

Lemma gap_pos : 0 < gap_step.
Proof. unfold gap_step. lra. Qed.

(** ** Neighbours *)

Lemma nb_cons {A} (a b : A) l p q : neighbours (a :: b :: l) p q <-> (p = a /\ q = b) \/ neighbours (b :: l) p q.
Proof. apply neighbours_cons. Qed.

Lemma nb_one {A} (a p q : A) : ~ neighbours [a] p q.
Proof. intros (bf & af & E). apply (f_equal (@List.length A)) in E. rewrite app_length in E. cbn in E. lia. Qed.

Lemma nb_map {A B} (f : A -> B) l p q : neighbours l p q -> neighbours (map f l) (f p) (f q).
Proof. intros (b & a & ->). exists (map f b), (map f a). now rewrite map_app. Qed.

Lemma nb_map_inv {A B} (f : A -> B) l p q : neighbours (map f l) p q -> exists p' q', neighbours l p' q' /\ p = f p' /\ q = f q'.
Proof.
  intros (b & a & E). apply map_eq_app in E as (l1 & l2 & -> & <- & E).
  destruct l2 as [|x [|y l2]]; try discriminate. cbn in E. injection E as <- <- <-.
  exists x, y. split; [now exists l1, l2|auto].
Qed.

Lemma nb_app_r {A} (l1 l2 : list A) p q : neighbours l2 p q -> neighbours (l1 ++ l2) p q.
Proof. intros (b & a & ->). exists (l1 ++ b), a. now rewrite app_assoc. Qed.

Lemma nb_in {A} (l : list A) p q : neighbours l p q -> In p l /\ In q l.
Proof. intros (b & a & ->). split; apply in_or_app; right; cbn; auto. Qed.

Lemma nb_sorted l p q : StronglySorted Rlt l -> neighbours l p q -> p < q.
Proof.
  intros H (b & a & ->). induction b as [|x b IH]; cbn in H.
  - apply StronglySorted_inv in H as [_ H]. now inversion H.
  - apply StronglySorted_inv in H as [H _]. auto.
Qed.

(** ** The loop *)

Section Loop.
Variable p : R -> R.
Variable es : list R.
Hypothesis es_sorted : StronglySorted Rlt es.
Hypothesis p_pos : forall e, In e es -> 0 <= p e.

Lemma area_pos a b : a < b -> supported p a b -> 0 < 1/2 * (p a + p b) * (b - a).
Proof using . clear. unfold supported. intros. apply Rmult_lt_0_compat; lra. Qed.

(** Nothing is supported between [a] and [b]. *)
Definition bare (a b : R) : Prop := forall c d, neighbours es c d -> a <= c -> d <= b -> ~ supported p c d.

Definition step_ok (x y : R * R) : Prop :=
  (neighbours es (snd x) (snd y) /\ supported p (snd x) (snd y) /\ fst y = fst x + 1/2 * (p (snd x) + p (snd y)) * (snd y - snd x)) \/
  (bare (snd x) (snd y) /\ snd x < snd y /\ fst y = fst x + gap_step).

Lemma loop_steps : forall rest before prev node val, es = before ++ prev :: rest -> node <= prev -> bare node prev ->
  forall x y, neighbours ((val, node) :: cdf_loop p prev rest node val) x y -> step_ok x y.
Proof using es es_sorted p.
  clear p_pos.
  induction rest as [|e t IH]; intros before prev node val E Hn Hb x y H; cbn in H.
  { now apply nb_one in H. }
  assert (Nb : neighbours es prev e) by (exists before, t; exact E).
  assert (Hpe : prev < e) by (eapply nb_sorted; eauto).
  assert (E' : es = (before ++ [prev]) ++ e :: t) by (rewrite <- app_assoc; exact E).
  assert (Bee : bare e e).
  { intros c d N1 N2 N3. pose proof (nb_sorted _ _ _ es_sorted N1). lra. }
  destruct (Rle_dec (p prev + p e) 0) as [L|L].
  - refine (IH _ _ _ _ E' _ _ _ _ H); [lra|].
    intros c d N1 N2 N3. destruct (Rle_dec d prev) as [M|M]; [now apply Hb|].
    (* the interval is the last one *)
    assert (c = prev /\ d = e) as [-> ->]; [|unfold supported; lra].
    rewrite E in N1, es_sorted. clear -N1 M N3 es_sorted.
    induction before as [|z before IHb]; cbn in N1.
    + apply nb_cons in N1 as [N1|N1]; [auto|]. exfalso. pose proof (nb_in _ _ _ N1) as [I1 I2].
      cbn in es_sorted. apply StronglySorted_inv in es_sorted as [Q1 Q2]. pose proof (nb_sorted _ _ _ Q1 N1).
      apply StronglySorted_inv in Q1 as [Q1 Q3]. rewrite Forall_forall in Q3. destruct I1 as [<- |I1]; [lra|]. specialize (Q3 _ I1). lra.
    + cbn in es_sorted. apply StronglySorted_inv in es_sorted as [Q1 Q2].
      destruct (before ++ prev :: e :: t) as [|b1 bl] eqn:Eq; [destruct before; discriminate|].
      apply nb_cons in N1 as [[-> ->]|N1]; [|rewrite <- Eq in *; auto].
      exfalso. apply M. destruct before as [|b0 before]; cbn in Eq; injection Eq as -> Eq; [lra|].
      left. apply StronglySorted_inv in Q1 as [_ Q1]. rewrite Forall_forall in Q1. apply Q1. rewrite <- Eq. apply in_or_app. right. now left.
  - assert (Su : supported p prev e) by (unfold supported; lra).
    destruct (Req_EM_T node prev) as [->|Hne].
    + apply nb_cons in H as [[-> ->]|H].
      * left. cbn. auto.
      * eapply IH in H; eauto. lra.
    + apply nb_cons in H as [[-> ->]|H]; [right; cbn; repeat split; auto; lra|].
      apply nb_cons in H as [[-> ->]|H]; [left; cbn; auto|].
      eapply IH in H; eauto. lra.
Qed.

Lemma loop_hit : forall rest before prev node val, es = before ++ prev :: rest -> (node = prev \/ node < prev) ->
  forall a b, neighbours (prev :: rest) a b -> supported p a b ->
  exists v, neighbours ((val, node) :: cdf_loop p prev rest node val) (v, a) (v + 1/2 * (p a + p b) * (b - a), b).
Proof using es es_sorted p.
  clear p_pos.
  induction rest as [|e t IH]; intros before prev node val E Hn a b H Su; cbn.
  { now apply nb_one in H. }
  assert (Hpe : prev < e) by (apply (nb_sorted es); [exact es_sorted|]; exists before, t; exact E).
  assert (E' : es = (before ++ [prev]) ++ e :: t) by (rewrite <- app_assoc; exact E).
  destruct (Rle_dec (p prev + p e) 0) as [L|L].
  - apply nb_cons in H as [[-> ->]|H]; [unfold supported in Su; lra|].
    eapply IH; eauto. right. lra.
  - destruct (Req_EM_T node prev) as [->|Hne].
    + apply nb_cons in H as [[-> ->]|H].
      * exists val. apply nb_cons. left. auto.
      * destruct (IH (before ++ [prev]) e e (val + 1/2 * (p prev + p e) * (e - prev)) E' (or_introl eq_refl) a b H Su) as (v & Hv). exists v. apply nb_cons. right. exact Hv.
    + apply nb_cons in H as [[-> ->]|H].
      * exists (val + gap_step). apply nb_cons. right. apply nb_cons. left. auto.
      * destruct (IH (before ++ [prev]) e e (val + gap_step + 1/2 * (p prev + p e) * (e - prev)) E' (or_introl eq_refl) a b H Su) as (v & Hv). exists v. apply nb_cons. right. apply nb_cons. right. exact Hv.
Qed.

Lemma loop_sums : forall rest prev val, StronglySorted Rlt (prev :: rest) ->
  (forall a b, neighbours (prev :: rest) a b -> supported p a b) ->
  forall before e after s, prev :: rest = before ++ e :: after -> area_of p (before ++ [e]) s ->
  In (val + s, e) ((val, prev) :: cdf_loop p prev rest prev val) /\
  (after = [] -> last ((val, prev) :: cdf_loop p prev rest prev val) (0, 0) = (val + s, e)).
Proof using p.
  clear es es_sorted p_pos.
  induction rest as [|f t IH]; intros prev val Hs Hall before e after s E A.
  - destruct before as [|x [|y before]]; cbn in E; try discriminate. injection E as <- <-.
    cbn in A. inversion A; subst. rewrite Rplus_0_r. cbn. auto.
  - cbn [cdf_loop]. assert (Su : supported p prev f) by (apply Hall; apply nb_cons; auto).
    destruct (Rle_dec (p prev + p f) 0) as [L|_]; [unfold supported in Su; lra|].
    destruct (Req_EM_T prev prev) as [_|n]; [|easy].
    destruct before as [|x before]; cbn in E.
    + injection E as <- <-. cbn in A. inversion A; subst. rewrite Rplus_0_r. split; [now left|discriminate].
    + injection E as <- E. cbn in A.
      destruct before as [|y before]; cbn in E, A.
      * injection E as <- <-. inversion A as [|? ? ? s' A']; subst.
        edestruct (IH f (val + 1/2 * (p prev + p f) * (f - prev))) with (before := @nil R) as [I1 I2]; [| |reflexivity|exact A'|].
        { now apply StronglySorted_inv in Hs as [Hs _]. }
        { intros; apply Hall, nb_cons; auto. }
        replace (val + (trapezoid_area p prev f + s')) with (val + 1 / 2 * (p prev + p f) * (f - prev) + s') by (unfold trapezoid_area; field).
        split; [now right|]. intro Ha. specialize (I2 Ha). cbn [last] in I2 |- *. exact I2.
      * injection E as <- E. inversion A as [|? ? ? s' A']; subst.
        edestruct (IH f (val + 1/2 * (p prev + p f) * (f - prev))) with (before := f :: before) as [I1 I2]; [| |reflexivity|exact A'|].
        { now apply StronglySorted_inv in Hs as [Hs _]. }
        { intros; apply Hall, nb_cons; auto. }
        replace (val + (trapezoid_area p prev f + s')) with (val + 1 / 2 * (p prev + p f) * (f - prev) + s') by (unfold trapezoid_area; field).
        split; [now right|]. intro Ha. specialize (I2 Ha). cbn [last] in I2 |- *. exact I2.
Qed.

End Loop.

(** ** Sorted lists from their neighbours *)

Lemma sorted_of_nb (l : list R) : (forall a b, neighbours l a b -> a < b) -> StronglySorted Rlt l.
Proof.
  intro H. apply Sorted_StronglySorted; [intros x y z; lra|].
  induction l as [|a [|b l] IH]; [constructor|constructor; constructor|]. constructor; [|constructor].
  - apply IH. intros x y N. apply H, nb_cons. auto.
  - apply H, nb_cons. auto.
Qed.

Lemma max_sorted l a : StronglySorted Rlt (a :: l) -> fold_left Rmax l a = last (a :: l) 0.
Proof.
  revert a. induction l as [|b l IH]; intros a H; [reflexivity|].
  apply StronglySorted_inv in H as [H1 H2]. inversion H2; subst. cbn [fold_left]. rewrite Rmax_right by lra.
  rewrite IH by auto. reflexivity.
Qed.

Lemma last_max l a : StronglySorted Rlt (a :: l) -> forall x, In x (a :: l) -> x <= last (a :: l) 0.
Proof.
  revert a. induction l as [|b l IH]; intros a H x I; [destruct I as [<-|[]]; cbn; lra|].
  apply StronglySorted_inv in H as [H1 H2]. change (last (a :: b :: l) 0) with (last (b :: l) 0).
  destruct I as [<-|I]; [|auto]. inversion H2; subst. apply Rle_trans with b; [lra|]. apply IH; auto. now left.
Qed.

Lemma energies_sorted emin emax nodes : emin < emax -> StronglySorted Rlt nodes -> StronglySorted Rlt (flux_energies emin emax nodes).
Proof.
  intros H Hs. unfold flux_energies. constructor.
  - induction nodes as [|a l IH]; cbn; [repeat constructor|].
    apply StronglySorted_inv in Hs as [Hs Ha]. unfold strictly_within at 1.
    destruct (Rlt_dec emin a); [|auto]. destruct (Rlt_dec a emax); [|auto].
    cbn. constructor; [auto|]. apply Forall_app. split; [|repeat constructor; auto].
    rewrite Forall_forall in Ha |- *. intros x I. apply filter_In in I as [I _]. auto.
  - apply Forall_app. split; [|repeat constructor; auto]. apply Forall_forall. intros x I.
    apply filter_In in I as [_ I]. unfold strictly_within in I. destruct (Rlt_dec emin x); [auto|discriminate].
Qed.

(** ** The table *)

Lemma last_map_fst (l : list (R * R)) : last (map fst l) 0 = fst (last l (0, 0)).
Proof. induction l as [|a [|b l] IH]; cbn in *; auto. Qed.

Section Table.
Variable p : R -> R.
Variables emin emax : R.
Variable nodes : list R.
Hypothesis order : emin < emax.
Hypothesis nodes_sorted : StronglySorted Rlt nodes.
Let es := flux_energies emin emax nodes.
Let raw := cdf_raw p es.
Let m := max_element (map fst raw).

Lemma es_sorted : StronglySorted Rlt es.
Proof using order nodes_sorted. now apply energies_sorted. Qed.

Lemma raw_eq : raw = (0, emin) :: cdf_loop p emin (filter (strictly_within emin emax) nodes ++ [emax]) emin 0.
Proof using. reflexivity. Qed.

Lemma raw_steps x y : neighbours raw x y -> step_ok p es x y.
Proof using order nodes_sorted.
  rewrite raw_eq. apply loop_steps with (before := []); [exact es_sorted|reflexivity|lra|].
  intros c d N1 N2 N3. pose proof (nb_sorted _ _ _ es_sorted N1). lra.
Qed.

Lemma raw_hit a b : neighbours es a b -> supported p a b ->
  exists v, neighbours raw (v, a) (v + 1/2 * (p a + p b) * (b - a), b).
Proof using order nodes_sorted.
  intros N Su. rewrite raw_eq. apply (loop_hit p es) with (before := []); [exact es_sorted|reflexivity|now left|exact N|exact Su].
Qed.

Lemma raw_fst : StronglySorted Rlt (map fst raw).
Proof using order nodes_sorted.
  apply sorted_of_nb. intros a b N. apply nb_map_inv in N as (x & y & N & -> & ->). apply raw_steps in N.
  destruct N as [(N1 & N2 & ->)|(_ & _ & ->)]; [|pose proof gap_pos; lra].
  pose proof (area_pos p _ _ (nb_sorted _ _ _ es_sorted N1) N2). lra.
Qed.

Lemma raw_snd : StronglySorted Rlt (map snd raw).
Proof using order nodes_sorted.
  apply sorted_of_nb. intros a b N. apply nb_map_inv in N as (x & y & N & -> & ->). apply raw_steps in N.
  destruct N as [(N1 & _)|(_ & N & _)]; [exact (nb_sorted _ _ _ es_sorted N1)|exact N].
Qed.

Lemma m_last : m = last (map fst raw) 0.
Proof using order nodes_sorted.
  pose proof raw_fst as H. unfold m. rewrite raw_eq in *. cbn [map max_element] in *. now apply max_sorted.
Qed.

Lemma m_bound x : In x (map fst raw) -> x <= m.
Proof using order nodes_sorted.
  rewrite m_last. pose proof raw_fst as H. rewrite raw_eq in *. cbn [map] in *. now apply last_max.
Qed.

Lemma m_pos a b : neighbours es a b -> supported p a b -> 0 < m.
Proof using order nodes_sorted.
  intros N Su. destruct (raw_hit a b N Su) as (v & Hv). pose proof (nb_in _ _ _ Hv) as [I1 I2].
  pose proof (area_pos p _ _ (nb_sorted _ _ _ es_sorted N) Su) as A.
  apply (in_map fst) in I1, I2. cbn [fst] in I1, I2. pose proof (m_bound _ I2).
  assert (0 <= v); [|lra]. pose proof raw_fst as H1. rewrite raw_eq in H1, I1. cbn [map] in H1, I1.
  apply StronglySorted_inv in H1 as [_ H1]. rewrite Forall_forall in H1. destruct I1 as [<- |I1]; [cbn; lra|].
  specialize (H1 _ I1). cbn in H1. lra.
Qed.

Lemma table_eq : cdf_table p emin emax nodes = map (fun q => (fst q * (1 / m), snd q)) raw.
Proof using. reflexivity. Qed.

Lemma table_snd : map snd (cdf_table p emin emax nodes) = map snd raw.
Proof using. rewrite table_eq, map_map. reflexivity. Qed.

Lemma table_fst : 0 < m -> increasing (cdf_table p emin emax nodes).
Proof using order nodes_sorted.
  intro M. unfold increasing. apply sorted_of_nb. intros a b N. rewrite table_eq, map_map in N.
  apply nb_map_inv in N as (x & y & N & -> & ->). cbn [fst].
  apply Rmult_lt_compat_r; [apply Rdiv_lt_0_compat; lra|].
  apply (nb_sorted (map fst raw)); [exact raw_fst|]. now apply nb_map.
Qed.

Lemma table_head : exists t, cdf_table p emin emax nodes = (0, emin) :: t.
Proof using. rewrite table_eq, raw_eq. cbn [map fst snd]. rewrite Rmult_0_l. eauto. Qed.

Lemma table_last : 0 < m -> last (map fst (cdf_table p emin emax nodes)) 0 = 1.
Proof using order nodes_sorted.
  intro M. rewrite table_eq, map_map. cbn [fst].
  assert (G : forall l : list (R * R), l <> [] -> last (map (fun q => fst q * (1 / m)) l) 0 = last (map fst l) 0 * (1 / m)).
  { induction l as [|a [|b l] IH]; intro H; [easy|reflexivity|].
    change (last (map (fun q : R * R => fst q * (1 / m)) (b :: l)) 0 = last (map fst (b :: l)) 0 * (1 / m)). apply IH. discriminate. }
  rewrite G by (rewrite raw_eq; discriminate). rewrite <- m_last. field. lra.
Qed.

Lemma table_range e : In e (map snd (cdf_table p emin emax nodes)) -> emin <= e <= emax.
Proof using order nodes_sorted.
  rewrite table_snd. intro I.
  assert (G : forall x y, neighbours raw x y -> snd y <= emax).
  { (* an energy of the table is one of the energies *)
    assert (L : forall rest prev node val x, In x (map snd (cdf_loop p prev rest node val)) -> In x (prev :: rest)).
    { clear. induction rest as [|e t IH]; intros prev node val x I; cbn in I; [easy|].
      destruct (Rle_dec (p prev + p e) 0); [right; eauto|].
      destruct (Req_EM_T node prev); cbn in I.
      - destruct I as [<- |I]; [right; now left|right; eauto].
      - destruct I as [<- |[<- |I]]; [now left|right; now left|right; eauto]. }
    intros x y N. apply nb_in in N as [_ N]. apply (in_map snd) in N. rewrite raw_eq in N. cbn [map snd] in N.
    assert (I' : In (snd y) es). { destruct N as [<- |N]; [now left|]. now apply L in N. }
    clear -order I'. destruct I' as [<- |I']; [lra|]. apply in_app_or in I' as [I'|[<- |[]]]; [|lra].
    apply filter_In in I' as [_ I']. unfold strictly_within in I'. destruct (Rlt_dec emin (snd y)); [|easy]. destruct (Rlt_dec (snd y) emax); [lra|easy]. }
  pose proof raw_snd as Hs. rewrite raw_eq in I, Hs. cbn [map snd] in I, Hs.
  destruct I as [<- |I]; [lra|]. apply StronglySorted_inv in Hs as [_ Hs]. rewrite Forall_forall in Hs. split; [specialize (Hs _ I); lra|].
  apply in_map_iff in I as (y & <- & I). apply in_split in I as (l1 & l2 & E).
  destruct l1 as [|x l1] using rev_ind.
  - apply (G (0, emin) y). rewrite raw_eq, E. now exists [], l2.
  - apply (G x y). rewrite raw_eq, E. exists ((0, emin) :: l1), l2. cbn. now rewrite <- app_assoc.
Qed.

Lemma raw_sums before e after s total : (forall a b, neighbours es a b -> supported p a b) ->
  es = before ++ e :: after -> area_of p (before ++ [e]) s -> area_of p es total ->
  In (s, e) raw /\ m = total.
Proof using order nodes_sorted.
  intros Hall E A T. pose proof es_sorted as Hs. unfold es, flux_energies in *.
  set (rest := filter (strictly_within emin emax) nodes ++ [emax]) in *.
  destruct (loop_sums p rest emin 0 Hs Hall before e after s E A) as [I _].
  rewrite Rplus_0_l in I. split; [rewrite raw_eq; exact I|].
  destruct (exists_last (l := emin :: rest)) as (l & z & El); [discriminate|].
  destruct (loop_sums p rest emin 0 Hs Hall l z [] total) as [_ I2]; [exact El|now rewrite <- El|].
  specialize (I2 eq_refl). rewrite m_last, last_map_fst, raw_eq. fold rest. rewrite I2. cbn. lra.
Qed.

End Table.

(** ** The look-up in a linear table *)

Lemma linear_value t x xa fa xb fb : increasing t -> values_nonneg t -> In 0 (map fst t) ->
  even (map fst t) \/ ~ nearly_even (map fst t) ->
  neighbours t (xa, fa) (xb, fb) -> xa < x <= xb ->
  evaluate1 (add_table t) x = Ok (fa + (fb - fa) * (x - xa) / (xb - xa)).
Proof.
  intros Hs Hv Hz Hc Hn Hx. pose proof (nb_in _ _ _ Hn) as [Ia Ib]. apply neighbours_nth in Hn as (i & Ha & Hb).
  pose proof (Hv _ _ Ia) as Pa. pose proof (Hv _ _ Ib) as Pb.
  assert (Hl : ~ nearly_log_even (map fst t)). { intros [H _]. specialize (H _ Hz). lra. }
  assert (Hn : (2 <= List.length t)%nat) by (apply error_len in Hb; lia).
  assert (Hn' : (2 <= List.length (map fst t))%nat) by now rewrite map_length.
  pose proof (entry_order _ _ _ _ _ _ Hs Ha Hb) as Hlt.
  assert (Cl : clip (bin_value false false false fa fb x xa (xb - xa)) = fa + (fb - fa) * (x - xa) / (xb - xa)).
  { rewrite clip_pos; [reflexivity|]. eapply in_between_nonneg; [exact Pa|exact Pb|]. apply linear_bin; lra. }
  destruct Hc as [He|He].
  - assert (Hc : add_points (map fst t) = mkindexer false true (map (coordinate false) (map fst t))).
    { rewrite map_id_coordinate. apply chosen_even; [exact Hs|exact Hn'|exact Hl|]. now apply even_nearly. }
    destruct (Req_dec x xb) as [->|Hne].
    + rewrite (C55_nodes_even t Hs Hn He Hl Hv xb fb Ib). f_equal. field. lra.
    + destruct (regular_value t false x i xa fa xb fb) as [E _]; auto; try discriminate.
      * now rewrite map_id_coordinate.
      * left. lra.
      * rewrite E, Cl. reflexivity.
  - destruct (chosen_uneven (map fst t)) as (log & Hc & Hlog); auto.
    destruct log. { exfalso. specialize (Hlog eq_refl _ Hz). lra. }
    destruct (irregular_value t false x i xa fa xb fb) as [E _]; auto; try discriminate.
    rewrite E, Cl. reflexivity.
Qed.

Lemma locate (t : list (R * R)) c0 e0 u : StronglySorted Rlt (map fst ((c0, e0) :: t)) ->
  c0 < u <= last (map fst ((c0, e0) :: t)) 0 ->
  exists xa fa xb fb, neighbours ((c0, e0) :: t) (xa, fa) (xb, fb) /\ xa < u <= xb.
Proof.
  revert c0 e0. induction t as [|[c1 e1] t IH]; intros c0 e0 Hs Hu; [cbn in Hu; lra|].
  destruct (Rle_dec u c1) as [L|L].
  - exists c0, e0, c1, e1. split; [apply nb_cons; auto|lra].
  - destruct (IH c1 e1) as (xa & fa & xb & fb & N & I).
    + cbn in Hs |- *. now apply StronglySorted_inv in Hs as [Hs _].
    + split; [lra|]. apply Hu.
    + exists xa, fa, xb, fb. split; [apply nb_cons; auto|exact I].
Qed.

Lemma entry_sides (t : list (R * R)) xa fa xb fb c e : increasing t -> StronglySorted Rlt (map snd t) ->
  neighbours t (xa, fa) (xb, fb) -> In (c, e) t -> (c <= xa /\ e <= fa) \/ (xb <= c /\ fb <= e).
Proof.
  intros Hs Hf Hn I. apply neighbours_nth in Hn as (i & Ha & Hb). apply In_nth_error in I as [k Hk].
  pose proof (error_len _ _ _ Hb) as Lb. pose proof (error_len _ _ _ Hk) as Lk.
  assert (G : forall (g : R * R -> R) j q, nth_error t j = Some q -> nth j (map g t) 0 = g q).
  { intros g j q H. apply nth_of_error. now apply map_nth_error. }
  pose proof (G fst _ _ Ha) as A1. pose proof (G snd _ _ Ha) as A2. pose proof (G fst _ _ Hb) as B1.
  pose proof (G snd _ _ Hb) as B2. pose proof (G fst _ _ Hk) as K1. pose proof (G snd _ _ Hk) as K2.
  cbn [fst snd] in *. rewrite <- A1, <- A2, <- B1, <- B2, <- K1, <- K2.
  destruct (le_lt_dec k i); [left|right]; split; apply sorted_nth_le; auto; rewrite map_length; lia.
Qed.
