(** The composition of GDML materials: lemmas. *)
From Coq Require Import Reals ZArith List Bool Lia Lra Ascii.
From Verif Require Import GdmlModel GdmlProofs InstModel InstProofs MergeModel MergeSpec MergeProofs MixModel MixSpec.
Import ListNotations.
Open Scope R_scope.

(** ** Fractions of mass *)

Lemma total_acc : forall mass l t, fold_left (fun t e => t + snd e * mass (fst e)) l t = t + total_mass mass l.
Proof.
  intros mass. unfold total_mass. induction l as [|e l IH]; intros t; cbn; [lra|].
  rewrite IH, (IH (0 + _)). lra.
Qed.
Lemma sum_app : forall A (a b : list (A * R)), sum (a ++ b) = sum a + sum b.
Proof. induction a as [|[x y] a IH]; intros b; cbn; [lra|]. rewrite IH. lra. Qed.
Lemma total_sum : forall mass l, total_mass mass l = sum (map (fun e => (fst e, snd e * mass (fst e))) l).
Proof.
  intros mass. induction l as [|e l IH]; cbn; [reflexivity|]. unfold total_mass in *. cbn. rewrite total_acc.
  unfold total_mass. rewrite IH. cbn. lra.
Qed.
Lemma sum_div : forall A (f : A * R -> R) t l, sum (map (fun e => (fst e, f e / t)) l) = sum (map (fun e => (fst e, f e)) l) / t.
Proof. induction l as [|e l IH]; cbn; [unfold Rdiv; lra|]. rewrite IH. unfold Rdiv. lra. Qed.

Lemma assign_all : forall (f : list ascii * R -> R) (l acc : list (list ascii * R)), NoDup (map fst acc ++ map fst l) ->
  fold_left (fun c e => assign c (fst e) (f e)) l acc = acc ++ map (fun e => (fst e, f e)) l.
Proof.
  induction l as [|[k v] l IH]; intros acc N; cbn [fold_left map fst snd]; [now rewrite app_nil_r|].
  cbn in N. apply NoDup_remove in N as [N1 N2]. rewrite in_app_iff in N2.
  rewrite assign_new by tauto. rewrite IH.
  - rewrite <- app_assoc. reflexivity.
  - rewrite map_app, <- app_assoc. cbn. clear -N1 N2. induction (map fst acc) as [|x l0 IH]; cbn in *.
    + constructor; tauto.
    + inversion N1. subst. constructor; [|apply IH; [assumption|tauto]].
      rewrite in_app_iff in *. cbn. intuition.
Qed.

(** ** Amounts *)

Lemma amount_bump : forall m p w q, amount (bump m p w) q = amount m q + (if Z.eq_dec p q then w else 0).
Proof.
  induction m as [|[k x] m IH]; intros p w q; cbn.
  - destruct (Z.eq_dec p q); lra.
  - destruct (k =? p)%Z eqn:E; cbn.
    + apply Z.eqb_eq in E. subst k. destruct (Z.eq_dec p q); lra.
    + rewrite IH. lra.
Qed.
Lemma amount_bump_all : forall sub m q, amount (bump_all m sub) q = amount m q + amount sub q.
Proof.
  unfold bump_all. induction sub as [|[p w] sub IH]; intros m q; cbn [fold_left fst snd amount]; [lra|].
  rewrite IH, amount_bump. lra.
Qed.
Lemma sum_bump : forall m p w, sum (bump m p w) = sum m + w.
Proof.
  induction m as [|[k x] m IH]; intros p w; cbn; [lra|]. destruct (k =? p)%Z; cbn; [lra|]. rewrite IH. lra.
Qed.
Lemma sum_bump_all : forall sub m, sum (bump_all m sub) = sum m + sum sub.
Proof.
  unfold bump_all. induction sub as [|[p w] sub IH]; intros m; cbn [fold_left fst snd sum]; [lra|].
  rewrite IH, sum_bump. lra.
Qed.

Section Resolve.
Variable find : list ascii -> option component.

(** The first map of a component. *)
Definition first_map (c : component) (w : R) : list (Z * R) :=
  match c_composition c with
  | [] => if ((0 <? c_Z c) && (0 <? c_A c))%Z then bump [] (nucleus (c_Z c) (c_A c)) w else []
  | _ => []
  end.

Lemma resolve_step : forall fuel visited n w, resolve_component find (S fuel) visited n w =
  match find n with
  | None => Missing
  | Some c => if existsb (str_eqb n) visited then Circular
              else resolve_each find fuel (n :: visited) w (c_composition c) (first_map c w)
  end.
Proof.
  intros fuel visited n w. cbn [resolve_component]. destruct (find n) as [c|]; [|reflexivity].
  destruct (existsb (str_eqb n) visited); [reflexivity|]. fold (first_map c w).
  generalize (first_map c w) as acc. induction (c_composition c) as [|[s f] l IH]; intros acc; [reflexivity|].
  cbn [resolve_each]. destruct (resolve_component find fuel (n :: visited) s (w * f)); [apply IH|reflexivity..].
Qed.

Definition simple_share (c : component) (p : Z) : R :=
  if Z.eq_dec p (1000000000 + c_Z c * 10000 + c_A c * 10)%Z
  then (if Z_lt_dec 0 (c_Z c) then if Z_lt_dec 0 (c_A c) then 1 else 0 else 0) else 0.

Lemma simple_amount : forall c w p, c_composition c = [] -> amount (first_map c w) p = w * simple_share c p.
Proof.
  intros c w p E. unfold first_map, simple_share, nucleus. rewrite E.
  generalize (1000000000 + c_Z c * 10000 + c_A c * 10)%Z as k. intros k.
  destruct (Z_lt_dec 0 (c_Z c)) as [Z1|Z1].
  - rewrite (proj2 (Z.ltb_lt _ _) Z1). destruct (Z_lt_dec 0 (c_A c)) as [A1|A1].
    + rewrite (proj2 (Z.ltb_lt _ _) A1). cbn [andb]. rewrite amount_bump. cbn [amount].
      destruct (Z.eq_dec k p), (Z.eq_dec p k); try congruence; lra.
    + rewrite (proj2 (Z.ltb_ge _ _)) by lia. cbn [andb amount]. destruct (Z.eq_dec p k); lra.
  - rewrite (proj2 (Z.ltb_ge 0 (c_Z c))) by lia. cbn [andb amount]. destruct (Z.eq_dec p k); lra.
Qed.

Lemma resolve_share : forall fuel,
  (forall visited n w m, resolve_component find fuel visited n w = Nuclei m -> exists s, share find n s /\ forall p, amount m p = w * s p) /\
  (forall l visited w acc m, resolve_each find fuel visited w l acc = Nuclei m ->
     exists s, shares find l s /\ forall p, amount m p = amount acc p + w * s p).
Proof.
  induction fuel as [|fuel [IH1 IH2]].
  - split; [intros; discriminate|]. intros [|[s f] l] visited w acc m H; cbn in H; [|discriminate].
    injection H as <-. exists (fun _ => 0). split; [constructor|intros; lra].
  - assert (C : forall visited n w m, resolve_component find (S fuel) visited n w = Nuclei m -> exists s, share find n s /\ forall p, amount m p = w * s p).
    { intros visited n w m H. rewrite resolve_step in H. destruct (find n) as [c|] eqn:E; [|discriminate].
      destruct (existsb _ visited); [discriminate|]. apply IH2 in H as (s & S & A).
      destruct (c_composition c) as [|e l] eqn:Q.
      - inversion S. subst. exists (simple_share c). split; [now apply (share_simple find n c)|]. intros p. rewrite A, simple_amount by exact Q. lra.
      - exists s. split; [apply (share_mixture find n c); [exact E|rewrite Q; discriminate|now rewrite Q]|].
        intros p. rewrite A. unfold first_map. rewrite Q. cbn. lra. }
    split; [exact C|].
    induction l as [|[n f] l IHl]; intros visited w acc m H; cbn [resolve_each] in H.
    + injection H as <-. exists (fun _ => 0). split; [constructor|intros; lra].
    + destruct (resolve_component find (S fuel) visited n (w * f)) as [m0| | |] eqn:E; try discriminate.
      apply C in E as (s & S & A). apply IHl in H as (t & T & B). exists (fun p => f * s p + t p).
      split; [now constructor|]. intros p. rewrite B, amount_bump_all, A. lra.
Qed.

(** What a component means is unique. *)
Scheme share_ind2 := Induction for share Sort Prop
  with shares_ind2 := Induction for shares Sort Prop.
Lemma share_unique : forall n s, share find n s -> forall t, share find n t -> forall p, s p = t p.
Proof.
  apply (share_ind2 find (fun n s _ => forall t, share find n t -> forall p, s p = t p)
                         (fun l s _ => forall t, shares find l t -> forall p, s p = t p)).
  - intros n c E Q t T p. inversion T; subst; [|congruence]. assert (c0 = c) by congruence. subst. reflexivity.
  - intros n c s E Q S IH t T p. inversion T; subst; [congruence|]. assert (c0 = c) by congruence. subst. now apply IH.
  - intros t T p. now inversion T.
  - intros n f l s t S IH1 T IH2 u U p. inversion U; subst. rewrite (IH1 _ H3 p), (IH2 _ H4 p). reflexivity.
Qed.

(** ** Ends *)

Lemma resolve_ends : forall keys, (forall n c, find n = Some c -> In n keys) -> forall fuel,
  (forall visited n w, NoDup visited -> incl visited keys -> (S (List.length keys) <= fuel + List.length visited)%nat ->
     resolve_component find fuel visited n w <> Unfinished) /\
  (forall l visited w acc, NoDup visited -> incl visited keys -> (S (List.length keys) <= fuel + List.length visited)%nat ->
     resolve_each find fuel visited w l acc <> Unfinished).
Proof.
  intros keys K. induction fuel as [|fuel [IH1 IH2]].
  - split; intros; exfalso; pose proof (NoDup_incl_length H H0); lia.
  - assert (C : forall visited n w, NoDup visited -> incl visited keys -> (S (List.length keys) <= S fuel + List.length visited)%nat ->
       resolve_component find (S fuel) visited n w <> Unfinished).
    { intros visited n w N I L. rewrite resolve_step. destruct (find n) as [c|] eqn:E; [|discriminate].
      destruct (existsb (str_eqb n) visited) eqn:V; [discriminate|]. apply IH2.
      - constructor; [|exact N]. intros X. assert (Y : existsb (str_eqb n) visited = true) by (apply existsb_exists; exists n; split; [exact X|apply seq_refl]). congruence.
      - intros x [<-|X]; [now apply (K n c)|now apply I].
      - cbn. lia. }
    split; [exact C|]. induction l as [|[n f] l IHl]; intros visited w acc N I L; cbn [resolve_each]; [discriminate|].
    pose proof (C visited n (w * f) N I L) as X. destruct (resolve_component find (S fuel) visited n (w * f)); try discriminate; [|contradiction].
    now apply IHl.
Qed.

(** ** No cycles *)

(** [n] can be resolved in [h] steps down. *)
Fixpoint grounded (h : nat) (n : list ascii) : Prop :=
  match h with
  | 0%nat => False
  | S h => match find n with Some c => Forall (fun e => grounded h (fst e)) (c_composition c) | None => False end
  end.
Lemma grounded_more : forall h n, grounded h n -> grounded (S h) n.
Proof.
  induction h as [|h IH]; intros n H; [contradiction|]. cbn [grounded] in *. destruct (find n); [|contradiction].
  eapply Forall_impl; [|exact H]. intros e E. now apply IH.
Qed.
Lemma grounded_le : forall h h' n, (h <= h')%nat -> grounded h n -> grounded h' n.
Proof. induction 1; auto. intros. apply grounded_more. auto. Qed.

Lemma share_grounded : forall n s, share find n s -> exists h, grounded h n.
Proof.
  apply (share_ind2 find (fun n s _ => exists h, grounded h n) (fun l s _ => exists h, Forall (fun e => grounded h (fst e)) l)).
  - intros n c E Q. exists 1%nat. cbn. rewrite E, Q. constructor.
  - intros n c s E Q SH [h H]. exists (S h). cbn. rewrite E. exact H.
  - exists 0%nat. constructor.
  - intros n f l s t S [h1 H1] T [h2 H2]. exists (h1 + h2)%nat. constructor; [apply (grounded_le h1); [lia|exact H1]|].
    eapply Forall_impl; [|exact H2]. intros e. apply grounded_le. lia.
Qed.

Local Notation below := (MixSpec.below find).
Lemma below_snoc : forall k n m c q f, below k n m -> find m = Some c -> In (q, f) (c_composition c) -> below (S k) n q.
Proof.
  induction 1; intros E I.
  - eapply below_S; [exact E|exact I|constructor].
  - eapply below_S; [eassumption|eassumption|]. now apply IHbelow.
Qed.
Lemma grounded_below : forall k n m h, below k n m -> grounded h n -> exists h', h = (k + h')%nat /\ grounded h' m.
Proof.
  induction k as [|k IH]; intros n m h B H.
  - inversion B. subst. now exists h.
  - inversion B as [|? ? c x f ? E I B']. subst. destruct h as [|h]; [contradiction|]. cbn in H. rewrite E in H.
    rewrite Forall_forall in H. specialize (H _ I). cbn in H. destruct (IH _ _ _ B' H) as (h' & -> & G). exists h'. split; [lia|exact G].
Qed.
Lemma no_cycle : forall h n k, grounded h n -> ~ below (S k) n n.
Proof.
  induction h as [h IH] using (well_founded_induction Wf_nat.lt_wf). intros n k G B.
  destruct (grounded_below _ _ _ _ B G) as (h' & E & G'). apply (IH h' ltac:(lia) n k G' B).
Qed.

Lemma resolve_right : forall fuel h,
  (forall visited n w, grounded h n -> (forall v, In v visited -> exists k, below (S k) v n) ->
     resolve_component find fuel visited n w <> Missing /\ resolve_component find fuel visited n w <> Circular) /\
  (forall l visited w acc, Forall (fun e => grounded h (fst e)) l -> (forall v e, In v visited -> In e l -> exists k, below (S k) v (fst e)) ->
     resolve_each find fuel visited w l acc <> Missing /\ resolve_each find fuel visited w l acc <> Circular).
Proof.
  induction fuel as [|fuel IH]; intros h.
  - split; [split; discriminate|]. intros [|[n f] l] visited w acc H V; cbn; split; discriminate.
  - assert (C : forall visited n w, grounded h n -> (forall v, In v visited -> exists k, below (S k) v n) ->
       resolve_component find (S fuel) visited n w <> Missing /\ resolve_component find (S fuel) visited n w <> Circular).
    { intros visited n w G V. rewrite resolve_step. destruct h as [|h]; [contradiction|]. pose proof G as G0. cbn in G.
      destruct (find n) as [c|] eqn:E; [|contradiction]. destruct (existsb (str_eqb n) visited) eqn:X.
      - apply existsb_exists in X as (v & I & Q). apply str_eqb_eq in Q. subst v. destruct (V _ I) as [k B].
        exfalso. exact (no_cycle _ _ _ G0 B).
      - apply (proj2 (IH h)); [exact G|]. intros v [m f] [<-|I] J.
        + exists 0%nat. eapply below_S; [exact E|exact J|constructor].
        + destruct (V _ I) as [k B]. exists (S k). eapply below_snoc; [exact B|exact E|exact J]. }
    split; [exact C|]. induction l as [|[n f] l IHl]; intros visited w acc G V; cbn [resolve_each]; [split; discriminate|].
    inversion G as [|? ? G1 G2]. subst. cbn in G1.
    destruct (C visited n (w * f) G1) as [X1 X2]; [intros v I; apply (V v (n, f) I); now left|].
    destruct (resolve_component find (S fuel) visited n (w * f)); try contradiction; try (split; discriminate).
    apply IHl; [exact G2|]. intros v e I J. apply V; [exact I|now right].
Qed.

(** ** Totals *)

Lemma resolve_total : proper find -> forall fuel,
  (forall visited n w m, resolve_component find fuel visited n w = Nuclei m -> sum m = w) /\
  (forall l visited w acc m, resolve_each find fuel visited w l acc = Nuclei m -> sum m = sum acc + w * sum l).
Proof.
  intros P. induction fuel as [|fuel [IH1 IH2]].
  - split; [intros; discriminate|]. intros [|[s f] l] visited w acc m H; cbn in H; [|discriminate]. injection H as <-. cbn. lra.
  - assert (C : forall visited n w m, resolve_component find (S fuel) visited n w = Nuclei m -> sum m = w).
    { intros visited n w m H. rewrite resolve_step in H. destruct (find n) as [c|] eqn:E; [|discriminate].
      destruct (existsb _ visited); [discriminate|]. apply IH2 in H. rewrite H. destruct (P _ _ E) as [P1 P2]. unfold first_map.
      destruct (c_composition c) as [|e l] eqn:Q.
      - destruct (P1 eq_refl) as [A B]. apply Z.ltb_lt in A, B. rewrite A, B. cbn. lra.
      - rewrite P2 by discriminate. cbn. lra. }
    split; [exact C|]. induction l as [|[n f] l IHl]; intros visited w acc m H; cbn [resolve_each] in H.
    + injection H as <-. cbn. lra.
    + destruct (resolve_component find (S fuel) visited n (w * f)) as [m0| | |] eqn:E; try discriminate.
      apply C in E. apply IHl in H. rewrite H, sum_bump_all, E. cbn. lra.
Qed.

End Resolve.
