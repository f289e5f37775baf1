(** Proofs about brackets, copies and the expansion of loops. *)
From Coq Require Import List Bool Arith ZArith Ascii String Lia.
From Verif Require Import GdmlModel GdmlSpec GdmlProofs GdmlReject GdmlLoopModel GdmlLoopSpec GdmlLoopProofs.
Import ListNotations.
Open Scope char_scope.

Lemma find_char_none : forall c s, ~ In c s -> find [c] s = None.
Proof.
  induction s as [|d s IH]; intros H; cbn; auto.
  destruct (Ascii.eqb c d) eqn:E; [apply Ascii.eqb_eq in E; subst; exfalso; apply H; left; auto|].
  cbn. rewrite IH; auto. intros K. apply H. right. auto.
Qed.

Lemma find_char_app : forall c a s, ~ In c a -> find [c] (a ++ s) = option_map (Nat.add (List.length a)) (find [c] s).
Proof.
  induction a as [|d a IH]; intros s H; cbn [app].
  - cbn. destruct (find [c] s); auto.
  - cbn [find]. cbn [prefix_of]. destruct (Ascii.eqb c d) eqn:E; [apply Ascii.eqb_eq in E; subst; exfalso; apply H; left; auto|].
    cbn [andb]. rewrite IH; [|intros K; apply H; right; auto]. destruct (find [c] s); auto.
Qed.

Lemma find_char_here : forall c s, find [c] (c :: s) = Some 0.
Proof. intros. cbn. rewrite Ascii.eqb_refl. auto. Qed.

Lemma replace_names_total : forall x val, x <> [] -> forall n todo, List.length todo <= n -> forall done,
  replace_names (S n) x val (done ++ todo) (List.length done) <> None.
Proof.
  intros x val HX. assert (0 < List.length x) by (destruct x; cbn; [congruence|lia]).
  induction n as [|n IH]; intros todo L done; cbn [replace_names]; rewrite find_from_app;
    destruct (find x todo) as [k|] eqn:F; cbn [option_map]; try discriminate;
    destruct (find_some _ _ _ F) as (a & r & -> & <- & N); rewrite !app_length in L; try lia.
  replace (done ++ a ++ x ++ r) with ((done ++ a) ++ x ++ r) by (rewrite <- app_assoc; auto).
  rewrite <- app_length. destruct (_ && _).
  - rewrite replace_app, app_assoc, <- app_length. apply IH. lia.
  - rewrite app_assoc, <- app_length. apply IH. lia.
Qed.

Lemma replace_names_nonempty : forall x val, val <> [] -> forall fuel s pos t, s <> [] ->
  replace_names fuel x val s pos = Some t -> t <> [].
Proof.
  intros x val HV. induction fuel as [|fuel IH]; intros s pos t HS H; [discriminate|]. cbn [replace_names] in H.
  destruct (find_from x s pos) as [p|]; [|congruence].
  destruct (_ && _); eapply IH in H; eauto.
  unfold replace. intros E. apply app_eq_nil in E. destruct E as [_ E]. apply app_eq_nil in E. tauto.
Qed.

Section Tree.
Variable V Env : Type.
Variable ev : Env -> list ascii -> result V.
Variable print : V -> list ascii.
Variable parse : Env -> list ascii -> result V.
Variable lookup : Env -> list ascii -> V.
Variable store : Env -> list ascii -> V -> Env.
Variable default_step : V -> V.
Variable goes_on : V -> V -> V -> bool.
Variable next : V -> V -> V.
Variable format : V -> list ascii.
Variable built_in : list ascii -> bool.

Hypothesis print_digits : forall v, print v <> [] /\ Forall (fun c => digit c \/ c = "-") (print v).
Hypothesis format_nonempty : forall v, format v <> [].

Notation replace_brackets := (replace_brackets V Env ev print).
Notation subst_loop_var := (subst_loop_var V Env ev print).
Notation clone_attributes := (clone_attributes V Env ev print).
Notation clone := (clone V Env ev print).
Notation clone_all := (clone_all V Env ev print).
Notation iterate := (iterate V Env ev print store goes_on next format).
Notation expand := (expand V Env ev print parse lookup store default_step goes_on next format built_in).

Definition value (env : Env) (e : list ascii) : option (list ascii) :=
  match ev env e with Val v => Some (print v) | Thrown => None end.

Lemma print_no_bracket : forall v, ~ In "[" (print v).
Proof.
  intros v H. destruct (print_digits v) as [_ F]. rewrite Forall_forall in F. destruct (F _ H) as [D|D]; [|discriminate].
  apply digit_iff in D. discriminate.
Qed.

Lemma brackets_skip : forall fuel env d v b errs, ~ In "[" v ->
  replace_brackets fuel env (d ++ v ++ b) (List.length d) errs =
  replace_brackets fuel env (d ++ v ++ b) (List.length (d ++ v)) errs.
Proof.
  intros [|fuel] env d v b errs H; auto. cbn [GdmlLoopModel.replace_brackets].
  assert (E : find_from ["["] (d ++ v ++ b) (List.length d) = find_from ["["] (d ++ v ++ b) (List.length (d ++ v))).
  { rewrite find_from_app, find_char_app by auto. rewrite app_assoc, find_from_app, app_length.
    destruct (find ["["] b); cbn [option_map]; auto. rewrite <- Nat.add_assoc. auto. }
  rewrite E. auto.
Qed.

Lemma brackets_step : forall fuel env d a e b errs, ~ In "[" a -> ~ In "]" e ->
  replace_brackets (S fuel) env (d ++ a ++ "[" :: e ++ "]" :: b) (List.length d) errs =
  match ev env e with
  | Val v => replace_brackets fuel env (d ++ a ++ print v ++ b) (List.length (d ++ a ++ print v)) errs
  | Thrown => replace_brackets fuel env ((d ++ a ++ "[" :: e ++ ["]"]) ++ b) (List.length (d ++ a ++ "[" :: e ++ ["]"])) (errs ++ [e])
  end.
Proof.
  intros fuel env d a e b errs HA HE. cbn [GdmlLoopModel.replace_brackets].
  rewrite find_from_app, find_char_app, find_char_here by auto. cbn [option_map]. rewrite Nat.add_0_r.
  rewrite <- app_length.
  assert (E1 : d ++ a ++ "[" :: e ++ "]" :: b = ((d ++ a) ++ ["["]) ++ e ++ "]" :: b).
  { rewrite <- !app_assoc. auto. }
  replace (List.length (d ++ a) + 1) with (List.length ((d ++ a) ++ ["["])) by (rewrite app_length; auto).
  rewrite E1, find_from_app, find_char_app, find_char_here by auto. cbn [option_map]. rewrite Nat.add_0_r.
  rewrite skipn_app_length.
  set (q := d ++ a). assert (LQ : List.length (q ++ ["["]) = List.length q + 1) by (rewrite app_length; auto).
  rewrite LQ. replace (List.length q + 1 + List.length e - List.length q - 1) with (List.length e) by lia.
  rewrite firstn_app_length. destruct (ev env e) as [v|].
  - assert (E2 : replace ((q ++ ["["]) ++ e ++ "]" :: b) (List.length q) (List.length q + 1 + List.length e - List.length q + 1) (print v)
                 = q ++ print v ++ b).
    { replace (List.length q + 1 + List.length e - List.length q + 1) with (List.length ("[" :: e ++ ["]"])).
      - replace ((q ++ ["["]) ++ e ++ "]" :: b) with (q ++ ("[" :: e ++ ["]"]) ++ b).
        + apply replace_app.
        + rewrite <- !app_assoc. cbn. rewrite <- app_assoc. auto.
      - cbn. rewrite app_length. cbn. lia. }
    rewrite E2, brackets_skip by apply print_no_bracket. unfold q. rewrite <- !app_assoc. auto.
  - f_equal.
    + unfold q. rewrite <- !app_assoc. cbn. rewrite <- !app_assoc. auto.
    + unfold q. rewrite !app_length. cbn. rewrite app_length. cbn. lia.
Qed.

Lemma brackets_evaluated : forall env s t failed, Evaluated (value env) s t failed ->
  forall fuel d errs, List.length s < fuel ->
  replace_brackets fuel env (d ++ s) (List.length d) errs = Some (d ++ t, errs ++ failed).
Proof.
  intros env s t failed H. induction H as [s N|a e b v t failed HA HE HV H IH|a e b t failed HA HE HV H IH]; intros fuel d errs L.
  - destruct fuel as [|fuel]; [lia|]. cbn [GdmlLoopModel.replace_brackets]. rewrite app_nil_r, find_from_app.
    destruct (find ["["] s) as [k|] eqn:F; cbn [option_map]; auto.
    destruct (find_some _ _ _ F) as (a & r & -> & <- & _).
    replace (d ++ a ++ ["["] ++ r) with ((d ++ a ++ ["["]) ++ r) by (rewrite <- !app_assoc; auto).
    replace (List.length d + List.length a + 1) with (List.length (d ++ a ++ ["["])) by (rewrite !app_length; cbn; lia).
    rewrite find_from_app. destruct (find ["]"] r) as [j|] eqn:F2; cbn [option_map]; auto.
    destruct (find_some _ _ _ F2) as (e & b & -> & _ & _). exfalso. apply (N a e b). auto.
  - destruct fuel as [|fuel]; [lia|]. rewrite brackets_step by auto.
    unfold value in HV. destruct (ev env e) as [w|]; [|discriminate]. injection HV as <-.
    replace (d ++ a ++ print w ++ b) with ((d ++ a ++ print w) ++ b) by (rewrite <- !app_assoc; auto).
    rewrite IH; [rewrite <- !app_assoc; auto|]. rewrite app_length in L. cbn in L. rewrite app_length in L. cbn in L. lia.
  - destruct fuel as [|fuel]; [lia|]. rewrite brackets_step by auto.
    unfold value in HV. destruct (ev env e) as [w|]; [discriminate|].
    rewrite IH; [|rewrite app_length in L; cbn in L; rewrite app_length in L; cbn in L; lia].
    rewrite <- !app_assoc. cbn. rewrite <- app_assoc. auto.
Qed.

Lemma evaluated_exists : forall val s, exists t failed, Evaluated val s t failed.
Proof.
  intros val s. remember (List.length s) as n eqn:E. assert (L : List.length s <= n) by lia. clear E.
  revert s L. induction n as [|n IH]; intros s L.
  - destruct s; cbn in L; [|lia]. exists [], []. constructor. intros [|? ?] e b; discriminate.
  - destruct (in_dec ascii_dec "[" s) as [I1|I1].
    + destruct (find ["["] s) as [k|] eqn:F; [|exfalso].
      2: { apply in_split in I1. destruct I1 as (a & r & ->).
           pose proof (find_none _ _ F a ("[" :: r) eq_refl) as P. cbn in P. discriminate. }
      destruct (find_some _ _ _ F) as (a & r & -> & _ & NA).
      assert (HA : ~ In "[" a).
      { intros K. apply in_split in K. destruct K as (a1 & a2 & ->).
        pose proof (NA a1 ("[" :: a2) eq_refl ltac:(discriminate)) as P. cbn in P. discriminate. }
      destruct (find ["]"] r) as [j|] eqn:F2.
      * destruct (find_some _ _ _ F2) as (e & b & -> & _ & NE).
        assert (HE : ~ In "]" e).
        { intros K. apply in_split in K. destruct K as (a1 & a2 & ->).
          pose proof (NE a1 ("]" :: a2) eq_refl ltac:(discriminate)) as P. cbn in P. discriminate. }
        rewrite !app_length in L. cbn in L.
        destruct (IH b ltac:(lia)) as (t & failed & HT).
        destruct (val e) as [v|] eqn:EV.
        -- exists (a ++ v ++ t), failed. apply V_text; auto.
        -- exists (a ++ "[" :: e ++ "]" :: t), (e :: failed). apply V_fail; auto.
      * exists (a ++ ["["] ++ r), []. constructor. intros a' e' b' E. cbn in E.
        assert (HR : ~ In "]" r).
        { intros K. apply in_split in K. destruct K as (a1 & a2 & ->).
          pose proof (find_none _ _ F2 a1 ("]" :: a2) eq_refl) as P. cbn in P. discriminate. }
        assert (G : forall a0 a1 : list ascii, ~ In "[" a0 -> a0 ++ "[" :: r = a1 ++ "[" :: e' ++ "]" :: b' -> False).
        { induction a0 as [|c0 a0 IH0]; intros a1 H0 E0.
          - destruct a1 as [|c1 a1]; cbn in E0; inversion E0; subst.
            + apply HR. apply in_or_app. right. left. auto.
            + apply HR. apply in_or_app. right. right. apply in_or_app. right. left. auto.
          - destruct a1 as [|c1 a1]; cbn in E0; inversion E0; subst.
            + apply H0. left. auto.
            + apply (IH0 a1); auto. intros K. apply H0. right. auto. }
        exact (G a a' HA E).
    + exists s, []. constructor. intros a e b ->. apply I1. apply in_or_app. right. left. auto.
Qed.

Lemma brackets_nonempty : forall fuel env s pos errs t er, s <> [] ->
  replace_brackets fuel env s pos errs = Some (t, er) -> t <> [].
Proof.
  induction fuel as [|fuel IH]; intros env s pos errs t er HS H; [discriminate|]. cbn [GdmlLoopModel.replace_brackets] in H.
  destruct (find_from ["["] s pos) as [p|]; [|congruence].
  destruct (find_from ["]"] s (p + 1)) as [q|]; [|congruence].
  destruct (ev env _) as [v|]; eapply IH in H; eauto.
  unfold replace. intros E. apply app_eq_nil in E. destruct E as [_ E]. apply app_eq_nil in E.
  destruct (print_digits v). tauto.
Qed.

(** ** Substitution ends and copies *)

Lemma subst_total : forall s x val env, x <> [] -> exists r N, forall fuel, N <= fuel -> subst_loop_var fuel s x val env = Some r.
Proof.
  intros s x val env HX. destruct (evaluated_exists (value env) s) as (m & failed & HM).
  pose proof (replace_names_total x val HX (List.length m) m (le_n _) []) as T. cbn [app List.length] in T.
  destruct (replace_names (S (List.length m)) x val m 0) as [t|] eqn:R; [|congruence].
  exists (t, failed), (S (List.length s + List.length m)). intros fuel L. unfold GdmlLoopModel.subst_loop_var.
  pose proof (brackets_evaluated env s m failed HM fuel [] [] ltac:(lia)) as B. cbn [app List.length] in B. rewrite B.
  replace fuel with (S (List.length m) + (fuel - S (List.length m))) by lia.
  rewrite (replace_names_more _ _ _ _ _ _ _ R). auto.
Qed.

Lemma subst_nonempty : forall fuel s x val env r, val <> [] -> s <> [] -> subst_loop_var fuel s x val env = Some r -> fst r <> [].
Proof.
  intros fuel s x val env r HV HS H. unfold GdmlLoopModel.subst_loop_var in H.
  destruct (replace_brackets fuel env s 0 []) as [[m er]|] eqn:B; [|discriminate].
  destruct (replace_names fuel x val m 0) as [t|] eqn:R; [|discriminate]. injection H as <-.
  exact (replace_names_nonempty x val HV fuel m 0 t (brackets_nonempty _ _ _ _ _ _ _ HS B) R).
Qed.

Lemma node_induction : forall P : node -> Prop,
  (forall name attrs children, Forall P children -> P (Node name attrs children)) -> forall n, P n.
Proof.
  intros P H. fix IH 1. intros [name attrs children]. apply H.
  induction children as [|c children IHc]; constructor; [apply IH|exact IHc].
Qed.

Lemma clone_unfold : forall fuel name attrs children x val env,
  clone fuel (Node name attrs children) x val env =
  match clone_attributes fuel attrs x val env, clone_all fuel children x val env with
  | Some attrs, Some children => Some (Node name attrs children)
  | _, _ => None
  end.
Proof.
  intros. cbn [GdmlLoopModel.clone]. destruct (clone_attributes fuel attrs x val env); auto.
  match goal with |- match ?f children with _ => _ end = _ => assert (E : f children = clone_all fuel children x val env) end.
  { induction children as [|c children IH]; auto. cbn [GdmlLoopModel.clone_all]. rewrite IH. auto. }
  rewrite E. auto.
Qed.

Lemma clone_attributes_total : forall x val env, x <> [] -> forall attrs,
  exists r N, forall fuel, N <= fuel -> clone_attributes fuel attrs x val env = Some r.
Proof.
  intros x val env HX. induction attrs as [|[n v] attrs (r & N & IH)].
  - exists [], 0. auto.
  - destruct (subst_total v x val env HX) as ((t & er) & M & HT). exists ((n, t) :: r), (N + M). intros fuel L.
    cbn [GdmlLoopModel.clone_attributes]. rewrite HT, IH by lia. auto.
Qed.

Lemma clone_all_total0 : forall x val env l,
  Forall (fun n => exists r N, forall fuel, N <= fuel -> clone fuel n x val env = Some r) l ->
  exists r N, forall fuel, N <= fuel -> clone_all fuel l x val env = Some r.
Proof.
  intros x val env l H. induction H as [|n l (r & N & H) _ (rs & M & IH)].
  - exists [], 0. auto.
  - exists (r :: rs), (N + M). intros fuel L. cbn [GdmlLoopModel.clone_all]. rewrite H, IH by lia. auto.
Qed.

Lemma clone_total : forall x val env, x <> [] -> forall n,
  exists r N, forall fuel, N <= fuel -> clone fuel n x val env = Some r.
Proof.
  intros x val env HX. induction n as [name attrs children IH] using node_induction.
  destruct (clone_attributes_total x val env HX attrs) as (a & N & HA).
  destruct (clone_all_total0 x val env children IH) as (c & M & HC).
  exists (Node name a c), (N + M). intros fuel L. rewrite clone_unfold, HA, HC by lia. auto.
Qed.

Lemma clone_all_total : forall x val env, x <> [] -> forall l,
  exists r N, forall fuel, N <= fuel -> clone_all fuel l x val env = Some r.
Proof. intros. apply clone_all_total0. apply Forall_forall. intros n _. apply clone_total. auto. Qed.

(** Names of loops. *)
Definition loop_named (n : node) : Prop :=
  match n with Node name attrs _ => name = text "loop" -> attribute attrs (text "for") <> [] end.
Inductive named : node -> Prop :=
| named_node name attrs children : loop_named (Node name attrs children) -> Forall named children -> named (Node name attrs children).

Lemma clone_attribute : forall fuel x val env attrs r key, clone_attributes fuel attrs x val env = Some r -> val <> [] ->
  attribute attrs key <> [] -> attribute r key <> [].
Proof.
  intros fuel x val env. induction attrs as [|[n v] attrs IH]; intros r key H HV HA; cbn in *; [tauto|].
  destruct (subst_loop_var fuel v x val env) as [[t er]|] eqn:S1; [|discriminate].
  destruct (clone_attributes fuel attrs x val env) as [r'|] eqn:S2; [|discriminate].
  injection H as <-. cbn. destruct (str_eqb n key).
  - apply (subst_nonempty _ _ _ _ _ _ HV HA S1).
  - eauto.
Qed.

Fixpoint weight (n : node) : nat :=
  match n with
  | Node name _ children =>
      let w := list_sum (map weight children) in
      S (if str_eqb name (text "loop") then max_iterations * w else w)
  end.
Definition weights (l : list node) : nat := list_sum (map weight l).

Lemma weights_app : forall a b, weights (a ++ b) = weights a + weights b.
Proof. intros. unfold weights. rewrite map_app. apply list_sum_app. Qed.

Lemma clone_facts : forall fuel x val env, val <> [] -> forall n r, clone fuel n x val env = Some r ->
  weight r = weight n /\ (named n -> named r).
Proof.
  intros fuel x val env HV. induction n as [name attrs children IH] using node_induction. intros r H.
  rewrite clone_unfold in H. destruct (clone_attributes fuel attrs x val env) as [a|] eqn:A; [|discriminate].
  destruct (clone_all fuel children x val env) as [c|] eqn:C; [|discriminate]. injection H as <-.
  assert (G : map weight c = map weight children /\ (Forall named children -> Forall named c)).
  { clear A a. revert c C. induction IH as [|n l Hn Hl IHl]; intros c C; cbn in C.
    - injection C as <-. auto.
    - destruct (clone fuel n x val env) as [n'|] eqn:E1; [|discriminate].
      destruct (clone_all fuel l x val env) as [l'|] eqn:E2; [|discriminate]. injection C as <-.
      destruct (Hn _ eq_refl) as [W1 N1]. destruct (IHl _ eq_refl) as [W2 N2]. split.
      + cbn. congruence.
      + intros F. inversion F; subst. constructor; auto. }
  destruct G as [G1 G2]. split.
  - cbn [weight]. rewrite G1. auto.
  - intros K. inversion K as [? ? ? K1 K2]; subst. constructor; auto.
    cbn in *. intros E. eapply clone_attribute; eauto.
Qed.

Lemma clone_all_facts : forall fuel x val env, val <> [] -> forall l r, clone_all fuel l x val env = Some r ->
  weights r = weights l /\ (Forall named l -> Forall named r).
Proof.
  intros fuel x val env HV. induction l as [|n l IH]; intros r H; cbn in H.
  - injection H as <-. auto.
  - destruct (clone fuel n x val env) as [n'|] eqn:E1; [|discriminate].
    destruct (clone_all fuel l x val env) as [l'|] eqn:E2; [|discriminate]. injection H as <-.
    destruct (clone_facts _ _ _ _ HV _ _ E1) as [W1 N1]. destruct (IH _ eq_refl) as [W2 N2]. split.
    + change (weight n' + weights l' = weight n + weights l). rewrite W1, W2. auto.
    + intros F. inversion F; subst. constructor; auto.
Qed.

Lemma iterate_unfold : forall fuel allowed x body v to step env acc,
  iterate fuel allowed x body v to step env acc =
  if goes_on step v to then
    match allowed with
    | O => Some Thrown
    | S allowed =>
        match clone_all fuel body x (format v) (store env x v) with
        | None => None
        | Some b => iterate fuel allowed x body (next v step) to step (store env x v) (acc ++ b)
        end
    end
  else Some (Val (acc, env)).
Proof. intros. destruct allowed; auto. Qed.

Lemma iterate_total : forall x body to step, x <> [] -> forall allowed v env acc,
  exists r N, forall fuel, N <= fuel -> iterate fuel allowed x body v to step env acc = Some r.
Proof.
  intros x body to step HX. induction allowed as [|allowed IH]; intros v env acc.
  - destruct (goes_on step v to) eqn:G; [exists Thrown, 0|exists (Val (acc, env)), 0]; intros; rewrite iterate_unfold, G; auto.
  - destruct (goes_on step v to) eqn:G; [|exists (Val (acc, env)), 0; intros; rewrite iterate_unfold, G; auto].
    destruct (clone_all_total x (format v) (store env x v) HX body) as (b & N & HB).
    destruct (IH (next v step) (store env x v) (acc ++ b)) as (r & M & HR).
    exists r, (N + M). intros fuel L. rewrite iterate_unfold, G, HB, HR by lia. auto.
Qed.

Lemma iterate_facts : forall fuel x body to step allowed v env acc r env',
  iterate fuel allowed x body v to step env acc = Some (Val (r, env')) ->
  weights r <= weights acc + allowed * weights body /\ (Forall named body -> Forall named acc -> Forall named r).
Proof.
  intros fuel x body to step. induction allowed as [|allowed IH]; intros v env acc r env' H; rewrite iterate_unfold in H;
    destruct (goes_on step v to); try discriminate; try (injection H as <- _; split; [lia|auto]).
  destruct (clone_all fuel body x (format v) (store env x v)) as [b|] eqn:C; [|discriminate].
  destruct (clone_all_facts _ _ _ _ (format_nonempty v) _ _ C) as [W1 N1].
  destruct (IH _ _ _ _ _ H) as [W2 N2]. rewrite weights_app in W2. split; [cbn; lia|].
  intros F1 F2. apply N2; auto. apply Forall_app. auto.
Qed.

Lemma str_eqb_spec : forall a b, str_eqb a b = true \/ (str_eqb a b = false /\ a <> b).
Proof.
  intros. destruct (str_eqb a b) eqn:E; auto. right. split; auto. intros ->.
  assert (str_eqb b b = true) by (apply str_eqb_eq; auto). congruence.
Qed.

Lemma expand_total : forall n l, weights l <= n -> Forall named l -> forall depth env,
  exists r N, forall fuel, N <= fuel -> expand fuel depth l env = Some r.
Proof.
  induction n as [n IH] using lt_wf_ind. intros l W F depth env.
  destruct l as [|[name attrs children] rest].
  - exists (Val ([], env)), 1. intros [|fuel] L; [lia|]. auto.
  - inversion F as [|? ? F1 F2]; subst. inversion F1 as [? ? ? K1 K2]; subst.
    change (weights (Node name attrs children :: rest)) with (weight (Node name attrs children) + weights rest) in W.
    cbn [weight] in W. fold (weights children) in W.
    destruct (str_eqb_spec name (text "loop")) as [E|[E NE]]; rewrite E in W.
    + set (x := attribute attrs (text "for")).
      assert (HX : x <> []) by (apply K1; apply str_eqb_eq; exact E).
      destruct (built_in x) eqn:B.
      { destruct (IH (weights rest) ltac:(lia) rest (le_n _) F2 depth env) as (r & N & H). exists r, (S N).
        intros [|fuel] L; [lia|]. cbn [GdmlLoopModel.expand]. rewrite E. fold x. rewrite B. apply H. lia. }
      destruct (match attribute attrs (text "from") with [] => Val (lookup env x) | _ => parse env (attribute attrs (text "from")) end) as [from|] eqn:P1;
      [destruct (parse env (attribute attrs (text "to"))) as [to|] eqn:P2;
       [destruct (parse env (attribute attrs (text "step"))) as [step|] eqn:P3|]|].
      2-4: exists Thrown, 1; intros [|fuel] L; [lia|]; cbn [GdmlLoopModel.expand]; rewrite E; fold x; rewrite B; cbv zeta; rewrite P1; try rewrite P2; try rewrite P3; auto.
      destruct (iterate_total x children to (default_step step) HX max_iterations from env []) as (r & N & H).
      destruct r as [[cl env']|].
      * pose proof (iterate_facts N x children to (default_step step) max_iterations from env [] cl env' (H N (le_n _))) as [W1 N1].
        assert (W2 : weights (cl ++ rest) < n).
        { rewrite weights_app. change (weights []) with 0 in W1. lia. }
        destruct (IH _ W2 (cl ++ rest) (le_n _) ltac:(apply Forall_app; split; [apply N1; auto|exact F2]) depth env') as (r & M & HR).
        exists r, (S (N + M)). intros [|fuel] L; [lia|]. cbn [GdmlLoopModel.expand]. rewrite E. fold x. rewrite B. cbv zeta.
        rewrite P1, P2, P3, H by lia. apply HR. lia.
      * exists Thrown, (S N). intros [|fuel] L; [lia|]. cbn [GdmlLoopModel.expand]. rewrite E. fold x. rewrite B. cbv zeta.
        rewrite P1, P2, P3, H by lia. auto.
    + destruct depth as [|below].
      * destruct (IH (weights rest) ltac:(lia) rest (le_n _) F2 0 env) as (r & N & H).
        exists (match r with Val (rest, env) => Val (Node name attrs children :: rest, env) | Thrown => Thrown end), (S N).
        intros [|fuel] L; [lia|]. cbn [GdmlLoopModel.expand]. rewrite E, H by lia. destruct r as [[? ?]|]; auto.
      * destruct (IH (weights children) ltac:(lia) children (le_n _) K2 below env) as (r & N & H).
        destruct r as [[ch env']|].
        -- destruct (IH (weights rest) ltac:(lia) rest (le_n _) F2 (S below) env') as (r & M & H2).
           exists (match r with Val (rest, env) => Val (Node name attrs ch :: rest, env) | Thrown => Thrown end), (S (N + M)).
           intros [|fuel] L; [lia|]. cbn [GdmlLoopModel.expand]. rewrite E, H, H2 by lia. destruct r as [[? ?]|]; auto.
        -- exists Thrown, (S N). intros [|fuel] L; [lia|]. cbn [GdmlLoopModel.expand]. rewrite E, H by lia. auto.
Qed.

(** ** Specification side *)

Lemma attribute_spec : forall key attrs v, Attribute key attrs v -> attribute attrs key = v.
Proof.
  induction 1 as [v r|n v r w NE H IH]; cbn.
  - replace (str_eqb key key) with true; auto. symmetry. apply str_eqb_eq. auto.
  - destruct (str_eqb_spec n key) as [E|[E _]]; [apply str_eqb_eq in E; congruence|]. rewrite E. auto.
Qed.

Lemma named_of_variables : forall l, variables_named l -> Forall named l.
Proof.
  assert (G : forall n, forall l, In n l -> variables_named l -> named n).
  { induction n as [name attrs children IH] using node_induction. intros l HI H. constructor.
    - cbn. intros ->. destruct (H 0 attrs children) as (x & HA & HX); [constructor; auto|].
      apply attribute_spec in HA. change (attribute attrs (chars "for") <> []). rewrite HA. auto.
    - rewrite Forall_forall in *. intros c HC. apply (IH c HC children HC).
      intros d a ch HB. apply (H (S d) a ch). econstructor; eauto. }
  intros l H. apply Forall_forall. intros n HI. apply (G n l HI H).
Qed.

Lemma below_app : forall d n a b, Below d n (a ++ b) -> Below d n a \/ Below d n b.
Proof.
  intros d n a b H. inversion H as [? ? HI|? ? ? ? ? ? HI HB]; subst; apply in_app_or in HI; destruct HI;
    [left; constructor|right; constructor|left; econstructor|right; econstructor]; eauto.
Qed.
Lemma below_cons : forall d n a b, Below d n (a :: b) -> Below d n [a] \/ Below d n b.
Proof. intros d n a b H. apply (below_app d n [a] b). exact H. Qed.
Lemma below_one : forall d n name attrs children, Below d n [Node name attrs children] ->
  (d = 0 /\ n = Node name attrs children) \/ exists e, d = S e /\ Below e n children.
Proof.
  intros d n name attrs children H. inversion H as [? ? HI|? ? ? ? ? ? HI HB]; subst; destruct HI as [HI|[]].
  - left. auto.
  - injection HI as -> -> ->. right. eauto.
Qed.

Lemma expand_no_loop : forall fuel depth l env l' env', expand fuel depth l env = Some (Val (l', env')) ->
  forall d n, d <= depth -> Below d n l' -> ~ is_loop n.
Proof.
  induction fuel as [|fuel IH]; intros depth l env l' env' H d n L HB; [discriminate|]. cbn [GdmlLoopModel.expand] in H.
  destruct l as [|[name attrs children] rest].
  - injection H as <- <-. inversion HB as [? ? HI|? ? ? ? ? ? HI _]; destruct HI.
  - destruct (str_eqb_spec name (text "loop")) as [E|[E NE]]; rewrite E in H.
    + cbv zeta in H. destruct (built_in _); [eapply IH; eauto|].
      destruct (match attribute attrs (text "from") with [] => _ | _ => _ end) as [from|]; [|discriminate].
      destruct (parse env (attribute attrs (text "to"))) as [to|]; [|discriminate].
      destruct (parse env (attribute attrs (text "step"))) as [step|]; [|discriminate].
      destruct (iterate _ _ _ _ _ _ _ _ _) as [[[cl env2]|]|]; try discriminate. eapply IH; eauto.
    + assert (G : forall ch rest', l' = Node name attrs ch :: rest' ->
        (forall e, d = S e -> Below e n ch -> ~ is_loop n) -> (Below d n rest' -> ~ is_loop n) -> ~ is_loop n).
      { intros ch rest' -> H1 H2. apply below_cons in HB. destruct HB as [HB|HB]; auto.
        apply below_one in HB. destruct HB as [[-> ->]|(e & -> & HB)]; [exact NE|eauto]. }
      destruct depth as [|below].
      * destruct (expand fuel 0 rest env) as [[[r e]|]|] eqn:R; try discriminate. injection H as <- <-.
        apply (G children r eq_refl); [intros; lia|intros; eapply IH; eauto].
      * destruct (expand fuel below children env) as [[[ch e1]|]|] eqn:C; try discriminate.
        destruct (expand fuel (S below) rest e1) as [[[r e]|]|] eqn:R; try discriminate. injection H as <- <-.
        apply (G ch r eq_refl); [intros e' -> HE; exact (IH below children env ch e1 C e' n ltac:(lia) HE)|intros; eapply IH; eauto].
Qed.

Lemma expand_loop_free : forall n l, weights l <= n -> loop_free l -> exists N, forall fuel depth env, N <= fuel ->
  expand fuel depth l env = Some (Val (l, env)).
Proof.
  induction n as [n IH] using lt_wf_ind. intros l W F. destruct l as [|[name attrs children] rest].
  - exists 1. intros [|fuel] depth env L; [lia|auto].
  - change (weights (Node name attrs children :: rest)) with (weight (Node name attrs children) + weights rest) in W.
    cbn [weight] in W. fold (weights children) in W.
    assert (NE : name <> text "loop") by (apply (F 0 (Node name attrs children)); constructor; left; auto).
    destruct (str_eqb_spec name (text "loop")) as [E|[E _]]; [apply str_eqb_eq in E; congruence|]. rewrite E in W.
    destruct (IH (weights children) ltac:(lia) children (le_n _)) as [N HN].
    { intros d m HB. apply (F (S d)). econstructor; [left; auto|exact HB]. }
    destruct (IH (weights rest) ltac:(lia) rest (le_n _)) as [M HM].
    { intros d m HB. apply (F d). inversion HB; subst; econstructor; try right; eauto. }
    exists (S (N + M)). intros [|fuel] depth env L; [lia|]. cbn [GdmlLoopModel.expand]. rewrite E.
    destruct depth; [rewrite HM by lia|rewrite HN, HM by lia]; auto.
Qed.

Lemma clone_copy : forall x val env, x <> [] -> forallb ident_char x = true -> forall n,
  exists m N, Copy (value env) x val n m /\ forall fuel, N <= fuel -> clone fuel n x val env = Some m.
Proof.
  intros x val env HX HI. induction n as [name attrs children IH] using node_induction.
  assert (A : exists attrs' N, Forall2 (fun a b => fst a = fst b /\ exists m failed, Evaluated (value env) (snd a) m failed /\ Replaced x val m (snd b)) attrs attrs' /\
    forall fuel, N <= fuel -> clone_attributes fuel attrs x val env = Some attrs').
  { induction attrs as [|[k v] attrs (r & N & F & H)]; [exists [], 0; split; [constructor|auto]|].
    destruct (evaluated_exists (value env) v) as (m & failed & HM).
    destruct (replaced_exists x val m) as [t HT].
    exists ((k, t) :: r), (N + S (List.length v + List.length m)). split.
    - constructor; auto. cbn. split; eauto.
    - intros fuel L. cbn [GdmlLoopModel.clone_attributes]. unfold GdmlLoopModel.subst_loop_var.
      pose proof (brackets_evaluated env v m failed HM fuel [] [] ltac:(lia)) as B. cbn [app List.length] in B.
      rewrite B, (replace_names_replaced x val HX HI m t fuel HT) by lia. rewrite H by lia. auto. }
  assert (C : exists children' N, Forall2 (Copy (value env) x val) children children' /\
    forall fuel, N <= fuel -> clone_all fuel children x val env = Some children').
  { clear A. induction IH as [|n l (m & N & HC & HN) _ (r & M & F & HM)].
    - exists [], 0. split; [constructor|auto].
    - exists (m :: r), (N + M). split; [constructor; auto|]. intros fuel L. cbn [GdmlLoopModel.clone_all].
      rewrite HN, HM by lia. auto. }
  destruct A as (a & N & FA & HA). destruct C as (c & M & FC & HC).
  exists (Node name a c), (N + M). split; [constructor; auto|]. intros fuel L. rewrite clone_unfold, HA, HC by lia. auto.
Qed.

Lemma clone_all_copy : forall x val env, x <> [] -> forallb ident_char x = true -> forall l,
  exists m N, Forall2 (Copy (value env) x val) l m /\ forall fuel, N <= fuel -> clone_all fuel l x val env = Some m.
Proof.
  intros x val env HX HI. induction l as [|n l (r & M & F & HM)].
  - exists [], 0. split; [constructor|auto].
  - destruct (clone_copy x val env HX HI n) as (m & N & HC & HN). exists (m :: r), (N + M). split; [constructor; auto|].
    intros fuel L. cbn [GdmlLoopModel.clone_all]. rewrite HN, HM by lia. auto.
Qed.

Lemma iterate_unrolled : forall x body to step, x <> [] -> forallb ident_char x = true -> forall allowed v vs,
  Runs (fun v => goes_on step v to) (fun v => next v step) allowed v vs -> forall env acc,
  exists cl env' N, Unrolled value store format x body env vs cl env' /\
  forall fuel, N <= fuel -> iterate fuel allowed x body v to step env acc = Some (Val (acc ++ cl, env')).
Proof.
  intros x body to step HX HI allowed v vs H. induction H as [n v G|n v vs G H IH]; intros env acc.
  - exists [], env, 0. split; [constructor|]. intros. rewrite iterate_unfold, G, app_nil_r. auto.
  - destruct (clone_all_copy x (format v) (store env x v) HX HI body) as (b & N & HB & HN).
    destruct (IH (store env x v) (acc ++ b)) as (cl & env' & M & U & HM).
    exists (b ++ cl), env', (N + M). split; [econstructor; eauto|]. intros fuel L.
    rewrite iterate_unfold, G, HN, HM by lia. rewrite app_assoc. auto.
Qed.

Lemma copy_loop_free : forall val0 x val l l', Forall2 (Copy val0 x val) l l' -> loop_free l -> loop_free l'.
Proof.
  assert (G : forall val0 x val m l l', Forall2 (Copy val0 x val) l l' -> forall d, Below d m l' ->
    exists n, Below d n l /\ (is_loop m <-> is_loop n)).
  { intros val0 x val m l l' F d HB. revert l F. induction HB as [n l' HI|d n name attrs children l' HI HB IH]; intros l F.
    - induction F as [|a b l l' HC F IH]; [destruct HI|]. destruct HI as [->|HI].
      + inversion HC; subst. eexists. split; [constructor; left; reflexivity|]. cbn. tauto.
      + destruct (IH HI) as (k & K1 & K2). exists k. split; auto. inversion K1; subst. constructor. right. auto.
    - assert (K : exists a ch, In (Node name a ch) l /\ Forall2 (Copy val0 x val) ch children).
      { clear IH. induction F as [|a b l l' HC F IH]; [destruct HI|]. destruct HI as [->|HI].
        - inversion HC; subst. do 2 eexists. split; [left; reflexivity|auto].
        - destruct (IH HI) as (a1 & ch & K1 & K2). exists a1, ch. split; [right|]; auto. }
      destruct K as (a & ch & K1 & K2). destruct (IH ch K2) as (k & K3 & K4). exists k. split; auto. econstructor; eauto. }
  intros val0 x val l l' F HL d m HB. destruct (G val0 x val m l l' F d HB) as (n & K1 & K2). rewrite K2. eapply HL; eauto.
Qed.

Lemma unrolled_loop_free : forall x body env vs cl env', Unrolled value store format x body env vs cl env' ->
  loop_free body -> loop_free cl.
Proof.
  induction 1 as [env|env v vs copy rest env' F U IH]; intros L d n HB.
  - inversion HB as [? ? HI|? ? ? ? ? ? HI _]; destruct HI.
  - apply below_app in HB. destruct HB as [HB|HB].
    + eapply copy_loop_free; eauto.
    + eapply IH; eauto.
Qed.
End Tree.
