(** Proofs about the meaning of an expression in which a loop variable is replaced by a numeral. *)
From Coq Require Import List Bool Arith ZArith Ascii String Lia.
From Verif Require Import GdmlModel GdmlSpec GdmlProofs GdmlReject GdmlLoopModel GdmlLoopSpec GdmlLoopProofs.
Import ListNotations.
Open Scope char_scope.

Definition put_sym (x lit : list ascii) (s : sym) : sym :=
  match s with SVar y => if list_eq_dec ascii_dec y x then SNum lit else SVar y | _ => s end.

Lemma put_grammar : forall x lit,
  (forall l e, Expr l e -> Expr (map (put_sym x lit) l) (put_ast x lit e)) /\
  (forall l e, Term l e -> Term (map (put_sym x lit) l) (put_ast x lit e)) /\
  (forall l e, Factor l e -> Factor (map (put_sym x lit) l) (put_ast x lit e)) /\
  (forall l e, Base l e -> Base (map (put_sym x lit) l) (put_ast x lit e)).
Proof.
  intros x lit. apply grammar_ind; intros; rewrite ?map_app; cbn [map put_ast put_sym];
    rewrite ?map_app; cbn [map put_sym]; rewrite ?map_app; cbn [map put_sym].
  - apply E_term. auto.
  - apply E_add; auto.
  - apply E_sub; auto.
  - apply T_factor. auto.
  - apply T_mul; auto.
  - apply T_div; auto.
  - apply F_base. auto.
  - apply F_neg. auto.
  - apply F_plus. auto.
  - apply F_pow; auto.
  - apply B_num.
  - destruct (list_eq_dec ascii_dec x0 x); constructor.
  - apply B_paren. auto.
  - apply B_call1. auto.
  - apply B_call2; auto.
Qed.

(** Behind a variable stands no symbol that could run into it. *)
Definition connects (s : sym) : bool :=
  match s with SNum _ | SVar _ | SFun _ | SOpen => false | _ => true end.
Fixpoint separated (l : list sym) : bool :=
  match l with
  | SVar _ :: r => match r with [] => true | s :: _ => connects s end && separated r
  | _ :: r => separated r
  | [] => true
  end.

Lemma separated_app : forall a c b, connects c = true -> separated (a ++ c :: b) = separated a && separated b.
Proof.
  intros a c b HC.
  assert (E : separated (c :: b) = separated b) by (destruct c; try discriminate HC; reflexivity).
  induction a as [|s a IH]; [exact E|]. cbn [app].
  destruct s; cbn [separated]; try exact IH. rewrite IH. destruct a as [|s a]; cbn [app]; [rewrite HC; reflexivity|].
  rewrite andb_assoc. reflexivity.
Qed.

Lemma separated_grammar :
  let P := fun (l : list sym) (e : ast) => separated l = true in
  (forall l e, Expr l e -> P l e) /\ (forall l e, Term l e -> P l e) /\
  (forall l e, Factor l e -> P l e) /\ (forall l e, Base l e -> P l e).
Proof.
  apply grammar_ind; intros; auto; rewrite ?separated_app by reflexivity; rewrite ?andb_true_iff; auto;
    cbn [separated]; rewrite ?separated_app by reflexivity; rewrite ?andb_true_iff; auto.
Qed.

(** What a text begins with if its first symbol cannot run into a name. *)
Definition apart (s : list ascii) : Prop := match s with c :: _ => ident_char c = false /\ c <> "." | [] => True end.

Lemma spell_apart : forall l s, spell l s -> match l with [] => True | c :: _ => connects c = true end -> apart s.
Proof.
  intros l s H. induction H; intros C; cbn in C; try discriminate C; cbn; auto; try (split; [reflexivity|discriminate]).
  destruct H as [-> | [-> | [-> | ->]]]; split; (reflexivity || discriminate).
Qed.

Section Meaning.
Variable x lit : list ascii.

Lemma replaced_head : forall s t, Replaced x lit s t -> x <> [] -> Forall name_char x -> ~ begins_with_name_char s ->
  match s with [] => t = [] | c :: _ => exists r, t = c :: r end.
Proof.
  intros s t H X0 X1 N. destruct H as [|c s t HC H|s t HS H|w s t W0 W1 W2 HS H]; auto.
  - eauto.
  - destruct x as [|c r]; [congruence|]. exfalso. apply N. cbn. inversion X1; auto.
  - destruct w as [|c r]; [congruence|]. exfalso. apply N. cbn. inversion W1; auto.
Qed.

(** A text whose name characters are digits and e is unaffected. *)
Lemma replaced_number : forall u s t, (forall c, In c u -> name_char c -> digit c \/ c = "e" \/ c = "E") ->
  (match x with c :: _ => ~ digit c /\ c <> "e" /\ c <> "E" | [] => False end) ->
  ~ begins_with_name_char s -> Replaced x lit s t -> Replaced x lit (u ++ s) (u ++ t).
Proof.
  intros u. remember (List.length u) as n eqn:E. assert (L : List.length u <= n) by lia. clear E.
  revert u L. induction n as [|n IH]; intros u L s t HU HX HS HR.
  - destruct u; cbn in L; [exact HR|lia].
  - destruct u as [|c u]; [exact HR|]. destruct (ident_char c) eqn:C.
    + pose proof (take_drop ident_char (c :: u)) as T. pose proof (take_forall ident_char (c :: u)) as F.
      pose proof (drop_head ident_char (c :: u)) as D.
      set (w := take_while ident_char (c :: u)) in *. set (r := drop_while ident_char (c :: u)) in *.
      assert (W : exists w', w = c :: w') by (unfold w; cbn; rewrite C; eauto). destruct W as [w' W].
      assert (LR : List.length r <= n).
      { pose proof (f_equal (@List.length ascii) T) as TL. rewrite app_length, W in TL. cbn in *. lia. }
      rewrite <- T, <- !app_assoc. apply R_word.
      * rewrite W. discriminate.
      * apply ident_forall. exact F.
      * intros E. rewrite W in E. rewrite <- E in HX.
        destruct (HU c) as [K|[K|K]]; try tauto; [left; auto|]. apply ident_iff. exact C.
      * intros K. destruct r as [|d r']; [exact (HS K)|]. cbn in K. apply ident_iff in K. congruence.
      * apply IH; auto. intros d HD. apply HU. rewrite <- T. apply in_or_app. auto.
    + cbn [app]. apply R_other; [intros K; apply ident_iff in K; congruence|]. apply IH; auto; [cbn in L; lia|].
      intros d HD. apply HU. right. auto.
Qed.

Lemma numeral_name_chars : forall l, numeral l -> forall c, In c l -> name_char c -> digit c \/ c = "e" \/ c = "E".
Proof.
  intros l (whole & frac & expo & -> & HW & HF & _ & HE) c HI HC.
  apply in_app_or in HI. destruct HI as [HI|HI]; [rewrite Forall_forall in HW; auto|].
  apply in_app_or in HI. destruct HI as [HI|HI].
  - destruct HF as [->|(d & -> & HD)]; [destruct HI|]. destruct HI as [<-|HI].
    + apply ident_iff in HC. discriminate.
    + rewrite Forall_forall in HD. auto.
  - destruct HE as [->|(m & sign & y & d & -> & HM & HS & HD)]; [destruct HI|]. destruct HI as [<-|HI]; [tauto|].
    apply in_app_or in HI. destruct HI as [HI|HI].
    + apply ident_iff in HC. destruct HS as [-> | [-> | ->]]; cbn in HI; intuition (subst; discriminate).
    + rewrite Forall_forall in HD. auto.
Qed.

Hypothesis Hx : identifier x.
Hypothesis Hxe : match x with c :: _ => c <> "e" /\ c <> "E" | [] => True end.
Hypothesis Hlit : numeral lit.

Lemma x_chars : x <> [] /\ Forall name_char x /\ match x with c :: _ => ~ digit c /\ c <> "e" /\ c <> "E" | [] => False end.
Proof.
  destruct Hx as (c & r & E & HC & HR). rewrite E in *. split; [discriminate|]. split.
  - constructor; [left; auto|exact HR].
  - split; auto. intros K. apply digit_iff in K. apply letter_iff in HC. destruct c as [[|] [|] [|] [|] [|] [|] [|] [|]]; discriminate.
Qed.

Lemma word_replaced : forall y s t, identifier y -> ~ begins_with_name_char s -> Replaced x lit s t ->
  Replaced x lit (y ++ s) ((if list_eq_dec ascii_dec y x then lit else y) ++ t).
Proof.
  intros y s t HY HS HR. destruct (list_eq_dec ascii_dec y x) as [->|NE].
  - apply R_match; auto.
  - apply R_word; auto; destruct HY as (c & r & -> & HC & HF); [discriminate|]. constructor; [left; auto|exact HF].
Qed.

Lemma other_begin : forall c s, ident_char c = false -> ~ begins_with_name_char (c :: s).
Proof. intros c s H K. cbn in K. apply ident_iff in K. congruence. Qed.

Lemma gap_replaced : forall gap s t, Forall (fun c => c = " " \/ c = "009") gap -> Replaced x lit s t ->
  Replaced x lit (gap ++ s) (gap ++ t).
Proof.
  induction 1 as [|c gap H F IH]; intros HR; auto. cbn [app]. apply R_other; auto.
  intros K. apply ident_iff in K. destruct H as [-> | ->]; discriminate.
Qed.

Lemma spell_replaced : forall l s, spell l s -> separated l = true -> ~ In (SFun x) l ->
  exists t, Replaced x lit s t /\ spell (map (put_sym x lit) l) t.
Proof.
  destruct x_chars as (X0 & X1 & X2).
  intros l s H. induction H; intros SEP NF.
  - exists []. split; constructor.
  - destruct (IHspell SEP NF) as (t & R & S1). exists (c :: t). split; [|apply sp_white; auto].
    apply R_other; auto. intros K. apply ident_iff in K. destruct H as [-> | [-> | [-> | ->]]]; discriminate.
  - destruct IHspell as (t & R & S1); [exact SEP|intros K; apply NF; right; auto|].
    exists (lit0 ++ t).
    assert (NB : ~ begins_with_name_char s) by (destruct s as [|c s]; cbn in *; [tauto|unfold name_char; tauto]).
    split.
    + apply replaced_number; auto. apply numeral_name_chars. auto.
    + cbn [map put_sym]. apply sp_num; auto. pose proof (replaced_head s t R X0 X1 NB) as HD.
      destruct s as [|c s]; [subst; exact Logic.I|]. destruct HD as [r ->]. exact H0.
  - cbn [separated] in SEP. apply andb_true_iff in SEP. destruct SEP as [SEP1 SEP2].
    destruct IHspell as (t & R & S1); [exact SEP2|intros K; apply NF; right; auto|].
    exists ((if list_eq_dec ascii_dec x0 x then lit else x0) ++ t).
    assert (NB : ~ begins_with_name_char s) by (destruct s as [|c s]; cbn in *; [tauto|unfold name_char; tauto]).
    pose proof (replaced_head s t R X0 X1 NB) as HD.
    split; [apply word_replaced; auto|]. cbn [map put_sym].
    assert (AP : apart s).
    { apply spell_apart with l; auto. destruct l; auto. }
    destruct (list_eq_dec ascii_dec x0 x) as [E|NE].
    + apply sp_num; auto. destruct s as [|c s]; [subst; exact Logic.I|]. destruct HD as [r ->].
      cbn in AP, H0 |- *. tauto.
    + apply sp_var; auto.
      * destruct s as [|c s]; [subst; exact Logic.I|]. destruct HD as [r ->]. exact H0.
      * intros l' E. destruct l as [|c l]; [discriminate|]. cbn in E. injection E as E1 E2.
        destruct c; discriminate.
  - destruct IHspell as (t & R & S1); [exact SEP|intros K; apply NF; right; right; auto|].
    exists (f ++ gap ++ "(" :: t). split.
    + assert (FX : f <> x) by (intros ->; apply NF; left; auto).
      assert (R2 : Replaced x lit (gap ++ "(" :: s) (gap ++ "(" :: t)).
      { apply gap_replaced; auto. apply R_other; auto. intros K. apply ident_iff in K. discriminate. }
      pose proof (word_replaced f (gap ++ "(" :: s) (gap ++ "(" :: t) H) as G.
      destruct (list_eq_dec ascii_dec f x); [congruence|]. apply G; auto.
      destruct gap as [|c gap]; apply other_begin; auto. inversion H0 as [|? ? K _]; subst. destruct K as [-> | ->]; auto.
    + cbn [map put_sym]. apply sp_fun; auto.
  - destruct IHspell as (t & R & S1); [exact SEP|intros K; apply NF; right; auto|]. exists ("+" :: t).
    split; [apply R_other; auto; intros K; apply ident_iff in K; discriminate|apply sp_add; auto].
  - destruct IHspell as (t & R & S1); [exact SEP|intros K; apply NF; right; auto|]. exists ("-" :: t).
    split; [apply R_other; auto; intros K; apply ident_iff in K; discriminate|apply sp_sub; auto].
  - destruct IHspell as (t & R & S1); [exact SEP|intros K; apply NF; right; auto|]. exists ("*" :: t).
    split; [apply R_other; auto; intros K; apply ident_iff in K; discriminate|apply sp_mul; auto].
  - destruct IHspell as (t & R & S1); [exact SEP|intros K; apply NF; right; auto|]. exists ("/" :: t).
    split; [apply R_other; auto; intros K; apply ident_iff in K; discriminate|apply sp_div; auto].
  - destruct IHspell as (t & R & S1); [exact SEP|intros K; apply NF; right; auto|]. exists ("^" :: t).
    split; [apply R_other; auto; intros K; apply ident_iff in K; discriminate|apply sp_pow; auto].
  - destruct IHspell as (t & R & S1); [exact SEP|intros K; apply NF; right; auto|]. exists ("(" :: t).
    split; [apply R_other; auto; intros K; apply ident_iff in K; discriminate|apply sp_open; auto].
  - destruct IHspell as (t & R & S1); [exact SEP|intros K; apply NF; right; auto|]. exists (")" :: t).
    split; [apply R_other; auto; intros K; apply ident_iff in K; discriminate|apply sp_close; auto].
  - destruct IHspell as (t & R & S1); [exact SEP|intros K; apply NF; right; auto|]. exists ("," :: t).
    split; [apply R_other; auto; intros K; apply ident_iff in K; discriminate|apply sp_comma; auto].
Qed.
End Meaning.

Section Value.
Variable V : Type.
Variable num : list ascii -> V.
Variable vadd vsub vmul vdiv vpow : V -> V -> V.
Variable vneg : V -> V.
Variable zero : V -> Prop.
Variable lib1 : list ascii -> V -> V.
Variable lib2 : list ascii -> V -> V -> V.

Lemma put_means : forall x lit c1 c2, (forall y, y <> x -> c1 y = c2 y) -> c2 x = Some (num lit) -> forall e v,
  means V num vadd vsub vmul vdiv vpow vneg zero lib1 lib2 c1 (put_ast x lit e) v <->
  means V num vadd vsub vmul vdiv vpow vneg zero lib1 lib2 c2 e v.
Proof.
  intros x lit c1 c2 HC HX. induction e as [l|y|a IHa|o a IHa b IHb|f a IHa|f a IHa b IHb]; intros v; cbn [put_ast].
  - split; intros H; inversion H; subst; constructor.
  - destruct (list_eq_dec ascii_dec y x) as [->|NE]; split; intros H; inversion H; subst.
    + constructor. auto.
    + assert (v = num lit) by congruence. subst. constructor.
    + constructor. rewrite <- HC; auto.
    + constructor. rewrite HC; auto.
  - split; intros H; inversion H; subst; constructor; apply IHa; auto.
  - split; intros H; inversion H; subst; constructor; try (apply IHa; auto); try (apply IHb; auto); auto.
  - split; intros H; inversion H; subst; constructor; auto; apply IHa; auto.
  - split; intros H; inversion H; subst; constructor; auto; try (apply IHa; auto); try (apply IHb; auto).
Qed.
End Value.

Lemma put_names : forall x lit e y, In y (names (put_ast x lit e)) -> In y (names e).
Proof.
  induction e as [l|z|a IHa|o a IHa b IHb|f a IHa|f a IHa b IHb]; intros y; cbn [put_ast names]; auto.
  - destruct (list_eq_dec ascii_dec z x); cbn; tauto.
  - rewrite !in_app_iff. intuition.
  - cbn. intuition.
  - cbn. rewrite !in_app_iff. intuition.
Qed.
Lemma put_numerals : forall x lit e y, In y (numerals (put_ast x lit e)) -> y = lit \/ In y (numerals e).
Proof.
  induction e as [l|z|a IHa|o a IHa b IHb|f a IHa|f a IHa b IHb]; intros y; cbn [put_ast numerals]; auto.
  - destruct (list_eq_dec ascii_dec z x); cbn; intuition.
  - rewrite !in_app_iff. intros [H|H]; [apply IHa in H|apply IHb in H]; tauto.
  - rewrite !in_app_iff. intros [H|H]; [apply IHa in H|apply IHb in H]; tauto.
Qed.
