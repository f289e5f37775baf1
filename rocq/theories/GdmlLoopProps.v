(** C64 and C78: loops in GDML files. *)
From Coq Require Import List Bool Arith ZArith Ascii String Lia.
From Verif Require Import GdmlModel GdmlSpec GdmlProofs GdmlReject GdmlProps GdmlLoopModel GdmlLoopSpec GdmlLoopProofs
  GdmlLoopTree GdmlLoopMeaning.
Import ListNotations.
Open Scope char_scope.

(** C64: exactly the maximal runs of name characters that equal the variable are replaced, whatever
    the value and the text; a number of steps given by the length of the text is enough. *)
Theorem C64_substitution : forall x val s, x <> [] -> Forall name_char x ->
  exists t, Replaced x val s t /\ (forall u, Replaced x val s u -> u = t) /\
  forall fuel, List.length s < fuel -> replace_names fuel x val s 0 = Some t.
Proof.
  intros x val s HX HI. apply ident_forall in HI. destruct (replaced_exists x val s) as [t HT].
  pose proof (replace_names_replaced x val HX HI s t) as R. exists t. split; [exact HT|split; [|auto]].
  intros u HU. pose proof (replace_names_replaced x val HX HI s u (S (List.length s)) HU ltac:(lia)) as RU.
  specialize (R (S (List.length s)) HT ltac:(lia)). congruence.
Qed.

(** With the empty name, which a loop without the attribute for has, the substitution never ends. *)
Theorem C64_empty_name_refuted : exists x, forall val s fuel, replace_names fuel x val s 0 = None.
Proof. exists []. intros. apply replace_names_empty. lia. Qed.

Section Props.
Variable V Env : Type.
Variable ev : Env -> list ascii -> result V.
Variable print : V -> list ascii.
Variable parse : Env -> list ascii -> result V.
Variable lookup : Env -> list ascii -> V.
Variable store : Env -> list ascii -> V -> Env.
Variable default_step : V -> V.
Variable goes_on : V -> V -> V -> bool.
Variable next : V -> V -> V.
Variable format : V -> list ascii.
Variable built_in : list ascii -> bool.

Notation value := (fun env e => match ev env e with Val v => Some (print v) | Thrown => None end).
Notation expand := (expand V Env ev print parse lookup store default_step goes_on next format built_in).

(** Brackets are replaced by the values of what they enclose, which are printed as integers. *)
Theorem C64_brackets :
  (forall v, print v <> [] /\ Forall (fun c => digit c \/ c = "-") (print v)) ->
  forall env s, exists t failed, Evaluated (value env) s t failed /\
  forall fuel, List.length s < fuel -> replace_brackets V Env ev print fuel env s 0 [] = Some (t, failed).
Proof.
  intros HP env s. destruct (evaluated_exists (value env) s) as (t & failed & H). exists t, failed. split; auto.
  intros fuel L. exact (brackets_evaluated V Env ev print HP env s t failed H fuel [] [] L).
Qed.

(** The expansion ends on every document whose loops name their variables: it returns or throws. *)
Theorem C64_terminates :
  (forall v, print v <> [] /\ Forall (fun c => digit c \/ c = "-") (print v)) -> (forall v, format v <> []) ->
  forall l depth env, variables_named l -> exists r N, forall fuel, N <= fuel -> expand fuel depth l env = Some r.
Proof.
  intros HP HF l depth env H. apply named_of_variables in H.
  exact (expand_total V Env ev print parse lookup store default_step goes_on next format built_in HP HF (weights l) l (le_n _) H depth env).
Qed.

(** No loop is left in the first 64 levels. *)
Theorem C64_no_loop : forall fuel l env l' env',
  expand_loops V Env ev print parse lookup store default_step goes_on next format built_in fuel l env = Some (Val (l', env')) ->
  forall d n, d < 64 -> Below d n l' -> ~ is_loop n.
Proof.
  intros fuel l env l' env' H d n HD HB.
  exact (expand_no_loop V Env ev print parse lookup store default_step goes_on next format built_in fuel 63 l env l' env' H d n ltac:(lia) HB).
Qed.

(** A loop without loops in its body is replaced by one copy of the body for each of its values, in
    order, each with the substitution made in all attributes. *)
Theorem C64_unroll :
  (forall v, print v <> [] /\ Forall (fun c => digit c \/ c = "-") (print v)) -> (forall v, format v <> []) ->
  forall attrs body x from_text to_text step_text from to step vs env depth,
  Attribute (chars "for") attrs x -> x <> [] -> Forall name_char x -> built_in x = false -> loop_free body ->
  Attribute (chars "from") attrs from_text -> from_text <> [] -> parse env from_text = Val from ->
  Attribute (chars "to") attrs to_text -> parse env to_text = Val to ->
  Attribute (chars "step") attrs step_text -> parse env step_text = Val step ->
  Runs (fun v => goes_on (default_step step) v to) (fun v => next v (default_step step)) (Z.to_nat 10000) from vs ->
  exists out env' N, Unrolled value store format x body env vs out env' /\
  forall fuel, N <= fuel -> expand fuel depth [Node (chars "loop") attrs body] env = Some (Val (out, env')).
Proof.
  intros HP HF attrs body x ft tt st from to step vs env depth A1 X0 X1 B L A2 F0 P1 A3 P2 A4 P3 R.
  apply ident_forall in X1. apply attribute_spec in A1, A2, A3, A4.
  destruct (iterate_unrolled V Env ev print store goes_on next format HP x body to (default_step step) X0 X1 _ from vs R env [])
    as (cl & env' & N & U & H).
  assert (LF : loop_free cl) by (eapply unrolled_loop_free; eauto).
  destruct (expand_loop_free V Env ev print parse lookup store default_step goes_on next format built_in (weights cl) cl (le_n _) LF) as [M HM].
  exists cl, env', (S (N + M)). split; [exact U|]. intros [|fuel] HL; [lia|]. cbn [GdmlLoopModel.expand].
  change (str_eqb (chars "loop") (text "loop")) with true. cbv iota zeta.
  change (text "for") with (chars "for"). change (text "from") with (chars "from").
  change (text "to") with (chars "to"). change (text "step") with (chars "step").
  rewrite A1, A2, A3, A4, B, P2, P3. destruct ft as [|c ft]; [congruence|]. rewrite P1.
  unfold max_iterations. rewrite H by lia. cbn [app]. rewrite app_nil_r. apply HM. lia.
Qed.

(** A loop that would run more often than 10000 times throws. *)
Theorem C64_limit : forall fuel x body to step v env acc n,
  (forall k v', Runs (fun v => goes_on step v to) (fun v => next v step) k v v' -> n < k) ->
  forall r, iterate V Env ev print store goes_on next format fuel n x body v to step env acc = Some r -> r = Thrown.
Proof.
  intros fuel x body to step v env acc n. revert v env acc. induction n as [|n IH]; intros v env acc H r E;
    rewrite iterate_unfold in E; destruct (goes_on step v to) eqn:G.
  - congruence.
  - specialize (H 0 [] (Run_end _ _ _ _ G)). lia.
  - destruct (clone_all V Env ev print fuel body x (format v) (store env x v)) as [b|]; [|discriminate].
    eapply IH; [|exact E]. intros k v' R. specialize (H (S k) (v :: v')). cbn in H.
    pose proof (H (Run_step _ _ _ _ _ G R)). lia.
  - specialize (H 0 [] (Run_end _ _ _ _ G)). lia.
Qed.
End Props.

(** C78: replacing a variable by a numeral does not change the value of an expression: the text that
    results evaluates to the value of the original expression with the variable bound to that
    number. The variable does not begin with e and is not the name of a function used. *)
Theorem C78_meaning : forall V num erange vadd vsub vmul vdiv vpow vneg is_zero lib1 lib2 to_int constants,
  (forall lit, numeral lit -> num ("+" :: lit) = num lit /\ num ("-" :: lit) = vneg (num lit) /\
     erange ("+" :: lit) = erange lit /\ erange ("-" :: lit) = erange lit) ->
  forall l e s x lit matrices, spell l s -> Expr l e -> identifier x ->
  match x with c :: _ => c <> "e" /\ c <> "E" | [] => True end -> ~ In (SFun x) l -> numeral lit ->
  (forall y, In y (names e) -> ~ number_name y) ->
  (forall y, y = lit \/ In y (numerals e) -> erange y = false) ->
  exists t, (forall fuel, List.length s < fuel -> replace_names fuel x lit s 0 = Some t) /\
  forall fuel v, List.length t < fuel ->
  (eval_expression V num erange vadd vsub vmul vdiv vpow vneg is_zero lib1 lib2 to_int constants fuel matrices t = Some (Val v) <->
   means V num vadd vsub vmul vdiv vpow vneg (fun v => is_zero v = true) lib1 lib2
     (fun y => if list_eq_dec ascii_dec y x then Some (num lit) else constants y) e v).
Proof.
  intros V num erange vadd vsub vmul vdiv vpow vneg is_zero lib1 lib2 to_int constants HN l e s x lit m HS HE HX HXE NF HL H1 H2.
  destruct (spell_replaced x lit HX HXE HL l s HS (proj1 separated_grammar l e HE) NF) as (t & HR & HT).
  assert (X0 : x <> [] /\ forallb ident_char x = true).
  { destruct (x_chars x HX HXE) as (A & B & _). split; auto. apply ident_forall. exact B. }
  destruct X0 as [X0 X1]. exists t. split.
  { intros fuel LF. exact (replace_names_replaced x lit X0 X1 s t fuel HR LF). }
  intros fuel v LF.
  pose proof (C62_value V num erange vadd vsub vmul vdiv vpow vneg is_zero lib1 lib2 to_int constants HN
    _ (put_ast x lit e) t fuel m HT (proj1 (put_grammar x lit) l e HE)
    (fun y H => H1 y (put_names x lit e y H)) (fun y H => H2 y (put_numerals x lit e y H)) LF) as C.
  rewrite <- (put_means V num vadd vsub vmul vdiv vpow vneg (fun v => is_zero v = true) lib1 lib2 x lit constants).
  - destruct C as [(w & E & M)|(E & M)]; rewrite E.
    + split.
      * intros K. injection K as <-. exact M.
      * intros K. f_equal. f_equal. exact (means_det V num vadd vsub vmul vdiv vpow vneg is_zero lib1 lib2 constants _ _ M _ K).
    + split; [discriminate|]. intros K. exfalso. exact (M v K).
  - intros y NE. destruct (list_eq_dec ascii_dec y x); [congruence|auto].
  - destruct (list_eq_dec ascii_dec x x); [auto|congruence].
Qed.

(** ** Cases: integers as values *)

Fixpoint uint_chars (d : Decimal.uint) : list ascii :=
  match d with
  | Decimal.Nil => []
  | Decimal.D0 d => "0" :: uint_chars d | Decimal.D1 d => "1" :: uint_chars d | Decimal.D2 d => "2" :: uint_chars d
  | Decimal.D3 d => "3" :: uint_chars d | Decimal.D4 d => "4" :: uint_chars d | Decimal.D5 d => "5" :: uint_chars d
  | Decimal.D6 d => "6" :: uint_chars d | Decimal.D7 d => "7" :: uint_chars d | Decimal.D8 d => "8" :: uint_chars d
  | Decimal.D9 d => "9" :: uint_chars d
  end.
Definition zprint (z : Z) : list ascii :=
  match Z.to_int z with
  | Decimal.Pos d => match uint_chars d with [] => ["0"] | t => t end
  | Decimal.Neg d => "-" :: uint_chars d
  end.
Lemma uint_digits : forall d, Forall (fun c => digit c \/ c = "-") (uint_chars d).
Proof. induction d; cbn [uint_chars]; constructor; auto; left; apply digit_iff; reflexivity. Qed.
Lemma zprint_digits : forall z, zprint z <> [] /\ Forall (fun c => digit c \/ c = "-") (zprint z).
Proof.
  intros z. unfold zprint. destruct (Z.to_int z) as [d|d]; pose proof (uint_digits d) as H.
  - destruct (uint_chars d); split; try discriminate; auto. constructor; [left; apply digit_iff; reflexivity|constructor].
  - split; [discriminate|]. constructor; auto.
Qed.

Definition zenv := list ascii -> option Z.
Definition zeval (env : zenv) (s : list ascii) : result Z :=
  match GdmlModel.eval_expression Z znum no_erange Z.add Z.sub Z.mul Z.quot Z.pow Z.opp (Z.eqb 0) zlib1 zlib2 (fun v => v) env 100 (no_matrices Z) s with
  | Some r => r | None => Thrown end.
Definition zparse (env : zenv) (s : list ascii) : result Z := match s with [] => Val 0%Z | _ => zeval env s end.
Definition zlookup (env : zenv) (x : list ascii) : Z := match env x with Some v => v | None => 0%Z end.
Definition zstore (env : zenv) (x : list ascii) (v : Z) : zenv := fun y => if str_eqb y x then Some v else env y.
Definition zstep (s : Z) : Z := if (s =? 0)%Z then 1%Z else s.
Definition zgoes (step v to : Z) : bool := if (0 <? step)%Z then (v <=? to)%Z else (to <=? v)%Z.
Definition zbuilt_in (x : list ascii) : bool := str_eqb x (text "pi").
Definition zexpand (fuel : nat) (l : list node) : option (result (list node * zenv)) :=
  expand_loops Z zenv zeval zprint zparse zlookup zstore zstep zgoes Z.add zprint zbuilt_in fuel l (fun _ => None).
Definition znodes (r : option (result (list node * zenv))) : option (list node) :=
  match r with Some (Val (l, _)) => Some l | _ => None end.

Definition loop_node (x from to step : string) (body : list node) : node :=
  Node (text "loop") [(text "for", text x); (text "from", text from); (text "to", text to); (text "step", text step)] body.
Definition item (name pos : string) : node := Node (text "physvol") [(text "name", text name); (text "x", text pos)] [].

(** ChildVol and xi keep their i; i+i becomes 7+7; the last i2 stays. *)
Example C64_substitution_case :
  Forall name_char (text "i") /\
  replace_names 40 (text "i") (text "7") (text "ChildVol*xi-(i+i)/i_1 i2") 0 = Some (text "ChildVol*xi-(7+7)/i_1 i2") /\
  Replaced (text "i") (text "7") (text "xi+i") (text "xi+7").
Proof.
  assert (F : Forall name_char (text "i")) by (constructor; [left; apply letter_iff; reflexivity|constructor]).
  split; [exact F|]. split; [reflexivity|].
  destruct (C64_substitution (text "i") (text "7") (text "xi+i") ltac:(discriminate) F) as (t & R & _ & E).
  specialize (E 5 ltac:(cbn; lia)). change (Some (text "xi+7") = Some t) in E. injection E as <-. exact R.
Qed.

Example C64_brackets_case :
  replace_brackets Z zenv zeval zprint 30 (fun x => if str_eqb x (text "i") then Some 3%Z else None) (text "a[i]_[2*i-9]_[j]_[") 0 [] =
  Some (text "a3_-3_[j]_[", [text "j"]).
Proof. reflexivity. Qed.

(** A loop over 0, 2, 4 in front of another node; a nested loop running downwards. *)
Definition case_document : list node :=
  [Node (text "volume") []
     [loop_node "i" "0" "4" "2" [item "box_[i]" "10*i"]; item "last" "i";
      loop_node "k" "1" "2" "" [loop_node "n" "k" "0" "-1" [item "x" "k*n"]]]].

Lemma case_named : variables_named case_document.
Proof.
  intros d attrs children H. unfold case_document in H.
  repeat match goal with
  | H : Below _ _ [] |- _ => inversion H as [? ? K|? ? ? ? ? ? K]; destruct K
  | H : Below _ _ (_ :: _ :: _) |- _ => apply below_cons in H; destruct H as [H|H]
  | H : Below _ _ [item _ _] |- _ => unfold item in H
  | H : Below _ _ [loop_node _ _ _ _ _] |- _ => unfold loop_node in H
  | H : Below _ _ [Node _ _ _] |- _ => apply below_one in H; destruct H as [[_ H]|(? & _ & H)]
  end; try discriminate H; injection H as -> ->; eexists; split; try apply A_here; discriminate.
Qed.

Example C64_case : variables_named case_document /\
  znodes (zexpand 100 case_document) =
  Some [Node (text "volume") []
     [item "box_0" "10*0"; item "box_2" "10*2"; item "box_4" "10*4"; item "last" "i";
      item "x" "1*1"; item "x" "1*0"; item "x" "2*2"; item "x" "2*1"; item "x" "2*0"]].
Proof. split; [exact case_named|vm_compute; reflexivity]. Qed.

Example C64_unroll_case :
  Runs (fun v => zgoes (zstep 2) v 4) (fun v => (v + zstep 2)%Z) (Z.to_nat 10000) 0%Z [0%Z; 2%Z; 4%Z] /\
  loop_free [item "box_[i]" "10*i"] /\ zbuilt_in (text "i") = false.
Proof.
  split; [|split; [|reflexivity]].
  - replace (Z.to_nat 10000) with (S (S (S (Z.to_nat 9997)))) by lia. repeat (constructor; [reflexivity|]). constructor. reflexivity.
  - intros d n H. unfold item in H. apply below_one in H. destruct H as [[_ ->]|(e & _ & H)]; [discriminate|].
    inversion H as [? ? K|? ? ? ? ? ? K]; destruct K.
Qed.

(** A loop from 0 to 20000 exceeds the limit. *)
Example C64_limit_case : forall k vs, Runs (fun v => zgoes 1 v 20000) (fun v => (v + 1)%Z) k 0%Z vs -> Z.to_nat 10000 < k.
Proof.
  assert (G : forall k v vs, Runs (fun v => zgoes 1 v 20000) (fun v => (v + 1)%Z) k v vs -> (20000 < v + Z.of_nat k)%Z).
  { intros k v vs H. induction H as [n v G|n v vs G H IH]; [|lia]. unfold zgoes in G. cbn in G. apply Z.leb_gt in G. lia. }
  intros k vs H. apply G in H. lia.
Qed.

(** A loop without the attribute for never ends if its body has an attribute. *)
Theorem C64_unnamed_refuted : exists l, forall fuel, zexpand fuel l = None.
Proof.
  exists [Node (text "loop") [(text "to", text "2")] [item "a" "1"]]. intros [|fuel]; [reflexivity|].
  unfold zexpand, expand_loops. cbn [GdmlLoopModel.expand].
  change (str_eqb (text "loop") (text "loop")) with true. cbv iota zeta.
  change (attribute [(text "to", text "2")] (text "for")) with (@nil ascii).
  change (attribute [(text "to", text "2")] (text "from")) with (@nil ascii).
  change (attribute [(text "to", text "2")] (text "step")) with (@nil ascii).
  change (attribute [(text "to", text "2")] (text "to")) with (text "2").
  change (zbuilt_in []) with false. cbv iota.
  change (zparse (fun _ => None) (text "2")) with (Val 2%Z). change (zparse (fun _ => None) []) with (Val 0%Z).
  cbv iota beta. rewrite iterate_unfold. change (zgoes (zstep 0) (zlookup (fun _ => None) []) 2) with true. cbv iota.
  replace max_iterations with (S (pred max_iterations)) by (unfold max_iterations; lia).
  assert (C : forall val env, clone_all Z zenv zeval zprint fuel [item "a" "1"] [] val env = None).
  { intros val env. cbn [clone_all]. unfold item. rewrite clone_unfold. cbn [clone_attributes].
    unfold subst_loop_var. destruct (replace_brackets _ _ _ _ _ _ _ _ _) as [[r er]|]; auto.
    rewrite replace_names_empty by lia. auto. }
  rewrite C. reflexivity.
Qed.

(** A loop behind more than 64 levels stays. *)
Fixpoint nest (n : nat) (l : list node) : list node :=
  match n with O => l | S n => [Node (text "volume") [] (nest n l)] end.
Theorem C64_deep_refuted : exists l fuel l' env' d n, variables_named l /\ zexpand fuel l = Some (Val (l', env')) /\
  Below d n l' /\ is_loop n.
Proof.
  set (lp := loop_node "i" "0" "1" "1" [item "box_[i]" "10*i"]).
  assert (B : forall k, Below k lp (nest k [lp])).
  { induction k as [|k IH]; [constructor; left; auto|]. cbn [nest]. econstructor; [left; reflexivity|exact IH]. }
  exists (nest 64 [lp]), 100, (nest 64 [lp]), (fun _ => None), 64, lp. split; [|split; [|split]].
  - assert (G : forall k, variables_named (nest k [lp])).
    { induction k as [|k IH]; intros d attrs children H; cbn [nest] in H; apply below_one in H; destruct H as [[_ H]|(e & _ & H)].
      - unfold loop_node in H. injection H as -> ->. eexists. split; [apply A_here|discriminate].
      - unfold item in H. apply below_one in H. destruct H as [[_ H]|(? & _ & H)]; [discriminate H|].
        inversion H as [? ? K|? ? ? ? ? ? K]; destruct K.
      - discriminate H.
      - exact (IH e attrs children H). }
    apply G.
  - vm_compute. reflexivity.
  - apply B.
  - reflexivity.
Qed.

(** The brackets of a nested loop are evaluated while the outer loop is unrolled, before the inner
    variable has its values: with a value left over from an earlier loop over j, both copies get
    the same name; without one, an error is recorded for each copy. *)
Theorem C64_stale_refuted : exists l,
  znodes (zexpand 100 l) =
  Some [item "a_5" ""; item "b_0_5" "0"; item "b_0_5" "1"] /\
  (exists r, l = r ++ [loop_node "i" "0" "0" "1" [loop_node "j" "0" "1" "1" [item "b_[i]_[j]" "j"]]]).
Proof.
  exists ([loop_node "j" "5" "5" "1" [item "a_[j]" ""]] ++ [loop_node "i" "0" "0" "1" [loop_node "j" "0" "1" "1" [item "b_[i]_[j]" "j"]]]).
  split; [vm_compute; reflexivity|eexists; reflexivity].
Qed.

(** An inner loop that reuses the name of the outer variable has its own variable renamed to the
    value of the outer one, and then replaces the numerals equal to that value. *)
Theorem C64_shadow_refuted : exists l,
  l = [loop_node "i" "0" "0" "1" [loop_node "i" "1" "2" "1" [item "b" "i+0"]]] /\
  znodes (zexpand 100 l) = Some [item "b" "1+1"; item "b" "2+2"].
Proof. eexists. split; [reflexivity|]. vm_compute. reflexivity. Qed.

Example C78_case : forall m,
  exists t, (forall fuel, 23 < fuel -> replace_names fuel (text "x") (text "7") (chars "2 + 3*-x^2 - max (1, x)") 0 = Some t) /\
  GdmlModel.eval_expression Z znum no_erange Z.add Z.sub Z.mul Z.quot Z.pow Z.opp (Z.eqb 0) zlib1 zlib2 (fun v => v) (fun _ => None) 40 m t = Some (Val (-152)%Z).
Proof.
  intros m. destruct C62_case as (HS & HE & HN & _).
  destruct (C78_meaning Z znum no_erange Z.add Z.sub Z.mul Z.quot Z.pow Z.opp (Z.eqb 0) zlib1 zlib2 (fun v => v) (fun _ => None) znum_sign
    case_symbols case_ast _ (text "x") (text "7") m HS HE) as (t & E1 & E2).
  - exists "x", []. repeat split; [apply letter_iff; reflexivity|constructor].
  - cbn. split; discriminate.
  - cbn. intuition discriminate.
  - apply one_digit. reflexivity.
  - exact HN.
  - reflexivity.
  - exists t. split; [exact E1|].
    assert (ET : t = chars "2 + 3*-7^2 - max (1, 7)").
    { specialize (E1 40 ltac:(cbn; lia)). change (Some (chars "2 + 3*-7^2 - max (1, 7)") = Some t) in E1. congruence. }
    apply E2; [rewrite ET; cbn; lia|].
    set (c := fun y : list ascii => if list_eq_dec ascii_dec y (text "x") then Some (znum (text "7")) else None).
    assert (C7 : c (chars "x") = Some 7%Z) by reflexivity.
    unfold case_ast.
    change (-152)%Z with (Z.sub (Z.add (znum (chars "2")) (Z.mul (znum (chars "3")) (Z.opp (Z.pow 7 (znum (chars "2"))))))
      (zlib2 (chars "max") (znum (chars "1")) 7)).
    apply m_sub; [apply m_add; [apply m_num|apply m_mul; [apply m_num|apply m_neg, m_pow; [apply m_var; exact C7|apply m_num]]]|].
    apply m_call2; [cbn; auto|apply m_num|apply m_var; exact C7].
Qed.

(** A negative value is put in without parentheses: i^2 with i = -3 becomes -3^2, which is -9. *)
Theorem C78_negative_refuted : exists s x v t,
  replace_names 20 x (zprint v) s 0 = Some t /\
  zeval (fun y => if str_eqb y x then Some v else None) s = Val 9%Z /\ zeval (fun _ => None) t = Val (-9)%Z.
Proof. exists (text "i^2"), (text "i"), (-3)%Z, (text "-3^2"). repeat split; reflexivity. Qed.

(** A variable beginning with e is replaced inside a numeral such as 5.e1. *)
Theorem C78_exponent_refuted : exists s x t,
  numeral s /\ identifier x /\ replace_names 20 x (text "7") s 0 = Some t /\ t <> s.
Proof.
  exists (text "5.e1"), (text "e1"), (text "5.7"). split; [|split; [|split; [reflexivity|discriminate]]].
  - exists ["5"], ["."], ["e"; "1"]. split; [reflexivity|]. split; [constructor; [apply digit_iff; reflexivity|constructor]|].
    split; [right; exists []; split; [reflexivity|constructor]|]. split; [left; discriminate|].
    right. exists "e", [], "1", []. repeat split; auto. constructor; [apply digit_iff; reflexivity|constructor].
  - exists "e", ["1"]. repeat split; [apply letter_iff; reflexivity|]. constructor; [right; apply digit_iff; reflexivity|constructor].
Qed.

Print Assumptions C64_substitution.
Print Assumptions C64_empty_name_refuted.
Print Assumptions C64_brackets.
Print Assumptions C64_terminates.
Print Assumptions C64_no_loop.
Print Assumptions C64_unroll.
Print Assumptions C64_limit.
Print Assumptions C64_unnamed_refuted.
Print Assumptions C64_deep_refuted.
Print Assumptions C64_stale_refuted.
Print Assumptions C64_shadow_refuted.
Print Assumptions C78_meaning.
Print Assumptions C78_negative_refuted.
Print Assumptions C78_exponent_refuted.
