(** C62: elements of matrices in GDML expressions. *)
From Coq Require Import List Bool Arith ZArith Ascii String Lia.
From Verif Require Import GdmlModel GdmlSpec GdmlProofs GdmlReject GdmlProps.
Import ListNotations.
Open Scope char_scope.

(** No bracket and no comma: an index that is not itself an element or a call of two arguments. *)
Definition plain_index (s : list ascii) : Prop :=
  ~ In "[" s /\ ~ In "]" s /\ ~ In "," s.

Section Props.
Variable V : Type.
Variable num : list ascii -> V.
Variable erange : list ascii -> bool.
Variable vadd vsub vmul vdiv vpow : V -> V -> V.
Variable vneg : V -> V.
Variable is_zero : V -> bool.
Variable lib1 : list ascii -> V -> V.
Variable lib2 : list ascii -> V -> V -> V.
Variable to_int : V -> Z.
Variable constants : list ascii -> option V.

Notation eval_expression := (eval_expression V num erange vadd vsub vmul vdiv vpow vneg is_zero lib1 lib2 to_int constants).
Notation eval := (eval V num erange vadd vsub vmul vdiv vpow vneg is_zero lib1 lib2 to_int constants).
Notation tokenize := (tokenize V num to_int constants).

Lemma scan_plain : forall s t pos comma, plain_index s ->
  scan_bracket (s ++ t) 1 pos comma = scan_bracket t 1 (List.length s + pos) comma.
Proof.
  induction s as [|c s IH]; intros t pos comma (A & B & C); [reflexivity|].
  cbn [app scan_bracket List.length Nat.add].
  destruct (Ascii.eqb_spec c "["); [exfalso; apply A; left; auto|].
  destruct (Ascii.eqb_spec c "]"); [exfalso; apply B; left; auto|].
  destruct (Ascii.eqb_spec c ","); [exfalso; apply C; left; auto|].
  cbn [andb]. rewrite IH by (repeat split; intro; [apply A|apply B|apply C]; right; assumption).
  f_equal. lia.
Qed.

Lemma take_ident : forall x t, forallb ident_char x = true ->
  take_while ident_char (x ++ "[" :: t) = x /\ drop_while ident_char (x ++ "[" :: t) = "[" :: t.
Proof.
  induction x as [|c x IH]; intros t H; [split; reflexivity|].
  cbn [forallb] in H. apply andb_true_iff in H as [H1 H2]. destruct (IH t H2) as [A B].
  cbn [app take_while drop_while]. rewrite H1, A, B. split; reflexivity.
Qed.

Lemma trim_element : forall x t, identifier x -> trim (x ++ "[" :: t ++ ["]"]) = x ++ "[" :: t ++ ["]"].
Proof.
  intros x t H. destruct (identifier_chars x H) as (c & r & -> & H1 & _).
  assert (D : forall u, drop_while blank (rev (u ++ ["]"])) = rev (u ++ ["]"]))
    by (intros u; rewrite rev_app_distr; reflexivity).
  unfold trim. cbn [app drop_while]. destruct (letter_kind c H1) as (-> & _).
  change (c :: r ++ "[" :: t ++ ["]"]) with ((c :: r) ++ ("[" :: t) ++ ["]"]).
  rewrite app_assoc, D, rev_involutive. reflexivity.
Qed.

Lemma index_eval : forall fuel s,
  eval_expression fuel (no_matrices V) s = eval 1 fuel (no_matrices V) s.
Proof.
  intros. unfold GdmlModel.eval_expression. generalize 64 as b. intros b. apply eval_depth0.
Qed.

(** The tokens of an element. *)
Lemma eval_element : forall fuel matrices x t, identifier x -> ~ number_name x ->
  eval_expression fuel matrices (x ++ "[" :: t ++ ["]"]) =
  match tokenize fuel (eval_expression fuel (no_matrices V)) matrices (x ++ "[" :: t ++ ["]"]) [] with
  | None => None
  | Some Thrown => Some Thrown
  | Some (Val ts) => Some (evaluate_tokens V vadd vsub vmul vdiv vpow vneg is_zero lib1 lib2 ts)
  end.
Proof.
  intros fuel m x t H N. rewrite C63_depth.
  rewrite (tokenize_ext _ _ _ _ fuel (eval_expression fuel (no_matrices V))
    (eval 1 fuel (no_matrices V)) m _ [] (index_eval fuel)).
  change 2 with (S 1). generalize 1 as b. intros b.
  cbn [GdmlModel.eval]. cbv zeta. rewrite trim_element by exact H.
  destruct (identifier_chars x H) as (c & r & E & H1 & H2).
  destruct (letter_kind c H1) as (_ & _ & _ & _ & O & _ & _ & S).
  assert (U : (negb (strtod_len (x ++ "[" :: t ++ ["]"]) =? 0) &&
    (strtod_len (x ++ "[" :: t ++ ["]"]) =? List.length (x ++ "[" :: t ++ ["]"])))%nat = false).
  { apply andb_false_iff.
    destruct (strtod_len (x ++ "[" :: t ++ ["]"]) =? 0)%nat eqn:Z; [left; reflexivity|right].
    apply Nat.eqb_neq in Z. apply Nat.eqb_neq. intros Q. apply N.
    assert (SU : strtod_len (x ++ "[" :: t ++ ["]"]) = unsigned_len (x ++ "[" :: t ++ ["]"])).
    { rewrite E. unfold strtod_len. cbn [app take_while drop_while]. rewrite S.
      unfold op_char in O. rewrite !orb_false_iff in O. destruct O as ((((-> & ->) & _) & _) & _).
      cbn [orb List.length Nat.add]. destruct (unsigned_len _ =? 0)%nat eqn:W; [|reflexivity].
      apply Nat.eqb_eq in W. congruence. }
    rewrite SU in *. apply (unsigned_name x ("[" :: t ++ ["]"]) H); [|exact Z|exact Q].
    cbn [stops_name]. rewrite letter_iff, digit_iff. split; discriminate. }
  rewrite U.
  assert (I : forallb ident_char (x ++ "[" :: t ++ ["]"]) = false).
  { rewrite forallb_app. cbn [forallb]. change (ident_char "[") with false. cbn [andb].
    apply andb_false_r. }
  rewrite I. rewrite E. cbn [app andb]. reflexivity.
Qed.

Lemma tokenize_element : forall fuel ev matrices x t coldim vals, identifier x ->
  matrices x = Some (coldim, vals) ->
  tokenize (S fuel) ev matrices (x ++ "[" :: t) [] =
  match scan_bracket t 1 0 None with
  | None => Some Thrown
  | Some (fin, Some comma) =>
      match ev (firstn comma t), ev (firstn (fin - comma - 1) (skipn (S comma) t)) with
      | Some (Val row), Some (Val col) =>
          match entry V vals ((to_int row - 1) * coldim + (to_int col - 1)) with
          | Val v => tokenize fuel ev matrices (skipn (S fin) t) [NUM v]
          | Thrown => Some Thrown
          end
      | Some Thrown, _ => Some Thrown
      | Some (Val _), Some Thrown => Some Thrown
      | None, _ | _, None => None
      end
  | Some (fin, None) =>
      match ev (firstn fin t) with
      | Some (Val idx) =>
          match entry V vals (to_int idx - 1) with
          | Val v => tokenize fuel ev matrices (skipn (S fin) t) [NUM v]
          | Thrown => Some Thrown
          end
      | Some Thrown => Some Thrown
      | None => None
      end
  end.
Proof.
  intros fuel ev m x t coldim vals H M.
  destruct (identifier_chars x H) as (c & r & E & H1 & H2).
  destruct (letter_kind c H1) as (K1 & K2 & K3 & K4 & K5 & K6 & K7 & _).
  destruct (take_ident x t H2) as [A B].
  rewrite E in *. cbn [app] in *.
  cbn [GdmlModel.tokenize]. rewrite K1, K2, K3, K4, K5, K6, K7, H1. cbn [orb]. cbv zeta.
  rewrite A, B. change (drop_while tab ("[" :: t)) with ("[" :: t). cbv iota beta.
  rewrite M. reflexivity.
Qed.

Lemma entry_nth : forall (vals : list V) k v, nth_error vals k = Some v ->
  entry V vals (Z.of_nat k) = Val v.
Proof.
  intros vals k v H. unfold entry.
  assert (L : k < List.length vals) by (apply nth_error_Some; congruence).
  rewrite (proj2 (Z.ltb_ge _ _)) by lia. rewrite (proj2 (Z.leb_gt _ _)) by lia.
  cbn [orb]. rewrite Nat2Z.id, H. reflexivity.
Qed.

Lemma nth_concat : forall (rows : list (list V)) w i j r v,
  (forall r, In r rows -> List.length r = w) ->
  nth_error rows i = Some r -> nth_error r j = Some v ->
  nth_error (List.concat rows) (i * w + j) = Some v.
Proof.
  induction rows as [|r0 rows IH]; intros w i j r v W R J; [destruct i; discriminate|].
  cbn [List.concat]. assert (L : List.length r0 = w) by (apply W; left; reflexivity).
  destruct i as [|i].
  - injection R as ->. cbn [Nat.mul Nat.add]. rewrite nth_error_app1; [exact J|].
    apply nth_error_Some. congruence.
  - rewrite nth_error_app2 by (cbn [Nat.mul]; lia).
    replace (S i * w + j - List.length r0) with (i * w + j) by (rewrite L; cbn [Nat.mul]; lia).
    apply (IH w i j r v); auto. intros q Q. apply W. right. exact Q.
Qed.

(** C62: with two indices an element of a matrix is the one in that row and that column, counted
    from one, the entries being written row by row. *)
Theorem C62_element : forall fuel matrices x si sj rows w vi vj i j r v,
  identifier x -> ~ number_name x -> plain_index si -> plain_index sj ->
  matrices x = Some (Z.of_nat w, List.concat rows) ->
  (forall r, In r rows -> List.length r = w) ->
  eval_expression fuel (no_matrices V) si = Some (Val vi) -> to_int vi = Z.of_nat (S i) ->
  eval_expression fuel (no_matrices V) sj = Some (Val vj) -> to_int vj = Z.of_nat (S j) ->
  nth_error rows i = Some r -> nth_error r j = Some v -> 2 <= fuel ->
  eval_expression fuel matrices (x ++ "[" :: si ++ "," :: sj ++ ["]"]) = Some (Val v).
Proof.
  intros fuel m x si sj rows w vi vj i j r v HX HN Pi Pj M W Ei Ti Ej Tj R J F.
  replace (si ++ "," :: sj ++ ["]"]) with ((si ++ "," :: sj) ++ ["]"])
    by (rewrite <- app_assoc; reflexivity).
  rewrite eval_element by assumption.
  destruct fuel as [|[|fuel]]; try lia.
  rewrite (tokenize_element (S fuel) _ m x _ _ _ HX M).
  rewrite <- app_assoc, scan_plain by exact Pi. cbn [app scan_bracket].
  change (Ascii.eqb "," "[") with false. change (Ascii.eqb "," "]") with false.
  change (Ascii.eqb "," "," && (1 =? 1)%nat) with true. cbv iota.
  rewrite scan_plain by exact Pj. cbn [scan_bracket].
  change (Ascii.eqb "]" "[") with false. change (Ascii.eqb "]" "]") with true. cbv iota.
  rewrite Nat.add_0_r.
  rewrite firstn_app, Nat.sub_diag, firstn_all. cbn [firstn]. rewrite app_nil_r.
  replace (skipn (S (List.length si)) (si ++ "," :: sj ++ ["]"])) with (sj ++ ["]"]).
  2:{ rewrite skipn_app, skipn_all2 by lia.
      replace (S (List.length si) - List.length si) with 1 by lia. reflexivity. }
  replace (List.length sj + S (List.length si) - List.length si - 1) with (List.length sj) by lia.
  rewrite firstn_app, Nat.sub_diag, firstn_all. cbn [firstn]. rewrite app_nil_r.
  rewrite Ei, Ej, Ti, Tj.
  replace ((Z.of_nat (S i) - 1) * Z.of_nat w + (Z.of_nat (S j) - 1))%Z
    with (Z.of_nat (i * w + j)) by nia.
  rewrite (entry_nth _ _ v) by (apply nth_concat with (r := r); assumption).
  rewrite skipn_all2 by (rewrite !app_length; cbn; rewrite app_length; cbn; lia).
  reflexivity.
Qed.

(** C62: with one index it is the entry of that number, counted from one. *)
Theorem C62_entry : forall fuel matrices x s coldim vals vi i v,
  identifier x -> ~ number_name x -> plain_index s ->
  matrices x = Some (coldim, vals) ->
  eval_expression fuel (no_matrices V) s = Some (Val vi) -> to_int vi = Z.of_nat (S i) ->
  nth_error vals i = Some v -> 2 <= fuel ->
  eval_expression fuel matrices (x ++ "[" :: s ++ ["]"]) = Some (Val v).
Proof.
  intros fuel m x s coldim vals vi i v HX HN P M E T N F.
  rewrite eval_element by assumption.
  destruct fuel as [|[|fuel]]; try lia.
  rewrite (tokenize_element (S fuel) _ m x _ _ _ HX M).
  rewrite scan_plain by exact P. cbn [scan_bracket].
  change (Ascii.eqb "]" "[") with false. change (Ascii.eqb "]" "]") with true. cbv iota.
  rewrite Nat.add_0_r, firstn_app, Nat.sub_diag, firstn_all. cbn [firstn]. rewrite app_nil_r.
  rewrite E, T.
  replace (Z.of_nat (S i) - 1)%Z with (Z.of_nat i) by lia.
  rewrite (entry_nth _ _ v N).
  rewrite skipn_all2 by (rewrite app_length; cbn; lia).
  reflexivity.
Qed.
End Props.

(** A matrix of two columns and three rows. *)
Definition table : list (list Z) := [[11; 12]; [21; 22]; [31; 32]]%Z.
Definition table_map : matrix_map Z := fun x => if str_eqb x (text "t") then Some (2%Z, List.concat table) else None.
Definition tev (fuel : nat) (s : string) : option (result Z) :=
  GdmlModel.eval_expression Z znum no_erange Z.add Z.sub Z.mul Z.quot Z.pow Z.opp (Z.eqb 0) zlib1 zlib2
    (fun v => v) zconst fuel table_map (text s).

Example C62_case_element : tev 20 "t[2,1]" = Some (Val 21%Z) /\ tev 20 "t[4]" = Some (Val 22%Z).
Proof.
  assert (I : identifier (text "t")) by (exists "t", []; repeat split; [apply letter_iff; reflexivity|constructor]).
  assert (N : ~ number_name (text "t")) by (unfold number_name; cbn; intuition discriminate).
  split.
  - apply (C62_element Z znum no_erange Z.add Z.sub Z.mul Z.quot Z.pow Z.opp (Z.eqb 0) zlib1 zlib2
      (fun v => v) zconst 20 table_map (text "t") (text "2") (text "1") table 2 2%Z 1%Z 1 0 [21; 22]%Z);
      try reflexivity; auto; try (unfold plain_index; cbn; intuition discriminate); try lia.
    intros r [<-|[<-|[<-|[]]]]; reflexivity.
  - apply (C62_entry Z znum no_erange Z.add Z.sub Z.mul Z.quot Z.pow Z.opp (Z.eqb 0) zlib1 zlib2
      (fun v => v) zconst 20 table_map (text "t") (text "4") 2%Z (List.concat table) 4%Z 3);
      try reflexivity; auto; try (unfold plain_index; cbn; intuition discriminate); try lia.
Qed.

(** A column beyond the last is not refused: the element is taken from the next row. *)
Theorem C62_column_refuted : exists fuel,
  (forall r, In r table -> List.length r = 2) /\ tev fuel "t[1,3]" = Some (Val 21%Z).
Proof. exists 20. split; [|reflexivity]. intros r [<-|[<-|[<-|[]]]]; reflexivity. Qed.

Print Assumptions C62_element.
Print Assumptions C62_entry.
Print Assumptions C62_column_refuted.
