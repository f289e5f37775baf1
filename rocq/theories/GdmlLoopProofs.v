(** Proofs about the substitution of loop variables. *)
From Coq Require Import List Bool Arith ZArith Ascii String Lia.
From Verif Require Import GdmlModel GdmlSpec GdmlProofs GdmlReject GdmlLoopModel GdmlLoopSpec.
Import ListNotations.
Open Scope char_scope.

Lemma prefix_app : forall p s, prefix_of p s = true -> s = p ++ skipn (List.length p) s.
Proof.
  induction p as [|a p IH]; intros [|c s] H; cbn in *; try discriminate; auto.
  apply andb_true_iff in H. destruct H as [E H]. apply Ascii.eqb_eq in E. subst. f_equal. auto.
Qed.
Lemma app_prefix : forall p s, prefix_of p (p ++ s) = true.
Proof. induction p; cbn; auto. intros. rewrite Ascii.eqb_refl. cbn. auto. Qed.

Lemma find_none : forall p s, find p s = None -> forall a b, s = a ++ b -> prefix_of p b = false.
Proof.
  induction s as [|c s IH]; intros H a b E; cbn in H.
  - destruct (prefix_of p []) eqn:P; [discriminate|]. destruct a, b; try discriminate. auto.
  - destruct (prefix_of p (c :: s)) eqn:P; [discriminate|].
    destruct (find p s) eqn:F; [discriminate|].
    destruct a as [|a' a]; cbn in E; [subst; auto|]. injection E as <- E. eapply IH; eauto.
Qed.

Lemma find_some : forall p s k, find p s = Some k ->
  exists a r, s = a ++ p ++ r /\ List.length a = k /\
  (forall a1 a2, a = a1 ++ a2 -> a2 <> [] -> prefix_of p (a2 ++ p ++ r) = false).
Proof.
  induction s as [|c s IH]; intros k H; cbn in H.
  - destruct (prefix_of p []) eqn:P; [|discriminate]. injection H as <-. exists [], [].
    pose proof (prefix_app _ _ P) as E. split; [|split; auto].
    + cbn. rewrite skipn_nil in E. exact E.
    + intros a1 a2 E1 E2. destruct a1, a2; try discriminate. tauto.
  - destruct (prefix_of p (c :: s)) eqn:P.
    + injection H as <-. exists [], (skipn (List.length p) (c :: s)). split; [|split; auto].
      * apply prefix_app. exact P.
      * intros a1 a2 E1 E2. destruct a1, a2; try discriminate. tauto.
    + destruct (find p s) as [j|] eqn:F; [|discriminate]. injection H as <-.
      destruct (IH j eq_refl) as (a & r & E & L & N). exists (c :: a), r. split; [|split].
      * cbn. congruence.
      * cbn. congruence.
      * intros a1 a2 E1 E2. destruct a1 as [|c1 a1]; cbn in E1.
        -- subst a2. cbn [app]. rewrite <- E. exact P.
        -- injection E1 as <- E1. exact (N a1 a2 E1 E2).
Qed.

Lemma find_from_app : forall p d s, find_from p (d ++ s) (List.length d) = option_map (Nat.add (List.length d)) (find p s).
Proof.
  intros. unfold find_from. rewrite app_length, skipn_app_length.
  replace (List.length d <=? List.length d + List.length s)%nat with true; auto.
  symmetry. apply Nat.leb_le. lia.
Qed.

Lemma replace_app : forall d x r t, replace (d ++ x ++ r) (List.length d) (List.length x) t = d ++ t ++ r.
Proof.
  intros. unfold replace. rewrite firstn_app_length.
  replace (List.length d + List.length x) with (List.length (d ++ x)) by apply app_length.
  rewrite app_assoc with (l := d) (m := x), skipn_app_length. auto.
Qed.

Definition ends (d : list ascii) : bool := match rev d with c :: _ => ident_char c | [] => false end.
Definition starts (s : list ascii) : bool := match s with c :: _ => ident_char c | [] => false end.

Lemma ends_snoc : forall d c, ends (d ++ [c]) = ident_char c.
Proof. intros. unfold ends. rewrite rev_app_distr. auto. Qed.

Lemma ends_left : forall d s, (List.length d =? 0)%nat || negb (ident_at (d ++ s) (List.length d - 1)) = negb (ends d).
Proof.
  intros d s. destruct (rev d) as [|c r] eqn:E.
  - assert (d = []) by (rewrite <- (rev_involutive d), E; auto). subst. auto.
  - assert (D : d = rev r ++ [c]) by (rewrite <- (rev_involutive d), E; auto).
    subst d. rewrite ends_snoc, app_length, rev_length. cbn [List.length].
    replace (List.length r + 1 =? 0)%nat with false by (symmetry; apply Nat.eqb_neq; lia). cbn [orb].
    unfold ident_at. rewrite <- app_assoc, nth_error_app2; rewrite rev_length; [|lia].
    replace (List.length r + 1 - 1 - List.length r) with 0 by lia. auto.
Qed.

Lemma starts_right : forall d s, ident_at (d ++ s) (List.length d) = starts s.
Proof. intros. unfold ident_at. rewrite nth_error_app2, Nat.sub_diag by lia. destruct s; auto. Qed.

Lemma starts_spec : forall s, begins_with_name_char s <-> starts s = true.
Proof. intros [|c s]; cbn; [split; [tauto|discriminate]|]. apply ident_iff. Qed.
Lemma starts_not : forall s, ~ begins_with_name_char s <-> starts s = false.
Proof. intros. rewrite starts_spec. destruct (starts s); split; congruence. Qed.

Section Names.
Variable x val : list ascii.
Hypothesis x_nonempty : x <> [].
Hypothesis x_ident : forallb ident_char x = true.

Fixpoint scan (n : nat) (glued : bool) (s : list ascii) : list ascii :=
  match n with
  | O => s
  | S n =>
      if prefix_of x s then
        let r := skipn (List.length x) s in
        if negb glued && negb (starts r) then val ++ scan n (ends val) r else x ++ scan n true r
      else match s with [] => [] | c :: s => c :: scan n (ident_char c) s end
  end.

Lemma prefix_nil : prefix_of x [] = false.
Proof. destruct x; cbn; congruence. Qed.

Lemma x_length : 0 < List.length x.
Proof. destruct x; cbn; [congruence|lia]. Qed.

Lemma ends_x : forall d, ends (d ++ x) = true.
Proof.
  intros. destruct (rev x) as [|c r] eqn:E.
  - exfalso. apply x_nonempty. rewrite <- (rev_involutive x), E. auto.
  - assert (D : x = rev r ++ [c]) by (rewrite <- (rev_involutive x), E; auto).
    rewrite D, app_assoc, ends_snoc. rewrite D, forallb_app in x_ident. cbn in x_ident.
    apply andb_true_iff in x_ident. destruct x_ident as [_ H]. rewrite andb_true_r in H. auto.
Qed.

Lemma ends_app : forall d t, t <> [] -> ends (d ++ t) = ends t.
Proof.
  intros d t H. unfold ends. rewrite rev_app_distr. destruct (rev t) eqn:E; auto.
  exfalso. apply H. rewrite <- (rev_involutive t), E. auto.
Qed.

Lemma scan_nil : forall n g, scan n g [] = [].
Proof. intros [|n] g; auto. cbn [scan]. rewrite prefix_nil. auto. Qed.

Lemma scan_skip : forall a n g r, List.length a <= n ->
  (forall a1 a2, a = a1 ++ a2 -> a2 <> [] -> prefix_of x (a2 ++ r) = false) ->
  scan n g (a ++ r) = a ++ scan (n - List.length a) (if a then g else ends a) r.
Proof.
  induction a as [|c a IH]; intros n g r L H; cbn [app List.length].
  - rewrite Nat.sub_0_r. auto.
  - destruct n as [|n]; cbn in L; [lia|]. cbn [scan].
    pose proof (H [] (c :: a) eq_refl ltac:(discriminate)) as P. cbn [app] in P. rewrite P. f_equal.
    rewrite (IH n (ident_char c) r); [|lia|].
    + f_equal. replace (S n - S (List.length a)) with (n - List.length a) by lia.
      destruct a as [|c' a]; [reflexivity|].
      change (ends (c :: c' :: a)) with (ends ([c] ++ c' :: a)). rewrite ends_app by discriminate. auto.
    + intros a1 a2 E1 E2. apply (H (c :: a1) a2); cbn; congruence.
Qed.

(** The result does not depend on the fuel. *)
Lemma scan_fuel : forall n m g s, List.length s <= n -> List.length s <= m -> scan n g s = scan m g s.
Proof.
  pose proof x_length as XL.
  induction n as [|n IH]; intros m g s L1 L2.
  - destruct s; cbn in L1; [|lia]. rewrite !scan_nil. auto.
  - destruct m as [|m]; [destruct s; cbn in L2; [rewrite !scan_nil; auto|lia]|].
    cbn [scan]. destruct (prefix_of x s) eqn:P.
    + pose proof (prefix_app _ _ P) as E. apply (f_equal (@List.length ascii)) in E. rewrite app_length in E.
      cbv zeta. rewrite (IH m (ends val)), (IH m true) by lia. auto.
    + destruct s as [|c s]; auto. cbn in L1, L2. rewrite (IH m) by lia. auto.
Qed.

Lemma replace_names_scan : forall n todo, List.length todo <= n -> forall fuel done, List.length todo < fuel ->
  replace_names fuel x val (done ++ todo) (List.length done) = Some (done ++ scan n (ends done) todo).
Proof.
  pose proof x_length as XL.
  induction n as [n IH] using lt_wf_ind. intros todo LN fuel done LF.
  destruct fuel as [|fuel]; [lia|]. cbn [replace_names]. rewrite find_from_app.
  destruct (find x todo) as [k|] eqn:F; cbn [option_map].
  - destruct (find_some _ _ _ F) as (a & r & -> & <- & N).
    rewrite !app_length in LN, LF.
    replace (done ++ a ++ x ++ r) with ((done ++ a) ++ x ++ r) by (rewrite <- app_assoc; auto).
    rewrite <- app_length, ends_left.
    replace (List.length (done ++ a) + List.length x) with (List.length ((done ++ a) ++ x)) by apply app_length.
    rewrite app_assoc with (l := done ++ a) (m := x), starts_right.
    rewrite <- app_assoc with (m := x).
    rewrite (scan_skip a n (ends done) (x ++ r)) by (auto; lia).
    assert (EG : (if a then ends done else ends a) = ends (done ++ a)).
    { destruct a; [rewrite app_nil_r; auto|]. rewrite ends_app by discriminate. auto. }
    rewrite EG. destruct (n - List.length a) as [|m] eqn:M; [lia|]. cbn [scan].
    rewrite app_prefix, skipn_app_length. cbv zeta.
    destruct (negb (ends (done ++ a)) && negb (starts r)) eqn:OK.
    + rewrite replace_app.
      replace (List.length (done ++ a) + List.length val) with (List.length ((done ++ a) ++ val)) by apply app_length.
      rewrite app_assoc with (l := done ++ a) (m := val).
      rewrite (IH m ltac:(lia) r ltac:(lia)) by lia.
      assert (EV : ends ((done ++ a) ++ val) = ends val).
      { apply andb_true_iff in OK. destruct OK as [OK _]. apply negb_true_iff in OK.
        destruct (list_eq_dec ascii_dec val []) as [E|E].
        - rewrite E, app_nil_r, OK. auto.
        - apply ends_app. exact E. }
      rewrite EV, <- !app_assoc. auto.
    + rewrite app_assoc with (l := done ++ a) (m := x).
      rewrite (IH m ltac:(lia) r ltac:(lia)) by lia. rewrite ends_x, <- !app_assoc. auto.
  - f_equal. f_equal. rewrite <- (app_nil_r todo) at 2. rewrite scan_skip; [rewrite scan_nil, app_nil_r; auto|lia|].
    intros a1 a2 E NE. rewrite app_nil_r. apply (find_none _ _ F a1 a2 E).
Qed.

Lemma prefix_starts : forall s, prefix_of x s = true -> starts s = true.
Proof.
  intros s P. destruct x as [|c r] eqn:E; [congruence|]. destruct s as [|d s]; [discriminate|].
  cbn in *. apply andb_true_iff in P. destruct P as [P _]. apply Ascii.eqb_eq in P. subst d.
  apply andb_true_iff in x_ident. tauto.
Qed.

Lemma scan_free : forall n g s, starts s = false -> scan n g s = scan n false s.
Proof.
  intros [|n] g s H; auto. cbn [scan]. destruct (prefix_of x s) eqn:P; [|auto].
  apply prefix_starts in P. congruence.
Qed.

Lemma prefix_run : forall y w s, forallb ident_char y = true -> forallb ident_char w = true -> starts s = false ->
  prefix_of y (w ++ s) = true -> exists u, w = y ++ u.
Proof.
  induction y as [|c y IH]; intros w s HY HW HS HP; [exists w; auto|].
  cbn in HY. apply andb_true_iff in HY. destruct HY as [HC HY].
  destruct w as [|d w]; cbn in HP.
  - destruct s as [|d s]; [discriminate|]. apply andb_true_iff in HP. destruct HP as [E _].
    apply Ascii.eqb_eq in E. subst. cbn in HS. congruence.
  - apply andb_true_iff in HP. destruct HP as [E HP]. apply Ascii.eqb_eq in E. subst d.
    cbn in HW. apply andb_true_iff in HW. destruct HW as [_ HW].
    destruct (IH w s HY HW HS HP) as [u ->]. exists u. auto.
Qed.

Lemma scan_run : forall n w s, List.length (w ++ s) <= n -> forallb ident_char w = true -> starts s = false ->
  scan n true (w ++ s) = w ++ scan n false s.
Proof.
  pose proof x_length as XL.
  induction n as [n IH] using lt_wf_ind. intros w s L HW HS.
  destruct w as [|c w]; [cbn [app]; apply scan_free; auto|].
  destruct n as [|n]; [cbn in L; lia|].
  rewrite (scan_fuel (S n) n false s) by (cbn in L; rewrite app_length in L; lia). cbn [scan].
  destruct (prefix_of x ((c :: w) ++ s)) eqn:P.
  - destruct (prefix_run _ _ _ x_ident HW HS P) as [u E]. rewrite E in *. cbn [negb andb]. cbv zeta.
    rewrite <- !app_assoc, skipn_app_length. f_equal. rewrite forallb_app in HW. apply andb_true_iff in HW.
    rewrite <- app_assoc in L. rewrite !app_length in L.
    rewrite IH; [|lia|rewrite app_length; lia|tauto|auto]. auto.
  - cbn in HW. apply andb_true_iff in HW. destruct HW as [HC HW]. cbn [app]. rewrite HC. f_equal.
    rewrite app_length in L. cbn in L.
    rewrite IH; [|lia|rewrite app_length; lia|auto|auto]. auto.
Qed.

Lemma scan_replaced : forall s t, Replaced x val s t -> forall n g, List.length s <= n -> g = false \/ starts s = false ->
  scan n g s = t.
Proof.
  pose proof x_length as XL.
  induction 1 as [|c s t HC H IH|s t HS H IH|w s t W0 W1 W2 HS H IH]; intros n g L G.
  - apply scan_nil.
  - destruct n as [|n]; [cbn in L; lia|]. cbn [scan].
    assert (C : ident_char c = false).
    { destruct (ident_char c) eqn:E; auto. exfalso. apply HC, ident_iff, E. }
    destruct (prefix_of x (c :: s)) eqn:P.
    + apply prefix_starts in P. cbn in P. congruence.
    + f_equal. apply IH; cbn in L; [lia|auto].
  - rewrite app_length in L. destruct n as [|n]; [lia|]. cbn [scan]. rewrite app_prefix, skipn_app_length. cbv zeta.
    apply starts_not in HS. rewrite HS.
    assert (starts (x ++ s) = true) by (apply prefix_starts, app_prefix).
    destruct G as [->|G]; [|congruence]. cbn [negb andb]. f_equal. apply IH; [lia|auto].
  - apply starts_not in HS. rewrite app_length in L.
    assert (WI : forallb ident_char w = true) by (apply ident_forall; exact W1).
    assert (starts (w ++ s) = true).
    { destruct w as [|c w]; [congruence|]. cbn in *. apply andb_true_iff in WI. tauto. }
    destruct G as [->|G]; [|congruence].
    destruct n as [|n]; [destruct w; cbn in L; [congruence|lia]|]. cbn [scan].
    destruct (prefix_of x (w ++ s)) eqn:P.
    + destruct (prefix_run _ _ _ x_ident WI HS P) as [u ->].
      rewrite forallb_app in WI. apply andb_true_iff in WI. rewrite app_length in L.
      rewrite <- app_assoc, skipn_app_length. cbv zeta.
      assert (SU : starts (u ++ s) = true).
      { destruct u as [|c u]; [rewrite app_nil_r in W2; congruence|]. cbn in *.
        destruct WI as [_ WI]. apply andb_true_iff in WI. tauto. }
      rewrite SU. cbn [negb andb]. rewrite <- app_assoc. f_equal. rewrite scan_run; [|rewrite app_length; lia|tauto|auto].
      f_equal. apply IH; [lia|auto].
    + destruct w as [|c w]; [congruence|]. cbn in WI, L. apply andb_true_iff in WI. destruct WI as [HC WI].
      cbn [app]. rewrite HC. f_equal. rewrite scan_run; [|rewrite app_length; lia|auto|auto]. f_equal. apply IH; [lia|auto].
Qed.

Lemma replaced_exists : forall s, exists t, Replaced x val s t.
Proof.
  intros s. remember (List.length s) as n eqn:E. assert (L : List.length s <= n) by lia. clear E.
  revert s L. induction n as [|n IH]; intros s L.
  - destruct s; cbn in L; [|lia]. exists []. constructor.
  - destruct s as [|c s]; [exists []; constructor|].
    destruct (ident_char c) eqn:C.
    + pose proof (take_drop ident_char (c :: s)) as T. pose proof (take_forall ident_char (c :: s)) as F.
      pose proof (drop_head ident_char (c :: s)) as D.
      set (w := take_while ident_char (c :: s)) in *. set (r := drop_while ident_char (c :: s)) in *.
      assert (W : w <> []) by (unfold w; cbn; rewrite C; discriminate).
      assert (LR : List.length r <= n).
      { pose proof (f_equal (@List.length ascii) T) as TL. rewrite app_length in TL. destruct w; [congruence|]. cbn in *. lia. }
      destruct (IH r LR) as [t HT].
      assert (ST : ~ begins_with_name_char r).
      { apply starts_not. destruct r; auto. }
      rewrite <- T. destruct (list_eq_dec ascii_dec w x) as [E|E].
      * exists (val ++ t). rewrite E. constructor; auto.
      * exists (w ++ t). constructor; auto. apply ident_forall. exact F.
    + destruct (IH s ltac:(cbn in L; lia)) as [t HT]. exists (c :: t). constructor; auto.
      intros H. apply ident_iff in H. congruence.
Qed.

Lemma replace_names_replaced : forall s t fuel, Replaced x val s t -> List.length s < fuel ->
  replace_names fuel x val s 0 = Some t.
Proof.
  intros s t fuel H L. pose proof (replace_names_scan (List.length s) s ltac:(lia) fuel [] L) as E.
  cbn [app List.length] in E. rewrite E. f_equal.
  change ([] ++ ?z) with z. apply (scan_replaced s t H); auto.
Qed.
End Names.

Lemma replace_names_empty : forall val fuel s pos, pos <= List.length s -> replace_names fuel [] val s pos = None.
Proof.
  intros val. induction fuel as [|fuel IH]; intros s pos L; auto. cbn [replace_names].
  assert (E : find_from [] s pos = Some pos).
  { unfold find_from. apply Nat.leb_le in L. rewrite L. destruct (skipn pos s); cbn; f_equal; lia. }
  rewrite E. destruct (_ && _).
  - apply IH. unfold replace. rewrite !app_length, firstn_length_le by lia. lia.
  - apply IH. cbn. lia.
Qed.

Lemma replace_names_more : forall x val fuel s pos r k, replace_names fuel x val s pos = Some r ->
  replace_names (fuel + k) x val s pos = Some r.
Proof.
  intros x val. induction fuel as [|fuel IH]; intros s pos r k H; [discriminate|]. cbn [replace_names Nat.add] in *.
  destruct (find_from x s pos) as [p|]; auto. destruct (_ && _); auto.
Qed.
