(** Lemmas on the tables of primary particles. *)
From Coq Require Import Reals ZArith Ascii String List Bool Lra Lia.
From Verif Require Import VectorModel RecordModel GdmlModel GdmlProofs ExtModel ExtSpec.
Import ListNotations.
Open Scope R_scope.

(** ** Pieces *)
Lemma pieces_none : forall c s, pieces c s = [] -> s = [].
Proof.
  intros c [|x r] H; [reflexivity|]. cbn [pieces] in H. destruct (Ascii.eqb x c); [discriminate|].
  destruct (pieces c r); discriminate.
Qed.

Lemma pieces_more : forall c p s, ~ In c p -> pieces c (p ++ c :: s) = p :: pieces c s.
Proof.
  intros c p s. induction p as [|x p IH]; intros N; cbn [app pieces].
  - rewrite Ascii.eqb_refl. reflexivity.
  - destruct (Ascii.eqb x c) eqn:E; [apply Ascii.eqb_eq in E; subst; exfalso; apply N; now left|].
    rewrite IH by (intros I; apply N; now right). reflexivity.
Qed.

Lemma pieces_last : forall c p, ~ In c p -> p <> [] -> pieces c p = [p].
Proof.
  intros c p. induction p as [|x p IH]; intros N P; [congruence|]. cbn [pieces].
  destruct (Ascii.eqb x c) eqn:E; [apply Ascii.eqb_eq in E; subst; exfalso; apply N; now left|].
  destruct p as [|y p]; [reflexivity|].
  rewrite IH; [reflexivity| |discriminate]. intros I. apply N. now right.
Qed.

Lemma pieces_flat : forall c l s, (forall p, In p l -> ~ In c p) ->
  pieces c (flat_map (fun p => p ++ [c]) l ++ s) = l ++ pieces c s.
Proof.
  intros c l s. induction l as [|p l IH]; intros N; [reflexivity|]. cbn [flat_map].
  rewrite <- app_assoc, <- app_assoc. cbn [app].
  rewrite pieces_more by (apply N; now left). rewrite IH; [reflexivity|]. intros q Q. apply N. now right.
Qed.

Lemma cut_pieces : forall c s l, cut c s l -> pieces c s = l.
Proof.
  intros c s l [N [-> | (l' & p & -> & P & ->)]].
  - rewrite <- (app_nil_r (flat_map _ l)), pieces_flat by assumption. cbn. apply app_nil_r.
  - rewrite pieces_flat by (intros q Q; apply N; apply in_or_app; now left).
    rewrite pieces_last; [reflexivity| |assumption]. apply N. apply in_or_app. right. now left.
Qed.

Lemma pieces_cut : forall c s, cut c s (pieces c s).
Proof.
  intros c s. induction s as [|x s IH].
  - split; [intros p []|]. now left.
  - cbn [pieces]. destruct (Ascii.eqb x c) eqn:E.
    + apply Ascii.eqb_eq in E. subst x. destruct IH as [N H]. split.
      * intros p [<- | I]; [intros []|now apply N].
      * destruct H as [H | (l' & p & L & P & H)].
        -- left. cbn. now f_equal.
        -- right. exists ([] :: l'), p. split; [cbn; now f_equal|]. split; [assumption|]. cbn. now f_equal.
    + assert (x <> c) as X by (intros ->; rewrite Ascii.eqb_refl in E; discriminate).
      destruct (pieces c s) as [|q ps] eqn:P.
      * apply pieces_none in P. subst s. split.
        -- intros p [<- | []]. intros [A | []]. congruence.
        -- right. exists [], [x]. split; [reflexivity|]. split; [discriminate|reflexivity].
      * destruct IH as [N H]. split.
        -- intros p [<- | I]; [|apply N; now right]. intros [A | A]; [congruence|]. revert A. apply N. now left.
        -- destruct H as [H | (l' & p & L & Q & H)].
           ++ left. rewrite H. reflexivity.
           ++ right. destruct l' as [|q' l'].
              ** injection L as -> ->. exists [], (x :: p). split; [reflexivity|]. split; [discriminate|].
                 rewrite H. reflexivity.
              ** injection L as -> ->. exists ((x :: q') :: l'), p. split; [reflexivity|]. split; [assumption|].
                 rewrite H. reflexivity.
Qed.

Lemma cut_iff : forall c s l, cut c s l <-> pieces c s = l.
Proof. intros c s l. split; [apply cut_pieces|]. intros <-. apply pieces_cut. Qed.

(** ** White space *)
Lemma blank_white : forall c, blank c = true <-> white c.
Proof.
  intros c. unfold blank, white. rewrite !orb_true_iff, !Ascii.eqb_eq. tauto.
Qed.

Lemma drop_split : forall f s, exists a, s = a ++ drop_while f s /\ (forall c, In c a -> f c = true) /\
  (forall c r, drop_while f s = c :: r -> f c = false).
Proof.
  intros f s. induction s as [|x s (a & E & A & B)].
  - exists []. split; [reflexivity|]. split; [intros c []|discriminate].
  - cbn [drop_while]. destruct (f x) eqn:F.
    + exists (x :: a). split; [cbn; now f_equal|]. split; [|assumption]. intros c [<- | I]; auto.
    + exists []. split; [reflexivity|]. split; [intros c []|]. intros c r H. now injection H as <- <-.
Qed.

Lemma drop_all : forall f a s, (forall c, In c a -> f c = true) -> drop_while f (a ++ s) = drop_while f s.
Proof.
  intros f a s. induction a as [|x a IH]; intros A; [reflexivity|]. cbn [app drop_while].
  rewrite (A x) by now left. apply IH. intros c I. apply A. now right.
Qed.

Lemma drop_none : forall f s, (forall c r, s = c :: r -> f c = false) -> drop_while f s = s.
Proof. intros f [|c r] H; [reflexivity|]. cbn. now rewrite (H c r eq_refl). Qed.

Lemma stripped_trim : forall s t, stripped s t -> trim s = t.
Proof.
  intros s t (a & b & -> & W & F & L). unfold trim.
  rewrite drop_all by (intros c I; apply blank_white, W; now left).
  assert (forall u, ~ white u -> blank u = false) as K.
  { intros u N. destruct (blank u) eqn:B; [|reflexivity]. now apply blank_white in B. }
  destruct t as [|x t].
  - cbn [app]. rewrite <- (app_nil_r b), drop_all by (intros c I; apply blank_white, W; now right). reflexivity.
  - rewrite (drop_none _ ((x :: t) ++ b)).
    2: { intros c r H. cbn in H. injection H as <- _. apply K. exact (F _ _ eq_refl). }
    rewrite rev_app_distr, drop_all by (intros c I; apply blank_white, W; right; now apply in_rev).
    rewrite drop_none; [apply rev_involutive|].
    intros c r H. apply K. apply (L c (rev r)). apply (f_equal (@rev _)) in H. rewrite rev_involutive in H. exact H.
Qed.

Lemma trim_stripped : forall s, stripped s (trim s).
Proof.
  intros s. unfold trim.
  destruct (drop_split blank s) as (a & E & A & B).
  destruct (drop_split blank (rev (drop_while blank s))) as (b & E' & A' & B').
  set (m := drop_while blank s) in *. set (n := drop_while blank (rev m)) in *.
  apply (f_equal (@rev _)) in E'. rewrite rev_involutive, rev_app_distr in E'.
  exists a, (rev b). split; [rewrite <- E'; exact E|]. split.
  - intros c [I | I]; apply blank_white; [now apply A|]. apply A'. now apply in_rev.
  - split.
    + intros c r H W. apply blank_white in W. rewrite H in E'. cbn in E'.
      pose proof (B c (r ++ rev b) E'). congruence.
    + intros c r H W. apply blank_white in W. apply (f_equal (@rev _)) in H.
      rewrite rev_involutive, rev_app_distr in H. cbn in H. pose proof (B' _ _ H). congruence.
Qed.

Lemma stripped_iff : forall s t, stripped s t <-> trim s = t.
Proof. intros s t. split; [apply stripped_trim|]. intros <-. apply trim_stripped. Qed.

Lemma ignored_idle : forall l, ignored l = true <-> idle l.
Proof.
  intros l. unfold ignored, idle. rewrite stripped_iff. split.
  - destruct (trim l) as [|c r] eqn:T; [now left|]. intros H. apply Ascii.eqb_eq in H. subst c.
    right. exists r. now apply stripped_iff.
  - intros [-> | (r & H)]; [reflexivity|]. apply stripped_iff in H. rewrite H. reflexivity.
Qed.

Lemma stripped_all : forall l k, Forall2 stripped l k <-> map trim l = k.
Proof.
  intros l. induction l as [|x l IH]; intros k.
  - split; [intros H; now inversion H|]. intros <-. constructor.
  - split.
    + intros H. inversion H; subst. cbn. f_equal; [now apply stripped_iff|now apply IH].
    + intros <-. cbn. constructor; [apply trim_stripped|now apply IH].
Qed.

(** ** Header *)
Lemma named_in : forall keys k, named keys k = true <-> In (name k) keys.
Proof.
  intros keys k. unfold named. rewrite existsb_exists. split.
  - intros (x & I & E). apply str_eqb_eq in E. subst x. exact I.
  - intros I. exists (name k). split; [assumption|]. now apply str_eqb_eq.
Qed.

Lemma every_in : forall keys l, every keys l = true <-> (forall k, In k l -> In (name k) keys).
Proof.
  intros keys l. unfold every. rewrite forallb_forall. split; intros H k I; apply named_in; auto.
Qed.

Lemma lacking_not : forall keys l, lacking keys l = false <-> together keys l.
Proof.
  intros keys l. unfold lacking, together. rewrite <- every_in. split.
  - intros H. destruct (every keys l) eqn:E; [now left|]. right. intros k I N.
    rewrite andb_true_r in H. apply named_in in N.
    assert (existsb (named keys) l = true) as X by (apply existsb_exists; now exists k). congruence.
  - intros [-> | H]; [apply andb_false_r|].
    destruct (existsb (named keys) l) eqn:X; [|reflexivity]. apply existsb_exists in X as (k & I & N).
    apply named_in in N. exfalso. exact (H k I N).
Qed.

(** ** Rows *)
Lemma passing_end : forall emin xs, passing emin [] xs.
Proof. intros emin xs [|i] x A; discriminate A. Qed.

Lemma passing_cons : forall emin k ks x xs, passing emin (k :: ks) (x :: xs) <->
  negb (str_eqb k (word "E") && (if Rlt_dec x emin then true else false)) = true /\ passing emin ks xs.
Proof.
  intros emin k ks x xs. rewrite negb_true_iff. split.
  - intros A. split.
    + destruct (str_eqb k (word "E")) eqn:Q; [|reflexivity]. apply str_eqb_eq in Q. subst k.
      pose proof (A 0%nat x eq_refl eq_refl). cbn [andb]. destruct (Rlt_dec x emin); [lra|reflexivity].
    + intros i z Hk Hx. now apply (A (S i) z).
  - intros [A D] [|i] z Hk Hx; cbn [nth_error] in Hk, Hx; [|now apply (D i z)].
    assert (k = word "E") as Q by (change (word "E") with (name "E"); congruence).
    apply str_eqb_eq in Q. assert (z = x) as -> by congruence.
    rewrite Q in A. cbn [andb] in A. destruct (Rlt_dec x emin); [discriminate|lra].
Qed.

Lemma all_same : forall (number : list ascii -> option R) vs xs ys,
  Forall2 (fun v x => number v = Some x) vs xs -> Forall2 (fun v x => number v = Some x) vs ys -> xs = ys.
Proof.
  intros number vs. induction vs; intros xs ys F F'; inversion F; inversion F'; subst; [reflexivity|].
  f_equal; [congruence|]. now apply IHvs.
Qed.

Lemma row_exists : forall number emin keys vs xs, length vs = length keys ->
  Forall2 (fun v x => number v = Some x) vs xs ->
  exists b, row number emin keys vs = Some (xs, b) /\ (b = true <-> passing emin keys xs).
Proof.
  intros number emin keys. induction keys as [|k keys IH]; intros [|v vs] xs L F; try discriminate L.
  - inversion F; subst. exists true. split; [reflexivity|]. split; [|reflexivity]. intros _. apply passing_end.
  - inversion F as [|? x ? ys N F']; subst. destruct (IH vs ys) as (b & E & B); [cbn in L; lia|assumption|].
    cbn [row]. rewrite N, E. eexists. split; [reflexivity|]. rewrite andb_true_iff, passing_cons, B. reflexivity.
Qed.

Lemma row_inv : forall number emin keys vs xs b, row number emin keys vs = Some (xs, b) ->
  length vs = length keys /\ Forall2 (fun v x => number v = Some x) vs xs.
Proof.
  intros number emin keys. induction keys as [|k keys IH]; intros [|v vs] xs b H; cbn [row] in H; try discriminate.
  - injection H as <- <-. split; [reflexivity|constructor].
  - destruct (number v) as [x|] eqn:N; [|discriminate].
    destruct (row number emin keys vs) as [[ys c]|] eqn:E; [|discriminate]. injection H as <- <-.
    apply IH in E as (L & F). split; [cbn; lia|now constructor].
Qed.

Lemma row_spec : forall number emin keys vs xs b, row number emin keys vs = Some (xs, b) <->
  length vs = length keys /\ Forall2 (fun v x => number v = Some x) vs xs /\ (b = true <-> passing emin keys xs).
Proof.
  intros number emin keys vs xs b. split.
  - intros H. destruct (row_inv _ _ _ _ _ _ H) as [L F]. split; [assumption|]. split; [assumption|].
    destruct (row_exists number emin keys vs xs L F) as (c & E & C). congruence.
  - intros (L & F & B). destruct (row_exists number emin keys vs xs L F) as (c & E & C). rewrite E.
    f_equal. f_equal. apply eq_true_iff_eq. tauto.
Qed.

Lemma rows_spec : forall number emin keys ls d,
  rows number emin keys ls = Some d <-> kept number emin keys ls d.
Proof.
  intros number emin keys ls. induction ls as [|l ls IH]; intros d; cbn [rows].
  - split; [intros H; injection H as <-; constructor|]. intros H. now inversion H.
  - destruct (ignored l) eqn:G.
    + apply ignored_idle in G. rewrite IH. split; [now constructor|].
      intros H. inversion H; subst; [assumption|contradiction|contradiction].
    + assert (~ idle l) as NI by (intros I; apply ignored_idle in I; congruence).
      assert (forall ys, read_as number keys l ys ->
        exists b, row number emin keys (pieces comma l) = Some (ys, b) /\ (b = true <-> passing emin keys ys)) as U.
      { intros ys (vs & C & L & F). apply cut_pieces in C. change ","%char with comma in C. subst vs.
        now apply row_exists. }
      split.
      * intros H. destruct (row number emin keys (pieces comma l)) as [[xs b]|] eqn:E; [|discriminate].
        destruct (rows number emin keys ls) as [r|] eqn:Q; [|discriminate]. injection H as <-.
        assert (kept number emin keys ls r) as K by now apply IH.
        apply row_spec in E as (L & F & B).
        assert (read_as number keys l xs) as R by (exists (pieces comma l); split; [apply pieces_cut|split; assumption]).
        destruct b.
        -- apply (kept_row _ _ _ l ls xs r); try assumption. now apply B.
        -- apply (kept_not _ _ _ l ls xs r); try assumption. intros P. apply B in P. discriminate.
      * intros H. inversion H as [|? ? ? I| ? ? ys d' _ R' P K | ? ? ys d' _ R' P K]; subst; [contradiction| |];
          destruct (U _ R') as (b & E & B); rewrite E; apply IH in K; rewrite K.
        -- apply B in P. now rewrite P.
        -- destruct b; [exfalso; apply P; now apply B|reflexivity].
Qed.

(** ** Columns *)
Lemma Forall2_len : forall (A B : Type) (P : A -> B -> Prop) l m, Forall2 P l m -> length l = length m.
Proof. intros A B P l m H. induction H; cbn; congruence. Qed.

Lemma kept_lengths : forall number emin keys ls d, kept number emin keys ls d ->
  forall xs, In xs d -> length xs = length keys /\ passing emin keys xs.
Proof.
  intros number emin keys ls d H. induction H; intros ys I; [destruct I|now apply IHkept| |now apply IHkept].
  destruct I as [<- | I]; [|now apply IHkept]. destruct H0 as (vs & _ & L & F). split; [|assumption].
  apply Forall2_len in F. congruence.
Qed.

(** The last value given to a name. *)
Definition last_of (l : list (list ascii * R)) (k : list ascii) : option R :=
  fold_left (fun a kv => if str_eqb (fst kv) k then Some (snd kv) else a) l None.

Lemma last_of_app : forall l k v w, last_of (l ++ [(k, v)]) w = if str_eqb k w then Some v else last_of l w.
Proof. intros l k v w. unfold last_of. rewrite fold_left_app. reflexivity. Qed.

Lemma last_of_none : forall l k, last_of l k = None <-> ~ In k (map fst l).
Proof.
  intros l k. induction l as [|[j v] l IH] using rev_ind; [split; [intros _ []|reflexivity]|].
  rewrite last_of_app, map_app, in_app_iff. cbn. destruct (str_eqb j k) eqn:E.
  - apply str_eqb_eq in E. subst j. split; [discriminate|]. intros N. exfalso. apply N. right. now left.
  - rewrite IH. split; [|tauto]. intros N [A | [A | []]]; [tauto|]. apply str_eqb_eq in A. congruence.
Qed.

Lemma last_of_cell : forall l k v, last_of l k = Some v <->
  exists a b, l = a ++ (k, v) :: b /\ ~ In k (map fst b).
Proof.
  intros l k v. induction l as [|[j w] l IH] using rev_ind.
  - split; [discriminate|]. intros (a & b & H & _). destruct a; discriminate.
  - rewrite last_of_app. destruct (str_eqb j k) eqn:E.
    + apply str_eqb_eq in E. subst j. split.
      * intros H. injection H as ->. exists l, []. split; [reflexivity|intros []].
      * intros (a & b & H & N). destruct b as [|x b] using rev_ind.
        -- apply app_inj_tail in H as [_ H]. now injection H as ->.
        -- rewrite app_comm_cons, app_assoc in H. apply app_inj_tail in H as [_ <-]. exfalso. apply N.
           rewrite map_app, in_app_iff. right. now left.
    + rewrite IH. split.
      * intros (a & b & -> & N). exists a, (b ++ [(j, w)]). split; [now rewrite <- app_assoc|].
        rewrite map_app, in_app_iff. intros [A | [A | []]]; [tauto|]. cbn in A. apply str_eqb_eq in A. congruence.
      * intros (a & b & H & N). destruct b as [|x b] using rev_ind.
        -- apply app_inj_tail in H as [_ H]. injection H as -> ->. exfalso.
           assert (str_eqb k k = true) by now apply str_eqb_eq. congruence.
        -- clear IHb. rewrite app_comm_cons, app_assoc in H. apply app_inj_tail in H as [-> _]. exists a, b.
           split; [reflexivity|]. intros I. apply N. rewrite map_app, in_app_iff. now left.
Qed.

Lemma fold_get : forall (A : Type) (get : draft -> A) (w : list ascii) (inj : R -> A),
  (forall f k v, get (column f (k, v)) = if str_eqb k w then inj v else get f) ->
  forall l f, get (fold_left column l f) = match last_of l w with Some v => inj v | None => get f end.
Proof.
  intros A get w inj H l f. induction l as [|[k v] l IH] using rev_ind; [reflexivity|].
  rewrite fold_left_app, last_of_app. cbn [fold_left]. rewrite H, IH. destruct (str_eqb k w); reflexivity.
Qed.

Lemma fold_same : forall (A : Type) (get : draft -> A), (forall f k v, get (column f (k, v)) = get f) ->
  forall l f, get (fold_left column l f) = get f.
Proof.
  intros A get H l f. induction l as [|[k v] l IH] using rev_ind; [reflexivity|].
  rewrite fold_left_app. cbn [fold_left]. now rewrite H.
Qed.

Ltac columns := intros f k v; unfold column;
  repeat match goal with
  | |- context [str_eqb k ?w] =>
      let E := fresh in destruct (str_eqb k w) eqn:E; [apply str_eqb_eq in E; subst k; reflexivity|]
  end; reflexivity.

Lemma column_x0 : forall f k v, t_x (f_initial (column f (k, v))) = if str_eqb k (word "x0") then Some v else t_x (f_initial f).
Proof. columns. Qed.
Lemma column_y0 : forall f k v, t_y (f_initial (column f (k, v))) = if str_eqb k (word "y0") then Some v else t_y (f_initial f).
Proof. columns. Qed.
Lemma column_z0 : forall f k v, t_z (f_initial (column f (k, v))) = if str_eqb k (word "z0") then Some v else t_z (f_initial f).
Proof. columns. Qed.
Lemma column_x : forall f k v, t_x (f_vertex (column f (k, v))) = if str_eqb k (word "x") then Some v else t_x (f_vertex f).
Proof. columns. Qed.
Lemma column_y : forall f k v, t_y (f_vertex (column f (k, v))) = if str_eqb k (word "y") then Some v else t_y (f_vertex f).
Proof. columns. Qed.
Lemma column_z : forall f k v, t_z (f_vertex (column f (k, v))) = if str_eqb k (word "z") then Some v else t_z (f_vertex f).
Proof. columns. Qed.
Lemma column_px : forall f k v, t_x (f_momentum (column f (k, v))) = if str_eqb k (word "px") then Some v else t_x (f_momentum f).
Proof. columns. Qed.
Lemma column_py : forall f k v, t_y (f_momentum (column f (k, v))) = if str_eqb k (word "py") then Some v else t_y (f_momentum f).
Proof. columns. Qed.
Lemma column_pz : forall f k v, t_z (f_momentum (column f (k, v))) = if str_eqb k (word "pz") then Some v else t_z (f_momentum f).
Proof. columns. Qed.
Lemma column_t0 : forall f k v, p_start (f_record (column f (k, v))) = if str_eqb k (word "t0") then v else p_start (f_record f).
Proof. columns. Qed.
Lemma column_E : forall f k v, p_num (f_record (column f (k, v))) Energy =
  if str_eqb k (word "E") then mkslot true (Got v) else p_num (f_record f) Energy.
Proof. columns. Qed.
Lemma column_m : forall f k v, p_num (f_record (column f (k, v))) Mass =
  if str_eqb k (word "m") then mkslot true (Got v) else p_num (f_record f) Mass.
Proof. columns. Qed.
Lemma column_num : forall n, n <> Energy -> n <> Mass -> forall f k v,
  p_num (f_record (column f (k, v))) n = p_num (f_record f) n.
Proof. intros n A B. destruct n; try congruence; columns. Qed.
Lemma column_vec : forall f k v, p_vec (f_record (column f (k, v))) = p_vec (f_record f).
Proof. columns. Qed.
Lemma column_rest : forall f k v,
  (p_id (f_record (column f (k, v))), p_type (f_record (column f (k, v))), p_helicity (f_record (column f (k, v)))) =
  (p_id (f_record f), p_type (f_record f), p_helicity (f_record f)).
Proof. columns. Qed.
Lemma column_param : forall w, ~ In w reserved -> forall f k v,
  f_params (column f (k, v)) w = if str_eqb k w then Some v else f_params f w.
Proof.
  intros w N f k v. unfold column.
  repeat match goal with
  | |- context [if str_eqb k (word ?x) then _ else _] =>
      let E := fresh in destruct (str_eqb k (word x)) eqn:E;
      [apply str_eqb_eq in E; destruct (str_eqb k w) eqn:Q;
       [apply str_eqb_eq in Q; exfalso; apply N; rewrite <- Q, E; unfold reserved; cbn; tauto|reflexivity]|]
  end.
  cbn [f_params]. destruct (str_eqb w k) eqn:A, (str_eqb k w) eqn:B; try reflexivity.
  - apply str_eqb_eq in A. subst. assert (str_eqb k k = true) by now apply str_eqb_eq. congruence.
  - apply str_eqb_eq in B. subst. assert (str_eqb w w = true) by now apply str_eqb_eq. congruence.
Qed.
Lemma column_fixed : forall w, In w reserved -> forall f k v, f_params (column f (k, v)) w = f_params f w.
Proof.
  intros w I f k v. unfold column.
  repeat match goal with
  | |- context [if str_eqb k (word ?x) then _ else _] =>
      let E := fresh "N" in destruct (str_eqb k (word x)) eqn:E; [reflexivity|]
  end.
  cbn [f_params]. destruct (str_eqb w k) eqn:A; [|reflexivity]. apply str_eqb_eq in A. subst w. exfalso.
  unfold reserved in I. cbn [map In] in I.
  repeat (destruct I as [I | I]; [symmetry in I; apply str_eqb_eq in I; unfold name, word in *; congruence|]). exact I.
Qed.

Lemma index_range : forall u n, 0 <= u -> u < 1 -> (0 < n)%nat ->
  (index u n < n)%nat /\ INR (index u n) <= u * INR n < INR (index u n) + 1.
Proof.
  intros u n U0 U1 N. unfold index. assert (0 < INR n) as P by (apply lt_0_INR; assumption).
  assert (0 <= u * INR n < INR n) as [A B] by nra.
  destruct (base_Int_part (u * INR n)) as [C D]. set (z := Int_part (u * INR n)) in *.
  assert (0 <= z)%Z as Z0. { apply le_IZR. assert (-1 < z)%Z; [|apply IZR_le; lia]. apply lt_IZR. lra. }
  assert (IZR z = INR (Z.to_nat z)) as Q by (rewrite INR_IZR_INZ, Z2Nat.id by assumption; reflexivity).
  assert (Z.to_nat z < n)%nat as L by (apply INR_lt; lra).
  rewrite Nat.min_l by lia. split; [assumption|]. lra.
Qed.
