(** Properties C163 and C164: primary particles read from a table. *)
From Coq Require Import Reals ZArith Ascii String List Bool Lra Lia.
From Verif Require Import VectorModel RecordModel RecordProofs GdmlModel GdmlProofs ExtModel ExtSpec ExtProofs.
Import ListNotations.
Open Scope R_scope.

(** ** C163: reading the table *)
Theorem C163_load : forall number emin file d, load number emin file = Some d <->
  exists lines fields, cut "010" file lines /\ cut "," (hd [] lines) fields /\
  Forall2 stripped fields (x_keys d) /\
  together (x_keys d) ["x0"; "y0"; "z0"]%string /\ together (x_keys d) ["x"; "y"; "z"]%string /\
  together (x_keys d) ["px"; "py"; "pz"]%string /\
  kept number emin (x_keys d) (tl lines) (x_data d) /\ x_data d <> [] /\
  (x_initial d = true <-> In (name "x0") (x_keys d)) /\ (x_vertex d = true <-> In (name "x") (x_keys d)) /\
  (x_momentum d = true <-> In (name "px") (x_keys d)) /\ x_emin d = emin.
Proof.
  assert (forall keys k l, together keys (k :: l) -> (every keys (k :: l) = true <-> In (name k) keys)) as T.
  { intros keys k l H. rewrite every_in. split; [intros A; apply A; now left|].
    intros I. destruct H as [H | H]; [assumption|]. exfalso. apply (H k); [now left|assumption]. }
  intros number emin file d. unfold load. split.
  - intros H. exists (pieces newline file), (pieces comma (hd [] (pieces newline file))).
    set (lines := pieces newline file) in *. set (keys := map trim (pieces comma (hd [] lines))) in *.
    destruct (lacking keys ["x0"; "y0"; "z0"]%string) eqn:L1; [discriminate|].
    destruct (lacking keys ["x"; "y"; "z"]%string) eqn:L2; [discriminate|].
    destruct (lacking keys ["px"; "py"; "pz"]%string) eqn:L3; [discriminate|]. cbn [orb] in H.
    apply lacking_not in L1, L2, L3.
    destruct (rows number emin keys (tl lines)) as [[|r rs]|] eqn:E; [discriminate| |discriminate].
    injection H as <-. cbn [x_keys x_data x_initial x_vertex x_momentum x_emin].
    split; [apply pieces_cut|]. split; [apply pieces_cut|]. split; [now apply stripped_all|].
    split; [assumption|]. split; [assumption|]. split; [assumption|]. split; [now apply rows_spec|].
    split; [discriminate|]. split; [exact (T _ _ _ L1)|]. split; [exact (T _ _ _ L2)|].
    split; [exact (T _ _ _ L3)|reflexivity].
  - intros (lines & fields & C & F & K & T1 & T2 & T3 & R & N & I1 & I2 & I3 & M).
    apply cut_pieces in C, F. unfold newline. rewrite C. cbv zeta. unfold comma. rewrite F.
    apply stripped_all in K. rewrite K.
    rewrite (proj2 (lacking_not _ _) T1), (proj2 (lacking_not _ _) T2), (proj2 (lacking_not _ _) T3). cbn [orb].
    apply rows_spec in R. rewrite R. destruct d as [keys data i v p e]. cbn [x_keys x_data x_initial x_vertex x_momentum x_emin] in *.
    destruct data as [|r rs]; [congruence|].
    assert (every keys ["x0"; "y0"; "z0"]%string = i) as -> by (apply eq_true_iff_eq; rewrite I1; now apply T).
    assert (every keys ["x"; "y"; "z"]%string = v) as -> by (apply eq_true_iff_eq; rewrite I2; now apply T).
    assert (every keys ["px"; "py"; "pz"]%string = p) as -> by (apply eq_true_iff_eq; rewrite I3; now apply T).
    now subst e.
Qed.

(** Every line is accounted for: a table with a line that can neither be ignored nor be read as a full row of
    numbers is refused. *)
Theorem C163_strict : forall number emin file lines fields line,
  cut "010" file lines -> cut "," (hd [] lines) fields -> In line (tl lines) -> ~ idle line ->
  (forall keys xs, Forall2 stripped fields keys -> ~ read_as number keys line xs) ->
  load number emin file = None.
Proof.
  intros number emin file lines fields line C F I NI B.
  destruct (load number emin file) as [d|] eqn:L; [|reflexivity]. exfalso.
  apply C163_load in L as (lines' & fields' & C' & F' & K & _ & _ & _ & R & _).
  apply cut_pieces in C, C'. rewrite C in C'. subst lines'. apply cut_pieces in F, F'. rewrite F in F'. subst fields'.
  revert I R. generalize (x_data d). induction (tl lines) as [|l ls IH]; intros data I R; [destruct I|].
  destruct I as [-> | I].
  - inversion R; subst; [contradiction| |]; eapply B; eassumption.
  - inversion R; subst; eapply IH; eassumption.
Qed.

(** A stand-in for [std::stod] that knows three numbers. *)
Definition digit (s : list ascii) : option R :=
  if str_eqb s (word "1") then Some 1 else if str_eqb s (word "2") then Some 2
  else if str_eqb s (word "5") then Some 5 else None.

Definition nl : string := String newline EmptyString.

(** A comment above the header is taken as the header: the rows below are refused. *)
Theorem C163_comment_refuted : exists number emin line file d,
  idle line /\ load number emin file = Some d /\ load number emin (line ++ newline :: file) = None.
Proof.
  exists digit, 0, (word "#a"), (word ("E" ++ nl ++ "5" ++ nl)). eexists. split.
  { right. exists (word "a"). apply stripped_iff. reflexivity. }
  split.
  - cbn -[Rlt_dec]. destruct (Rlt_dec 5 0) as [A|A]; [lra|]. reflexivity.
  - reflexivity.
Qed.

(** ** C164: drawing from it *)
(** A table that was read. *)
Definition loaded (d : external) : Prop := exists number emin file, load number emin file = Some d.

Lemma loaded_rows : forall d, loaded d -> x_data d <> [] /\
  together (x_keys d) ["x0"; "y0"; "z0"]%string /\ together (x_keys d) ["x"; "y"; "z"]%string /\
  together (x_keys d) ["px"; "py"; "pz"]%string /\
  (x_initial d = true <-> In (name "x0") (x_keys d)) /\ (x_vertex d = true <-> In (name "x") (x_keys d)) /\
  (x_momentum d = true <-> In (name "px") (x_keys d)) /\
  (forall xs, In xs (x_data d) -> length xs = length (x_keys d) /\ passing (x_emin d) (x_keys d) xs).
Proof.
  intros d (number & emin & file & L).
  apply C163_load in L as (lines & fields & _ & _ & _ & T1 & T2 & T3 & R & N & I1 & I2 & I3 & M).
  rewrite M. repeat (split; [assumption|]). exact (kept_lengths _ _ _ _ _ R).
Qed.

Lemma fst_combine : forall (A B : Type) (l : list A) (m : list B), length m = length l -> map fst (combine l m) = l.
Proof.
  intros A B l. induction l as [|a l IH]; intros [|b m] L; try discriminate; [reflexivity|]. cbn. f_equal. apply IH.
  cbn in L. lia.
Qed.

Lemma cell_iff : forall keys xs k v, cell keys xs k v <-> last_of (combine keys xs) k = Some v.
Proof. intros keys xs k v. rewrite last_of_cell. reflexivity. Qed.

Lemma absent_iff : forall keys xs k, length xs = length keys ->
  (~ In k keys <-> last_of (combine keys xs) k = None).
Proof. intros keys xs k L. rewrite last_of_none, fst_combine by assumption. reflexivity. Qed.

Lemma present : forall keys xs k, length xs = length keys -> In k keys -> exists v, last_of (combine keys xs) k = Some v.
Proof.
  intros keys xs k L I. destruct (last_of (combine keys xs) k) as [v|] eqn:E; [now exists v|].
  exfalso. apply (proj2 (absent_iff keys xs k L)) in E. contradiction.
Qed.

(** The record drawn: a row, chosen by the number, is copied to it. *)
Theorem C164_record : forall d u r params, loaded d -> 0 <= u -> u < 1 ->
  exists i xs r' params', nth_error (x_data d) i = Some xs /\
  INR i <= u * INR (physical_events d) < INR i + 1 /\
  sample d u r params = Some (r', params') /\
  takes (x_keys d) xs "E" (fun v => mkslot true (Got v)) (p_num r Energy) (p_num r' Energy) /\
  takes (x_keys d) xs "m" (fun v => mkslot true (Got v)) (p_num r Mass) (p_num r' Mass) /\
  takes (x_keys d) xs "t0" (fun v => v) (p_start r) (p_start r') /\
  (forall v, cells (x_keys d) xs "px" "py" "pz" v -> p_vec r' Momentum = mkslot true (Got v)) /\
  (~ In (name "px") (x_keys d) -> p_vec r' Momentum = p_vec r Momentum) /\
  (forall v, cells (x_keys d) xs "x" "y" "z" v -> p_vec r' Vertex = mkslot true (Got v)) /\
  (~ In (name "x") (x_keys d) -> p_vec r' Vertex = p_vec r Vertex) /\
  (forall v, cells (x_keys d) xs "x0" "y0" "z0" v -> p_vec r' Initial = mkslot true (Got v)) /\
  (forall v, ~ In (name "x0") (x_keys d) -> cells (x_keys d) xs "x" "y" "z" v ->
     p_vec r' Initial = mkslot true (Got v)) /\
  (~ In (name "x0") (x_keys d) -> ~ In (name "x") (x_keys d) -> p_vec r' Initial = p_vec r Initial) /\
  p_vec r' Direction = p_vec r Direction /\ p_vec r' Closest = p_vec r Closest /\
  (forall n, n <> Energy -> n <> Mass -> p_num r' n = p_num r n) /\
  p_id r' = p_id r /\ p_type r' = p_type r /\ p_helicity r' = p_helicity r /\
  (forall k v, ~ In k reserved -> cell (x_keys d) xs k v -> params' k = Some v) /\
  (forall k, In k reserved \/ ~ In k (x_keys d) -> params' k = params k).
Proof.
  intros d u r params W U0 U1. destruct (loaded_rows d W) as (N & T1 & T2 & T3 & I1 & I2 & I3 & R).
  assert (0 < length (x_data d))%nat as P by (destruct (x_data d); [congruence|cbn; lia]).
  destruct (index_range u _ U0 U1 P) as [IL IR].
  destruct (nth_error (x_data d) (index u (length (x_data d)))) as [xs|] eqn:E;
    [|apply nth_error_None in E; lia].
  destruct (R xs (nth_error_In _ _ E)) as [L _].
  set (l := combine (x_keys d) xs).
  set (f0 := mkdraft unwritten unwritten unwritten r params).
  pose proof (fold_get _ (fun f => t_x (f_initial f)) _ Some column_x0 l f0) as Ax0.
  pose proof (fold_get _ (fun f => t_y (f_initial f)) _ Some column_y0 l f0) as Ay0.
  pose proof (fold_get _ (fun f => t_z (f_initial f)) _ Some column_z0 l f0) as Az0.
  pose proof (fold_get _ (fun f => t_x (f_vertex f)) _ Some column_x l f0) as Ax.
  pose proof (fold_get _ (fun f => t_y (f_vertex f)) _ Some column_y l f0) as Ay.
  pose proof (fold_get _ (fun f => t_z (f_vertex f)) _ Some column_z l f0) as Az.
  pose proof (fold_get _ (fun f => t_x (f_momentum f)) _ Some column_px l f0) as Apx.
  pose proof (fold_get _ (fun f => t_y (f_momentum f)) _ Some column_py l f0) as Apy.
  pose proof (fold_get _ (fun f => t_z (f_momentum f)) _ Some column_pz l f0) as Apz.
  pose proof (fold_get _ (fun f => p_start (f_record f)) _ (fun v => v) column_t0 l f0) as At0.
  pose proof (fold_get _ (fun f => p_num (f_record f) Energy) _ (fun v => mkslot true (Got v)) column_E l f0) as AE.
  pose proof (fold_get _ (fun f => p_num (f_record f) Mass) _ (fun v => mkslot true (Got v)) column_m l f0) as Am.
  pose proof (fun n A B => fold_same _ (fun f => p_num (f_record f) n) (column_num n A B) l f0) as An.
  pose proof (fold_same _ (fun f => p_vec (f_record f)) column_vec l f0) as Av.
  pose proof (fold_same _ _ column_rest l f0) as Ar.
  pose proof (fun w A => fold_get _ (fun f => f_params f w) w Some (column_param w A) l f0) as Ap.
  pose proof (fun w A => fold_same _ (fun f => f_params f w) (column_fixed w A) l f0) as Aq.
  cbn beta in *. remember (fold_left column l f0) as f eqn:FE. cbn [f0 f_initial f_vertex f_momentum f_record f_params unwritten t_x t_y t_z] in *.
  injection Ar as Ar1 Ar2 Ar3.
  (* the three vectors *)
  assert (forall t kx ky kz,
    together (x_keys d) [kx; ky; kz] ->
    t_x t = match last_of l (word kx) with Some v => Some v | None => None end ->
    t_y t = match last_of l (word ky) with Some v => Some v | None => None end ->
    t_z t = match last_of l (word kz) with Some v => Some v | None => None end ->
    (In (name kx) (x_keys d) -> exists v, whole t = Some v) /\
    (forall v, cells (x_keys d) xs kx ky kz v -> In (name kx) (x_keys d) /\ whole t = Some v)) as V.
  { intros t kx ky kz T X Y Z. split.
    - intros I. destruct T as [T | T]; [|exfalso; apply (T kx); [now left|assumption]].
      destruct (present (x_keys d) xs (name kx) L (T kx ltac:(cbn; tauto))) as [a A].
      destruct (present (x_keys d) xs (name ky) L (T ky ltac:(cbn; tauto))) as [b B].
      destruct (present (x_keys d) xs (name kz) L (T kz ltac:(cbn; tauto))) as [c C].
      unfold whole. rewrite X, Y, Z. unfold l, word in *. unfold name in *. rewrite A, B, C. eexists. reflexivity.
    - intros v (A & B & C). split.
      + destruct A as (a & b & A & _).
        rewrite <- (fst_combine _ _ (x_keys d) xs L), A, map_app. apply in_or_app. right. now left.
      + apply cell_iff in A, B, C. unfold whole. rewrite X, Y, Z. unfold l, word in *. unfold name in *. rewrite A, B, C.
        destruct v; reflexivity. }
  destruct (V _ _ _ _ T1 Ax0 Ay0 Az0) as [V1 W1]. destruct (V _ _ _ _ T2 Ax Ay Az) as [V2 W2].
  destruct (V _ _ _ _ T3 Apx Apy Apz) as [V3 W3]. clear V Ax0 Ay0 Az0 Ax Ay Az Apx Apy Apz.
  (* the record *)
  assert (exists r', sample d u r params = Some (r', f_params f) /\
    p_num r' = p_num (f_record f) /\ p_start r' = p_start (f_record f) /\
    p_id r' = p_id r /\ p_type r' = p_type r /\ p_helicity r' = p_helicity r /\
    p_vec r' Direction = p_vec r Direction /\ p_vec r' Closest = p_vec r Closest /\
    (forall v, x_momentum d = true -> whole (f_momentum f) = Some v -> p_vec r' Momentum = mkslot true (Got v)) /\
    (x_momentum d = false -> p_vec r' Momentum = p_vec r Momentum) /\
    (forall v, x_vertex d = true -> whole (f_vertex f) = Some v -> p_vec r' Vertex = mkslot true (Got v)) /\
    (x_vertex d = false -> p_vec r' Vertex = p_vec r Vertex) /\
    (forall v, x_initial d = true -> whole (f_initial f) = Some v -> p_vec r' Initial = mkslot true (Got v)) /\
    (forall v, x_initial d = false -> x_vertex d = true -> whole (f_vertex f) = Some v ->
       p_vec r' Initial = mkslot true (Got v)) /\
    (x_initial d = false -> x_vertex d = false -> p_vec r' Initial = p_vec r Initial)) as (r' & Q & Q1 & Q2 & Q3 & Q4 & Q5 & Q6 & Q7 & Q8 & Q9 & Q10 & Q11 & Q12 & Q13 & Q14).
  { unfold sample. rewrite E. assert (Nat.ltb (length xs) (length (x_keys d)) = false) as -> by (apply Nat.ltb_ge; lia).
    cbv zeta. fold l. fold f0. rewrite <- FE. unfold set_whole.
    destruct (x_momentum d) eqn:M1; [destruct (V3 (proj1 I3 eq_refl)) as [pv ->]|];
    (destruct (x_initial d) eqn:M2; [destruct (V1 (proj1 I1 eq_refl)) as [iv ->]|]);
    (destruct (x_vertex d) eqn:M3; [destruct (V2 (proj1 I2 eq_refl)) as [xv ->]|]);
    cbn [negb]; eexists; (split; [reflexivity|]);
    cbn [set_vec put_vec p_id p_type p_num p_vec p_helicity p_start place_eqb]; rewrite ?Av;
    repeat (split; [intros; congruence|]); intros; congruence. }
  assert (forall b P, (b = true <-> P) -> ~ P -> b = false) as NB by (intros [] Pr H A; tauto || reflexivity).
  exists (index u (length (x_data d))), xs, r', (f_params f).
  split; [exact E|]. split; [exact IR|]. split; [exact Q|].
  split; [split; [intros v C; apply cell_iff in C; rewrite Q1, AE; unfold l, word; unfold name in C; now rewrite C|
                  intros A; apply (absent_iff _ xs _ L) in A; rewrite Q1, AE; unfold l, word; unfold name in A; now rewrite A]|].
  split; [split; [intros v C; apply cell_iff in C; rewrite Q1, Am; unfold l, word; unfold name in C; now rewrite C|
                  intros A; apply (absent_iff _ xs _ L) in A; rewrite Q1, Am; unfold l, word; unfold name in A; now rewrite A]|].
  split; [split; [intros v C; apply cell_iff in C; rewrite Q2, At0; unfold l, word; unfold name in C; now rewrite C|
                  intros A; apply (absent_iff _ xs _ L) in A; rewrite Q2, At0; unfold l, word; unfold name in A; now rewrite A]|].
  split; [intros v C; destruct (W3 v C) as [A B]; apply Q8; [now apply I3|assumption]|].
  split; [intros A; apply Q9; now apply (NB _ _ I3)|].
  split; [intros v C; destruct (W2 v C) as [A B]; apply Q10; [now apply I2|assumption]|].
  split; [intros A; apply Q11; now apply (NB _ _ I2)|].
  split; [intros v C; destruct (W1 v C) as [A B]; apply Q12; [now apply I1|assumption]|].
  split; [intros v A C; destruct (W2 v C) as [A' B]; apply Q13; [now apply (NB _ _ I1)|now apply I2|assumption]|].
  split; [intros A B; apply Q14; [now apply (NB _ _ I1)|now apply (NB _ _ I2)]|].
  split; [exact Q6|]. split; [exact Q7|]. split; [intros n A B; rewrite Q1; now apply An|].
  split; [exact Q3|]. split; [exact Q4|]. split; [exact Q5|]. split.
  - intros k v A C. apply cell_iff in C. rewrite (Ap k A). unfold l. now rewrite C.
  - intros k [A | A]; [now apply Aq|].
    destruct (in_dec (list_eq_dec ascii_dec) k reserved) as [B|B]; [now apply Aq|].
    apply (absent_iff _ xs _ L) in A. rewrite (Ap k B). unfold l. now rewrite A.
Qed.

(** Every row is drawn by the same share of the numbers. *)
Theorem C164_share : forall d i u, loaded d -> (i < physical_events d)%nat -> 0 <= u -> u < 1 ->
  (index u (physical_events d) = i <->
   INR i / INR (physical_events d) <= u < (INR i + 1) / INR (physical_events d)).
Proof.
  intros d i u W I U0 U1. unfold physical_events in *. set (n := length (x_data d)) in *.
  assert (0 < n)%nat as N by lia. assert (0 < INR n) as P by now apply lt_0_INR.
  destruct (index_range u n U0 U1 N) as [A B]. set (j := index u n) in *.
  assert ((INR i / INR n <= u < (INR i + 1) / INR n) <-> (INR i <= u * INR n < INR i + 1)) as ->.
  { split; intros [X Y]; split.
    - apply (Rmult_le_compat_r (INR n)) in X; [|lra]. replace (INR i / INR n * INR n) with (INR i) in X by (field; lra). exact X.
    - apply (Rmult_lt_compat_r (INR n)) in Y; [|lra]. replace ((INR i + 1) / INR n * INR n) with (INR i + 1) in Y by (field; lra). exact Y.
    - apply (Rmult_le_reg_r (INR n)); [lra|]. replace (INR i / INR n * INR n) with (INR i) by (field; lra). exact X.
    - apply (Rmult_lt_reg_r (INR n)); [lra|]. replace ((INR i + 1) / INR n * INR n) with (INR i + 1) by (field; lra). exact Y. }
  split; [intros <-; exact B|]. intros C.
  assert (INR j < INR (S i)) as X by (rewrite S_INR; lra). assert (INR i < INR (S j)) as Y by (rewrite S_INR; lra).
  apply INR_lt in X, Y. lia.
Qed.

(** With an energy column the probability of a drawn record is one. *)
Theorem C164_probability : forall d u r params r' params' e, loaded d -> 0 <= u -> u < 1 ->
  In (name "E") (x_keys d) -> sample d u r params = Some (r', params') ->
  snd (get_num r' Energy) = Got e -> generation d e = 1.
Proof.
  intros d u r params r' params' e W U0 U1 I S G.
  destruct (C164_record d u r params W U0 U1) as (i & xs & r2 & p2 & X & _ & S' & TE & _).
  rewrite S in S'. injection S' as <- <-.
  destruct (loaded_rows d W) as (_ & _ & _ & _ & _ & _ & _ & R).
  destruct (R xs (nth_error_In _ _ X)) as [L P].
  destruct (present (x_keys d) xs (name "E") L I) as [v V].
  assert (cell (x_keys d) xs (name "E") v) as C by now apply cell_iff.
  pose proof (proj1 TE v C) as H.
  assert (e = v) as ->.
  { unfold get_num, update_num, answer, store in G. rewrite H in G. cbn in G. unfold num in G. rewrite H in G. cbn in G. now injection G. }
  unfold generation. destruct (Rle_dec (x_emin d) v) as [_|N]; [reflexivity|]. exfalso. apply N.
  destruct C as (a & b & C & _).
  apply (P (length a)).
  - assert (nth_error (map fst (combine (x_keys d) xs)) (length a) = Some (name "E")) as K
      by (rewrite C, map_app, nth_error_app2, map_length, Nat.sub_diag by (rewrite map_length; lia); reflexivity).
    now rewrite (fst_combine _ _ (x_keys d) xs L) in K.
  - assert (nth_error (map snd (combine (x_keys d) xs)) (length a) = Some v) as K
      by (rewrite C, map_app, nth_error_app2, map_length, Nat.sub_diag by (rewrite map_length; lia); reflexivity).
    assert (map snd (combine (x_keys d) xs) = xs) as SC.
    { clear - L. revert xs L. induction (x_keys d); intros [|x xs] L; try discriminate; [reflexivity|]. cbn. f_equal. apply IHl. cbn in L; lia. }
    now rewrite SC in K.
Qed.

(** Without an energy column the threshold is not applied to the rows, and a record drawn may have probability zero. *)
Theorem C164_threshold_refuted : exists d u r params r' params' e, loaded d /\ 0 <= u < 1 /\
  sample d u r params = Some (r', params') /\ snd (get_num r' Energy) = Got e /\ generation d e = 0.
Proof.
  exists (mkexternal (map word ["m"; "px"; "py"; "pz"]%string) [[0; 0; 0; 1]] false false true 2), 0, (fresh 1 14), (fun _ => None).
  assert (loaded (mkexternal (map word ["m"; "px"; "py"; "pz"]%string) [[0; 0; 0; 1]] false false true 2)) as L.
  { exists (fun s => if str_eqb s (word "0") then Some 0 else digit s), 2, (word ("m,px,py,pz" ++ nl ++ "0,0,0,1")).
    cbn -[Rlt_dec]. reflexivity. }
  do 2 eexists. exists 1. split; [exact L|]. split; [lra|]. split.
  { unfold sample, index. cbn [x_data length]. rewrite Rmult_0_l.
    assert (Int_part 0 = 0%Z) as ->.
    { destruct (base_Int_part 0) as [A B]. assert (IZR (Int_part 0) < 1 /\ -1 < IZR (Int_part 0)) as [C D] by lra.
      apply lt_IZR in C. apply (lt_IZR (-1)) in D. lia. }
    cbn. reflexivity. }
  split.
  { rewrite get_num_val. cbn. unfold root. destruct (Rlt_dec _ 0) as [A|A]; [lra|].
    f_equal. replace (0 * 0 + 0 * 0 + 0 * 0 + 1 * 1) with 1 by ring. apply sqrt_1. }
  unfold generation. cbn [x_emin]. destruct (Rle_dec 2 1) as [A|A]; [lra|reflexivity].
Qed.

(** A table of two events, one of them below the threshold, with a name of its own. *)
Example C163_case : load digit 2
  (word ("E, x ,y,z,weight" ++ nl ++ "# comment" ++ nl ++ "5,1,2,5,1" ++ nl ++ "  " ++ nl ++ "1,1,1,1,1" ++ nl ++ "2,2,2,2,2,"))
  = Some (mkexternal (map word ["E"; "x"; "y"; "z"; "weight"]%string) [[5; 1; 2; 5; 1]; [2; 2; 2; 2; 2]]
            false true false 2).
Proof.
  cbn -[Rlt_dec]. destruct (Rlt_dec 5 2); [lra|]. destruct (Rlt_dec 1 2); [|lra]. destruct (Rlt_dec 2 2); [lra|]. reflexivity.
Qed.

(** It is drawn from. *)
Example C164_case : exists r' params', sample
  (mkexternal (map word ["E"; "x"; "y"; "z"; "weight"]%string) [[5; 1; 2; 5; 1]; [2; 2; 2; 2; 2]] false true false 2)
  (1 / 4) (fresh 1 14) (fun _ => None) = Some (r', params') /\
  p_num r' Energy = mkslot true (Got 5) /\ p_vec r' Vertex = mkslot true (Got (mkv 1 2 5)) /\
  p_vec r' Initial = mkslot true (Got (mkv 1 2 5)) /\ params' (word "weight") = Some 1.
Proof.
  do 2 eexists. split.
  { unfold sample, index. cbn [x_data length].
    assert (Int_part (1 / 4 * INR 2) = 0%Z) as ->.
    { destruct (base_Int_part (1 / 4 * INR 2)) as [A B]. set (z := Int_part _) in *. cbn [INR] in A, B.
      assert (IZR z < 1 /\ -1 < IZR z) as [C D] by lra. apply lt_IZR in C. apply (lt_IZR (-1)) in D. lia. }
    cbn. reflexivity. }
  repeat split.
Qed.

Print Assumptions C163_load.
Print Assumptions C163_strict.
Print Assumptions C163_comment_refuted.
Print Assumptions C164_record.
Print Assumptions C164_share.
Print Assumptions C164_probability.
Print Assumptions C164_threshold_refuted.
