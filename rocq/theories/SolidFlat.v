(** The lists of crossings of solids with flat faces. *)
From Coq Require Import Reals Lra Lia List Bool Permutation Sorted Arith.
From Verif Require Import VectorModel GeometryModel GeometrySpec SolidModel SolidSpec SolidProofs SolidShapes SolidRound.
Import ListNotations.
Open Scope R_scope.

(** A half space along a line: [fst f * t + snd f <= 0]. *)
Definition at_ (f : R * R) (t : R) : R := fst f * t + snd f.
Definition within (fs : list (R * R)) (t : R) : Prop := forall f, In f fs -> at_ f t <= 0.
Definition zero_of (f : R * R) : R := - snd f / fst f.
Lemma zero_at f t : fst f <> 0 -> (at_ f t = 0 <-> t = zero_of f).
Proof.
  intros N. unfold at_, zero_of. split; intros E; [apply Rmult_eq_reg_l with (fst f); auto; field_simplify; auto; lra|]. subst t. field. auto.
Qed.

Lemma within_cons f fs t : within (f :: fs) t <-> at_ f t <= 0 /\ within fs t.
Proof. unfold within. cbn. split; [intros H; split; auto|]. intros [H K] g [<-|G]; auto. Qed.
Lemma line_steady f t : at_ f t < 0 \/ (fst f = 0 /\ at_ f t <= 0) -> steady (fun u => at_ f u <= 0) t true.
Proof.
  intros [H|[H K]].
  - destruct f as [a b]. unfold at_ in *. cbn in *. exists (- (a * t + b) / (Rabs a + 1)). pose proof (Rabs_pos a) as A0.
    assert (Q : 0 < - (a * t + b) / (Rabs a + 1)) by (apply Rdiv_lt_0_compat; lra). split; auto. intros u U. split; auto. intros _.
    assert (E : - (a * t + b) / (Rabs a + 1) * (Rabs a + 1) = - (a * t + b)) by (field; lra). set (e := _ / _) in *.
    assert (a * (u - t) <= Rabs a * e).
    { apply Rle_trans with (Rabs (a * (u - t))); [apply RRle_abs|]. rewrite Rabs_mult. apply Rmult_le_compat_l; auto. unfold Rabs. destruct (Rcase_abs _); lra. }
    nra.
  - exists 1. split; [lra|]. intros u _. split; auto. intros _. unfold at_ in *. rewrite H in *. lra.
Qed.
Lemma within_steady fs t : (forall f, In f fs -> at_ f t < 0 \/ (fst f = 0 /\ at_ f t <= 0)) -> steady (within fs) t true.
Proof.
  induction fs as [|f fs IH]; intros H.
  - exists 1. split; [lra|]. intros u _. split; auto. intros _ g [].
  - eapply steady_ext; [intros u; symmetry; apply within_cons|]. change true with (true && true). apply steady_and; [apply line_steady; apply H; left; auto|].
    apply IH. intros g G. apply H. right. auto.
Qed.
Lemma without_steady fs t : ~ within fs t -> steady (within fs) t false.
Proof.
  intros H. assert (exists f, In f fs /\ 0 < at_ f t) as (f & F & L).
  { apply Classical_Prop.NNPP. intros N. apply H. intros f F. destruct (Rle_lt_dec (at_ f t) 0); auto. elim N. exists f. auto. }
  assert (S : steady (fun u => at_ (- fst f, - snd f) u <= - 0 /\ 0 < at_ f u) t true).
  { assert (S : steady (fun u => at_ (- fst f, - snd f) u <= 0) t true) by (apply line_steady; left; unfold at_ in *; cbn; lra).
    destruct f as [a b]. unfold at_ in *. cbn in *. exists ((a * t + b) / (Rabs a + 1) / 2). pose proof (Rabs_pos a) as A0.
    assert (Q : 0 < (a * t + b) / (Rabs a + 1)) by (apply Rdiv_lt_0_compat; lra). split; [lra|]. intros u U. split; auto. intros _.
    assert (E : (a * t + b) / (Rabs a + 1) * (Rabs a + 1) = (a * t + b)) by (field; lra). set (e := _ / (Rabs a + 1)) in *.
    assert (- (a * (u - t)) <= Rabs a * e).
    { apply Rle_trans with (Rabs (- (a * (u - t)))); [apply RRle_abs|]. rewrite Rabs_Ropp, Rabs_mult. apply Rmult_le_compat_l; auto. unfold Rabs. destruct (Rcase_abs _); lra. }
    split; nra. }
  destruct S as (e & E & S). exists e. split; auto. intros u U. split; [|discriminate]. intros W. specialize (W f F). destruct (proj2 (S u U) eq_refl). lra.
Qed.

(** No point of the solid on two faces. *)
Definition edgeless (W : R -> Prop) (fs : list (R * R)) : Prop := ForallOrdPairs (fun f g => forall t, W t -> at_ f t = 0 -> at_ g t = 0 -> False) fs.

Lemma edgeless_split W l1 f l2 : edgeless W (l1 ++ f :: l2) -> forall g t, In g (l1 ++ l2) -> W t -> at_ f t = 0 -> at_ g t = 0 -> False.
Proof.
  induction l1 as [|x l1 IH]; cbn; intros E; inversion E as [|? ? F G]; subst; rewrite Forall_forall in F.
  - intros g t H X Y Z. apply (F g H t); auto.
  - intros g t [<-|H] X Y Z; [|apply (IH G g t); auto]. apply (F f (in_elt f l1 l2) t); auto.
Qed.
Lemma within_perm l1 f l2 t : within (l1 ++ f :: l2) t <-> at_ f t <= 0 /\ within (l1 ++ l2) t.
Proof.
  unfold within. split.
  - intros H. split; [apply H; apply in_elt|]. intros g G. apply H. apply in_app_iff in G as [G|G]; apply in_app_iff; [auto|right; right; auto].
  - intros [H K] g G. apply in_app_iff in G as [G|[<-|G]]; auto; apply K; apply in_app_iff; auto.
Qed.
Lemma face_crosses fs f h : edgeless (within fs) fs -> In f fs -> fst f <> 0 -> within fs (h_distance h) -> at_ f (h_distance h) = 0 ->
  h_entering h = (if Rlt_dec (fst f) 0 then true else false) -> crosses (within fs) h.
Proof.
  intros E F N W Z B. apply in_split in F as (l1 & l2 & ->).
  assert (O : steady (within (l1 ++ l2)) (h_distance h) true).
  { apply within_steady. intros g G. left. destruct (proj1 (within_perm l1 f l2 _) W) as [_ W']. specialize (W' g G). destruct W'; auto.
    elim (edgeless_split _ _ _ _ E g (h_distance h)); auto. }
  assert (S : sides (fun u => at_ f u <= 0) (h_distance h) (negb (h_entering h)) (h_entering h)).
  { rewrite B. destruct f as [a b]. unfold at_ in *. cbn in *. exists 1. split; [lra|]. destruct (Rlt_dec a 0) as [L|L]; cbn; split; intros u U; split; intros; try discriminate; try reflexivity; nra. }
  pose proof (sides_and _ _ _ _ _ _ _ S (steady_sides _ _ _ O)) as R. rewrite !andb_true_r in R. destruct R as (e & X & R1 & R2). exists e. split; auto. split; intros u U.
  - rewrite (within_perm l1 f l2), R1 by auto. destruct (h_entering h); cbn; intuition congruence.
  - rewrite (within_perm l1 f l2), R2 by auto. tauto.
Qed.

Lemma flat_traces fs l m : edgeless (within fs) fs -> strict l -> (forall t, m < Rabs t -> ~ within fs t) ->
  (forall h, In h l -> exists f, In f fs /\ fst f <> 0 /\ within fs (h_distance h) /\ h_distance h = zero_of f /\ h_entering h = (if Rlt_dec (fst f) 0 then true else false)) ->
  (forall f, In f fs -> fst f <> 0 -> within fs (zero_of f) -> exists h, In h l /\ h_distance h = zero_of f) -> traces (within fs) l.
Proof.
  intros E S M H K. apply (toggles _ l m); auto.
  - intros h I. destruct (H h I) as (f & F & N & W & Z & B). apply (face_crosses fs f); auto. apply zero_at; auto.
  - intros t N. destruct (Classical_Prop.classic (within fs t)) as [W|W]; [|exists false; apply without_steady; auto].
    exists true. apply within_steady. intros f F. destruct (Req_EM_T (fst f) 0) as [Z|Z]; [right; auto|left]. destruct (W f F) as [L|L]; auto.
    apply zero_at in L; auto. subst t. destruct (K f F Z W) as (h & I & D). elim (N h I D).
Qed.

(** One list for every face. *)
Definition face_list (p d : vec) (W : R -> Prop) (f : R * R) (l : list hit) : Prop :=
  (fst f = 0 /\ l = []) \/ (fst f <> 0 /\ piece l (W (zero_of f)) (hit_at p d (zero_of f) (if Rlt_dec (fst f) 0 then true else false))).
Lemma faces_in p d W fs ls : Forall2 (face_list p d W) fs ls -> forall h, In h (concat ls) <->
  exists f, In f fs /\ fst f <> 0 /\ W (zero_of f) /\ h = hit_at p d (zero_of f) (if Rlt_dec (fst f) 0 then true else false).
Proof.
  induction 1 as [|f l fs ls F H IH]; intros h; cbn; [split; [intros []|intros (? & [] & _)]|]. rewrite in_app_iff, IH. split.
  - intros [X|(g & G & X)]; [|exists g; tauto]. exists f. destruct F as [[_ ->]|[N [[c ->]|[_ ->]]]]; cbn in X; try contradiction. destruct X as [<-|[]]. auto.
  - intros (g & [<-|G] & N & X & ->); [|right; exists g; auto]. left. destruct F as [[Z _]|[_ [[c ->]|[c _]]]]; [contradiction|left; auto|contradiction].
Qed.
Lemma faces_nodup p d W fs ls : Forall2 (face_list p d W) fs ls -> edgeless W fs -> NoDup (map h_distance (concat ls)).
Proof.
  induction 1 as [|f l fs ls F H IH]; intros E; cbn; [constructor|]. inversion E as [|? ? F' E']; subst. rewrite Forall_forall in F'. rewrite map_app.
  apply nodup_app; [|apply IH; auto|].
  - destruct F as [[_ ->]|[_ [[_ ->]|[_ ->]]]]; cbn; repeat constructor; auto.
  - intros x X Y. apply in_map_iff in X as (h & <- & X). apply in_map_iff in Y as (k & D & Y). apply (faces_in p d W fs ls H) in Y as (g & G & N & Wg & ->).
    destruct F as [[_ ->]|[N' [[c ->]|[_ ->]]]]; cbn in X; try contradiction. destruct X as [<-|[]]. cbn in D.
    apply (F' g G (zero_of f)); auto; apply zero_at; auto.
Qed.

(** ** Trapezoids *)
Section Trd.
Context (x1 x2 y1 y2 h : R) (p d : vec) (Hx1 : 0 <= x1) (Hx2 : 0 <= x2) (Hy1 : 0 <= y1) (Hy2 : 0 <= y2) (Hh : 0 < h) (Hd : d <> mkv 0 0 0)
        (K : clear_trd x1 x2 y1 y2 h p d).
Let fs := [(vz d, vz p - h); (- vz d, - vz p - h);
  (vx d - (x2 - x1) * vz d / (2 * h), vx p - width x1 x2 h p); (- vx d - (x2 - x1) * vz d / (2 * h), - vx p - width x1 x2 h p);
  (vy d - (y2 - y1) * vz d / (2 * h), vy p - width y1 y2 h p); (- vy d - (y2 - y1) * vz d / (2 * h), - vy p - width y1 y2 h p)].

Lemma trd_face i t : (i < 6)%nat -> at_ (nth i fs (0, 1)) t = nth i (trd_faces x1 x2 y1 y2 h) (fun _ => 1) (on_line p d t).
Proof.
  intros L. do 6 (destruct i as [|i]; [unfold at_, fs, trd_faces, width; cbn; field; lra|]). lia.
Qed.
Lemma width_pos w1 w2 q : 0 <= w1 -> 0 <= w2 -> Rabs (vz q) <= h -> 0 <= width w1 w2 h q <= Rmax w1 w2.
Proof.
  intros A B C. apply abs_le in C. unfold width. set (l := (vz q + h) / (2 * h)). assert (0 <= l <= 1).
  { unfold l. split; [apply Rmult_le_pos; [lra|apply Rlt_le, Rinv_0_lt_compat; lra]|]. apply Rmult_le_reg_r with (2 * h); [lra|]. field_simplify; lra. }
  pose proof (Rmax_l w1 w2). pose proof (Rmax_r w1 w2). set (m := Rmax w1 w2) in *. split; nra.
Qed.
Lemma trd_within t : within fs t <-> in_trd x1 x2 y1 y2 h (on_line p d t).
Proof.
  unfold in_trd. rewrite !abs_le. unfold within. split.
  - intros H. pose proof (fun i L => H (nth i fs (0, 1)) (nth_In fs (0, 1) L)) as G.
    assert (F : forall i, (i < 6)%nat -> nth i (trd_faces x1 x2 y1 y2 h) (fun _ => 1) (on_line p d t) <= 0) by (intros i L; rewrite <- trd_face by auto; apply G; exact L).
    pose proof (F 0%nat ltac:(lia)) as F0. pose proof (F 1%nat ltac:(lia)) as F1. pose proof (F 2%nat ltac:(lia)) as F2.
    pose proof (F 3%nat ltac:(lia)) as F3. pose proof (F 4%nat ltac:(lia)) as F4. pose proof (F 5%nat ltac:(lia)) as F5. cbn [nth trd_faces] in *. lra.
  - intros H f I. apply (In_nth fs f (0, 1)) in I as (i & L & <-). cbn in L. rewrite trd_face by auto.
    do 6 (destruct i as [|i]; [cbn [nth trd_faces]; lra|]). lia.
Qed.
Lemma trd_edgeless : edgeless (within fs) fs.
Proof.
  assert (E : forall i j t, (i < 6)%nat -> (j < 6)%nat -> i <> j -> within fs t -> at_ (nth i fs (0, 1)) t = 0 -> at_ (nth j fs (0, 1)) t = 0 -> False).
  { intros i j t I J N W X Y. apply N. apply (ck_edges _ _ _ _ _ _ _ K t); [apply trd_within; auto| |]; rewrite <- trd_face by auto; auto. }
  unfold edgeless. assert (G : forall i j, (i < 6)%nat -> (j < 6)%nat -> i <> j -> forall t, within fs t -> at_ (nth i fs (0, 1)) t = 0 -> at_ (nth j fs (0, 1)) t = 0 -> False) by (intros; eapply E; eauto).
  clear E. revert G. generalize (within fs). intros W G. unfold fs in *.
  repeat constructor.
  - exact (G 0%nat 1%nat ltac:(lia) ltac:(lia) ltac:(lia)).
  - exact (G 0%nat 2%nat ltac:(lia) ltac:(lia) ltac:(lia)).
  - exact (G 0%nat 3%nat ltac:(lia) ltac:(lia) ltac:(lia)).
  - exact (G 0%nat 4%nat ltac:(lia) ltac:(lia) ltac:(lia)).
  - exact (G 0%nat 5%nat ltac:(lia) ltac:(lia) ltac:(lia)).
  - exact (G 1%nat 2%nat ltac:(lia) ltac:(lia) ltac:(lia)).
  - exact (G 1%nat 3%nat ltac:(lia) ltac:(lia) ltac:(lia)).
  - exact (G 1%nat 4%nat ltac:(lia) ltac:(lia) ltac:(lia)).
  - exact (G 1%nat 5%nat ltac:(lia) ltac:(lia) ltac:(lia)).
  - exact (G 2%nat 3%nat ltac:(lia) ltac:(lia) ltac:(lia)).
  - exact (G 2%nat 4%nat ltac:(lia) ltac:(lia) ltac:(lia)).
  - exact (G 2%nat 5%nat ltac:(lia) ltac:(lia) ltac:(lia)).
  - exact (G 3%nat 4%nat ltac:(lia) ltac:(lia) ltac:(lia)).
  - exact (G 3%nat 5%nat ltac:(lia) ltac:(lia) ltac:(lia)).
  - exact (G 4%nat 5%nat ltac:(lia) ltac:(lia) ltac:(lia)).
Qed.
Lemma trd_ahead i t : (i < 6)%nat -> at_ (nth i fs (0, 1)) t = 0 -> ~ 0 < t < precision.
Proof. intros L Z. apply (ck_ahead _ _ _ _ _ _ _ K t i). rewrite <- trd_face; auto. Qed.
Lemma trd_far : exists m, forall t, m < Rabs t -> ~ within fs t.
Proof.
  destruct (vec_nonzero d Hd) as [N|[N|N]].
  - destruct (slab_far (vx p) (vx d) (- Rmax x1 x2) (Rmax x1 x2) N) as [m M]. exists m. intros t T W. apply trd_within in W as (A & B & _). apply (M t T).
    pose proof (width_pos x1 x2 _ Hx1 Hx2 A). apply abs_le. change (vx p + t * vx d) with (vx (on_line p d t)). lra.
  - destruct (slab_far (vy p) (vy d) (- Rmax y1 y2) (Rmax y1 y2) N) as [m M]. exists m. intros t T W. apply trd_within in W as (A & _ & B). apply (M t T).
    pose proof (width_pos y1 y2 _ Hy1 Hy2 A). apply abs_le. change (vy p + t * vy d) with (vy (on_line p d t)). lra.
  - destruct (slab_far (vz p) (vz d) (- h) h N) as [m M]. exists m. intros t T W. apply trd_within in W as (A & _). apply (M t T).
    apply abs_le. exact A.
Qed.

Lemma cap_face (i : nat) z hx hy e : (i < 6)%nat -> (z = h /\ hx = x2 /\ hy = y2 /\ i = 0%nat /\ e = (if Rlt_dec (vz d) 0 then true else false)) \/
    (z = - h /\ hx = x1 /\ hy = y1 /\ i = 1%nat /\ e = (if Rlt_dec 0 (vz d) then true else false)) ->
  face_list p d (within fs) (nth i fs (0, 1)) (trd_cap z hx hy p d e).
Proof.
  intros L H. set (f := nth i fs (0, 1)). assert (F : fst f = vz d \/ fst f = - vz d) by (destruct H as [(_ & _ & _ & -> & _)|(_ & _ & _ & -> & _)]; cbn; auto).
  pose proof prec_pos as P. unfold face_list, trd_cap. destruct (ck_level _ _ _ _ _ _ _ K) as [E|E].
  - left. rewrite E in *. rewrite Rabs_R0. split; [lra|]. destruct (Rlt_dec precision 0); [lra|auto].
  - right. assert (N : vz d <> 0) by (intros Q; rewrite Q, Rabs_R0 in E; lra). assert (N' : fst f <> 0) by lra. split; auto.
    destruct (Rlt_dec precision (Rabs (vz d))); [|contradiction].
    assert (Z : (z - vz p) / vz d = zero_of f) by (destruct H as [(-> & _ & _ & -> & _)|(-> & _ & _ & -> & _)]; unfold zero_of, f; cbn; field; auto).
    rewrite Z. assert (Z0 : at_ f (zero_of f) = 0) by (apply zero_at; auto). rewrite snap_same by (apply (trd_ahead i); auto). rewrite point_line. cbn zeta.
    assert (E' : e = (if Rlt_dec (fst f) 0 then true else false)).
    { destruct H as [(_ & _ & _ & -> & ->)|(_ & _ & _ & -> & ->)]; unfold f; cbn; auto. destruct (Rlt_dec 0 (vz d)), (Rlt_dec (- vz d) 0); auto; lra. }
    rewrite <- E'. set (t := zero_of f) in *. assert (V : vz (on_line p d t) = z) by (rewrite <- Z; cbn; field; auto).
    assert (G : within fs t <-> Rabs (vx (on_line p d t)) <= hx /\ Rabs (vy (on_line p d t)) <= hy).
    { rewrite trd_within. unfold in_trd. assert (W : width x1 x2 h (on_line p d t) = hx /\ width y1 y2 h (on_line p d t) = hy).
      { unfold width. rewrite V. destruct H as [(-> & -> & -> & _)|(-> & -> & -> & _)]; split; field; lra. }
      destruct W as [-> ->]. rewrite V. assert (Rabs z <= h) by (apply abs_le; destruct H as [(-> & _)|(-> & _)]; lra). tauto. }
    rewrite !abs_le in G. unfold piece. fold (hit_at p d t e).
    destruct (Rle_dec _ _) as [Q1|Q1]; [destruct (Rle_dec _ _) as [Q2|Q2]; [destruct (Rle_dec _ _) as [Q3|Q3]; [destruct (Rle_dec _ _) as [Q4|Q4]|]|]|].
    + left. split; auto. apply (proj2 G). lra.
    + right. split; auto. intros X. apply (proj1 G) in X. lra.
    + right. split; auto. intros X. apply (proj1 G) in X. lra.
    + right. split; auto. intros X. apply (proj1 G) in X. lra.
    + right. split; auto. intros X. apply (proj1 G) in X. lra.
Qed.

Lemma side_face (i : nat) (c other : vec -> R) n k w w1 w2 o1 o2 s : (i < 6)%nat ->
  (forall t, c (on_line p d t) = c p + t * c d) -> 0 <= w1 -> 0 <= w2 ->
  s * s = 1 -> n = s * (2 * h) -> k = w1 - w2 -> w = s * w1 ->
  nth i fs (0, 1) = (s * c d - (w2 - w1) * vz d / (2 * h), s * c p - width w1 w2 h p) ->
  (forall q, in_trd x1 x2 y1 y2 h q <-> Rabs (vz q) <= h /\ Rabs (c q) <= width w1 w2 h q /\ Rabs (other q) <= width o1 o2 h q) ->
  (2 * h * (s * c d) + k * vz d = 0 \/ precision < Rabs (2 * h * (s * c d) + k * vz d)) ->
  face_list p d (within fs) (nth i fs (0, 1)) (trd_side h (1 / (2 * h)) c other n k w o1 o2 p d).
Proof.
  intros L HC W1 W2 SS -> -> -> F I D. pose proof prec_pos as P. set (f := nth i fs (0, 1)) in *.
  assert (DE : s * (2 * h) * c d + (w1 - w2) * vz d = 2 * h * fst f) by (rewrite F; cbn; field; lra).
  assert (DE' : 2 * h * (s * c d) + (w1 - w2) * vz d = 2 * h * fst f) by (rewrite F; cbn; field; lra).
  rewrite DE' in D. unfold face_list, trd_side. cbn zeta. rewrite DE. destruct D as [D|D].
  - left. rewrite D, Rabs_R0. split; [apply Rmult_eq_reg_l with (2 * h); lra|]. destruct (Rlt_dec precision 0); [lra|auto].
  - right. assert (N : fst f <> 0). { intros Q. rewrite Q, Rmult_0_r, Rabs_R0 in D. lra. } split; auto.
    destruct (Rlt_dec precision (Rabs (2 * h * fst f))); [|contradiction].
    assert (Z : (s * (2 * h) * (s * w1 - c p) + (w1 - w2) * (- h - vz p)) / (2 * h * fst f) = zero_of f).
    { unfold zero_of. replace (s * (2 * h) * (s * w1 - c p) + (w1 - w2) * (- h - vz p)) with (- (2 * h * snd f)).
      - field. split; [auto|lra].
      - rewrite F. unfold width. cbn [snd].
        transitivity (2 * h * (s * s) * w1 - s * (2 * h) * c p + (w1 - w2) * (- h - vz p)); [rewrite SS; field; lra|ring]. }
    rewrite Z. assert (Z0 : at_ f (zero_of f) = 0) by (apply zero_at; auto). rewrite snap_same by (apply (trd_ahead i); auto). rewrite point_line.
    assert (E' : (if Rlt_dec (2 * h * fst f) 0 then true else false) = (if Rlt_dec (fst f) 0 then true else false)).
    { destruct (Rlt_dec (2 * h * fst f) 0), (Rlt_dec (fst f) 0); auto; nra. }
    rewrite E'. set (t := zero_of f) in *. set (e := if Rlt_dec (fst f) 0 then true else false).
    assert (CW : s * c (on_line p d t) = width w1 w2 h (on_line p d t)).
    { rewrite F in Z0. unfold at_ in Z0. cbn [fst snd] in Z0. rewrite HC. unfold width in *. cbn.
      apply Rminus_diag_uniq. rewrite <- Z0. field. lra. }
    assert (G : within fs t <-> Rabs (vz (on_line p d t)) <= h /\ Rabs (other (on_line p d t)) <= width o1 o2 h (on_line p d t)).
    { rewrite trd_within, I. split; [tauto|]. intros [X Y]. split; auto. split; auto. pose proof (width_pos w1 w2 _ W1 W2 X) as [X' _].
      rewrite <- CW in X' |- *. assert (Rabs s = 1). { assert (s = 1 \/ s = - (1)) as [-> | ->] by (assert ((s - 1) * (s + 1) = 0) by lra; apply Rmult_integral in H as [H|H]; lra); [apply Rabs_R1|rewrite Rabs_Ropp; apply Rabs_R1]. }
      rewrite <- (Rabs_right (s * c (on_line p d t))) by lra. rewrite Rabs_mult, H. lra. }
    rewrite !abs_le in G. unfold piece. fold (hit_at p d t e).
    assert (WE : o1 + (o2 - o1) * (vz (on_line p d t) + h) * (1 / (2 * h)) = width o1 o2 h (on_line p d t)) by (unfold width; field; lra). rewrite WE.
    destruct (Rle_dec _ _) as [Q1|Q1]; [destruct (Rle_dec _ _) as [Q2|Q2]; [destruct (Rle_dec _ _) as [Q3|Q3]; [destruct (Rle_dec _ _) as [Q4|Q4]|]|]|].
    + left. split; auto. apply (proj2 G). lra.
    + right. split; auto. intros X. apply (proj1 G) in X. lra.
    + right. split; auto. intros X. apply (proj1 G) in X. lra.
    + right. split; auto. intros X. apply (proj1 G) in X. lra.
    + right. split; auto. intros X. apply (proj1 G) in X. lra.
Qed.

Lemma trd_ok sort : sorts sort -> traces (fun t => in_trd x1 x2 y1 y2 h (on_line p d t)) (trd_hits sort x1 x2 y1 y2 h p d) /\
  positioned p d (trd_hits sort x1 x2 y1 y2 h p d).
Proof.
  intros HS. unfold trd_hits. destruct (Rlt_dec 0 h); [|contradiction]. cbn zeta.
  match goal with |- context [sort hit h_distance (?a ++ ?b ++ ?c ++ ?e ++ ?f ++ ?g)] => set (ls := [a; b; c; e; f; g]); replace (a ++ b ++ c ++ e ++ f ++ g) with (concat ls) by (cbn; rewrite app_nil_r; reflexivity) end.
  assert (F : Forall2 (face_list p d (within fs)) fs ls).
  { pose proof (ck_sides _ _ _ _ _ _ _ K) as S. unfold ls. constructor; [|constructor; [|constructor; [|constructor; [|constructor; [|constructor; [|constructor]]]]]].
    - apply (cap_face 0); [lia|]. left. auto.
    - apply (cap_face 1); [lia|]. right. auto.
    - apply (side_face 2 vx vy _ _ _ x1 x2 y1 y2 1); auto; try lia; try ring.
      + cbn. f_equal; ring.
      + intros q. reflexivity.
      + apply S. rewrite Rmult_1_l. auto.
    - apply (side_face 3 vx vy _ _ _ x1 x2 y1 y2 (- (1))); auto; try lia; try ring.
      + cbn. f_equal; ring.
      + intros q. reflexivity.
      + apply S. right. left. split; auto. ring.
    - apply (side_face 4 vy vx _ _ _ y1 y2 x1 x2 1); auto; try lia; try ring.
      + cbn. f_equal; ring.
      + intros q. unfold in_trd. tauto.
      + apply S. rewrite Rmult_1_l. auto.
    - apply (side_face 5 vy vx _ _ _ y1 y2 x1 x2 (- (1))); auto; try lia; try ring.
      + cbn. f_equal; ring.
      + intros q. unfold in_trd. tauto.
      + apply S. right. right. right. split; auto. ring. }
  pose proof (faces_nodup p d _ _ _ F trd_edgeless) as ND. pose proof (sorted_strict sort _ HS ND) as ST. pose proof (faces_in p d _ _ _ F) as M.
  assert (M' : forall k, In k (sort hit h_distance (concat ls)) <-> In k (concat ls)).
  { intros k. pose proof (proj1 (HS hit h_distance (concat ls))) as Q. split; apply Permutation_in; auto. apply Permutation_sym; auto. }
  split.
  - apply (traces_ext (within fs)); [intros t; apply trd_within|]. destruct trd_far as [m Far]. apply (flat_traces fs _ m); auto.
    + apply trd_edgeless.
    + intros k H. apply M', M in H as (f & I & N & W & ->). exists f. cbn. auto.
    + intros f I N W. exists (hit_at p d (zero_of f) (if Rlt_dec (fst f) 0 then true else false)). split; [|reflexivity]. apply M', M. exists f. auto.
  - intros k H. apply M', M in H as (f & _ & _ & _ & ->). reflexivity.
Qed.
End Trd.
