(** Proofs about depths. *)
From Coquelicot Require Import Coquelicot.
From Coq Require Import Reals Lra Lia List Bool ZArith Permutation.
From Verif Require Import TraversalModel TraversalSpec TraversalProps VectorModel QuatModel DepthModel DepthSpec.
Import ListNotations.
Open Scope R_scope.

(** ** Extended numbers *)
Ltac rd := repeat match goal with
  | |- context[Rlt_dec ?a ?b] => destruct (Rlt_dec a b)
  | H : context[Rlt_dec ?a ?b] |- _ => destruct (Rlt_dec a b)
  | |- context[Rle_dec ?a ?b] => destruct (Rle_dec a b)
  | |- context[Req_EM_T ?a ?b] => destruct (Req_EM_T a b) end.

Lemma eltb_total : strict_total eltb.
Proof.
  split.
  - intros [|x|]; cbn; try reflexivity. rd; auto; lra.
  - intros [|x|] [|y|] [|z|]; cbn; intros; rd; auto; try discriminate; lra.
  - intros [|x|] [|y|]; cbn; intros; rd; auto; try discriminate. f_equal. lra.
Qed.

Lemma elt_fin x y : elt (Fin x) (Fin y) <-> x < y.
Proof. unfold elt, eltb. rd; split; intros; auto; discriminate. Qed.
Lemma ele_fin x y : ele (Fin x) (Fin y) <-> x <= y.
Proof. unfold ele, eltb. rd; split; intros; auto; try discriminate; lra. Qed.
Lemma ele_refl x : ele x x.
Proof. apply eltb_total. Qed.
Lemma ele_trans x y z : ele x y -> ele y z -> ele x z.
Proof. destruct x, y, z; unfold ele, eltb; intros; rd; auto; try discriminate; lra. Qed.
Lemma ele_elt x y z : ele x y -> elt y z -> elt x z.
Proof. destruct x, y, z; unfold ele, elt, eltb; intros; rd; auto; try discriminate; lra. Qed.
Lemma elt_ele x y z : elt x y -> ele y z -> elt x z.
Proof. destruct x, y, z; unfold ele, elt, eltb; intros; rd; auto; try discriminate; lra. Qed.
Lemma elt_weak x y : elt x y -> ele x y.
Proof. destruct x, y; unfold ele, elt, eltb; intros; rd; auto; try discriminate; lra. Qed.
Lemma not_elt x y : eltb x y = false -> ele y x.
Proof. auto. Qed.
Lemma not_both x y : elt x y -> ele y x -> False.
Proof. unfold elt, ele. congruence. Qed.

(** The first coordinate at or after 0. *)
Definition pos (x : ext) : R := match x with Fin r => Rmax r 0 | _ => 0 end.

Lemma pos_nonneg x : 0 <= pos x.
Proof. destruct x; cbn; try lra. apply Rmax_r. Qed.
Lemma pos_ge x : ele (Fin 0) x -> match x with Fin r => pos x = r | _ => True end.
Proof. destruct x; auto. intros H. apply ele_fin in H. cbn. apply Rmax_left; lra. Qed.
Lemma pos_le x : ele x (Fin 0) -> pos x = 0.
Proof. destruct x; auto. intros H. apply ele_fin in H. cbn. apply Rmax_right; lra. Qed.
Lemma start_pos x : x <> PInf -> emax x (Fin 0) = Fin (pos x).
Proof.
  destruct x; intros H; try congruence; unfold emax, eltb, pos; auto.
  rd; f_equal; [rewrite Rmax_right|rewrite Rmax_left]; lra.
Qed.
Lemma pos_before x y : ele x y -> elt (Fin 0) y -> ele (Fin (pos x)) y.
Proof.
  intros H1 H2. destruct x; cbn; try (apply elt_weak; exact H2).
  - destruct y; auto. apply ele_fin in H1. apply elt_fin in H2. apply ele_fin. apply Rmax_lub; lra.
Qed.

(** ** Shifted coordinates *)
Lemma shift_lt off x y : elt (shift off true x) (shift off true y) <-> elt x y.
Proof. destruct x, y; unfold elt, shift, eltb; rd; split; intros; auto; try discriminate; lra. Qed.
Lemma shift_gt off x y : elt (shift off false x) (shift off false y) <-> elt y x.
Proof. destruct x, y; unfold elt, shift, eltb; rd; split; intros; auto; try discriminate; lra. Qed.

Lemma start_fwd off x y :
  emax (emax (shift off true x) (Fin 0)) (shift off true y) = emax (shift off true (if eltb x y then y else x)) (Fin 0).
Proof.
  destruct x, y; unfold emax, shift, eltb; try reflexivity; rd; cbn; rd; auto; try lra; f_equal; lra.
Qed.
Lemma start_bwd off x y :
  emax (emax (shift off false x) (Fin 0)) (shift off false y) = emax (shift off false (if eltb y x then y else x)) (Fin 0).
Proof.
  destruct x, y; unfold emax, shift, eltb; try reflexivity; rd; cbn; rd; auto; try lra; f_equal; lra.
Qed.

(** The segment of a callback, in the coordinate of the path. *)
Definition seg_of (off : R) (fwd : bool) (c : ix ext * ix ext * ext) : Z * ext * ext :=
  let '(h, x, y) := covered (fun x y => if fwd then eltb x y else eltb y x) c in
  (h, shift off fwd x, shift off fwd y).

Fixpoint run {S : Type} (step : S -> Z * ext * ext -> S * bool) (s : S) (segs : list (Z * ext * ext)) : S :=
  match segs with
  | [] => s
  | g :: r => let '(s', done) := step s g in if done then s' else run step s' r
  end.

Lemma feed_run {S : Type} (cb : S -> ix ext -> ix ext -> ext -> S * bool) step f :
  (forall st cur e last, cb st cur e last = step st (f (cur, e, last))) ->
  forall cs s, feed cb s cs = run step s (map f cs).
Proof.
  intros H cs. induction cs as [|[[cur e] last] r IH]; intros s; cbn; auto.
  rewrite H. destruct (step s (f (cur, e, last))) as [s' [|]]; auto.
Qed.

Lemma start_seg off fwd cur e last :
  emax (emax (shift off fwd (dist cur)) (Fin 0)) (shift off fwd last) =
  emax (snd (fst (seg_of off fwd (cur, e, last)))) (Fin 0).
Proof.
  destruct fwd; unfold seg_of, covered; cbn [fst snd].
  - apply start_fwd.
  - apply start_bwd.
Qed.

Lemma tiles_fwd off a b segs :
  tiles (fun x y => eltb x y = true) a segs b ->
  tiles elt (shift off true a) (map (fun g => let '(h, x, y) := g in (h, shift off true x, shift off true y)) segs) (shift off true b).
Proof.
  revert a. induction segs as [|[[h x] y] r IH]; intros a; cbn; intros H; [subst; reflexivity|].
  destruct H as (-> & H1 & H2). split; [reflexivity|]. split; [|apply IH; auto].
  unfold leT in *. intros H. apply H1. apply (shift_lt off). exact H.
Qed.
Lemma tiles_bwd off a b segs :
  tiles (fun x y => eltb y x = true) a segs b ->
  tiles elt (shift off false a) (map (fun g => let '(h, x, y) := g in (h, shift off false x, shift off false y)) segs) (shift off false b).
Proof.
  revert a. induction segs as [|[[h x] y] r IH]; intros a; cbn; intros H; [subst; reflexivity|].
  destruct H as (-> & H1 & H2). split; [reflexivity|]. split; [|apply IH; auto].
  unfold leT in *. intros H. apply H1. apply (shift_gt off). exact H.
Qed.

(** ** Vectors *)
Lemma vec_ext a b : vx a = vx b -> vy a = vy b -> vz a = vz b -> a = b.
Proof. destruct a, b; cbn; intros; subst; auto. Qed.
Ltac vsolve := apply vec_ext; cbn; ring.

Lemma point_point p d s t : point (point p d s) d t = point p d (s + t).
Proof. unfold point, vadd, vscale. vsolve. Qed.
Lemma point_0 p d : point p d 0 = p.
Proof. unfold point, vadd, vscale. apply vec_ext; cbn; ring. Qed.
Lemma vneg_neg a : vneg (vneg a) = a.
Proof. unfold vneg. vsolve. Qed.
Lemma point_neg p d s : point p (vneg d) s = point p d (- s).
Proof. unfold point, vadd, vscale, vneg. vsolve. Qed.
Lemma dot_neg a : vdot (vneg a) (vneg a) = vdot a a.
Proof. unfold vdot, vneg; cbn; ring. Qed.
Lemma dot_neg_r a b : vdot a (vneg b) = - vdot a b.
Proof. unfold vdot, vneg; cbn; ring. Qed.
Lemma sub_point P d a b : vsub (point P d a) (point P d b) = vscale (a - b) d.
Proof. unfold point, vadd, vscale, vsub. vsolve. Qed.
Lemma dot_scale k a b : vdot (vscale k a) b = k * vdot a b.
Proof. unfold vdot, vscale; cbn; ring. Qed.
Lemma mag_dot a : vmag a = sqrt (vdot a a).
Proof. reflexivity. Qed.
Lemma mag_scale k d : vdot d d = 1 -> vmag (vscale k d) = Rabs k.
Proof.
  intros H. rewrite mag_dot. replace (vdot (vscale k d) (vscale k d)) with (k * k * vdot d d) by (unfold vdot, vscale; cbn; ring).
  rewrite H, Rmult_1_r. apply sqrt_Rsqr_abs.
Qed.

(** The direction of a path along the line. *)
Definition dirn (fwd : bool) (D : vec) : vec := if fwd then D else vneg D.

Lemma dirn_unit fwd D : vdot D D = 1 -> vdot (dirn fwd D) (dirn fwd D) = 1.
Proof. destruct fwd; cbn [dirn]; auto. rewrite dot_neg; auto. Qed.

Lemma dirn_heads fwd D : heads D (dirn fwd D).
Proof. destruct fwd; [left|right]; reflexivity. Qed.

Lemma normal_dirn z0 z1 P D : vdot D D = 1 -> z0 <> z1 ->
  let d := vsub (point P D z1) (point P D z0) in
  vmag d = Rabs (z1 - z0) /\ vnormalized d = dirn (if Rlt_dec z0 z1 then true else false) D.
Proof.
  intros HD Hz d. unfold d. rewrite sub_point, mag_scale; auto. split; auto.
  unfold vnormalized. rewrite mag_scale; auto.
  destruct (Req_EM_T (Rabs (z1 - z0)) 0) as [E|E].
  - exfalso. apply Hz. pose proof (Rabs_pos_lt (z1 - z0)). lra.
  - destruct (Rlt_dec z0 z1); cbn [dirn].
    + rewrite Rabs_right by lra. unfold vdiv, vscale. apply vec_ext; cbn; field; lra.
    + rewrite Rabs_left by lra. unfold vdiv, vscale, vneg. apply vec_ext; cbn; field; lra.
Qed.

Lemma offset_ok fwd P D z0 :
  vdot D D = 1 -> vdot (vsub P (point P D z0)) (dirn fwd D) = (if fwd then - z0 else z0).
Proof.
  intros HD. replace (vsub P (point P D z0)) with (vscale (- z0) D) by (unfold point, vadd, vscale, vsub; vsolve).
  rewrite dot_scale. destruct fwd; cbn [dirn]; [|rewrite dot_neg_r]; rewrite HD; ring.
Qed.

Lemma backward_ok fwd l : vdot (l_direction l) (l_direction l) = 1 -> backward l (dirn fwd (l_direction l)) = negb fwd.
Proof.
  intros H. unfold backward. destruct fwd; cbn [dirn]; [|rewrite dot_neg_r]; rewrite H; rd; cbn; auto; lra.
Qed.

(** ** Traversal of a path *)
Definition finite (x : ext) : Prop := match x with Fin _ => True | _ => False end.

(** What a list of segments says about a function of the path coordinate. *)
Definition pieces (k : Z -> R -> R) (g : R -> R) (segs : list (Z * ext * ext)) : Prop :=
  Forall (fun e => let '(h, x, y) := e in forall z, elt x (Fin z) -> elt (Fin z) y -> g z = k h z) segs.

Lemma oriented l ss a b (k : Z -> vec -> R) g fwd z0 :
  sees l ss a b -> describes l ss k g ->
  let p0 := point (l_position l) (l_direction l) z0 in
  let dir := dirn fwd (l_direction l) in
  let off := vdot (vsub (l_position l) p0) dir in
  exists segs,
    (forall (S : Type) (cb : S -> ix ext -> ix ext -> ext -> S * bool) step s,
      (forall st cur e last, cb st cur e last = step st (seg_of off fwd (cur, e, last))) ->
      sector_loop cb s (l_hits l) (backward l dir) = Ok (run step s segs)) /\
    tiles elt (shift off fwd (if fwd then a else b)) segs (shift off fwd (if fwd then b else a)) /\
    pieces (fun h s => k h (point p0 dir s)) (fun s => g (point p0 dir s)) segs.
Proof.
  intros (HD & Hg & (u & Hu & Hi) & found & Hp & Hl) Hd p0 dir off.
  assert (Eoff : off = (if fwd then - z0 else z0)) by (apply offset_ok; auto).
  rewrite Hl. unfold dir. rewrite backward_ok by auto. fold dir.
  destruct fwd.
  - destruct (C26_forward_tiling ext eltb eltb_total ss u a b found Hg Hu Hi Hp) as (cs & H1 & H2 & H3).
    exists (map (seg_of off true) cs).
    assert (Em : map (seg_of off true) cs = map (fun g => let '(h, x, y) := g in (h, shift off true x, shift off true y)) (map (covered eltb) cs))
      by (rewrite map_map; apply map_ext; intros [[? ?] ?]; reflexivity).
    split; [|split].
    + intros S0 cb step s Hs. cbn [negb]. rewrite (C26_any_callback _ _ cb s _ _ cs H1).
      f_equal. apply feed_run. exact Hs.
    + rewrite Em. apply tiles_fwd. exact H2.
    + rewrite Em. unfold pieces. rewrite Forall_map. eapply Forall_impl; [|exact H3].
      intros [[h x] y] H z Hx Hy.
      assert (Ez : Fin z = shift off true (Fin (z0 + z))) by (rewrite Eoff; cbn; f_equal; ring).
      assert (Ep : point p0 dir z = point (l_position l) (l_direction l) (z0 + z)) by (unfold p0, dir; cbn [dirn]; apply point_point).
      rewrite Ep. apply Hd. apply H.
      * apply (shift_lt off). unfold elt. rewrite <- Ez. exact Hx.
      * apply (shift_lt off). unfold elt. rewrite <- Ez. exact Hy.
  - destruct (C26_reverse_tiling ext eltb eltb_total ss u a b found Hg Hu Hi Hp) as (cs & H1 & H2 & H3).
    exists (map (seg_of off false) cs).
    assert (Em : map (seg_of off false) cs = map (fun g => let '(h, x, y) := g in (h, shift off false x, shift off false y)) (map (covered (fun x y => eltb y x)) cs))
      by (rewrite map_map; apply map_ext; intros [[? ?] ?]; reflexivity).
    split; [|split].
    + intros S0 cb step s Hs. cbn [negb]. rewrite (C26_any_callback _ _ cb s _ _ cs H1).
      f_equal. apply feed_run. exact Hs.
    + rewrite Em. apply tiles_bwd. exact H2.
    + rewrite Em. unfold pieces. rewrite Forall_map. eapply Forall_impl; [|exact H3].
      intros [[h x] y] H z Hx Hy.
      assert (Ez : Fin z = shift off false (Fin (z0 - z))) by (rewrite Eoff; cbn; f_equal; ring).
      assert (Ep : point p0 dir z = point (l_position l) (l_direction l) (z0 - z))
        by (unfold p0, dir; cbn [dirn]; rewrite point_neg, point_point; f_equal; ring).
      rewrite Ep. apply Hd. apply H.
      * apply (shift_gt off). unfold elt. rewrite <- Ez. exact Hy.
      * apply (shift_gt off). unfold elt. rewrite <- Ez. exact Hx.
Qed.

(** ** Integrals *)
Lemma move (f : R -> R) s a b I : is_RInt (fun u => f (s + u)) a b I -> is_RInt f (s + a) (s + b) I.
Proof.
  intros H.
  apply is_RInt_ext with (f := fun y => scal 1 (f (s + (1 * y + - s)))).
  - intros x _. change (1 * f (s + (1 * x + - s)) = f x). rewrite Rmult_1_l. f_equal. ring.
  - apply is_RInt_comp_lin with (f := fun u => f (s + u)) (u := 1) (v := - s).
    replace (1 * (s + a) + - s) with a by ring. replace (1 * (s + b) + - s) with b by ring. exact H.
Qed.

Lemma unmove (f : R -> R) s a b I : is_RInt f (s + a) (s + b) I -> is_RInt (fun u => f (s + u)) a b I.
Proof.
  intros H.
  apply is_RInt_ext with (f := fun y => scal 1 (f (1 * y + s))).
  - intros x _. change (1 * f (1 * x + s) = f (s + x)). rewrite Rmult_1_l. f_equal. ring.
  - apply is_RInt_comp_lin with (f := f) (u := 1) (v := s).
    replace (1 * a + s) with (s + a) by ring. replace (1 * b + s) with (s + b) by ring. exact H.
Qed.

(** From the path coordinate to the line integral. *)
Lemma to_along g p0 p1 dir L I :
  vsub p1 p0 = vscale L dir -> vmag (vsub p1 p0) = L ->
  is_RInt (fun s => g (point p0 dir s)) 0 L I -> along g p0 p1 I.
Proof.
  intros E1 E2 H. unfold along. rewrite E2, E1.
  apply is_RInt_ext with (f := fun y => scal L (g (point p0 dir (L * y + 0)))).
  - intros x _. change (L * g (point p0 dir (L * x + 0)) = L * g (point p0 (vscale L dir) x)). f_equal. f_equal.
    unfold point, vadd, vscale. vsolve.
  - apply is_RInt_comp_lin with (f := fun s => g (point p0 dir s)) (u := L) (v := 0).
    replace (L * 0 + 0) with 0 by ring. replace (L * 1 + 0) with L by ring. exact H.
Qed.

Lemma from_along g p0 p1 dir L I :
  L <> 0 -> vsub p1 p0 = vscale L dir -> vmag (vsub p1 p0) = L ->
  along g p0 p1 I -> is_RInt (fun s => g (point p0 dir s)) 0 L I.
Proof.
  intros Hn E1 E2 H. unfold along in H. rewrite E2, E1 in H.
  apply is_RInt_ext with (f := fun y => scal (/ L) ((fun t => L * g (point p0 (vscale L dir) t)) (/ L * y + 0))).
  - intros x _. change (/ L * (L * g (point p0 (vscale L dir) (/ L * x + 0))) = g (point p0 dir x)).
    rewrite <- Rmult_assoc, Rinv_l, Rmult_1_l by auto. f_equal.
    unfold point, vadd, vscale. apply vec_ext; cbn; field; auto.
  - apply is_RInt_comp_lin with (f := fun t => L * g (point p0 (vscale L dir) t)) (u := / L) (v := 0).
    replace (/ L * 0 + 0) with 0 by ring. replace (/ L * L + 0) with 1 by (field; auto). exact H.
Qed.

Lemma along_unique g p q I J : along g p q I -> along g p q J -> I = J.
Proof. unfold along. intros H1 H2. rewrite <- (is_RInt_unique _ _ _ _ H1), <- (is_RInt_unique _ _ _ _ H2). reflexivity. Qed.

Lemma same_integral (f : R -> R) a b I J : is_RInt f a b I -> is_RInt f a b J -> I = J.
Proof. intros H1 H2. rewrite <- (is_RInt_unique _ _ _ _ H1), <- (is_RInt_unique _ _ _ _ H2). reflexivity. Qed.

(** ** Compensated summation *)
Lemma accumulate_go l s :
  fold_left (fun (st : R * R) x =>
         let '(sum, err) := st in
         let difference := x - err in
         let temp := sum + difference in
         (temp, temp - sum - difference)) l (s, 0) = (fold_left Rplus l s, 0).
Proof.
  revert s. induction l as [|x r IH]; intros s; [reflexivity|]. cbn [fold_left].
  replace (s + (x - 0)) with (s + x) by ring. replace (s + x - s - (x - 0)) with 0 by ring. apply IH.
Qed.
Lemma accumulate_plain l : accumulate l = plain_sum l.
Proof. unfold accumulate, plain_sum. rewrite accumulate_go. reflexivity. Qed.

Lemma plain_weighted f s : plain_sum (map (fun x => fst x * snd x) (combine f s)) = weighted f s.
Proof.
  unfold plain_sum. assert (H : forall a, fold_left Rplus (map (fun x => fst x * snd x) (combine f s)) a = a + weighted f s).
  { revert s. induction f as [|x f IH]; intros s a; [cbn; ring|]. destruct s as [|y s]; [cbn; ring|].
    cbn [combine map fold_left weighted fst snd]. rewrite IH. ring. }
  rewrite H. ring.
Qed.

(** ** Between two points *)
Section Between.
Variable media : Z -> medium.
Variable dens : Z -> vec -> R.
Variable D : vec.
Hypothesis Hm : forall h, lawful D (dens h) (media h).
Variables (p0 dir : vec) (distance : R).
Hypothesis Hdir : heads D dir.
Hypothesis Hdist : 0 < distance.

(** One segment. *)
Definition seg_integral (g : Z * ext * ext) : option (option R) :=
  let '(h, x, y) := g in
  let e := emin y (Fin distance) in
  if eltb (Fin 0) e then
    match emax x (Fin 0) with
    | Fin s => Some (integral (media h) (vadd p0 (vscale s dir)) dir (minus e s))
    | _ => Some None
    end
  else None.
Definition seg_end (g : Z * ext * ext) : bool := negb (eltb (snd g) (Fin distance)).

Lemma seg_integral_ok off fwd cur e last :
  segment media p0 dir off distance fwd cur e last = seg_integral (seg_of off fwd (cur, e, last)).
Proof.
  unfold segment. rewrite (start_seg off fwd cur e last). unfold seg_integral, seg_of, covered. reflexivity.
Qed.

(** A state that sums weighted integrals of the segments. *)
Lemma run_between {S : Type} (val : S -> R) (good : S -> Prop) (w : Z -> R) (add : Z -> option R -> S -> S) (g : R -> R) :
  (forall h i s, good s -> good (add h (Some i) s) /\ val (add h (Some i) s) = val s + i * w h) ->
  forall segs x0 xe s0,
  tiles elt x0 segs xe -> pieces (fun h s => dens h (point p0 dir s) * w h) g segs ->
  elt x0 (Fin distance) -> ele (Fin distance) xe ->
  good s0 -> is_RInt g 0 (pos x0) (val s0) ->
  let s1 := run (fun s e => (match seg_integral e with None => s | Some i => add (fst (fst e)) i s end, seg_end e)) s0 segs in
  good s1 /\ is_RInt g 0 distance (val s1).
Proof.
  intros Hadd. induction segs as [|[[h x] y] r IH]; intros x0 xe s0 Ht Hp Hx He Hg Hi.
  - cbn in Ht. subst x0. exfalso. eapply not_both; eauto.
  - cbn [tiles] in Ht. destruct Ht as (-> & Hxy & Ht). inversion Hp as [|? ? Hh Hr]; subst. clear Hp.
    assert (Hle : ele x0 y) by (unfold leT, elt in Hxy; unfold ele; destruct (eltb y x0); auto; exfalso; apply Hxy; auto).
    cbn [run]. unfold seg_end. cbn [snd fst].
    destruct (eltb (Fin 0) y) eqn:E0.
    + (* the segment reaches beyond the start *)
      assert (Hne : x0 <> PInf) by (intros ->; discriminate Hx).
      set (e := emin y (Fin distance)).
      assert (Hee : exists q, e = Fin q /\ 0 < q /\ pos x0 <= q /\ q <= distance /\ ele (Fin q) y).
      { assert (Hpd : pos x0 <= distance).
        { assert (X : ele (Fin (pos x0)) (Fin distance)) by (apply pos_before; [apply elt_weak; auto|apply elt_fin; auto]). apply ele_fin in X; auto. }
        assert (Hpy : ele (Fin (pos x0)) y) by (apply pos_before; auto).
        unfold e, emin. destruct (eltb (Fin distance) y) eqn:E1.
        - exists distance. split; [reflexivity|]. split; [auto|]. split; [auto|]. split; [lra|]. apply elt_weak; auto.
        - destruct y as [|q|]; try discriminate. exists q. apply ele_fin in Hpy. apply elt_fin in E0. apply not_elt, ele_fin in E1.
          split; [reflexivity|]. split; [auto|]. split; [auto|]. split; [auto|]. apply ele_refl. }
      destruct Hee as (q & Eq & Hq0 & Hpq & Hqd & Hqy).
      assert (Es : seg_integral (h, x0, y) = Some (integral (media h) (vadd p0 (vscale (pos x0) dir)) dir (Fin (q - pos x0)))).
      { unfold seg_integral. fold e. rewrite Eq. cbn [minus]. rewrite (proj2 (elt_fin 0 q)) by auto. rewrite start_pos by auto. reflexivity. }
      rewrite Es.
      destruct (Hm h (vadd p0 (vscale (pos x0) dir)) dir (q - pos x0)) as (i & Ei & Hint); [auto|lra|].
      rewrite Ei.
      destruct (Hadd h i s0 Hg) as (Hg1 & Hv1).
      assert (Hnew : is_RInt g 0 q (val (add h (Some i) s0))).
      { rewrite Hv1. apply (is_RInt_Chasles g 0 (pos x0) q); auto.
        apply is_RInt_ext with (f := fun z => scal (w h) (dens h (point p0 dir z))).
        - intros z. rewrite Rmin_left, Rmax_right by auto. intros Hz. symmetry.
          change (g z = w h * dens h (point p0 dir z)). rewrite Rmult_comm. apply Hh.
          + destruct x0 as [|v|]; [reflexivity| |congruence]. apply elt_fin. cbn [pos] in Hz. pose proof (Rmax_l v 0). lra.
          + apply elt_ele with (Fin q); [apply elt_fin; lra|auto].
        - replace (i * w h) with (scal (w h) i) by (change (w h * i = i * w h); ring).
          apply is_RInt_scal with (f := fun z => dens h (point p0 dir z)).
          replace (pos x0) with (pos x0 + 0) at 1 by ring. replace q with (pos x0 + (q - pos x0)) by ring.
          apply move. eapply is_RInt_ext; [|exact Hint].
          intros z _. cbn beta. rewrite <- point_point. reflexivity. }
      destruct (eltb y (Fin distance)) eqn:E1; cbn [negb].
      * assert (Ey : y = Fin q).
        { unfold e, emin in Eq. destruct (eltb (Fin distance) y) eqn:E2; auto. exfalso. eapply not_both; [exact E1|]. apply elt_weak; exact E2. }
        apply (IH y xe); auto. subst y. cbn [pos]. rewrite Rmax_left by lra. exact Hnew.
      * split; auto.
        assert (Eqd : q = distance).
        { apply not_elt in E1. unfold e, emin in Eq. destruct (eltb (Fin distance) y) eqn:E2; [congruence|].
          apply not_elt in E2. subst y. apply ele_fin in E1. lra. }
        rewrite <- Eqd. exact Hnew.
    + (* it lies before the start *)
      assert (Hy0 : ele y (Fin 0)) by (apply not_elt; auto).
      assert (Hyd : elt y (Fin distance)) by (apply ele_elt with (Fin 0); auto; apply elt_fin; auto).
      assert (Es : seg_integral (h, x0, y) = None).
      { unfold seg_integral, emin. destruct (eltb (Fin distance) y) eqn:E1.
        - exfalso. eapply not_both; [exact Hyd|apply elt_weak; exact E1].
        - rewrite E0. reflexivity. }
      rewrite Es, Hyd. cbn [negb]. apply (IH y xe); auto.
      rewrite (pos_le y Hy0). rewrite (pos_le x0) in Hi; auto. eapply ele_trans; eauto.
Qed.
End Between.

(** ** From a point *)
Section From.
Variable media : Z -> medium.
Variable dens : Z -> vec -> R.
Variable D : vec.
Hypothesis Hm : forall h, lawful D (dens h) (media h).
Variables (p0 dir : vec).
Hypothesis Hdir : heads D dir.
Variable ask : Z -> vec -> R -> ext -> option R.
Variable w : Z -> R.
Variable eps : R.
Hypothesis Hask : forall h p target len, 0 < target -> ele (Fin 0) len ->
  finds eps (fun s => dens h (point p dir s) * w h) target len (ask h p target len).
Variable goal : R.

Definition seg_distance (st : option R * ext) (g : Z * ext * ext) : (option R * ext) * bool :=
  let '(h, x, y) := g in
  if eltb (Fin 0) y then
    match emax x (Fin 0) with
    | Fin s =>
        let length := minus y s in
        let p := vadd p0 (vscale s dir) in
        let found := match fst st with None => None | Some total => ask h p (goal - total) length end in
        let total := add_opt (fst st) (option_map (fun i => i * w h) (integral (media h) p dir length)) in
        match found with
        | Some d => if Rle_dec 0 d then ((total, Fin (s + d)), true) else ((total, plus s length), false)
        | None => ((total, plus s length), false)
        end
    | o => ((None, o), false)
    end
  else (st, false).

Lemma seg_distance_ok off fwd st cur e last :
  distance_cb media p0 dir off fwd ask w goal st cur e last = seg_distance st (seg_of off fwd (cur, e, last)).
Proof.
  unfold distance_cb. rewrite (start_seg off fwd cur e last). unfold seg_distance, seg_of, covered. cbn [fst snd].
  destruct (eltb (Fin 0) (shift off fwd (dist e))); [|reflexivity].
  destruct (emax _ (Fin 0)); reflexivity.
Qed.

Lemma run_at_infinity segs xe t :
  tiles elt PInf segs xe -> snd (run seg_distance (t, PInf) segs) = PInf /\ xe = PInf.
Proof.
  revert t. induction segs as [|[[h x] y] r IH]; intros t H; cbn in H.
  - subst; auto.
  - destruct H as (-> & Hxy & H). assert (y = PInf) as -> by (destruct y; auto; exfalso; apply Hxy; reflexivity).
    cbn. apply IH. auto.
Qed.

Lemma run_from (g : R -> R) :
  forall segs x0 xe T d,
  tiles elt x0 segs xe -> pieces (fun h s => dens h (point p0 dir s) * w h) g segs ->
  x0 <> PInf -> (elt (Fin 0) x0 -> d = x0) ->
  is_RInt g 0 (pos x0) T -> T < goal ->
  let res := snd (run seg_distance (Some T, d) segs) in
  (exists L I, res = Fin L /\ 0 <= L /\ ele (Fin L) xe /\ is_RInt g 0 L I /\ Rabs (I - goal) <= eps) \/
  ((forall L I, pos x0 <= L -> ele (Fin L) xe -> is_RInt g 0 L I -> I < goal) /\ (elt (Fin 0) xe -> res = xe)).
Proof.
  induction segs as [|[[h x] y] r IH]; intros x0 xe T d Ht Hp Hne Hd Hi HT.
  - cbn in Ht. subst x0. right. split.
    + intros L I HL Hle HI.
      assert (L = pos xe).
      { destruct xe as [|v|]; [discriminate Hle| |congruence]. apply ele_fin in Hle. cbn [pos] in *. pose proof (Rmax_l v 0).
        lra. }
      subst L. rewrite (same_integral _ _ _ _ _ HI Hi). auto.
    + intros H. cbn. auto.
  - cbn [tiles] in Ht. destruct Ht as (-> & Hxy & Ht). inversion Hp as [|? ? Hh Hr]; subst. clear Hp.
    assert (Hle : ele x0 y) by (unfold leT, elt in Hxy; unfold ele; destruct (eltb y x0); auto; exfalso; apply Hxy; auto).
    assert (Hye : forall L, pos x0 <= L -> pos y <= L \/ ele (Fin L) y).
    { intros L HL. destruct y as [|v|]; [left; cbn; pose proof (pos_nonneg x0); lra| |right; reflexivity].
      destruct (Rle_dec L v); [right; apply ele_fin; auto|]. left. cbn. pose proof (pos_nonneg x0). apply Rmax_lub; lra. }
    cbv zeta. cbn [run]. remember (seg_distance (Some T, d) (h, x0, y)) as stp eqn:Estp. unfold seg_distance in Estp. cbn [fst] in Estp.
    destruct (eltb (Fin 0) y) eqn:E0.
    + rewrite start_pos in Estp by auto. set (s := pos x0) in *.
      assert (Hs : 0 <= s) by apply pos_nonneg.
      assert (Hsy : ele (Fin s) y) by (apply pos_before; auto).
      change (vadd p0 (vscale s dir)) with (point p0 dir s) in Estp.
      set (len := minus y s) in *.
      assert (Hlen : forall L, ele (Fin L) len <-> ele (Fin (s + L)) y).
      { intros L. unfold len. destruct y; cbn [minus]; try tauto. rewrite !ele_fin. split; lra. }
      assert (Hlen0 : ele (Fin 0) len) by (apply Hlen; rewrite Rplus_0_r; auto).
      assert (Hpl : plus s len = y) by (unfold len; destruct y; cbn; auto; f_equal; ring).
      (* integral of g from the start of the segment *)
      assert (Hpart : forall L I, 0 <= L -> ele (Fin L) len ->
        is_RInt (fun u => dens h (point (point p0 dir s) dir u) * w h) 0 L I -> is_RInt g 0 (s + L) (T + I)).
      { intros L I HL HLl HI. apply (is_RInt_Chasles g 0 s (s + L)); auto.
        apply is_RInt_ext with (f := fun z => dens h (point p0 dir z) * w h).
        - intros z. rewrite Rmin_left, Rmax_right by lra. intros Hz. symmetry. apply Hh.
          + destruct x0 as [|v|]; [reflexivity| |congruence]. apply elt_fin. unfold s in Hz. cbn [pos] in Hz. pose proof (Rmax_l v 0). lra.
          + apply elt_ele with (Fin (s + L)); [apply elt_fin; lra|]. apply Hlen; auto.
        - replace s with (s + 0) at 1 by ring. apply move with (f := fun z => dens h (point p0 dir z) * w h).
          eapply is_RInt_ext; [|exact HI]. intros z _. cbn beta. rewrite point_point. reflexivity. }
      assert (Hback : forall L I, 0 <= L -> ele (Fin L) len -> is_RInt g 0 (s + L) I ->
        exists J, is_RInt (fun u => dens h (point (point p0 dir s) dir u) * w h) 0 L J /\ I = T + J).
      { intros L I HL HLl HI.
        destruct (Hm h (point p0 dir s) dir L) as (i & _ & Hint); [auto|auto|].
        exists (i * w h).
        assert (HJ : is_RInt (fun u => dens h (point (point p0 dir s) dir u) * w h) 0 L (i * w h)).
        { apply is_RInt_ext with (f := fun u => scal (w h) (dens h (point (point p0 dir s) dir u))).
          - intros z _. change (w h * dens h (point (point p0 dir s) dir z) = dens h (point (point p0 dir s) dir z) * w h). ring.
          - replace (i * w h) with (scal (w h) i) by (change (w h * i = i * w h); ring). apply is_RInt_scal with (f := fun z => dens h (point (point p0 dir s) dir z)). auto. }
        split; auto. apply (same_integral g 0 (s + L)); auto. }
      destruct (Hask h (point p0 dir s) (goal - T) len) as [(q & Eq & Hq0 & Hql & Hq)|(Hneg & Hnone)]; [lra|auto| |].
      * rewrite Eq in Estp. destruct (Rle_dec 0 q) as [_|]; [|lra]. subst stp. left.
        destruct (Hm h (point p0 dir s) dir q) as (i & _ & Hint); [auto|auto|].
        exists (s + q), (T + i * w h). cbn [snd].
        assert (HJ : is_RInt (fun u => dens h (point (point p0 dir s) dir u) * w h) 0 q (i * w h)).
        { apply is_RInt_ext with (f := fun u => scal (w h) (dens h (point (point p0 dir s) dir u))).
          - intros z _. change (w h * dens h (point (point p0 dir s) dir z) = dens h (point (point p0 dir s) dir z) * w h). ring.
          - replace (i * w h) with (scal (w h) i) by (change (w h * i = i * w h); ring). apply is_RInt_scal with (f := fun z => dens h (point (point p0 dir s) dir z)). auto. }
        split; [reflexivity|]. split; [lra|]. split.
        { clear - Hql Hlen Ht E0. apply Hlen in Hql. eapply ele_trans; [exact Hql|].
          clear - Ht. revert y Ht. induction r as [|[[h x] z] r IH]; intros y Ht; cbn in Ht; [subst; apply ele_refl|].
          destruct Ht as (-> & H & Ht). apply ele_trans with z; auto.
          unfold leT, elt in H; unfold ele; destruct (eltb z y); auto; exfalso; apply H; auto. }
        split; [apply Hpart; auto|]. replace (T + i * w h - goal) with (i * w h - (goal - T)) by ring. apply Hq. exact HJ.
      * assert (Hgoal : forall L I, s <= L -> ele (Fin L) y -> is_RInt g 0 L I -> I < goal).
        { intros L I HL HLy HI. assert (HLl : ele (Fin (L - s)) len) by (apply Hlen; replace (s + (L - s)) with L by ring; auto).
          destruct (Hback (L - s) I) as (J & HJ & ->); [lra|auto|replace (s + (L - s)) with L by ring; auto|].
          assert (J < goal - T) by (apply (Hnone (L - s)); auto; lra). lra. }
        assert (Enf : match ask h (point p0 dir s) (goal - T) len with
           | Some d0 => if Rle_dec 0 d0
               then (add_opt (Some T) (option_map (fun i => i * w h) (integral (media h) (point p0 dir s) dir len)), Fin (s + d0), true)
               else (add_opt (Some T) (option_map (fun i => i * w h) (integral (media h) (point p0 dir s) dir len)), plus s len, false)
           | None => (add_opt (Some T) (option_map (fun i => i * w h) (integral (media h) (point p0 dir s) dir len)), plus s len, false)
           end = (add_opt (Some T) (option_map (fun i => i * w h) (integral (media h) (point p0 dir s) dir len)), y, false)).
        { destruct (ask h (point p0 dir s) (goal - T) len) as [v|] eqn:Ea; rewrite Hpl; [|reflexivity].
          specialize (Hneg v eq_refl). destruct (Rle_dec 0 v); [lra|reflexivity]. }
        rewrite Enf in Estp. clear Enf. subst stp.
        destruct (match y with PInf => true | _ => false end) eqn:Einf.
        -- destruct y; try discriminate. right.
           destruct (run_at_infinity r xe (add_opt (Some T) (option_map (fun i => i * w h) (integral (media h) (point p0 dir s) dir len))) Ht) as [H1 H2].
           rewrite H1, H2. split; [|auto]. intros L I HL _ HI. exact (Hgoal L I HL eq_refl HI).
        -- destruct y as [|v|]; try discriminate.
           pose proof (proj1 (elt_fin 0 v) E0) as Hv0. pose proof (proj1 (ele_fin s v) Hsy) as Hsv.
           unfold len. cbn [minus].
           destruct (Hm h (point p0 dir s) dir (v - s)) as (i & Ei & Hint); [auto|lra|].
           rewrite Ei. cbn [option_map add_opt].
           assert (Hv : is_RInt g 0 v (T + i * w h)).
           { replace v with (s + (v - s)) by ring. apply Hpart; [lra| |].
             - apply Hlen. replace (s + (v - s)) with v by ring. apply ele_refl.
             - apply is_RInt_ext with (f := fun u => scal (w h) (dens h (point (point p0 dir s) dir u))).
               + intros z _. change (w h * dens h (point (point p0 dir s) dir z) = dens h (point (point p0 dir s) dir z) * w h). ring.
               + replace (i * w h) with (scal (w h) i) by (change (w h * i = i * w h); ring). apply is_RInt_scal with (f := fun z => dens h (point (point p0 dir s) dir z)). auto. }
           assert (HT' : T + i * w h < goal) by (apply (Hgoal v); auto; apply ele_refl).
           assert (Epv : pos (Fin v) = v) by (cbn; apply Rmax_left; lra).
           destruct (IH (Fin v) xe (T + i * w h) (Fin v)) as [HL|(HN & HR)]; auto; try discriminate.
           { rewrite Epv. auto. }
           right. split; auto. intros L I HL HLe HI. destruct (Hye L HL) as [H|H]; [apply (HN L); auto|apply (Hgoal L); auto].
    + subst stp. assert (Hy0 : ele y (Fin 0)) by (apply not_elt; auto).
      assert (Ep : pos x0 = pos y) by (rewrite (pos_le y), (pos_le x0); auto; eapply ele_trans; eauto).
      destruct (IH y xe T d) as [HL|(HN & HR)]; auto.
      * intros ->. discriminate Hy0.
      * intros H. exfalso. unfold elt in H. congruence.
      * rewrite <- Ep. auto.
      * right. split; auto. intros L I HL. rewrite Ep in HL. apply HN; auto.
Qed.
End From.
