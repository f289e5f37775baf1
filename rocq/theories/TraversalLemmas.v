(** Lemmas in the exact form of the property theorems on traversal. *)
From Coq Require Import List Bool ZArith Lia Permutation Sorting.Sorted.
From Verif Require Import TraversalModel TraversalSpec TraversalProofs.
Import ListNotations.
Open Scope Z_scope.

Lemma comparator_decides_order :
  forall (T : Type) (ltb : T -> T -> bool), strict_total ltb ->
  forall a b : ix T,
    comp ltb a b = true <-> visited_before (fun x y => ltb x y = true) a b.
Proof.
  intros T ltb [H1 H2 H3] a b. rewrite comp_true_iff; auto. unfold visited_before. tauto.
Qed.

Lemma comparator_strict_weak_order :
  forall (T : Type) (ltb : T -> T -> bool), strict_total ltb ->
  (forall a, comp ltb a a = false) /\
  (forall a b c, comp ltb a b = true -> comp ltb b c = true -> comp ltb a c = true) /\
  (forall a b, comp ltb a b = false -> comp ltb b a = false -> a = b).
Proof.
  intros T ltb [H1 H2 H3]. split; [|split].
  - intros; apply comp_irrefl; auto.
  - intros a b c; apply comp_trans; auto.
  - intros; apply comp_incomparable with ltb; auto.
Qed.

Lemma ss_not_true {T} (ltb : T -> T -> bool) l :
  StronglySorted (fun a b => ~ (comp ltb b a = true)) l <-> sorted ltb l.
Proof.
  unfold sorted. split; induction 1 as [|x r H IH F]; constructor; auto;
    eapply Forall_impl; try exact F; cbn; intros y Hy; destruct (comp ltb y x); congruence.
Qed.

Lemma sort_unique :
  forall (T : Type) (ltb : T -> T -> bool), strict_total ltb ->
  forall l, sorted_version (fun a b => comp ltb a b = true) l (sort_intersections ltb l) /\
    forall l1 l2, Permutation l1 l ->
      sorted_version (fun a b => comp ltb a b = true) l1 l2 -> l2 = sort_intersections ltb l.
Proof.
  intros T ltb [H1 H2 H3] l. split.
  - split; [symmetry; apply sort_perm|]. apply ss_not_true. apply sort_sorted; auto.
  - intros l1 l2 P [P2 S2]. apply ss_not_true in S2.
    apply (sorted_perm_unique ltb); auto.
    + apply sort_sorted; auto.
    + rewrite <- P2, P. symmetry. apply sort_perm.
Qed.

Lemma sort_facts {T} (ltb : T -> T -> bool) found l :
  strict_total ltb -> Permutation found l ->
  Permutation (sort_intersections ltb found) l /\ sorted ltb (sort_intersections ltb found).
Proof.
  intros [H1 H2 H3] P. split; [rewrite <- P; apply sort_perm|apply sort_sorted; auto].
Qed.

Lemma forward_tiling :
  forall (T : Type) (ltb : T -> T -> bool), strict_total ltb ->
  let lt := fun x y => ltb x y = true in
  forall (ss : list (sector T)) (u : sector T) (a b : T) (found : list (ix T)),
  good_sectors lt ss -> enclosed_by lt u ss -> ivs u = [(a, b)] ->
  Permutation found (crossings ss) ->
  exists cs, all_callbacks (sort_intersections ltb found) false = Ok cs /\
    tiles lt a (map (covered ltb) cs) b /\
    Forall (fun g => let '(h, x, y) := g in
      forall z, lt x z -> lt z y -> top_level (inside lt) ss z h) (map (covered ltb) cs).
Proof.
  intros T ltb ST lt ss u a b found G E Eab P. destruct (sort_facts ltb _ _ ST P) as [P' S'].
  destruct ST as [H1 H2 H3].
  destruct (traversal_forward ltb H1 H2 H3 ss _ u a b G P' S' E Eab) as [cs [EC [J F]]].
  exists cs. split; auto. apply (joins_tiles ltb H1 H3 ss _ a cs b J F).
Qed.

Lemma reverse_tiling :
  forall (T : Type) (ltb : T -> T -> bool), strict_total ltb ->
  let lt := fun x y => ltb x y = true in
  let gt := fun x y => ltb y x = true in
  forall (ss : list (sector T)) (u : sector T) (a b : T) (found : list (ix T)),
  good_sectors lt ss -> enclosed_by lt u ss -> ivs u = [(a, b)] ->
  Permutation found (crossings ss) ->
  exists cs, all_callbacks (sort_intersections ltb found) true = Ok cs /\
    tiles gt b (map (covered (fun x y => ltb y x)) cs) a /\
    Forall (fun g => let '(h, x, y) := g in
      forall z, lt y z -> lt z x -> top_level (inside lt) ss z h)
      (map (covered (fun x y => ltb y x)) cs).
Proof.
  intros T ltb ST lt gt ss u a b found G E Eab P. destruct (sort_facts ltb _ _ ST P) as [P' S'].
  destruct ST as [H1 H2 H3].
  exact (traversal_reverse ltb H1 H2 H3 ss _ u a b G P' S' E Eab).
Qed.

Lemma any_callback :
  forall (T S : Type) (cb : S -> ix T -> ix T -> T -> S * bool) (s : S) (l : list (ix T)) (reverse : bool) cs,
  all_callbacks l reverse = Ok cs ->
  sector_loop cb s l reverse = Ok (feed cb s cs).
Proof. intros. apply sector_loop_feed; auto. Qed.

Lemma containing_sector_correct :
  forall (T : Type) (ltb : T -> T -> bool), strict_total ltb ->
  let lt := fun x y => ltb x y = true in
  forall (ss : list (sector T)) (u : sector T) (a b : T) (found : list (ix T)) (x : T),
  good_sectors lt ss -> enclosed_by lt u ss -> ivs u = [(a, b)] ->
  Permutation found (crossings ss) ->
  (leT lt a x -> lt x b ->
    exists h, containing_sector ltb (sort_intersections ltb found) x = Ok (Some h) /\
      top_level (inside_ho lt) ss x h) /\
  (lt x a \/ leT lt b x ->
    containing_sector ltb (sort_intersections ltb found) x = Ok None).
Proof.
  intros T ltb ST lt ss u a b found x G E Eab P. destruct (sort_facts ltb _ _ ST P) as [P' S'].
  destruct ST as [H1 H2 H3]. split; intros.
  - eapply (containing_ok ltb H1 H2 H3); eauto.
  - eapply (containing_outside ltb H1 H2 H3); eauto.
Qed.

Lemma no_throw :
  forall (T S : Type) (ltb : T -> T -> bool), strict_total ltb ->
  let lt := fun x y => ltb x y = true in
  forall (ss : list (sector T)) (u : sector T) (found : list (ix T))
         (cb : S -> ix T -> ix T -> T -> S * bool) (s : S) (reverse : bool),
  good_sectors lt ss -> enclosed_by lt u ss -> Permutation found (crossings ss) ->
  exists s', sector_loop cb s (sort_intersections ltb found) reverse = Ok s'.
Proof.
  intros T S ltb ST lt ss u found cb s reverse G E P.
  pose proof E as [_ [a [b [Eab _]]]].
  destruct reverse.
  - destruct (reverse_tiling T ltb ST ss u a b found G E Eab P) as [cs [EC _]].
    eexists. apply sector_loop_feed. exact EC.
  - destruct (forward_tiling T ltb ST ss u a b found G E Eab P) as [cs [EC _]].
    eexists. apply sector_loop_feed. exact EC.
Qed.

Lemma outer_bounds_correct :
  forall (T : Type) (ltb : T -> T -> bool), strict_total ltb ->
  let lt := fun x y => ltb x y = true in
  forall (minh : Z) (ss : list (sector T)) (found : list (ix T)),
  good_sectors lt ss -> Permutation found (crossings ss) ->
  ((forall s, In s ss -> ivs s <> [] -> level s <= minh) /\
     outer_bounds minh (sort_intersections ltb found) = []) \/
  (exists f g, outer_bounds minh (sort_intersections ltb found) = [f; g] /\
     In f found /\ In g found /\ minh < hier f /\ minh < hier g /\
     entering f = true /\ entering g = false /\
     forall s iv, In s ss -> minh < level s -> In iv (ivs s) ->
       leT lt (dist f) (fst iv) /\ leT lt (snd iv) (dist g)).
Proof.
  intros T ltb ST lt minh ss found G P. destruct (sort_facts ltb _ _ ST P) as [P' S'].
  pose proof ST as [H1 H2 H3].
  destruct (outer_bounds_ok ltb H1 H3 minh ss _ G P' S') as [H|[f [g [E [Hf [Hg H]]]]]]; auto.
  right. exists f, g. split; auto. split; [|split]; auto.
  - eapply Permutation_in; [apply (sort_perm ltb)|]; auto.
  - eapply Permutation_in; [apply (sort_perm ltb)|]; auto.
Qed.

(** ** Concrete cases *)

Ltac dec_good :=
  split; [repeat (constructor; [split; repeat (constructor; [first [reflexivity | (repeat (constructor; [unfold leT; cbn; congruence|]); constructor)]|]); constructor|]); constructor
         | repeat (constructor; [cbn; intuition lia|]); constructor].

Lemma C26_case_proof :
  let ex_ss := [mksector 5 [(0, 10); (20, 30)]; mksector (-1) [(-100, 100)];
   mksector 7 [(10, 25)]; mksector 2 [(5, 40)]] in
  good_sectors (fun x y => Z.ltb x y = true) ex_ss /\
  enclosed_by (fun x y => Z.ltb x y = true) (mksector (-1) [(-100, 100)]) ex_ss /\
  (exists cs, all_callbacks (sort_intersections Z.ltb (crossings ex_ss)) false = Ok cs /\
     map (covered Z.ltb) cs =
       [(-1, -100, 0); (5, 0, 10); (2, 10, 10); (7, 10, 25); (5, 25, 30); (2, 30, 40); (-1, 40, 100)]) /\
  containing_sector Z.ltb (sort_intersections Z.ltb (crossings ex_ss)) 27 = Ok (Some 5).
Proof.
  intros ex_ss. split; [|split; [|split]].
  - dec_good.
  - split; [cbn; auto|]. exists (-100), 100. split; auto.
    intros s iv Hs Hi. unfold leT. cbn in Hs.
    destruct Hs as [<-|[<-|[<-|[<-|[]]]]]; cbn in Hi; intuition (subst; cbn in *; congruence).
  - eexists. split; [vm_compute; reflexivity|]. reflexivity.
  - vm_compute. reflexivity.
Qed.

Lemma without_enclosing_sector :
  exists ss : list (sector Z),
    good_sectors (fun x y => Z.ltb x y = true) ss /\
    exists cs, all_callbacks (sort_intersections Z.ltb (crossings ss)) false = Ok cs /\
      exists s x, In s ss /\ inside (fun x y => Z.ltb x y = true) s x /\
        forall h lo hi, In (h, lo, hi) (map (covered Z.ltb) cs) -> ~ (lo <= x <= hi).
Proof.
  exists [mksector 1 [(0, 10)]; mksector 2 [(20, 30)]]. split; [dec_good|].
  eexists. split; [vm_compute; reflexivity|].
  exists (mksector 2 [(20, 30)]), 25. split; [cbn; auto|]. split.
  - exists (20, 30). cbn. auto.
  - cbn. intros h lo hi [H|[]]. inversion H; subst. lia.
Qed.

Lemma touching_ray :
  exists (ss : list (sector Z)) (u : sector Z),
    NoDup (map level ss) /\ enclosed_by (fun x y => Z.ltb x y = true) u ss /\
    (forall s iv, In s ss -> In iv (ivs s) -> fst iv <= snd iv) /\
    all_callbacks (sort_intersections Z.ltb (crossings ss)) false = Throw.
Proof.
  exists [mksector 0 [(-100, 100)]; mksector 1 [(5, 5)]], (mksector 0 [(-100, 100)]).
  split; [repeat (constructor; [cbn; intuition lia|]); constructor|]. split; [|split].
  - split; [cbn; auto|]. exists (-100), 100. split; auto.
    intros s iv Hs Hi. unfold leT. cbn in Hs.
    destruct Hs as [<-|[<-|[]]]; cbn in Hi; intuition (subst; cbn in *; congruence).
  - intros s iv Hs Hi. cbn in Hs. destruct Hs as [<-|[<-|[]]]; cbn in Hi; intuition (subst; cbn; lia).
  - vm_compute. reflexivity.
Qed.
