(** The flattening of GDML volumes: lemmas. *)
From Coq Require Import Reals ZArith List Bool Lia Lra Ascii String FinFun.
From Verif Require Import GdmlModel GdmlProofs GdmlLoopModel InstModel InstSpec InstProofs VectorModel QuatModel QuatSpec QuatProofs QuatPlace VolModel VolSpec.
Import ListNotations.
Open Scope R_scope.

(** ** Names *)

Lemma unique_none : forall fuel taken base now k, unique_name fuel taken base now k = None ->
  In now taken /\ incl (map (fun j => base ++ text "_" ++ decimal j) (seq k fuel)) taken.
Proof.
  assert (E : forall now taken, existsb (str_eqb now) taken = true -> In now taken).
  { intros now taken H. apply existsb_exists in H as (x & I & Q). apply str_eqb_eq in Q. now subst. }
  induction fuel as [|fuel IH]; intros taken base now k H; cbn [unique_name] in H;
    destruct (existsb (str_eqb now) taken) eqn:X; try discriminate; apply E in X.
  - split; [exact X|intros y []].
  - apply IH in H as [H1 H2]. split; [exact X|]. cbn [seq map]. intros y [<-|Y]; [exact H1|now apply H2].
Qed.
Lemma unique_ends : forall taken base now, unique_name (S (List.length taken)) taken base now 2 <> None.
Proof.
  intros taken base now H. apply unique_none in H as [_ H].
  assert (N : NoDup (map (fun j => base ++ text "_" ++ decimal j) (seq 2 (S (List.length taken))))).
  { apply Injective_map_NoDup; [|apply seq_NoDup]. intros i j Q. apply app_inv_head in Q. apply app_inv_head in Q. now apply decimal_inj. }
  pose proof (NoDup_incl_length N H) as L. rewrite map_length, seq_length in L. lia.
Qed.
Lemma unique_some : forall fuel taken base now k n, unique_name fuel taken base now k = Some n -> ~ In n taken /\
  (n = now \/ exists j, (k <= j)%nat /\ n = base ++ text "_" ++ decimal j).
Proof.
  assert (E : forall now taken, existsb (str_eqb now) taken = false -> ~ In now taken).
  { intros now taken H I. assert (X : existsb (str_eqb now) taken = true) by (apply existsb_exists; exists now; split; [exact I|apply seq_refl]). congruence. }
  induction fuel as [|fuel IH]; intros taken base now k n H; cbn [unique_name] in H; destruct (existsb (str_eqb now) taken) eqn:X.
  - discriminate.
  - injection H as <-. split; [now apply E|now left].
  - apply IH in H as [H1 H2]. split; [exact H1|]. right. destruct H2 as [-> | (j & L & ->)]; [exists k; auto|exists j; split; [lia|reflexivity]].
  - injection H as <-. split; [now apply E|now left].
Qed.
Lemma unique_first : forall fuel taken base k, ~ In base taken -> unique_name fuel taken base base k = Some base.
Proof.
  intros fuel taken base k N. assert (X : existsb (str_eqb base) taken = false).
  { apply not_true_is_false. intros X. apply existsb_exists in X as (x & I & Q). apply str_eqb_eq in Q. now subst. }
  destruct fuel; cbn [unique_name]; now rewrite X.
Qed.

(** ** Placements *)

Lemma pv_unit : forall c, unit (pv_rotation c).
Proof.
  intros c. unfold pv_rotation. destruct (pv_angles c) as [[[x y] z]|]; [apply euler_unit|unfold unit, qnorm2; cbn; ring].
Qed.
Lemma into_turn : forall c p, into_child c p = turn (pv_rotation c) (vsub p (pv_position c)).
Proof.
  intros c p. unfold into_child. pose proof (pv_unit c) as U. rewrite <- rotate_turn by (auto using unit_nonzero, unit_exact).
  unfold pv_rotation. destruct (pv_angles c) as [[[x y] z]|].
  - symmetry. apply (proj1 (euler_action x y z _)).
  - now rewrite qone_rotate.
Qed.
Lemma child_valid : forall p c, valid p -> valid (child_placement p c).
Proof.
  intros p c [U _]. apply place_valid. apply mul_nonzero; [now apply unit_nonzero|]. apply conj_nonzero, unit_nonzero, pv_unit.
Qed.
Lemma turn_eq : forall q a b, nonzero q -> turn q a = b -> turn (qconj q) b = a.
Proof. intros q a b N <-. now apply turn_back. Qed.
Lemma child_frame : forall p c x, valid p -> global_to_local (child_placement p c) x = into_child c (global_to_local p x).
Proof.
  intros p c x V. pose proof (child_valid p c V) as [U' _]. destruct V as [U _]. pose proof (pv_unit c) as UC.
  rewrite into_turn. unfold global_to_local. rewrite !rotate_turn_inv by (auto using unit_nonzero, unit_exact).
  assert (NP := unit_nonzero _ U). assert (NC := unit_nonzero _ UC). assert (N' := unit_nonzero _ U').
  assert (NM : nonzero (qmul (p_quat p) (qconj (pv_rotation c)))) by (apply mul_nonzero; [exact NP|now apply conj_nonzero]).
  apply turn_eq; [exact N'|]. unfold child_placement, place. cbn [p_quat p_position].
  rewrite normalize_turn by exact NM. rewrite turn_mul by (auto using conj_nonzero). rewrite turn_back by exact NC.
  rewrite (rotation_sub _ _ _ (turn_rotation _ NP)). rewrite turn_forth by exact NP.
  unfold local_to_global. rewrite rotate_turn by (auto using unit_exact).
  apply vec_eq; cbn; ring.
Qed.

(** ** Steps *)

Section Build.
Variable w : world.

Lemma build_step : forall fuel visited raw p level l, build w (S fuel) visited raw p level l =
  if existsb (str_eqb (resolved w raw)) visited then Failed IsCircular
  else match w_volume w (resolved w raw) with
       | None => Failed NoVolume
       | Some v =>
           match (if v_assembly v then Built level l else build_sector w v p level l) with
           | Built level l => build_all w fuel (resolved w raw :: visited) (v_children v) p level l
           | o => o
           end
       end.
Proof.
  intros fuel visited raw p level l. cbn [build]. cbv zeta. destruct (existsb _ visited); [reflexivity|].
  destruct (w_volume w (resolved w raw)) as [v|]; [|reflexivity].
  destruct (if v_assembly v then Built level l else build_sector w v p level l) as [lev l0| |]; try reflexivity.
  revert lev l0. induction (v_children v) as [|c cs IH]; intros lev l0; [reflexivity|]. cbn [build_all].
  destruct (build w fuel (resolved w raw :: visited) (pv_ref c) (child_placement p c) lev l0); try reflexivity. apply IH.
Qed.
Lemma means_resolved : forall raw v, means w raw v <-> w_volume w (resolved w raw) = Some v.
Proof. intros raw v. unfold means, resolved. now destruct (w_alias w raw). Qed.

Lemma ranked_app : forall a b z, ranked z a -> ranked (z + Z.of_nat (List.length a)) b -> ranked z (a ++ b).
Proof.
  induction a as [|s a IH]; intros b z A B; cbn [app ranked List.length] in *; [now rewrite Z.add_0_r in B|].
  destruct A as [A1 A2]. split; [exact A1|]. apply IH; [exact A2|]. now replace (z + 1 + Z.of_nat (List.length a))%Z with (z + Z.of_nat (S (List.length a)))%Z by lia.
Qed.
Lemma ranked_below : forall a z, ranked z a -> Forall (fun s => (s_level s < z + Z.of_nat (List.length a))%Z) a.
Proof.
  induction a as [|s a IH]; intros z A; [constructor|]. destruct A as [A1 A2]. cbn [List.length]. constructor; [lia|].
  eapply Forall_impl; [|apply IH; exact A2]. intros t T. cbv beta in T. lia.
Qed.
Lemma below_more : forall l new z, Forall (fun s => (s_level s < z)%Z) l -> ranked z new ->
  Forall (fun s => (s_level s < z + Z.of_nat (List.length new))%Z) (l ++ new).
Proof.
  intros l new z A B. apply Forall_app. split; [|now apply ranked_below].
  eapply Forall_impl; [|exact A]. intros s S'. cbv beta in *. lia.
Qed.

Lemma sector_built : forall v p level l level' l', build_sector w v p level l = Built level' l' ->
  exists n rho, ~ In n (map s_name l) /\ w_has_solid w (v_solid v) = true /\ w_imported w (v_material v) = true /\
    w_density w (v_material v) = Some rho /\ level' = (level + 1)%Z /\
    l' = l ++ [mksector n level (Some (v_solid v)) (v_material v) rho p] /\
    (n = v_name v \/ exists ds, n = v_name v ++ ["_"%char] ++ ds /\ ds <> [] /\ Forall decimal_digit ds) /\
    (~ In (v_name v) (map s_name l) -> n = v_name v).
Proof.
  intros v p level l level' l' H. unfold build_sector in H. destruct (w_has_solid w (v_solid v)) eqn:HS; [|discriminate].
  destruct (w_density w (v_material v)) as [rho|] eqn:HD; [|discriminate].
  destruct (unique_name (S (List.length l)) (map s_name l) (v_name v) (v_name v) 2) as [n|] eqn:U; [|discriminate].
  destruct (w_imported w (v_material v)) eqn:HI; [|discriminate]. unfold add_sector in H.
  destruct (existsb _ l); [discriminate|]. destruct (existsb _ l); [discriminate|]. injection H as <- <-.
  pose proof (unique_some _ _ _ _ _ _ U) as [N F]. exists n, rho. repeat split; try assumption.
  - destruct F as [F|(j & J & F)]; [now left|right]. exists (decimal j). split; [exact F|].
    destruct j as [|j]; [lia|]. split; [apply decimal_some|apply decimal_digits].
  - intros X. rewrite (unique_first _ _ _ _ X) in U. now injection U.
Qed.

Lemma nodup_snoc : forall A (l : list A) x, NoDup l -> ~ In x l -> NoDup (l ++ [x]).
Proof.
  intros A l x N I. induction N as [|y l Y N IH]; cbn; [constructor; [intros []|constructor]|]. constructor.
  - rewrite in_app_iff. intros [Q|[<-|[]]]; [contradiction|]. apply I. now left.
  - apply IH. intros Q. apply I. now right.
Qed.

(** What a build does, if it ends well. *)
Definition does (l : list sector) (level : Z) (l' : list sector) (level' : Z) (ps : list piece) : Prop :=
  exists new, l' = l ++ new /\ level' = (level + Z.of_nat (List.length new))%Z /\ ranked level new /\ Forall2 is_piece new ps /\
    (NoDup (map s_name l) -> NoDup (map s_name l')).
Lemma does_app : forall l z l1 z1 l2 z2 a b, does l z l1 z1 a -> does l1 z1 l2 z2 b -> does l z l2 z2 (a ++ b).
Proof.
  intros l z l1 z1 l2 z2 a b (n1 & -> & -> & R1 & F1 & N1) (n2 & -> & -> & R2 & F2 & N2). exists (n1 ++ n2).
  rewrite app_assoc, app_length, Nat2Z.inj_add. split; [reflexivity|]. split; [lia|]. split; [now apply ranked_app|].
  split; [now apply Forall2_app|auto].
Qed.

Lemma build_sound : forall fuel,
  (forall visited raw p level l level' l', build w fuel visited raw p level l = Built level' l' -> valid p ->
     forall f, (forall x, global_to_local p x = f x) -> exists ps, expands w raw f ps /\ does l level l' level' ps) /\
  (forall cs visited p level l level' l', build_all w fuel visited cs p level l = Built level' l' -> valid p ->
     forall f, (forall x, global_to_local p x = f x) -> exists ps, expands_all w cs f ps /\ does l level l' level' ps).
Proof.
  assert (NIL : forall l z, does l z l z []).
  { intros l z. exists []. rewrite app_nil_r. cbn. repeat split; auto. lia. }
  induction fuel as [|fuel [IH1 IH2]].
  - split; [intros; discriminate|]. intros [|c cs] visited p level l level' l' H V f F; cbn in H; [|discriminate].
    injection H as <- <-. exists []. split; [constructor|apply NIL].
  - assert (C : forall visited raw p level l level' l', build w (S fuel) visited raw p level l = Built level' l' -> valid p ->
     forall f, (forall x, global_to_local p x = f x) -> exists ps, expands w raw f ps /\ does l level l' level' ps).
    { intros visited raw p level l level' l' H V f F. rewrite build_step in H. destruct (existsb _ visited); [discriminate|].
      destruct (w_volume w (resolved w raw)) as [v|] eqn:E; [|discriminate].
      destruct (if v_assembly v then Built level l else build_sector w v p level l) as [lev1 l1| |] eqn:O; try discriminate.
      apply IH2 with (f := f) in H; [|exact V|exact F]. destruct H as (ps & EX & D).
      assert (OWN : exists a, own w v f a /\ does l level l1 lev1 a).
      { unfold own. destruct (v_assembly v).
        - injection O as <- <-. exists []. split; [reflexivity|apply NIL].
        - apply sector_built in O as (n & rho & N & HS & HI & HD & -> & -> & NM & _).
          exists [mkpiece (v_name v) (v_solid v) (v_material v) rho f]. split; [repeat split; auto; exists rho; auto|].
          exists [mksector n level (Some (v_solid v)) (v_material v) rho p]. cbn [List.length ranked s_level].
          split; [reflexivity|]. split; [lia|]. split; [auto|]. split.
          + constructor; [|constructor]. unfold is_piece. cbn. auto.
          + intros ND. rewrite map_app. cbn [map s_name]. now apply nodup_snoc. }
      destruct OWN as (a & A1 & A2). exists (a ++ ps). split; [|now apply (does_app _ _ l1 lev1)].
      apply (expands_one w raw v); [now apply means_resolved|exact A1|exact EX]. }
    split; [exact C|].
    induction cs as [|c cs IHc]; intros visited p level l level' l' H V f F; cbn [build_all] in H.
    + injection H as <- <-. exists []. split; [constructor|apply NIL].
    + destruct (build w (S fuel) visited (pv_ref c) (child_placement p c) level l) as [lev1 l1| |] eqn:E; try discriminate.
      apply C with (f := fun x => into_child c (f x)) in E; [|now apply child_valid|intros x; now rewrite child_frame, F].
      destruct E as (a & A1 & A2). apply IHc with (f := f) in H; [|exact V|exact F]. destruct H as (ps & P1 & P2).
      exists (a ++ ps). split; [now constructor|now apply (does_app _ _ l1 lev1)].
Qed.

(** ** Determined *)

Scheme expands_ind2 := Induction for expands Sort Prop
  with expands_all_ind2 := Induction for expands_all Sort Prop.
Lemma own_unique : forall v f a b, own w v f a -> own w v f b -> a = b.
Proof.
  intros v f a b A B. unfold own in *. destruct (v_assembly v); [congruence|].
  destruct A as (_ & _ & r & A1 & ->), B as (_ & _ & s & B1 & ->). assert (r = s) by congruence. now subst.
Qed.
Lemma expands_unique : forall raw f a, expands w raw f a -> forall b, expands w raw f b -> a = b.
Proof.
  apply (expands_ind2 w (fun raw f a _ => forall b, expands w raw f b -> a = b) (fun cs f a _ => forall b, expands_all w cs f b -> a = b)).
  - intros raw v f a l M O E IH b B. inversion B as [r v' ? a' l' M' O' E']. subst.
    apply means_resolved in M, M'. assert (v' = v) by congruence. subst v'. rewrite (own_unique _ _ _ _ O O'). f_equal. now apply IH.
  - intros f b B. now inversion B.
  - intros c cs f a l A IH1 L IH2 b B. inversion B as [|? ? ? a' l' A' L']. subst. rewrite (IH1 _ A'), (IH2 _ L'). reflexivity.
Qed.

(** ** Ends *)

Lemma build_ends : forall keys, (forall n v, w_volume w n = Some v -> In n keys) -> forall fuel,
  (forall visited raw p level l, NoDup visited -> incl visited keys -> (S (List.length keys) <= fuel + List.length visited)%nat ->
     build w fuel visited raw p level l <> Unfinished) /\
  (forall cs visited p level l, NoDup visited -> incl visited keys -> (S (List.length keys) <= fuel + List.length visited)%nat ->
     build_all w fuel visited cs p level l <> Unfinished).
Proof.
  intros keys K. induction fuel as [|fuel [IH1 IH2]].
  - split; intros; exfalso; pose proof (NoDup_incl_length H H0); lia.
  - assert (C : forall visited raw p level l, NoDup visited -> incl visited keys -> (S (List.length keys) <= S fuel + List.length visited)%nat ->
     build w (S fuel) visited raw p level l <> Unfinished).
    { intros visited raw p level l N I L. rewrite build_step. destruct (existsb _ visited) eqn:X; [discriminate|].
      destruct (w_volume w (resolved w raw)) as [v|] eqn:E; [|discriminate].
      destruct (if v_assembly v then Built level l else build_sector w v p level l) as [lev1 l1| |] eqn:O; [|discriminate|].
      - apply IH2.
        + constructor; [|exact N]. intros Y. assert (Z : existsb (str_eqb (resolved w raw)) visited = true).
          { apply existsb_exists. exists (resolved w raw). split; [exact Y|apply seq_refl]. } congruence.
        + intros x [<-|Y]; [now apply (K _ v)|now apply I].
        + cbn. lia.
      - exfalso. destruct (v_assembly v); [discriminate|]. unfold build_sector in O.
        destruct (w_has_solid w (v_solid v)); [|discriminate]. destruct (w_density w (v_material v)); [|discriminate].
        pose proof (unique_ends (map s_name l) (v_name v) (v_name v)) as Q. rewrite map_length in Q.
        destruct (unique_name _ _ _ _ _); [|contradiction]. destruct (w_imported w (v_material v)); [|discriminate].
        destruct (add_sector _ _); discriminate. }
    split; [exact C|]. induction cs as [|c cs IHc]; intros visited p level l N I L; cbn [build_all]; [discriminate|].
    pose proof (C visited (pv_ref c) (child_placement p c) level l N I L) as X.
    destruct (build w (S fuel) visited (pv_ref c) (child_placement p c) level l); [now apply IHc|discriminate|contradiction].
Qed.

(** ** No exceptions *)

(** The volume has only so many generations below it. *)
Fixpoint height (h : nat) (n : list ascii) : bool :=
  match h with
  | 0%nat => false
  | S h => match w_volume w n with Some v => forallb (fun c => height h (resolved w (pv_ref c))) (v_children v) | None => false end
  end.
Lemma height_more : forall h n, height h n = true -> height (S h) n = true.
Proof.
  induction h as [|h IH]; intros n H; [discriminate|]. cbn [height] in *. destruct (w_volume w n) as [v|]; [|discriminate].
  rewrite forallb_forall in *. intros c I. apply IH. now apply H.
Qed.
Lemma height_le : forall h h' n, (h <= h')%nat -> height h n = true -> height h' n = true.
Proof. induction 1; auto. intros. apply height_more. auto. Qed.
Lemma height_least : forall h n, height h n = true -> exists k, (k < h)%nat /\ height (S k) n = true /\ height k n = false.
Proof.
  induction h as [|h IH]; intros n H; [discriminate|]. destruct (height h n) eqn:E.
  - destruct (IH _ E) as (k & K & A & B). exists k. split; [lia|auto].
  - exists h. auto.
Qed.
Lemma expands_height : forall raw f ps, expands w raw f ps -> exists h, height h (resolved w raw) = true.
Proof.
  apply (expands_ind2 w (fun raw f ps _ => exists h, height h (resolved w raw) = true)
                        (fun cs f ps _ => exists h, forallb (fun c => height h (resolved w (pv_ref c))) cs = true)).
  - intros raw v f a l M O E [h H]. exists (S h). cbn [height]. apply means_resolved in M. now rewrite M.
  - intros f. now exists 0%nat.
  - intros c cs f a l A [h1 H1] L [h2 H2]. exists (h1 + h2)%nat. cbn [forallb]. apply andb_true_iff. split.
    + apply (height_le h1); [lia|exact H1].
    + rewrite forallb_forall in *. intros x I. apply (height_le h2); [lia|now apply H2].
Qed.

Lemma build_right : forall fuel,
  (forall raw f ps, expands w raw f ps -> forall h visited p level l, height h (resolved w raw) = true ->
     (forall v, In v visited -> height h v = false) -> valid p -> Forall (fun s => (s_level s < level)%Z) l ->
     forall r, build w fuel visited raw p level l <> Failed r) /\
  (forall cs f ps, expands_all w cs f ps -> forall h visited p level l, forallb (fun c => height h (resolved w (pv_ref c))) cs = true ->
     (forall v, In v visited -> height h v = false) -> valid p -> Forall (fun s => (s_level s < level)%Z) l ->
     forall r, build_all w fuel visited cs p level l <> Failed r).
Proof.
  induction fuel as [|fuel [IH1 IH2]].
  - split; [intros; discriminate|]. intros [|c cs] f ps E h visited p level l H V VP B r; cbn; discriminate.
  - assert (C : forall raw f ps, expands w raw f ps -> forall h visited p level l, height h (resolved w raw) = true ->
     (forall v, In v visited -> height h v = false) -> valid p -> Forall (fun s => (s_level s < level)%Z) l ->
     forall r, build w (S fuel) visited raw p level l <> Failed r).
    { intros raw f ps E h visited p level l H V VP B r. inversion E as [raw' v f' a l0 M O EA]. subst. rewrite build_step.
      destruct (existsb (str_eqb (resolved w raw)) visited) eqn:X.
      { apply existsb_exists in X as (y & I & Q). apply str_eqb_eq in Q. subst y. rewrite (V _ I) in H. discriminate. }
      apply means_resolved in M. rewrite M. destruct (height_least _ _ H) as (k & K & HK & NK).
      assert (HC : forallb (fun c => height k (resolved w (pv_ref c))) (v_children v) = true) by (cbn [height] in HK; now rewrite M in HK).
      assert (NV : forall x, In x (resolved w raw :: visited) -> height k x = false).
      { intros x [<-|I]; [exact NK|]. destruct (height k x) eqn:Y; [|reflexivity]. apply (height_le k h) in Y; [|lia]. now rewrite (V _ I) in Y. }
      unfold own in O. destruct (v_assembly v) eqn:AS.
      - now apply (IH2 _ _ _ EA k).
      - destruct O as (HS & HI & rho & HD & _). unfold build_sector. rewrite HS, HD, HI.
        destruct (unique_name (S (List.length l)) (map s_name l) (v_name v) (v_name v) 2) as [n|] eqn:U; [|discriminate].
        apply unique_some in U as [N _]. unfold add_sector. cbn [s_level s_name].
        destruct (existsb (fun t => (s_level t =? level)%Z) l) eqn:X1.
        { apply existsb_exists in X1 as (t & I & Q). apply Z.eqb_eq in Q. rewrite Forall_forall in B. specialize (B _ I). cbv beta in B. lia. }
        destruct (existsb (fun t => str_eqb (s_name t) n) l) eqn:X2.
        { apply existsb_exists in X2 as (t & I & Q). apply str_eqb_eq in Q. exfalso. apply N. rewrite <- Q. now apply in_map. }
        apply (IH2 _ _ _ EA k); auto. apply Forall_app. split.
        + eapply Forall_impl; [|exact B]. intros s S'. cbv beta in *. lia.
        + constructor; [cbn; lia|constructor]. }
    split; [exact C|]. induction cs as [|c cs IHc]; intros f ps E h visited p level l H V VP B r; cbn [build_all]; [discriminate|].
    inversion E as [|? ? ? a l0 A L]. subst. cbn [forallb] in H. apply andb_true_iff in H as [H1 H2].
    pose proof (C _ _ _ A h visited (child_placement p c) level l H1 V (child_valid p c VP) B) as X.
    destruct (build w (S fuel) visited (pv_ref c) (child_placement p c) level l) as [lev1 l1| |] eqn:Q; [|now destruct (X r0)|discriminate].
    apply (proj1 (build_sound (S fuel))) with (f := global_to_local (child_placement p c)) in Q; [|now apply child_valid|reflexivity].
    destruct Q as (ps & _ & new & -> & -> & RK & _). apply (IHc f l0 L h); auto. now apply below_more.
Qed.

End Build.

(** ** Replicas *)

Lemma copies_length : forall r, (0 < r_number r)%Z -> r_ref r <> [] -> vmag (r_direction r) <> 0 ->
  copies r = map (copy r) (seq 0 (Z.to_nat (r_number r))).
Proof.
  intros r N F D. unfold copies. destruct (Z.leb_spec (r_number r) 0); [lia|]. destruct (r_ref r); [contradiction|].
  destruct (Req_EM_T _ _); [contradiction|reflexivity].
Qed.
