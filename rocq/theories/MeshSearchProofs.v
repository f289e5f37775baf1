(** The search of the tree finds what trying every triangle finds. *)
From Coq Require Import Reals List Bool ZArith Lia Lra Permutation.
From Verif Require Import TraversalModel VectorModel MeshModel MeshSpec MeshProofs MeshTreeProofs.
Import ListNotations.
Open Scope R_scope.

Section Search.
Variable fl : R -> R.
Variable tris : list triangle.
Variable ns : list node.
Variable idx : list nat.
Variable r : wray.
Variable inv : vec.

Definition found (ti : nat) : list hit := match woop r (tri_at tris ti) with Some h => [h] | None => [] end.
Definition found_in (b e : nat) : list hit := flat_map found (part b e idx).

Lemma skip_one {A} b (l : list A) x : nth_error l b = Some x -> skipn b l = x :: skipn (S b) l.
Proof. revert b. induction l as [|a l IH]; intros [|b] E; try discriminate; cbn in *; [injection E as ->; auto|apply IH; auto]. Qed.
Lemma part_step {A} b e (l : list A) x : (b < e)%nat -> nth_error l b = Some x -> part b e l = x :: part (S b) e l.
Proof.
  intros L E. unfold part. replace (e - b)%nat with (S (e - S b)) by lia. rewrite (skip_one b l x E). reflexivity.
Qed.
Lemma part_empty {A} b (l : list A) : part b b l = [].
Proof. unfold part. rewrite Nat.sub_diag. reflexivity. Qed.

Lemma leaf_all count : forall offset, (offset + count <= length idx)%nat -> leaf_hits tris r idx offset count = Ok (found_in offset (offset + count)).
Proof.
  induction count as [|c IH]; intros o L; cbn [leaf_hits].
  - rewrite Nat.add_0_r. unfold found_in. rewrite part_empty. reflexivity.
  - destruct (nth_error idx o) as [ti|] eqn:E; [|apply nth_error_None in E; lia].
    rewrite IH by lia. replace (S o + c)%nat with (o + S c)%nat by lia.
    assert (H : found_in o (o + S c) = found ti ++ found_in (S o) (o + S c)) by (unfold found_in; rewrite (part_step o (o + S c) idx ti) by (auto; lia); reflexivity).
    rewrite H. unfold found. destruct (woop r (tri_at tris ti)); reflexivity.
Qed.

Lemma found_split b m e : (b <= m <= e)%nat -> found_in b e = found_in b m ++ found_in m e.
Proof.
  intros H. unfold found_in. rewrite <- flat_map_app. f_equal. unfold part.
  replace (e - b)%nat with ((m - b) + (e - m))%nat by lia. rewrite <- (firstn_skipn (m - b) (skipn b idx)) at 1.
  rewrite firstn_app. rewrite firstn_firstn, Nat.min_r by lia. f_equal. rewrite skip_skip. replace (b + (m - b))%nat with m by lia.
  rewrite firstn_length, skipn_length. destruct (le_lt_dec (m - b) (length idx - b)) as [L|L].
  - rewrite Nat.min_l by auto. f_equal. lia.
  - rewrite (skipn_all2 idx) by lia. rewrite !firstn_nil. reflexivity.
Qed.

Definition visit (fuel i : nat) (stack heap : list nat) (acc : list hit) : outcome (list hit) :=
  match nth_error ns i with
  | None => UB
  | Some nd =>
      if negb (ray_box (n_box nd) (w_org r) inv) then search tris fuel ns idx r inv stack heap acc
      else if Nat.ltb 0 (n_count nd) then
        match leaf_hits tris r idx (n_offset nd) (n_count nd) with
        | Ok hs => search tris fuel ns idx r inv stack heap (acc ++ hs)
        | Throw => Throw
        | UB => UB
        end
      else if Nat.ltb (length stack + 1) 63 then
        if Nat.ltb 64 (length stack + 2) then UB
        else search tris fuel ns idx r inv ((n_offset nd - 1)%nat :: n_offset nd :: stack) heap acc
      else search tris fuel ns idx r inv stack ((n_offset nd - 1)%nat :: n_offset nd :: heap) acc
  end.
Lemma search_heap fuel stack i heap acc : search tris (S fuel) ns idx r inv stack (i :: heap) acc = visit fuel i stack heap acc.
Proof. reflexivity. Qed.
Lemma search_stack fuel i stack acc : search tris (S fuel) ns idx r inv (i :: stack) [] acc = visit fuel i stack [] acc.
Proof. reflexivity. Qed.

(** What makes the search complete: leaves of at most [cap] triangles and boxes that are met
    when what they hold is. *)
Definition complete : Prop :=
  (length idx <= cap)%nat /\
  forall nd ti h, In ti idx -> holds fl tris (n_box nd) ti -> woop r (tri_at tris ti) = Some h -> ray_box (n_box nd) (w_org r) inv = true.

(** A pending node: size, place, beginning, end. *)
Definition pending : Type := (nat * nat * nat * nat)%type.
Definition p_size (p : pending) : nat := fst (fst (fst p)).
Definition p_node (p : pending) : nat := snd (fst (fst p)).
Definition p_begin (p : pending) : nat := snd (fst p).
Definition p_end (p : pending) : nat := snd p.
Definition good (p : pending) : Prop := tree fl tris (fun _ => True) ns idx (p_size p) (p_node p) (p_begin p) (p_end p) /\ (p_end p <= length idx)%nat.
Definition sizes (l : list pending) : nat := fold_right (fun p n => p_size p + n)%nat 0%nat l.
Definition all_found (l : list pending) : list hit := flat_map (fun p => found_in (p_begin p) (p_end p)) l.

Lemma sizes_app a b : sizes (a ++ b) = (sizes a + sizes b)%nat.
Proof. unfold sizes. induction a; cbn; auto. unfold sizes in *. lia. Qed.

Lemma tree_size ns0 P k i b e : tree fl tris P ns0 idx k i b e -> (1 <= k)%nat /\ (b < e)%nat.
Proof. intros T. induction T; split; lia. Qed.

Lemma missed P k i b e nd : tree fl tris P ns idx k i b e -> (e <= length idx)%nat -> nth_error ns i = Some nd -> complete ->
  ray_box (n_box nd) (w_org r) inv = false -> found_in b e = [].
Proof.
  intros T L E [_ C] Rb. unfold found_in.
  assert (H : forall ti, In ti (part b e idx) -> found ti = []).
  { intros ti I. unfold found. destruct (woop r (tri_at tris ti)) as [h|] eqn:W; auto. exfalso.
    apply In_nth_error in I. destruct I as [j J]. pose proof (tree_size _ _ _ _ _ _ T) as [_ BE].
    assert (j < e - b)%nat by (rewrite <- (part_length b e idx) by lia; apply nth_error_Some; congruence).
    rewrite nth_part in J by auto.
    assert (HD : holds fl tris (n_box nd) ti).
    { inversion T as [i' b' e' nd' Pi E0 B0 O0 C0 H0 |i' b' m e' nd' l k1 k2 Pi E0 B0 O0 C0 H0 T1 T2]; subst; rewrite E0 in E; injection E as <-; refine (H0 _ ti _ J); lia. }
    rewrite (C nd ti h) in Rb; auto; [discriminate|]. eapply nth_error_In; eauto. }
  induction (part b e idx) as [|a l IH]; cbn; auto. rewrite H by (left; auto). apply IH. intros; apply H; right; auto.
Qed.

Lemma search_all : forall fuel hs ss acc, Forall good hs -> Forall good ss -> (sizes hs + sizes ss <= fuel)%nat ->
  exists res extra, search tris fuel ns idx r inv (map p_node ss) (map p_node hs) acc = Ok res /\
    Permutation (res ++ extra) (acc ++ all_found (hs ++ ss)) /\ (complete -> extra = []).
Proof.
  induction fuel as [|fuel IH]; intros hs ss acc GH GS F.
  - assert (Z : forall l, Forall good l -> (sizes l <= 0)%nat -> l = []).
    { intros [|p l] G L; auto. inversion G as [|? ? [T _] _]; subst. apply tree_size in T. cbn in L. lia. }
    rewrite (Z hs), (Z ss) by (auto; lia). exists acc, []. cbn. rewrite !app_nil_r. auto.
  - assert (V : forall p hs ss, good p -> Forall good hs -> Forall good ss -> (p_size p + (sizes hs + sizes ss) <= S fuel)%nat ->
      exists res extra, visit fuel (p_node p) (map p_node ss) (map p_node hs) acc = Ok res /\
        Permutation (res ++ extra) (acc ++ found_in (p_begin p) (p_end p) ++ all_found (hs ++ ss)) /\ (complete -> extra = [])).
    { clear hs ss GH GS F. intros [[[k i] b] e] hs ss [T L] GH GS F. 
      change (p_node (k, i, b, e)) with i in *. change (p_begin (k, i, b, e)) with b in *. change (p_end (k, i, b, e)) with e in *. change (p_size (k, i, b, e)) with k in *.
      pose proof (tree_size _ _ _ _ _ _ T) as [K BE]. unfold visit.
      assert (EN : exists nd, nth_error ns i = Some nd) by (inversion T; eauto). destruct EN as [nd EN]. rewrite EN.
      destruct (ray_box (n_box nd) (w_org r) inv) eqn:RB; cbn [negb].
      - inversion T as [i' b' e' nd' Pi E0 B0 O0 C0 H0 |i' b' m e' nd' l k1 k2 Pi E0 B0 O0 C0 H0 T1 T2]; subst.
        + rewrite EN in E0. injection E0 as <-.
          assert (P0 : Nat.ltb 0 (n_count nd) = true) by (apply Nat.ltb_lt; rewrite C0; pose proof cap_8; lia). rewrite P0.
          rewrite leaf_all by lia. set (c := n_count nd) in *.
          destruct (IH hs ss (acc ++ found_in (n_offset nd) (n_offset nd + c)) GH GS) as (res & extra & E & P & X); [lia|].
          rewrite E. exists res, (found_in (n_offset nd + c) e ++ extra). split; [reflexivity|]. split.
          * rewrite (found_split (n_offset nd) (n_offset nd + c) e) by lia.
            rewrite Permutation_app_swap_app. rewrite P. rewrite <- !app_assoc. rewrite (Permutation_app_swap_app (found_in (n_offset nd + c) e)).
            apply Permutation_app_head. rewrite (Permutation_app_swap_app (found_in (n_offset nd + c) e)). reflexivity.
          * intros CC. rewrite (X CC), app_nil_r. destruct CC as [CC _]. assert (n_offset nd + c = e)%nat by lia. rewrite H. unfold found_in. rewrite part_empty. reflexivity.
        + rewrite EN in E0. injection E0 as <-. rewrite C0. change (Nat.ltb 0 0) with false. cbv iota. rewrite O0. replace (S l - 1)%nat with l by lia.
          assert (G1 : good (k1, l, b, m)) by (split; cbn; [auto|lia]). assert (G2 : good (k2, S l, m, e)) by (split; cbn; [auto|lia]).
          assert (FS : found_in b e = found_in b m ++ found_in m e) by (apply found_split; lia).
          destruct (Nat.ltb (length (map p_node ss) + 1) 63) eqn:S1.
          * apply Nat.ltb_lt in S1. assert (S2 : Nat.ltb 64 (length (map p_node ss) + 2) = false) by (apply Nat.ltb_ge; lia).
            rewrite S2.
            destruct (IH hs ((k1, l, b, m) :: (k2, S l, m, e) :: ss) acc GH) as (res & extra & E & P & X); [auto|change (sizes ((k1, l, b, m) :: (k2, S l, m, e) :: ss)) with (k1 + (k2 + sizes ss))%nat; lia|].
            exists res, extra. split; [exact E|]. split; [|auto]. rewrite P. apply Permutation_app_head. rewrite FS.
            unfold all_found. rewrite !flat_map_app. cbn. rewrite (Permutation_app_swap_app (flat_map _ hs)). rewrite <- !app_assoc.
            apply Permutation_app_head. unfold p_begin, p_end. cbn. rewrite (Permutation_app_swap_app (flat_map _ hs)). reflexivity.
          * destruct (IH ((k1, l, b, m) :: (k2, S l, m, e) :: hs) ss acc) as (res & extra & E & P & X); [auto|auto|change (sizes ((k1, l, b, m) :: (k2, S l, m, e) :: hs)) with (k1 + (k2 + sizes hs))%nat; lia|].
            exists res, extra. split; [exact E|]. split; [|auto]. rewrite P. apply Permutation_app_head. rewrite FS. cbn. rewrite <- !app_assoc. reflexivity.
      - destruct (IH hs ss acc GH GS) as (res & extra & E & P & X); [lia|].
        rewrite E. exists res, (found_in b e ++ extra). split; [reflexivity|]. split.
        + rewrite Permutation_app_swap_app. rewrite P. rewrite Permutation_app_swap_app. reflexivity.
        + intros CC. rewrite (X CC), app_nil_r. eapply missed; eauto. }
    destruct hs as [|p hs].
    + destruct ss as [|p ss].
      * exists acc, []. cbn. rewrite !app_nil_r. auto.
      * inversion GS; subst. destruct (V p [] ss) as (res & extra & E & P & X); auto.
        exists res, extra. split; [exact E|]. split; auto.
    + inversion GH; subst. destruct (V p hs ss) as (res & extra & E & P & X); auto; [change (sizes (p :: hs)) with (p_size p + sizes hs)%nat in F; lia|].
      exists res, extra. split; [exact E|]. split; auto.
Qed.
End Search.
