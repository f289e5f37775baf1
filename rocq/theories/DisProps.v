(** Properties C92 and C93. *)
From Coq Require Import Reals List Bool ZArith Lra Lia Psatz.
From Verif Require Import VectorModel RkModel RkSpec RkProofs RandomModel DipoleSpec DipoleProofs TurnModel TurnProofs MhSpec DisModel DisSpec DisProofs.
Import ListNotations.
Open Scope R_scope.

(** ** C92 *)

(** The points that [kinematicallyAllowed] lets pass are exactly those with x up to 1 for which
    there is a scattering that conserves energy and momentum. *)
Theorem C92_allowed_exact : forall p E M m x y, 0 < E -> vlen p = E -> 0 < M -> 0 <= m -> m <> E -> 0 < x -> 0 < y ->
  (allowed x y E M m = true <-> x <= 1 /\ exists k X, scattering p M m k X /\ bjorken p M k x y).
Proof.
  intros p E M m x y HE V HM Hm HmE Hx Hy. rewrite (allowed_iff x y E M m) by auto. split.
  - intros [A [B C]]. split; auto. apply (event_exists p E M m x y); auto.
  - intros [A [k [X [S B]]]]. destruct (event_parts p E M m x y k X HE V HM Hx Hy S B) as [Y Q]. auto.
Qed.
Print Assumptions C92_allowed_exact.

(** From an allowed point the code makes a scattering with the lepton energy [E * (1 - y)] and
    these Bjorken variables, and hadrons of the right mass. *)
Theorem C92_products : forall p E M m x y u, 0 < E -> vlen p = E -> clear_of_x p -> 0 < M -> 0 <= m -> m <> E -> 0 < x -> 0 < y ->
  allowed x y E M m = true ->
  exists k X, dis_products AbsDouble p 0 M m (x * y) y u = Some (k, X) /\ scattering p M m k X /\ bjorken p M k x y /\
  pe k = E * (1 - y) /\ pm X ^ 2 = M ^ 2 + 2 * E * M * y * (1 - x).
Proof.
  intros p E M m x y u HE V C HM Hm HmE Hx Hy A. apply (allowed_iff x y E M m HE HM Hm HmE Hx Hy) in A as [A1 [A2 A3]].
  destruct (products_ok p E M m x y u HE V C HM Hm (conj Hx A1) (conj Hy A2) A3) as [k [X [P1 [P2 [P3 [P4 P5]]]]]].
  exists k, X. split; auto. split; auto. split; auto. split; auto. replace (pm X ^ 2) with (pm X * pm X) by ring. rewrite P5. field. lra.
Qed.
Print Assumptions C92_products.

(** The cross section computed from a record with such a lepton is the one at x and y. *)
Theorem C92_record : forall c r E M m x y k X a b, 0 < E -> 0 < M -> vlen (dr_p r) = E -> dr_energy r = E -> dr_mass r = 0 -> dr_target_mass r = M ->
  0 < y -> scattering (dr_p r) M m k X -> bjorken (dr_p r) M k x y -> lepton_mass a = Some m -> is_lepton b = false ->
  (dr_types r = [a; b] /\ dr_secondaries r = [(pp k, pm k); (pp X, pm X)] \/
   dr_types r = [b; a] /\ dr_secondaries r = [(pp X, pm X); (pp k, pm k)]) ->
  dis_xs_record c r = dis_xs c E x y m (Some (2 * E * M * x * y)).
Proof.
  intros c r E M m x y k X a b HE HM V RE RM RT Hy S B LM NL T.
  assert (LA : is_lepton a = true).
  { unfold is_lepton. unfold lepton_mass in LM. apply andb_true_intro. rewrite !Z.leb_le. destruct (Z.abs a) as [|q|q] eqn:Q; try discriminate.
    repeat match type of LM with (match ?q with _ => _ end) = _ => destruct q; try discriminate LM end; split; discriminate. }
  destruct T as [[T1 T2]|[T1 T2]].
  - assert (I : dis_lepton_index (dr_types r) = 0%nat) by (unfold dis_lepton_index; rewrite T1; cbn [nth]; rewrite LA; reflexivity).
    apply (record_xs c r E M m x y k X (mkv 0 0 0, 0)); auto; rewrite ?I, ?T1, ?T2; cbn; auto.
  - assert (I : dis_lepton_index (dr_types r) = 1%nat) by (unfold dis_lepton_index; rewrite T1; cbn [nth]; rewrite NL; reflexivity).
    apply (record_xs c r E M m x y k X (mkv 0 0 0, 0)); auto; rewrite ?I, ?T1, ?T2; cbn; auto.
Qed.
Print Assumptions C92_record.

(** When the target mass of the record is not the one of the table, energy need not be
    conserved at an allowed point. *)
Theorem C92_target_mass_refuted : exists p E M M' m x y u k X, vlen p = E /\ clear_of_x p /\ 0 < M < M' /\ 0 < x < 1 /\ 0 < y < 1 /\
  allowed x y E M m = true /\ dis_products AbsDouble p 0 M' m (x * y) y u = Some (k, X) /\ pe k + pe X <> vlen p + M'.
Proof.
  set (p := mkv 1 0 0). set (x := 1 / 2). set (y := 8001 / 10000).
  assert (V : vlen p = 1). { unfold vlen, vdot, p. cbn. replace (_ + _ + _) with (Rsqr 1) by (unfold Rsqr; ring). apply sqrt_Rsqr; lra. }
  assert (C : clear_of_x p) by (left; cbn; auto).
  assert (PN : p <> mkv 0 0 0). { intros H. injection H as H. lra. }
  set (a := q_along x y 1 1 0). assert (A : a = 120015 / 100000) by (unfold a, q_along, x, y; field).
  set (s := q_square x y 1 1). assert (S : s = 8001 / 10000 + 8001 / 10000 * (8001 / 10000)) by (unfold s, q_square, x, y; field).
  assert (R1 : sqrt s < a). { rewrite <- (sqrt_square a) by lra. apply sqrt_lt_1_alt. rewrite S, A. lra. }
  assert (R2 : 12001 / 10000 < sqrt s). { rewrite <- (sqrt_square (12001 / 10000)) by lra. apply sqrt_lt_1_alt. rewrite S. lra. }
  set (pq := fun u => turn AbsDouble p u (mkp4 (1 * y) (mkv a 0 0) (- (1)))).
  pose proof (turn_dot p 0 (mkp4 (1 * y) (mkv a 0 0) (- (1))) PN C) as TD. pose proof (turn_square AbsDouble p 0 (mkp4 (1 * y) (mkv a 0 0) (- (1)))) as TS.
  change (turn AbsDouble p 0 (mkp4 (1 * y) (mkv a 0 0) (- (1)))) with (pq 0) in TD, TS.
  assert (EN : pe (pq 0) = 1 * y) by reflexivity. set (q := pq 0) in *.
  change (vlength p) with (vlen p) in TD. rewrite V in TD. cbn [vx pp] in TD. unfold vdot at 2 in TS. cbn [vx vy vz pp] in TS.
  assert (LQ : length_squared (pp q) = a * a) by (rewrite lsq, TS; ring).
  assert (MM : 0 <= (1 + 1 * y) * (1 + 1 * y) - a * a) by (rewrite A; unfold y; lra).
  exists p, 1, (999 / 1000), 1, 0, x, y, 0, (p4_of (vsub p (pp q)) 0), (mkp4 (1 + 1 * y) (pp q) (sqrt ((1 + 1 * y) * (1 + 1 * y) - a * a))).
  split; auto. split; auto. split; [lra|]. split; [unfold x; lra|]. split; [unfold y; lra|]. split; [|split].
  - apply allowed_iff; try (unfold x, y; lra). split; [unfold x; lra|]. split; [unfold y; lra|]. unfold q_across2, q_square, q_along, x, y. lra.
  - unfold dis_products. rewrite p4_of_massless, (p4_of_rest 1) by lra. rewrite V.
    replace (sqrt (vx p * vx p + vy p * vy p + vz p * vz p)) with 1 by (rewrite <- V; reflexivity).
    replace ((0 * 0 + 0 * 0 + 2 * 1 * 1 + 2 * 1 * 1 * (x * y) + 2 * 1 * 1 * (y - 1)) / (2 * 1)) with a by (unfold a, q_along; field).
    replace (0 * 0 + 1 * 1 + 2 * 1 * 1 * (x * y) + 1 * 1 * (y * y - 1)) with s by (unfold s, q_square; ring).
    destruct (Rlt_dec s 0); [rewrite S in *; lra|]. destruct (Rlt_dec (sqrt s) a); [|lra].
    destruct (Rlt_dec ((a - sqrt s) / sqrt s) _) as [L|L].
    2:{ exfalso. apply L. apply Rmult_lt_reg_r with (sqrt s); [lra|]. unfold Rdiv. rewrite Rmult_assoc, Rinv_l by lra. rewrite A. lra. }
    fold (pq 0). fold q. assert (P4E : pe (p4_add (p4_of (mkv 0 0 0) 1) q) = 1 + 1 * y). { unfold p4_add. cbn [pe]. rewrite EN. f_equal. apply (p4_of_rest 1). lra. }
    assert (P4P : pp (p4_add (p4_of (mkv 0 0 0) 1) q) = pp q) by (apply veq; cbn; ring).
    unfold p4_m. rewrite P4E, P4P, LQ. change (pp (p4_sub (p4_of p 0) q)) with (vsub p (pp q)). destruct (Rlt_dec _ 0); [lra|]. reflexivity.
  - rewrite V. cbn [pe]. assert (K : pe (p4_of (vsub p (pp q)) 0) = a - 1).
    { rewrite p4_of_massless. unfold vlen. rewrite vsub_dot. replace (vdot p p) with 1 by (rewrite <- vlen_square, V; ring). rewrite TD, <- lsq, LQ.
      replace (1 - 2 * (1 * a) + a * a) with (Rsqr (a - 1)) by (unfold Rsqr; ring). apply sqrt_Rsqr. rewrite A. lra. }
    rewrite K, A. unfold y. lra.
Qed.
Print Assumptions C92_target_mass_refuted.

(** A tau from a neutrino of 10 GeV along the z axis, x = y = 1/2. *)
Example C92_case : exists k X, dis_products AbsDouble (mkv 0 0 10) 0 1 tau_m (1 / 2 * (1 / 2)) (1 / 2) (1 / 3) = Some (k, X) /\
  scattering (mkv 0 0 10) 1 tau_m k X /\ bjorken (mkv 0 0 10) 1 k (1 / 2) (1 / 2) /\ pe k = 5 /\ pm X ^ 2 = 6.
Proof.
  assert (V : vlen (mkv 0 0 10) = 10). { unfold vlen, vdot. cbn. replace (_ + _ + _) with (Rsqr 10) by (unfold Rsqr; ring). apply sqrt_Rsqr; lra. }
  destruct (C92_products (mkv 0 0 10) 10 1 tau_m (1 / 2) (1 / 2) (1 / 3)) as [k [X [A [B [C [D F]]]]]]; auto; try (unfold tau_m; lra).
  - right. rewrite V. cbn. split; lra.
  - apply allowed_iff; try (unfold tau_m; lra). split; [lra|]. split; [lra|]. unfold q_across2, q_square, q_along, tau_m. lra.
  - exists k, X. split; auto. split; auto. split; auto. split; lra.
Qed.

(** ** C93 *)

(** What is asked of the calculation and of the record: the masses are those of the table, the
    neutrino is massless, the lower limit of the hadronic mass is the one [SetMinimumW2] sets. *)
Definition prepared (c : dis) (r : dis_record) (E M m : R) : Prop :=
  0 < E /\ vlen (dr_p r) = E /\ clear_of_x (dr_p r) /\ dr_energy r = E /\ dr_mass r = 0 /\ dr_target_mass r = M /\ d_target_mass c = M /\
  set_min_w2 M = Some (d_min_w2 c) /\
  exists a b, lepton_mass a = Some m /\ is_lepton b = false /\ (dr_types r = [a; b] \/ dr_types r = [b; a]).

Lemma prepared_facts c r E M m : prepared c r E M m -> 0 < M /\ M * M < d_min_w2 c /\ 0 <= m /\ length (dr_types r) = 2%nat /\
  lepton_mass (nth (dis_lepton_index (dr_types r)) (dr_types r) 0%Z) = Some m /\
  (dis_lepton_index (dr_types r) = 0%nat \/ dis_lepton_index (dr_types r) = 1%nat).
Proof.
  intros [HE [V [C [RE [RM [RT [TM [W [a [b [LM [NL T]]]]]]]]]]]]. unfold set_min_w2 in W. destruct (Rle_dec M 0) as [Z|Z]; [discriminate|]. injection W as W.
  split; [lra|]. split; [rewrite <- W; unfold pi0_m; nra|]. split; [apply (lepton_mass_nonneg _ _ LM)|].
  assert (LA : is_lepton a = true).
  { unfold is_lepton. unfold lepton_mass in LM. apply andb_true_intro. rewrite !Z.leb_le. destruct (Z.abs a) as [|q|q] eqn:Q; try discriminate.
    repeat match type of LM with (match ?q with _ => _ end) = _ => destruct q; try discriminate LM end; split; discriminate. }
  unfold dis_lepton_index. destruct T as [-> | ->]; cbn [nth length]; [rewrite LA|rewrite NL]; cbn [nth]; auto.
Qed.

(** Whatever the generator gives, the sampled point passes all cuts, the record conserves
    energy and momentum and has the sampled variables, and its cross section is the one of the
    table at the sampled point. *)
Theorem C93_sampled : forall c r E M m l x y r' k X, prepared c r E M m ->
  dis_sample AbsDouble c r l = Some (x, y, r', k, X) ->
  0 < x < 1 /\ 0 < y < 1 /\ d_min_q2 c <= 2 * E * M * x * y /\ d_min_w2 c <= pm X ^ 2 /\
  scattering (dr_p r) M m k X /\ bjorken (dr_p r) M k x y /\
  (forall v, sp_eval (d_spline c) (log10 E) (log10 x) (log10 y) = Some v -> dis_xs_record c r' = Some (d_unit c * Rpower 10 v)).
Proof.
  intros c r E M m l x y r' k X P. pose proof (prepared_facts c r E M m P) as [HM [MW [Hm [LT [LM IX]]]]].
  destruct P as [HE [V [C [RE [RM [RT [TM [_ _]]]]]]]]. unfold dis_sample.
  destruct (Nat.eqb _ 3); cbn [negb]; [|discriminate]. rewrite LM, RM, RT, p4_of_massless, V, (p4_of_rest M) by lra.
  destruct (rltb (log10 E) (sp_lo (d_spline c) 0)) eqn:R1; cbn [orb]; [discriminate|]. destruct (rltb (sp_hi (d_spline c) 0) (log10 E)) eqn:R2; [discriminate|].
  apply rltb_false in R1, R2. destruct (dis_limits_of c E M m) as [lim|] eqn:LI; [|discriminate]. apply limits_some in LI; auto.
  destruct (dis_start c E M m lim l) as [[s0 l0]|] eqn:ST; [|discriminate]. apply start_good in ST.
  destruct (dis_rounds c E M m lim 41 s0 l0) as [[s l1]|] eqn:RO; [|discriminate]. apply rounds_good in RO; auto.
  destruct l1 as [|u l1]; [discriminate|]. destruct RO as [G1 [G2 G3]].
  destruct (cuts_of c E M m (ds_lx s) (ds_ly s) HE HM Hm LI TM MW G1) as [X1 [Y1 [Q1 [W1 [A1 A2]]]]].
  rewrite ten_plus. set (x0 := ten (ds_lx s)) in *. set (y0 := ten (ds_ly s)) in *.
  destruct (products_ok (dr_p r) E M m x0 y0 u HE V C HM Hm ltac:(lra) Y1 A2) as [k0 [X0 [P1 [P2 [P3 [P4 P5]]]]]]. rewrite P1.
  intros H. injection H as <- <- <- <- <-. split; auto. split; auto. split; auto. split; [replace (pm X0 ^ 2) with (pm X0 * pm X0) by ring; rewrite P5; lra|].
  split; auto. split; auto. intros v EV.
  assert (LX : log10 x0 = ds_lx s) by apply log10_ten. assert (LY : log10 y0 = ds_ly s) by apply log10_ten.
  unfold dis_in_table in G2. apply andb_prop in G2 as [_ F]. rewrite <- LX, <- LY in F.
  pose proof (xs_at c E M m x0 y0 v X1 Y1 TM (conj R1 R2) Q1 W1 A1 F EV) as XS. fold (ten v). rewrite <- XS.
  apply (record_xs c _ E M m x0 y0 k0 X0 (mkv 0 0 0, 0)); cbn [dr_p dr_energy dr_mass dr_target_mass dr_types dr_secondaries]; auto; try lra.
  - destruct IX as [-> | ->]; reflexivity.
  - destruct IX as [-> | ->]; cbn; lia.
Qed.
Print Assumptions C93_sampled.

(** The loop takes the first good point of those drawn. *)
Theorem C93_draw : forall good lim l lx ly rest, dis_draw good lim l = Some (lx, ly, rest) ->
  exists bad a b, l = concat (map (fun ab => [fst ab; snd ab]) bad) ++ a :: b :: rest /\
  lx = uniform (l_xmin lim) 0 a /\ ly = uniform (l_ymin lim) (l_ymax lim) b /\ good lx ly = true /\
  Forall (fun ab => good (uniform (l_xmin lim) 0 (fst ab)) (uniform (l_ymin lim) (l_ymax lim) (snd ab)) = false) bad.
Proof.
  intros good lim l lx ly rest. assert (H : forall n l, (length l <= n)%nat -> dis_draw good lim l = Some (lx, ly, rest) ->
    exists bad a b, l = concat (map (fun ab => [fst ab; snd ab]) bad) ++ a :: b :: rest /\
    lx = uniform (l_xmin lim) 0 a /\ ly = uniform (l_ymin lim) (l_ymax lim) b /\ good lx ly = true /\
    Forall (fun ab => good (uniform (l_xmin lim) 0 (fst ab)) (uniform (l_ymin lim) (l_ymax lim) (snd ab)) = false) bad); [|apply (H (length l)); auto].
  clear l. induction n as [|n IH]; intros [|a [|b l]] L; cbn [dis_draw]; try discriminate; cbn [length] in L; [lia|].
  destruct (good (uniform _ _ a) (uniform _ _ b)) eqn:G.
  - intros H. injection H as <- <- <-. exists [], a, b. cbn. auto.
  - intros H. apply IH in H; [|lia]. destruct H as [bad [a' [b' [H1 [H2 [H3 [H4 H5]]]]]]]. exists ((a, b) :: bad), a', b'. cbn. rewrite H1. repeat (split; auto).
Qed.
Print Assumptions C93_draw.

Definition section_at (c : dis) (E m x y : R) : R := match dis_xs c E x y m None with Some s => s | None => 0 end.

Lemma section_weight c E M m lx ly w : 0 < E -> 0 < M -> 0 <= m -> m < E -> d_target_mass c = M -> M * M < d_min_w2 c ->
  sp_lo (d_spline c) 0 <= log10 E <= sp_hi (d_spline c) 0 ->
  dis_cuts c E M m lx ly = true -> dis_in_table (d_spline c) (log10 E) lx ly = true -> dis_weight c (log10 E) lx ly = Some w ->
  section_at c E m (ten lx) (ten ly) = d_unit c * (w / (ten lx * ten ly)) /\ 0 < w.
Proof.
  intros HE HM Hm HmE TM MW RR G1 G2 G3. destruct (cuts_of c E M m lx ly HE HM Hm HmE TM MW G1) as [X1 [Y1 [Q1 [W1 [A1 A2]]]]].
  unfold dis_in_table in G2. apply andb_prop in G2 as [_ F]. unfold dis_weight in G3. destruct (sp_eval _ _ lx ly) as [v|] eqn:EV; [|discriminate].
  injection G3 as <-. rewrite <- (log10_ten lx), <- (log10_ten ly) in F, EV.
  pose proof (xs_at c E M m _ _ v X1 Y1 TM RR Q1 W1 A1 F EV) as XS. pose proof (ten_pos v).
  unfold section_at. replace (dis_xs c E (ten lx) (ten ly) m None) with (dis_xs c E (ten lx) (ten ly) m (Some (2 * E * M * ten lx * ten ly))) by (unfold dis_xs; rewrite TM; reflexivity).
  rewrite XS, ten_plus. split; [field; lra|]. apply Rmult_lt_0_compat; auto. apply Rmult_lt_0_compat; lra.
Qed.

(** One round goes from a point to another with a probability that balances the cross section,
    the points being proposed with a density in x and y in proportion to 1 / (x y): the
    logarithms are uniform. *)
Theorem C93_balance : forall c E M m lim, 0 < E -> 0 < M -> 0 <= m -> m < E -> d_target_mass c = M -> set_min_w2 M = Some (d_min_w2 c) -> 0 < d_unit c ->
  sp_lo (d_spline c) 0 <= log10 E <= sp_hi (d_spline c) 0 ->
  let reached lx ly w := dis_cuts c E M m lx ly = true /\ dis_in_table (d_spline c) (log10 E) lx ly = true /\ dis_weight c (log10 E) lx ly = Some w in
  exists acc : R * R -> R * R -> R,
  (forall lx ly w l0 lx' ly' w' rest, reached lx ly w -> reached lx' ly' w' -> (lx', ly') <> (lx, ly) ->
     dis_draw (dis_cuts c E M m) lim l0 = Some (lx', ly', []) ->
     probability_is (fun u => exists r', dis_round c E M m lim (mkds lx ly (Some w)) (l0 ++ u :: rest) = Some (mkds lx' ly' (Some w'), r'))
       (acc (ten lx, ten ly) (ten lx', ten ly'))) /\
  (forall lx ly w lx' ly' w', reached lx ly w -> reached lx' ly' w' ->
     let x := ten lx in let y := ten ly in let x' := ten lx' in let y' := ten ly' in
     section_at c E m x y * (/ (x' * y') * acc (x, y) (x', y')) = section_at c E m x' y' * (/ (x * y) * acc (x', y') (x, y))).
Proof.
  intros c E M m lim HE HM Hm HmE TM W2 U RR reached.
  assert (MW : M * M < d_min_w2 c). { unfold set_min_w2 in W2. destruct (Rle_dec M 0); [discriminate|]. injection W2 as W2. rewrite <- W2. unfold pi0_m. nra. }
  assert (SW : forall lx ly w, reached lx ly w -> section_at c E m (ten lx) (ten ly) = d_unit c * (w / (ten lx * ten ly)) /\ 0 < w).
  { intros lx ly w [A [B C]]. apply (section_weight c E M); auto. }
  set (wt := fun q : R * R => fst q * snd q * section_at c E m (fst q) (snd q)).
  assert (WT : forall lx ly w, reached lx ly w -> wt (ten lx, ten ly) = d_unit c * w /\ 0 < w).
  { intros lx ly w H. destruct (SW _ _ _ H) as [S W]. split; auto. unfold wt. cbn [fst snd]. rewrite S. pose proof (ten_pos lx). pose proof (ten_pos ly). field. lra. }
  exists (fun a b => Rmin 1 (wt b / wt a)). split.
  - intros lx ly w l0 lx' ly' w' rest H1 H2 N D. destruct (WT _ _ _ H1) as [-> P1]. destruct (WT _ _ _ H2) as [-> P2].
    replace (d_unit c * w' / (d_unit c * w)) with (w' / w) by (field; lra). assert (Q : 0 < w' / w) by (apply Rdiv_lt_0_compat; auto). split.
    + unfold Rmin. destruct (Rle_dec _ _); lra.
    + intros u Hu. destruct H2 as [_ [T2 Wt2]]. apply (round_prob c E M m lim (mkds lx ly (Some w)) l0 lx' ly' w w' rest); auto.
  - intros lx ly w lx' ly' w' H1 H2 x y x' y'. destruct (WT _ _ _ H1) as [E1 P1]. destruct (WT _ _ _ H2) as [E2 P2]. fold x y in E1. fold x' y' in E2.
    assert (X : 0 < x * y) by (apply Rmult_lt_0_compat; apply ten_pos). assert (X' : 0 < x' * y') by (apply Rmult_lt_0_compat; apply ten_pos).
    assert (Z1 : 0 < wt (x, y)) by (rewrite E1; apply Rmult_lt_0_compat; auto). assert (Z2 : 0 < wt (x', y')) by (rewrite E2; apply Rmult_lt_0_compat; auto).
    pose proof (min_swap _ _ Z1 Z2) as MS. set (a1 := Rmin 1 (wt (x', y') / wt (x, y))) in *. set (a2 := Rmin 1 (wt (x, y) / wt (x', y'))) in *. clearbody a1 a2.
    unfold wt in MS. cbn [fst snd] in MS. set (s1 := section_at c E m x y) in *. set (s2 := section_at c E m x' y') in *.
    apply Rmult_eq_reg_l with (x * y * (x' * y')); [|nra].
    replace (x * y * (x' * y') * (s1 * (/ (x' * y') * a1))) with (x * y * s1 * a1) by (field; nra).
    replace (x * y * (x' * y') * (s2 * (/ (x * y) * a2))) with (x' * y' * s2 * a2) by (field; nra). exact MS.
Qed.
Print Assumptions C93_balance.

(** If the spline is not a number at the first point the chain never leaves it. *)
Theorem C93_nan_start : forall c E1 E2 m lim n s l s' rest, ds_xs s = None -> dis_rounds c E1 E2 m lim n s l = Some (s', rest) -> s' = s.
Proof. intros. eapply rounds_nan; eauto. Qed.
Print Assumptions C93_nan_start.

(** ** A run: neutral current scattering at 10 GeV, the same point drawn in every round. *)

Definition flat : spline := mkspline 3 (fun _ => - (2)) (fun _ => 2) (fun _ _ _ => true) (fun _ _ _ => Some (- (38))).
Definition flat_dis : dis := mkdis flat (- (2)) 2 (fun _ => - (38)) [14%Z] 1 1 ((1 + pi0_m) ^ 2) 1.
Definition case_record : dis_record := mkdr 14 10 (mkv 0 0 10) 0 1 [14%Z; 2212%Z] [].
Definition half_u : R := 1 - log10 2 / log10 20.
Definition case_draws : list R := [half_u; half_u] ++ concat (repeat [half_u; half_u; 1 / 2] 41) ++ [1 / 3].

Lemma log10_inv v : 0 < v -> log10 (/ v) = - log10 v.
Proof. intros H. unfold log10. rewrite ln_Rinv by auto. field. pose proof ln10. lra. Qed.
Lemma log10_1 : log10 1 = 0.
Proof. unfold log10. rewrite ln_1. unfold Rdiv. ring. Qed.
Lemma log10_lt a b : 0 < a -> a < b -> log10 a < log10 b.
Proof. intros A H. unfold log10. apply Rmult_lt_compat_r; [apply Rinv_0_lt_compat, ln10|]. apply ln_increasing; auto. Qed.
Lemma case_limits : dis_limits_of flat_dis 10 1 0 = Some (mklim (- log10 20) (- log10 20) 0).
Proof.
  unfold dis_limits_of. cbn [d_min_q2 flat_dis]. replace (1 - 0 / 10) with 1 by lra. replace (1 / (2 * 10 * 1)) with (/ 20) by lra. replace (1 / (2 * 10 * 1 * 1)) with (/ 20) by lra.
  replace (rltb 0 1) with true by (symmetry; apply rltb_true; lra). replace (rltb 0 (/ 20)) with true by (symmetry; apply rltb_true; lra). cbn [andb].
  rewrite log10_1, log10_inv by lra. reflexivity.
Qed.
Lemma case_uniform : uniform (- log10 20) 0 half_u = log10 (1 / 2).
Proof.
  assert (L : 0 < log10 20) by (rewrite <- log10_1; apply log10_lt; lra). unfold uniform. destruct (Rlt_dec 0 (- log10 20)); [lra|].
  replace (1 / 2) with (/ 2) by lra. rewrite log10_inv by lra. unfold half_u. field. lra.
Qed.
Lemma case_allowed : allowed (1 / 2) (1 / 2) 10 1 0 = true.
Proof. apply allowed_iff; try lra. split; [lra|]. split; [lra|]. unfold q_across2, q_square, q_along. lra. Qed.
Lemma case_cuts : dis_cuts flat_dis 10 1 0 (log10 (1 / 2)) (log10 (1 / 2)) = true.
Proof.
  unfold dis_cuts. cbn [flat_dis d_min_q2 d_min_w2 d_target_mass]. rewrite ten_plus, ten_log10 by lra. rewrite case_allowed.
  replace (rltb _ 1) with false by (symmetry; apply rltb_false; lra). replace (rltb _ ((1 + pi0_m) ^ 2)) with false by (symmetry; apply rltb_false; unfold pi0_m; lra). reflexivity.
Qed.
Lemma case_table e : dis_in_table flat e (log10 (1 / 2)) (log10 (1 / 2)) = true.
Proof.
  unfold dis_in_table. cbn [flat sp_lo sp_hi sp_found]. assert (H : log10 (1 / 2) < 0) by (rewrite <- log10_1; apply log10_lt; lra).
  assert (H' : - (2) < log10 (1 / 2)). { rewrite <- (log10_ten (- (2))). apply log10_lt; [apply ten_pos|]. unfold ten. rewrite Rpower_Ropp. replace 2 with (INR 2) at 1 by (cbn; lra). rewrite Rpower_pow by lra. cbn. lra. }
  replace (rltb (log10 (1 / 2)) (- (2))) with false by (symmetry; apply rltb_false; lra). replace (rltb 2 (log10 (1 / 2))) with false by (symmetry; apply rltb_false; lra). reflexivity.
Qed.
Definition case_state : dis_state := mkds (log10 (1 / 2)) (log10 (1 / 2)) (dis_weight flat_dis (log10 10) (log10 (1 / 2)) (log10 (1 / 2))).
Lemma case_start t : dis_start flat_dis 10 1 0 (mklim (- log10 20) (- log10 20) 0) (half_u :: half_u :: t) = Some (case_state, t).
Proof. unfold dis_start. cbn [dis_draw l_xmin l_ymin l_ymax]. rewrite !case_uniform, case_cuts. cbn [d_spline flat_dis]. rewrite case_table. reflexivity. Qed.
Lemma case_round t : dis_round flat_dis 10 1 0 (mklim (- log10 20) (- log10 20) 0) case_state (half_u :: half_u :: 1 / 2 :: t) = Some (case_state, t).
Proof.
  unfold dis_round. cbn [dis_draw l_xmin l_ymin l_ymax]. rewrite !case_uniform, case_cuts. cbn [d_spline flat_dis]. rewrite case_table.
  unfold case_state at 1 2. cbn [ds_xs]. unfold dis_weight at 1 2 3. cbn [d_spline flat_dis flat sp_eval]. unfold dis_accept.
  set (w := ten _ * ten _). assert (W : 0 < w) by (apply Rmult_lt_0_compat; apply ten_pos). destruct (Req_EM_T w 0); [lra|].
  replace (w / w) with 1 by (field; lra). destruct (Rlt_dec 1 1); [lra|]. rewrite uniform01. replace (rltb (1 / 2) 1) with true by (symmetry; apply rltb_true; lra). reflexivity.
Qed.
Lemma case_rounds n t : dis_rounds flat_dis 10 1 0 (mklim (- log10 20) (- log10 20) 0) n case_state (concat (repeat [half_u; half_u; 1 / 2] n) ++ t) = Some (case_state, t).
Proof. induction n as [|n IH]; [reflexivity|]. cbn [repeat concat app dis_rounds]. rewrite case_round. exact IH. Qed.

Example C93_case : exists r' k X, prepared flat_dis case_record 10 1 0 /\
  dis_sample AbsDouble flat_dis case_record case_draws = Some (1 / 2, 1 / 2, r', k, X) /\
  scattering (mkv 0 0 10) 1 0 k X /\ bjorken (mkv 0 0 10) 1 k (1 / 2) (1 / 2) /\ dis_xs_record flat_dis r' = Some (1 * Rpower 10 (- (38))).
Proof.
  assert (V : vlen (mkv 0 0 10) = 10). { unfold vlen, vdot. cbn. replace (_ + _ + _) with (Rsqr 10) by (unfold Rsqr; ring). apply sqrt_Rsqr; lra. }
  assert (P : prepared flat_dis case_record 10 1 0).
  { unfold prepared. cbn [case_record dr_p dr_energy dr_mass dr_target_mass dr_types flat_dis d_target_mass d_min_w2]. split; [lra|]. split; auto.
    split; [right; rewrite V; cbn; split; lra|]. do 4 (split; auto). split.
    - unfold set_min_w2. destruct (Rle_dec 1 0); [lra|]. reflexivity.
    - exists 14%Z, 2212%Z. auto. }
  destruct (products_ok (mkv 0 0 10) 10 1 0 (1 / 2) (1 / 2) (1 / 3)) as [k [X [Q _]]]; try lra; auto.
  { right. rewrite V. cbn. split; lra. } { unfold q_across2, q_square, q_along. lra. }
  assert (S : exists r', dis_sample AbsDouble flat_dis case_record case_draws = Some (1 / 2, 1 / 2, r', k, X)).
  { unfold dis_sample. cbn [d_spline flat_dis flat sp_ndim Nat.eqb negb]. cbn [case_record dr_p dr_mass dr_target_mass dr_types]. rewrite p4_of_massless, V, (p4_of_rest 1) by lra.
    change (dis_lepton_index [14%Z; 2212%Z]) with 0%nat. cbn [nth]. change (lepton_mass 14) with (Some 0).
    assert (L1 : log10 10 = 1). { unfold log10. field. pose proof ln10. lra. }
    rewrite L1. fold flat. fold flat_dis. rewrite case_limits. unfold case_draws. change ([half_u; half_u] ++ ?t) with (half_u :: half_u :: t). rewrite case_start, case_rounds.
    unfold case_state. cbn [ds_lx ds_ly]. rewrite ten_plus, ten_log10 by lra. rewrite Q.
    cbn [flat sp_lo sp_hi]. replace (rltb 1 (- (2))) with false by (symmetry; apply rltb_false; lra). replace (rltb 2 1) with false by (symmetry; apply rltb_false; lra). eexists. reflexivity. }
  destruct S as [r' S]. destruct (C93_sampled flat_dis case_record 10 1 0 case_draws (1 / 2) (1 / 2) r' k X P S) as [_ [_ [_ [_ [A [B D]]]]]].
  exists r', k, X. split; [exact P|]. split; [exact S|]. split; [exact A|]. split; [exact B|]. apply D. reflexivity.
Qed.
