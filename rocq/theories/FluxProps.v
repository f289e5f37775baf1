(** Theorems about the sampling of a tabulated flux (C159, C160). *)
From Coquelicot Require Import Coquelicot.
From Coq Require Import Reals List Sorted Lia Lra Psatz.
From Verif Require Import TraversalModel TableModel TableSpec TableProofs TableProps FluxModel FluxSpec FluxProofs.
Import ListNotations.
Open Scope R_scope.

(** * C159: the cumulative table of a flux *)

Section Cumulative.
Variable p : R -> R.
Variables emin emax : R.
Variable nodes : list R.

(** The bounds and the nodes strictly between them, in order. *)
Definition looked_at (es : list R) : Prop :=
  StronglySorted Rlt es /\ forall e, In e es <-> e = emin \/ e = emax \/ (In e nodes /\ emin < e < emax).
End Cumulative.

Lemma sorted_same l1 l2 : StronglySorted Rlt l1 -> StronglySorted Rlt l2 -> (forall x, In x l1 <-> In x l2) -> l1 = l2.
Proof.
  revert l2. induction l1 as [|a l1 IH]; intros [|b l2] H1 H2 H; auto.
  - exfalso. apply (H b). now left.
  - exfalso. apply (H a). now left.
  - apply StronglySorted_inv in H1 as [H1 A], H2 as [H2 B]. rewrite Forall_forall in A, B.
    assert (a = b) as <-.
    { destruct (proj1 (H a) (or_introl eq_refl)) as [E|Ia]; [auto|]. destruct (proj2 (H b) (or_introl eq_refl)) as [E|Ib]; [auto|].
      specialize (A _ Ib). specialize (B _ Ia). lra. }
    f_equal. apply IH; auto. intro x. split; intro I.
    + destruct (proj1 (H x) (or_intror I)) as [<- |J]; [|auto]. specialize (A _ I). lra.
    + destruct (proj2 (H x) (or_intror I)) as [<- |J]; [|auto]. specialize (B _ I). lra.
Qed.

Lemma looked_at_eq emin emax nodes es : emin < emax -> StronglySorted Rlt nodes -> looked_at emin emax nodes es ->
  es = flux_energies emin emax nodes.
Proof.
  intros H Hs [E1 E2]. apply sorted_same; [exact E1|now apply energies_sorted|]. intro x. rewrite E2. unfold flux_energies. cbn [In].
  rewrite in_app_iff, filter_In. cbn [In]. unfold strictly_within.
  split.
  - intros [->|[->|(I & L1 & L2)]]; auto. right; left. split; [auto|]. destruct (Rlt_dec emin x); [|lra]. now destruct (Rlt_dec x emax).
  - intros [<- |[[I W]|[<- |[]]]]; auto. destruct (Rlt_dec emin x); [|easy]. destruct (Rlt_dec x emax); [|easy]. right; right. auto.
Qed.

(** The cumulative values rise from 0 to 1 and the energies from the lower bound on. *)
Theorem C159_rises : forall p emin emax nodes es, emin < emax -> StronglySorted Rlt nodes ->
  looked_at emin emax nodes es -> (exists a b, neighbours es a b /\ supported p a b) ->
  let t := cdf_table p emin emax nodes in
  StronglySorted Rlt (map fst t) /\ StronglySorted Rlt (map snd t) /\
  (exists rest, t = (0, emin) :: rest) /\ last (map fst t) 0 = 1 /\
  (forall c e, In (c, e) t -> emin <= e <= emax).
Proof.
  intros p emin emax nodes es H Hs E (a & b & N & Su). rewrite (looked_at_eq _ _ _ _ H Hs E) in N.
  pose proof (m_pos p emin emax nodes H Hs a b N Su) as M. cbv zeta. repeat split.
  - now apply table_fst.
  - rewrite table_snd. now apply raw_snd.
  - apply table_head.
  - now apply table_last.
  - apply (in_map snd) in H0. cbn in H0. now apply (table_range p emin emax nodes H Hs) in H0.
  - apply (in_map snd) in H0. cbn in H0. now apply (table_range p emin emax nodes H Hs) in H0.
Qed.

Lemma step_area v k px py x y : (v + 1 / 2 * (px + py) * (y - x)) * k - v * k = k * ((px + py) / 2 * (y - x)).
Proof. field. Qed.

Lemma step_gap v k g : (v + g) * k - v * k = k * g.
Proof. ring. Qed.

(** Each interval with flux is a step of the table, and up to one common factor its
    probability is the area of the trapezoid over it; every other step spans a part without
    flux and has, with the same factor, the weight 1e-12. *)
Theorem C159_steps : forall p emin emax nodes es, emin < emax -> StronglySorted Rlt nodes ->
  looked_at emin emax nodes es -> (exists a b, neighbours es a b /\ supported p a b) ->
  let t := cdf_table p emin emax nodes in
  exists k, 0 < k /\
  (forall a b, neighbours es a b -> supported p a b ->
     exists c d, neighbours t (c, a) (d, b) /\ d - c = k * trapezoid_area p a b) /\
  (forall c a d b, neighbours t (c, a) (d, b) ->
     (neighbours es a b /\ supported p a b /\ d - c = k * trapezoid_area p a b) \/
     ((forall x y, neighbours es x y -> a <= x -> y <= b -> ~ supported p x y) /\ d - c = k * / 1000000000000)).
Proof.
  intros p emin emax nodes es H Hs E (a & b & N & Su). pose proof (looked_at_eq _ _ _ _ H Hs E) as ->.
  pose proof (m_pos p emin emax nodes H Hs a b N Su) as M. cbv zeta.
  set (es := flux_energies emin emax nodes) in *.
  set (mm := max_element (map fst (cdf_raw p es))) in *. exists (1 / mm).
  assert (K : 0 < 1 / mm) by (apply Rdiv_lt_0_compat; lra). repeat split; [exact K|..].
  - intros x y N1 S1. destruct (raw_hit p emin emax nodes H Hs x y N1 S1) as (v & Hv).
    apply (nb_map (fun q => (fst q * (1 / mm), snd q))) in Hv. cbn [fst snd] in Hv.
    eexists _, _. split; [exact Hv|]. apply step_area.
  - intros c x d y Nt. change (cdf_table p emin emax nodes) with (map (fun q => (fst q * (1 / mm), snd q)) (cdf_raw p es)) in Nt.
    apply nb_map_inv in Nt as ([c' x'] & [d' y'] & N1 & Q1 & Q2). cbn in Q1, Q2. injection Q1 as -> ->. injection Q2 as -> ->.
    apply (raw_steps p emin emax nodes H Hs) in N1. fold es in N1. destruct N1 as [(N1 & N2 & N3)|(N1 & _ & N3)]; cbn [fst snd] in *.
    + left. repeat split; auto. rewrite N3. apply step_area.
    + right. split; [exact N1|]. rewrite N3. apply step_gap.
Qed.

(** With flux in every interval, the cumulative value at an energy is the area up to it over
    the whole area. *)
Theorem C159_cumulative : forall p emin emax nodes es, emin < emax -> StronglySorted Rlt nodes ->
  looked_at emin emax nodes es -> (forall a b, neighbours es a b -> supported p a b) ->
  forall before e after s total, es = before ++ e :: after ->
  area_of p (before ++ [e]) s -> area_of p es total -> In (s / total, e) (cdf_table p emin emax nodes).
Proof.
  intros p emin emax nodes es H Hs E Hall before e after s total Eq A T.
  pose proof (looked_at_eq _ _ _ _ H Hs E) as ->.
  destruct (raw_sums p emin emax nodes H Hs before e after s total Hall Eq A T) as [I Em].
  rewrite table_eq. apply in_map_iff. exists (s, e). split; [|exact I]. cbn [fst snd]. rewrite Em. f_equal. unfold Rdiv. ring.
Qed.

(** * C160: the energy sampled from a tabulated flux *)

(** Where the cumulative values are evenly spaced or clearly not, the energy for a number
    between two of them is at the same fraction of the way between their energies. *)
Theorem C160_sample : forall p emin emax nodes es, 0 <= emin -> emin < emax -> StronglySorted Rlt nodes ->
  looked_at emin emax nodes es -> (exists a b, neighbours es a b /\ supported p a b) ->
  let t := cdf_table p emin emax nodes in even (map fst t) \/ ~ nearly_even (map fst t) ->
  forall c a d b u, neighbours t (c, a) (d, b) -> c < u <= d ->
  exists v, evaluate1 (add_table t) u = Ok v /\ a < v <= b /\ proportional c d a b u v.
Proof.
  intros p emin emax nodes es Z H Hs E Ex t Ev c a d b u N U.
  destruct (C159_rises p emin emax nodes es H Hs E Ex) as (F & G & (r & Hr) & L & Rg). fold t in F, G, Hr, L, Rg.
  assert (Hlt : c < d) by (eapply nb_sorted; [exact F|]; exact (nb_map fst _ _ _ N)).
  assert (Hab : a < b) by (eapply nb_sorted; [exact G|]; exact (nb_map snd _ _ _ N)).
  eexists. split; [eapply linear_value; eauto|].
  - intros x f I. apply Rg in I. lra.
  - rewrite Hr. now left.
  - assert (Q : 0 < (u - c) / (d - c) <= 1).
    { split; [apply Rdiv_lt_0_compat; lra|]. apply Rmult_le_reg_r with (d - c); [lra|]. unfold Rdiv. rewrite Rmult_assoc, Rinv_l by lra. lra. }
    replace ((b - a) * (u - c) / (d - c)) with ((b - a) * ((u - c) / (d - c))) by (unfold Rdiv; ring).
    split; [nra|]. unfold proportional. field. lra.
Qed.

(** So the sampled energy is within the bounds, and it is at most an energy of the table
    exactly when the number drawn is at most the cumulative value there. *)
Theorem C160_quantile : forall p emin emax nodes es, 0 <= emin -> emin < emax -> StronglySorted Rlt nodes ->
  looked_at emin emax nodes es -> (exists a b, neighbours es a b /\ supported p a b) ->
  let t := cdf_table p emin emax nodes in even (map fst t) \/ ~ nearly_even (map fst t) ->
  forall u, 0 < u <= 1 -> exists v, evaluate1 (add_table t) u = Ok v /\ emin < v <= emax /\
    forall c e, In (c, e) t -> (v <= e <-> u <= c).
Proof.
  intros p emin emax nodes es Z H Hs E Ex t Ev u U.
  destruct (C159_rises p emin emax nodes es H Hs E Ex) as (F & G & (r & Hr) & L & Rg). fold t in F, G, Hr, L, Rg.
  assert (Lo : exists c a d b, neighbours t (c, a) (d, b) /\ c < u <= d).
  { rewrite Hr in F, L |- *. apply locate; [exact F|]. rewrite L. exact U. }
  destruct Lo as (c & a & d & b & N & I). destruct (C160_sample p emin emax nodes es Z H Hs E Ex Ev c a d b u N I) as (v & Q & B & _).
  exists v. split; [exact Q|]. pose proof (nb_in _ _ _ N) as [I1 I2]. pose proof (Rg _ _ I1). pose proof (Rg _ _ I2).
  split; [lra|]. intros c' e' I'. destruct (entry_sides t c a d b c' e' F G N I') as [[]|[]]; lra.
Qed.

(** The generation probability is the value of the flux over its integral within the bounds, and nothing outside. *)
Theorem C160_density : forall emin emax points f, make_flux emin emax points = Ok f ->
  exists total, trapezoid_between (map fst points) (map snd points) emin emax = Ok total /\
  forall e, (e < emin \/ emax < e -> generation_probability f e = 0) /\
            (emin <= e <= emax -> forall v, evaluate1 (add_table points) e = Ok v -> generation_probability f e = v / total).
Proof.
  intros emin emax points f H. unfold make_flux in H. cbv zeta in H. destruct (trapezoid_between _ _ _ _) as [total| |]; try discriminate.
  exists total. split; [reflexivity|]. intros e. assert (f_min f = emin /\ f_max f = emax /\ f_table f = add_table points /\ f_integral f = total) as (E1 & E2 & E3 & E4).
  { match type of H with Ok ?a = Ok f => assert (K : a = f) by congruence end. rewrite <- K. auto. }
  unfold generation_probability. rewrite E1, E2, E3, E4. split.
  - intros [L | L]; [destruct (Rlt_dec e emin); [auto|lra]|]. destruct (Rlt_dec e emin); [auto|]. destruct (Rlt_dec emax e); [auto|lra].
  - intros L v V. destruct (Rlt_dec e emin); [lra|]. destruct (Rlt_dec emax e); [lra|]. unfold flux_pdf. now rewrite V.
Qed.
Print Assumptions C160_density.

(** ** Cases *)

Ltac rdec := repeat match goal with
  | |- context [Rlt_dec ?a ?b] => destruct (Rlt_dec a b); try lra
  | |- context [Rle_dec ?a ?b] => destruct (Rle_dec a b); try lra
  | |- context [Req_EM_T ?a ?b] => destruct (Req_EM_T a b); try lra
  end.
Ltac ssorted := repeat (constructor; [|repeat constructor; lra]); constructor.

Lemma nb3 {A} (a b c p q : A) : neighbours [a; b; c] p q <-> (p = a /\ q = b) \/ (p = b /\ q = c).
Proof. apply neighbours3. Qed.

(** A density in proportion to the energy between 1/2 and 5, with nodes at 0, 1, 3 and 7. *)
Example C159_case : In (35 / 99, 3) (cdf_table (fun e => e) (1/2) 5 [0; 1; 3; 7]).
Proof.
  replace (35 / 99) with ((35/8) / (99/8)) by field.
  apply (C159_cumulative _ (1/2) 5 [0; 1; 3; 7] [1/2; 1; 3; 5]) with (before := [1/2; 1]) (after := [5]); [lra|ssorted| | |reflexivity|..].
  - split; [ssorted|]. intro e. cbn [In]. split.
    + intros [<- |[<- |[<- |[<- |[]]]]]; auto; right; right; split; auto; lra.
    + intros [-> |[-> |[[<- |[<- |[<- |[<- |[]]]]] L]]]; auto; lra.
  - intros a b. rewrite nb_cons, nb3. unfold supported. intros [[-> ->]|[[-> ->]|[-> ->]]]; lra.
  - cbn [app]. replace (35/8) with (trapezoid_area (fun e => e) (1/2) 1 + (trapezoid_area (fun e => e) 1 3 + 0)) by (unfold trapezoid_area; field).
    repeat constructor.
  - replace (99/8) with (trapezoid_area (fun e => e) (1/2) 1 + (trapezoid_area (fun e => e) 1 3 + (trapezoid_area (fun e => e) 3 5 + 0))) by (unfold trapezoid_area; field).
    repeat constructor.
Qed.

Lemma line_table : cdf_table (fun e => e) 0 2 [0; 1; 2] = [(0, 0); (1/4, 1); (1, 2)].
Proof.
  unfold cdf_table, flux_energies. cbn [filter]. unfold strictly_within. rdec. cbn [app cdf_raw cdf_loop]. rdec.
  cbn [map fst snd max_element fold_left]. unfold Rmax; rdec. repeat (f_equal; try field).
Qed.

Lemma uneven_quarter x : 0 < x < 1 -> x <> 1/2 -> Rabs (x - 1/2) >= 1/100 -> ~ nearly_even [0; x; 1].
Proof.
  intros H1 _ H2 H. specialize (H 0 x ltac:(apply nb3; auto)). cbn in H. unfold Rdiv in *.
  replace ((1 - 0) * / (1 + 1)) with (1 * / 2) in H by field.
  replace (x - 0 - 1 * / 2) with (x - 1 * / 2) in H by ring. lra.
Qed.

Example C160_case : exists v, evaluate1 (add_table (cdf_table (fun e => e) 0 2 [0; 1; 2])) (1/8) = Ok v /\ v = 1/2.
Proof.
  destruct (C160_sample (fun e => e) 0 2 [0; 1; 2] [0; 1; 2]) with (c := 0) (a := 0) (d := 1/4) (b := 1) (u := 1/8) as (v & E & _ & P);
    [lra|lra|ssorted| | | | |lra|].
  - split; [ssorted|]. intro e. cbn [In]. split.
    + intros [<- |[<- |[<- |[]]]]; auto. right; right. split; auto. lra.
    + intros [-> |[-> |[I L]]]; auto.
  - exists 0, 1. split; [apply nb3; auto|]. unfold supported. lra.
  - right. rewrite line_table. cbn [map fst]. apply uneven_quarter; [lra|lra|]. rewrite Rabs_left; lra.
  - rewrite line_table. apply nb3. auto.
  - exists v. split; [exact E|]. unfold proportional in P. lra.
Qed.

(** ** What does not hold *)

Lemma make_ok emin emax points : (2 <= List.length points)%nat -> increasing points ->
  (forall x, In x (map fst points) -> emin <= x <= emax) ->
  let i := trapezoid_loop (map fst points) (map snd points) in
  let t := cdf_table (flux_pdf (add_table points) i) emin emax (map fst points) in
  make_flux emin emax points = Ok (mkflux emin emax (add_table points) (map fst points) (map snd points) i (map fst t) [] (add_table t)).
Proof.
  intros H1 H2 H3 i t. unfold make_flux. rewrite C56_whole; auto.
  - unfold trapezoid. rewrite !map_length, Nat.eqb_refl. reflexivity.
  - now rewrite map_length.
  - now rewrite !map_length.
  - unfold increasing in H2. clear -H2. induction H2 as [|a l H IH F]; constructor; [auto|].
    rewrite Forall_forall in F |- *. intros x I. left. auto.
Qed.

Definition ramp : list (R * R) := [(0, 0); (1, 2)].

Lemma ramp_increasing : increasing ramp.
Proof. unfold increasing. cbn. ssorted. Qed.
Lemma ramp_nonneg : values_nonneg ramp.
Proof. intros x f [E|[E|[]]]; injection E as <- <-; lra. Qed.
Lemma ramp_even : even (map fst ramp).
Proof. exists 1. cbn. intros a b N. apply nb_cons in N as [[-> ->]|N]; [ring|now apply nb_one in N]. Qed.
Lemma ramp_not_log : ~ nearly_log_even (map fst ramp).
Proof. intros [Q _]. specialize (Q 0 ltac:(cbn; auto)). lra. Qed.

Lemma ramp_value x : 0 <= x <= 1 -> evaluate1 (add_table ramp) x = Ok (2 * x).
Proof.
  intro H. destruct (Req_dec x 0) as [->|Hn].
  - rewrite (C55_nodes_even ramp) with (f := 0); [f_equal; ring|exact ramp_increasing|cbn; lia|exact ramp_even|exact ramp_not_log|exact ramp_nonneg|now left].
  - rewrite (linear_value ramp x 0 0 1 2); [f_equal; field|exact ramp_increasing|exact ramp_nonneg|now left|left; exact ramp_even| |lra].
    apply nb_cons. auto.
Qed.

Lemma ramp_pdf x : 0 <= x <= 1 -> flux_pdf (add_table ramp) 1 x = 2 * x.
Proof. intro H. unfold flux_pdf. rewrite ramp_value by auto. field. Qed.

Lemma ramp_cdf : cdf_table (flux_pdf (add_table ramp) 1) 0 1 [0; 1] = [(0, 0); (1, 1)].
Proof.
  unfold cdf_table, flux_energies. cbn [filter]. unfold strictly_within. rdec. cbn [app cdf_raw cdf_loop].
  rewrite !ramp_pdf by lra. rdec. cbn [map fst snd max_element fold_left]. unfold Rmax; rdec. repeat (f_equal; try field).
Qed.

Lemma ramp_flux : make_flux 0 1 ramp = Ok (mkflux 0 1 (add_table ramp) [0; 1] [0; 2] 1 [0; 1] [] (add_table [(0, 0); (1, 1)])).
Proof.
  rewrite make_ok; [|cbn; lia|exact ramp_increasing|cbn; intros x [<- |[<- |[]]]; lra].
  change (map fst ramp) with [0; 1]. change (map snd ramp) with [0; 2]. cbn [trapezoid_loop].
  replace ((1 - 0) * (1 / 2 * (2 + 0)) + 0) with 1 by field. rewrite ramp_cdf. reflexivity.
Qed.

Example C160_density_case : exists f, make_flux 0 1 ramp = Ok f /\ generation_probability f 2 = 0.
Proof.
  eexists. split; [apply ramp_flux|]. destruct (C160_density _ _ _ _ ramp_flux) as (tot & _ & G). apply G. lra.
Qed.

(** The nodes belonging to the cumulative values are never kept: the accessor answers with no
    nodes at all, however many cumulative values there are. *)
Theorem C159_nodes_refuted : exists emin emax points f, make_flux emin emax points = Ok f /\
  get_cdf_nodes f = [] /\ List.length (get_cdf f) = 2%nat.
Proof. exists 0, 1, ramp. eexists. split; [apply ramp_flux|]. split; reflexivity. Qed.

(** Within a bin the energies are sampled uniformly, whereas the generation probability
    follows the flux: half of the energies are sampled where it gives a quarter. *)
Theorem C160_pdf_refuted : exists emin emax points f, make_flux emin emax points = Ok f /\
  exists e, sample_energy f (1/2) = Ok e /\ is_RInt (generation_probability f) emin e (1/4) /\
  is_RInt (generation_probability f) emin emax 1.
Proof.
  exists 0, 1, ramp. eexists. split; [apply ramp_flux|]. exists (1/2). split.
  - unfold sample_energy. cbn [f_inverse]. rewrite (linear_value _ (1/2) 0 0 1 1); [f_equal; field|..].
    + unfold increasing. cbn. ssorted.
    + intros x f [E|[E|[]]]; injection E as <- <-; lra.
    + now left.
    + left. exact ramp_even.
    + apply nb_cons. auto.
    + lra.
  - assert (G : forall x, 0 <= x <= 1 -> generation_probability (mkflux 0 1 (add_table ramp) [0; 1] [0; 2] 1 [0; 1] [] (add_table [(0, 0); (1, 1)])) x = 2 * x).
    { intros x H. unfold generation_probability. cbn [f_min f_max f_table f_integral]. rdec. now apply ramp_pdf. }
    assert (I : forall b, 0 <= b <= 1 -> is_RInt (fun x => 2 * x) 0 b (b * b)).
    { intros b H. replace (b * b) with (minus (b * b) (0 * 0)) by (unfold minus, plus, opp; cbn; ring).
      apply (is_RInt_derive (fun x => x * x)).
      - intros x _. auto_derive; [exact Logic.I|ring].
      - intros x _. apply continuity_pt_filterlim. reg. }
    split.
    + apply (is_RInt_ext (fun x => 2 * x)); [|replace (1/4) with (1/2 * (1/2)) by field; apply I; lra].
      rewrite Rmin_left, Rmax_right by lra. intros x H. rewrite G by lra. reflexivity.
    + apply (is_RInt_ext (fun x => 2 * x)); [|replace 1 with (1 * 1) at 2 by field; apply I; lra].
      rewrite Rmin_left, Rmax_right by lra. intros x H. rewrite G by lra. reflexivity.
Qed.

Definition falling : list (R * R) := [(1, 5); (2, 1); (4, 1)].

Lemma falling_value x f : In (x, f) falling -> flux_pdf (add_table falling) 5 x = f / 5.
Proof.
  intro I. unfold flux_pdf. rewrite (C55_nodes_log_even falling) with (f := f); [reflexivity|..|exact I].
  - unfold increasing. cbn. ssorted.
  - cbn; lia.
  - cbn. intros y [<- |[<- |[<- |[]]]]; lra.
  - exists (ln 2). cbn [map fst falling]. intros a b. rewrite nb3. replace 4 with (2 * 2) by ring. rewrite ln_mult, ln_1 by lra.
    intros [[-> ->]|[-> ->]]; ring.
  - intros y g [E|[E|[E|[]]]]; injection E as <- <-; lra.
Qed.

Lemma falling_cdf : cdf_table (flux_pdf (add_table falling) 5) 1 4 [1; 2; 4] = [(0, 1); (3/5, 2); (1, 4)].
Proof.
  unfold cdf_table, flux_energies. cbn [filter]. unfold strictly_within. rdec. cbn [app cdf_raw cdf_loop].
  rewrite (falling_value 1 5), (falling_value 2 1), (falling_value 4 1) by (cbn; auto). rdec.
  cbn [map fst snd max_element fold_left]. unfold Rmax; rdec. repeat (f_equal; try field).
Qed.

(** With unevenly spaced cumulative values, the number zero is looked up in the last bin
    instead of the first, and the energy sampled can be below the lower bound. *)
Theorem C160_first_refuted : exists emin emax points f, make_flux emin emax points = Ok f /\
  exists e, sample_energy f 0 = Ok e /\ e < emin.
Proof.
  exists 1, 4, falling. eexists. split; [apply make_ok|].
  - cbn. lia.
  - unfold increasing. cbn. ssorted.
  - cbn. intros x [<- |[<- |[<- |[]]]]; lra.
  - exists 0. split; [|lra]. unfold sample_energy. cbn [f_inverse].
    change (map fst falling) with [1; 2; 4]. change (map snd falling) with [5; 1; 1]. cbn [trapezoid_loop].
    replace ((2 - 1) * (1 / 2 * (1 + 5)) + ((4 - 2) * (1 / 2 * (1 + 1)) + 0)) with 5 by field.
    rewrite falling_cdf. set (t := [(0, 1); (3/5, 2); (1, 4)]).
    assert (Hs : increasing t) by (unfold increasing; cbn; ssorted).
    assert (Ha : add_points (map fst t) = mkindexer false false [0; 3/5; 1]).
    { destruct (chosen_uneven (map fst t)) as (log & Hc & Hl); [exact Hs|cbn; lia| | |].
      - intros [Q _]. specialize (Q 0 ltac:(cbn; auto)). lra.
      - apply (uneven_quarter (3/5)); [lra|lra|]. rewrite Rabs_right; lra.
      - destruct log; [specialize (Hl eq_refl 0 ltac:(cbn; auto)); lra|]. rewrite Hc. reflexivity. }
    unfold evaluate1, add_table. rewrite by_abscissa_id by exact Hs. rewrite Ha. cbn [is_log index_of].
    unfold find_bin. cbn [is_regular points find_irregular lower_bound List.length].
    destruct (Rlt_dec 0 0); [lra|]. cbn. f_equal. unfold clip.
    match goal with |- context [Rlt_dec ?a 0] => assert (Q : a = -1) by field; rewrite Q end. rdec.
Qed.

Definition rising : list (R * R) := [(0, 0); (1, 0); (2, 2)].

Lemma rising_increasing : increasing rising.
Proof. unfold increasing. cbn. ssorted. Qed.
Lemma rising_nonneg : values_nonneg rising.
Proof. intros x f [E|[E|[E|[]]]]; injection E as <- <-; lra. Qed.
Lemma rising_even : even (map fst rising).
Proof. exists 1. cbn [map fst rising]. intros a b. rewrite nb3. intros [[-> ->]|[-> ->]]; ring. Qed.
Lemma rising_value x f : In (x, f) rising -> flux_pdf (add_table rising) 1 x = f.
Proof.
  intro I. unfold flux_pdf. rewrite (C55_nodes_even rising) with (f := f); [field|exact rising_increasing|cbn; lia|exact rising_even| |exact rising_nonneg|exact I].
  intros [Q _]. specialize (Q 0 ltac:(cbn; auto)). lra.
Qed.

Lemma rising_cdf : cdf_table (flux_pdf (add_table rising) 1) 0 2 [0; 1; 2] = [(0, 0); (gap_step / (1 + gap_step), 1); (1, 2)].
Proof.
  pose proof gap_pos as G. unfold cdf_table, flux_energies. cbn [filter]. unfold strictly_within. rdec. cbn [app cdf_raw cdf_loop].
  rewrite (rising_value 0 0), (rising_value 1 0), (rising_value 2 2) by (cbn; auto). revert G. generalize gap_step. intros g G. rdec.
  cbn [map fst snd max_element fold_left]. unfold Rmax; rdec. repeat (f_equal; try (field; lra)).
Qed.

(** Energies where the flux is zero are sampled too, with a small probability: half-way
    through a part without flux the generation probability is zero. *)
Theorem C160_gap_refuted : exists emin emax points f, make_flux emin emax points = Ok f /\
  exists u e, 0 < u < 1 /\ sample_energy f u = Ok e /\ generation_probability f e = 0.
Proof.
  exists 0, 2, rising. eexists. split; [apply make_ok|].
  - cbn. lia.
  - exact rising_increasing.
  - cbn. intros x [<- |[<- |[<- |[]]]]; lra.
  - pose proof gap_pos as G. exists (gap_step / (1 + gap_step) / 2), (1/2).
    assert (U : 0 < gap_step / (1 + gap_step) < 1/10).
    { assert (S1 : gap_step < 1/1000) by (unfold gap_step; lra). split; [apply Rdiv_lt_0_compat; lra|].
      apply Rmult_lt_reg_r with (1 + gap_step); [lra|]. unfold Rdiv at 1. rewrite Rmult_assoc, Rinv_l by lra. lra. }
    split; [lra|]. unfold sample_energy, generation_probability. cbn [f_inverse f_min f_max f_table f_integral].
    change (map fst rising) with [0; 1; 2]. change (map snd rising) with [0; 0; 2]. cbn [trapezoid_loop].
    replace ((1 - 0) * (1 / 2 * (0 + 0)) + ((2 - 1) * (1 / 2 * (2 + 0)) + 0)) with 1 by field.
    rewrite rising_cdf. split.
    + revert U. generalize (gap_step / (1 + gap_step)). intros g U.
      rewrite (linear_value _ (g / 2) 0 0 g 1); [f_equal; field; lra|..].
      * unfold increasing. cbn. ssorted.
      * intros x f [E|[E|[E|[]]]]; injection E as <- <-; lra.
      * now left.
      * right. apply (uneven_quarter g); [lra|lra|]. rewrite Rabs_left; lra.
      * apply nb3. auto.
      * lra.
    + rdec. unfold flux_pdf. rewrite (linear_value rising (1/2) 0 0 1 0); [field|exact rising_increasing|exact rising_nonneg|now left|left; exact rising_even|apply nb3; auto|lra].
Qed.

Print Assumptions C159_rises.
Print Assumptions C159_steps.
Print Assumptions C159_cumulative.
Print Assumptions C159_nodes_refuted.
Print Assumptions C160_sample.
Print Assumptions C160_quantile.
Print Assumptions C160_pdf_refuted.
Print Assumptions C160_first_refuted.
Print Assumptions C160_gap_refuted.
