(** Runs of the sampler, the mixture and the cache. *)
From Coquelicot Require Import Coquelicot.
From Coq Require Import Reals List Lra Psatz ZArith Lia Bool.
From Verif Require Import VectorModel RkModel RkSpec RkProofs RandomModel CharmModel CharmSpec CharmQuad CharmProofs.
Import ListNotations.
Open Scope R_scope.

Definition drawn (u : R) : Prop := 0 <= u < 1.

Lemma ps_range mD mK ml draws m23 rest : 0 <= ml -> ml < mD - mK -> Forall drawn draws ->
  ps_loop mD mK ml draws = Some (m23, rest) -> ml <= m23 < mD - mK /\ Forall drawn rest.
Proof.
  intros HL HD. revert m23 rest.
  assert (G : forall n draws, (length draws <= n)%nat -> forall m23 rest, Forall drawn draws ->
    ps_loop mD mK ml draws = Some (m23, rest) -> ml <= m23 < mD - mK /\ Forall drawn rest).
  { intros n. induction n as [|n IH]; intros ds LN m23 rest F E.
    - destruct ds; [discriminate | cbn in LN; lia].
    - destruct ds as [|u [|v ds]]; try discriminate. cbn [ps_loop] in E.
      inversion F as [|? ? FU F1]; subst. inversion F1 as [|? ? FV F2]; subst.
      destruct (Rlt_dec _ _) as [C|C].
      + apply (IH ds); [cbn in LN; lia | exact F2 | exact E].
      + inversion E; subst. split; [|exact F2]. rewrite uniform01. unfold drawn in FU. nra. }
  intros m23 rest F E. exact (G (length draws) draws (le_n _) m23 rest F E).
Qed.

Lemma rest_total mD mK ml draws ds fuel k l nu : 0 < mD -> 0 <= mK -> 0 < ml -> mK + ml < mD ->
  Forall drawn draws -> me_loop fuel ds mD mK ml draws = Some (k, l, nu) ->
  exists m23, ml <= m23 < mD - mK /\
  on_shell k /\ on_shell l /\ on_shell nu /\ pm k = mK /\ pm l = ml /\ pm nu = 0 /\
  pe k + pe l + pe nu = mD /\ vadd (vadd (pp k) (pp l)) (pp nu) = mkv 0 0 0 /\
  (pe l + pe nu) * (pe l + pe nu) - vdot (vadd (pp l) (pp nu)) (vadd (pp l) (pp nu)) = m23 * m23.
Proof.
  intros HD HK HL HS. revert draws. induction fuel as [|f IH]; intros draws F E; [discriminate|].
  cbn [me_loop] in E. destruct (ps_loop mD mK ml draws) as [[m23 rest]|] eqn:EP; [|discriminate].
  destruct (ps_range mD mK ml draws m23 rest) as [R FR]; try assumption; try lra.
  destruct rest as [|a [|b [|c [|d [|e rest]]]]]; try discriminate.
  inversion FR as [|? ? Fa FR1]; subst. inversion FR1 as [|? ? Fb FR2]; subst.
  inversion FR2 as [|? ? Fc FR3]; subst. inversion FR3 as [|? ? Fd FR4]; subst. inversion FR4 as [|? ? Fe FR5]; subst.
  pose proof (iso_unit a b Fa) as Ua. pose proof (iso_unit c d Fc) as Uc.
  destruct (products mD mK ml m23 ltac:(lra) ltac:(lra) ltac:(lra) ltac:(lra) ltac:(lra) ltac:(lra)
              (iso_dir a b) (iso_dir c d) Ua Uc)
    as (k' & l' & nu' & EQ & SK & SL & SN & MK & ML & MN & TE & TP & TE2 & TP2).
  rewrite EQ in E. destruct (Rlt_dec _ _) as [C|C].
  - exact (IH rest FR5 E).
  - inversion E; subst k' l' nu'. exists m23. split; [exact R|].
    repeat (split; [assumption|]). rewrite TE2, TP2. rewrite <- lsq, len_scale by exact Uc.
    rewrite sqrt_sqrt; [ring|]. nra.
Qed.

Lemma vdot_comm3 a b : vdot a b = vdot b a.
Proof. unfold vdot. ring. Qed.

(** The masses of the mixture. *)
Definition mixture_mass (p s0 : ctype) (m : R) : Prop := exists f, In (m, f) (mixture p s0).

Lemma pick_in p s0 u : mixture_mass p s0 (pick_mass p s0 u).
Proof.
  unfold mixture_mass, mixture, pick_mass. destruct (is_ds p).
  - destruct (Rlt_dec _ _); [eexists; left; reflexivity|].
    destruct (Rlt_dec _ _); [eexists; right; left; reflexivity | eexists; right; right; left; reflexivity].
  - destruct (Rlt_dec _ _); [eexists; left; reflexivity | eexists; right; left; reflexivity].
Qed.

(** All masses fit. *)
Lemma masses_fit p s0 s1 s2 m : charmed p -> In [s0; s1; s2] (charm_signatures p) -> mixture_mass p s0 m ->
  0 < charm_mass p /\ 0 < m /\ 0 < charm_mass s1 /\ m + charm_mass s1 < charm_mass p.
Proof.
  intros C I [f M]. unfold charmed in C. cbn in C.
  repeat (destruct C as [<-|C]; [cbn in I;
    repeat (destruct I as [I|I]; [try discriminate; inversion I; subst; clear I; cbn in M;
      repeat (destruct M as [M|M]; [inversion M; subst; cbn; unfold kstar_mass, eta_mass, eta_prime_mass, phi_mass; lra|]);
      contradiction|]); contradiction|]). contradiction.
Qed.

Lemma boost_pair b n g s x y : is_boost b n g s -> on_shell x -> on_shell y ->
  pair_square (p4_boost b x) (p4_boost b y) = pair_square x y.
Proof.
  intros IB SX SY. unfold pair_square.
  destruct (boost_shell b n g s x IB SX) as [(_ & _ & BX) MX].
  destruct (boost_shell b n g s y IB SY) as [(_ & _ & BY) MY].
  pose proof (boost_dot b n g s x y IB SX SY) as D. destruct SX as (_ & _ & X). destruct SY as (_ & _ & Y).
  rewrite MX in BX. rewrite MY in BY.
  set (x' := p4_boost b x) in *. set (y' := p4_boost b y) in *. unfold p4_dot in D.
  assert (V : forall a c, vdot (vadd a c) (vadd a c) = vdot a a + vdot c c + 2 * vdot a c) by (intros; unfold vdot; cbn; ring).
  rewrite !V. nra.
Qed.

(** What a run yields. *)
Lemma sample_total p s0 s1 s2 mom mass draws out : charmed p -> In [s0; s1; s2] (charm_signatures p) ->
  0 < mass -> Forall drawn draws -> charm_sample p [s0; s1; s2] mom mass draws = Some out ->
  exists u rest k l nu m23, draws = u :: rest /\ out = [k; l; nu] /\
  on_shell k /\ on_shell l /\ on_shell nu /\
  pm k = pick_mass p s0 u /\ pm l = charm_mass s1 /\ pm nu = 0 /\
  charm_mass s1 <= m23 < charm_mass p - pick_mass p s0 u /\ pair_square l nu = m23 * m23 /\
  pe k + pe l + pe nu = charm_mass p / mass * pe (p4_of mom mass) /\
  vadd (vadd (pp k) (pp l)) (pp nu) = vscale (charm_mass p / mass) mom.
Proof.
  intros C I HM F E. unfold charm_sample in E.
  assert (E' : match draws with
      | u :: rest => match me_loop (length rest) (is_ds p) (charm_mass p) (pick_mass p s0 u) (charm_mass s1) rest with
          | None => None
          | Some (k, l, nu) => match lab_boost (p4_of mom mass) with
              | None => None | Some b => Some [p4_boost b k; p4_boost b l; p4_boost b nu] end
          end
      | [] => None end = Some out) by (destruct s0; exact E). clear E. rename E' into E.
  destruct draws as [|u rest]; [discriminate|]. inversion F as [|? ? FU FR]; subst.
  destruct (masses_fit p s0 s1 s2 _ C I (pick_in p s0 u)) as (M1 & M2 & M3 & M4).
  destruct (me_loop _ _ _ _ _ _) as [[[k l] nu]|] eqn:EL; [|discriminate].
  destruct (rest_total _ _ _ _ _ _ _ _ _ M1 (Rlt_le _ _ M2) M3 M4 FR EL)
    as (m23 & R & SK & SL & SN & MK & ML & MN & TE & TP & TQ).
  destruct (lab_is (p4_of mom mass)) as (b & EB & IB); [apply p4_of_shell; lra | exact HM|].
  rewrite EB in E. cbn [p4_of pm pp] in IB. inversion E; subst out; clear E.
  destruct (boost_at_rest3 b mom mass k l nu (charm_mass p) HM SK SL SN IB TE TP) as [BE BP].
  destruct (boost_shell b _ _ _ _ IB SK) as [BK MBK]. destruct (boost_shell b _ _ _ _ IB SL) as [BL MBL].
  destruct (boost_shell b _ _ _ _ IB SN) as [BN MBN].
  exists u, rest, (p4_boost b k), (p4_boost b l), (p4_boost b nu), m23.
  split; [reflexivity|]. split; [reflexivity|]. split; [exact BK|]. split; [exact BL|]. split; [exact BN|].
  split; [rewrite MBK; exact MK|]. split; [rewrite MBL; exact ML|]. split; [rewrite MBN; exact MN|].
  split; [exact R|]. split; [|split; assumption].
  rewrite (boost_pair b _ _ _ l nu IB SL SN). exact TQ.
Qed.

(** With zero for the numbers that decide on acceptance, a run ends at once. *)
Lemma dot_nonneg a b : on_shell a -> on_shell b -> 0 <= p4_dot a b.
Proof.
  intros (MA & EA & A) (MB & EB & B). unfold p4_dot. pose proof (cauchy (pp a) (pp b)) as C.
  pose proof (vdot_nonneg (pp a)). pose proof (vdot_nonneg (pp b)).
  assert (vdot (pp a) (pp a) <= pe a * pe a) by nra. assert (vdot (pp b) (pp b) <= pe b * pe b) by nra.
  assert (vdot (pp a) (pp b) * vdot (pp a) (pp b) <= (pe a * pe b) * (pe a * pe b)).
  { eapply Rle_trans; [exact C|]. replace (pe a * pe b * (pe a * pe b)) with ((pe a * pe a) * (pe b * pe b)) by ring.
    apply Rmult_le_compat; assumption. }
  assert (Q : 0 <= pe a * pe b) by (apply Rmult_le_pos; assumption).
  enough (vdot (pp a) (pp b) <= pe a * pe b) by lra. apply Rsqr_incr_0_var; [unfold Rsqr; assumption | exact Q].
Qed.

Lemma sample_some p s0 s1 s2 mom mass u w a b c d : charmed p -> In [s0; s1; s2] (charm_signatures p) ->
  0 < mass -> drawn u -> drawn w -> drawn a -> drawn b -> drawn c -> drawn d ->
  exists out, charm_sample p [s0; s1; s2] mom mass [u; w; 0; a; b; c; d; 0] = Some out.
Proof.
  intros C I HM Fu Fw Fa Fb Fc Fd.
  destruct (masses_fit p s0 s1 s2 _ C I (pick_in p s0 u)) as (M1 & M2 & M3 & M4).
  destruct (lab_is (p4_of mom mass)) as (bb & EB & IB); [apply p4_of_shell; lra | exact HM|].
  assert (G : exists k l nu, me_loop 7 (is_ds p) (charm_mass p) (pick_mass p s0 u) (charm_mass s1) [w; 0; a; b; c; d; 0] = Some (k, l, nu)).
  { cbn [me_loop ps_loop]. set (mD := charm_mass p) in *. set (mK := pick_mass p s0 u) in *. set (ml := charm_mass s1) in *.
    set (m23 := ml + 0 + uniform 0 1 w * (mD - mK - (ml + 0))).
    assert (R : ml <= m23 < mD - mK) by (unfold m23; rewrite uniform01; unfold drawn in Fw; nra).
    destruct (Rlt_dec _ _) as [X|X].
    { exfalso. rewrite (uniform01 0), Rmult_0_l in X.
      pose proof (break_nonneg mD mK m23 ltac:(lra)) as Y1.
      pose proof (break_nonneg m23 ml 0 ltac:(lra)) as Y2. nra. }
    destruct (products mD mK ml m23 ltac:(lra) ltac:(lra) ltac:(lra) ltac:(lra) ltac:(lra) ltac:(lra)
              (iso_dir a b) (iso_dir c d) (iso_unit a b Fa) (iso_unit c d Fc))
      as (k' & l' & nu' & EQ & SK & SL & SN & _).
    rewrite EQ. destruct (Rlt_dec _ _) as [Y|Y].
    - exfalso. rewrite (uniform01 0), Rmult_0_l in Y. destruct (is_ds p); [lra|].
      unfold me_weight in Y. pose proof (dot_nonneg nu' k' SN SK). destruct SL as (_ & PL & _).
      assert (0 <= mD * pe l') by (apply Rmult_le_pos; lra). nra.
    - eauto. }
  destruct G as (k & l & nu & G). exists [p4_boost bb k; p4_boost bb l; p4_boost bb nu].
  unfold charm_sample. cbn [length]. rewrite G, EB. destruct s0; reflexivity.
Qed.

(** ** The mixture *)
Lemma frac1 : 874 / 100 / (874 / 100 + 533 / 100) = 874 / 1407.
Proof. field. Qed.
Lemma frac2 : 341 / 100 / (341 / 100 + 217 / 100) = 341 / 558.
Proof. field. Qed.

Local Ltac modes C I tac :=
  unfold charmed in C; cbn in C;
  do 6 (destruct C as [<-|C]; [cbn in I; destruct I as [I|I]; [inversion I; subst; clear I; tac|];
    destruct I as [I|I]; [inversion I; subst; clear I; tac|]; destruct I as [I|I]; [discriminate|]; contradiction|]);
  contradiction.

Lemma mixture_fit p s0 s1 s2 : charmed p -> In [s0; s1; s2] (charm_signatures p) ->
  Forall (fun x => 0 < snd x) (mixture p s0) /\ fold_right (fun x t => snd x + t) 0 (mixture p s0) = 1.
Proof.
  intros C I. modes C I ltac:(cbn; rewrite ?frac1, ?frac2;
    split; [repeat (apply Forall_cons; [cbn; lra|]); apply Forall_nil | lra]).
Qed.

Lemma abs_cases x y : Rabs (x - y) = if Rle_dec y x then x - y else y - x.
Proof. unfold Rabs. destruct (Rcase_abs (x - y)), (Rle_dec y x); lra. Qed.

Lemma nearest_first m f cs best found : m - m < best -> Forall (fun x => fst x <> m) cs ->
  nearest m ((m, f) :: cs) best found = Some (m, f).
Proof.
  intros B F. cbn [nearest]. replace (Rabs (m - m)) with 0 by (rewrite Rminus_eq_0, Rabs_R0; reflexivity).
  destruct (Rlt_dec 0 best); [|lra]. clear B. induction F as [|[x g] cs X F IH]; [reflexivity|].
  cbn [nearest]. destruct (Rlt_dec _ 0); [|exact IH]. pose proof (Rabs_pos (m - x)). lra.
Qed.

Lemma nearest_step mK m f cs best found : Rabs (mK - m) < best ->
  nearest mK ((m, f) :: cs) best found = nearest mK cs (Rabs (mK - m)) (Some (m, f)).
Proof. intros H. cbn [nearest]. destruct (Rlt_dec _ best); [reflexivity | contradiction]. Qed.

Lemma nearest_own p s0 s1 s2 m f : charmed p -> In [s0; s1; s2] (charm_signatures p) -> In (m, f) (mixture p s0) ->
  nearest m (mixture p s0) (10 ^ 30) None = Some (m, f).
Proof.
  assert (BIG : 10 <= 10 ^ 30) by lra.
  assert (POS : forall a b, a <> b -> b - b < Rabs (b - a)).
  { intros a b H. rewrite Rminus_eq_0. apply Rabs_pos_lt. lra. }
  intros C I M. set (t := 10 ^ 30) in *. clearbody t. unfold mixture in *.
  modes C I ltac:(cbn [is_ds] in M |- *;
    repeat (destruct M as [M|M];
      [inversion M; subst; clear M; unfold kstar_mass, eta_mass, eta_prime_mass, phi_mass; cbn [charm_mass];
       repeat (first [apply nearest_first; [first [lra | apply POS; lra] | repeat (apply Forall_cons; [cbn; lra|]); apply Forall_nil]
             |rewrite nearest_step; [|rewrite ?abs_cases; repeat destruct (Rle_dec _ _); lra]])|]); contradiction).
Qed.

Lemma pick_share p s0 s1 s2 m f : charmed p -> In [s0; s1; s2] (charm_signatures p) -> In (m, f) (mixture p s0) ->
  share (fun u => pick_mass p s0 u = m) f.
Proof.
  intros C I M. unfold share.
  modes C I ltac:(unfold pick_mass; cbn in M |- *; rewrite ?frac1, ?frac2 in M; rewrite ?frac1, ?frac2;
      repeat (destruct M as [M|M]; [inversion M; subst; clear M;
         unfold kstar_mass, eta_mass, eta_prime_mass, phi_mass;
         first [exists 0, (341 / 558); split; [lra|]; split; [lra|]; split; [lra|]; intros u U; rewrite uniform01;
                  repeat (destruct (Rlt_dec _ _)); split; intros; lra
               |exists 0, (874 / 1407); split; [lra|]; split; [lra|]; split; [lra|]; intros u U; rewrite uniform01;
                  repeat (destruct (Rlt_dec _ _)); split; intros; lra
               |exists 0, (23 / 10 / 5); split; [lra|]; split; [lra|]; split; [lra|]; intros u U; rewrite uniform01;
                  repeat (destruct (Rlt_dec _ _)); split; intros; lra
               |exists (341 / 558), 1; split; [lra|]; split; [lra|]; split; [lra|]; intros u U; rewrite uniform01;
                  repeat (destruct (Rlt_dec _ _)); split; intros; lra
               |exists (874 / 1407), 1; split; [lra|]; split; [lra|]; split; [lra|]; intros u U; rewrite uniform01;
                  repeat (destruct (Rlt_dec _ _)); split; intros; lra
               |exists (31 / 10 / 5), 1; split; [lra|]; split; [lra|]; split; [lra|]; intros u U; rewrite uniform01;
                  repeat (destruct (Rlt_dec _ _)); split; intros; lra
               |exists (23 / 10 / 5), (31 / 10 / 5); split; [lra|]; split; [lra|]; split; [lra|]; intros u U; rewrite uniform01;
                  repeat (destruct (Rlt_dec _ _)); split; intros; lra]|]);
      contradiction).
Qed.
