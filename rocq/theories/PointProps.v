(** Densities at a point: the theorems. *)
From Coq Require Import Reals List Bool ZArith Lra Permutation.
From Verif Require Import TraversalModel TraversalSpec TraversalProps VectorModel DensityModel DepthModel DepthSpec DepthProofs DepthMain DepthProps PointModel PointSpec PointProofs.
Import ListNotations.
Open Scope R_scope.

(** C157: a point of the line within the outermost sector has the density of one sector, the highest on the
    side of the list's own position. *)
Theorem C157_mass : forall dens l ss a b z, sees l ss a b -> elt a (Fin z) -> elt (Fin z) b ->
  let p := point (l_position l) (l_direction l) z in
  exists h, mass_density dens l p = Ok (Some (dens h p)) /\
    (0 <= z -> top_level inside_oc ss (Fin z) h) /\ (z < 0 -> top_level (inside_ho elt) ss (Fin z) h).
Proof.
  intros dens l ss a b z S' A B p. destruct (at_point_ok 0 (fun h => dens h p) l ss a b z (Rle_refl 0) S' A B) as (h & H & H1 & H2 & _).
  exists h. split; [exact H|]. split; [exact H1|]. intros Z. apply H2. lra.
Qed.
Print Assumptions C157_mass.

(** C157: away from the boundaries it is the highest sector that has the point. *)
Theorem C157_inside : forall dens fraction l ss a b z h, sees l ss a b -> elt a (Fin z) -> elt (Fin z) b ->
  clear_of ss (Fin z) -> top_level (inside elt) ss (Fin z) h ->
  let p := point (l_position l) (l_direction l) z in
  mass_density dens l p = Ok (Some (dens h p)) /\ particle_density dens fraction l p = Ok (Some (dens h p * fraction h)).
Proof.
  intros dens fraction l ss a b z h S' A B C T p. split.
  - apply (at_point_clear 0 (fun h => dens h p) l ss a b); auto. lra.
  - apply (at_point_clear 0 (fun h => dens h p * fraction h) l ss a b); auto. lra.
Qed.
Print Assumptions C157_inside.

(** C157: the number of targets is that of the sector whose mass density is found, wherever the point. *)
Theorem C157_particles : forall dens fraction l ss a b z, sees l ss a b -> elt a (Fin z) -> elt (Fin z) b ->
  let p := point (l_position l) (l_direction l) z in
  exists h, mass_density dens l p = Ok (Some (dens h p)) /\ particle_density dens fraction l p = Ok (Some (dens h p * fraction h)).
Proof.
  intros dens fraction l ss a b z S' A B p.
  destruct (at_point_ok 0 (fun h => dens h p) l ss a b z (Rle_refl 0) S' A B) as (h & H & H1 & H2 & _).
  destruct (at_point_ok 0 (fun h => dens h p * fraction h) l ss a b z (Rle_refl 0) S' A B) as (k & K & K1 & K2 & _).
  exists h. split; [exact H|]. unfold particle_density. fold p in K. rewrite K. assert (E : k = h); [|now rewrite E].
  destruct (Rle_dec 0 z) as [Z|Z]; [apply (top_one inside_oc ss (Fin z)); auto|apply (top_one (inside_ho elt) ss (Fin z)); [apply K2|apply H2]; lra].
Qed.
Print Assumptions C157_particles.

(** A sector of level 1 from 0 to 1 in a universe of level 0, seen from a point at -1. *)
Definition step_sectors : list (sector ext) := [mksector 1%Z [(Fin 1, Fin 2)]; mksector 0%Z [(MInf, PInf)]].
Definition step_line : line := mkline (mkv (- (1)) 0 0) (mkv 1 0 0) (sort_intersections eltb (crossings step_sectors)).
Lemma step_sees : sees step_line step_sectors MInf PInf.
Proof.
  split; [unfold vdot; cbn; ring|]. split; [|split].
  - split; [|repeat constructor; cbn; intuition discriminate]. constructor; [|repeat constructor].
    split; [|repeat constructor]. constructor; [|constructor]. cbn [fst snd]. apply elt_fin. lra.
  - exists (mksector 0%Z [(MInf, PInf)]). split; [|reflexivity]. split; [right; left; reflexivity|].
    exists MInf, PInf. split; [reflexivity|]. intros s iv _ _. unfold leT, elt. split; [destruct (fst iv)|destruct (snd iv)]; cbn; discriminate.
  - exists (crossings step_sectors). split; reflexivity.
Qed.

Lemma step_top : forall (P : sector ext -> ext -> Prop) h, (h = 1%Z \/ h = 0%Z) -> top_level P step_sectors (Fin 1) h ->
  P (mksector 0%Z [(MInf, PInf)]) (Fin 1) -> (P (mksector 1%Z [(Fin 1, Fin 2)]) (Fin 1) <-> h = 1%Z).
Proof.
  intros P h _ [(s & S' & L & I) T] U. split.
  - intros H. pose proof (T _ (or_introl eq_refl) H) as X. cbn in X. destruct S' as [<-|[<-|[]]]; cbn in L; subst h; [reflexivity|].
    exfalso. apply X. reflexivity.
  - intros ->. destruct S' as [<-|[<-|[]]]; cbn in L; [exact I|discriminate].
Qed.

(** C157 is false of the entry of a sector: the same list of crossings says that the entry point is in the
    sector entered, but its density is that of the sector left. *)
Theorem C157_entry_refuted : exists l ss dens z, sees l ss MInf PInf /\
  containing_sector eltb (l_hits l) (Fin z) = Ok (Some 1%Z) /\
  mass_density dens l (point (l_position l) (l_direction l) z) = Ok (Some (dens 0%Z (point (l_position l) (l_direction l) z))) /\
  (forall q, dens 1%Z q = 2) /\ (forall q, dens 0%Z q = 1).
Proof.
  exists step_line, step_sectors, (fun h _ => if Z.eqb h 1 then 2 else 1), 1.
  split; [exact step_sees|].
  assert (UHO : inside_ho elt (mksector 0%Z [(MInf, PInf)]) (Fin 1)) by (exists (MInf, PInf); split; [now left|]; split; [discriminate|reflexivity]).
  assert (UOC : inside_oc (mksector 0%Z [(MInf, PInf)]) (Fin 1)) by (exists (MInf, PInf); split; [now left|]; split; reflexivity).
  split; [|split; [|split; reflexivity]].
  - pose proof step_sees as (_ & G & (u & U & I) & found & Pm & E).
    destruct (C26_containing_sector ext eltb eltb_total step_sectors u MInf PInf found (Fin 1) G U I Pm) as [H _].
    destruct H as (h & H1 & H2); [discriminate|reflexivity|]. rewrite E. rewrite H1. do 2 f_equal.
    assert (C : h = 1%Z \/ h = 0%Z) by (destruct H2 as [(s & S' & L & _) _]; destruct S' as [<-|[<-|[]]]; cbn in L; auto).
    apply (step_top (inside_ho elt) h C H2 UHO). exists (Fin 1, Fin 2). split; [now left|]. split; cbn [fst snd].
    + unfold leT. intros Q. apply elt_fin in Q. lra.
    + apply elt_fin. lra.
  - destruct (C157_mass (fun h _ => if Z.eqb h 1 then 2 else 1) step_line step_sectors MInf PInf 1 step_sees eq_refl eq_refl) as (h & H1 & H2 & _).
    rewrite H1. assert (T := H2 ltac:(lra)).
    assert (C : h = 1%Z \/ h = 0%Z) by (destruct T as [(s & S' & L & _) _]; destruct S' as [<-|[<-|[]]]; cbn in L; auto).
    destruct C as [->| ->]; [|reflexivity]. exfalso.
    destruct (proj2 (step_top inside_oc 1%Z (or_introl eq_refl) T UOC) eq_refl) as (iv & I & A & _). destruct I as [<-|[]].
    cbn [fst] in A. apply elt_fin in A. lra.
Qed.
Print Assumptions C157_entry_refuted.

Example C157_case : sees step_line step_sectors MInf PInf /\ clear_of step_sectors (Fin (3 / 2)) /\ top_level (inside elt) step_sectors (Fin (3 / 2)) 1%Z /\
  mass_density (fun h _ => if Z.eqb h 1 then 2 else 1) step_line (point (mkv (- (1)) 0 0) (mkv 1 0 0) (3 / 2)) = Ok (Some 2).
Proof.
  assert (C : clear_of step_sectors (Fin (3 / 2))).
  { intros s iv [<-|[<-|[]]] [<-|[]]; cbn [fst snd]; split; intros H; try discriminate; injection H; lra. }
  assert (T : top_level (inside elt) step_sectors (Fin (3 / 2)) 1%Z).
  { split.
    - exists (mksector 1%Z [(Fin 1, Fin 2)]). split; [now left|]. split; [reflexivity|]. exists (Fin 1, Fin 2). split; [now left|]. cbn [fst snd]. split; apply elt_fin; lra.
    - intros s [<-|[<-|[]]] _; cbn; discriminate. }
  split; [exact step_sees|]. split; [exact C|]. split; [exact T|].
  exact (proj1 (C157_inside (fun h _ => if Z.eqb h 1 then 2 else 1) (fun _ => 0) step_line step_sectors MInf PInf (3 / 2) 1%Z step_sees eq_refl eq_refl C T)).
Qed.

(** C158: the rate of interactions per metre at a point away from the boundaries: per target, density times number
    times cross section in the highest sector, and decays. *)
Theorem C158_rate : forall dens fractions sigma lambda l ss a b z h, sees l ss a b -> elt a (Fin z) -> elt (Fin z) b ->
  clear_of ss (Fin z) -> top_level (inside elt) ss (Fin z) h -> sigma <> [] ->
  let p := point (l_position l) (l_direction l) z in
  interaction_density dens fractions sigma (Some lambda) l p = Ok (Some (100 * (dens h p * weighted (fractions h) sigma) + / lambda)) /\
  interaction_density dens fractions sigma None l p = Ok (Some (100 * (dens h p * weighted (fractions h) sigma))).
Proof.
  intros dens fractions sigma lambda l ss a b z h S' A B C T N p. unfold interaction_density. destruct sigma as [|x sigma]; [contradiction|].
  unfold p. rewrite (at_point_clear threshold _ l ss a b z h); auto; [|unfold threshold; assert (0 < 10 ^ 5) by (apply pow_lt; lra); apply Rlt_le, Rdiv_lt_0_compat; lra].
  cbn [option_map decay_rate]. rewrite weighted_fold. split; do 2 f_equal; unfold Rdiv; ring.
Qed.
Print Assumptions C158_rate.

(** C158: at the boundaries too it is one sector's, that of the side of the list's own position, or of the side before when
    within the threshold of it. *)
Theorem C158_boundary : forall dens fractions sigma lambda l ss a b z, sees l ss a b -> elt a (Fin z) -> elt (Fin z) b -> sigma <> [] ->
  let p := point (l_position l) (l_direction l) z in
  exists h, interaction_density dens fractions sigma (Some lambda) l p = Ok (Some (100 * (dens h p * weighted (fractions h) sigma) + / lambda)) /\
    (- threshold <= z -> top_level inside_oc ss (Fin z) h) /\ (z < - threshold -> top_level (inside_ho elt) ss (Fin z) h).
Proof.
  intros dens fractions sigma lambda l ss a b z S' A B N p. unfold interaction_density. destruct sigma as [|x sigma]; [contradiction|].
  assert (TH : 0 <= threshold) by (unfold threshold; assert (0 < 10 ^ 5) by (apply pow_lt; lra); apply Rlt_le, Rdiv_lt_0_compat; lra).
  destruct (at_point_ok threshold (fun h => fold_left (fun acc x => acc + dens h p * fst x * snd x) (combine (fractions h) (x :: sigma)) 0 * 100) l ss a b z TH S' A B)
    as (h & H & H1 & H2 & H3).
  exists h. split; [|split; [|exact H2]].
  - fold p in H. rewrite H. cbn [option_map decay_rate]. rewrite weighted_fold. do 2 f_equal. unfold Rdiv. ring.
  - intros Z. destruct (Rle_dec 0 z) as [Q|Q]; [auto|apply H3; lra].
Qed.
Print Assumptions C158_boundary.

(** C158: only decays: their rate, for any list. *)
Theorem C158_decays : forall dens fractions lambda l p, interaction_density dens fractions [] (Some lambda) l p = Ok (Some (1 / lambda)).
Proof. reflexivity. Qed.
Print Assumptions C158_decays.

(** C158: the interaction depth between two points is the integral of the rate. *)
Theorem C158_depth : forall media dens fractions sigma l ss a b K p0 p1,
  (forall h, List.length (fractions h) = List.length sigma) -> (forall h, lawful (l_direction l) (dens h) (media h)) -> sees l ss a b ->
  (forall z h, top_level (inside elt) ss (Fin z) h -> K (point (l_position l) (l_direction l) z) =
     dens h (point (l_position l) (l_direction l) z) * weighted (fractions h) sigma) ->
  on l a b p0 -> on l a b p1 -> sigma <> [] -> threshold < vmag (vsub p1 p0) ->
  (forall z h, elt a (Fin z) -> elt (Fin z) b -> clear_of ss (Fin z) -> top_level (inside elt) ss (Fin z) h ->
     interaction_density dens fractions sigma None l (point (l_position l) (l_direction l) z) = Ok (Some (100 * K (point (l_position l) (l_direction l) z)))) /\
  exists I, interaction_depth media fractions sigma None l p0 p1 = Ok (Some (100 * I)) /\ along K p0 p1 I.
Proof.
  intros media dens fractions sigma l ss a b K p0 p1 L M S' D O0 O1 N T. split.
  - intros z h A B C H. rewrite (D z h H). now apply (C158_rate dens fractions sigma 1 l ss a b z h).
  - destruct (C30_depth media dens l ss a b fractions sigma K 1 p0 p1 L M S' D O0 O1 N T) as (I & _ & H & A). now exists I.
Qed.
Print Assumptions C158_depth.

Example C158_case : interaction_density (fun h _ => if Z.eqb h 1 then 2 else 1) (fun _ => [3]) [5] (Some 4) step_line (point (mkv (- (1)) 0 0) (mkv 1 0 0) (3 / 2))
  = Ok (Some (100 * (2 * (3 * 5 + 0)) + / 4)).
Proof.
  destruct C157_case as (S' & C & T & _).
  exact (proj1 (C158_rate (fun h _ => if Z.eqb h 1 then 2 else 1) (fun _ => [3]) [5] 4 step_line step_sectors MInf PInf (3 / 2) 1%Z S' eq_refl eq_refl C T ltac:(discriminate))).
Qed.
