(** Property theorems about the hexadecimal transport (C69). *)
From Coq Require Import List Bool ZArith Ascii Lia.
From Verif Require Import TraversalModel HexModel.
Import ListNotations.
Open Scope Z_scope.

Definition is_byte (b : Z) : Prop := -128 <= b <= 127.
Definition is_hex (c : ascii) : Prop := In c hex_digits.

(** All values of a char. *)
Definition all_bytes : list Z := map (fun n => Z.of_nat n - 128) (seq 0 256).

Lemma all_bytes_in b : is_byte b -> In b all_bytes.
Proof.
  intros H. unfold all_bytes. apply in_map_iff. exists (Z.to_nat (b + 128)). unfold is_byte in H. split; [lia|].
  apply in_seq. lia.
Qed.

Definition outcome_is (o : outcome Z) (z : Z) : bool := match o with Ok x => x =? z | _ => false end.

Definition pair_ok (b : Z) : bool :=
  match put_hex (to_uint8 b) with
  | [c; d] => match stoi16 [c; d] with Ok v => to_char v =? b | _ => false end
     && existsb (Ascii.eqb c) hex_digits && existsb (Ascii.eqb d) hex_digits
  | _ => false
  end.

Lemma pairs_all : forallb pair_ok all_bytes = true.
Proof. vm_compute. reflexivity. Qed.

Lemma existsb_hex c : existsb (Ascii.eqb c) hex_digits = true -> is_hex c.
Proof. rewrite existsb_exists. intros [x [I E]]. apply Ascii.eqb_eq in E. subst. auto. Qed.

Lemma byte_pair b : is_byte b -> exists c d v, put_hex (to_uint8 b) = [c; d] /\ stoi16 [c; d] = Ok v /\ to_char v = b /\ is_hex c /\ is_hex d.
Proof.
  intros H. pose proof (proj1 (forallb_forall pair_ok all_bytes) pairs_all b (all_bytes_in b H)) as P.
  unfold pair_ok in P. destruct (put_hex (to_uint8 b)) as [|c [|d [|e r]]]; try discriminate.
  apply andb_true_iff in P. destruct P as [P Hd]. apply andb_true_iff in P. destruct P as [P Hc].
  destruct (stoi16 [c; d]) as [v| |] eqn:S; try discriminate. apply Z.eqb_eq in P.
  exists c, d, v. repeat split; auto using existsb_hex.
Qed.

Lemma hex_string bs : Forall is_byte bs ->
  let s := flat_map (fun b => put_hex (to_uint8 b)) bs in
  length s = (2 * length bs)%nat /\ Forall is_hex s /\ hex_pairs s = Ok bs.
Proof.
  induction 1 as [|b bs H F [L [HX E]]]; cbn [flat_map]; [repeat split; constructor|].
  destruct (byte_pair b H) as [c [d [v [P [S [T [Hc Hd]]]]]]]. rewrite P. cbn [app].
  split; [|split].
  - cbn in *. lia.
  - auto.
  - cbn [hex_pairs]. rewrite S, E, T. auto.
Qed.

(** C69: encoding never throws, gives two hexadecimal digits per byte, and decoding
    gives back the bytes. *)
Theorem C69_round_trip : forall bs, Forall is_byte bs ->
  exists s, bytes_to_hex bs = Ok s /\ length s = (2 * length bs)%nat /\ Forall is_hex s /\ hex_to_bytes s = Ok bs.
Proof.
  intros bs H. destruct (hex_string bs H) as [L [HX E]]. unfold bytes_to_hex. rewrite L.
  rewrite Nat.mul_comm, Nat.mod_mul by discriminate. cbn [negb Nat.eqb]. rewrite Nat.mul_comm, Nat.eqb_refl. cbn [negb].
  eexists. split; [reflexivity|]. split; auto. split; auto. unfold hex_to_bytes. rewrite E, L.
  rewrite Nat.mul_comm, Nat.div_mul by discriminate. rewrite Nat.eqb_refl. auto.
Qed.
Print Assumptions C69_round_trip.

Example C69_case : Forall is_byte [-128; 0; 127; -1] /\
  bytes_to_hex [-128; 0; 127; -1] = Ok ["8"; "0"; "0"; "0"; "7"; "f"; "f"; "f"]%char.
Proof. split; [repeat constructor; cbv; discriminate|reflexivity]. Qed.

(** All pairs of hexadecimal digits. *)
Definition char_ok (c d : ascii) : bool :=
  match stoi16 [c; d] with
  | Ok v => let b := to_char v in (-128 <=? b) && (b <=? 127) &&
      match put_hex (to_uint8 b) with [x; y] => Ascii.eqb x c && Ascii.eqb y d | _ => false end
  | _ => false
  end.

Lemma chars_all : forallb (fun c => forallb (char_ok c) hex_digits) hex_digits = true.
Proof. vm_compute. reflexivity. Qed.

Lemma char_pair c d : is_hex c -> is_hex d -> exists v, stoi16 [c; d] = Ok v /\ is_byte (to_char v) /\ put_hex (to_uint8 (to_char v)) = [c; d].
Proof.
  intros Hc Hd. pose proof chars_all as P. rewrite forallb_forall in P. specialize (P c Hc).
  rewrite forallb_forall in P. specialize (P d Hd). unfold char_ok in P.
  destruct (stoi16 [c; d]) as [v| |]; try discriminate. exists v. split; auto.
  apply andb_true_iff in P. destruct P as [P Q]. apply andb_true_iff in P. destruct P as [A B].
  apply Z.leb_le in A. apply Z.leb_le in B. split; [split; auto|].
  destruct (put_hex _) as [|x [|y [|z r]]]; try discriminate. apply andb_true_iff in Q. destruct Q as [Q1 Q2].
  apply Ascii.eqb_eq in Q1. apply Ascii.eqb_eq in Q2. subst. auto.
Qed.

(** C69: conversely every string of an even number of lower-case hexadecimal digits
    decodes to bytes that encode to it again, so no two strings are confused. *)
Theorem C69_decode_encode : forall s, Forall is_hex s -> Nat.even (length s) = true ->
  exists bs, hex_to_bytes s = Ok bs /\ Forall is_byte bs /\ bytes_to_hex bs = Ok s.
Proof.
  intros s F E.
  assert (P : exists bs, hex_pairs s = Ok bs /\ Forall is_byte bs /\ flat_map (fun b => put_hex (to_uint8 b)) bs = s /\ length s = (2 * length bs)%nat).
  { assert (G : forall n s, (length s <= n)%nat -> Forall is_hex s -> Nat.even (length s) = true ->
      exists bs, hex_pairs s = Ok bs /\ Forall is_byte bs /\ flat_map (fun b => put_hex (to_uint8 b)) bs = s /\ length s = (2 * length bs)%nat).
    { clear. induction n as [|n IH]; intros s L F E.
      - destruct s; [|cbn in L; lia]. exists []. repeat split; constructor.
      - destruct s as [|c [|d s]]; [exists []; repeat split; constructor|discriminate|].
        inversion F as [|? ? Hc F1]; subst. inversion F1 as [|? ? Hd F2]; subst.
        destruct (IH s) as [bs [P [B [M LL]]]]; auto. { cbn in L. lia. }
        destruct (char_pair c d Hc Hd) as [v [S [V PH]]]. exists (to_char v :: bs). cbn [hex_pairs flat_map]. rewrite S, P, PH, M.
        repeat split; auto. cbn. lia. }
    eapply G; eauto. }
  destruct P as [bs [P [B [M L]]]]. exists bs. split; [|split; auto].
  - unfold hex_to_bytes. rewrite P, L, Nat.mul_comm, Nat.div_mul, Nat.eqb_refl by discriminate. auto.
  - unfold bytes_to_hex. rewrite M, L. rewrite Nat.mul_comm, Nat.mod_mul by discriminate. cbn [negb Nat.eqb].
    rewrite Nat.mul_comm, Nat.eqb_refl. auto.
Qed.
Print Assumptions C69_decode_encode.

Example C69_decode_case : Forall is_hex ["f"; "0"]%char /\ hex_to_bytes ["f"; "0"]%char = Ok [-16].
Proof. split; [repeat constructor; cbv; tauto|reflexivity]. Qed.

(** C69: a string of odd length is always rejected. *)
Theorem C69_odd_rejected : forall s, Nat.even (length s) = false -> forall bs, hex_to_bytes s <> Ok bs.
Proof.
  intros s O bs H. unfold hex_to_bytes in H. destruct (hex_pairs s) as [cs| |] eqn:P; try discriminate.
  assert (G : forall n s cs, (length s <= n)%nat -> Nat.even (length s) = false -> hex_pairs s = Ok cs -> length cs = S (Nat.div2 (length s))).
  { clear. induction n as [|n IH]; intros s cs L O P.
    - destruct s; [discriminate|cbn in L; lia].
    - destruct s as [|c [|d s]]; [discriminate| |].
      + cbn in P. destruct (stoi16 [c]); try discriminate. injection P as <-. reflexivity.
      + cbn [hex_pairs] in P. destruct (stoi16 [c; d]); try discriminate. destruct (hex_pairs s) eqn:E; try discriminate.
        injection P as <-. cbn. f_equal. apply (IH s); auto. cbn in L. lia. }
  rewrite (G (length s) s cs (Nat.le_refl _) O P), Nat.div2_div in H.
  destruct (Nat.eqb_spec (S (length s / 2)) (length s / 2)); [lia|]. discriminate.
Qed.
Print Assumptions C69_odd_rejected.

Example C69_odd_case : Nat.even (length ["f"; "0"; "1"]%char) = false /\ hex_to_bytes ["f"; "0"; "1"]%char = Throw.
Proof. split; reflexivity. Qed.
