(** Model of the hexadecimal transport of pickled objects.
    Source: projects/serialization/public/SIREN/serialization/ByteString.h. *)
From Coq Require Import List Bool ZArith Ascii.
From Verif Require Import TraversalModel.
Import ListNotations.
Open Scope Z_scope.

(** A char is a number from -128 to 127. Strings are lists of characters. *)

(** [std::uint8_t(byte)] and [static_cast<char>] of an int (lines 44 and 75). *)
Definition to_uint8 (b : Z) : Z := b mod 256.
(** ByteString.h:75. *)
Definition to_char (i : Z) : Z := (i + 128) mod 256 - 128.

(** Digits of [std::hex] output. ByteString.h:44. *)
Definition hex_digits : list ascii :=
  ["0"; "1"; "2"; "3"; "4"; "5"; "6"; "7"; "8"; "9"; "a"; "b"; "c"; "d"; "e"; "f"]%char.
(** ByteString.h:44. *)
Definition hex_digit (n : Z) : ascii := nth (Z.to_nat n) hex_digits "?"%char.

(** [oss << std::setw(2) << n] with [std::hex] and fill character '0' (line 44),
    for [n] below 256. *)
Definition put_hex (n : Z) : list ascii :=
  let ds := if n <? 16 then [hex_digit n] else [hex_digit (n / 16); hex_digit (n mod 16)] in
  repeat "0"%char (2 - length ds) ++ ds.

(** ByteString.h:40-52, [bytes_to_hex_string]. *)
Definition bytes_to_hex (bytes : list Z) : outcome (list ascii) :=
  let s := flat_map (fun b => put_hex (to_uint8 b)) bytes in
  if negb (Nat.eqb (Nat.modulo (length s) 2) 0) then Throw
  else if negb (Nat.eqb (length s) (2 * length bytes)) then Throw
  else Ok s.

(** Value of a character as a hexadecimal digit. ByteString.h:75. *)
Definition digit_value (c : ascii) : option Z :=
  let n := Z.of_nat (nat_of_ascii c) in
  if (48 <=? n) && (n <=? 57) then Some (n - 48)
  else if (97 <=? n) && (n <=? 102) then Some (n - 87)
  else if (65 <=? n) && (n <=? 70) then Some (n - 55)
  else None.

(** Characters skipped by strtol. ByteString.h:75. *)
Definition is_space (c : ascii) : bool :=
  let n := Z.of_nat (nat_of_ascii c) in (n =? 32) || ((9 <=? n) && (n <=? 13)).

(** ByteString.h:75, [std::stoi] reading digits. *)
Fixpoint read_digits (acc : Z) (l : list ascii) : Z :=
  match l with
  | [] => acc
  | c :: r => match digit_value c with Some d => read_digits (16 * acc + d) r | None => acc end
  end.

(** ByteString.h:75, [std::stoi] skipping white space. *)
Fixpoint skip_space (l : list ascii) : list ascii :=
  match l with c :: r => if is_space c then skip_space r else l | [] => [] end.

(** [std::stoi(s, nullptr, 16)] (line 75): white space, a sign, "0x", digits; throws if
    there is no digit. Simplification: the range check is left out, since the
    argument has at most two characters. *)
Definition stoi16 (l : list ascii) : outcome Z :=
  let l := skip_space l in
  let '(sign, l) := match l with
                    | c :: r => if Ascii.eqb c "-" then (-1, r) else if Ascii.eqb c "+" then (1, r) else (1, l)
                    | [] => (1, [])
                    end in
  let l := match l with
           | z :: x :: ((d :: _) as r) =>
               if Ascii.eqb z "0" && (Ascii.eqb x "x" || Ascii.eqb x "X") &&
                  (match digit_value d with Some _ => true | None => false end) then r else l
           | _ => l
           end in
  match l with
  | c :: _ => match digit_value c with Some _ => Ok (sign * read_digits 0 l) | None => Throw end
  | [] => Throw
  end.

(** ByteString.h:73-77: the loop of [hex_string_to_bytes], two characters at a time. *)
Fixpoint hex_pairs (l : list ascii) : outcome (list Z) :=
  match l with
  | [] => Ok []
  | [c] => match stoi16 [c] with Ok v => Ok [to_char v] | Throw => Throw | UB => UB end
  | c :: d :: r =>
      match stoi16 [c; d] with
      | Ok v => match hex_pairs r with Ok bs => Ok (to_char v :: bs) | e => e end
      | Throw => Throw
      | UB => UB
      end
  end.

(** ByteString.h:71-81, [hex_string_to_bytes]. *)
Definition hex_to_bytes (l : list ascii) : outcome (list Z) :=
  match hex_pairs l with
  | Ok bs => if negb (Nat.eqb (length bs) (Nat.div (length l) 2)) then Throw else Ok bs
  | e => e
  end.
