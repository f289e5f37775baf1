(** The names of GDML definitions: specification. *)
From Coq Require Import Ascii String List.
Import ListNotations.

(** A hexadecimal digit. *)
Definition hexadecimal (c : ascii) : Prop := In c (list_ascii_of_string "0123456789abcdefABCDEF").

(** A decimal digit. *)
Definition decimal_digit (c : ascii) : Prop := In c (list_ascii_of_string "0123456789").

(** [n] is [b] with the address of a pointer of at least seven digits. *)
Definition suffixed (n b : list ascii) : Prop :=
  exists h, n = b ++ list_ascii_of_string "0x" ++ h /\ Forall hexadecimal h /\ 7 <= length h /\ b <> [].

(** The name [b] that the document means by [n]. *)
Definition base (enabled : bool) (n b : list ascii) : Prop :=
  (enabled = true /\ suffixed n b) \/ (b = n /\ (enabled = true -> forall c, ~ suffixed n c)).

(** [n] looks like a numbered instance of [b]. *)
Definition numbered (b n : list ascii) : Prop :=
  exists ds, n = b ++ list_ascii_of_string "__" ++ ds /\ ds <> [] /\ Forall decimal_digit ds.

Section Spec.
Context {T : Type}.

(** The last of the definitions under exactly this name is [t]. *)
Definition latest (log : list (list ascii * T)) (o : list ascii) (t : T) : Prop :=
  exists l1 l2, log = l1 ++ (o, t) :: l2 /\ Forall (fun e => fst e <> o) l2.

(** The last of the definitions whose name means [b] is [t]. *)
Definition latest_of (enabled : bool) (log : list (list ascii * T)) (b : list ascii) (t : T) : Prop :=
  exists l1 o l2, log = l1 ++ (o, t) :: l2 /\ base enabled o b /\ Forall (fun e => ~ base enabled (fst e) b) l2.

(** [b] is what one of the names of the document means. *)
Definition defined (enabled : bool) (log : list (list ascii * T)) (b : list ascii) : Prop :=
  exists o t, In (o, t) log /\ base enabled o b.

(** No name looks like a numbered instance of another one. *)
Definition no_clash (enabled : bool) (log : list (list ascii * T)) : Prop :=
  forall a b, defined enabled log a -> defined enabled log b -> ~ numbered a b.

(** [u] stands for [t]. *)
Definition same (eq : T -> T -> bool) (u t : T) : Prop := u = t \/ eq u t = true.

(** An order of all names of the document, each once. *)
Definition names_of (enabled : bool) (log : list (list ascii * T)) (keys : list (list ascii)) : Prop :=
  NoDup keys /\ forall b, In b keys <-> defined enabled log b.

End Spec.
