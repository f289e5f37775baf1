(** What the names of units mean, by their definitions. Written without reference to the parser. *)
From Coq Require Import String Ascii List Bool Reals.
Import ListNotations.
Open Scope R_scope.

(** Decimal prefixes, short and long. *)
Inductive Prefix : string -> string -> R -> Prop :=
| P_tera : Prefix "T" "tera" (10 ^ 12) | P_giga : Prefix "G" "giga" (10 ^ 9) | P_mega : Prefix "M" "mega" (10 ^ 6)
| P_kilo : Prefix "k" "kilo" (10 ^ 3) | P_none : Prefix "" "" 1 | P_centi : Prefix "c" "centi" (/ 10 ^ 2)
| P_milli : Prefix "m" "milli" (/ 10 ^ 3) | P_micro : Prefix "u" "micro" (/ 10 ^ 6) | P_nano : Prefix "n" "nano" (/ 10 ^ 9)
| P_pico : Prefix "p" "pico" (/ 10 ^ 12) | P_peta : Prefix "P" "peta" (10 ^ 15).

(** Lengths in metres: the metre with a prefix from kilo to nano, the inch of 25.4 mm, the angstrom
    and the fermi. *)
Inductive Length : string -> R -> Prop :=
| L_short s l x : Prefix s l x -> In s ["k"; ""; "c"; "m"; "u"; "n"]%string -> Length (s ++ "m") x
| L_long s l x : Prefix s l x -> In s ["k"; ""; "c"; "m"; "u"; "n"]%string -> Length (l ++ "meter") x
| L_inch : Length "inch" (25.4 / 1000) | L_in : Length "in" (25.4 / 1000)
| L_angstrom : Length "angstrom" (/ 10 ^ 10) | L_fermi : Length "fermi" (/ 10 ^ 15).

(** Angles in radians; 180 degrees are pi. *)
Inductive Angle : string -> R -> Prop :=
| A_short s l x : Prefix s l x -> In s [""; "m"]%string -> Angle (s ++ "rad") x
| A_long s l x : Prefix s l x -> In s [""; "m"]%string -> Angle (l ++ "radian") x
| A_deg x : 180 * x = PI -> Angle "deg" x | A_degree x : 180 * x = PI -> Angle "degree" x.

(** Energies in electronvolts, except the joule. *)
Inductive Energy : string -> R -> Prop :=
| E_volt s l x : Prefix s l x -> In s [""; "k"; "M"; "G"; "T"; "P"]%string -> Energy (s ++ "eV") x.

(** Times in seconds. *)
Inductive Time : string -> R -> Prop :=
| T_short s l x : Prefix s l x -> In s ["n"; "p"; "u"; "m"]%string -> Time (s ++ "s") x
| T_long s l x : Prefix s l x -> In s ["n"; "p"; "u"; "m"; ""]%string -> Time (l ++ "second") x.

(** Densities in g/cm3. *)
Inductive Density : string -> R -> Prop :=
| D_g : Density "g/cm3" 1
| D_mg : Density "mg/cm3" (/ 10 ^ 3)
| D_kg : forall x, x = 10 ^ 3 / (10 ^ 2) ^ 3 -> Density "kg/m3" x.
