(** Model of the unit tables of the GDML parser.
    Sources: projects/detector/private/gdml/GDMLUnits.cxx and
             projects/utilities/public/SIREN/utilities/Constants.h.
    Numbers are real numbers, with the decimals of the source taken exactly. [None] is an exception. *)
From Coq Require Import String Ascii List Bool Reals.
From Verif Require Import GdmlModel.
Import ListNotations.
Open Scope R_scope.
Open Scope string_scope.

(** GDMLUnits.cxx:35-107, [kBuiltInConstants]. M_PI is taken to be pi. *)
Definition built_in_constants : list (string * R) := [
  ("pi", PI); ("twopi", 2 * PI); ("TWOPI", 2 * PI); ("halfpi", PI / 2);
  ("e", 2.7182818284590452354); ("gamma", 0.5772156649015328606);
  ("rad", 1); ("radian", 1); ("mrad", 1e-3); ("milliradian", 1e-3); ("deg", PI / 180); ("degree", PI / 180);
  ("mm", 1); ("millimeter", 1); ("cm", 10); ("centimeter", 10); ("m", 1000); ("meter", 1000);
  ("km", 1e6); ("kilometer", 1e6); ("um", 1e-3); ("micrometer", 1e-3); ("nm", 1e-6); ("nanometer", 1e-6);
  ("angstrom", 1e-7); ("fermi", 1e-12); ("inch", 25.4); ("in", 25.4);
  ("eV", 1e-6); ("keV", 1e-3); ("MeV", 1); ("GeV", 1e3); ("TeV", 1e6); ("PeV", 1e9); ("joule", 6.241509074460763e12);
  ("ns", 1); ("nanosecond", 1); ("ps", 1e-3); ("picosecond", 1e-3); ("us", 1e3); ("microsecond", 1e3);
  ("ms", 1e6); ("millisecond", 1e6); ("second", 1e9);
  ("milligram", 6.241509074460763e18); ("gram", 6.241509074460763e21); ("kg", 6.241509074460763e24); ("kilogram", 6.241509074460763e24);
  ("g/cm3", 6.241509074460763e18); ("mg/cm3", 6.241509074460763e15); ("kg/m3", 6.241509074460763e15);
  ("mole", 1); ("mol", 1); ("kelvin", 1)]%string.

(** A look-up in [GetBuiltInMap], GDMLUnits.cxx:109-116, 186 and 323; a name that occurred twice
    would take its last value, and none does. *)
Fixpoint lookup (u : string) (t : list (string * R)) : option R :=
  match t with
  | (n, v) :: t => if String.eqb u n then Some v else lookup u t
  | [] => None
  end.

(** GDMLUnits.cxx:118-129, [IsBuiltInConstant]. *)
Definition is_built_in (u : string) : bool := existsb (String.eqb u) (map fst built_in_constants).

(** GDMLUnits.cxx:137-142, [GetPureMathConstantNames]. *)
Definition pure_math : list string := ["pi"; "twopi"; "TWOPI"; "halfpi"; "e"; "gamma"]%string.

(** GDMLUnits.cxx:144-161, [ExpressionContainsUnitBuiltIn]; the fuel is the length of the text,
    since every round reads a character. *)
Fixpoint contains_unit (fuel : nat) (s : list ascii) : option string :=
  match fuel with
  | O => None
  | S fuel =>
      match s with
      | [] => None
      | c :: r =>
          if ident_start c then
            let name := string_of_list_ascii (take_while ident_char s) in
            if is_built_in name && negb (existsb (String.eqb name) pure_math) then Some name
            else contains_unit fuel (drop_while ident_char s)
          else contains_unit fuel r
      end
  end.

(** GDMLParserPrivate.h, [GDMLQuantityType], used in GDMLUnits.cxx:240-301. *)
Inductive quantity := LENGTH | ANGLE | ENERGY | TIME | DENSITY | TEMPERATURE | AMOUNT | NONE.

(** Comparison with a list of names, GDMLUnits.cxx:242-263. *)
Definition one_of (u : string) (l : list string) : bool := existsb (String.eqb u) l.

(** GDMLUnits.cxx:240-265, [TypeFromUnit]. *)
Definition type_from_unit (u : string) : quantity :=
  if String.eqb u "" then NONE
  else if one_of u ["mm"; "cm"; "m"; "km"; "um"; "nm"; "in"; "millimeter"; "centimeter"; "meter"; "kilometer";
                    "micrometer"; "nanometer"; "angstrom"; "fermi"; "inch"] then LENGTH
  else if one_of u ["rad"; "deg"; "mrad"; "radian"; "degree"; "milliradian"] then ANGLE
  else if one_of u ["eV"; "keV"; "MeV"; "GeV"; "TeV"; "PeV"; "joule"] then ENERGY
  else if one_of u ["ns"; "ps"; "us"; "ms"; "nanosecond"; "picosecond"; "microsecond"; "millisecond"; "second"] then TIME
  else if one_of u ["g/cm3"; "mg/cm3"; "kg/m3"] then DENSITY
  else if one_of u ["kelvin"] then TEMPERATURE
  else if one_of u ["mole"; "mol"] then AMOUNT
  else NONE.

(** Constants.h:21, 25, 26, 29 and 35. *)
Definition degrees : R := PI / 180.
(** Constants.h:25. *)
Definition radian : R := 1.
(** Constants.h:26. *)
Definition mrad : R := 1e-3 * radian.
(** Constants.h:29 and 35. *)
Definition mm : R := 1e-3 * 1.

(** GDMLUnits.cxx:178-194, [LengthScale]. *)
Definition length_scale (u : string) : option R :=
  if String.eqb u "" then Some mm
  else match type_from_unit u with
       | LENGTH => match lookup u built_in_constants with Some v => Some (v * mm) | None => None end
       | _ => None
       end.

(** GDMLUnits.cxx:207-217, [AngleScale]. *)
Definition angle_scale (u : string) : option R :=
  if String.eqb u "" then Some radian
  else if String.eqb u "deg" || String.eqb u "degree" then Some degrees
  else if String.eqb u "rad" || String.eqb u "radian" then Some radian
  else if String.eqb u "mrad" || String.eqb u "milliradian" then Some mrad
  else None.

(** [std::tolower] of a letter, GDMLUnits.cxx:271. *)
Fixpoint lower_string (s : string) : string :=
  match s with EmptyString => EmptyString | String c r => String (lower c) (lower_string r) end.

(** GDMLUnits.cxx:268-280, [TypeFromTypeAttr]. *)
Definition type_from_attr (s : string) : quantity :=
  let t := lower_string s in
  if one_of t ["length"; "lenght"; "coordinate"] then LENGTH
  else if one_of t ["angle"] then ANGLE
  else if one_of t ["energy"; "threshold"] then ENERGY
  else if one_of t ["time"] then TIME
  else if one_of t ["density"] then DENSITY
  else if one_of t ["temperature"] then TEMPERATURE
  else NONE.

(** Equality of types, GDMLUnits.cxx:291-299. *)
Definition quantity_eqb (a b : quantity) : bool :=
  match a, b with
  | LENGTH, LENGTH | ANGLE, ANGLE | ENERGY, ENERGY | TIME, TIME | DENSITY, DENSITY
  | TEMPERATURE, TEMPERATURE | AMOUNT, AMOUNT | NONE, NONE => true
  | _, _ => false
  end.

(** GDMLUnits.cxx:284-301, [ResolveQuantityType]; the second component says whether there is a
    warning, which throws in strict mode (GDMLPreprocess.cxx:296-301). *)
Definition resolve_type (type_attr u : string) : quantity * bool :=
  let from_attr := type_from_attr type_attr in
  let from_unit := type_from_unit u in
  if negb (quantity_eqb from_attr NONE) && negb (quantity_eqb from_unit NONE)
  then (from_unit, negb (quantity_eqb from_attr from_unit))
  else if negb (quantity_eqb from_unit NONE) then (from_unit, false)
  else (from_attr, false).

(** GDMLUnits.cxx:311-326, [QuantityUnitScale]. *)
Definition quantity_scale (u : string) (t : quantity) : option R :=
  if String.eqb u "" then Some 1
  else match t with
       | DENSITY =>
           if String.eqb u "g/cm3" then Some 1
           else if String.eqb u "mg/cm3" then Some 1e-3
           else if String.eqb u "kg/m3" then Some 1e-3
           else None
       | _ => lookup u built_in_constants
       end.
