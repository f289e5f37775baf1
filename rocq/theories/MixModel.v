(** Model of the composition of GDML materials: from numbers of atoms to fractions of mass, and from
    nested compositions to nuclei.
    Sources: projects/detector/private/gdml/GDMLMaterialParser.cxx and
             projects/detector/private/DetectorModel.cxx. Numbers are real. *)
From Coq Require Import Reals ZArith List Bool Ascii String.
From Verif Require Import GdmlModel GdmlLoopModel InstModel MergeModel.
Import ListNotations.
Open Scope R_scope.

(** The lambda [parseFlatIdx], GDMLMaterialParser.cxx:199-208. Simplification: int does not overflow. *)
Definition parse_flat_idx (s : name) : name * nat :=
  match rfind (text "__") s with
  | None | Some 0%nat => (s, 0%nat)
  | Some pos =>
      if (List.length s <=? pos + 2)%nat then (s, 0%nat)
      else if forallb is_digit (skipn (pos + 2) s) then (firstn pos s, Nat.pred (number (skipn (pos + 2) s)))
      else (s, 0%nat)
  end.

(** Instances of a name that is a key of the tracker, GDMLMaterialParser.cxx:211-214: [None] if there is no key
    or no such index. *)
Definition instance_A (inst : name -> list R) (b : name) (i : nat) : option R := nth_error (inst b) i.

(** The lambda [lookupA], GDMLMaterialParser.cxx:209-224; the instances of isotopes, elements and materials by
    their A. *)
Definition lookup_A (iso elem mat : name -> list R) (resolved : name) : R :=
  let '(b, i) := parse_flat_idx resolved in
  match instance_A iso b i with
  | Some a => a
  | None => match instance_A elem b i with
            | Some a => a
            | None => match instance_A mat b i with Some a => a | None => 0 end
            end
  end.

(** The lambda [resolveCompRef], GDMLMaterialParser.cxx:42-48; the three trackers by their counts. *)
Definition resolve_ref (enabled : bool) {A : Type} (iso elem mat : tracker A) (ref : name) : name :=
  let s := strip enabled ref in
  let a := resolve enabled iso ref in
  if negb (str_eqb a s) then a
  else let b := resolve enabled elem ref in
       if negb (str_eqb b s) then b else resolve enabled mat ref.

(** The sum of the masses, GDMLMaterialParser.cxx:225-231; [mass] is [lookupA]. *)
Definition total_mass (mass : name -> R) (entries : list (name * R)) : R :=
  fold_left (fun t e => t + snd e * mass (fst e)) entries 0.

(** The composition of a material with composite children, GDMLMaterialParser.cxx:192-241. *)
Definition composite (mass : name -> R) (entries : list (name * R)) (comp : list (name * R)) : list (name * R) :=
  match entries with
  | [] => comp
  | _ =>
      let total := total_mass mass entries in
      if Rlt_dec 0 total
      then fold_left (fun c e => assign c (fst e) (snd e * mass (fst e) / total)) entries comp
      else fold_left (fun c e => assign c (fst e) (snd e)) entries comp
  end.

(** ** From compositions to nuclei *)

(** The part of [GDMLMaterial] that LoadGDML reads; Z and A as the integers of DetectorModel.cxx:683-684. *)
Record component := mkcomponent { c_Z : Z; c_A : Z; c_composition : list (name * R) }.

(** [findComponent], DetectorModel.cxx:652-660. *)
Definition find_component (iso elem mat : list (name * component)) (n : name) : option component :=
  match assoc iso n with
  | Some c => Some c
  | None => match assoc elem n with Some c => Some c | None => assoc mat n end
  end.

(** The code of a nucleus, DetectorModel.cxx:686 and 717. *)
Definition nucleus (z a : Z) : Z := (1000000000 + z * 10000 + a * 10)%Z.

(** result[p] += w in a std::map, DetectorModel.cxx:678, 687 and 706; a missing key is 0. Simplification: the
    map is a list without the order of its keys. *)
Fixpoint bump (m : list (Z * R)) (p : Z) (w : R) : list (Z * R) :=
  match m with
  | [] => [(p, 0 + w)]
  | (q, x) :: r => if (q =? p)%Z then (q, x + w) :: r else (q, x) :: bump r p w
  end.

(** The addition of a map to a map, DetectorModel.cxx:677-679 and 705-707. *)
Definition bump_all (m sub : list (Z * R)) : list (Z * R) := fold_left (fun m e => bump m (fst e) (snd e)) sub m.

(** Map, exception or no end in the number of calls in each other; modelling device for
    DetectorModel.cxx:662-692. *)
Inductive outcome := Nuclei (m : list (Z * R)) | Missing | Circular | Unfinished.

Section Resolve.
Variable find : name -> option component.

(** [resolve_component], DetectorModel.cxx:662-692; [visited] is resolve_visited, and an exception leaves
    LoadGDML. *)
Fixpoint resolve_component (fuel : nat) (visited : list name) (n : name) (weight : R) : outcome :=
  match fuel with
  | 0%nat => Unfinished
  | S fuel =>
      match find n with
      | None => Missing
      | Some c =>
          if existsb (str_eqb n) visited then Circular
          else
            (fix each (l : list (name * R)) (result : list (Z * R)) : outcome :=
               match l with
               | [] => Nuclei result
               | (s, f) :: r =>
                   match resolve_component fuel (n :: visited) s (weight * f) with
                   | Nuclei m => each r (bump_all result m)
                   | o => o
                   end
               end)
            (c_composition c)
            (match c_composition c with
             | [] => if ((0 <? c_Z c) && (0 <? c_A c))%Z then bump [] (nucleus (c_Z c) (c_A c)) weight else []
             | _ => []
             end)
      end
  end.

(** The loop over a composition, DetectorModel.cxx:675-680 and 703-708. *)
Fixpoint resolve_each (fuel : nat) (visited : list name) (weight : R) (l : list (name * R)) (result : list (Z * R)) : outcome :=
  match l with
  | [] => Nuclei result
  | (s, f) :: r =>
      match resolve_component fuel visited s (weight * f) with
      | Nuclei m => resolve_each fuel visited weight r (bump_all result m)
      | o => o
      end
  end.

(** What LoadGDML gives to AddMaterial for a material, DetectorModel.cxx:697-721; an empty map is no call. The
    fractions of the top level are not multiplied by anything, that is by 1 here. *)
Definition material_nuclei (fuel : nat) (m : component) : outcome :=
  match c_composition m with
  | [] => if ((0 <? c_Z m) && (0 <? c_A m))%Z then Nuclei [(nucleus (c_Z m) (c_A m), 1)] else Nuclei []
  | l => resolve_each fuel [] 1 l []
  end.

End Resolve.
