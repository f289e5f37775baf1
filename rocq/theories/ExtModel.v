(** Model of the primary particles read from a table.
    Source: projects/distributions/private/primary/PrimaryExternalDistribution.cxx (lines without a file
    refer to it), projects/dataclasses/private/InteractionRecord.cxx:286-288.
    Doubles are real numbers (NaN and infinities are not modelled); a file is the list of its characters. *)
From Coq Require Import Reals ZArith Ascii String List Bool.
From Verif Require Import VectorModel RecordModel GdmlModel.
Import ListNotations.
Open Scope R_scope.

(** A literal of the source, e.g. PrimaryExternalDistribution.cxx:52. *)
Definition word (s : string) : list ascii := list_ascii_of_string s.

(** Repeated [std::getline(stream, piece, c)], PrimaryExternalDistribution.cxx:42, 49, 77 and 84: the pieces ended by [c]
    and what is left behind the last [c], unless that is empty. *)
Fixpoint pieces (c : ascii) (s : list ascii) : list (list ascii) :=
  match s with
  | [] => []
  | x :: r =>
      if Ascii.eqb x c then [] :: pieces c r
      else match pieces c r with [] => [[x]] | p :: ps => (x :: p) :: ps end
  end.

(** PrimaryExternalDistribution.cxx:77: the end of a line. *)
Definition newline : ascii := "010"%char.
(** PrimaryExternalDistribution.cxx:49 and 84. *)
Definition comma : ascii := ","%char.

(** The object, PrimaryExternalDistribution.h:35-41 (projects/distributions/public/SIREN/distributions/primary);
    the name of the file is left out. *)
Record external := mkexternal {
  x_keys : list (list ascii); x_data : list (list R);
  x_initial : bool; x_vertex : bool; x_momentum : bool; x_emin : R }.

(** The flags of the header, PrimaryExternalDistribution.cxx:52-60. *)
Definition named (keys : list (list ascii)) (k : string) : bool := existsb (str_eqb (word k)) keys.
(** PrimaryExternalDistribution.cxx:62-64. *)
Definition every (keys : list (list ascii)) (l : list string) : bool := forallb (named keys) l.
(** PrimaryExternalDistribution.cxx:66, 69 and 72: some of the columns, but not all. *)
Definition lacking (keys : list (list ascii)) (l : list string) : bool :=
  existsb (named keys) l && negb (every keys l).

(** The columns of one row, PrimaryExternalDistribution.cxx:84-97; [number] is [std::stod], [None] where it throws. The
    result: the numbers and whether the row has passed; [None] where an exception is thrown. *)
Fixpoint row (number : list ascii -> option R) (emin : R) (keys : list (list ascii))
  (values : list (list ascii)) : option (list R * bool) :=
  match values, keys with
  | [], [] => Some ([], true)
  | [], _ :: _ => None
  | _ :: _, [] => None
  | v :: vs, k :: ks =>
      match number v with
      | None => None
      | Some x =>
          match row number emin ks vs with
          | None => None
          | Some (xs, passed) =>
              Some (x :: xs, negb (str_eqb k (word "E") && (if Rlt_dec x emin then true else false)) && passed)
          end
      end
  end.

(** PrimaryExternalDistribution.cxx:78-79; [trim] is lines 21-26, the same function as GDMLExpression.cxx:22-27. *)
Definition ignored (line : list ascii) : bool :=
  match trim line with [] => true | c :: _ => Ascii.eqb c "#" end.

(** PrimaryExternalDistribution.cxx:77-98. *)
Fixpoint rows (number : list ascii -> option R) (emin : R) (keys : list (list ascii))
  (lines : list (list ascii)) : option (list (list R)) :=
  match lines with
  | [] => Some []
  | l :: ls =>
      if ignored l then rows number emin keys ls
      else match row number emin keys (pieces comma l) with
           | None => None
           | Some (xs, passed) =>
               match rows number emin keys ls with
               | None => None
               | Some rest => Some (if passed then xs :: rest else rest)
               end
           end
  end.

(** PrimaryExternalDistribution.cxx:28-103, [LoadInputFile], with the constructors 105-113, on a file that can be opened.
    The order in which an exception is found does not matter, so all are [None]. *)
Definition load (number : list ascii -> option R) (emin : R) (file : list ascii) : option external :=
  let lines := pieces newline file in
  let keys := map trim (pieces comma (hd [] lines)) in
  if lacking keys ["x0"; "y0"; "z0"]%string || lacking keys ["x"; "y"; "z"]%string
     || lacking keys ["px"; "py"; "pz"]%string then None
  else match rows number emin keys (tl lines) with
       | None | Some [] => None
       | Some data =>
           Some (mkexternal keys data (every keys ["x0"; "y0"; "z0"]%string)
                   (every keys ["x"; "y"; "z"]%string) (every keys ["px"; "py"; "pz"]%string) emin)
       end.

(** PrimaryExternalDistribution.cxx:116-119, [GetPhysicalNumEvents]. *)
Definition physical_events (d : external) : nat := length (x_data d).

(** An array of three doubles without initial values, PrimaryExternalDistribution.cxx:127-129. *)
Record triple := mktriple { t_x : option R; t_y : option R; t_z : option R }.

(** PrimaryExternalDistribution.cxx:127-129. *)
Definition unwritten : triple := mktriple None None None.

(** The use of such an array, e.g. PrimaryExternalDistribution.cxx:172; [None] where it holds an indeterminate value. *)
Definition whole (t : triple) : option vec :=
  match t_x t, t_y t, t_z t with Some x, Some y, Some z => Some (mkv x y z) | _, _, _ => None end.

(** What the loop of PrimaryExternalDistribution.cxx:130-171 writes: the three arrays, the record and its interaction
    parameters (a map from names to numbers). *)
Record draft := mkdraft {
  f_initial : triple; f_vertex : triple; f_momentum : triple;
  f_record : primary; f_params : list ascii -> option R }.

(** PrimaryExternalDistribution.cxx:131-170: one column. *)
Definition column (f : draft) (kv : list ascii * R) : draft :=
  let '(k, v) := kv in
  let i := f_initial f in let x := f_vertex f in let p := f_momentum f in
  let r := f_record f in let m := f_params f in
  if str_eqb k (word "x0") then mkdraft (mktriple (Some v) (t_y i) (t_z i)) x p r m
  else if str_eqb k (word "y0") then mkdraft (mktriple (t_x i) (Some v) (t_z i)) x p r m
  else if str_eqb k (word "z0") then mkdraft (mktriple (t_x i) (t_y i) (Some v)) x p r m
  else if str_eqb k (word "x") then mkdraft i (mktriple (Some v) (t_y x) (t_z x)) p r m
  else if str_eqb k (word "y") then mkdraft i (mktriple (t_x x) (Some v) (t_z x)) p r m
  else if str_eqb k (word "z") then mkdraft i (mktriple (t_x x) (t_y x) (Some v)) p r m
  else if str_eqb k (word "px") then mkdraft i x (mktriple (Some v) (t_y p) (t_z p)) r m
  else if str_eqb k (word "py") then mkdraft i x (mktriple (t_x p) (Some v) (t_z p)) r m
  else if str_eqb k (word "pz") then mkdraft i x (mktriple (t_x p) (t_y p) (Some v)) r m
  else if str_eqb k (word "t0") then mkdraft i x p (set_start r v) m
  else if str_eqb k (word "E") then mkdraft i x p (set_num r Energy v) m
  else if str_eqb k (word "m") then mkdraft i x p (set_num r Mass v) m
  else mkdraft i x p r (fun n => if str_eqb n k then Some v else m n).

(** PrimaryExternalDistribution.cxx:126: the row chosen by the number [u]. *)
Definition index (u : R) (n : nat) : nat := Nat.min (Z.to_nat (Int_part (u * INR n))) (n - 1).

(** The setters of PrimaryExternalDistribution.cxx:172-177 given an array. *)
Definition set_whole (r : primary) (n : place) (t : triple) : option primary :=
  match whole t with Some v => Some (set_vec r n v) | None => None end.

(** PrimaryExternalDistribution.cxx:121-178, [Sample]; [None] where the code reads outside a vector or an unwritten array
    element. *)
Definition sample (d : external) (u : R) (r : primary) (params : list ascii -> option R) :
  option (primary * (list ascii -> option R)) :=
  match nth_error (x_data d) (index u (length (x_data d))) with
  | None => None
  | Some values =>
  if Nat.ltb (length values) (length (x_keys d)) then None else
  let f := fold_left column (combine (x_keys d) values) (mkdraft unwritten unwritten unwritten r params) in
  match (if x_momentum d then set_whole (f_record f) Momentum (f_momentum f) else Some (f_record f)) with
  | None => None
  | Some r1 =>
  match (if x_initial d then set_whole r1 Initial (f_initial f) else Some r1) with
  | None => None
  | Some r2 =>
  match (if x_vertex d then
           match set_whole r2 Vertex (f_vertex f) with
           | None => None
           | Some r3 => if negb (x_initial d) then set_whole r3 Initial (f_vertex f) else Some r3
           end
         else Some r2) with
  | None => None
  | Some r4 => Some (r4, f_params f)
  end end end end.

(** PrimaryExternalDistribution.cxx:188-194, [GenerationProbability] of a record with this energy. *)
Definition generation (d : external) (energy : R) : R := if Rle_dec (x_emin d) energy then 1 else 0.
