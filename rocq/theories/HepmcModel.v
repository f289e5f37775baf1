(** Model of the run-level bookkeeping of HepMC3 export.
    Source: projects/io/private/HepMC3Writer.cxx, HepMC3Reader.cxx. *)
From Coq Require Import String Ascii DecimalString List Bool ZArith Reals.
From Verif Require Import OrderModel.
Import ListNotations.
Open Scope Z_scope.

(** What SaveInteractionTreesAsHepMC3 reads of one tree: the header's event number
    and weights, and the signature of the first datum. A null or empty tree is
    [None] in the lists below (HepMC3Writer.cxx:587, 622, 630). *)
Record saved := mksaved { sv_number : Z; sv_signature : signature; sv_weights : list R }.

(** The trees that are not skipped. HepMC3Writer.cxx:587, 622, 630. *)
Fixpoint kept (l : list (option saved)) : list saved :=
  match l with
  | [] => []
  | None :: r => kept r
  | Some t :: r => t :: kept r
  end.

(** ** Event numbers *)

(** [std::uint64_t] arithmetic. HepMC3Writer.cxx:627, 636. *)
Definition u64 (z : Z) : Z := z mod 18446744073709551616.

(** HepMC3Writer.cxx:620-624, the set of explicit numbers (as a list; only
    membership is used). *)
Definition explicit_numbers (l : list (option saved)) : list Z :=
  filter (fun n => negb (n =? 0)) (map sv_number (kept l)).

(** HepMC3Writer.cxx:635: [while(explicit_numbers.count(next_fallback)) ++next_fallback].
    [None]: the fuel is used up, the loop still runs. *)
Fixpoint skip (fuel : nat) (ex : list Z) (n : Z) : option Z :=
  match fuel with
  | O => None
  | S f => if existsb (Z.eqb n) ex then skip f ex (u64 (n + 1)) else Some n
  end.

(** HepMC3Writer.cxx:627-639: the numbers given to [Write], in order. *)
Fixpoint number_events (fuel : nat) (ex : list Z) (next : Z) (l : list saved) : option (list Z) :=
  match l with
  | [] => Some []
  | t :: r =>
      if negb (sv_number t =? 0) then
        match number_events fuel ex next r with Some ns => Some (sv_number t :: ns) | None => None end
      else
        match skip fuel ex next with
        | None => None
        | Some n =>
            match number_events fuel ex (u64 (n + 1)) r with Some ns => Some (n :: ns) | None => None end
        end
  end.

(** HepMC3Writer.cxx:620-639. *)
Definition event_numbers (l : list (option saved)) : option (list Z) :=
  number_events (S (List.length l)) (explicit_numbers l) 0 (kept l).

(** [static_cast<int>] of a uint64 (two's complement; HepMC3Writer.cxx:349). *)
Definition to_int (z : Z) : Z := (z + 2147483648) mod 4294967296 - 2147483648.

(** What an event file keeps of the number: the int and the optional attribute
    siren.event_number (HepMC3Writer.cxx:349-353). *)
Definition write_number (n : Z) : Z * option Z :=
  (to_int n, if 2147483647 <? n then Some n else None).

(** HepMC3Reader.cxx:195-200. *)
Definition read_number (s : Z * option Z) : Z :=
  match snd s with Some n => n | None => u64 (fst s) end.

(** ** Process identifiers *)

(** [std::to_string(int)]. HepMC3Writer.cxx:23-25. *)
Definition to_string (z : Z) : string := NilEmpty.string_of_int (Z.to_int z).

(** HepMC3Writer.cxx:25: appending the secondaries. *)
Fixpoint key_secondaries (l : list Z) : string :=
  match l with
  | [] => EmptyString
  | t :: r => (to_string t ++ "," ++ key_secondaries r)%string
  end.

(** HepMC3Writer.cxx:22-27, [ProcessKey]. *)
Definition process_key (s : signature) : string :=
  (to_string (primary_type s) ++ "|" ++ to_string (target_type s) ++ ">" ++ key_secondaries (secondary_types s))%string.

(** HepMC3Writer.cxx:32-35. *)
Fixpoint name_secondaries (l : list Z) : string :=
  match l with
  | [] => EmptyString
  | [t] => to_string t
  | t :: r => (to_string t ++ "," ++ name_secondaries r)%string
  end.

(** HepMC3Writer.cxx:29-37, [ProcessName]. *)
Definition process_name (s : signature) : string :=
  (to_string (primary_type s) ++ "+" ++ to_string (target_type s) ++ " -> " ++ name_secondaries (secondary_types s))%string.

(** A [std::map<std::string, T>]: the first entry of a key counts. HepMC3Writer.cxx:358, 611. *)
Fixpoint find_str {A} (m : list (string * A)) (k : string) : option A :=
  match m with
  | [] => None
  | (j, a) :: r => if String.eqb j k then Some a else find_str r k
  end.

(** HepMC3Writer.cxx:585-591: sig_by_key, [emplace] keeps the first. Simplification:
    entries stay in order of insertion; they are sorted by signature afterwards. *)
Definition collect (l : list (option saved)) : list (string * signature) :=
  fold_left (fun m t => let k := process_key (sv_signature t) in
               match find_str m k with Some _ => m | None => m ++ [(k, sv_signature t)] end) (kept l) [].

(** HepMC3Writer.cxx:607, [std::sort] with operator<. Simplification: insertion sort;
    the elements are distinct, so the sorted list is unique. *)
Fixpoint insert_signature (s : signature) (l : list signature) : list signature :=
  match l with
  | [] => [s]
  | t :: r => if lt_ signature_cmp t s then t :: insert_signature s r else s :: t :: r
  end.

(** HepMC3Writer.cxx:607. *)
Definition sort_signatures (l : list signature) : list signature := fold_right insert_signature [] l.

(** The registry in the options: process_ids, process_names (HepMC3Writer.h:82-83).
    Maps are association lists, newest first in the second. *)
Record registry := mkregistry { pr_ids : list (string * Z); pr_names : list (Z * string) }.

(** HepMC3Writer.cxx:609-616. Simplification: the [int] counter is unbounded. *)
Fixpoint assign_ids (g : registry) (next : Z) (l : list signature) : registry :=
  match l with
  | [] => g
  | s :: r =>
      match find_str (pr_ids g) (process_key s) with
      | Some _ => assign_ids g next r
      | None => assign_ids (mkregistry (pr_ids g ++ [(process_key s, next)]) ((next, process_name s) :: pr_names g)) (next + 1) r
      end
  end.

(** HepMC3Writer.cxx:602-616. *)
Definition register_processes (pre : registry) (l : list (option saved)) : registry :=
  assign_ids pre 700 (sort_signatures (map snd (collect l))).

(** HepMC3Writer.cxx:357-362: the process id of one event. *)
Definition process_id (g : registry) (s : signature) : option Z := find_str (pr_ids g) (process_key s).

(** The name shown for an id. HepMC3Writer.cxx:614. *)
Fixpoint find_int {A} (m : list (Z * A)) (k : Z) : option A :=
  match m with
  | [] => None
  | (j, a) :: r => if j =? k then Some a else find_int r k
  end.

(** ** Weight sums *)
Open Scope R_scope.

(** Options::fatx_weight_sum, fatx_weight_sum_by_primary, accepted_by_primary and the
    local [accepted] (HepMC3Writer.h:84-86, HepMC3Writer.cxx:582); a map lookup of
    an absent key is zero. *)
Record sums := mksums { total_weight : R; weight_by : Z -> R; accepted_by : Z -> Z; accepted : Z }.

(** HepMC3Writer.cxx:592-598, one tree. *)
Definition add_event (s : sums) (t : saved) : sums :=
  let w := match sv_weights t with [] => 1 | w :: _ => w end in
  let p := primary_type (sv_signature t) in
  mksums (total_weight s + w)
         (fun k => if (k =? p)%Z then weight_by s k + w else weight_by s k)
         (fun k => if (k =? p)%Z then (accepted_by s k + 1)%Z else accepted_by s k)
         (accepted s + 1)%Z.

(** HepMC3Writer.cxx:586-599, all trees. *)
Definition sum_events (s : sums) (l : list (option saved)) : sums := fold_left add_event (kept l) s.

(** HepMC3Writer.cxx:365-371: the weights written for one event; [n] is the number of
    weight names, made at least one at 195. *)
Definition event_weights (n : nat) (ws : list R) : list R :=
  if Nat.eqb (List.length ws) n then ws
  else repeat (match ws with [] => 1 | w :: _ => w end) n.
