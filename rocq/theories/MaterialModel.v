(** Model of the material registry.
    Sources: projects/detector/private/MaterialModel.cxx,
             projects/detector/public/SIREN/detector/MaterialModel.h, MaterialModel.tcc,
             projects/dataclasses/public/SIREN/dataclasses/ParticleTypes.def. *)
From Coq Require Import List Bool ZArith Reals String Ascii.
From Verif Require Import TraversalModel.
Import ListNotations.
Open Scope R_scope.

(** ParticleTypes.def:16, 31, 32, 200. ParticleTypes.def:16. *)
Definition EMinus : Z := 11.
(** ParticleTypes.def:31. *)
Definition Neutron : Z := 2112.
(** ParticleTypes.def:32. *)
Definition PPlus : Z := 2212.
(** ParticleTypes.def:200. *)
Definition Nucleon : Z := 2000002112.

(** ** Nuclear codes *)

(** The characters of [snprintf(buf, ..., "%d", code)] (MaterialModel.cxx:414-415):
    minus sign or digit. *)
Inductive chr := Minus | Digit (d : Z).

(** Decimal digits of a non-negative number, most significant first. [fuel] bounds
    the number of digits; ten suffice for an int. MaterialModel.cxx:415. *)
Fixpoint digits (fuel : nat) (n : Z) : list chr :=
  match fuel with
  | O => []
  | S f => if (n <? 10)%Z then [Digit n] else digits f (n / 10) ++ [Digit (n mod 10)]
  end.

(** MaterialModel.cxx:415, [%d]. *)
Definition print (code : Z) : list chr :=
  if (code <? 0)%Z then Minus :: digits 10 (- code) else digits 10 code.

(** Digits of one scanf item of at most [w] characters. MaterialModel.cxx:416. *)
Fixpoint scan_digits (w : nat) (acc : Z) (l : list chr) : Z * list chr :=
  match w, l with
  | S w', Digit d :: r => scan_digits w' (10 * acc + d) r
  | _, _ => (acc, l)
  end.

(** One item "%<w>d" of MaterialModel.cxx:416: a sign counts as one character and
    must be followed by a digit; [None] is a matching or input failure. *)
Definition scan (w : nat) (l : list chr) : option (Z * list chr) :=
  match l with
  | Minus :: ((Digit _ :: _) as r) =>
      match w with S (S w') => let (v, r') := scan_digits (S w') 0 r in Some ((- v)%Z, r') | _ => None end
  | Digit _ :: _ => match w with O => None | _ => Some (scan_digits w 0 l) end
  | _ => None
  end.

(** MaterialModel.cxx:410-423, [GetNucleonContent]: strange, neutron, proton and
    nucleon count. *)
Definition nucleon_content (code : Z) : outcome (Z * Z * Z * Z) :=
  match scan 2 (print code) with None => Throw | Some (prefix, l1) =>
  match scan 1 l1 with None => Throw | Some (strange, l2) =>
  match scan 3 l2 with None => Throw | Some (protons, l3) =>
  match scan 3 l3 with None => Throw | Some (nucleons, l4) =>
  match scan 1 l4 with None => Throw | Some (excitation, _) =>
    Ok (strange, nucleons - protons - strange, protons, nucleons)%Z
  end end end end end.

(** ** Components *)

(** MaterialModel.h:35-43. *)
Record component := mkcomp {
  c_type : Z; c_strange : Z; c_neutrons : Z; c_nucleons : Z; c_protons : Z; c_molar : R; c_is_atom : bool
}.

(** MaterialModel.h:59-64. *)
Record mcomponent := mkmc { mc_component : component; mc_mass : R; mc_particles : R }.

Section Materials.
(** The table of atomic masses (AtomicMasses.cxx:9), by strange, neutron, proton,
    nucleon count. *)
Variable atomic_mass : Z * Z * Z * Z -> option R.
(** MaterialModel.cxx:454-497: the empirical molar mass of lines 52-56, from the
    same counts; not modelled. *)
Variable empirical_mass : Z * Z * Z * Z -> R.
(** Constants.h:131. *)
Variable avogadro : R.
(** MaterialModel.h:33. *)
Variable electron_molar_mass : R.
(** MaterialModel.cxx:374: the radiation length of a nucleus from A and Z. Only its
    arguments are modelled. *)
Variable x0 : Z -> Z -> R.

(** MaterialModel.cxx:17-66: the constructor of a component; [at] on the table
    throws. *)
Definition make_component (t : Z) : outcome component :=
  if (t =? PPlus)%Z then
    match atomic_mass (0, 0, 1, 1)%Z with Some m => Ok (mkcomp t 0 0 1 1 m false) | None => Throw end
  else if (t =? Neutron)%Z then
    match atomic_mass (0, 1, 0, 1)%Z with Some m => Ok (mkcomp t 0 1 1 0 m false) | None => Throw end
  else if (t =? Nucleon)%Z then
    match atomic_mass (0, 1, 0, 1)%Z, atomic_mass (0, 0, 1, 1)%Z with
    | Some a, Some b => Ok (mkcomp t 0 0 1 0 ((a + b) / 2) false)
    | _, _ => Throw
    end
  else if (t =? EMinus)%Z then Ok (mkcomp t 0 0 0 0 electron_molar_mass false)
  else
    match nucleon_content t with
    | Ok (l, n, z, a) =>
        match atomic_mass (l, n, z, a) with
        | Some m => Ok (mkcomp t l n a z m true)
        | None => Ok (mkcomp t l n a z (empirical_mass (l, n, z, a)) true)
        end
    | _ => Ok (mkcomp t 0 0 0 0 0 true)
    end.

(** MaterialModel.cxx:129-141: the loop over the given mass fractions; also the sums
    neutrons_per_amu, nucleons_per_amu, protons_per_amu. Simplification: dividing
    by a molar mass of zero gives 0 here and infinity or NaN in the code; the
    theorems exclude it. *)
Fixpoint given_components (l : list (Z * R)) : outcome (list mcomponent * (R * R * R)) :=
  match l with
  | [] => Ok ([], (0, 0, 0))
  | (t, f) :: r =>
      match make_component t with
      | Ok c =>
          match given_components r with
          | Ok (cs, (n, a, p)) =>
              Ok (mkmc c f (avogadro * f / c_molar c) :: cs,
                  (f / c_molar c * IZR (c_neutrons c) + n,
                   f / c_molar c * IZR (c_nucleons c) + a,
                   f / c_molar c * IZR (c_protons c) + p))
          | Throw => Throw
          | UB => UB
          end
      | Throw => Throw
      | UB => UB
      end
  end.

(** The repeated block of MaterialModel.cxx:143-173: one derived component. *)
Definition derived (t : Z) (per_amu : R) : outcome mcomponent :=
  match make_component t with
  | Ok c => Ok (mkmc c (per_amu * c_molar c) (per_amu * avogadro))
  | Throw => Throw
  | UB => UB
  end.

(** MaterialModel.cxx:143-173, the derived components of one kind. *)
Definition append_derived (per_amu : R) (ts : list Z) (acc : outcome (list mcomponent)) : outcome (list mcomponent) :=
  if Rlt_dec 0 per_amu then
    fold_left (fun acc t =>
      match acc with
      | Ok cs => match derived t per_amu with Ok c => Ok (cs ++ [c]) | Throw => Throw | UB => UB end
      | e => e
      end) ts acc
  else acc.

(** MaterialModel.cxx:123-173: the components of a definition. *)
Definition all_components (l : list (Z * R)) : outcome (list mcomponent) :=
  match given_components l with
  | Ok (cs, (n, a, p)) =>
      append_derived p [PPlus; EMinus] (append_derived a [Nucleon] (append_derived n [Neutron] (Ok cs)))
  | Throw => Throw
  | UB => UB
  end.

(** MaterialModel.h:78-86. Maps are association lists; names are strings. *)
Record materials := mkmats {
  m_names : list string;
  m_ids : list (string * nat);
  m_components : list (list mcomponent);
  m_by_id : list ((nat * Z) * mcomponent);
  m_radiation : list R
}.

(** MaterialModel.cxx:90. *)
Definition no_materials : materials := mkmats [] [] [] [] [].

(** [std::map::find] on names and on component keys. MaterialModel.cxx:113, 323. *)
Fixpoint find_name {A} (m : list (string * A)) (n : string) : option A :=
  match m with [] => None | (k, a) :: r => if String.eqb k n then Some a else find_name r n end.
(** MaterialModel.cxx:322-323, equality of keys. *)
Definition key_eqb (a b : nat * Z) : bool := Nat.eqb (fst a) (fst b) && (snd a =? snd b)%Z.
(** MaterialModel.cxx:323, 331. *)
Fixpoint find_key {A} (m : list ((nat * Z) * A)) (k : nat * Z) : option A :=
  match m with [] => None | (j, a) :: r => if key_eqb j k then Some a else find_key r k end.

(** [std::map::insert]: keeps an existing entry. [operator[] =]: replaces it.
    MaterialModel.cxx:184, 190. *)
Definition insert_key {A} (m : list ((nat * Z) * A)) (k : nat * Z) (a : A) : list ((nat * Z) * A) :=
  match find_key m k with Some _ => m | None => m ++ [(k, a)] end.
(** MaterialModel.cxx:190, [operator[] =]. *)
Fixpoint assign_key {A} (m : list ((nat * Z) * A)) (k : nat * Z) (a : A) : list ((nat * Z) * A) :=
  match m with
  | [] => [(k, a)]
  | (j, b) :: r => if key_eqb j k then (j, a) :: r else (j, b) :: assign_key r k a
  end.

(** MaterialModel.cxx:176, 187, writing one entry of a vector. *)
Fixpoint replace_nth {A} (n : nat) (a : A) (l : list A) : list A :=
  match n, l with
  | O, _ :: r => a :: r
  | S n', x :: r => x :: replace_nth n' a r
  | _, [] => []
  end.

(** MaterialModel.cxx:363-379, [ComputeMaterialRadiationLength]. *)
Definition radiation_length (cs : list mcomponent) : R :=
  / fold_left (fun acc m => if c_is_atom (mc_component m)
                            then acc + mc_mass m / x0 (c_nucleons (mc_component m)) (c_protons (mc_component m))
                            else acc) cs 0.

(** MaterialModel.cxx:111-193, [AddMaterial]. The fractions come from a std::map, so
    their keys are increasing. The name is registered before the components are
    computed, so an exception leaves it registered. *)
Definition add_material (s : materials) (name : string) (fractions : list (Z * R)) : materials * outcome unit :=
  match find_name (m_ids s) name with
  | None =>
      let id := List.length (m_names s) in
      let s1 := mkmats (m_names s ++ [name]) (m_ids s ++ [(name, id)]) (m_components s ++ [[]]) (m_by_id s) (m_radiation s) in
      match all_components fractions with
      | Ok cs =>
          (mkmats (m_names s1) (m_ids s1) (replace_nth id cs (m_components s1))
             (fold_left (fun m c => insert_key m (id, c_type (mc_component c)) c) cs (m_by_id s1))
             (m_radiation s1 ++ [radiation_length cs]), Ok tt)
      | Throw => (s1, Throw)
      | UB => (s1, UB)
      end
  | Some id =>
      match all_components fractions with
      | Ok cs =>
          (mkmats (m_names s) (m_ids s) (replace_nth id cs (m_components s))
             (fold_left (fun m c => assign_key m (id, c_type (mc_component c)) c) cs (m_by_id s))
             (replace_nth id (radiation_length cs) (m_radiation s)), Ok tt)
      | Throw => (s, Throw)
      | UB => (s, UB)
      end
  end.

(** ** Queries *)

(** MaterialModel.cxx:302-304 and 306-308: [at] throws. *)
Definition material_name (s : materials) (id : Z) : outcome string :=
  if (id <? 0)%Z then Throw else match nth_error (m_names s) (Z.to_nat id) with Some n => Ok n | None => Throw end.
(** MaterialModel.cxx:306-308, [GetMaterialId]. *)
Definition material_id (s : materials) (n : string) : outcome Z :=
  match find_name (m_ids s) n with Some i => Ok (Z.of_nat i) | None => Throw end.

(** MaterialModel.cxx:310-319. *)
Definition has_name (s : materials) (n : string) : bool := match find_name (m_ids s) n with Some _ => true | None => false end.
(** MaterialModel.cxx:314-319. *)
Definition has_id (s : materials) (id : Z) : bool := if (id <? 0)%Z then false else (id <? Z.of_nat (List.length (m_names s)))%Z.

(** MaterialModel.cxx:287-295 (and 425-432): an unknown id is UB. *)
Definition material_targets (s : materials) (id : Z) : outcome (list Z) :=
  if (id <? 0)%Z then UB
  else match nth_error (m_components s) (Z.to_nat id) with
       | Some cs => Ok (map (fun c => c_type (mc_component c)) cs)
       | None => UB
       end.

(** MaterialModel.cxx:321-335. *)
Definition mass_fraction (s : materials) (id : nat) (t : Z) : R :=
  match find_key (m_by_id s) (id, t) with Some c => mc_mass c | None => 0 end.
(** MaterialModel.cxx:329-335. *)
Definition particle_fraction (s : materials) (id : nat) (t : Z) : R :=
  match find_key (m_by_id s) (id, t) with Some c => mc_particles c | None => 0 end.

(** MaterialModel.cxx:337-361 and the templates. *)
Definition mass_fractions (s : materials) (id : nat) (ts : list Z) : list R := map (mass_fraction s id) ts.
(** MaterialModel.cxx:350-361. *)
Definition particle_fractions (s : materials) (id : nat) (ts : list Z) : list R := map (particle_fraction s id) ts.

(** MaterialModel.cxx:382-403: the loop of [GetTargetRadiationFraction]: the
    fractions and X0inv. *)
Fixpoint radiation_loop (s : materials) (id : nat) (ts : list Z) (fractions : list R) (inv : R) : outcome (list R * R) :=
  match ts with
  | [] => Ok (fractions, inv)
  | t :: r =>
      match find_key (m_by_id s) (id, t) with
      | Some _ => radiation_loop s id r (fractions ++ [0]) inv
      | None =>
          match find_key (m_by_id s) (id, t) with
          | None => Throw
          | Some c =>
              if c_is_atom (mc_component c) then
                let frac := mc_mass c / x0 (c_nucleons (mc_component c)) (c_protons (mc_component c)) in
                radiation_loop s id r (fractions ++ [frac]) (inv + frac)
              else radiation_loop s id r (fractions ++ [0]) inv
          end
      end
  end.

(** [a / b] of doubles; [None] when the result is not a number or infinite. MaterialModel.cxx:405. *)
Definition quotient (a b : R) : option R := if Req_EM_T b 0 then None else Some (a / b).

(** MaterialModel.cxx:381-408. *)
Definition radiation_fractions (s : materials) (id : nat) (ts : list Z) : outcome (list (option R)) :=
  match radiation_loop s id ts [] 0 with
  | Ok (fs, inv) => Ok (map (fun f => quotient f inv) fs)
  | Throw => Throw
  | UB => UB
  end.

(** ** Files *)

(** A file under std::getline: the lines ended by a newline that remain, and what
    follows the last newline; [None] once the end was reached. MaterialModel.cxx:251, 266. *)
Record stream := mkstream { st_lines : list string; st_last : option string }.

(** [std::getline(in, buffer)]: at the end the string is first emptied or set to the
    rest; once the end was reached, the buffer is not touched. MaterialModel.cxx:251, 266. *)
Definition getline (f : stream) (buffer : string) : stream * string :=
  match st_lines f, st_last f with
  | l :: r, _ => (mkstream r (st_last f), l)
  | [], Some l => (mkstream [] None, l)
  | [], None => (f, buffer)
  end.

(** MaterialModel.cxx:254 and 268: lines that are skipped. *)
Definition skipped (b : string) : bool :=
  match b with
  | EmptyString => true
  | String c _ => Ascii.eqb c " " || Ascii.eqb c "009" || Ascii.eqb c "#"
  end.

(** MaterialModel.cxx:262 and 274: extraction from a line. Simplification: a failing
    extraction also gives some value. *)
Variable parse_header : string -> string * nat.
(** MaterialModel.cxx:274. *)
Variable parse_component : string -> Z * R.

(** [component_mass_fractions[k] = v], keys increasing. MaterialModel.cxx:275. *)
Fixpoint assign_fraction (m : list (Z * R)) (k : Z) (v : R) : list (Z * R) :=
  match m with
  | [] => [(k, v)]
  | (j, w) :: r => if (k <? j)%Z then (k, v) :: m else if (k =? j)%Z then (k, v) :: r else (j, w) :: assign_fraction r k v
  end.

(** MaterialModel.cxx:265-277: the loop that reads [n] more components. *)
Fixpoint read_components (fuel n : nat) (f : stream) (b : string) (m : list (Z * R)) :
    option (stream * string * list (Z * R)) :=
  match n with
  | O => Some (f, b, m)
  | S n' =>
      match fuel with
      | O => None
      | S fuel' =>
          let (f', b') := getline f b in
          if skipped b' then read_components fuel' n f' b' m
          else let (k, v) := parse_component b' in read_components fuel' n' f' b' (assign_fraction m k v)
      end
  end.

(** MaterialModel.cxx:249-281: the loop over the file. *)
Fixpoint read_file (fuel : nat) (f : stream) (b : string) (s : materials) : option (materials * outcome unit) :=
  match st_last f with
  | None => Some (s, Ok tt)
  | Some _ =>
      match fuel with
      | O => None
      | S fuel' =>
          let (f1, b1) := getline f b in
          if skipped b1 then read_file fuel' f1 b1 s
          else
            let (name, n) := parse_header b1 in
            match read_components fuel' n f1 b1 [] with
            | None => None
            | Some (f2, b2, m) =>
                match add_material s name m with
                | (s', Ok _) => read_file fuel' f2 b2 s'
                | (s', e) => Some (s', e)
                end
            end
      end
  end.
End Materials.
