(** Model of the flattening of GDML volumes into the sectors of a detector.
    Sources: projects/detector/private/DetectorModel.cxx,
             projects/detector/private/gdml/GDMLStructureParser.cxx and
             projects/detector/private/gdml/GDMLReadUtils.cxx. Numbers are real, integers do not overflow. *)
From Coq Require Import Reals ZArith List Bool Ascii String.
From Verif Require Import GdmlModel GdmlLoopModel InstModel VectorModel QuatModel.
Import ListNotations.
Open Scope R_scope.

(** A physvol after parsing, GDMLStructureParser.cxx:126-131; the rotation by its angles, [None] if there is
    none. *)
Record physvol := mkphysvol { pv_ref : name; pv_position : vec; pv_angles : option (R * R * R) }.

(** The rotation of a physvol, GDMLReadUtils.cxx:65-73 and 95-129. *)
Definition pv_rotation (c : physvol) : quat :=
  match pv_angles c with None => qone | Some (x, y, z) => q_from_xyzs x y z end.

(** The members of GDMLVolume that BuildVolume reads, DetectorModel.cxx:746-803. *)
Record volume := mkvolume { v_name : name; v_assembly : bool; v_solid : name; v_material : name; v_children : list physvol }.

(** The data and the materials that BuildVolume reads, DetectorModel.cxx:734-783: aliases, volumes, which solids
    there are, the densities of the materials, and which were imported. *)
Record world := mkworld {
  w_alias : name -> option name;
  w_volume : name -> option volume;
  w_has_solid : name -> bool;
  w_density : name -> option R;
  w_imported : name -> bool
}.

(** A sector, DetectorModel.cxx:762-785; the solid by its name, [None] for the sphere of 625. *)
Record sector := mksector { s_name : name; s_level : Z; s_solid : option name; s_material : name; s_density : R; s_place : placement }.

(** [LoadDefaultSectors], DetectorModel.cxx:620-628, with ConstantDistribution1D.cxx:11. *)
Definition universe : sector :=
  mksector (text "UNIVERSE") (-2147483648) None (text "VACUUM") (1 / 10 ^ 25) (place (mkv 0 0 0) (q_from_zxzr 0 0 0)).

(** [AddSector], DetectorModel.cxx:247-259; [None] is an exception. *)
Definition add_sector (l : list sector) (s : sector) : option (list sector) :=
  if existsb (fun t => (s_level t =? s_level s)%Z) l then None
  else if existsb (fun t => str_eqb (s_name t) (s_name s)) l then None
  else Some (l ++ [s]).

(** The loop for a name, DetectorModel.cxx:764-768; [None] is no end in so many rounds. *)
Fixpoint unique_name (fuel : nat) (taken : list name) (base now : name) (suffix : nat) : option name :=
  if existsb (str_eqb now) taken then
    match fuel with
    | O => None
    | S fuel => unique_name fuel taken base (base ++ text "_" ++ decimal suffix) (S suffix)
    end
  else Some now.

(** Why a build fails; modelling device for the exceptions of DetectorModel.cxx:737, 741, 754, 756, 777 and
    249-253. *)
Inductive reason := IsCircular | NoVolume | NoSolid | NoMaterial | NotImported | Clash.

(** The end of a build: the next level and the sectors, or an exception; modelling device for
    DetectorModel.cxx:732-807. *)
Inductive outcome := Built (level : Z) (l : list sector) | Failed (r : reason) | Unfinished.

Section Build.
Variable w : world.

(** The alias of a volume, DetectorModel.cxx:734-735. *)
Definition resolved (raw : name) : name := match w_alias w raw with Some n => n | None => raw end.

(** The placement of a child, DetectorModel.cxx:790-801. *)
Definition child_placement (p : placement) (c : physvol) : placement :=
  place (local_to_global p (pv_position c)) (qmul (p_quat p) (qconj (pv_rotation c))).

(** The sector of a volume that is not an assembly, DetectorModel.cxx:749-785. *)
Definition build_sector (v : volume) (p : placement) (level : Z) (l : list sector) : outcome :=
  match w_has_solid w (v_solid v), w_density w (v_material v) with
  | false, _ => Failed NoSolid
  | true, None => Failed NoMaterial
  | true, Some rho =>
      match unique_name (S (List.length l)) (map s_name l) (v_name v) (v_name v) 2 with
      | None => Unfinished
      | Some n =>
          if w_imported w (v_material v) then
            match add_sector l (mksector n level (Some (v_solid v)) (v_material v) rho p) with
            | None => Failed Clash
            | Some l => Built (level + 1) l
            end
          else Failed NotImported
      end
  end.

(** [BuildVolume], DetectorModel.cxx:732-807; [visited] is the set of the volumes above. *)
Fixpoint build (fuel : nat) (visited : list name) (raw : name) (p : placement) (level : Z) (l : list sector) : outcome :=
  match fuel with
  | O => Unfinished
  | S fuel =>
      let n := resolved raw in
      if existsb (str_eqb n) visited then Failed IsCircular
      else match w_volume w n with
           | None => Failed NoVolume
           | Some v =>
               match (if v_assembly v then Built level l else build_sector v p level l) with
               | Built level l =>
                   (fix each (cs : list physvol) (level : Z) (l : list sector) : outcome :=
                      match cs with
                      | [] => Built level l
                      | c :: cs =>
                          match build fuel (n :: visited) (pv_ref c) (child_placement p c) level l with
                          | Built level l => each cs level l
                          | o => o
                          end
                      end) (v_children v) level l
               | o => o
               end
           end
  end.

(** The loop over the children, DetectorModel.cxx:789-804. *)
Fixpoint build_all (fuel : nat) (visited : list name) (cs : list physvol) (p : placement) (level : Z) (l : list sector) : outcome :=
  match cs with
  | [] => Built level l
  | c :: cs =>
      match build fuel visited (pv_ref c) (child_placement p c) level l with
      | Built level l => build_all fuel visited cs p level l
      | o => o
      end
  end.

(** The sectors that LoadGDML makes, DetectorModel.cxx:640-642 and 810-813. *)
Definition load (fuel : nat) (world_volume : name) : outcome :=
  match world_volume with
  | [] => Built 0 [universe]
  | _ => build fuel [] world_volume (place (mkv 0 0 0) (q_from_zxzr 0 0 0)) 0 [universe]
  end.

End Build.

(** ** Replicas *)

(** [std::stoi], GDMLStructureParser.cxx:190: white space, a sign, digits, and whatever follows; [None] throws.
    Simplification: int does not overflow. *)
Fixpoint stoi (s : name) : option Z :=
  match s with
  | [] => None
  | c :: r =>
      if space c then stoi r
      else
        let sign := if Ascii.eqb c "-" then (-1)%Z else 1%Z in
        let digits := take_while is_digit (if Ascii.eqb c "-" || Ascii.eqb c "+" then r else s) in
        match digits with [] => None | _ => Some (sign * Z.of_nat (number digits))%Z end
  end.

(** The number of copies, GDMLStructureParser.cxx:186-192. *)
Definition copy_number (s : name) : Z := match stoi s with Some z => z | None => 0%Z end.

(** A replica along an axis, GDMLStructureParser.cxx:185-247: number of copies, reference, direction, width and
    offset; the width and the offset are in metres, a missing one is 0. *)
Record replica := mkreplica { r_number : Z; r_ref : name; r_direction : vec; r_width : R; r_offset : R }.

(** One copy, GDMLStructureParser.cxx:239-246. *)
Definition copy (r : replica) (i : nat) : physvol :=
  let d := vmag (r_direction r) in
  let t := r_offset r + (INR i + 1 / 2 - IZR (r_number r) / 2) * r_width r in
  mkphysvol (r_ref r) (mkv (t * (vx (r_direction r) / d)) (t * (vy (r_direction r) / d)) (t * (vz (r_direction r) / d))) None.

(** The copies of a replica, GDMLStructureParser.cxx:193, 198, 211-220 and 239-246. *)
Definition copies (r : replica) : list physvol :=
  if (r_number r <=? 0)%Z then []
  else match r_ref r with
       | [] => []
       | _ => if Req_EM_T (vmag (r_direction r)) 0 then [] else map (copy r) (seq 0 (Z.to_nat (r_number r)))
       end.
