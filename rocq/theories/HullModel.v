(** Model of parallelepipeds and general trapezoids, found by clipping a line with the
    planes of their faces. Sources: projects/geometry/private/{Para,Trap}.cxx.
    Doubles are real numbers; an infinite distance is [None]. *)
From Coq Require Import Reals List Bool.
From Verif Require Import VectorModel GeometryModel.
Import ListNotations.
Open Scope R_scope.

(** ** The part of the line left over *)

(** Para.cxx:137-138, 161, Trap.cxx:233-234, 250-252: the latest entry, minus infinity at first. *)
Definition later (e : option R) (t : R) : option R :=
  match e with None => Some t | Some x => if Rlt_dec x t then Some t else Some x end.

(** Para.cxx:138, 162, Trap.cxx:234, 255-257: the earliest exit, infinity at first. *)
Definition sooner (x : option R) (t : R) : option R :=
  match x with None => Some t | Some y => if Rlt_dec t y then Some t else Some y end.

(** Para.cxx:164: the entry is after the exit; with [eq], Trap.cxx:261: not before it. *)
Definition passed (eq : bool) (e x : option R) : bool :=
  match e, x with
  | Some e, Some x => if eq then (if Rle_dec x e then true else false) else (if Rlt_dec x e then true else false)
  | _, _ => false
  end.

(** Para.cxx:171-182, Trap.cxx:264-275: a crossing at distance [t]. *)
Definition end_hit (p d : vec) (t : R) (entering : bool) : hit := mkhit t entering (point_at p d t).

(** ** Parallelepiped *)

(** Para.cxx:26-33 and 188-195: the halves of the edges. *)
Definition para_edges (dx dy dz alpha theta phi : R) : vec * vec * vec :=
  (mkv dx 0 0, mkv (dy * tan alpha) dy 0, mkv (dz * tan theta * cos phi) (dz * tan theta * sin phi) dz).

(** Para.cxx:37-41 (and 44-48, 51-55): a normal of length one, zero if the edges are parallel. *)
Definition face_normal (a b : vec) : vec :=
  let n := vcross a b in let m := vmag n in if Rlt_dec 0 m then vdiv n m else n.

(** Para.cxx:21-65, [ComputeFaceData]: normals and distances of the three pairs of faces. *)
Definition para_faces (dx dy dz alpha theta phi : R) : list (vec * R) :=
  let '(e1, e2, e3) := para_edges dx dy dz alpha theta phi in
  let n1 := face_normal e2 e3 in let n2 := face_normal e3 e1 in let n3 := face_normal e1 e2 in
  [(n1, Rabs (vdot n1 e1)); (n2, Rabs (vdot n2 e2)); (n3, Rabs (vdot n3 e3))].

(** Para.cxx:139-165, the loop over the pairs of faces; [None] is the return of an empty list. *)
Fixpoint para_scan (fs : list (vec * R)) (p d : vec) (e x : option R) : option (option R * option R) :=
  match fs with
  | [] => Some (e, x)
  | (n, fd) :: r =>
      let nd := vdot n d in let no := vdot n p in
      if Rlt_dec (Rabs nd) precision then if Rlt_dec fd (Rabs no) then None else para_scan r p d e x
      else
        let t1 := (- fd - no) / nd in let t2 := (fd - no) / nd in
        let '(t1, t2) := if Rlt_dec nd 0 then (t2, t1) else (t1, t2) in
        let e := later e t1 in let x := sooner x t2 in
        if passed false e x then None else para_scan r p d e x
  end.

(** Para.cxx:126-183, [ComputeIntersections]; [None] if a distance is infinite. *)
Definition para_hits (fs : list (vec * R)) (p d : vec) : option (list hit) :=
  match para_scan fs p d None None with
  | None => Some []
  | Some (Some e, Some x) => Some [end_hit p d (snap e) true; end_hit p d (snap x) false]
  | Some _ => None
  end.

(** Para.cxx:74-79, 88-93: the constructor; [None] is its exception. *)
Definition make_para (dx dy dz alpha theta phi : R) : option (list (vec * R)) :=
  if Rle_dec dx 0 then None else if Rle_dec dy 0 then None else if Rle_dec dz 0 then None else Some (para_faces dx dy dz alpha theta phi).

(** Para.cxx:197-207: the corners. *)
Definition para_corners (dx dy dz alpha theta phi : R) : list vec :=
  let '(e1, e2, e3) := para_edges dx dy dz alpha theta phi in
  flat_map (fun s1 => flat_map (fun s2 => map (fun s3 => vadd (vadd (vscale s1 e1) (vscale s2 e2)) (vscale s3 e3)) [- (1); 1]) [- (1); 1]) [- (1); 1].

(** Para.cxx:186-209, [GetBoundingBox], and Trap.cxx:279-285: the box around corners; [big] is
    the largest double. *)
Definition corner_bounds (big : R) (vs : list vec) : aabb := fold_left expand_point vs (empty_aabb big).

(** ** General trapezoid *)

(** Trap.h:96-106: the parameters. *)
Record trap := mktrap { t_dz : R; t_theta : R; t_phi : R; t_dy1 : R; t_dx1 : R; t_dx2 : R; t_alpha1 : R;
  t_dy2 : R; t_dx3 : R; t_dx4 : R; t_alpha2 : R }.

(** Trap.cxx:26-35, 40-50: the constructors; [false] is their exception. *)
Definition trap_valid (s : trap) : bool :=
  if Rle_dec (t_dz s) 0 then false else
  if Rlt_dec (t_dx1 s) 0 then false else if Rlt_dec (t_dx2 s) 0 then false else
  if Rlt_dec (t_dx3 s) 0 then false else if Rlt_dec (t_dx4 s) 0 then false else
  if Rlt_dec (t_dy1 s) 0 then false else if Rlt_dec (t_dy2 s) 0 then false else true.

(** Trap.cxx:58-112, [ComputeVertices]. *)
Definition trap_vertices (s : trap) : list vec :=
  let tt := tan (t_theta s) in let a1 := tan (t_alpha1 s) in let a2 := tan (t_alpha2 s) in
  let xl := - t_dz s * tt * cos (t_phi s) in let yl := - t_dz s * tt * sin (t_phi s) in
  let xh := t_dz s * tt * cos (t_phi s) in let yh := t_dz s * tt * sin (t_phi s) in
  [mkv (xl - t_dy1 s * a1 - t_dx1 s) (yl - t_dy1 s) (- t_dz s);
   mkv (xl - t_dy1 s * a1 + t_dx1 s) (yl - t_dy1 s) (- t_dz s);
   mkv (xl + t_dy1 s * a1 + t_dx2 s) (yl + t_dy1 s) (- t_dz s);
   mkv (xl + t_dy1 s * a1 - t_dx2 s) (yl + t_dy1 s) (- t_dz s);
   mkv (xh - t_dy2 s * a2 - t_dx3 s) (yh - t_dy2 s) (t_dz s);
   mkv (xh - t_dy2 s * a2 + t_dx3 s) (yh - t_dy2 s) (t_dz s);
   mkv (xh + t_dy2 s * a2 + t_dx4 s) (yh + t_dy2 s) (t_dz s);
   mkv (xh + t_dy2 s * a2 - t_dx4 s) (yh + t_dy2 s) (t_dz s)].

(** Trap.cxx:115-143, [ComputePlane]: normal and offset of the plane through three points. *)
Definition compute_plane (v0 v1 v2 : vec) : vec * R :=
  let n := face_normal (vsub v1 v0) (vsub v2 v0) in (n, - vdot n v0).

(** Trap.cxx:148-156: the mean of the corners. *)
Definition mean (vs : list vec) : vec := vdiv (fold_left vadd vs (mkv 0 0 0)) 8.

(** Trap.cxx:190-197: the normal points away from [c]. *)
Definition outward (c : vec) (pl : vec * R) : vec * R :=
  if Rlt_dec 0 (vdot (fst pl) c + snd pl) then (vneg (fst pl), - snd pl) else pl.

(** Trap.cxx:158-174: the corners each face is computed from. *)
Definition face_corners : list (nat * nat * nat) := [(0, 1, 2); (7, 6, 5); (0, 1, 5); (3, 2, 6); (0, 3, 7); (1, 2, 6)]%nat.

(** Trap.cxx:146-199, [ComputePlanes]. *)
Definition trap_planes (vs : list vec) : list (vec * R) :=
  let v i := nth i vs (mkv 0 0 0) in
  map (fun f => outward (mean vs) (compute_plane (v (fst (fst f))) (v (snd (fst f))) (v (snd f)))) face_corners.

(** Trap.cxx:235-259, the loop over the faces; [None] is the return of an empty list. *)
Fixpoint trap_scan (fs : list (vec * R)) (p d : vec) (e x : option R) : option (option R * option R) :=
  match fs with
  | [] => Some (e, x)
  | (n, c) :: r =>
      let nd := vdot n d in let no := vdot n p + c in
      if Rlt_dec (Rabs nd) precision then if Rlt_dec 0 no then None else trap_scan r p d e x
      else let t := - no / nd in if Rlt_dec nd 0 then trap_scan r p d (later e t) x else trap_scan r p d e (sooner x t)
  end.

(** Trap.cxx:222-276, [ComputeIntersections]; [None] if a distance is infinite. *)
Definition trap_hits (fs : list (vec * R)) (p d : vec) : option (list hit) :=
  match trap_scan fs p d None None with
  | None => Some []
  | Some (e, x) =>
      if passed true e x then Some [] else
        match e, x with Some e, Some x => Some [end_hit p d e true; end_hit p d x false] | _, _ => None end
  end.
