(** Model of the scripts that edit packings of spheres:
    applications/sintering/scripts/transform_packing.py and
    applications/sintering/scripts/extract_subpacking.py.

    Simplifications: exact real numbers; reading and writing of files is not
    modelled.  (With [dtype=None] a column of integers is read as integers, and
    then the assignments truncate; columns are real numbers here.) *)
From Coq Require Import Reals List Bool.
Import ListNotations.
Local Open Scope R_scope.

Record sphere := mkSphere { sx : R; sy : R; sz : R; sr : R }.

Definition rlt (a b : R) : bool := if Rlt_dec a b then true else false.
(** Python's [min(a, b)] and [max(a, b)] *)
Definition pmin (a b : R) : R := if rlt b a then b else a.
Definition pmax (a b : R) : R := if rlt a b then b else a.

(** transform_packing.py 19-30: limits of a coordinate *)
Definition limits (coord : sphere -> R) (smax : R) (l : list sphere) : R * R :=
  fold_left (fun lim p => (pmin (coord p - sr p) (fst lim), pmax (coord p + sr p) (snd lim))) l (smax, - smax).

(** 39-41: what is subtracted of a coordinate *)
Definition center (lim : R * R) : R := (snd lim - fst lim) / 2.

(** 43-55: moving *)
Definition shift (dx dy dz : R) (p : sphere) : sphere := mkSphere (sx p + dx) (sy p + dy) (sz p + dz) (sr p).
(** 60-64: scaling *)
Definition scale_sphere (s : R) (p : sphere) : sphere := mkSphere (sx p * s) (sy p * s) (sz p * s) (sr p * s).

(** 69-87: rotation matrices, rows *)
Definition vec := (R * R * R)%type.
Definition matrix := (vec * vec * vec)%type.
Definition radians (d : R) : R := d * PI / 180.
Definition Rx (d : R) : matrix := let t := radians d in ((1, 0, 0), (0, cos t, - sin t), (0, sin t, cos t)).
Definition Ry (d : R) : matrix := let t := radians d in ((cos t, 0, sin t), (0, 1, 0), (- sin t, 0, cos t)).
Definition Rz (d : R) : matrix := let t := radians d in ((cos t, - sin t, 0), (sin t, cos t, 0), (0, 0, 1)).
Definition dot (a b : vec) : R := let '(a1, a2, a3) := a in let '(b1, b2, b3) := b in a1 * b1 + a2 * b2 + a3 * b3.
Definition mat_vec (m : matrix) (v : vec) : vec := let '(r1, r2, r3) := m in (dot r1 v, dot r2 v, dot r3 v).
Definition columns (m : matrix) : matrix :=
  let '((a1, a2, a3), (b1, b2, b3), (c1, c2, c3)) := m in ((a1, b1, c1), (a2, b2, c2), (a3, b3, c3)).
Definition mat_mul (a b : matrix) : matrix :=
  let '(r1, r2, r3) := a in let '(c1, c2, c3) := columns b in
  ((dot r1 c1, dot r1 c2, dot r1 c3), (dot r2 c1, dot r2 c2, dot r2 c3), (dot r3 c1, dot r3 c2, dot r3 c3)).
(** 89 *)
Definition rotation (a : vec) : matrix := let '(ax, ay, az) := a in mat_mul (mat_mul (Rz az) (Ry ay)) (Rx ax).
(** 91-96 *)
Definition rotate_sphere (m : matrix) (p : sphere) : sphere :=
  let '(x, y, z) := mat_vec m (sx p, sy p, sz p) in mkSphere x y z (sr p).

(** transform_packing.py 36-96 *)
Definition transform (smax : R) (centrify : bool) (offset : option vec) (scale : option R) (rotate : option vec) (l : list sphere) : list sphere :=
  let l1 :=
    if centrify then
      let c f := center (limits f smax l) in map (shift (- c sx) (- c sy) (- c sz)) l
    else match offset with Some (x, y, z) => map (shift x y z) l | None => l end in
  let l2 := match scale with Some s => if Req_EM_T s 0 then l1 else map (scale_sphere s) l1 | None => l1 end in
  match rotate with Some a => map (rotate_sphere (rotation a)) l2 | None => l2 end.

(** extract_subpacking.py 19-24: one direction *)
Definition within (lim : option (R * R)) (x r : R) : bool :=
  match lim with None => true | Some (a, b) => rlt a (x - r) && rlt (x + r) b end.
(** extract_subpacking.py 8-28 *)
Fixpoint extract (scale : R) (lx ly lz : option (R * R)) (l acc : list sphere) : list sphere :=
  match l with
  | [] => acc
  | p :: r =>
      let add := within lx (sx p) (sr p) && within ly (sy p) (sr p) && within lz (sz p) (sr p) in
      extract scale lx ly lz r (if add then acc ++ [mkSphere (scale * sx p) (scale * sy p) (scale * sz p) (scale * sr p)] else acc)
  end.
