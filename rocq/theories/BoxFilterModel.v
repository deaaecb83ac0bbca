(** Model of the filter of a field by a bounding box,
    include/pf-applications/grid/bounding_box_filter.h 26-212 and
    include/pf-applications/grid/grid_tools.h 161-357
    [filter_mesh_withing_bounding_box].

    A point is a function of the index of the coordinate below [dim].  The field has
    one block and is a function of the degree of freedom; the degrees of freedom are
    the vertices.  All cells belong to one rank: the exchange of ghost values
    (grid_tools.h 358-476) and the hanging node constraints (467-472) are left out.
    [None]: a division by zero or an exception. *)
From Coq Require Import List QArith Qabs Qminmax Arith Bool.
From Verif Require Import Util.
Import ListNotations.
Local Open Scope nat_scope.

Definition point := nat -> Q.
Inductive pos := Outside | Boundary | Inside.

Definition qsum (l : list Q) : Q := fold_right Qplus 0%Q l.
Definition sdot (dim : nat) (a b : point) : Q := qsum (map (fun d => (a d * b d)%Q) (seq 0 dim)).

Section Filter.
Variables (dim : nat) (low up : point).
(** [tol]: default tolerance of [BoundingBox::point_inside], relative to the side
    length; [eps]: [numeric_limits::epsilon()].  (Both are 2^-52.) *)
Variables (tol eps : Q).

(** deal.II [BoundingBox::point_inside] *)
Definition box_contains (p : point) : bool :=
  forallb (fun d => negb (qltb (p d) (low d - tol * (up d - low d))) && negb (qltb (up d + tol * (up d - low d)) (p d))) (seq 0 dim).

(** bounding_box_filter.h 64-87 *)
Definition position (p : point) : pos :=
  if box_contains p then
    if existsb (fun d => qltb (Qabs (low d - p d)) eps || qltb (Qabs (up d - p d)) eps) (seq 0 dim) then Boundary else Inside
  else Outside.

Definition is_outside (p : point) : bool := match position p with Outside => true | _ => false end.
Definition is_inside (p : point) : bool := match position p with Inside => true | _ => false end.
(** 113-117 *)
Definition outside_or_boundary (p : point) : bool := negb (is_inside p).

(** 119-148, one lane *)
Definition filter_value (p : point) : Q :=
  fold_left (fun v d => let v := if qltb (low d) (p d) then v else 0%Q in if qltb (p d) (up d) then v else 0%Q) (seq 0 dim) 1%Q.

(** 150-168 *)
Definition intersects (vertices : list point) : bool :=
  (length (filter is_inside vertices) <? length vertices) && (length (filter is_outside vertices) <? length vertices).

(** 43-56: origin and normal *)
Definition normal (d : nat) : point := fun i => if i =? d then (-1)%Q else 0%Q.
Definition planes : list (point * point) :=
  map (fun d => (low, normal d)) (seq 0 dim) ++ map (fun d => (up, normal d)) (seq 0 dim).

(** 181-212: factor and point *)
Definition intersect_line_plane (p0 p1 p_co p_no : point) (epsilon : Q) : option (Q * point) :=
  let u := fun i => (p0 i - p1 i)%Q in
  let dot := sdot dim p_no u in
  if qltb epsilon (Qabs dot)
  then
    let w := fun i => (p0 i - p_co i)%Q in
    let fac := (- sdot dim p_no w / dot)%Q in
    Some (fac, fun i => (p0 i + u i * fac)%Q)
  else None.

(** ** grid_tools.h *)
Variables (iso null : Q) (pt : nat -> point).
(** the length of an edge (irrational in general) *)
Variable (len : nat * nat -> Q).

Definition field := nat -> Q.
Definition put (x : field) (i : nat) (v : Q) : field := fun j => if j =? i then v else x j.

(** 226-233 *)
Definition clip (x : field) (i : nat) : field :=
  match position (pt i) with
  | Boundary => put x i (Qmin (x i) iso)
  | Outside => put x i null
  | Inside => x
  end.

Record fcell := mkFCell { vertices : list nat; lines : list (nat * nat) }.

(** 214-235 *)
Definition eliminate (cells : list fcell) (x : field) : field :=
  fold_left (fun x c => fold_left clip (vertices c) x) cells x.

(** 295-355: one plane; [val0], [val1] were read before the loop over the planes *)
Definition plane_step (l : nat * nat) (val0 val1 : Q) (plane : point * point) (x : field) : option field :=
  let v0 := pt (fst l) in let v1 := pt (snd l) in
  match intersect_line_plane v0 v1 (fst plane) (snd plane) (1 # 1000000) with
  | Some (fac, p) =>
      if qltb (Qabs fac) 1 && qltb (sdot dim (fun i => p i - v0 i)%Q (fun i => p i - v1 i)%Q) 0
      then
        let '(val_max, index_min, fac_ratio) :=
          if qltb val1 val0 then (val0, snd l, Qabs fac) else (val1, fst l, (1 - Qabs fac)%Q) in
        let iso_pos := (fac_ratio * len l)%Q in
        k <- qdiv (- (val_max - iso)) iso_pos ;;
        let val_min := (k * len l + val_max)%Q in
        Some (if qltb (1 # 1000000) (Qabs (x index_min - val_min)) then put x index_min val_min else x)
      else Some x
  | None => Some x
  end.

Fixpoint planes_loop (l : nat * nat) (val0 val1 : Q) (ps : list (point * point)) (x : field) : option field :=
  match ps with
  | [] => Some x
  | p :: r => x <- plane_step l val0 val1 p x ;; planes_loop l val0 val1 r x
  end.

(** 264-357 *)
Definition line_step (l : nat * nat) (x : field) : option field :=
  let val0 := x (fst l) in let val1 := x (snd l) in
  let filter_out0 := outside_or_boundary (pt (fst l)) || qltb val0 iso in
  let filter_out1 := outside_or_boundary (pt (snd l)) || qltb val1 iso in
  if filter_out0 && filter_out1 then Some x else planes_loop l val0 val1 planes x.

Fixpoint lines_loop (ls : list (nat * nat)) (x : field) : option field :=
  match ls with [] => Some x | l :: r => x <- line_step l x ;; lines_loop r x end.

(** 244-262 *)
Definition cell_step (c : fcell) (x : field) : option field :=
  if negb (intersects (map pt (vertices c))) then Some x
  else if existsb (fun i => qltb iso (x i)) (vertices c) then lines_loop (lines c) x else Some x.

Fixpoint cells_loop (cs : list fcell) (x : field) : option field :=
  match cs with [] => Some x | c :: r => x <- cell_step c x ;; cells_loop r x end.

(** The cells of all levels in the order of the levels *)
Definition filter_mesh (cells : list fcell) (levels : list (list fcell)) (x : field) : option field :=
  if qltb eps (Qabs (iso - null)) then cells_loop (concat levels) (eliminate cells x) else None.
End Filter.
