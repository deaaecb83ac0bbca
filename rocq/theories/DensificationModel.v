(** Model of applications/sintering/scripts/densification_analysis.py: density of a packing
    from the tables of single grains.

    Modelled: 53-59 and 229-232 (names of the saved files), 76-120 (folders, skipped files),
    145-172 (grid of sample points), 176-199 (covered points), 201-206
    (coordination numbers), 208-216 (rows).  Exact numbers; the centers and radii of grains
    (122-143, radii of balls of the given volume), the convex hull (its volume, and
    whether a point is inside) and the contacts are given; reading files and plotting are left
    out.  A raised exception is [None]. *)
From Coq Require Import QArith Qround ZArith.
From Coq Require Import List Arith Bool.
From Verif Require Import Util.
Import ListNotations.
Local Open Scope nat_scope.

(** ** 76-120, 208-216: rows of one folder *)

(** A row of the solution file: time, dt, solid volume.  A table of grains with what is computed
    from it (122-206): number of grains, volume of the hull, covered part, coordination numbers;
    [None]: the first volume is not a number *)
Record solution_row := mkSol { f_time : Q; f_dt : Q; f_solid : Q }.
Record grain_data := mkData { g_grains : Q; g_hull : Q; g_cover : Q; g_med : Q; g_max : Q }.

(** 100, 208-216; [junk]: what [np.empty] found in memory.  Division by a hull without volume
    gives inf, here zero *)
Definition csv_row (f : solution_row) (g : grain_data) : list Q :=
  [f_time f; f_dt f; g_grains g; f_solid f; g_hull g; (f_solid f / g_hull g)%Q; g_cover g; g_med g; g_max g].
Fixpoint csv_rows (fdata : list solution_row) (idx : nat) (files : list (option grain_data)) (junk : nat -> list Q) : list (list Q) :=
  match files with
  | [] => []
  | file :: files =>
      (match nth_error fdata idx, file with
       | Some f, Some g => csv_row f g
       | _, _ => junk idx
       end) :: csv_rows fdata (S idx) files junk
  end.

(** 76-236: all folders; what is saved under which name.  [csv_names.pop(0)] of an empty list is
    an exception *)
Record folder := mkFolder { fd_solution : list solution_row; fd_files : list (option grain_data); fd_junk : nat -> list Q }.
Fixpoint save_folders {Name : Type} (folders : list folder) (csv_names : list Name) : option (list (Name * list (list Q))) :=
  match folders with
  | [] => Some []
  | fd :: folders =>
      match fd_files fd with
      | [] => save_folders folders csv_names
      | _ :: _ =>
          match csv_names with
          | [] => None
          | n :: csv_names => rest <- save_folders folders csv_names ;; Some ((n, csv_rows (fd_solution fd) 0 (fd_files fd) (fd_junk fd)) :: rest)
          end
      end
  end.

(** ** 145-172: the grid *)

(** Python's [round]: half to even *)
Definition py_round (q : Q) : Z :=
  let f := Qfloor q in
  let d := (q - inject_Z f)%Q in
  if qltb d (1 # 2) then f else if qltb (1 # 2) d then (f + 1)%Z else if Z.even f then f else (f + 1)%Z.
(** [np.arange(start, stop, step)] with a positive step *)
Definition arange (start stop step : Q) : list Q :=
  map (fun k => start + inject_Z (Z.of_nat k) * step)%Q (seq 0 (Z.to_nat (Qceiling ((stop - start) / step)))).

(** [np.min], and the first index with that value *)
Fixpoint min_list (l : list Q) : option Q :=
  match l with
  | [] => None
  | x :: l => match min_list l with None => Some x | Some m => Some (if Qle_bool x m then x else m) end
  end.
Fixpoint first_equal (m : Q) (l : list Q) : option nat :=
  match l with
  | [] => None
  | x :: l => if Qeq_bool x m then Some 0 else option_map S (first_equal m l)
  end.

(** 150-165: splits and size of a cell along direction [i]; division by zero gives nan or an
    exception *)
Definition cell_size (grid : nat) (ref_size : Q) (ref_dim i : nat) (size : Q) : option (Z * Q) :=
  if Qeq_bool ref_size 0 then None
  else if i =? ref_dim then Some (Z.of_nat grid, (ref_size / inject_Z (Z.of_nat grid))%Q)
  else
    let splits := py_round (size / (ref_size / inject_Z (Z.of_nat grid)))%Q in
    if (splits =? 0)%Z then None else Some (splits, (size / inject_Z splits)%Q).
Fixpoint grid_ranges (grid : nat) (ref_size : Q) (ref_dim i : nat) (box : list (Q * Q)) : option (list (list Q)) :=
  match box with
  | [] => Some []
  | (bottom, top) :: box =>
      c <- cell_size grid ref_size ref_dim i (top - bottom)%Q ;;
      rest <- grid_ranges grid ref_size ref_dim (S i) box ;;
      Some (arange bottom ((10001 # 10000) * top)%Q (snd c) :: rest)
  end.
(** 146-165; [box]: [bottom_left] and [top_right] of each direction *)
Definition make_grid (grid : nat) (box : list (Q * Q)) : option (list (list Q)) :=
  let sizes := map (fun bt => snd bt - fst bt)%Q box in
  ref_size <- min_list sizes ;;
  ref_dim <- first_equal ref_size sizes ;;
  grid_ranges grid ref_size ref_dim 0 box.
(** 167-174: all combinations; the order does not matter for what is counted *)
Fixpoint mesh_points (ranges : list (list Q)) : list (list Q) :=
  match ranges with
  | [] => [[]]
  | r :: ranges => flat_map (fun x => map (cons x) (mesh_points ranges)) r
  end.

(** ** 176-199: covered points *)
Fixpoint set_one (l : list nat) (p : nat) : list nat :=
  match l, p with
  | [], _ => []
  | _ :: l, O => 1 :: l
  | x :: l, S p => x :: set_one l p
  end.
(** [query]: [BallTree.query_radius], the indices of the points within the radius of a center *)
Definition ratio_covered {Point : Type} (inside : Point -> bool) (query : list Point -> Point -> Q -> list nat)
    (points grains : list Point) (radii : list Q) : option Q :=
  let mc_points := filter inside points in
  let n := length mc_points in
  if n =? 0 then None
  else
    let coverage := map (fun gr => query mc_points (fst gr) (snd gr)) (combine grains radii) in
    let mc_covered := fold_left (fun acc cvr => fold_left set_one cvr acc) coverage (repeat 0 n) in
    Some (inject_Z (Z.of_nat (list_sum mc_covered)) / inject_Z (Z.of_nat n))%Q.

(** ** 201-206: [contacts]: the pairs found by [ends_gap] (C107) *)
Definition coordination {C : Type} (contacts : list C) (n_grains : nat) : option Q :=
  if n_grains =? 0 then None else Some (inject_Z (Z.of_nat (2 * length contacts)) / inject_Z (Z.of_nat n_grains))%Q.
