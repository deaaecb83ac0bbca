(** Model of applications/sintering/scripts/densification_analysis.py 109-143: centers and radii
    of the grains of one table.

    Exact real numbers; the table is given as its rows, a volume that is not a number is [None];
    the other entries are numbers.  That names of columns are missing (111-112) is left out.
    A raised exception is [None]. *)
From Coq Require Import Reals.
From Coq Require Import List Arith.
From Verif Require Import Util.
Import ListNotations.
Local Open Scope R_scope.

(** A row (128-143): volume, greatest radius, coordinates; all rows have the columns of the file,
    [z] being present or not for all *)
Record grain_row := mkGrain { gr_volume : option R; gr_radius : R; gr_x : R; gr_y : R; gr_z : R }.

(** 129-135; a comparison with a number that is none is false *)
Definition ball_radius (is3D : bool) (measure : option R) : R :=
  match measure with
  | None => 0
  | Some m =>
      if Rlt_dec 0 m
      then (if is3D then Rpower (3 / 4 * m / PI) (1 / 3) else sqrt (m / PI))
      else 0
  end.

(** Writing an entry of an array; behind its end an exception *)
Fixpoint write {A : Type} (i : nat) (v : A) (l : list A) : option (list A) :=
  match l, i with
  | [], _ => None
  | _ :: l, O => Some (v :: l)
  | x :: l, S i => l' <- write i v l ;; Some (x :: l')
  end.

(** 124-126: the arrays *)
Record arrays := mkArrays { a_radii : list R; a_max : list R; a_centers : list (list R) }.
Definition zeros (dim n : nat) : arrays := mkArrays (repeat 0 n) (repeat 0 n) (repeat (repeat 0 dim) n).

(** 128-143 *)
Definition center (is3D : bool) (row : grain_row) : list R :=
  if is3D then [gr_x row; gr_y row; gr_z row] else [gr_x row; gr_y row].
Fixpoint fill_grains (is3D : bool) (gid : nat) (rows : list grain_row) (a : arrays) : option arrays :=
  match rows with
  | [] => Some a
  | row :: rows =>
      radii <- write gid (ball_radius is3D (gr_volume row)) (a_radii a) ;;
      maxima <- write gid (gr_radius row) (a_max a) ;;
      centers <- write gid (center is3D row) (a_centers a) ;;
      fill_grains is3D (S gid) rows (mkArrays radii maxima centers)
  end.

(** 109-143: [Some None]: the file is skipped (117-120).  [np.genfromtxt] of a single row gives an
    array without axis, of no row an empty one: [[0]] (117) is an exception for both *)
Definition read_grains (is3D : bool) (n_grains : nat) (rows : list grain_row) : option (option arrays) :=
  match rows with
  | [] | [_] => None
  | first :: _ =>
      match gr_volume first with
      | None => Some None
      | Some _ =>
          a <- fill_grains is3D 0 rows (zeros (if is3D then 3 else 2) n_grains) ;; Some (Some a)
      end
  end.
