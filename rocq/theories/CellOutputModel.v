(** Output of cell-wise data: the pores and the translation velocities.

    /repo/applications/sintering/include/pf-applications/sintering/postprocessors.h lines
    1279-1357 [output_porosity] behind the call of [detect_pores] (the detection is modelled
    in PoreModel.v), and lines 1895-1947 [add_translation_velocities_vectors].

    Simplified: identifiers are integers, although the code stores them as double; the cells
    of all levels are a list in the order of [++cell]; DataOut asks for the first cell and then
    for the next one until the end is met. The lanes, the velocities of a cell batch and the
    question if it has any ([has_velocity]) are arguments. *)
From Coq Require Import Ascii String QArith ZArith NArith List Arith Lia.
From Verif Require Import Util MeshFlagsModel ResultsFileModel.
Import ListNotations.
Open Scope nat_scope.
Open Scope list_scope.

(** A cell of the triangulation, active or not. [x_index] is [active_cell_index], which only
    an active cell has; [x_gid] is [global_active_cell_index]. *)
Record xcell := XCell { x_active : bool; x_owned : bool; x_index : nat; x_gid : nat }.

(** 1288 *)
Definition invalid_id : Z := (-1)%Z.

(** 1311-1321: the value of one owned cell; [None] for a look-up out of range *)
Definition porosity_id (pids : list Z) (l2g : list Z) (offset : N) (c : xcell) : option Z :=
  pid <- nth_error pids (x_gid c) ;;
  if Z.eqb pid invalid_id then Some invalid_id
  else nth_error l2g (N.to_nat (u32_sub (u32 (Z.to_N pid)) offset)).

(** replaces entry [i]; [None] if there is none *)
Fixpoint set_nth {A} (l : list A) (i : nat) (x : A) : option (list A) :=
  match l, i with
  | [], _ => None
  | _ :: r, O => Some (x :: r)
  | a :: r, S j => r' <- set_nth r j x ;; Some (a :: r')
  end.

(** 1306-1322: loop over the active cells; the vector starts with zeros *)
Fixpoint fill_ids (pids l2g : list Z) (offset : N) (cells : list xcell) (v : list Z)
  : option (list Z) :=
  match cells with
  | [] => Some v
  | c :: r =>
      if x_active c then
        if x_owned c then
          z <- porosity_id pids l2g offset c ;;
          v' <- set_nth v (x_index c) z ;;
          fill_ids pids l2g offset r v'
        else fill_ids pids l2g offset r v
      else fill_ids pids l2g offset r v
  end.

(** 1330-1333; the vector is asked for active owned cells only *)
Definition cell_valid (v : list Z) (c : xcell) : option bool :=
  if x_active c then
    if x_owned c then
      z <- nth_error v (x_index c) ;; Some (negb (Z.eqb z invalid_id))
    else Some false
  else Some false.

(** 1326-1340 [get_valid_cell]: the rest of the cells from the one found on *)
Fixpoint get_valid_cell (v : list Z) (cells : list xcell) : option (list xcell) :=
  match cells with
  | [] => Some []
  | c :: r => b <- cell_valid v c ;; if b then Some cells else get_valid_cell v r
  end.

(** 1342-1351 [first_cell], [next_cell] and the loop of DataOut over them; [fuel] bounds the
    number of cells written *)
Fixpoint visit (fuel : nat) (v : list Z) (at_ : list xcell) : option (list (xcell * Z)) :=
  match fuel with
  | O => None
  | S fuel =>
      match at_ with
      | [] => Some []
      | c :: r =>
          z <- nth_error v (x_index c) ;;
          nxt <- get_valid_cell v r ;;
          w <- visit fuel v nxt ;;
          Some ((c, z) :: w)
      end
  end.

(** 1279-1357 *)
Definition output_porosity (n_active : nat) (pids l2g : list Z) (offset : N)
    (cells : list xcell) : option (list (xcell * Z)) :=
  v <- fill_ids pids l2g offset cells (repeat 0%Z n_active) ;;
  first <- get_valid_cell v cells ;;
  visit (S (List.length cells)) v first.

(** ** Translation velocities *)

(** 1907-1912 *)
Definition zero_velocities (dim n n_cells : nat) : list (list Q) :=
  flat_map (fun _ => map (fun _ => repeat 0%Q n_cells) (seq 0 dim)) (seq 0 n).

(** 1935-1937: one assignment *)
Definition write1 (m : option (list (list Q))) (w : nat * nat * Q) : option (list (list Q)) :=
  m <- m ;;
  col <- nth_error m (fst (fst w)) ;;
  col' <- set_nth col (snd (fst w)) (snd w) ;;
  set_nth m (fst (fst w)) col'.

(** 1914-1940: the assignments in order. [batches] lists the active cell indices of the filled
    lanes of every batch; [has b ig] and [vt b ig d lane] are what [AdvectionVelocityData]
    returns. *)
Definition velocity_writes (dim n : nat) (batches : list (list nat))
    (has : nat -> nat -> bool) (vt : nat -> nat -> nat -> nat -> Q) : list (nat * nat * Q) :=
  flat_map (fun bc =>
    flat_map (fun ig =>
      if has (fst bc) ig then
        flat_map (fun lc =>
          map (fun d => (dim * ig + d, snd lc, vt (fst bc) ig d (fst lc))) (seq 0 dim))
          (combine (seq 0 (List.length (snd bc))) (snd bc))
      else []) (seq 0 n))
    (combine (seq 0 (List.length batches)) batches).

(** 1942-1946: the vectors with their names *)
Definition named_vectors (dim n : nat) (prefix : string) (m : list (list Q))
  : option (list (string * list Q)) :=
  fold_right (fun k acc =>
    rest <- acc ;;
    col <- nth_error m (dim * fst k + snd k) ;;
    Some ((prefix ++ to_string (fst k), col)%string :: rest))
    (Some []) (flat_map (fun ig => map (fun d => (ig, d)) (seq 0 dim)) (seq 0 n)).

(** 1895-1947 *)
Definition translation_vectors (dim n n_cells : nat) (prefix : string)
    (batches : list (list nat)) (has : nat -> nat -> bool)
    (vt : nat -> nat -> nat -> nat -> Q) : option (list (string * list Q)) :=
  m <- fold_left write1 (velocity_writes dim n batches has vt)
         (Some (zero_velocities dim n n_cells)) ;;
  named_vectors dim n prefix m.
