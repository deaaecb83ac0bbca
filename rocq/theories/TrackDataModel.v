(** Model of applications/sintering/scripts/track_grain_data.py: the tables with
    quantities of single grains over time.

    Simplifications: exact rationals; names of quantities and of files are numbers;
    ids within a file are unique; columns are filled one after the other (each step
    of the loops touches one column only); printing is not modelled. *)
From Coq Require Import QArith List Arith Bool.
From Verif Require Import Util.
Import ListNotations.
Local Open Scope nat_scope.

(** An entry of [np.empty], a nan or a number. *)
Inductive cell := Uninit | Nan | Val (q : Q).
Definition to_cell (v : option Q) : cell := match v with Some q => Val q | None => Nan end.
Definition is_nan (c : cell) : bool := match c with Nan => true | _ => false end.

Fixpoint set_cell (k : nat) (c : cell) (l : list cell) : list cell :=
  match l, k with
  | [], _ => []
  | _ :: r, O => c :: r
  | x :: r, S k => x :: set_cell k c r
  end.

(** 208-210: the loop down to row 0; [k] is [fill_nans_up_to + 1]. *)
Fixpoint fill_down (k : nat) (c : cell) (l : list cell) : list cell :=
  match k with O => l | S k => fill_down k c (set_cell k c l) end.

(** 198-210: one row of one column; the state is the column and
    [fill_nans_up_to + 1]. *)
Definition fill_step (replace : bool) (idx : nat) (v : option Q) (st : list cell * option nat) : list cell * option nat :=
  let (col, upto) := st in
  let col := set_cell idx (to_cell v) col in
  if replace then
    if is_nan (nth idx col Uninit) then
      if (idx =? 0) || is_nan (nth (idx - 1) col Uninit) then (col, Some (S idx))
      else (set_cell idx (nth (idx - 1) col Uninit) col, upto)
    else match upto with
         | None => (col, None)
         | Some k => (fill_down k (nth idx col Uninit) col, Some 0)
         end
  else (col, upto).
(** 172-210 for one column; files beyond the rows of the log are skipped (174-177) *)
Fixpoint fill_rows (replace : bool) (n_log idx : nat) (values : list (option Q)) (st : list cell * option nat) : list cell * option nat :=
  match values with
  | [] => st
  | v :: r => fill_rows replace n_log (S idx) r (if n_log <=? idx then st else fill_step replace idx v st)
  end.
Definition fill_column (replace : bool) (n_log : nat) (values : list (option Q)) : list cell :=
  fst (fill_rows replace n_log 0 values (repeat Uninit n_log, None)).

(** A statistics file: ids, names of quantities, values *)
Record table := mkTable { t_ids : list nat; t_names : list nat; t_val : nat -> nat -> option Q }.
Definition member (x : nat) (l : list nat) : bool := existsb (Nat.eqb x) l.

(** A folder: the rows (time, dt) of the solution log and the statistics files *)
Record folder := mkFolder { f_log : list (Q * Q); f_files : list table }.
(** A saved table: columns time and dt, header and columns of quantities *)
Record saved := mkSaved { s_time : list cell; s_dt : list cell; s_header : list (nat * nat); s_columns : list (list cell) }.

(** 185-192: the checks for one file *)
Definition complete (grains qtys : list nat) (t : table) : bool :=
  forallb (fun g => member g (t_ids t) && forallb (fun q => member q (t_names t)) qtys) grains.

(** 128-215: one folder with at least one file; [None] for an exception.  (A log
    with a single row is read as an array without dimension, whose length cannot
    be taken in 170.) *)
Definition track (replace : bool) (grains qtys : list nat) (f : folder) : option saved :=
  match f_files f with
  | [] => None
  | first :: _ =>
      let n_log := length (f_log f) in
      let this_grains := filter (fun g => member g (t_ids first)) grains in
      let this_qtys := filter (fun q => member q (t_names first)) qtys in
      if n_log =? 1 then None
      else if forallb (complete this_grains this_qtys) (firstn n_log (f_files f)) then
        let header := flat_map (fun g => map (fun q => (q, g)) this_qtys) this_grains in
        let rows := firstn (length (f_files f)) (f_log f) in
        Some (mkSaved (fill_column false n_log (map (fun r => Some (fst r)) rows)) (fill_column false n_log (map (fun r => Some (snd r)) rows)) header
                (map (fun qg => fill_column replace n_log (map (fun t => t_val t (snd qg) (fst qg)) (f_files f))) header))
      else None
  end.

(** 119-222: all folders; the saved files with their names, and whether an
    exception ended the script *)
Fixpoint run (replace : bool) (grains qtys : list nat) (folders : list folder) (names : list nat) : list (nat * saved) * bool :=
  match folders with
  | [] => ([], false)
  | f :: r =>
      match f_files f with
      | [] => run replace grains qtys r names
      | _ :: _ =>
          match track replace grains qtys f, names with
          | Some t, name :: names => let (l, e) := run replace grains qtys r names in ((name, t) :: l, e)
          | _, _ => ([], true)
          end
      end
  end.
