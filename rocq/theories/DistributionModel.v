(** Model of applications/sintering/scripts/distribution_analysis.py: history and histograms of
    a quantity of grains or pores.

    Modelled: 41, 58-62 (counts of a histogram and what is saved), 79-80, 88-96, 112-167 (loop over
    the tables), 190-218 (saving the curves and their histograms).  Exact numbers; the standard deviation is represented by its square; plotting,
    reading files and names are left out.  A table of one row is a list of one value here (numpy makes
    a number of it).  A raised exception is [None].  [norm.fit] gives the
    mean and the root of the mean squared deviation. *)
From Coq Require Import QArith Qround ZArith.
From Coq Require Import List Arith Bool.
From Verif Require Import Util.
Import ListNotations.
Local Open Scope nat_scope.

Definition sum_q (l : list Q) : Q := fold_right Qplus 0%Q l.
Definition mean (l : list Q) : Q := (sum_q l / inject_Z (Z.of_nat (length l)))%Q.
Definition variance (l : list Q) : Q := mean (map (fun x => (x - mean l) * (x - mean l))%Q l).

(** 88-96 *)
Record curve := mkCurve { c_means : list Q; c_stds : list Q; c_total : list nat; c_time : list Q; c_data : list (list Q) }.
Definition new_curve : curve := mkCurve [] [] [] [] [].

(** 127-129; [argmax]: the first of the largest values; [np.delete] *)
Fixpoint max_list (l : list Q) : option Q :=
  match l with
  | [] => None
  | x :: l => match max_list l with None => Some x | Some m => Some (if Qle_bool m x then x else m) end
  end.
Fixpoint delete_equal (m : Q) (l : list Q) : list Q :=
  match l with
  | [] => []
  | x :: l => if Qeq_bool x m then l else x :: delete_equal m l
  end.
Definition delete_largest (l : list Q) : option (list Q) := m <- max_list l ;; Some (delete_equal m l).

Record options := mkOptions { o_start : Q; o_end : Q; o_delete : bool; o_save : bool }.
(** [s_done]: the curves before the last one, [s_last]: [curves[-1]] *)
Record state := mkState { s_done : list curve; s_last : curve; s_init : option (list Q * Q); s_final : option (list Q * Q) }.

(** 131-148: a table without values repeats the last point and opens a new curve *)
Definition gap (s : state) : state :=
  let c := s_last s in
  match c_means c with
  | [] => s
  | _ :: _ =>
      mkState (s_done s ++ [mkCurve (c_means c ++ [last (c_means c) 0%Q]) (c_stds c ++ [last (c_stds c) 0%Q]) (c_total c ++ [last (c_total c) 0])
                                    (c_time c ++ [last (c_time c) 0%Q]) (c_data c)]) new_curve (s_init s) (s_final s)
  end.
(** 151-164; [is_last]: [idx == n_rows - 1] *)
Definition point (o : options) (s : state) (t : Q) (qdata data : list Q) (is_last : bool) : state :=
  let '(ini, fin) :=
    match s_init s with
    | None => (Some (data, t), s_final s)
    | Some _ =>
        if (negb (Qeq_bool (o_end o) 0) && Qle_bool (o_end o) t) || is_last
        then match s_final s with None => (s_init s, Some (data, t)) | Some _ => (s_init s, s_final s) end
        else (s_init s, s_final s)
    end in
  let c := s_last s in
  mkState (s_done s)
    (mkCurve (c_means c ++ [mean data]) (c_stds c ++ [variance data]) (c_total c ++ [length qdata]) (c_time c ++ [t])
             (if o_save o then c_data c ++ [data] else c_data c)) ini fin.

(** 116-167; [times]: what is left of the column of the solution file *)
Fixpoint loop (o : options) (files : list (list Q)) (times : list Q) (s : state) : option state :=
  match files with
  | [] => Some s
  | qdata :: files =>
      match times with
      | [] => None
      | t :: times =>
          if qltb t (o_start o) then loop o files times s
          else
            data <- (if o_delete o then delete_largest qdata else Some qdata) ;;
            match data with
            | [] => loop o files times (gap s)
            | _ :: _ =>
                let s := point o s t qdata data (match files with [] => true | _ => false end) in
                match s_final s with Some _ => Some s | None => loop o files times s end
            end
      end
  end.
Definition initial : state := mkState [] new_curve None None.
(** 79-80: no files is an exception *)
Definition analyse (o : options) (files : list (list Q)) (times : list Q) : option state :=
  match files with [] => None | _ => loop o files times initial end.
Definition curves (s : state) : list curve := s_done s ++ [s_last s].

(** 190-218: what is saved before an exception, and whether there was one.  [time[-1]] and
    [curves[idx + 1]['time'][0]] of empty lists are exceptions *)
Record saved := mkSaved { v_rows : list (Q * Q * Q * nat); v_bins : list (Q * list Q) }.
Fixpoint zip4 (a b c : list Q) (d : list nat) : list (Q * Q * Q * nat) :=
  match a, b, c, d with
  | x :: a, y :: b, z :: c, w :: d => (x, y, z, w) :: zip4 a b c d
  | _, _, _, _ => []
  end.
Fixpoint save_curves (cs : list curve) : list saved * bool :=
  match cs with
  | [] => ([], true)
  | c :: cs =>
      let ok := match cs with [] => true | next :: _ => match c_time c, c_time next with _ :: _, _ :: _ => true | _, _ => false end end in
      if ok then
        let '(rest, fine) := save_curves cs in
        (mkSaved (zip4 (c_time c) (c_means c) (c_stds c) (c_total c)) (combine (c_time c) (c_data c)) :: rest, fine)
      else ([], false)
  end.

(** 41, 211: [np.histogram] with [n] equal bins between [lo] and [hi]: the bin of a value; the
    last one has both its ends *)
Definition bin_of (n : nat) (lo hi x : Q) : option nat :=
  if qltb x lo || qltb hi x then None
  else if Qeq_bool x hi then Some (n - 1)
  else Some (Z.to_nat (Qfloor ((x - lo) * inject_Z (Z.of_nat n) / (hi - lo))%Q)).
Definition counts (n : nat) (lo hi : Q) (data : list Q) : list nat :=
  map (fun i => length (filter (fun x => match bin_of n lo hi x with Some j => j =? i | None => false end) data)) (seq 0 n).
(** 58-62: percents; a zero for the last edge *)
Definition percents (n : nat) (lo hi : Q) (data : list Q) : list Q :=
  map (fun c => inject_Z (Z.of_nat c) / inject_Z (Z.of_nat (length data)) * 100)%Q (counts n lo hi data ++ [0]).
