(** Model of applications/sintering/scripts/postproc_shrinkage.py: shrinkage and
    densification from the tables of the solver.

    Simplifications: exact rationals; a nan in the columns of the grain tracker is
    [None], the other columns have no nan; plots are not modelled apart from the
    labels; names of particles are numbers. *)
From Coq Require Import QArith List Arith Bool.
From Verif Require Import Util.
Import ListNotations.
Local Open Scope nat_scope.

(** postproc_shrinkage.py 114-130: the particle with the smallest (largest) position
    in the first row; an item is its initial position and its velocities. *)
Definition item := (Q * list (option Q))%type.
Fixpoint first_min (best : option item) (l : list item) : option item :=
  match l with
  | [] => best
  | p :: r => first_min (match best with None => Some p | Some b => if qltb (fst p) (fst b) then Some p else best end) r
  end.
Fixpoint first_max (best : option item) (l : list item) : option item :=
  match l with
  | [] => best
  | p :: r => first_max (match best with None => Some p | Some b => if qltb (fst b) (fst p) then Some p else best end) r
  end.

(** [np.nan_to_num] *)
Definition num (v : option Q) : Q := match v with Some q => q | None => 0%Q end.

(** postproc_shrinkage.py 134-135: displacements of all rows *)
Definition displ (dt vel : list (option Q)) : list Q := map (fun p => num (fst p) * num (snd p))%Q (combine dt vel).
(** postproc_shrinkage.py 137-147: positions; the displacement of row 0 is not used *)
Fixpoint accumulate (p : Q) (d : list Q) : list Q := match d with [] => [] | x :: r => (p + x)%Q :: accumulate (p + x)%Q r end.
Definition positions (p0 : Q) (d : list Q) : list Q := match d with [] => [] | _ :: r => p0 :: accumulate p0 r end.
(** postproc_shrinkage.py 112-149: the length in one direction (without chosen
    reference particles) *)
Definition length_of (dt : list (option Q)) (items : list item) : option (list Q) :=
  lo <- first_min None items ;;
  hi <- first_max None items ;;
  Some (map (fun p => snd p - fst p)%Q (combine (positions (fst lo) (displ dt (snd lo))) (positions (fst hi) (displ dt (snd hi))))).

(** [data[mask]] *)
Definition select {A : Type} (mask : list bool) (l : list A) : list A := map snd (filter (fun p => fst p) (combine mask l)).
(** postproc_shrinkage.py 157 *)
Definition limits_mask (lo hi : Q) (time : list Q) : list bool := map (fun t => Qle_bool lo t && Qle_bool t hi) time.

(** postproc_shrinkage.py 191-195: [i_ref], the first row that is not zero, or the
    last row *)
Fixpoint ref_row (col : list Q) : nat :=
  match col with
  | [] => 0
  | x :: r => if Qeq_bool x 0 then match r with [] => 0 | _ :: _ => S (ref_row r) end else 0
  end.
(** postproc_shrinkage.py 203-205: [mask[:]] is a view, so the mask itself changes *)
Fixpoint clear_first (k : nat) (mask : list bool) : list bool :=
  match k, mask with
  | O, _ => mask
  | _, [] => []
  | S k, _ :: r => false :: clear_first k r
  end.
(** Assignment to a column of [n] rows; one number is repeated, otherwise the
    lengths have to agree ([ValueError]). *)
Definition assign_column (n : nat) (data : list Q) : option (list Q) :=
  if length data =? n then Some data
  else match data with [x] => Some (repeat x n) | _ => None end.

(** postproc_shrinkage.py 185-222: all quantities that are present and active, given
    as number (0 to 3) and column; the state is the mask and the columns written.
    The inner loop variable replaces the number of the quantity (204), and labels
    are taken from a list of 8 (209-212, [IndexError]).  The third component of the
    result are the label numbers. *)
Fixpoint quantities (n : nat) (qs : list (nat * list Q)) (mask : list bool) : option (list (list Q * list Q) * list nat) :=
  match qs with
  | [] => Some ([], [])
  | (i, col) :: r =>
      let i_ref := ref_row col in
      let ref0 := nth i_ref col 0%Q in
      if Qeq_bool ref0 0 then quantities n r mask
      else
        let mask := clear_first i_ref mask in
        let i := match i_ref with O => i | S k => k end in
        if 4 <=? i then None
        else
          a <- assign_column n (select mask col) ;;
          b <- assign_column n (select mask (map (fun x => (ref0 - x) / ref0)%Q col)) ;;
          rest <- quantities n r mask ;;
          Some ((a, b) :: fst rest, i :: snd rest)
  end.

(** postproc_shrinkage.py 159-182: header: numbers of quantities, then of shrinkages *)
Record csv := mkCsv { c_time : list Q; c_header : list nat; c_columns : list (list Q) }.
Definition save (time : list Q) (lo hi : Q) (qs : list (nat * list Q)) : option csv :=
  let mask := limits_mask lo hi time in
  let n := length (select mask time) in
  w <- quantities n qs mask ;;
  let unused := repeat (repeat 0%Q n) (length qs - length (fst w)) in
  Some (mkCsv (select mask time) (map fst qs ++ map (fun q => fst q + 4) qs)
              ((map fst (fst w) ++ unused) ++ (map snd (fst w) ++ unused))).
