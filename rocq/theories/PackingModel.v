(** Initial order parameters of the regular packings.
    /repo/applications/sintering/include/pf-applications/sintering/
    initial_values_circle.h lines 24-100, initial_values_hypercube.h lines 24-108,
    initial_values_array.h lines 41-90.  Unsigned numbers do not overflow. *)
From Coq Require Import List Arith Bool Reals.
From Verif Require Import Util MapModel MobilityModel.
Import ListNotations.

(** [order_parameter_to_grains] *)
Notation op_map := (fmap (list nat)).

(** [map[op]]: an entry is created if there is none *)
Definition touch (op : nat) (m : op_map) : op_map := memplace op [] m.

(** [map[op].push_back(g)] *)
Definition push (op g : nat) (m : op_map) : op_map :=
  mput op (match mget op m with Some l => l | None => [] end ++ [g]) m.

(** [map.at(op).push_back(g)] *)
Definition push_at (op g : nat) (m : op_map) : option op_map :=
  match mget op m with Some l => Some (mput op (l ++ [g]) m) | None => None end.

Fixpoint push_all (f : nat -> nat) (k i : nat) (m : op_map) : option op_map :=
  match k with
  | 0 => Some m
  | S k => m' <- push_at (f i) i m ;; push_all f k (S i) m'
  end.

(** Loop [for ip: map[ip] = {ip}] *)
Fixpoint own (k i : nat) (m : op_map) : op_map :=
  match k with 0 => m | S k => own k (S i) (mput i [i] m) end.

(** initial_values_circle.h 63-99; [back] and [pop_back] of an empty vector are
    undefined *)
Definition circle_ops (n_grains : nat) (minimize : bool) : option op_map :=
  if minimize then
    if n_grains =? 1 then Some (mput 0 [0] [])
    else
      m <- push_all (fun ip => ip mod 2) n_grains 0 (touch 1 (touch 0 [])) ;;
      if n_grains mod 2 =? 0 then Some m
      else
        l <- mget 0 m ;;
        match rev l with
        | [] => None
        | last_grain :: r => Some (mput 2 [last_grain] (mput 0 (rev r) m))
        end
  else Some (own n_grains 0 []).

(** initial_values_circle.h 44-61.  [from_spherical] of deal.II: distance, azimuth and,
    in 3D, the polar angle *)
Definition circle_center (dim : nat) (r0 : R) (n_grains ip : nat) : vec :=
  let alfa := (2 * PI / INR n_grains)%R in
  let h := if 1 <? n_grains then (r0 / sin (alfa / 2))%R else 0%R in
  let phi := (INR ip * alfa)%R in
  match dim with
  | 2 => fun d => match d with 0 => (h * cos phi)%R | 1 => (h * sin phi)%R | _ => 0%R end
  | 3 => fun d => match d with
                  | 0 => (h * sin (PI / 2) * cos phi)%R
                  | 1 => (h * sin (PI / 2) * sin phi)%R
                  | 2 => (h * cos (PI / 2))%R
                  | _ => 0%R end
  | _ => fun _ => h
  end.

(** The nested loops of initial_values_hypercube.h 59-95: the indices in the order in
    which they are visited *)
Fixpoint cells (n_grains : list nat) : list (list nat) :=
  match n_grains with
  | [] => [[]]
  | n :: ns => flat_map (fun i => map (cons i) (cells ns)) (seq 0 n)
  end.

(** 99-108 *)
Definition assign_order_parameter (order counter n_order_parameters : nat) (m : op_map) : op_map :=
  if 0 <? n_order_parameters then push (order mod n_order_parameters) counter m
  else mput counter [counter] m.

Fixpoint assign_all (l : list (list nat)) (counter n_order_parameters : nat) (m : op_map) : op_map :=
  match l with
  | [] => m
  | c :: l => assign_all l (S counter) n_order_parameters
                (assign_order_parameter (list_sum c) counter n_order_parameters m)
  end.

(** 44-57: entries created beforehand *)
Fixpoint touch_all (k i : nat) (m : op_map) : op_map :=
  match k with 0 => m | S k => touch_all k (S i) (touch i m) end.

Definition hypercube_ops (n_grains : list nat) (n_order_parameters : nat) : op_map :=
  let n_total := fold_left Nat.mul n_grains 1 in
  let m := if 0 <? n_order_parameters then touch_all (Nat.min n_total n_order_parameters) 0 [] else [] in
  assign_all (cells n_grains) 0 n_order_parameters m.

Definition hypercube_center (r0 : R) (c : list nat) : vec := fun d => (2 * r0 * INR (nth d c 0%nat))%R.

(** [get_domain_boundaries] of initial_values_array.h, 59-82: [std::max_element] and
    [std::min_element] over the centers; undefined without centers *)
Definition max_element (l : list R) : option R :=
  match l with [] => None | x :: l => Some (fold_left (fun a b => if Rlt_dec a b then b else a) l x) end.
Definition min_element (l : list R) : option R :=
  match l with [] => None | x :: l => Some (fold_left (fun a b => if Rlt_dec b a then b else a) l x) end.
Definition array_boundaries (r0 : R) (centers : list vec) (d : nat) : option (R * R) :=
  a <- min_element (map (fun c => c d) centers) ;;
  b <- max_element (map (fun c => c d) centers) ;;
  Some (a - r0, b + r0)%R.
