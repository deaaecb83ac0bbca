(** Model of the integrals over the domain in the table of results:
    [build_domain_quantities_evaluators] of
    applications/sintering/include/pf-applications/sintering/operator_sintering_base.h 395-553,
    operator_grain_growth.h 677-790 and operator_grand_potential_greenquist.h 1171-1262 (same
    folder), [do_calc_domain_quantities] of operator_base.h 658-688, 842-933, the columns of
    driver.h 2992-3066 and the default labels of parameters.h 255-258.

    Numbers are rational.  Values and gradients at a point are lists over the components, a
    gradient is the list of its coordinates; that they are the values of the solution is
    modelled in OperatorModel.  The density of the bulk energy (free_energy.h,
    operator_grain_growth.h 38-187; C28 and C65) and the filter of a box
    (bounding_box_filter.h 120-150; C27) are functions given from outside.  [None]: the
    exception for an unknown label, or access out of range.  The step counters, sizes and
    numbers of iterations in the first columns are given from outside.  The number of
    digits written is left out. *)
From Coq Require Import String.
From Coq Require Import QArith List Bool Arith.
From Verif Require Import Util ResultsFileModel.
Import ListNotations.
Local Open Scope nat_scope.
Local Open Scope list_scope.

Inductive operator := Sintering | GrainGrowth | Greenquist.

(** operator_sintering_data.h and the free energy: number of grains, coefficients of the
    gradients, density of the bulk energy *)
Record op_settings := mkSet { o_grains : nat; o_kappa_c : Q; o_kappa_p : Q; o_bulk : list Q -> Q }.

(** The first order parameter: [value[2 + i]] or [value[i]] *)
Definition first_op (k : operator) : nat := match k with GrainGrowth => 0 | _ => 2 end.

Definition evaluator := list Q -> list (list Q) -> option Q.

(** operator_sintering_base.h 434-436, operator_grain_growth.h 700-702: row [i] of the pairs *)
Fixpoint pair_row (off i n j : nat) (value : list Q) (acc : Q) : option Q :=
  match n with
  | O => Some acc
  | S n => a <- vget value (off + i) ;; b <- vget value (off + j) ;; pair_row off i n (S j) value (acc + a * b)%Q
  end.
Fixpoint pair_loop (off grains m i : nat) (value : list Q) (acc : Q) : option Q :=
  match m with
  | O => Some acc
  | S m => acc <- pair_row off i (grains - S i) (S i) value acc ;; pair_loop off grains m (S i) value acc
  end.
(** 447-448 *)
Fixpoint square_loop (off m i : nat) (value : list Q) (acc : Q) : option Q :=
  match m with
  | O => Some acc
  | S m => a <- vget value (off + i) ;; square_loop off m (S i) value (acc + a * a)%Q
  end.
(** [Tensor<1, dim>::norm_square] *)
Definition norm_square (g : list Q) : Q := fold_right (fun x s => x * x + s)%Q 0%Q g.
(** 478-479 *)
Fixpoint gradient_loop (off m i : nat) (gradient : list (list Q)) (acc : Q) : option Q :=
  match m with
  | O => Some acc
  | S m => g <- vget gradient (off + i) ;; gradient_loop off m (S i) gradient (acc + norm_square g)%Q
  end.

(** 501-518; the grain growth operator has no concentration *)
Definition interface_energy (k : operator) (s : op_settings) : evaluator := fun value gradient =>
  e <- gradient_loop (first_op k) (o_grains s) 0 gradient 0%Q ;;
  let e := (e * ((1 # 2) * o_kappa_p s))%Q in
  match k with
  | GrainGrowth => Some e
  | _ => g <- vget gradient 0 ;; Some (e + (1 # 2) * o_kappa_c s * norm_square g)%Q
  end.

(** 410-545: the evaluator of one label but [order_params]; which labels an operator knows *)
Definition known (k : operator) (qty : string) : bool :=
  match k with
  | Sintering => existsb (String.eqb qty) ["solid_vol"; "surf_area"; "gb_area"; "avg_grain_size"; "surf_area_nrm"; "free_energy"; "bulk_energy"; "interface_energy"; "control_vol"]%string
  | GrainGrowth => existsb (String.eqb qty) ["gb_area"; "avg_grain_size"; "free_energy"; "bulk_energy"; "interface_energy"; "control_vol"]%string
  | Greenquist => existsb (String.eqb qty) ["void_vol"; "surf_area"; "gb_area"; "avg_grain_size"; "control_vol"]%string
  end.
Definition evaluate (k : operator) (s : op_settings) (qty : string) : evaluator := fun value gradient =>
  if (String.eqb qty "solid_vol" || String.eqb qty "void_vol")%bool then vget value 0
  else if String.eqb qty "surf_area" then c <- vget value 0 ;; Some (c * (1 - c))%Q
  else if String.eqb qty "gb_area" then pair_loop (first_op k) (o_grains s) (o_grains s) 0 value 0%Q
  else if String.eqb qty "avg_grain_size" then square_loop (first_op k) (o_grains s) 0 value 0%Q
  else if String.eqb qty "surf_area_nrm" then
    c <- vget value 0 ;;
    let c_int := if qltb c (45 # 100) then 0%Q else 1%Q in
    Some (if qltb (55 # 100) c then 0%Q else c_int)
  else if String.eqb qty "free_energy" then e <- interface_energy k s value gradient ;; Some (e + o_bulk s value)%Q
  else if String.eqb qty "bulk_energy" then Some (o_bulk s value)
  else if String.eqb qty "interface_energy" then interface_energy k s value gradient
  else Some 1%Q.
(** 519-536 *)
Definition op_evaluator (k : operator) (s : op_settings) (i : nat) : evaluator := fun value gradient =>
  if i <? o_grains s then vget value (first_op k + i) else Some 0%Q.

(** 397-553; [max]: MAX_SINTERING_GRAINS *)
Fixpoint build (k : operator) (s : op_settings) (max : nat) (labels : list string) (q_labels : list string) (q_evaluators : list evaluator)
    : option (list string * list evaluator) :=
  match labels with
  | [] => Some (q_labels, q_evaluators)
  | qty :: labels =>
      if String.eqb qty "order_params" then
        build k s max labels (q_labels ++ map (fun i => "op_" ++ to_string i)%string (seq 0 max)) (q_evaluators ++ map (op_evaluator k s) (seq 0 max))
      else if known k qty then build k s max labels (q_labels ++ [qty]) (q_evaluators ++ [evaluate k s qty])
      else None
  end.

(** ** operator_base.h 842-933 *)

Section Integrals.
Context {P B : Type}.
(** A quadrature point: weight times determinant, position, values, gradients *)
Record qpoint := mkPt { p_w : Q; p_x : P; p_val : list Q; p_grad : list (list Q) }.
(** A batch: number of active lanes, and the points of each lane *)
Record batch := mkBatch { b_active : nat; b_lanes : list (list qpoint) }.

(** 892-908, 915: one quantity on one lane *)
Fixpoint integrate_lane (pred : P -> Q) (e : evaluator) (pts : list qpoint) : option Q :=
  match pts with
  | [] => Some 0%Q
  | q :: pts => v <- e (p_val q) (p_grad q) ;; r <- integrate_lane pred e pts ;; Some (v * pred (p_x q) * p_w q + r)%Q
  end.
(** 916-918: the quantities are evaluated on all lanes, the first ones are added up *)
Fixpoint sum_lanes (pred : P -> Q) (e : evaluator) (active : nat) (lanes : list (list qpoint)) (acc : Q) : option Q :=
  match lanes with
  | [] => match active with O => Some acc | S _ => None end
  | l :: lanes =>
      v <- integrate_lane pred e l ;;
      match active with O => sum_lanes pred e 0 lanes acc | S a => sum_lanes pred e a lanes (acc + v)%Q end
  end.
(** 869-920: the batches of one process *)
Fixpoint sum_batches (pred : P -> Q) (e : evaluator) (batches : list batch) (q_value : Q) : option Q :=
  match batches with
  | [] => Some q_value
  | b :: batches => v <- sum_lanes pred e (b_active b) (b_lanes b) 0%Q ;; sum_batches pred e batches (q_value + v)%Q
  end.
(** 924-930: [Utilities::MPI::sum] *)
Fixpoint sum_ranks (pred : P -> Q) (e : evaluator) (ranks : list (list batch)) : option Q :=
  match ranks with
  | [] => Some 0%Q
  | r :: ranks => v <- sum_batches pred e r 0%Q ;; t <- sum_ranks pred e ranks ;; Some (v + t)%Q
  end.
Fixpoint calc_domain_quantities (pred : P -> Q) (es : list evaluator) (ranks : list (list batch)) : option (list Q) :=
  match es with
  | [] => Some []
  | e :: es => v <- sum_ranks pred e ranks ;; vs <- calc_domain_quantities pred es ranks ;; Some (v :: vs)
  end.

(** ** driver.h 2992-3066: the columns of a row in the order of [add_value] *)

(** 3056-3063 *)
Fixpoint add_values (name : string -> string) (q_labels : list string) (q_values : list Q) : option (list (string * Q)) :=
  match q_labels, q_values with
  | [], _ => Some []
  | l :: q_labels, v :: q_values => r <- add_values name q_labels q_values ;; Some ((name l, v) :: r)
  | _ :: _, [] => None
  end.
(** 3028-3064; [filter]: [BoundingBoxFilter::filter], one if there is no box *)
Fixpoint box_loop (filter : B -> P -> Q) (accepted : list B) (only : bool) (ls : list string) (es : list evaluator) (ranks : list (list batch))
    (i : nat) (boxes : list (option B)) : option (list (string * Q)) :=
  match boxes with
  | [] => Some []
  | b :: boxes =>
      q_values <- calc_domain_quantities (match b with Some b => filter b | None => fun _ => 1%Q end) es ranks ;;
      row <- add_values (fun l => generate_name accepted only l i) ls q_values ;;
      rest <- box_loop filter accepted only ls es ranks (S i) boxes ;;
      Some (row ++ rest)
  end.
(** 2994-3011 *)
Definition first_columns : list string :=
  ["step"; "time"; "dt"; "n_dofs"; "n_op"; "n_grains"; "n_newton_iter"; "n_linear_iter"; "n_resid_eval"]%string.
Definition table_row (k : operator) (s : op_settings) (max : nat) (filter : B -> P -> Q) (accepted : list B) (only : bool)
    (domain_integrals : list string) (first : list Q) (ranks : list (list batch)) : option (list (string * Q)) :=
  match domain_integrals with
  | [] => Some (combine first_columns first)
  | _ =>
      le <- build k s max domain_integrals [] [] ;;
      row <- box_loop filter accepted only (fst le) (snd le) ranks 0 (box_filters accepted only) ;;
      Some (combine first_columns first ++ row)
  end.
End Integrals.

(** parameters.h 255-258; a [std::set] is sorted *)
Definition default_integrals : list string := ["free_energy"; "gb_area"; "solid_vol"; "surf_area"]%string.
