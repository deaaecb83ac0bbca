(** Model of the table of results kept during a run:
    applications/sintering/src/postprocessors.cc 18-52 ([write_table]),
    applications/sintering/include/pf-applications/sintering/driver.h 2733-2755, 3073-3140,
    3157-3183, 3201 ([output_result]: labels, counters, shrinkage and mesh quality columns,
    writing the table), 1906-1923 (first output), 474-500 (the counters are saved), and
    applications/sintering/include/pf-applications/sintering/output.h 60-126 (columns of the
    control boxes).  The columns 2992-3066 are [table_row] of IntegralsModel (C115).

    Two or three dimensions.  Numbers are rational and lines of text are lists of names or
    numbers; padding and formats of numbers are left out.  The measured quantities (edges of
    the bounding box, mesh quality, areas, coordination numbers) are data of an output.
    Writing vtu files is left out. *)
From Coq Require Import Ascii String.
From Coq Require Import QArith List Arith Bool.
From Verif Require Import Util ResultsFileModel IntegralsModel.
Import ListNotations.
Local Open Scope nat_scope.
Local Open Scope list_scope.

(** ** deal.II TableHandler: columns in the order of the first [add_value] *)
Notation table := (list (string * list Q)).
Fixpoint add_value (key : string) (v : Q) (t : table) : table :=
  match t with
  | [] => [(key, [v])]
  | (k, vs) :: t => if String.eqb k key then (k, vs ++ [v]) :: t else (k, vs) :: add_value key v t
  end.
Definition fill (row : list (string * Q)) : table := fold_left (fun t kv => add_value (fst kv) (snd kv) t) row [].

(** [write_text]: the header and the lines; columns of different lengths are an assertion *)
Definition n_rows (t : table) : option nat :=
  match t with
  | [] => Some 0
  | (_, vs) :: rest => if forallb (fun c => Nat.eqb (length (snd c)) (length vs)) rest then Some (length vs) else None
  end.
Definition write_text (t : table) : option (list string * list (list Q)) :=
  n <- n_rows t ;; Some (map fst t, map (fun i => map (fun c => nth i (snd c) 0%Q) t) (seq 0 n)).

Inductive line := Header (names : list string) | Data (values : list Q).

(** ** postprocessors.cc 18-52: the new content of the file; [hd []]: [std::getline] leaves an
    empty line if there is nothing to read *)
Definition write_table (t : table) (time : Q) (file : list line) : option (list line) :=
  hl <- write_text t ;;
  let is_new := Qeq_bool time 0 in
  let old := if is_new then [] else file in
  let old := if is_new then old ++ [Header (fst hl)] else old in
  Some (old ++ [Data (hd [] (snd hl))]).

Section Table.
Context {P B : Type}.

(** What does not change during a run *)
Record settings := mkSettings {
  s_debug : bool; s_table : bool; s_kind : operator; s_max : nat; s_integrals : list string;
  s_filter : B -> P -> Q; s_boxes : list B; s_only : bool; s_volume : B -> Q;
  s_shrinkage : bool; s_quality_min : bool; s_surf : bool; s_gb : bool; s_coord : bool }.

(** One call of [output_result]; [e_first]: dt, n_dofs, n_op, n_grains and the three counters of
    the solver; [e_sides]: edges of the bounding box of the body; [e_ops]: there are order
    parameters; [e_grains]: the grain tracker has grains *)
Record event := mkEvent {
  e_label : string; e_time : Q; e_first : list Q; e_op : op_settings; e_ranks : list (list (@batch P));
  e_sides : list Q; e_quality : Q; e_ops : bool; e_grains : bool;
  e_surf : nat -> Q; e_gb : nat -> Q; e_coord : nat -> Q }.

(** driver.h 3090-3102 *)
Fixpoint side_columns (labels : list string) (sides : list Q) (volume : Q) : option (list (string * Q)) :=
  match sides, labels with
  | [], _ => Some [("volume"%string, volume)]
  | size :: sides, l :: labels => r <- side_columns labels sides (volume * size)%Q ;; Some ((l, size) :: r)
  | _ :: _, [] => None
  end.

(** output.h 74-126; [n_non_grains] is zero only for the grain growth operator *)
Fixpoint advanced_columns (st : settings) (e : event) (i : nat) (boxes : list (option B)) : list (string * Q) :=
  match boxes with
  | [] => []
  | b :: boxes =>
      let name l := generate_name (s_boxes st) (s_only st) l i in
      match b with Some b => [(name "control_box"%string, s_volume st b)] | None => [] end
      ++ (if s_surf st && negb (Nat.eqb (first_op (s_kind st)) 0) then [(name "iso_surf_area"%string, e_surf e i)] else [])
      ++ (if s_gb st && e_ops e then [(name "iso_gb_area"%string, e_gb e i)] else [])
      ++ (if s_coord st && e_grains e then [(name "avg_coord_num"%string, e_coord e i)] else [])
      ++ advanced_columns st e (S i) boxes
  end.

(** driver.h 2992-3178: everything added to the table; [counter]: [counters[label]] *)
Definition driver_row (st : settings) (e : event) (counter : nat) : option (list (string * Q)) :=
  row <- table_row (s_kind st) (e_op e) (s_max st) (s_filter st) (s_boxes st) (s_only st) (s_integrals st)
           (inject_Z (Z.of_nat counter) :: e_time e :: e_first e) (e_ranks e) ;;
  shrink <- (if s_shrinkage st then side_columns ["dim_x"; "dim_y"; "dim_z"]%string (e_sides e) 1%Q else Some []) ;;
  Some (row ++ shrink
        ++ (if s_quality_min st then [("mesh_quality"%string, e_quality e)] else [])
        ++ advanced_columns st e 0 (box_filters (s_boxes st) (s_only st))).

(** The counters and the tables on disk *)
Record state := mkState { counters : string -> nat; files : string -> list line }.
Definition update {A : Type} (f : string -> A) (l : string) (v : A) : string -> A := fun x => if String.eqb x l then v else f x.

(** driver.h 2746-2752, 3178-3183, 3201 *)
Definition output_result (st : settings) (s : state) (e : event) : option state :=
  if negb (s_debug st) && negb (String.eqb (e_label e) "solution") then Some s
  else
    let c := counters s (e_label e) in
    files' <- (if s_table st then
                 row <- driver_row st e c ;;
                 f <- write_table (fill row) (e_time e) (files s (e_label e)) ;;
                 Some (update (files s) (e_label e) f)
               else Some (files s)) ;;
    Some (mkState (update (counters s) (e_label e) (S c)) files').
Fixpoint outputs (st : settings) (s : state) (es : list event) : option state :=
  match es with
  | [] => Some s
  | e :: es => s <- output_result st s e ;; outputs st s es
  end.

(** driver.h 1906-1923 and 187: the time of the first output is [time_last_output], which is zero
    until the first regular output, whatever [time_start] is *)
Definition initial_output (time_start t interval : Q) (e : event) : option event :=
  if Qeq_bool t time_start && qltb 0 interval then
    Some (mkEvent "solution" 0%Q (e_first e) (e_op e) (e_ranks e) (e_sides e) (e_quality e) (e_ops e) (e_grains e) (e_surf e) (e_gb e) (e_coord e))
  else None.

(** driver.h 474-500, 2605-2611 and the constructor with a restart point: the counters of the
    saved state, the files as they are *)
Definition restart (saved now : state) : state := mkState (counters saved) (files now).
End Table.
