(** Model of what is put into the files with results:
    applications/sintering/include/pf-applications/sintering/driver.h 2788-2880 (names of the
    blocks, file of the domain, files of the sections), 2882-2958 and 2979-2990 (control
    boxes and their names), applications/sintering/include/pf-applications/sintering/output.h
    162-187, 315-334 (contours in sections), include/pf-applications/numerics/output.h 30-105
    ([BlockVectorWrapper], [build_default_output]) and
    include/pf-applications/numerics/data_out.h 20-62 ([DataOutWithRanges]).

    Fields are opaque.  What the operators add to the file is modelled in C66, contours in
    C72 and C73, sections in C80; writing files is left out. *)
From Coq Require Import String Ascii DecimalString DecimalNat.
From Coq Require Import List Arith Bool.
Import ListNotations.
Local Open Scope nat_scope.
Local Open Scope list_scope.

(** [std::to_string] of an unsigned number *)
Definition to_string (n : nat) : string := NilEmpty.string_of_uint (Nat.to_uint n).

(** ** numerics/output.h 30-72 [BlockVectorWrapper] *)

(** [std::vector]: [std::transform] to [begin()] writes into the storage, it does not change
    the number of elements; [None] is memory never written *)
Record stdvector (A : Type) := mkStd { size : nat; capacity : nat; memory : nat -> option A }.
Arguments mkStd {A}. Arguments size {A}. Arguments capacity {A}. Arguments memory {A}.
Definition empty_vector {A : Type} : stdvector A := mkStd 0 0 (fun _ => None).
Definition reserve {A : Type} (n : nat) (v : stdvector A) : stdvector A := mkStd (size v) (Nat.max (capacity v) n) (memory v).
Definition transform {A : Type} (xs : list A) (v : stdvector A) : stdvector A :=
  mkStd (size v) (capacity v) (fun i => match nth_error xs i with Some x => Some x | None => memory v i end).
(** 40-46, 48-55 *)
Definition wrap {A : Type} (xs : list A) : stdvector A := transform xs (reserve (length xs) empty_vector).
(** 63-67 *)
Definition n_blocks {A : Type} (v : stdvector A) : nat := size v.

(** ** numerics/output.h 74-105 [build_default_output]: names and fields in the file; [inr tt]
    is the number of the process *)
Definition build_default_output {A : Type} (n : nat) (block : nat -> A) (names : list string) (add_subdomains : bool) : list (string * (A + unit)) :=
  flat_map (fun b => match nth_error names b with
                     | Some name => if String.eqb name "" then [] else [(name, inl (block b))]
                     | None => []
                     end) (seq 0 n)
  ++ if add_subdomains then [("subdomain"%string, inr tt)] else [].

(** ** driver.h 2790-2812 *)
Record request := mkRequest { want_ch : bool; want_ac : bool; want_displ : bool; want_subdomain : bool }.

Fixpoint set_name (names : list string) (i : nat) (x : string) : list string :=
  match names, i with
  | [], _ => []
  | _ :: names, O => x :: names
  | y :: names, S i => y :: set_name names i x
  end.
Definition block_names (dim blocks n_non_grains n_grains : nat) (coupled : bool) (r : request) : list string :=
  let names := repeat ""%string blocks in
  let names := if want_ch r && Nat.ltb 0 n_non_grains then set_name (set_name names 0 "c") 1 "mu" else names in
  let names := if want_ac r then fold_left (fun names ig => set_name names (n_non_grains + ig) ("eta" ++ to_string ig)%string) (seq 0 n_grains) names else names in
  if want_displ r && coupled then fold_left (fun names b => set_name names b "u"%string) (seq (blocks - dim) dim) names else names.

(** 2814-2819: file of the domain *)
Definition domain_file {A : Type} (dim blocks n_non_grains n_grains : nat) (coupled : bool) (r : request) (solution : nat -> A) : list (string * (A + unit)) :=
  build_default_output blocks solution (block_names dim blocks n_non_grains n_grains coupled r) (want_subdomain r).
(** 2857-2863: file of a section with the given solution *)
Definition section_file {A : Type} (dim blocks n_non_grains n_grains : nat) (coupled : bool) (r : request) (default : A) (section : list A) : list (string * (A + unit)) :=
  let v := wrap section in
  build_default_output (n_blocks v) (fun b => match memory v b with Some x => x | None => default end)
    (block_names dim blocks n_non_grains n_grains coupled r) (want_subdomain r).
(** output.h 172-187, 319-334: order parameters whose contours are drawn in a section
    (the loops are postprocessors.h 459 and projection.h 348) *)
Definition section_contours {A : Type} (offset_op n_op : nat) (section : list A) : list nat :=
  seq 0 (n_blocks (wrap (firstn n_op (skipn offset_op section)))).

(** ** numerics/data_out.h 22-59: first and last component, name, tensor or vector *)
Fixpoint run_length (name : string) (names : list string) : nat :=
  match names with
  | x :: names => if String.eqb x name then S (run_length name names) else 0
  | [] => 0
  end.
(** [fuel] is at least the number of names *)
Fixpoint ranges_from (fuel dim i : nat) (names : list string) : list (nat * nat * string * bool) :=
  match fuel, names with
  | S fuel, name :: rest =>
      let n := S (run_length name rest) in
      (if Nat.eqb n dim then [(i, i + n - 1, name, false)] else if Nat.eqb n (dim * dim) then [(i, i + n - 1, name, true)] else [])
      ++ ranges_from fuel dim (i + n) (skipn n names)
  | _, _ => []
  end.
Definition ranges (dim : nat) (names : list string) : list (nat * nat * string * bool) := ranges_from (length names) dim 0 names.

(** ** driver.h 2882-2958, 2979-2990: control boxes.  [accepted]: the boxes with positive
    edges; [None] is the whole domain *)
Definition box_filters {B : Type} (accepted : list B) (only_control_boxes : bool) : list (option B) :=
  if negb (negb (Nat.eqb (length accepted) 0)) || negb only_control_boxes then None :: map Some accepted else map Some accepted.
Definition generate_name {B : Type} (accepted : list B) (only_control_boxes : bool) (name : string) (index : nat) : string :=
  if Nat.eqb (length accepted) 0 then name
  else if only_control_boxes then (name ++ "_" ++ to_string index)%string
  else if Nat.eqb index 0 then name else (name ++ "_" ++ to_string (index - 1))%string.
