(** Model of the restart points: what is written to and read from files in
    applications/sintering/include/pf-applications/sintering/driver.h 288-457 (restart
    constructor) and 2536-2620 (saving), with the history of
    include/pf-applications/time_integration/solution_history.h 60-80, 110-158.

    A field is a function of the number of a degree of freedom; this number is global and
    means the same place in both runs (how the numbering is made so is in C41).  A partition
    lists for every process the degrees of freedom it owns, in the order of its cells.
    What deal.II does with data attached to cells is described at [attach].  The members of
    the problem behind the header (470-500) are not repeated here, both directions use the
    same function.  Grains and time data are written as wholes. *)
From Coq Require Import List Arith NArith Bool.
Import ListNotations.
Local Open Scope nat_scope.

(** ** 312-335, 2597-2603: the head of the file with the state of the driver *)

(** binary archive: a byte for [bool], four bytes, least first, for [unsigned int] *)
Definition put_bool (b : bool) : list N := [if b then 1%N else 0%N].
Definition put_u32 (n : N) : list N := [(n mod 256)%N; (n / 256 mod 256)%N; (n / 65536 mod 256)%N; (n / 16777216 mod 256)%N].
Definition get_bool (l : list N) : option (bool * list N) :=
  match l with b :: l => Some (negb (N.eqb b 0), l) | [] => None end.
Definition get_u32 (l : list N) : option (N * list N) :=
  match l with a :: b :: c :: d :: l => Some ((a + 256 * b + 65536 * c + 16777216 * d)%N, l) | _ => None end.

Record header := mkHeader { h_flexible : bool; h_full : bool; h_ranks : N; h_components : N; h_blocks : N; h_total : N }.
(** 2597-2603 *)
Definition write_header (h : header) : list N :=
  put_bool (h_flexible h) ++ put_bool (h_full h) ++ put_u32 (h_ranks h) ++ put_u32 (h_components h) ++ put_u32 (h_blocks h) ++ put_u32 (h_total h).
(** 319-335 *)
Definition read_header (l : list N) : option (header * list N) :=
  match get_bool l with None => None | Some (flexible, l) =>
  match get_bool l with None => None | Some (full, l) =>
  match get_u32 l with None => None | Some (ranks, l) =>
  match get_u32 l with None => None | Some (components, l) =>
  match get_u32 l with None => None | Some (blocks, l) =>
  match get_u32 l with None => None | Some (total, l) =>
    Some (mkHeader flexible full ranks components blocks total, l)
  end end end end end end.

Section Fields.
Variable V : Type.
Variable zero : V.
Notation field := (nat -> V).

(** ** The history *)
Record vector := mkVector { blocks : list field; ghosted : bool }.
Definition with_ghosts (g : bool) (v : vector) : vector := mkVector (blocks v) g.

(** driver.h 956-959 *)
Definition history_size (order : nat) : nat := Nat.max (order + 1) 2.

Fixpoint update {A : Type} (l : list A) (i : nat) (x : A) : list A :=
  match l, i with
  | [], _ => []
  | _ :: l, O => x :: l
  | y :: l, S i => y :: update l i x
  end.

(** solution_history.h 134-144; [i] counts down from [size - 2] to 1 *)
Fixpoint commit_loop (i : nat) (h : list vector) : list vector :=
  match i with
  | O => h
  | S i' =>
      match nth_error h i with
      | None => h
      | Some v =>
          let h := update h i (with_ghosts false v) in
          commit_loop i' (update h (i + 1) (with_ghosts true v))
      end
  end.
Definition commit_old_solutions (h : list vector) : list vector := commit_loop (length h - 2) h.

(** 67-80 [filter(true, false, true)]: all but the recent old one *)
Definition except_recent (h : list vector) : list vector :=
  match h with v :: _ :: old => v :: old | _ => h end.

(** 122-132 [get_all_blocks_raw] *)
Definition all_blocks (h : list vector) : list (bool * field) := flat_map (fun v => map (fun b => (ghosted v, b)) (blocks v)) h.

(** driver.h 2554-2577: the vectors to save; ghosts of the current solution are updated if
    the output is flexible *)
Definition to_save (flexible full : bool) (h : list vector) : list (bool * field) :=
  match h with
  | [] => []
  | current :: rest =>
      let current := if flexible then with_ghosts true current else current in
      if full then all_blocks (except_recent (current :: rest)) else all_blocks [current]
  end.

(** ** Data attached to cells: 2579-2583 (written), 417-437 (read).  [prepare_for_serialization] of deal.II
    stores for every cell the values its process sees at the degrees of freedom of the cell:
    entries of other processes are zero if the vector has no ghost values. *)
Definition seen (owner : nat -> nat) (rank : nat) (b : bool * field) (d : nat) : V :=
  if Nat.eqb (owner d) rank || fst b then snd b d else zero.
(** [cell_rank c]: process of cell [c] when saving *)
Definition attach (owner cell_rank : nat -> nat) (b : bool * field) (c : nat) : field := seen owner (cell_rank c) b.
(** [deserialize] sets an entry from one of the cells around it that the new owner has;
    [from d] is this cell *)
Definition detach (from : nat -> nat) (data : nat -> field) : field := fun d => data (from d) d.

(** ** Values written by [SolutionSerialization]: process by process, block by block *)
Definition chunk (owned : list nat) (bs : list field) : list V := flat_map (fun b => map b owned) bs.
Definition vectors_file (partition : list (list nat)) (bs : list field) : list V := flat_map (fun owned => chunk owned bs) partition.

Fixpoint take_blocks (owned : list nat) (m : nat) (file : list V) : list (list (nat * V)) * list V :=
  match m with
  | O => ([], file)
  | S m =>
      let r := take_blocks owned m (skipn (length owned) file) in
      (combine owned (firstn (length owned) file) :: fst r, snd r)
  end.
(** entries of block [b] on all processes *)
Fixpoint take_ranks (partition : list (list nat)) (m b : nat) (file : list V) : list (nat * V) :=
  match partition with
  | [] => []
  | owned :: partition =>
      let r := take_blocks owned m file in
      nth b (fst r) [] ++ take_ranks partition m b (snd r)
  end.

(** ** The restart *)
Record saved := mkSaved {
  s_header : header;
  s_attached : list (nat -> field);  (** with the mesh, if flexible *)
  s_vectors : list V                 (** file of the vectors, otherwise *)
}.

(** 2536-2603 *)
Definition save (flexible full : bool) (ranks components : N) (owner cell_rank : nat -> nat) (partition : list (list nat)) (h : list vector) : saved :=
  let ptr := to_save flexible full h in
  mkSaved
    (mkHeader flexible full ranks components (N.of_nat (match h with v :: _ => length (blocks v) | [] => 0 end)) (N.of_nat (length ptr)))
    (if flexible then map (attach owner cell_rank) ptr else [])
    (if flexible then [] else vectors_file partition (map snd ptr)).

(** Content of a block after loading: entries that were set *)
Inductive content := Untouched | Set_all (f : field) | Set_entries (l : list (nat * V)).

(** [refined]: the mesh made by [create_grid] with [InitialRefine::None] has more than one
    level, which [tria.load] does not accept (grid_tools.h 696-719: with divisions the global
    refinements are always made).  [loaded], [repartitioned]: partitions after [tria.load]
    and after [tria.repartition]; [n_ptr] blocks are waiting.  [None]: exception, or data
    attached to the cells requested after it was lost. *)
Definition restart (param_flexible refined : bool) (ranks : N) (n_ptr : nat) (from : nat -> nat)
    (loaded repartitioned : list (list nat)) (s : saved) : option (list content) :=
  let h := s_header s in
  if negb (h_flexible h) && negb (N.eqb (h_ranks h) ranks) then None
  else if refined then None
  else
    let partition := if param_flexible then loaded else repartitioned in
    let total := N.to_nat (h_total h) in
    let n := Nat.min total n_ptr in
    let rest := repeat Untouched (n_ptr - n) in
    if h_flexible h then
      if param_flexible
      then Some (map (fun a => Set_all (detach from a)) (firstn n (s_attached s)) ++ rest)
      else None
    else Some (map (fun b => Set_entries (take_ranks partition n b (s_vectors s))) (seq 0 n) ++ rest).

End Fields.

(** 235: levels of the mesh [create_grid] makes with [InitialRefine::None]; [divisions]:
    number of refinements if the mesh is given by divisions *)
Definition coarse_refined (divisions : option nat) : bool := match divisions with Some n => Nat.ltb 0 n | None => false end.

(** ** Files of the restart points *)
Inductive kind := Vectors | Tria | Driver | Grains | Times.
(** order of writing *)
Definition kinds (flexible : bool) : list kind := if flexible then [Tria; Driver; Grains; Times] else [Vectors; Tria; Driver; Grains; Times].
Definition kind_eqb (a b : kind) : bool :=
  match a, b with Vectors, Vectors | Tria, Tria | Driver, Driver | Grains, Grains | Times, Times => true | _, _ => false end.
(** a file: none, incomplete, or complete with the number of the save it belongs to *)
Inductive file := Missing | Broken | Complete (k : N).
Definition store := N -> kind -> file.
Definition put (s : store) (name : N) (q : kind) (f : file) : store :=
  fun name' q' => if N.eqb name' name && kind_eqb q' q then f else s name' q'.

(** 2542-2551: number in the name of the [k]-th restart point *)
Definition name_of (max_output k : N) : N := if N.eqb max_output 0 then k else (k mod max_output)%N.

Definition write_files (max_output k : N) (qs : list kind) (s : store) : store :=
  fold_left (fun s q => put s (name_of max_output k) q (Complete k)) qs s.
(** [n] restart points written *)
Fixpoint saves (flexible : bool) (max_output : N) (n : nat) (s : store) : store :=
  match n with
  | O => s
  | S n => write_files max_output (N.of_nat n) (kinds flexible) (saves flexible max_output n s)
  end.
(** the program ends during the next one: [j] files are complete; [torn]: within the
    following one *)
Definition killed (flexible : bool) (max_output : N) (n j : nat) (torn : bool) (s : store) : store :=
  let k := N.of_nat n in
  let s := write_files max_output k (firstn j (kinds flexible)) (saves flexible max_output n s) in
  match nth_error (kinds flexible) j with
  | Some q => if torn then put s (name_of max_output k) q Broken else s
  | None => s
  end.
