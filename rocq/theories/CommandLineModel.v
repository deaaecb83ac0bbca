(** Model of the command line of the sintering applications: include/pf-applications/base/input.h
    30-80 (options), applications/sintering/include/pf-applications/sintering/parameters.h 319-342
    (parsing a file, setting an option) and
    applications/sintering/include/pf-applications/sintering/runner.h 62-340 (choice of the
    initial values).  Arguments are lists of characters; atoi, atof, files, the constructors of the
    initial values and the parameter handler of deal.II are oracles. *)
From Coq Require Import String Ascii List NArith ZArith Arith Bool.
From Verif Require Import Util MeshFlagsModel.
Import ListNotations.
Local Open Scope list_scope.

Definition text := list ascii.
Definition t (s : string) : text := list_ascii_of_string s.
Definition text_eqb (a b : text) : bool := if list_eq_dec ascii_dec a b then true else false.

(** input.h 61: the class of the regular expression: word characters, brackets, star, dot *)
Definition is_word (c : ascii) : bool :=
  let n := nat_of_ascii c in
  (Nat.leb 48 n && Nat.leb n 57) || (Nat.leb 65 n && Nat.leb n 90) || (Nat.leb 97 n && Nat.leb n 122) || Nat.eqb n 95.
Definition in_class (c : ascii) : bool :=
  is_word c || Ascii.eqb c "("%char || Ascii.eqb c ")"%char || Ascii.eqb c "*"%char || Ascii.eqb c "."%char.
Definition is_newline (c : ascii) : bool := Nat.eqb (nat_of_ascii c) 10 || Nat.eqb (nat_of_ascii c) 13.
Definition quote : ascii := ascii_of_nat 34.
(** longest prefix of characters with [p], and what follows *)
Fixpoint span (p : ascii -> bool) (l : text) : text * text :=
  match l with
  | c :: r => if p c then let '(a, b) := span p r in (c :: a, b) else ([], l)
  | [] => ([], [])
  end.
(** 61: "--", the name, "=", an optional quote, then [.*], which is greedy and reaches to the end
    of the line, so that the last optional quote matches nothing.  The name is followed by "=",
    which is not in the class, so the longest run of the class is the only choice. *)
Definition match_here (l : text) : option (text * text) :=
  match l with
  | "-"%char :: "-"%char :: r =>
      let '(name, rest) := span in_class r in
      match rest with
      | "="%char :: v =>
          let v := match v with c :: w => if Ascii.eqb c quote then w else v | [] => [] end in
          Some (name, fst (span (fun c => negb (is_newline c)) v))
      | _ => None
      end
  | _ => None
  end.
(** 64: [std::regex_search]: the first position with a match *)
Fixpoint regex_search (l : text) : option (text * text) :=
  match match_here l with
  | Some m => Some m
  | None => match l with [] => None | _ :: r => regex_search r end
  end.

(** what is done to the parameters: [params.parse(file)], [params.set(name, value)] *)
Inductive action := File (name : text) | Set_ (name value : text).
Definition is_option (flag : text) : bool := text_eqb (firstn 2 flag) (t "--").
(** 43-73: the loop over the arguments from [offset]; [None]: the exception of 64 *)
Fixpoint parse_rest (args : list text) : option (list action) :=
  match args with
  | [] => Some []
  | flag :: args =>
      if is_option flag then obind (regex_search flag) (fun '(name, value) => obind (parse_rest args) (fun l => Some (Set_ name value :: l)))
      else parse_rest args
  end.
Definition parse_params (offset : nat) (argv : list text) : option (list action) :=
  match skipn offset argv with
  | [] => Some []
  | flag :: args => if is_option flag then parse_rest (flag :: args) else obind (parse_rest args) (fun l => Some (File flag :: l))
  end.
(** parameters.h 334-341: the name is split at the dots; all but the last part are subsections *)
Fixpoint split_dots (l : text) : list text :=
  match l with
  | [] => [[]]
  | c :: r => if Ascii.eqb c "."%char then [] :: split_dots r else match split_dots r with w :: ws => (c :: w) :: ws | [] => [[c]] end
  end.
Definition path (name : text) : list text * text := (removelast (split_dots name), last (split_dots name) []).

(** runner.h 62-340.  [argv] contains the name of the program.  [Undefined]: a string is made from
    the null pointer after the last argument (80).  [Start]: the mode, the first argument for
    [parse_params] and the number of order parameters of the initial values. *)
Inductive mode := Circle (n : N) | Hypercube (ns : list N) (printed : N) | Cloud | Voronoi | Imaging | Restart | Debug.
Inductive result := Undefined | Help | Throws | Start (m : mode) (offset : nat) (n_order_parameters : N).
Section Runner.
Variables (dim : nat) (max_grains : N).
(** atof(s) > 0; atoi(s) as an int; a file can be opened; order parameters of the initial values *)
Variables (positive : text -> bool) (atoi : text -> Z) (is_open : text -> bool) (n_ops : mode -> N).
(** conversion from int to unsigned int *)
Definition to_unsigned (z : Z) : N := Z.to_N (z mod 2 ^ 32).
Definition checked (m : mode) (offset : nat) : result := if N.leb (n_ops m) max_grains then Start m offset (n_ops m) else Throws.
(** 187: std::accumulate with the initial value 1 and products of unsigned int *)
Definition total (ns : list N) : N := fold_left (fun a n => u32 (a * n)) ns 1%N.
Definition runner (argv : list text) : result :=
  let argc := List.length argv in
  let arg i := nth i argv [] in
  if Nat.leb argc 1 then Undefined
  else if text_eqb (arg 1) (t "--help") then Help
  else if text_eqb (arg 1) (t "--circle") then
    if Nat.leb 4 argc then
      let n := to_unsigned (atoi (arg 3)) in
      if positive (arg 2) && N.ltb 0 n then checked (Circle n) 4 else Throws
    else Throws
  else if text_eqb (arg 1) (t "--hypercube") then
    if Nat.leb (3 + dim) argc then
      let ns := map (fun d => to_unsigned (atoi (arg (3 + d)))) (seq 0 dim) in
      if positive (arg 2) && forallb (fun n => N.ltb 0 n) ns then checked (Hypercube ns (total ns)) (3 + dim) else Throws
    else Throws
  else if text_eqb (arg 1) (t "--cloud") then
    if Nat.leb 3 argc && is_open (arg 2) then checked Cloud 3 else Throws
  else if text_eqb (arg 1) (t "--voronoi") || text_eqb (arg 1) (t "--imaging") then
    if Nat.eqb dim 2 && Nat.leb 3 argc && is_open (arg 2) then checked (if text_eqb (arg 1) (t "--voronoi") then Voronoi else Imaging) 3 else Throws
  else if text_eqb (arg 1) (t "--restart") then
    if Nat.leb 3 argc then Start Restart 3 (n_ops Restart) else Throws
  else if text_eqb (arg 1) (t "--debug") then Start Debug 2 2
  else Throws.
End Runner.
