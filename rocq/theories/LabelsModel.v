(** Model of helpers in applications/sintering/scripts/library.py: short labels for
    file names, escaping for LaTeX, the progress bar.

    Strings are lists of characters; [None] stands for an [IndexError]. *)
From Coq Require Import ZArith Ascii String List Arith Bool.
From Verif Require Import Util.
Import ListNotations.
Local Open Scope string_scope.
Local Open Scope char_scope.
Local Open Scope nat_scope.
Local Open Scope list_scope.

Definition str := list ascii.
Definition sep : ascii := "/".
Definition chr (f : str) (i : nat) : ascii := nth i f "000".

(** The slice [f[a:-e]] *)
Definition slice (f : str) (a : Z) (e : nat) : str :=
  let stop := if e =? 0 then 0 else length f - e in
  let start := if (a <? 0)%Z then length f - Z.to_nat (- a) else Z.to_nat a in
  firstn (stop - start) (skipn start f).

(** 50-62, 64-76: the number of leading positions for which all files agree *)
Fixpoint count (same : nat -> bool) (i fuel : nat) : nat :=
  match fuel with O => 0 | S k => if same i then S (count same (S i) k) else 0 end.
Definition same_start (files : list str) (i : nat) : bool := forallb (fun f => Ascii.eqb (chr f i) (chr (hd [] files) i)) files.
Definition same_end (files : list str) (i : nat) : bool :=
  forallb (fun f => Ascii.eqb (chr f (length f - 1 - i)) (chr (hd [] files) (length (hd [] files) - 1 - i))) files.
Definition min_len (files : list str) : nat := fold_left (fun m f => Nat.min m (length f)) files (length (hd [] files)).

(** [any(os.sep != f[...] for f in files_list)] with the position [at_] in a file *)
Fixpoint any_not_sep (at_ : str -> nat) (files : list str) : option bool :=
  match files with
  | [] => Some false
  | f :: r => if length f <=? at_ f then None else if Ascii.eqb sep (chr f (at_ f)) then any_not_sep at_ r else Some true
  end.
(** 103-105: back to a separator or to 0 *)
Fixpoint back (f : str) (k : nat) : nat := match k with O => 0 | S k' => if Ascii.eqb (chr f k) sep then k else back f k' end.

(** 101-107: first index *)
Definition new_start (do_start : bool) (s_start : nat) (f : str) : option Z :=
  if do_start then
    match s_start with
    | O => (* index -1 *)
        if length f =? 0 then None
        else Some (if Ascii.eqb (chr f (length f - 1)) sep then 0%Z else (-1)%Z)
    | S k =>
        if length f <=? k then None
        else let b := back f k in Some (Z.of_nat (if Ascii.eqb (chr f b) sep then S b else b))
    end
  else Some (Z.of_nat s_start).
(** 109-114: last index; the body of the loop is never reached *)
Definition new_end (do_end : bool) (s_end : nat) (f : str) : option nat :=
  if do_end then
    if length f <? S s_end then None
    else Some (if Ascii.eqb (chr f (length f - S s_end)) sep then s_end else S s_end)
  else Some s_end.

Definition is_empty (f : str) : bool := match f with [] => true | _ => false end.
Fixpoint relabel (do_start do_end : bool) (s_start s_end : nat) (files : list str) : option (list str) :=
  match files with
  | [] => Some []
  | f :: r =>
      a <- new_start do_start s_start f ;;
      e <- new_end do_end s_end f ;;
      l <- relabel do_start do_end s_start s_end r ;;
      Some (slice f a e :: l)
  end.

(** 39-118 [generate_short_labels] for at least two files and without [extend_to] *)
Definition short_labels (files : list str) : option (list str) :=
  let m := min_len files in
  let s_start := count (same_start files) 0 m in
  let s_end := count (same_end files) 0 m in
  let labels := map (fun f => slice f (Z.of_nat s_start) s_end) files in
  if existsb is_empty labels then
    do_start <- any_not_sep (fun _ => s_start) files ;;
    do_end <- any_not_sep (fun f => if s_end =? 0 then 0 else length f - s_end) files ;;
    relabel do_start do_end s_start s_end files
  else Some labels.

(** 185-205 [tex_escape]: every key is a single character *)
Fixpoint of_string (s : string) : str := match s with EmptyString => [] | String c r => c :: of_string r end.
Definition conv (c : ascii) : str :=
  if Ascii.eqb c "&" then ["\"; "&"]
  else if Ascii.eqb c "%" then ["\"; "%"]
  else if Ascii.eqb c "$" then ["\"; "$"]
  else if Ascii.eqb c "#" then ["\"; "#"]
  else if Ascii.eqb c "_" then ["\"; "_"]
  else if Ascii.eqb c "{" then ["\"; "{"]
  else if Ascii.eqb c "}" then ["\"; "}"]
  else if Ascii.eqb c "~" then of_string "\textasciitilde{}"%string
  else if Ascii.eqb c "^" then of_string "\^{}"%string
  else if Ascii.eqb c "\" then of_string "\textbackslash{}"%string
  else if Ascii.eqb c "<" then of_string "\textless{}"%string
  else if Ascii.eqb c ">" then of_string "\textgreater{}"%string
  else [c].
Definition tex_escape (text : str) : str := flat_map conv text.

(** 208-214 [progress_bar]: numbers of dashes, padding blanks and per cent
    ([int] truncates; a string times a negative number is empty) *)
Definition dashes (current total bar : Z) : nat := Z.to_nat (Z.quot (current * bar - total) total).
Definition padding (current total bar : Z) : nat := Z.to_nat (bar - Z.of_nat (S (dashes current total bar))).
