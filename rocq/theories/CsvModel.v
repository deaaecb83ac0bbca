(** Reading of the particle file.
    /repo/applications/sintering/src/csv_reader.cc lines 18-111 and
    /repo/applications/sintering/include/pf-applications/sintering/particle.h lines
    26-76.  [None] is an access outside of [data] or an exception of [std::stod]. *)
From Coq Require Import List Arith Bool ZArith Ascii Lia.
From Verif Require Import Util.
Import ListNotations.

Notation text := (list ascii).
Definition comma : ascii := "044"%char.
Definition newline : ascii := "010"%char.

(** The state of the stream: what is left, [eofbit], [failbit]. *)
Record stream := mkStream { rest : text; eof : bool; failed : bool }.

(** The characters up to the delimiter, and what follows it ([None] at the end). *)
Fixpoint break_at (d : ascii) (t : text) : text * option text :=
  match t with
  | [] => ([], None)
  | c :: t => if Ascii.eqb c d then ([], Some t)
              else let (a, b) := break_at d t in (c :: a, b)
  end.

(** [std::getline] (C++ standard, string.io): the sentry fails on a stream that is
    not good; [eofbit] if the end is reached; [failbit] if nothing was extracted. *)
Definition getline (s : stream) : text * stream :=
  if eof s || failed s then ([], mkStream (rest s) (eof s) true)
  else match break_at newline (rest s) with
       | (l, Some r) => (l, mkStream r false false)
       | (l, None) => (l, mkStream [] true (match l with [] => true | _ => false end))
       end.

(** [line.find(',', pos)] over and over, csv_reader.cc 38-43; [i] is the position of
    the head of [l] *)
Fixpoint commas_from (l : text) (i : nat) : list Z :=
  match l with
  | [] => []
  | c :: l => if Ascii.eqb c comma then Z.of_nat i :: commas_from l (S i) else commas_from l (S i)
  end.

(** A row: the line and the positions around the fields ([vector<int>]; the
    conversion from [size_t] is exact for lines shorter than 2^31). *)
Record row := mkRow { line : text; data : list Z }.

(** [read_next_row], 31-47 *)
Definition make_row (l : text) : row :=
  mkRow l ((-1)%Z :: commas_from l 0 ++ [Z.of_nat (length l)]).

(** 25-29 *)
Definition size (r : row) : nat := length (data r) - 1.

(** 18-23 *)
Definition field (r : row) (index : nat) : option text :=
  a <- vget (data r) index ;;
  b <- vget (data r) (S index) ;;
  Some (firstn (Z.to_nat (b - (a + 1))) (skipn (Z.to_nat (a + 1)) (line r))).

(** The rows the iterator goes over, 56-78 and the loop of [read_particles]: the
    iterator ends as soon as [getline] fails.  [fuel] bounds the number of lines. *)
Fixpoint rows_from (fuel : nat) (s : stream) : list row :=
  match fuel with
  | 0 => []
  | S fuel => let (l, s') := getline s in
              if failed s' then [] else make_row l :: rows_from fuel s'
  end.

Definition rows (t : text) : list row := rows_from (S (length t)) (mkStream t false false).

Section Particles.

Variable D : Type.
Variable stod : text -> option D.     (* [None] is the exception *)
Variable dim : nat.

Record particle := mkParticle { center : list D; radius : D; id : nat }.

Definition number_at (r : row) (i : nat) : option D := f <- field r i ;; stod f.

Fixpoint numbers_at (r : row) (l : list nat) : option (list D) :=
  match l with
  | [] => Some []
  | i :: l => x <- number_at r i ;; xs <- numbers_at r l ;; Some (x :: xs)
  end.

(** particle.h 37-71: the coordinates are the first [dim] fields, the radius is
    field number 3 in every dimension *)
Fixpoint read_rows (l : list row) (is_header_done : bool) (id_counter : nat) (ps : list particle)
  : option (list particle) :=
  match l with
  | [] => Some ps
  | r :: l =>
    if is_header_done then
      pt <- numbers_at r (seq 0 dim) ;;
      r0 <- number_at r 3 ;;
      read_rows l true (S id_counter) (ps ++ [mkParticle pt r0 id_counter])
    else read_rows l true id_counter ps
  end.

Definition read_particles (t : text) : option (list particle) := read_rows (rows t) false 0 [].

End Particles.
