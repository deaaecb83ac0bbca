(** Model of the two readers of microstructures,
    applications/sintering/include/pf-applications/sintering/
    initial_values_microstructure_imaging.h 26-97 and
    initial_values_microstructure_voronoi.h 30-152, with the containers of
    initial_values_microstructure.h 44-63, 137-151, 169-172, 192-221, 309-366.
    [None] is undefined behaviour or an exception.  The values of the fields inside the
    grains are the subject of C58. *)
From Coq Require Import List QArith Qminmax Arith Bool Ascii.
From Verif Require Import Util CsvModel.
Import ListNotations.
Local Open Scope nat_scope.

(** [order_parameter_to_grains]: a [std::map]; the order of the keys does not matter here *)
Notation op_map := (list (nat * list nat)).
Fixpoint push (m : op_map) (k i : nat) : op_map :=
  match m with
  | [] => [(k, [i])]
  | (x, l) :: r => if Nat.eqb x k then (x, l ++ [i]) :: r else (x, l) :: push r k i
  end.
(** [at], 268 *)
Fixpoint map_at (m : op_map) (k : nat) : option (list nat) :=
  match m with [] => None | (x, l) :: r => if Nat.eqb x k then Some l else map_at r k end.
(** 347-350 *)
Definition n_order_parameters (m : op_map) : nat := length m.

Section Files.
Variable D : Type.

Notation contour := (list (D * D)).
(** 44-63: without points [vertices[0]] is undefined; the repeated first point is in
    [ContourModel.closed] *)
Definition new_segment (vs : contour) : option contour := match vs with [] => None | _ => Some vs end.
(** 137-151, 245-249; the color of the reader for Voronoi cells is never set *)
Record grain := mkGrain { color : option nat; segments : list contour }.
Definition add_segment (g : grain) (c : contour) : grain := mkGrain (color g) (segments g ++ [c]).
Record micro := mkMicro { grains : list grain; ops : op_map }.

(** ** initial_values_microstructure_imaging.h.  [stoi] is modelled for numbers that are not
    negative *)
Section Imaging.
Variable stoi : text -> option nat.
Variable stod : text -> option D.

(** 70-75 *)
Fixpoint read_ops (r : row) (is : list nat) (s : micro) : option micro :=
  match is with
  | [] => Some s
  | i :: is =>
    f <- field r i ;; c <- stoi f ;;
    read_ops r is (mkMicro (grains s ++ [mkGrain (Some c) []]) (push (ops s) c i))
  end.
(** 79-84, the loop [i += 2] *)
Fixpoint read_vertices (r : row) (is : list nat) : option contour :=
  match is with
  | [] => Some []
  | i :: is => x <- number_at D stod r i ;; y <- number_at D stod r (S i) ;; l <- read_vertices r is ;; Some ((x, y) :: l)
  end.
Definition every_second (n : nat) : list nat := map (fun k => 2 * k) (seq 0 (S n / 2)).
(** 57-94; [AssertDimension] (68) is for debug mode only *)
Fixpoint read_grain_rows (rs : list row) (row_counter : nat) (s : micro) : option micro :=
  match rs with
  | [] => Some s
  | r :: rs =>
    s' <- match row_counter with
          | 0 => f <- field r 0 ;; _ <- stoi f ;; Some s
          | 1 => read_ops r (seq 0 (size r)) s
          | S (S k) =>
            vs <- read_vertices r (every_second (size r)) ;;
            seg <- new_segment vs ;;
            g <- vget (grains s) k ;;
            gs <- vset (grains s) k (add_segment g seg) ;;
            Some (mkMicro gs (ops s))
          end ;;
    read_grain_rows rs (S row_counter) s'
  end.
Definition read_imaging (t : text) : option micro := read_grain_rows (rows t) 0 (mkMicro [] []).
End Imaging.

(** ** initial_values_microstructure_voronoi.h.  The file is a list of numbers: unsigned
    ones, which may also be read as coordinates, and others.  An unsigned number that is
    expected but not found in the text is not modelled ([None]).  At the end of the file
    [operator>>] leaves the variable as it is. *)
Inductive token := Id (n : nat) | Coord (x : D).
Variable of_nat : nat -> D.
Definition read_id (old : nat) (ts : list token) : option (nat * list token) :=
  match ts with [] => Some (old, []) | Id n :: r => Some (n, r) | Coord _ :: _ => None end.
Definition read_coord (old : D) (ts : list token) : D * list token :=
  match ts with [] => (old, []) | Id n :: r => (of_nat n, r) | Coord x :: r => (x, r) end.

(** 63-80; [try_emplace] keeps the first point of a number *)
Fixpoint read_points (n : nat) (ts : list token) : option (list (nat * (D * D)) * list token) :=
  match n with
  | 0 => Some ([], ts)
  | S n =>
    a <- read_id 0 ts ;;
    let '(x, ts) := read_coord (of_nat 0) (snd a) in
    let '(y, ts) := read_coord x ts in
    r <- read_points n ts ;; Some ((fst a, (x, y)) :: fst r, snd r)
  end.
Fixpoint point_at (ps : list (nat * (D * D))) (i : nat) : option (D * D) :=
  match ps with [] => None | (k, p) :: r => if Nat.eqb k i then Some p else point_at r i end.
(** 93-104; [id] keeps its value from one entry to the next *)
Fixpoint read_slots (ps : list (nat * (D * D))) (n id : nat) (ts : list token) : option (contour * list nat * list token) :=
  match n with
  | 0 => Some ([], [], ts)
  | S n =>
    a <- read_id id ts ;;
    if 0 <? fst a then
      p <- point_at ps (fst a) ;;
      r <- read_slots ps n (fst a) (snd a) ;;
      Some (p :: fst (fst r), fst a :: snd (fst r), snd r)
    else read_slots ps n (fst a) (snd a)
  end.
(** 88-128: contour, numbers of the points and grain of every segment *)
Notation piece := (contour * list nat * nat)%type.
Fixpoint read_segments (ps : list (nat * (D * D))) (n_max n : nat) (ts : list token) : option (list piece) :=
  match n with
  | 0 => Some []
  | S n =>
    a <- read_id 0 ts ;;
    v <- read_slots ps n_max 0 (snd a) ;;
    c <- new_segment (fst (fst v)) ;;
    g <- read_id 0 (snd v) ;;
    r <- read_segments ps n_max n (snd g) ;;
    Some ((c, snd (fst v), fst g) :: r)
  end.
Definition piece_grain (p : piece) : nat := snd p.
Definition piece_points (p : piece) : list nat := snd (fst p).
Definition piece_contour (p : piece) : contour := fst (fst p).

(** 119-128: the segments of a grain *)
Definition grain_of (ps : list piece) (id : nat) : grain :=
  fold_left add_segment (map piece_contour (filter (fun p => Nat.eqb (piece_grain p) id) ps)) (mkGrain None []).
(** the keys of [initial_grains], in the order they come *)
Definition grain_ids (ps : list piece) : list nat := nodup Nat.eq_dec (map piece_grain ps).
(** 130-136: position of a grain; [order] is the order of the [unordered_map] *)
Fixpoint position (order : list nat) (id : nat) : nat :=
  match order with [] => 0 | x :: r => if Nat.eqb x id then 0 else S (position r id) end.
(** 116-117, 138-150: grains at a common point; the entries of the pattern *)
Definition at_point (ps : list piece) : list (nat * nat) := flat_map (fun p => map (fun v => (v, piece_grain p)) (piece_points p)) ps.
Definition pattern (order : list nat) (ps : list piece) : list (nat * nat) :=
  flat_map (fun a => flat_map (fun b =>
    if Nat.eqb (fst a) (fst b) && negb (Nat.eqb (snd a) (snd b))
    then [(position order (snd a), position order (snd b)); (position order (snd b), position order (snd a))] else [])
    (at_point ps)) (at_point ps).
(** 158-159; a color starts at one *)
Fixpoint by_color (colors : list nat) (i : nat) (m : op_map) : op_map :=
  match colors with [] => m | c :: r => by_color r (S i) (push m (c - 1) i) end.

(** [order]: the order of an [unordered_map] with the given keys; [coloring n p]:
    [color_sparsity_pattern] for a pattern of [n] rows *)
Definition read_voronoi (order : list nat -> list nat) (coloring : nat -> list (nat * nat) -> list nat) (ts : list token) : option micro :=
  a <- read_id 0 ts ;;
  b <- read_id 0 (snd a) ;;
  c <- read_id 0 (snd b) ;;
  p <- read_points (fst a) (snd c) ;;
  s <- read_segments (fst p) (fst b) (fst c) (snd p) ;;
  let ids := order (grain_ids s) in
  Some (mkMicro (map (grain_of s) ids) (by_color (coloring (length ids) (pattern ids s)) 0 [])).
End Files.

(** ** The domain, initial_values_microstructure.h 44-63, 192-221, 309-341, over rational
    numbers; [ext] is the extension of 58-61, [huge] the largest number.  A box is its lower
    and upper corner.  For [get_r_max] the square of the result is used. *)
Section Domain.
Variables (ext huge : Q).
Notation corner := (Q * Q)%type.
Notation box := (corner * corner)%type.
Definition merge (a b : box) : box :=
  ((Qmin (fst (fst a)) (fst (fst b)), Qmin (snd (fst a)) (snd (fst b))), (Qmax (fst (snd a)) (fst (snd b)), Qmax (snd (snd a)) (snd (snd b)))).
Definition box_of_points (v : corner) (vs : list corner) : box := fold_left (fun b p => merge b (p, p)) vs (v, v).
Definition extend (b : box) : box := (((fst (fst b) - ext)%Q, (snd (fst b) - ext)%Q), ((fst (snd b) + ext)%Q, (snd (snd b) + ext)%Q)).
Definition segment_box (c : list corner) : option box := match c with [] => None | v :: vs => Some (extend (box_of_points v vs)) end.
(** 192-206 *)
Fixpoint merge_segments (b : box) (cs : list (list corner)) : option box :=
  match cs with [] => Some b | c :: r => x <- segment_box c ;; merge_segments (merge b x) r end.
Definition grain_box (g : grain Q) : option box :=
  match segments Q g with [] => None | c :: r => b <- segment_box c ;; merge_segments b r end.
(** 309-330 *)
Fixpoint merge_grains (b : box) (gs : list (grain Q)) : option box :=
  match gs with [] => Some b | g :: r => x <- grain_box g ;; merge_grains (merge b x) r end.
Definition get_domain_boundaries (gs : list (grain Q)) : option box :=
  merge_grains ((huge, huge), ((- huge)%Q, (- huge)%Q)) gs.
(** 208-221, 332-341 *)
Definition diameter2 (b : box) : Q :=
  ((fst (snd b) - fst (fst b)) * (fst (snd b) - fst (fst b)) + (snd (snd b) - snd (fst b)) * (snd (snd b) - snd (fst b)))%Q.
Fixpoint max_diameter2 (cs : list (list corner)) (m : Q) : option Q :=
  match cs with [] => Some m | c :: r => b <- segment_box c ;; max_diameter2 r (Qmax m (diameter2 b)) end.
Fixpoint r_max2 (gs : list (grain Q)) (m : Q) : option Q :=
  match gs with [] => Some m | g :: r => d <- max_diameter2 (segments Q g) 0 ;; r_max2 r (Qmax m (d / 4)%Q) end.
End Domain.
