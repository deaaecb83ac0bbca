(** C103: block vectors whose blocks are shared pointers.

    include/pf-applications/lac/dynamic_block_vector.h, class
    [DynamicBlockVector], lines 33-585.  A block vector holds a list of shared
    pointers to blocks and, separately, the sizes of the blocks as they were
    when [collect_sizes] was last called.  Two block vectors may share blocks
    ([create_view], [block_ptr] with [insert_block], the range constructor),
    so the model has a heap.

    Simplifications: the heap is a list of blocks and a pointer is a position
    in it; released blocks stay in the heap, nobody can reach them.  A block is
    the list of its entries; one process, so ghost entries and the exchange of
    ghost values (lines 74-75, 140-141, 296-341) do not occur.  Numbers are
    rationals instead of doubles.  The operations of a single block are those
    documented by deal.II for LinearAlgebra::distributed::Vector; they need
    operands of one length, other lengths are reported as [None].  Debug-only
    checks (Assert, AssertDimension, AssertIndexRange) are absent as in a
    release build; what they would catch and is undefined then is [None].
    [omit_zeroing_entries = true] outside of [operator=] is not modelled. *)
From Coq Require Import List QArith Qabs Arith Bool Lia.
From Verif Require Import Util BlockVectorModel.
Import ListNotations.
Local Open Scope nat_scope.

Definition block := list Q.
Definition heap := list block.

(** dynamic_block_vector.h 582-584: the members [blocks] and
    [block_indices] (only the sizes it was built from). *)
Record dvec := mkV { ptrs : list nat; sizes : list nat }.

(** The loop of [collect_sizes], lines 571-580: reads [block(i).size()]. *)
Fixpoint block_sizes (h : heap) (ps : list nat) : option (list nat) :=
  match ps with
  | [] => Some []
  | a :: r => x <- vget h a ;; s <- block_sizes h r ;; Some (length x :: s)
  end.

(** [collect_sizes()], lines 571-580. *)
Definition collect_sizes (h : heap) (ps : list nat) : option dvec :=
  s <- block_sizes h ps ;; Some (mkV ps s).

(** The loop of [operator=(const DynamicBlockVector &)], lines 65-76; also the
    copy constructor, lines 49-52, with [vs = nil].  A block that is not there
    yet is made, one that is there is resized and overwritten in place. *)
Fixpoint assign_blocks (h : heap) (vs ws : list nat) : option (heap * list nat) :=
  match ws with
  | [] => Some (h, [])
  | w :: wr =>
      x <- vget h w ;;
      match vs with
      | [] =>
          r <- assign_blocks (h ++ [x]) [] wr ;;
          Some (fst r, length h :: snd r)
      | a :: vr =>
          h1 <- vset h a x ;;
          r <- assign_blocks h1 vr wr ;;
          Some (fst r, a :: snd r)
      end
  end.

(** [operator=(const DynamicBlockVector &)], lines 62-81. *)
Definition assign (h : heap) (v w : dvec) : option (heap * dvec) :=
  r <- assign_blocks h (ptrs v) (ptrs w) ;;
  v1 <- collect_sizes (fst r) (snd r) ;;
  Some (fst r, v1).

(** The copy constructor, lines 49-52. *)
Definition copy (h : heap) (w : dvec) : option (heap * dvec) := assign h (mkV [] []) w.

(** The range constructor, lines 54-60: shares the given pointers. *)
Definition of_range (h : heap) (ps : list nat) : option dvec := collect_sizes h ps.

(** [create_view], lines 176-203: shares the pointers; the new vector was made
    by [reinit(0)] and [collect_sizes] is not called again, so its list of
    sizes is empty. *)
Definition view (v : dvec) (start stop : nat) : option dvec :=
  ps <- BlockVectorModel.create_view (stop - start) start (ptrs v) ;;
  Some (mkV ps []).

(** [n] new blocks appended to the heap. *)
Definition alloc (h : heap) (x : block) (n : nat) : heap * list nat :=
  (h ++ repeat x n, seq (length h) n).

(** [reinit(n)], lines 125-146: blocks are dropped from the end or appended;
    the new ones have the size of block 0 and are zero, or are empty if the
    vector had no block. *)
Definition reinit_n (h : heap) (v : dvec) (n : nat) : option (heap * dvec) :=
  let old := length (ptrs v) in
  if n <=? old then
    v1 <- collect_sizes h (firstn n (ptrs v)) ;; Some (h, v1)
  else
    x <- match ptrs v with
         | [] => Some []
         | a :: _ => y <- vget h a ;; Some (map (fun _ => 0%Q) y)
         end ;;
    let r := alloc h x (n - old) in
    v1 <- collect_sizes (fst r) (ptrs v ++ snd r) ;;
    Some (fst r, v1).

(** The loop of [reinit(V)], lines 148-164: every block gets the size of the
    one of [V] and is set to zero. *)
Fixpoint reinit_blocks (h : heap) (vs ws : list nat) : option (heap * list nat) :=
  match ws with
  | [] => Some (h, [])
  | w :: wr =>
      x <- vget h w ;;
      let z := map (fun _ => 0%Q) x in
      match vs with
      | [] =>
          r <- reinit_blocks (h ++ [z]) [] wr ;;
          Some (fst r, length h :: snd r)
      | a :: vr =>
          h1 <- vset h a z ;;
          r <- reinit_blocks h1 vr wr ;;
          Some (fst r, a :: snd r)
      end
  end.

(** [reinit(V)], lines 148-164. *)
Definition reinit_v (h : heap) (v w : dvec) : option (heap * dvec) :=
  r <- reinit_blocks h (ptrs v) (ptrs w) ;;
  v1 <- collect_sizes (fst r) (snd r) ;;
  Some (fst r, v1).

(** [move_block], lines 243-259: the sizes are left as they are. *)
Definition move_block (v : dvec) (from to : nat) : option dvec :=
  ps <- BlockVectorModel.move_block from to (ptrs v) ;; Some (mkV ps (sizes v)).

(** [insert_block], lines 261-274. *)
Definition insert_block (h : heap) (v : dvec) (b to : nat) : option dvec :=
  ps <- BlockVectorModel.insert_block 0 b to (ptrs v) ;; collect_sizes h ps.

(** [remove_block], lines 276-291. *)
Definition remove_block (h : heap) (v : dvec) (from : nat) : option (nat * dvec) :=
  r <- BlockVectorModel.remove_block from (ptrs v) ;;
  v1 <- collect_sizes h (snd r) ;;
  Some (fst r, v1).

(** [V.block(b).reinit(partitioner)] as callers do it (e.g.
    applications/sintering/include/pf-applications/sintering/operator_base.h
    150-158, include/pf-applications/grid/grid_tools.h 72): the block is set to [n] zeros behind
    the back of the block vector. *)
Definition reinit_outside (h : heap) (v : dvec) (b n : nat) : option heap :=
  a <- vget (ptrs v) b ;; vset h a (repeat 0%Q n).

(** [size()], lines 166-170. *)
Definition size (v : dvec) : nat := fold_right Nat.add 0 (sizes v).

(** [BlockIndices::global_to_local] (deal.II): the block whose range holds
    [i]; an index beyond the last is a debug-only check there, undefined
    here. *)
Fixpoint global_to_local (s : list nat) (i : nat) : option (nat * nat) :=
  match s with
  | [] => None
  | n :: r => if i <? n then Some (0, i)
              else p <- global_to_local r (i - n) ;; Some (S (fst p), snd p)
  end.

(** [operator()(i)], lines 97-111. *)
Definition get (h : heap) (v : dvec) (i : nat) : option Q :=
  p <- global_to_local (sizes v) i ;;
  a <- vget (ptrs v) (fst p) ;;
  x <- vget h a ;;
  vget x (snd p).

(** [operator()(i) = y], lines 105-111 and 119-123. *)
Definition put (h : heap) (v : dvec) (i : nat) (y : Q) : option heap :=
  p <- global_to_local (sizes v) i ;;
  a <- vget (ptrs v) (fst p) ;;
  x <- vget h a ;;
  x1 <- vset x (snd p) y ;;
  vset h a x1.

(** A loop [for b: result = op(result, f(block(b)))] as in lines 345-381. *)
Fixpoint fold_blocks (op : Q -> Q -> Q) (f : block -> option Q) (h : heap) (ps : list nat) (acc : Q) : option Q :=
  match ps with
  | [] => Some acc
  | a :: r => x <- vget h a ;; y <- f x ;; fold_blocks op f h r (op acc y)
  end.

(** deal.II: norms and mean value of one block.  The square of the [l2_norm]
    is kept instead of the root ([std::pow(block(b).l2_norm(), 2.0)]). *)
Definition block_sum (x : block) : Q := fold_right Qplus 0%Q x.
Definition block_l1 (x : block) : Q := fold_right (fun a s => (Qabs a + s)%Q) 0%Q x.
Definition block_l2sq (x : block) : Q := fold_right (fun a s => (a * a + s)%Q) 0%Q x.
(** [std::max]. *)
Definition qmax (a b : Q) : Q := if qltb a b then b else a.
Definition block_linf (x : block) : Q := fold_right (fun a s => qmax s (Qabs a)) 0%Q x.
Definition block_mean (x : block) : option Q := qdiv (block_sum x) (inject_Z (Z.of_nat (length x))).

(** [l2_norm], lines 345-352: its square. *)
Definition l2_square (h : heap) (v : dvec) : option Q :=
  fold_blocks Qplus (fun x => Some (block_l2sq x)) h (ptrs v) 0%Q.
(** [l1_norm], lines 354-361. *)
Definition l1_norm (h : heap) (v : dvec) : option Q :=
  fold_blocks Qplus (fun x => Some (block_l1 x)) h (ptrs v) 0%Q.
(** [linfty_norm], lines 363-370. *)
Definition linfty_norm (h : heap) (v : dvec) : option Q :=
  fold_blocks qmax (fun x => Some (block_linf x)) h (ptrs v) 0%Q.
(** [mean_value], lines 372-381: divides by [size()], not by the sum of the
    sizes of the blocks. *)
Definition mean_value (h : heap) (v : dvec) : option Q :=
  s <- fold_blocks Qplus
         (fun x => m <- block_mean x ;; Some (m * inject_Z (Z.of_nat (length x)))%Q)
         h (ptrs v) 0%Q ;;
  qdiv s (inject_Z (Z.of_nat (size v))).
(** [all_zero], lines 539-543. *)
Definition all_zero (h : heap) (v : dvec) : option bool :=
  n <- linfty_norm h v ;; Some (Qeq_bool n 0).

(** Entry by entry combination of blocks of one length. *)
Fixpoint zip (g : Q -> Q -> Q) (x y : block) : option block :=
  match x, y with
  | [], [] => Some []
  | a :: xr, b :: yr => r <- zip g xr yr ;; Some (g a b :: r)
  | _, _ => None
  end.

(** A loop [for b: block(b) = f(block(b))], lines 383-388, 443-460, 500-505. *)
Fixpoint upd1 (f : Q -> Q) (h : heap) (ps : list nat) : option heap :=
  match ps with
  | [] => Some h
  | a :: r => x <- vget h a ;; h1 <- vset h a (map f x) ;; upd1 f h1 r
  end.

(** A loop [for b: block(b) = g(block(b), V.block(b))]; it runs over the
    blocks of the vector itself, [V] having fewer is undefined, further
    blocks of [V] are not looked at. *)
Fixpoint upd2 (g : Q -> Q -> Q) (h : heap) (ps qs : list nat) : option heap :=
  match ps with
  | [] => Some h
  | a :: r =>
      match qs with
      | [] => None
      | b :: s =>
          x <- vget h a ;; y <- vget h b ;; z <- zip g x y ;;
          h1 <- vset h a z ;; upd2 g h1 r s
      end
  end.

(** [add(a)], lines 383-388. *)
Definition add_const (h : heap) (v : dvec) (a : Q) : option heap :=
  upd1 (fun x => (x + a)%Q) h (ptrs v).
(** [add(a, V)], lines 390-395. *)
Definition add (h : heap) (v : dvec) (a : Q) (w : dvec) : option heap :=
  upd2 (fun x y => (x + a * y)%Q) h (ptrs v) (ptrs w).
(** [sadd(s, V)], lines 407-414. *)
Definition sadd1 (h : heap) (v : dvec) (s : Q) (w : dvec) : option heap :=
  upd2 (fun x y => (s * x + y)%Q) h (ptrs v) (ptrs w).
(** [sadd(s, a, V)], lines 416-423. *)
Definition sadd (h : heap) (v : dvec) (s a : Q) (w : dvec) : option heap :=
  upd2 (fun x y => (s * x + a * y)%Q) h (ptrs v) (ptrs w).
(** [scale(V)], lines 425-432. *)
Definition scale (h : heap) (v w : dvec) : option heap :=
  upd2 (fun x y => (x * y)%Q) h (ptrs v) (ptrs w).
(** [operator*=], lines 443-448. *)
Definition times (h : heap) (v : dvec) (a : Q) : option heap :=
  upd1 (fun x => (x * a)%Q) h (ptrs v).
(** [equ(a, V)], lines 434-441. *)
Definition equ (h : heap) (v : dvec) (a : Q) (w : dvec) : option (heap * dvec) :=
  r <- assign h v w ;; h1 <- times (fst r) (snd r) a ;; Some (h1, snd r).
(** [operator/=], lines 450-460: multiplies by the reciprocal; a zero factor
    gives infinities, [None] here. *)
Definition divide (h : heap) (v : dvec) (a : Q) : option heap :=
  i <- qdiv 1 a ;; times h v i.
(** [operator+=], lines 462-472. *)
Definition plus (h : heap) (v w : dvec) : option heap :=
  upd2 (fun x y => (x + y)%Q) h (ptrs v) (ptrs w).
(** [operator-=], lines 474-484. *)
Definition minus (h : heap) (v w : dvec) : option heap :=
  upd2 (fun x y => (x - y)%Q) h (ptrs v) (ptrs w).
(** [operator=(const T &)], lines 500-505. *)
Definition set_all (h : heap) (v : dvec) (a : Q) : option heap :=
  upd1 (fun _ => a) h (ptrs v).

(** The loop of [add(v, V, w, W)], lines 397-405. *)
Fixpoint add2_blocks (a b : Q) (h : heap) (ps qs rs : list nat) : option heap :=
  match ps with
  | [] => Some h
  | p :: pr =>
      match qs, rs with
      | q :: qr, r :: rr =>
          x <- vget h p ;; y <- vget h q ;; z <- vget h r ;;
          u <- zip (fun s t => (a * s + b * t)%Q) y z ;;
          n <- zip (fun s t => (s + t)%Q) x u ;;
          h1 <- vset h p n ;; add2_blocks a b h1 pr qr rr
      | _, _ => None
      end
  end.

(** [add(v, V, w, W)], lines 397-405. *)
Definition add2 (h : heap) (v : dvec) (a : Q) (w : dvec) (b : Q) (u : dvec) : option heap :=
  add2_blocks a b h (ptrs v) (ptrs w) (ptrs u).

(** deal.II: the dot product of two blocks. *)
Definition block_dot (x y : block) : option Q := z <- zip Qmult x y ;; Some (block_sum z).

(** The loop of [operator*(V)], lines 507-516. *)
Fixpoint dot_blocks (h : heap) (ps qs : list nat) (acc : Q) : option Q :=
  match ps with
  | [] => Some acc
  | a :: r =>
      match qs with
      | [] => None
      | b :: s =>
          x <- vget h a ;; y <- vget h b ;; d <- block_dot x y ;;
          dot_blocks h r s (acc + d)%Q
      end
  end.

(** [operator*(V)], lines 507-516. *)
Definition dot (h : heap) (v w : dvec) : option Q := dot_blocks h (ptrs v) (ptrs w) 0%Q.

(** The loop of [add_and_dot], lines 486-498: block [b] is updated before its
    part of the dot product is taken. *)
Fixpoint add_and_dot_blocks (c : Q) (h : heap) (ps qs rs : list nat) (acc : Q) : option (heap * Q) :=
  match ps with
  | [] => Some (h, acc)
  | p :: pr =>
      match qs, rs with
      | q :: qr, r :: rr =>
          x <- vget h p ;; y <- vget h q ;;
          n <- zip (fun s t => (s + c * t)%Q) x y ;;
          h1 <- vset h p n ;;
          z <- vget h1 r ;;
          d <- block_dot n z ;;
          add_and_dot_blocks c h1 pr qr rr (acc + d)%Q
      | _, _ => None
      end
  end.

(** [add_and_dot(a, V, W)], lines 486-498. *)
Definition add_and_dot (h : heap) (v : dvec) (a : Q) (w u : dvec) : option (heap * Q) :=
  add_and_dot_blocks a h (ptrs v) (ptrs w) (ptrs u) 0%Q.

(** [locally_owned_elements()], lines 545-560, on one process, as the ranges
    added: the range of block [b] starts where the recorded sizes say
    ([block_start]), its length is the one of the block.  [block_start] of a
    block the recorded sizes do not know is undefined. *)
Fixpoint owned_ranges (h : heap) (start : nat) (ps s : list nat) : option (list (nat * nat)) :=
  match ps with
  | [] => Some []
  | a :: r =>
      match s with
      | [] => None
      | n :: t => x <- vget h a ;; l <- owned_ranges h (start + n) r t ;; Some ((start, length x) :: l)
      end
  end.
Definition owned (h : heap) (v : dvec) : option (list (nat * nat)) := owned_ranges h 0 (ptrs v) (sizes v).
