(** Model of the life of the preconditioners: which matrices they are made from, when these
    are assembled, and what they do to the blocks of a vector.
    include/pf-applications/lac/preconditioners.h 38-1469,
    applications/sintering/include/pf-applications/sintering/preconditioners.h 455-500,
    565-630, 940-1344, operator_base.h 95-120, 392-504, 520-617,
    include/pf-applications/time_integration/time_marching.h 168-207, driver.h 1105-1160,
    1405-1410, 1612-1640, 2192-2194.

    Matrices are not modelled by their entries but by a stamp, the number of the
    linearisation they were assembled for, and the number of components they have.  A result
    of a product is, block by block, the stamp of the matrix that was used ([None]: the block
    is left as it was).  The whole result is [None] if the code throws or reads beyond the end
    of a vector.  The factorisations of Trilinos are taken to succeed. *)
From Coq Require Import List Arith Bool.
From Verif Require Import Util.
Import ListNotations.

(** lac/preconditioners.h 1341-1467, the labels of parameters.h 1083-1084 *)
Inductive ptype := Identity | InverseDiagonal | ComponentBlock | CellBlock | AMG | BlockAMG | ILU | BlockILU | IC | GMG | BlockGMG.

(** ** Operators: the number of components comes from the data they share (sintering
    preconditioners.h 482-493); [o_single] is [Some] for the blocked operator of the order
    parameters *)
Record op := mkOp { o_single : option bool; o_system : option (nat * nat); o_blocks : list nat }.
Definition new_op (single : option bool) : op := mkOp single None [].
(** operator_base.h 95-107 *)
Definition clear_op (o : op) : op := mkOp (o_single o) None [].
(** 113-117 and sintering preconditioners.h 489-493 *)
Definition n_unique (o : op) (nc : nat) : nat := match o_single o with Some true => 1 | _ => nc end.
(** 418-503 with [compute]: a matrix that exists keeps its size *)
Definition initialize_system (s nc : nat) (o : op) : op :=
  mkOp (o_single o) (Some (s, match o_system o with None => nc | Some (_, k) => k end)) (o_blocks o).
(** 544-617 *)
Definition initialize_blocks (s nc : nat) (o : op) : op :=
  mkOp (o_single o) (o_system o) (repeat s (match o_blocks o with [] => nc | l => length l end)).
(** 538-542: what is there; sintering preconditioners.h 569-626 for the blocked operator:
    assembled by the call *)
Definition get_blocks (s nc : nat) (o : op) : op :=
  match o_single o with
  | None => o
  | Some _ => mkOp (o_single o) (o_system o) (repeat s (match o_blocks o with [] => n_unique o nc | l => length l end))
  end.

(** ** Preconditioners *)
Inductive store := Empty | One (s nc : nat) | Many (l : list nat).
Record prec := mkPrec { p_type : ptype; p_single : bool; p_store : store }.

(** sintering preconditioners.h 942-976 and lac 1341-1441: the multigrid ones need another
    constructor; 834-853: [single_block] is found once *)
Definition create (t : ptype) (o : op) (nc : nat) : option prec :=
  match t with GMG | BlockGMG => None | _ => Some (mkPrec t (Nat.eqb (n_unique o nc) 1) Empty) end.

(** [clear]: 125-127, 171-175, 224-228, 316-321, 621-627, 701-705, 855-859, 1021-1027 *)
Definition clear_prec (p : prec) : prec := mkPrec (p_type p) (p_single p) Empty.

(** [do_update] with the current linearisation [s] and number of components [nc]; 141-143,
    191-195, 276-301, 391-408, 655-661, 728-741, 907-924, 1051-1056 *)
Definition update_prec (s nc : nat) (o : op) (p : prec) : option (op * prec) :=
  match p_type p with
  | Identity => Some (o, p)
  | InverseDiagonal => Some (o, mkPrec (p_type p) (p_single p) (One s nc))
  | ComponentBlock | CellBlock | AMG | ILU | IC =>
      match o_system o with None => None | Some (s', k) => Some (o, mkPrec (p_type p) (p_single p) (One s' k)) end
  | BlockAMG => let o := get_blocks s nc o in Some (o, mkPrec (p_type p) (p_single p) (Many (o_blocks o)))
  | BlockILU =>
      let o := get_blocks s nc o in
      if p_single p && negb (Nat.eqb (length (o_blocks o)) 1) then None
      else Some (o, mkPrec (p_type p) (p_single p) (Many (o_blocks o)))
  | GMG | BlockGMG => None
  end.

(** the result for [n] blocks if every block uses entry [b] of a list; [None]: beyond the end *)
Fixpoint pick (l : list nat) (n : nat) : option (list (option nat)) :=
  match n with
  | O => Some []
  | S n => r <- pick l n ;; x <- nth_error l n ;; Some (r ++ [Some x])
  end.

(** [vmult] for block vectors of [n] blocks, [s]: the current linearisation (the identity needs
    no matrix); 135-139, 185-189, 252-269, 376-384, 637-653, 718-726, 868-905, 1036-1049 *)
Definition apply_prec (s : nat) (p : prec) (n : nat) : option (list (option nat)) :=
  match p_type p, p_store p with
  | Identity, _ => Some (repeat (Some s) n)
  | InverseDiagonal, One s' k => if Nat.eqb k n then Some (repeat (Some s') n) else None
  | (ComponentBlock | AMG | ILU | IC), One s' k => if Nat.eqb k n then Some (repeat (Some s') n) else None
  (* AssertDimension is for debug only: block 0 only *)
  | CellBlock, One s' k => match n with O => None | S n => Some (Some s' :: repeat None n) end
  | BlockAMG, Many l => pick l n
  | BlockILU, Many l =>
      if p_single p then (x <- nth_error l 0 ;; if Nat.ltb n 20 then Some (repeat (Some x) n) else None)
      else pick l n
  | _, _ => None
  end.

(** [underlying_entity]: 146-149, 198-201, 304-307, 411-414, 664-667, 744-747, 927-930, 1058-1061;
    for a preconditioner made for the nonlinear operator, time_marching.h 168-207 *)
Definition uses_system (t : ptype) : bool := match t with ComponentBlock | CellBlock | AMG | ILU | IC => true | _ => false end.
Definition uses_blocks (t : ptype) : bool := match t with BlockAMG | BlockILU => true | _ => false end.
Definition update_outer (s nc : nat) (o : op) (p : prec) : option (op * prec) :=
  let o := if uses_system (p_type p) then initialize_system s nc o else o in
  let o := if uses_blocks (p_type p) then initialize_blocks s nc o else o in
  update_prec s nc o p.

(** ** BlockPreconditioner2, 983-1340 *)
Record config := mkConfig { c_block_0 : ptype; c_block_1 : ptype; c_block_2 : option ptype; c_single : bool; c_dim : nat }.
Record bprec := mkB { b_op_0 : op; b_op_1 : op; b_op_1b : op; b_op_2 : op; b_prec_0 : prec; b_prec_1 : prec; b_prec_2 : option prec }.

(** 995-1091; [n]: number of order parameters *)
Definition create_block (c : config) (n : nat) : option bprec :=
  let o0 := new_op None in let o1 := new_op None in let o1b := new_op (Some (c_single c)) in let o2 := new_op None in
  p0 <- create (c_block_0 c) o0 2 ;;
  p1 <- (match c_block_1 c with
         | AMG | ILU | IC | InverseDiagonal => create (c_block_1 c) o1 n
         | BlockAMG | BlockILU => create (c_block_1 c) o1b n
         | _ => None
         end) ;;
  match c_block_2 c with
  | None => Some (mkB o0 o1 o1b o2 p0 p1 None)
  | Some t => p2 <- create t o2 (c_dim c) ;; Some (mkB o0 o1 o1b o2 p0 p1 (Some p2))
  end.
(** 1183-1216 *)
Definition clear_block (b : bprec) : bprec :=
  mkB (clear_op (b_op_0 b)) (clear_op (b_op_1 b)) (clear_op (b_op_1b b)) (clear_op (b_op_2 b)) (clear_prec (b_prec_0 b)) (clear_prec (b_prec_1 b)) (option_map clear_prec (b_prec_2 b)).
(** 1261-1283 *)
Definition update_block (c : config) (s n : nat) (b : bprec) : option bprec :=
  let o0 := initialize_system s 2 (b_op_0 b) in
  r0 <- update_prec s 2 o0 (b_prec_0 b) ;;
  let o1 := initialize_system s n (b_op_1 b) in
  r1 <- (if uses_blocks (p_type (b_prec_1 b))
         then (r <- update_prec s n (b_op_1b b) (b_prec_1 b) ;; Some (o1, fst r, snd r))
         else (r <- update_prec s n o1 (b_prec_1 b) ;; Some (fst r, b_op_1b b, snd r))) ;;
  match b_prec_2 b with
  | None => Some (mkB (fst r0) (fst (fst r1)) (snd (fst r1)) (b_op_2 b) (snd r0) (snd r1) None)
  | Some p2 =>
      let o2 := initialize_system s (c_dim c) (b_op_2 b) in
      r2 <- update_prec s (c_dim c) o2 p2 ;;
      Some (mkB (fst r0) (fst (fst r1)) (snd (fst r1)) (fst r2) (snd r0) (snd r1) (Some (snd r2)))
  end.
(** 1224-1258: views of the blocks *)
Definition apply_block (c : config) (s : nat) (b : bprec) (blocks : nat) : option (list (option nat)) :=
  v0 <- apply_prec s (b_prec_0 b) 2 ;;
  let e := match b_prec_2 b with None => blocks | Some _ => blocks - c_dim c end in
  v1 <- apply_prec s (b_prec_1 b) (e - 2) ;;
  match b_prec_2 b with
  | None => Some (v0 ++ v1)
  | Some p2 => v2 <- apply_prec s p2 (blocks - (blocks - c_dim c)) ;; Some (v0 ++ v1 ++ v2)
  end.
Definition n_blocks (c : config) (n : nat) : nat := 2 + n + match c_block_2 c with None => 0 | Some _ => c_dim c end.

(** ** The driver: [Restart n]: everything is cleared, and then there are [n] order parameters
    (new mesh or failed step: the number stays; 1612-1690: it changes); [Update s]: a new
    linearisation; [Apply] *)
Inductive event := Restart (n : nat) | Update (s : nat) | Apply.

(** number of order parameters, last linearisation, preconditioner; results *)
Fixpoint run_block (c : config) (n s : nat) (b : bprec) (es : list event) : option (list (list (option nat))) :=
  match es with
  | [] => Some []
  | Restart n' :: es => run_block c n' s (clear_block b) es
  | Update s' :: es => b' <- update_block c s' n b ;; run_block c n s' b' es
  | Apply :: es => r <- apply_block c s b (n_blocks c n) ;; l <- run_block c n s b es ;; Some (r :: l)
  end.
(** a preconditioner for the nonlinear operator itself, of [n] components *)
Fixpoint run_outer (n s : nat) (o : op) (p : prec) (es : list event) : option (list (list (option nat))) :=
  match es with
  | [] => Some []
  | Restart n' :: es => run_outer n' s (clear_op o) (clear_prec p) es
  | Update s' :: es => r <- update_outer s' n o p ;; run_outer n s' (fst r) (snd r) es
  | Apply :: es => r <- apply_prec s p n ;; l <- run_outer n s o p es ;; Some (r :: l)
  end.
