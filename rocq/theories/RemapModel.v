(** Model of the transfer of field values between order parameters,
    include/pf-applications/grain_tracker/remapping.h 20-48 [Remapping],
    remap_graph.h 31-296 [RemapGraph] and tracker.h 424-649 [remap_new].

    The solution is a function of block and degree of freedom, one solution vector is
    modelled (the code treats every vector of the list in the same way).
    A cell is its list of degrees of freedom; constraints and the exchange between
    ranks are left out.  The order in which boost hands out the edges of a vertex
    depends on addresses: [out_order], [in_order] stand for any such order.
    [None]: exception or undefined behaviour. *)
From Coq Require Import List Arith Bool.
From Verif Require Import Util MapModel.
Import ListNotations.

(** remapping.h 20-48 *)
Record remapping := mkRemap { m_grain : nat; m_from : nat; m_to : nat }.

Definition req (a b : remapping) : bool := (m_grain a =? m_grain b) && (m_from a =? m_from b) && (m_to a =? m_to b).

(** A step of the final sequence; [None] is [invalid_unsigned_int], i.e. the
    temporary storage. *)
Record step := mkStep { st_grain : nat; st_from : option nat; st_to : option nat }.
Definition step_of (r : remapping) : step := mkStep (m_grain r) (Some (m_from r)) (Some (m_to r)).

Definition memb (x : nat) (l : list nat) : bool := existsb (Nat.eqb x) l.

(** [std::list::erase] of [std::find]; [None]: not found *)
Fixpoint take_out (r : remapping) (l : list remapping) : option (list remapping) :=
  match l with
  | [] => None
  | x :: l => if req r x then Some l else l' <- take_out r l ;; Some (x :: l')
  end.

(** ** remap_graph.h: the vertices (order parameters) in order of insertion and the
    edges *)
Record rgraph := mkGraph { gv : list nat; ge : list remapping }.

(** 243-255 *)
Definition add_vertex (v : nat) (g : rgraph) : rgraph := if memb v (gv g) then g else mkGraph (gv g ++ [v]) (ge g).

(** 62-74, 258-270 *)
Definition add_remapping (r : remapping) (g : rgraph) : rgraph :=
  let g := add_vertex (m_to r) (add_vertex (m_from r) g) in
  if existsb (req r) (ge g) then g else mkGraph (gv g) (ge g ++ [r]).

Section Graph.
Variables (out_order in_order : nat -> list remapping -> list remapping).

Definition out_edges (es : list remapping) (v : nat) : list remapping := out_order v (filter (fun e => m_from e =? v) es).
Definition in_edges (es : list remapping) (v : nat) : list remapping := in_order v (filter (fun e => m_to e =? v) es).

(** [boost::depth_first_search] with the visitor 279-295: [gray] are the vertices on
    the current path, [black] the finished ones, the last one first; the third part
    of the result are the back edges. *)
Fixpoint dfs_visit (fuel : nat) (es : list remapping) (gray : list nat) (u : nat) (s : list nat * list remapping) : list nat * list remapping :=
  match fuel with
  | 0 => s
  | S fuel =>
      let s := fold_left (fun s e =>
          if memb (m_to e) (u :: gray) then (fst s, snd s ++ [e])
          else if memb (m_to e) (fst s) then s
          else dfs_visit fuel es (u :: gray) (m_to e) s) (out_edges es u) s in
      (u :: fst s, snd s)
  end.

Definition dfs (g : rgraph) : list nat * list remapping :=
  fold_left (fun s v => if memb v (fst s) then s else dfs_visit (length (gv g)) (ge g) [] v s) (gv g) ([], []).

(** 82-133: the edges closing a cycle are taken out; result: remaining list, graph
    and the pairs over temporary storage *)
Fixpoint split_cycles (cycle : list remapping) (l : list remapping) (g : rgraph) (temps : list (step * step))
  : option (list remapping * rgraph * list (step * step)) :=
  match cycle with
  | [] => Some (l, g, temps)
  | e :: r =>
      l <- take_out e l ;;
      es <- take_out e (ge g) ;;
      split_cycles r l (mkGraph (gv g) es)
        (temps ++ [(mkStep (m_grain e) (Some (m_from e)) None, mkStep (m_grain e) None (Some (m_to e)))])
  end.

Definition resolve_cycles (l : list remapping) (g : rgraph) := split_cycles (snd (dfs g)) l g [].

(** 188-207 *)
Fixpoint move_over (ins : list remapping) (old new : list remapping) : option (list remapping * list remapping) :=
  match ins with
  | [] => Some (old, new)
  | e :: r => old <- take_out e old ;; move_over r old (new ++ [e])
  end.

(** 177-228: the first vertex without outgoing and with incoming edges; removing a
    vertex restarts the loop, the recursion depth is the number of vertices *)
Definition ready (es : list remapping) (v : nat) : bool :=
  match out_edges es v with
  | [] => match in_edges es v with [] => false | _ => true end
  | _ => false
  end.

Fixpoint rearrange_loop (fuel : nat) (g : rgraph) (old new : list remapping) : option (list remapping * list remapping) :=
  match fuel with
  | 0 => Some (old, new)
  | S fuel =>
      match find (ready (ge g)) (gv g) with
      | None => Some (old, new)
      | Some v =>
          on <- move_over (in_edges (ge g) v) old new ;;
          rearrange_loop fuel
            (mkGraph (filter (fun w => negb (w =? v)) (gv g)) (filter (fun e => negb (m_from e =? v) && negb (m_to e =? v)) (ge g)))
            (fst on) (snd on)
      end
  end.

(** 164-236 *)
Definition rearrange (l : list remapping) (g : rgraph) : option (list remapping) :=
  on <- rearrange_loop (S (length (gv g))) g l [] ;;
  Some (snd on ++ fst on).

(** tracker.h 512-568: the graph of dependent moves *)
Fixpoint pair_loop (l : list remapping) (ri : remapping) (rs : list remapping) (g : rgraph) : option rgraph :=
  match rs with
  | [] => Some g
  | rj :: r =>
      if negb (req ri rj) && (m_to ri =? m_from rj)
      then
        re <- find (fun a => m_grain a =? m_grain rj) l ;;
        pair_loop l ri r (add_remapping re (add_remapping ri g))
      else pair_loop l ri r g
  end.

Fixpoint build_graph (l : list remapping) (rs : list remapping) (g : rgraph) : option rgraph :=
  match rs with
  | [] => Some g
  | ri :: r => g <- pair_loop l ri l g ;; build_graph l r g
  end.

(** 570-590 *)
Definition schedule (l : list remapping) : option (list step) :=
  g <- build_graph l l (mkGraph [] []) ;;
  match gv g with
  | [] => Some (map step_of l)
  | _ =>
      r <- resolve_cycles l g ;;
      let '(l, g, temps) := r in
      l <- rearrange l g ;;
      Some (fold_left (fun s p => fst p :: s ++ [snd p]) temps (map step_of l))
  end.
End Graph.

(** ** tracker.h 606-645: the steps at one cell *)
Section Cells.
Variables (V : Type) (zero : V).
Definition bvector := nat -> nat -> V.

(** [set_dof_values] of values given per degree of freedom *)
Definition set_dofs (dofs : list nat) (b : nat) (val : nat -> V) (u : bvector) : bvector :=
  fun b' d => if (b' =? b) && memb d dofs then val d else u b' d.

Variables (n_blocks offset : nat).

Fixpoint run (dofs : list nat) (copy : bvector) (seq : list step) (temp : list (nat -> V)) (u : bvector) : option bvector :=
  match seq with
  | [] => Some u
  | st :: r =>
      vt <- match st_from st with
            | Some f => if f + offset <? n_blocks then Some (copy (f + offset), temp) else None
            | None => match temp with v :: temp => Some (v, temp) | [] => None end
            end ;;
      ut <- match st_to st with
            | Some t => if t + offset <? n_blocks then Some (set_dofs dofs (t + offset) (fst vt) u, snd vt) else None
            | None => Some (u, fst vt :: snd vt)
            end ;;
      let u := match st_from st with
               | Some f => set_dofs dofs (f + offset) (fun _ => zero) (fst ut)
               | None => fst ut
               end in
      run dofs copy r (snd ut) u
  end.

(** 462-504 and 592-604: cells with the grains found there, [cache] keyed by the
    list of grains *)
Record rcell := mkRCell { c_dofs : list nat; c_grains : list nat }.
Definition key_eqb (a b : list nat) : bool := if list_eq_dec Nat.eq_dec a b then true else false.

Fixpoint cache_find (k : list nat) (c : list (list nat * list step)) : option (list step) :=
  match c with
  | [] => None
  | (k', s) :: r => if key_eqb k k' then Some s else cache_find k r
  end.

(** 495-504: remappings of the grains at the cell *)
Definition local_moves (moves : fmap remapping) (gids : list nat) : list remapping :=
  flat_map (fun gid => match mget gid moves with Some r => [r] | None => [] end) gids.

Variables (out_order in_order : nat -> nat -> list remapping -> list remapping).

(** [i]: number of the cell; the orders may be others at another cell *)
Fixpoint cell_loop (moves : fmap remapping) (copy : bvector) (i : nat) (cells : list rcell) (cache : list (list nat * list step)) (u : bvector) : option bvector :=
  match cells with
  | [] => Some u
  | c :: r =>
      match c_grains c with
      | [] => cell_loop moves copy (S i) r cache u
      | _ =>
          sc <- match cache_find (c_grains c) cache with
                | Some s => Some (s, cache)
                | None => s <- schedule (out_order i) (in_order i) (local_moves moves (c_grains c)) ;; Some (s, (c_grains c, s) :: cache)
                end ;;
          u <- run (c_dofs c) copy (fst sc) [] u ;;
          cell_loop moves copy (S i) r (snd sc) u
      end
  end.

(** 434-460: grains given by id with old and new order parameter *)
Definition grain_moves (grains : fmap (nat * nat)) : fmap remapping :=
  flat_map (fun p => if fst (snd p) =? snd (snd p) then [] else [(fst p, mkRemap (fst p) (fst (snd p)) (snd (snd p)))]) grains.

Definition remap (grains : fmap (nat * nat)) (cells : list rcell) (u : bvector) : option (bvector * nat) :=
  let moves := grain_moves grains in
  match moves with
  | [] => Some (u, 0)
  | _ => v <- cell_loop moves u 0 cells [] u ;; Some (v, length moves)
  end.
End Cells.
