(** C99: coarsened copies of the mesh. *)
From Coq Require Import NArith ZArith QArith Qabs Arith List Bool Lia.
From Verif Require Import MeshFlagsModel CoarsenModel.
Import ListNotations.
Local Open Scope nat_scope.

Section Trees.
Context {A : Type}.

Fixpoint tree_ind' (P : tree A -> Prop) (HL : forall a, P (Leaf a))
  (HN : forall l, Forall P l -> P (Node l)) (t : tree A) : P t :=
  match t with
  | Leaf a => HL a
  | Node l => HN l ((fix go l := match l return Forall P l with
                     | [] => Forall_nil P
                     | x :: r => Forall_cons x (tree_ind' P HL HN x) (go r)
                     end) l)
  end.

(** Every family has b children. *)
Fixpoint regular (b : nat) (t : tree A) : Prop :=
  match t with
  | Leaf _ => True
  | Node l => length l = b /\ (fix go l := match l with [] => True | x :: r => regular b x /\ go r end) l
  end.

Lemma regular_node : forall b l, regular b (Node l) <-> length l = b /\ Forall (regular b) l.
Proof.
  intros b l. cbn [regular]. split; intros [H1 H2]; (split; [exact H1|]); clear H1.
  - induction l as [|x l IH]; constructor; [exact (proj1 H2)|]. apply IH. exact (proj2 H2).
  - induction H2 as [|x l H H2 IH]; [exact I|]. split; assumption.
Qed.

(** The level of the active cell at a position: the position descends through the children
    with the given numbers. *)
Fixpoint level (t : tree A) (x : nat -> nat) {struct t} : nat :=
  match t with
  | Leaf _ => 0
  | Node l => (fix go l i := match l with
                             | [] => 0
                             | c :: r => match i with O => S (level c (fun j => x (S j))) | S i => go r i end
                             end) l (x 0)
  end.

Lemma level_node : forall l x, level (Node l) x
  = match nth_error l (x 0) with None => 0 | Some c => S (level c (fun j => x (S j))) end.
Proof.
  intros l x. cbn [level]. generalize (x 0). induction l as [|c l IH]; intros [|i]; cbn; auto.
Qed.

(** * Values *)
Variable restrict : list A -> A.

(** The value of a cell when everything below it is folded. *)
Fixpoint value (t : tree A) : A :=
  match t with
  | Leaf a => a
  | Node l => restrict (map value l)
  end.

(** The tree with everything below level k folded. *)
Fixpoint cut (k : nat) (t : tree A) {struct t} : tree A :=
  match t with
  | Leaf a => Leaf a
  | Node l => match k with
              | O => Leaf (restrict (map value l))
              | S k => Node (map (cut k) l)
              end
  end.

Lemma depth_child : forall (l : list (tree A)) t, In t l -> depth t <= list_max (map depth l).
Proof.
  intros l t I. assert (Forall (fun k => k <= list_max (map depth l)) (map depth l)) as F by (apply list_max_le; lia).
  rewrite Forall_forall in F. apply F. now apply in_map.
Qed.

Lemma depth_zero : forall t : tree A, depth t = 0 -> exists a, t = Leaf a.
Proof. intros [a|l] H; [now exists a|discriminate]. Qed.

Lemma leaves_all : forall l, (forall t, In t l -> depth t = 0) ->
  leaf_values l = map value l /\ map (@depth A) l = repeat 0 (length l).
Proof.
  induction l as [|t l IH]; intro H; [auto|].
  destruct (depth_zero t (H t (or_introl eq_refl))) as [a ->].
  destruct IH as [E1 E2]; [intros; apply H; now right|].
  unfold leaf_values in *. cbn [flat_map map value depth length repeat app]. now rewrite E1, E2.
Qed.

Lemma fold_level_cut : forall b D t lev, 1 <= b -> regular b t -> lev < D -> depth t <= D - lev ->
  fold_level restrict (S D) lev t = cut (D - 1 - lev) t.
Proof.
  intros b D t. induction t as [a|l IH] using tree_ind'; intros lev B R L H; [destruct (D - 1 - lev); reflexivity|].
  apply regular_node in R. destruct R as [R1 R2].
  cbn [depth] in H. cbn [fold_level cut].
  destruct (D - 1 - lev) as [|k] eqn:K.
  - assert (forall t, In t l -> depth t = 0) as Z by (intros t I; pose proof (depth_child l t I); lia).
    destruct (leaves_all l Z) as [E _]. rewrite E.
    assert (forallb (flagged (S D) lev) l = true) as ->; [|reflexivity].
    apply forallb_forall. intros t I. destruct (depth_zero t (Z t I)) as [a ->]. cbn. apply Nat.eqb_eq. lia.
  - assert (forallb (flagged (S D) lev) l = false) as ->.
    { destruct l as [|t l]; [cbn in R1; lia|]. cbn. destruct t as [a|m]; cbn; [|reflexivity].
      assert (Nat.eqb (lev + 1) D = false) as -> by (apply Nat.eqb_neq; lia). reflexivity. }
    cbn [cut]. f_equal. apply map_ext_in. intros t I. rewrite Forall_forall in IH, R2.
    rewrite (IH t I (S lev)); try lia; auto. 
    + f_equal. lia.
    + pose proof (depth_child l t I). lia.
Qed.

Lemma cut_depth : forall t k, depth (cut k t) = Nat.min k (depth t).
Proof.
  induction t as [a|l IH] using tree_ind'; intro k; [destruct k; reflexivity|].
  destruct k as [|k]; [reflexivity|]. cbn [cut depth]. rewrite map_map. rewrite <- Nat.succ_min_distr. f_equal.
  clear - IH. induction IH as [|t l H F IH]; [destruct k; reflexivity|].
  cbn [map] in *. unfold list_max in *. cbn [fold_right]. rewrite H, IH. lia.
Qed.

Lemma cut_value : forall t k, value (cut k t) = value t.
Proof.
  induction t as [a|l IH] using tree_ind'; intro k; [reflexivity|]. destruct k as [|k]; [reflexivity|].
  cbn [cut value]. f_equal. rewrite map_map. apply map_ext_in. intros t I. rewrite Forall_forall in IH. now apply IH.
Qed.

Lemma cut_cut : forall t k m, cut k (cut m t) = cut (Nat.min k m) t.
Proof.
  induction t as [a|l IH] using tree_ind'; intros k m; [destruct k, m; reflexivity|].
  destruct m as [|m]; [rewrite Nat.min_0_r; reflexivity|].
  destruct k as [|k].
  - cbn [cut Nat.min]. f_equal. f_equal. rewrite map_map. apply map_ext. intro t. apply cut_value.
  - cbn [cut Nat.min]. f_equal. rewrite map_map. apply map_ext_in. intros t I. rewrite Forall_forall in IH. now apply IH.
Qed.

Lemma cut_regular : forall b t k, regular b t -> regular b (cut k t).
Proof.
  intros b. induction t as [a|l IH] using tree_ind'; intros k R; [exact I|]. destruct k as [|k]; [exact I|].
  apply regular_node in R. destruct R as [R1 R2]. cbn [cut]. apply regular_node. split; [now rewrite map_length|].
  rewrite Forall_forall in *. intros t I. apply in_map_iff in I. destruct I as (u & <- & I). apply IH; auto.
Qed.

Lemma cut_all : forall t k, depth t <= k -> cut k t = t.
Proof.
  induction t as [a|l IH] using tree_ind'; intros k H; [reflexivity|]. cbn [depth] in H. destruct k as [|k]; [lia|].
  cbn [cut]. f_equal. rewrite <- (map_id l) at 2. apply map_ext_in. intros t I. rewrite Forall_forall in IH.
  apply IH; [exact I|]. pose proof (depth_child l t I). lia.
Qed.

Lemma cut_level : forall t k x, level (cut k t) x = Nat.min k (level t x).
Proof.
  induction t as [a|l IH] using tree_ind'; intros k x; [destruct k; reflexivity|]. destruct k as [|k]; [reflexivity|].
  cbn [cut]. rewrite !level_node, nth_error_map. destruct (nth_error l (x 0)) as [c|] eqn:E; cbn [option_map]; [|lia].
  rewrite Forall_forall in IH. rewrite IH by (eapply nth_error_In; exact E). lia.
Qed.

Definition finest (m : list (tree A)) : nat := list_max (map depth m).

Lemma finest_cut : forall m k, finest (map (cut k) m) = Nat.min k (finest m).
Proof.
  intros m k. unfold finest. rewrite map_map. induction m as [|t m IH]; [destruct k; reflexivity|].
  cbn [map] in *. unfold list_max in *. cbn [fold_right]. rewrite cut_depth, IH. lia.
Qed.

Lemma step_cut : forall b m, 1 <= b -> Forall (regular b) m ->
  coarsen_step restrict m = map (cut (finest m - 1)) m.
Proof.
  intros b m B R. unfold coarsen_step, n_levels. fold (finest m). apply map_ext_in. intros t I.
  rewrite Forall_forall in R. pose proof (depth_child m t I) as H. fold (finest m) in H.
  destruct (finest m) as [|D] eqn:F.
  - destruct (depth_zero t ltac:(lia)) as [a ->]. reflexivity.
  - rewrite (fold_level_cut b (S D) t 0); auto; try lia. f_equal. lia.
Qed.

Lemma steps_cut : forall b n m, 1 <= b -> Forall (regular b) m ->
  coarsen_steps restrict n m = map (cut (finest m - n)) m.
Proof.
  intros b. induction n as [|n IH]; intros m B R; cbn [coarsen_steps].
  - rewrite <- (map_id m) at 1. apply map_ext_in. intros t I. symmetry. apply cut_all.
    pose proof (depth_child m t I) as H. fold (finest m) in H. lia.
  - rewrite (step_cut b) by assumption. rewrite IH; [|exact B|].
    + rewrite finest_cut, map_map. apply map_ext. intro t. rewrite cut_cut. f_equal. lia.
    + rewrite Forall_forall in *. intros t I. apply in_map_iff in I. destruct I as (u & <- & I). apply cut_regular. auto.
Qed.

(** C99: n steps of coarsening cut the mesh n levels below its finest one: a position whose
    active cell is coarser than that keeps its cell, every other one gets the ancestor of that
    level, and no coarse cell is lost. *)
Theorem C99_levels : forall b n m, 1 <= b -> Forall (regular b) m ->
  length (coarsen_steps restrict n m) = length m
  /\ n_levels (coarsen_steps restrict n m) = S (n_levels m - 1 - n)
  /\ forall i t, nth_error m i = Some t ->
       exists t', nth_error (coarsen_steps restrict n m) i = Some t'
         /\ regular b t'
         /\ value t' = value t
         /\ forall x, level t' x = Nat.min (n_levels m - 1 - n) (level t x).
Proof.
  intros b n m B R. rewrite (steps_cut b) by assumption. split; [apply map_length|]. split.
  - unfold n_levels. fold (finest m). fold (finest (map (cut (finest m - n)) m)). rewrite finest_cut. lia.
  - intros i t E. rewrite nth_error_map, E. cbn [option_map]. eexists. split; [reflexivity|].
    assert (In t m) as I by (eapply nth_error_In; exact E). rewrite Forall_forall in R.
    split; [apply cut_regular; auto|]. split; [apply cut_value|]. intro x. rewrite cut_level.
    unfold n_levels. fold (finest m). f_equal. lia.
Qed.

(** C99: a position whose cell is not finer than the new finest level keeps its cell together
    with its values. *)
Fixpoint cell_at (t : tree A) (x : nat -> nat) {struct t} : option A :=
  match t with
  | Leaf a => Some a
  | Node l => (fix go l i := match l with
                             | [] => None
                             | c :: r => match i with O => cell_at c (fun j => x (S j)) | S i => go r i end
                             end) l (x 0)
  end.

Lemma cell_at_node : forall l x, cell_at (Node l) x
  = match nth_error l (x 0) with None => None | Some c => cell_at c (fun j => x (S j)) end.
Proof.
  intros l x. cbn [cell_at]. generalize (x 0). induction l as [|c l IH]; intros [|i]; cbn; auto.
Qed.

Lemma cut_cell : forall t k x, level t x <= k -> (exists a, cell_at t x = Some a) -> cell_at (cut k t) x = cell_at t x.
Proof.
  induction t as [a|l IH] using tree_ind'; intros k x H E; [reflexivity|].
  rewrite level_node in H. rewrite cell_at_node in E |- *.
  destruct (nth_error l (x 0)) as [c|] eqn:F; [|destruct E; discriminate].
  destruct k as [|k]; [lia|]. cbn [cut]. rewrite cell_at_node, nth_error_map, F. cbn [option_map].
  rewrite Forall_forall in IH. apply IH; [eapply nth_error_In; exact F|lia|exact E].
Qed.

Theorem C99_kept : forall b n m, 1 <= b -> Forall (regular b) m ->
  forall i t x a, nth_error m i = Some t -> cell_at t x = Some a -> level t x <= n_levels m - 1 - n ->
  exists t', nth_error (coarsen_steps restrict n m) i = Some t' /\ cell_at t' x = Some a.
Proof.
  intros b n m B R i t x a E C H. rewrite (steps_cut b) by assumption. rewrite nth_error_map, E. cbn [option_map].
  eexists. split; [reflexivity|]. rewrite cut_cell; eauto. unfold n_levels in H. fold (finest m) in H. lia.
Qed.

(** C99: whatever positions count as neighbours, if the levels of neighbours differ by at most
    one before the coarsening then also afterwards: the mesh needs no further refinement. *)
Theorem C99_graded : forall b n m (adjacent : nat * (nat -> nat) -> nat * (nat -> nat) -> Prop),
  1 <= b -> Forall (regular b) m ->
  (forall i j x y t u, adjacent (i, x) (j, y) -> nth_error m i = Some t -> nth_error m j = Some u ->
     level t x <= level u y + 1) ->
  forall i j x y t u, adjacent (i, x) (j, y) ->
    nth_error (coarsen_steps restrict n m) i = Some t -> nth_error (coarsen_steps restrict n m) j = Some u ->
    level t x <= level u y + 1.
Proof.
  intros b n m adj B R H i j x y t u Hadj Ht Hu. rewrite (steps_cut b) in Ht, Hu by assumption.
  rewrite nth_error_map in Ht, Hu.
  destruct (nth_error m i) as [t0|] eqn:Et; [|discriminate]. destruct (nth_error m j) as [u0|] eqn:Eu; [|discriminate].
  cbn [option_map] in Ht, Hu. injection Ht as <-. injection Hu as <-. rewrite !cut_level.
  specialize (H i j x y t0 u0 Hadj Et Eu). lia.
Qed.

(** C99: the steps of different calls add up. *)
Theorem C99_steps_add : forall n k m, coarsen_steps restrict (n + k) m = coarsen_steps restrict k (coarsen_steps restrict n m).
Proof. induction n as [|n IH]; intros k m; [reflexivity|]. cbn [Nat.add coarsen_steps]. apply IH. Qed.

(** C99: with as many steps as levels the coarse mesh remains. *)
Theorem C99_coarse : forall b n m, 1 <= b -> Forall (regular b) m -> n_levels m - 1 <= n ->
  coarsen_steps restrict n m = map (fun t => Leaf (value t)) m.
Proof.
  intros b n m B R H. rewrite (steps_cut b) by assumption. unfold n_levels in H. fold (finest m) in H.
  replace (finest m - n) with 0 by lia. apply map_ext. intros [a|l]; reflexivity.
Qed.

(** * Shrinking one block's mesh *)

Lemma n_active_pos : forall b t, 1 <= b -> regular b t -> 1 <= n_active t.
Proof.
  intros b t B. induction t as [a|l IH] using tree_ind'; intro R; [cbn; lia|].
  apply regular_node in R. destruct R as [R1 R2]. destruct l as [|t l]; [cbn in R1; lia|].
  cbn [n_active map]. change (list_sum (n_active t :: map n_active l)) with (n_active t + list_sum (map n_active l)).
  inversion IH; inversion R2; subst. assert (1 <= n_active t) by auto. lia.
Qed.

Lemma shrink_facts : forall b small t t', 2 <= b -> regular b t -> shrink restrict small t t' ->
  regular b t' /\ n_active t' <= n_active t /\ (n_active t' = n_active t -> t' = t).
Proof.
  intros b small t. induction t as [a|l IH] using tree_ind'; intros t' B R S; inversion S as [|? F|? l' F]; subst.
  - cbn. auto.
  - apply regular_node in R. destruct R as [R1 R2]. split; [exact I|].
    assert (length l <= n_active (Node l)) as N.
    { cbn [n_active]. clear - R2 B. induction R2 as [|t l H R2 IH]; [cbn; lia|].
      cbn [map length]. change (list_sum (n_active t :: map n_active l)) with (n_active t + list_sum (map n_active l)).
      pose proof (n_active_pos b t ltac:(lia) H). lia. }
    split; [cbn [n_active] in N |- *; lia|]. intro E. cbn [n_active] in E, N. lia.
  - apply regular_node in R. destruct R as [R1 R2].
    enough (Forall (regular b) l' /\ n_active (Node l') <= n_active (Node l) /\ (n_active (Node l') = n_active (Node l) -> l' = l) /\ length l' = length l) as (E1 & E2 & E3 & E4).
    { split; [apply regular_node; split; [congruence|exact E1]|]. split; [exact E2|]. intro E. f_equal. auto. }
    clear R1 S. cbn [n_active].
    revert IH R2. induction F as [|x y l l' H F IHF]; intros IH R2; [cbn; auto|].
    inversion IH as [|? ? IHx IHl]; subst. inversion R2 as [|? ? Rx Rl]; subst.
    destruct (IHF IHl Rl) as (E1 & E2 & E3 & E4). destruct (IHx y B Rx H) as (X1 & X2 & X3).
    cbn [map length]. 
    change (list_sum (n_active y :: map n_active l')) with (n_active y + list_sum (map n_active l')).
    change (list_sum (n_active x :: map n_active l)) with (n_active x + list_sum (map n_active l)).
    split; [constructor; assumption|]. split; [lia|]. split; [|lia].
    intro E. f_equal; [apply X3|apply E3]; lia.
Qed.

Lemma shrink_mesh : forall b small m m', 2 <= b -> Forall (regular b) m -> Forall2 (shrink restrict small) m m' ->
  Forall (regular b) m' /\ n_cells m' <= n_cells m /\ (n_cells m' = n_cells m -> m' = m) /\ length m' = length m /\ length m' <= n_cells m'.
Proof.
  intros b small m m' B R F. unfold n_cells. revert R. induction F as [|x y l l' H F IH]; intro R; [cbn; auto 6|].
  inversion R as [|? ? Rx Rl]; subst. destruct (IH Rl) as (E1 & E2 & E3 & E4 & E5).
  destruct (shrink_facts b small x y B Rx H) as (X1 & X2 & X3). pose proof (n_active_pos b y ltac:(lia) X1).
  cbn [map length].
  change (list_sum (n_active y :: map n_active l')) with (n_active y + list_sum (map n_active l')).
  change (list_sum (n_active x :: map n_active l)) with (n_active x + list_sum (map n_active l)).
  split; [constructor; assumption|]. split; [lia|]. split; [|split; lia].
  intro E. f_equal; [apply X3|apply E3]; lia.
Qed.

(** A sequence of meshes made by the passes of the loop. *)
Definition shrinking (small : A -> bool) (meshes : nat -> list (tree A)) : Prop :=
  forall i, Forall2 (shrink restrict small) (meshes i) (meshes (S i)).

Definition counts_of (meshes : nat -> list (tree A)) (i : nat) : N := N.of_nat (n_cells (meshes i)).

Lemma shrinking_facts : forall b small meshes, 2 <= b -> Forall (regular b) (meshes 0) -> shrinking small meshes ->
  forall i, Forall (regular b) (meshes i) /\ n_cells (meshes i) <= n_cells (meshes 0)
    /\ length (meshes i) = length (meshes 0) /\ length (meshes i) <= n_cells (meshes i).
Proof.
  intros b small meshes B R S. induction i as [|i (E1 & E2 & E3 & E4)].
  - split; [exact R|]. split; [lia|]. split; [reflexivity|].
    unfold n_cells. clear S. induction R as [|t l H R IH]; [cbn; lia|].
    cbn [map length]. change (list_sum (n_active t :: map n_active l)) with (n_active t + list_sum (map n_active l)).
    pose proof (n_active_pos b t ltac:(lia) H). lia.
  - destruct (shrink_mesh b small _ _ B E1 (S i)) as (F1 & F2 & F3 & F4 & F5).
    split; [exact F1|]. split; [lia|]. split; [congruence|exact F5].
Qed.

(** C99: however deal.II keeps or folds the families it may fold, the loop for a block ends
    after at most as many passes as there are cells, when the mesh has less than 2^32 cells;
    the last pass has left the mesh as it was, and no pass has added cells. *)
Theorem C99_terminates : forall b small meshes, 2 <= b -> Forall (regular b) (meshes 0) -> shrinking small meshes ->
  (N.of_nat (n_cells (meshes 0%nat)) < 2 ^ 32)%N ->
  exists i, reduce (S (n_cells (meshes 0))) (counts_of meshes) = Some (S i)
    /\ i <= n_cells (meshes 0) /\ meshes (S i) = meshes i /\ n_cells (meshes (S i)) <= n_cells (meshes 0)
    /\ length (meshes 0) <= n_cells (meshes (S i)).
Proof.
  intros b small meshes B R Sh W.
  pose proof (shrinking_facts b small meshes B R Sh) as F.
  assert (forall i, u32 (counts_of meshes i) = counts_of meshes i) as U.
  { intro i. unfold u32, counts_of. apply N.mod_small. destruct (F i) as (_ & H & _). lia. }
  unfold reduce. rewrite U.
  enough (forall fuel i, n_cells (meshes i) < fuel ->
    exists j, passes fuel (counts_of meshes) i (counts_of meshes i) = Some (1 + j) /\ i <= j /\ j < i + fuel /\ meshes (1 + j) = meshes j) as H.
  { destruct (H (1 + n_cells (meshes 0)) 0 ltac:(lia)) as (j & E & _ & L & M).
    exists j. split; [exact E|]. split; [lia|]. split; [exact M|]. destruct (F (1 + j)) as (_ & G & G' & G'').
    cbn [Nat.add] in *. split; [exact G|lia]. }
  induction fuel as [|fuel IH]; intros i H; [lia|]. cbn [passes]. rewrite U.
  destruct (F i) as (Ri & _). destruct (shrink_mesh b small _ _ B Ri (Sh i)) as (_ & F2 & F3 & _).
  destruct (N.eqb_spec (counts_of meshes i) (counts_of meshes (S i))) as [E|E].
  - exists i. split; [reflexivity|]. split; [lia|]. split; [lia|]. apply F3. unfold counts_of in E. cbn [Nat.add] in E. lia.
  - assert (n_cells (meshes (1 + i)) < n_cells (meshes i)) as L.
    { unfold counts_of in E. cbn [Nat.add] in *. lia. }
    destruct (IH (1 + i)) as (j & P & J1 & J2 & M); [lia|]. exists j. split; [exact P|]. split; [lia|]. split; [lia|exact M].
Qed.

End Trees.

(** * Linear elements *)

(** C99: with linear elements a folded cell has at its vertex v the value the mesh had there:
    the one at vertex v of the active cell found by descending through child v. *)
Fixpoint corner (t : tree (list Q)) (v : nat) {struct t} : list Q :=
  match t with
  | Leaf a => a
  | Node l => (fix go l i := match l with
                             | [] => []
                             | c :: r => match i with O => corner c v | S i => go r i end
                             end) l v
  end.

Lemma corner_node : forall l v, corner (Node l) v = nth v (map (fun c => corner c v) l) [].
Proof.
  intros l v. cbn [corner].
  assert (forall i, (fix go l i := match l with [] => [] | c :: r => match i with O => corner c v | S i => go r i end end) l i
    = nth i (map (fun c => corner c v) l) []) as H.
  { induction l as [|c l IH]; intros [|i]; cbn [map nth]; auto. }
  apply H.
Qed.

Lemma nth_map_seq : forall {X} (f : nat -> X) n v d, v < n -> nth v (map f (seq 0 n)) d = f v.
Proof.
  intros X f n v d H. rewrite (nth_indep _ d (f 0)) by (rewrite map_length, seq_length; exact H).
  rewrite map_nth, seq_nth by exact H. reflexivity.
Qed.

Theorem C99_vertices : forall b t v, regular b t -> v < b ->
  nth v (value (vertices b) t) 0%Q = nth v (corner t v) 0%Q.
Proof.
  intros b t v. induction t as [a|l IH] using tree_ind'; intros R V; [reflexivity|].
  apply regular_node in R. destruct R as [R1 R2]. rewrite corner_node. cbn [value]. unfold vertices.
  rewrite nth_map_seq by exact V.
  destruct (nth_error l v) as [c|] eqn:E.
  - assert (In c l) as I by (eapply nth_error_In; exact E).
    assert (forall {B} (f : tree (list Q) -> B) d, nth v (map f l) d = f c) as N.
    { intros C f d. erewrite nth_error_nth; [reflexivity|]. rewrite nth_error_map, E. reflexivity. }
    rewrite !N. rewrite Forall_forall in IH, R2. apply IH; auto.
  - apply nth_error_None in E. lia.
Qed.

(** C99: the values that are not at vertices of the coarsened cells are lost: a pore or a grain
    may vanish from the coarsened copy although it fills whole cells of the mesh. *)
Theorem C99_lost_refuted : exists m : list (tree (list Q)),
  Forall (regular 2) m
  /\ (exists t x a, In t m /\ cell_at t x = Some a /\ a = [1; 1]%Q)
  /\ forall t x a, In t (coarsen_steps (vertices 2) 2 m) -> cell_at t x = Some a -> a = [0; 0]%Q.
Proof.
  exists [Node [Node [Leaf [0; 0]%Q; Leaf [0; 1]%Q]; Node [Leaf [1; 1]%Q; Leaf [1; 0]%Q]]].
  split; [repeat constructor|]. split.
  - eexists _, (fun i => if Nat.eqb i 0 then 1 else 0), _. split; [now left|]. split; reflexivity.
  - intros t x a H E. vm_compute in H. destruct H as [<-|[]]. cbn in E. injection E as <-. reflexivity.
Qed.

(** Small are the cells whose values all lie within a twentieth of zero. *)
Theorem C99_small : forall v, is_small v = true <-> (forall x, In x v -> (-(1 # 20) <= x <= 1 # 20)%Q).
Proof.
  intros v. unfold is_small. rewrite forallb_forall. split; intros H x I; specialize (H x I).
  - apply Qle_bool_iff in H. apply Qabs_Qle_condition in H. destruct H as [H1 H2]. split; [eapply Qle_trans; [ | exact H1] | eapply Qle_trans; [exact H2 | ]]; discriminate.
  - apply Qle_bool_iff. apply Qabs_Qle_condition. destruct H as [H1 H2]. split; [eapply Qle_trans; [ | exact H1] | eapply Qle_trans; [exact H2 | ]]; discriminate.
Qed.
Print Assumptions C99_small.

(** Small values stay small under folding: what was flagged may be flagged again on the next
    level. *)
Theorem C99_small_again : forall b l, length l = b -> (forall a, In a l -> length a = b /\ is_small a = true) ->
  is_small (vertices b l) = true.
Proof.
  intros b l L H. unfold is_small, vertices. apply forallb_forall. intros x I. apply in_map_iff in I.
  destruct I as (v & <- & I). apply in_seq in I.
  destruct (H (nth v l [])) as [L' S']; [apply nth_In; lia|].
  unfold is_small in S'. rewrite forallb_forall in S'. apply S'. apply nth_In. lia.
Qed.

(** C99 fails for huge meshes: n_active_cells is 32 bits wide, so a mesh that keeps 2^32 or more
    cells is never recognised as unchanged. *)
Theorem C99_terminates_refuted : forall n fuel, (2 ^ 32 <= n)%N -> reduce fuel (fun _ => n) = None.
Proof.
  intros n fuel H. unfold reduce.
  enough (forall i, passes fuel (fun _ => n) i (u32 n) = None) by auto.
  induction fuel as [|fuel IH]; intro i; [reflexivity|]. cbn [passes].
  assert (u32 n < 2 ^ 32)%N as U by (apply N.mod_lt; discriminate).
  destruct (N.eqb_spec (u32 n) n) as [E|E]; [lia|]. apply IH.
Qed.

(** * The estimate *)

(** C99: the overhead is the whole percentage by which the unknowns on the common mesh exceed
    those on meshes of their own, two blocks staying on the common mesh; it is never negative
    and vanishes when no mesh could be coarsened. [n1] lists the cells of the reduced meshes. *)
Theorem C99_overhead : forall n0 (n1 : list Z), (0 < n0)%Z -> Forall (fun n => (0 < n <= n0)%Z) n1 ->
  let nb := (Z.of_nat (length n1) + 2)%Z in
  let own := (fold_right Z.add 0 n1 + 2 * n0)%Z in
  let p := overhead n0 nb (fold_right Z.add 0%Z n1) in
  (0 <= p)%Z
  /\ ((100 + p) * own <= 100 * (n0 * nb) < (101 + p) * own)%Z
  /\ (Forall (fun n => n = n0) n1 -> p = 0%Z).
Proof.
  intros n0 n1 H0 F. cbv zeta. unfold overhead.
  set (s := fold_right Z.add 0%Z n1). set (k := Z.of_nat (length n1)).
  assert (0 <= s <= k * n0)%Z as B.
  { subst s k. induction F as [|x l X F IH]; [cbn; lia|]. cbn [fold_right length]. nia. }
  assert (Z.quot (n0 * (k + 2) * 100) (s + 2 * n0) = (n0 * (k + 2) * 100) / (s + 2 * n0))%Z as Q.
  { apply Z.quot_div_nonneg; nia. }
  rewrite Q. set (q := ((n0 * (k + 2) * 100) / (s + 2 * n0))%Z).
  assert (s + 2 * n0 > 0)%Z as P by lia.
  pose proof (Z.mul_div_le (n0 * (k + 2) * 100) (s + 2 * n0) ltac:(lia)) as D1.
  pose proof (Z.mul_succ_div_gt (n0 * (k + 2) * 100) (s + 2 * n0) ltac:(lia)) as D2. fold q in D1, D2.
  assert (100 <= q)%Z as Q1. { apply Z.div_le_lower_bound; nia. }
  split; [lia|]. split; [split; nia|]. intro E.
  assert (s = k * n0)%Z as ->.
  { subst s k. clear - E. induction E as [|x l X E IH]; [cbn; lia|]. cbn [fold_right length]. nia. }
  subst q. replace (k * n0 + 2 * n0)%Z with (n0 * (k + 2))%Z by ring.
  rewrite Z.mul_comm, Z.div_mul; [reflexivity|]. nia.
Qed.

(** * Grains per cell *)

Lemma bump_length : forall h i, length (bump h i) = length h.
Proof. induction h as [|x h IH]; intros [|i]; cbn; auto. Qed.

Lemma bump_nth : forall h i j, i < length h -> nth j (bump h i) 0 = nth j h 0 + (if Nat.eqb j i then 1 else 0).
Proof.
  induction h as [|x h IH]; intros i j H; [cbn in H; lia|].
  destruct i as [|i], j as [|j]; cbn [bump nth Nat.eqb]; try lia. apply IH. cbn in H. lia.
Qed.

Lemma local_counts_facts : forall n c h, (forall i, In i c -> i <= n) -> length h = n ->
  let h' := fold_left (fun h i => match i with O => h | S j => bump h j end) c h in
  length h' = n /\ forall j, nth j h' 0 = nth j h 0 + length (filter (Nat.eqb (S j)) c).
Proof.
  intros n. induction c as [|i c IH]; intros h H L; cbn [fold_left]; [split; [exact L|intro; cbn; lia]|].
  assert (forall i, In i c -> i <= n) as H' by (intros; apply H; now right).
  destruct i as [|i].
  - destruct (IH h H' L) as [E1 E2]. split; [exact E1|]. intro j. rewrite E2. cbn [filter Nat.eqb]. reflexivity.
  - destruct (IH (bump h i) H') as [E1 E2]; [now rewrite bump_length|]. split; [exact E1|].
    intro j. rewrite E2, bump_nth by (specialize (H (S i) (or_introl eq_refl)); lia).
    cbn [filter]. change (Nat.eqb (S j) (S i)) with (Nat.eqb j i). destruct (Nat.eqb j i); cbn [length]; lia.
Qed.

Lemma add_nth : forall a b j, length a = length b -> nth j (add a b) 0 = nth j a 0 + nth j b 0 /\ length (add a b) = length a.
Proof.
  induction a as [|x a IH]; intros [|y b] j H; cbn in H; try discriminate.
  - destruct j; cbn; auto.
  - destruct (IH b (pred j) ltac:(lia)) as [E1 E2]. cbn [add length]. split; [|lia].
    destruct j as [|j]; [reflexivity|]. exact E1.
Qed.

(** C99: the numbers printed are, for every k from one to the largest number of grains in a cell
    of any rank, how many cells of all ranks carry k grains; nothing is left out. *)
Theorem C99_histogram : forall ranks,
  length (histogram ranks) = list_max (concat ranks)
  /\ (forall k, nth k (histogram ranks) 0 = length (filter (Nat.eqb (S k)) (concat ranks)))
  /\ list_sum (histogram ranks) = length (filter (fun c => negb (Nat.eqb c 0)) (concat ranks)).
Proof.
  intro ranks. unfold histogram.
  assert (list_max (map list_max ranks) = list_max (concat ranks)) as M.
  { induction ranks as [|r ranks IH]; [reflexivity|]. cbn [map concat]. rewrite list_max_app, <- IH. reflexivity. }
  rewrite M. set (n := list_max (concat ranks)).
  assert (forall i, In i (concat ranks) -> i <= n) as B.
  { intros i I. assert (Forall (fun k => k <= n) (concat ranks)) as F by (apply list_max_le; subst n; lia).
    rewrite Forall_forall in F. auto. }
  clearbody n. clear M.
  assert (forall rs, (forall i, In i (concat rs) -> i <= n) ->
    let h := fold_right (fun c h => add (local_counts n c) h) (repeat 0 n) rs in
    length h = n /\ forall k, nth k h 0 = length (filter (Nat.eqb (S k)) (concat rs))) as G.
  { induction rs as [|r rs IH]; intro H; cbn [fold_right concat].
    - split; [apply repeat_length|]. intro k. cbn. apply nth_repeat.
    - destruct IH as [E1 E2]; [intros; apply H; cbn [concat]; apply in_app_iff; now right|].
      destruct (local_counts_facts n r (repeat 0 n)) as [F1 F2];
        [intros; apply H; cbn [concat]; apply in_app_iff; now left|apply repeat_length|].
      fold (local_counts n r) in F1, F2.
      assert (length (local_counts n r) = length (fold_right (fun c h => add (local_counts n c) h) (repeat 0 n) rs)) as L by congruence.
      split; [rewrite (proj2 (add_nth _ _ 0 L)); exact F1|]. intro k.
      rewrite (proj1 (add_nth _ _ k L)), E2, F2, nth_repeat, filter_app, app_length. reflexivity. }
  destruct (G ranks B) as [E1 E2]. cbv zeta in E1, E2.
  split; [exact E1|]. split; [exact E2|].
  set (h := fold_right _ _ _) in *.
  assert (list_sum h = list_sum (map (fun k => length (filter (Nat.eqb (S k)) (concat ranks))) (seq 0 n))) as ->.
  { f_equal. apply nth_ext with (d := 0) (d' := length (filter (Nat.eqb 1) (concat ranks))).
    - now rewrite map_length, seq_length.
    - intros k K. rewrite E2. rewrite nth_map_seq by lia. reflexivity. }
  clear - B. revert B. generalize (concat ranks) as c. induction c as [|x c IH]; intro B.
  - cbn. induction (seq 0 n); cbn; auto.
  - assert (list_sum (map (fun k => length (filter (Nat.eqb (S k)) (x :: c))) (seq 0 n))
      = list_sum (map (fun k => length (filter (Nat.eqb (S k)) c)) (seq 0 n)) + (if Nat.eqb x 0 then 0 else 1)) as ->.
    { assert (x <= n) as X by (apply B; now left).
      assert (forall m a, list_sum (map (fun k => length (filter (Nat.eqb (S k)) (x :: c))) (seq a m))
        = list_sum (map (fun k => length (filter (Nat.eqb (S k)) c)) (seq a m)) + (if (Nat.ltb a x && Nat.leb x (a + m))%bool then 1 else 0)) as T.
      { induction m as [|m IHm]; intro a.
        - cbn [seq map]. destruct (Nat.ltb_spec a x), (Nat.leb_spec x (a + 0)); cbn [andb]; lia.
        - cbn [seq map]. assert (forall y l, list_sum (y :: l) = y + list_sum l) as C by reflexivity. rewrite !C, IHm.
          cbn [filter]. destruct (Nat.eqb_spec (S a) x); cbn [length];
          destruct (Nat.ltb_spec a x), (Nat.leb_spec x (a + S m)), (Nat.ltb_spec (S a) x), (Nat.leb_spec x (S a + m)); cbn [andb]; lia. }
      rewrite T. cbn [Nat.add]. destruct (Nat.eqb_spec x 0), (Nat.ltb_spec 0 x), (Nat.leb_spec x n); cbn [andb]; lia. }
    rewrite IH by (intros; apply B; now right). cbn [filter]. destruct (Nat.eqb x 0); cbn [negb length]; lia.
Qed.

(** C99 fails when no cell carries a grain: the first number printed is read from an empty
    vector; and only then. *)
Theorem C99_histogram_refuted : forall ranks,
  first_printed (histogram ranks) = None <-> (forall c, In c (concat ranks) -> c = 0).
Proof.
  intro ranks. destruct (C99_histogram ranks) as (L & _). unfold first_printed. rewrite nth_error_None, L. split.
  - intros H c I. assert (Forall (fun k => k <= 0) (concat ranks)) as F by (apply list_max_le; lia).
    rewrite Forall_forall in F. specialize (F c I). lia.
  - intro H. apply list_max_le. apply Forall_forall. intros c I. rewrite (H c I). lia.
Qed.

(** C99: the counter of a cell is at most the number of blocks behind the first two... *)
Theorem C99_counter : forall cell, counter cell <= length cell - 2.
Proof.
  intro cell. unfold counter. rewrite <- skipn_length.
  induction (skipn 2 cell) as [|x l IH]; [cbn; lia|]. cbn [filter length]. destruct (negb _); cbn [length]; lia.
Qed.

(** ... but these are not all order parameters: the displacements of the coupled operators are
    blocks of the same vector, so that one grain can count as several. *)
Theorem C99_counter_refuted : forall n_grains dim, 1 <= n_grains -> 1 <= dim ->
  exists cell, length cell = 2 + n_grains + dim /\ counter cell > n_grains.
Proof.
  intros g d G D. exists (repeat 1%Q (2 + g + d)). split; [apply repeat_length|].
  unfold counter. cbn [Nat.add repeat skipn].
  assert (forall n, filter (fun v => negb (Qle_bool v (1 # 100))) (repeat 1%Q n) = repeat 1%Q n) as E.
  { induction n as [|n IH]; [reflexivity|]. cbn [repeat filter]. rewrite IH. reflexivity. }
  rewrite E, repeat_length. lia.
Qed.

(** * Concrete cases *)

(** A coarse cell refined once, its second child refined again, in one dimension. *)
Definition mesh : list (tree (list Q)) :=
  [Node [Leaf [0; 1]%Q; Node [Leaf [1; 2]%Q; Leaf [2; 3]%Q]]; Leaf [3; 4]%Q].

Example C99_applies :
  Forall (regular 2) mesh
  /\ n_levels mesh = 3
  /\ coarsen_triangulation (vertices 2) 1 mesh = Some [Node [Leaf [0; 1]%Q; Leaf [1; 3]%Q]; Leaf [3; 4]%Q]
  /\ coarsen_triangulation (vertices 2) 5 mesh = Some [Leaf [0; 3]%Q; Leaf [3; 4]%Q]
  /\ shrinking (vertices 2) is_small (fun _ => mesh)
  /\ overhead 100 5 (40 + 60 + 20)%Z = 56%Z
  /\ histogram [[0; 1; 2; 1]; [3; 0; 1]] = [3; 1; 1].
Proof.
  split; [repeat constructor|]. split; [reflexivity|]. split; [reflexivity|]. split; [reflexivity|].
  split; [|split; reflexivity]. intro i. repeat constructor.
Qed.

Print Assumptions C99_levels.
Print Assumptions C99_kept.
Print Assumptions C99_graded.
Print Assumptions C99_steps_add.
Print Assumptions C99_coarse.
Print Assumptions C99_terminates.
Print Assumptions C99_vertices.
Print Assumptions C99_lost_refuted.
Print Assumptions C99_small_again.
Print Assumptions C99_terminates_refuted.
Print Assumptions C99_overhead.
Print Assumptions C99_histogram.
Print Assumptions C99_histogram_refuted.
Print Assumptions C99_counter.
Print Assumptions C99_counter_refuted.
