(** C79: preconditioners made of small inverse matrices. *)
From Coq Require Import List Reals Arith Bool Lia Lra Permutation Sorted.
From Verif Require Import Util OperatorModel OperatorProps AssembleModel AssembleProps SchwarzModel.
Import ListNotations.
Local Open Scope R_scope.

(** ** Rows *)
Definition columns_ok (r : row) : Prop := NoDup (map fst r).
Lemma insert_In : forall e r x, In x (insert_entry e r) <-> x = e \/ In x r.
Proof.
  intros e r x. induction r as [|f r IH]; cbn [insert_entry In]; [ intuition | ].
  destruct (Nat.ltb (fst f) (fst e)); cbn [In]; [ rewrite IH | ]; intuition.
Qed.
Lemma sort_In : forall r x, In x (sort_row r) <-> In x r.
Proof. induction r as [|e r IH]; intros x; [ reflexivity | ]. cbn [sort_row fold_right]. fold (sort_row r). rewrite insert_In, IH. cbn. intuition. Qed.
Inductive increasing : row -> Prop := inc_nil : increasing [] | inc_cons : forall e r, (forall f, In f r -> (fst e <= fst f)%nat) -> increasing r -> increasing (e :: r).
Lemma insert_increasing : forall e r, increasing r -> increasing (insert_entry e r).
Proof.
  intros e r H. induction H as [|f r A H IH]; cbn [insert_entry]; [ constructor; [ intros f [] | constructor ] | ].
  destruct (Nat.ltb (fst f) (fst e)) eqn:E.
  - apply Nat.ltb_lt in E. constructor; [ | exact IH ]. intros x Hx. apply insert_In in Hx. destruct Hx as [-> | Hx]; [ lia | auto ].
  - apply Nat.ltb_ge in E. constructor; [ | constructor; assumption ]. intros x [<- | Hx]; [ exact E | ]. specialize (A x Hx). lia.
Qed.
Lemma sort_increasing : forall r, increasing (sort_row r).
Proof. induction r as [|e r IH]; [ constructor | ]. cbn. apply insert_increasing. exact IH. Qed.
Lemma bound_found : forall r j v, increasing r -> In (j, v) r -> (forall w, In (j, w) r -> w = v) -> lower_bound r j = Some (j, v).
Proof.
  intros r j v H. induction H as [|e r A H IH]; intros I U; [ contradiction | ]. cbn [lower_bound]. destruct e as [c w]. cbn [fst] in *. destruct (Nat.ltb c j) eqn:E.
  - apply Nat.ltb_lt in E. destruct I as [I | I]; [ injection I as -> _; lia | ]. apply IH; [ exact I | ]. intros u Hu. apply U. right. exact Hu.
  - apply Nat.ltb_ge in E. destruct I as [I | I]; [ injection I as -> ->; reflexivity | ]. specialize (A _ I). cbn in A. assert (c = j) by lia. subst. f_equal. f_equal. apply U. left. reflexivity.
Qed.
Lemma unique_value : forall r j v w, columns_ok r -> In (j, v) r -> In (j, w) r -> v = w.
Proof.
  induction r as [|e r IH]; intros j v w N I J; [ contradiction | ]. inversion_clear N as [|? ? A B]. destruct I as [-> | I], J as [E | J].
  - injection E as <-. reflexivity.
  - exfalso. apply A. cbn. apply (in_map fst) in J. exact J.
  - subst e. exfalso. apply A. cbn. apply (in_map fst) in I. exact I.
  - exact (IH j v w B I J).
Qed.
Lemma stored_found : forall r j v, columns_ok r -> In (j, v) r -> stored_entry r j = v.
Proof.
  intros r j v N I. unfold stored_entry. destruct (find (fun e => Nat.eqb (fst e) j) r) as [[c w]|] eqn:E.
  - apply find_some in E. destruct E as [E F]. apply Nat.eqb_eq in F. cbn in *. subst. eapply unique_value; eauto.
  - exfalso. pose proof (find_none _ _ E _ I) as F. cbn in F. rewrite Nat.eqb_refl in F. discriminate.
Qed.
Lemma received_found : forall r j v, columns_ok r -> In (j, v) r -> received_entry r j = Some v.
Proof.
  intros r j v N I. unfold received_entry. rewrite (bound_found (sort_row r) j v); [ reflexivity | apply sort_increasing | apply sort_In; exact I | ].
  intros w J. apply (proj1 (sort_In _ _)) in J. exact (unique_value r j w v N J I).
Qed.

(** C79: if the entries of a cell are all stored, its matrix is the same on every process,
    whatever rows that process owns and in whatever order the entries are stored: it is the
    part of the matrix that belongs to the cell. *)
Theorem C79_partition : forall rows owned dofs E dpc k l,
  (forall g, columns_ok (rows g)) -> (forall k l, (k < dpc)%nat -> (l < dpc)%nat -> In (dofs l, E (dofs k) (dofs l)) (rows (dofs k))) ->
  (k < dpc)%nat -> (l < dpc)%nat -> cell_block rows owned dofs k l = Some (E (dofs k) (dofs l)).
Proof.
  intros rows owned dofs E dpc k l N H Lk Ll. unfold cell_block. destruct (owned (dofs k)); [ rewrite (stored_found _ _ (E (dofs k) (dofs l))) | rewrite (received_found _ _ (E (dofs k) (dofs l))) ]; auto.
Qed.
Print Assumptions C79_partition.

(** C79 refuted: without the entry (0,1) in the pattern - the case of two entries of a cell
    whose shape functions share no point (C77_mask_example) - the process with the row has a
    zero, another process the value of the next column, or reads beyond the end. *)
Theorem C79_partition_refuted : exists rows owned owned' dofs a b,
  (forall g, columns_ok (rows g)) /\ cell_block rows owned dofs 0 1 = Some a /\ cell_block rows owned' dofs 0 1 = Some b /\ a <> b /\
  cell_block rows owned' dofs 1 2 = None /\ cell_block rows owned dofs 1 2 = Some 0.
Proof.
  exists (fun g => match g with 0%nat => [(0%nat, 4); (2%nat, -1)] | 1%nat => [(1%nat, 4)] | _ => [(0%nat, -1); (2%nat, 4)] end), (fun _ => true), (fun _ => false), (fun k => k), 0, (-1).
  split; [ intros g; unfold columns_ok; destruct g as [|[|g]]; cbn; repeat constructor; cbn; intuition lia | ].
  repeat split; cbn; try reflexivity. lra.
Qed.
Print Assumptions C79_partition_refuted.

(** ** Sums *)
Lemma csum_ext : forall cells f g, (forall c, In c cells -> f c = g c) -> csum cells f = csum cells g.
Proof. induction cells as [|c cells IH]; intros f g H; [ reflexivity | ]. cbn. rewrite (H c (or_introl eq_refl)). f_equal. apply IH. intros. apply H. right. assumption. Qed.
Lemma csum_vsum : forall n cells (f : nat -> scell -> R), vsum n (fun g => csum cells (f g)) = csum cells (fun c => vsum n (fun g => f g c)).
Proof.
  intros n cells f. induction cells as [|c cells IH]; cbn [csum fold_right]; [ apply vsum_zero | ].
  fold (csum cells (fun c => vsum n (fun g => f g c))). rewrite <- IH, <- vsum_plus. reflexivity.
Qed.
Lemma csum_scale : forall cells f a, csum cells (fun c => a * f c) = a * csum cells f.
Proof. induction cells as [|c cells IH]; intros f a; cbn; [ ring | ]. fold (csum cells (fun c => a * f c)) (csum cells f). rewrite IH. ring. Qed.
Lemma csum_nonneg : forall cells f, (forall c, In c cells -> 0 <= f c) -> 0 <= csum cells f.
Proof. induction cells as [|c cells IH]; intros f H; cbn; [ lra | ]. fold (csum cells f). pose proof (H c (or_introl eq_refl)). specialize (IH f (fun c' I => H c' (or_intror I))). lra. Qed.
Lemma csum_pos : forall cells f c, (forall c, In c cells -> 0 <= f c) -> In c cells -> 0 < f c -> 0 < csum cells f.
Proof.
  induction cells as [|d cells IH]; intros f c H I P; [ contradiction | ]. cbn. fold (csum cells f). pose proof (H d (or_introl eq_refl)).
  assert (0 <= csum cells f) by (apply csum_nonneg; intros; apply H; right; assumption).
  destruct I as [-> | I]; [ lra | ]. pose proof (IH f c (fun c' I' => H c' (or_intror I')) I P). lra.
Qed.
Lemma vsum_nonneg : forall n f, (forall i, (i < n)%nat -> 0 <= f i) -> 0 <= vsum n f.
Proof. induction n as [|n IH]; intros f H; cbn; [ lra | ]. pose proof (H n ltac:(lia)). pose proof (IH f (fun i L => H i ltac:(lia))). lra. Qed.
Lemma vsum_pos : forall n f i, (forall i, (i < n)%nat -> 0 <= f i) -> (i < n)%nat -> 0 < f i -> 0 < vsum n f.
Proof.
  induction n as [|n IH]; intros f i H L P; [ lia | ]. cbn. pose proof (H n ltac:(lia)). pose proof (vsum_nonneg n f (fun i L => H i ltac:(lia))).
  destruct (Nat.eq_dec i n) as [-> | N]; [ lra | ]. pose proof (IH f i (fun i L => H i ltac:(lia)) ltac:(lia) P). lra.
Qed.
Lemma vsum_pick : forall n g (f : nat -> R), (g < n)%nat -> vsum n (fun i => if Nat.eqb g i then f i else 0) = f g.
Proof. intros n g f L. rewrite (vs_single n g) by (try exact L; intros j Lj N; assert (X : Nat.eqb g j = false) by (apply Nat.eqb_neq; congruence); rewrite X; reflexivity). rewrite Nat.eqb_refl. reflexivity. Qed.

Section Schwarz.
Variables (dpc n : nat) (cells : list scell).
Hypothesis range : forall c k, In c cells -> (k < dpc)%nat -> (s_dofs c k < n)%nat.

Lemma valence_nonneg : forall g, 0 <= valence dpc cells g.
Proof using. intros g. apply csum_nonneg. intros c _. apply vsum_nonneg. intros k _. destruct (Nat.eqb _ _); lra. Qed.
Lemma valence_pos : forall c k, In c cells -> (k < dpc)%nat -> 0 < valence dpc cells (s_dofs c k).
Proof using.
  intros c k I L. apply csum_pos with c; [ | exact I | ]; [ intros d _; apply vsum_nonneg; intros j _; destruct (Nat.eqb _ _); lra | ].
  apply vsum_pos with k; [ intros j _; destruct (Nat.eqb _ _); lra | exact L | rewrite Nat.eqb_refl; lra ].
Qed.
Lemma weight_square : forall g, s_weight dpc cells g * s_weight dpc cells g * valence dpc cells g = if Req_EM_T (valence dpc cells g) 0 then 0 else 1.
Proof using.
  intros g. unfold s_weight. pose proof (valence_nonneg g) as P. destruct (Req_EM_T (valence dpc cells g) 0) as [E | E]; [ ring | ].
  rewrite sqrt_sqrt; [ field; exact E | ]. apply Rlt_le, Rdiv_lt_0_compat; lra.
Qed.
Lemma weight_pos : forall c k, In c cells -> (k < dpc)%nat -> 0 < s_weight dpc cells (s_dofs c k).
Proof using.
  intros c k I L. unfold s_weight. pose proof (valence_pos c k I L). destruct (Req_EM_T _ 0) as [E | E]; [ lra | ]. apply sqrt_lt_R0, Rdiv_lt_0_compat; lra.
Qed.
(** the form of the preconditioner *)
Lemma schwarz_form : forall x y, vsum n (fun g => y g * schwarz dpc cells x g) =
  csum cells (fun c => vsum dpc (fun k => vsum dpc (fun l => (y (s_dofs c k) * s_weight dpc cells (s_dofs c k)) * s_inv c k l * (x (s_dofs c l) * s_weight dpc cells (s_dofs c l))))).
Proof using range.
  intros x y. set (w := s_weight dpc cells). unfold schwarz. fold w.
  rewrite (vsum_ext n _ (fun g => csum cells (fun c => y g * scatter_part dpc w c x g))) by (intros g _; rewrite csum_scale; reflexivity).
  rewrite csum_vsum. apply csum_ext. intros c I. unfold scatter_part.
  rewrite (vsum_ext n _ (fun g => vsum dpc (fun k => if Nat.eqb (s_dofs c k) g then y g * cell_part dpc w c x k else 0))) by (intros g _; rewrite <- vsum_scale; apply vsum_ext; intros k _; destruct (Nat.eqb _ _); ring).
  rewrite vs_swap. apply vsum_ext. intros k L. rewrite (vsum_pick n (s_dofs c k) (fun g => y g * cell_part dpc w c x k)) by (apply range; assumption).
  unfold cell_part. rewrite <- Rmult_assoc, <- vsum_scale. apply vsum_ext. intros l _. ring.
Qed.
End Schwarz.

(** C79: the squares of the weights of an entry add up to one over the cells that have it. *)
Theorem C79_weights : forall dpc cells c k, In c cells -> (k < dpc)%nat ->
  csum cells (fun d => vsum dpc (fun l => if Nat.eqb (s_dofs d l) (s_dofs c k) then s_weight dpc cells (s_dofs d l) * s_weight dpc cells (s_dofs d l) else 0)) = 1.
Proof.
  intros dpc cells c k I L. set (g := s_dofs c k).
  rewrite (csum_ext cells _ (fun d => (s_weight dpc cells g * s_weight dpc cells g) * vsum dpc (fun l => if Nat.eqb (s_dofs d l) g then 1 else 0))).
  - rewrite csum_scale. change (csum cells (fun d => vsum dpc (fun l => if Nat.eqb (s_dofs d l) g then 1 else 0))) with (valence dpc cells g).
    rewrite weight_square. pose proof (valence_pos dpc cells c k I L). fold g in H. destruct (Req_EM_T _ 0); lra.
  - intros d _. rewrite <- vsum_scale. apply vsum_ext. intros l _. destruct (Nat.eqb (s_dofs d l) g) eqn:E; [ apply Nat.eqb_eq in E; rewrite E; ring | ring ].
Qed.
Print Assumptions C79_weights.

Lemma inverse_symmetric : forall m A B, is_inverse m A B -> (forall i j, (i < m)%nat -> (j < m)%nat -> A i j = A j i) -> forall i j, (i < m)%nat -> (j < m)%nat -> B i j = B j i.
Proof.
  intros m A B H S i j Li Lj. symmetry.
  transitivity (vsum m (fun k => B k i * delta k j)).
  { unfold delta. rewrite (vs_single m j); [ rewrite Nat.eqb_refl; ring | exact Lj | ]. intros k _ N. assert (X : Nat.eqb k j = false) by (apply Nat.eqb_neq; exact N). rewrite X. ring. }
  transitivity (vsum m (fun k => vsum m (fun l => B k i * (A k l * B l j)))).
  { apply vsum_ext. intros k Lk. rewrite vsum_scale. f_equal. symmetry. apply H; assumption. }
  rewrite vs_swap. transitivity (vsum m (fun l => delta l i * B l j)).
  { apply vsum_ext. intros l Ll. rewrite <- (proj1 (H l i Ll Li)). rewrite Rmult_comm, <- vsum_scale. apply vsum_ext. intros k Lk. rewrite (S k l) by assumption. ring. }
  unfold delta. rewrite (vs_single m i); [ rewrite Nat.eqb_refl; ring | exact Li | ]. intros k _ N. assert (X : Nat.eqb k i = false) by (apply Nat.eqb_neq; exact N). rewrite X. ring.
Qed.

(** the inverses belong to the parts of one matrix *)
Definition made_from (dpc n : nat) (E : matrix) (cells : list scell) : Prop :=
  forall c, In c cells -> (forall k, (k < dpc)%nat -> (s_dofs c k < n)%nat) /\ (forall k l, (k < dpc)%nat -> (l < dpc)%nat -> s_dofs c k = s_dofs c l -> k = l) /\
    is_inverse dpc (fun k l => E (s_dofs c k) (s_dofs c l)) (s_inv c).

(** C79: the preconditioner of a symmetric matrix is symmetric. *)
Theorem C79_symmetric : forall dpc n E cells x y, made_from dpc n E cells -> (forall i j, E i j = E j i) ->
  vsum n (fun g => y g * schwarz dpc cells x g) = vsum n (fun g => x g * schwarz dpc cells y g).
Proof.
  intros dpc n E cells x y H S. rewrite !schwarz_form by (intros c k I L; apply (H c I); exact L).
  apply csum_ext. intros c I. destruct (H c I) as (_ & _ & V). rewrite vs_swap. apply vsum_ext. intros k Lk. apply vsum_ext. intros l Ll.
  rewrite (inverse_symmetric dpc _ _ V (fun i j _ _ => S (s_dofs c i) (s_dofs c j)) l k Ll Lk). ring.
Qed.
Print Assumptions C79_symmetric.

Definition form (n : nat) (E : matrix) (x : nat -> R) : R := vsum n (fun i => vsum n (fun j => x i * E i j * x j)).

Lemma block_form_pos : forall dpc n E c, (forall k, (k < dpc)%nat -> (s_dofs c k < n)%nat) -> (forall k l, (k < dpc)%nat -> (l < dpc)%nat -> s_dofs c k = s_dofs c l -> k = l) ->
  (forall x, (exists g, (g < n)%nat /\ x g <> 0) -> 0 < form n E x) ->
  forall z, (exists k, (k < dpc)%nat /\ z k <> 0) -> 0 < form dpc (fun k l => E (s_dofs c k) (s_dofs c l)) z.
Proof.
  intros dpc n E c R1 R2 P z (k0 & L0 & N0).
  pose (x := fun g => vsum dpc (fun k => if Nat.eqb (s_dofs c k) g then z k else 0)).
  assert (XZ : forall k, (k < dpc)%nat -> x (s_dofs c k) = z k).
  { intros k Lk. unfold x. rewrite (vs_single dpc k); [ rewrite Nat.eqb_refl; reflexivity | exact Lk | ]. intros j Lj N.
    destruct (Nat.eqb (s_dofs c j) (s_dofs c k)) eqn:X; [ | reflexivity ]. apply Nat.eqb_eq in X. elim N. apply R2; assumption. }
  assert (GA : forall F, vsum n (fun i => x i * F i) = vsum dpc (fun k => z k * F (s_dofs c k))).
  { intros F. transitivity (vsum n (fun i => vsum dpc (fun k => if Nat.eqb (s_dofs c k) i then z k * F i else 0))).
    - apply vsum_ext. intros i _. unfold x. rewrite Rmult_comm, <- vsum_scale. apply vsum_ext. intros k _. destruct (Nat.eqb _ _); ring.
    - rewrite vs_swap. apply vsum_ext. intros k Lk. apply (vsum_pick n (s_dofs c k) (fun i => z k * F i)). auto. }
  assert (EQ : form dpc (fun k l => E (s_dofs c k) (s_dofs c l)) z = form n E x).
  { unfold form. symmetry.
    rewrite (vsum_ext n _ (fun i => x i * vsum dpc (fun l => z l * E i (s_dofs c l)))) by (intros i _; rewrite <- (GA (fun j => E i j)), <- vsum_scale; apply vsum_ext; intros; ring).
    rewrite (GA (fun i => vsum dpc (fun l => z l * E i (s_dofs c l)))). apply vsum_ext. intros k _. rewrite <- vsum_scale. apply vsum_ext. intros l _. ring. }
  rewrite EQ. apply P. exists (s_dofs c k0). split; [ auto | ]. rewrite XZ; assumption.
Qed.

Definition mul (m : nat) (B : matrix) (y : nat -> R) (k : nat) : R := vsum m (fun l => B k l * y l).
Lemma mul_inverse : forall m A B y k, is_inverse m A B -> (k < m)%nat -> mul m A (mul m B y) k = y k.
Proof.
  intros m A B y k H L. unfold mul. transitivity (vsum m (fun l => delta k l * y l)).
  - rewrite (vsum_ext m _ (fun l => vsum m (fun j => A k l * B l j * y j))) by (intros l _; rewrite <- vsum_scale; apply vsum_ext; intros; ring).
    rewrite vs_swap. apply vsum_ext. intros j Lj. rewrite <- (proj1 (H k j L Lj)), (Rmult_comm _ (y j)), <- vsum_scale. apply vsum_ext. intros; ring.
  - unfold delta. rewrite (vs_single m k); [ rewrite Nat.eqb_refl; ring | exact L | ]. intros j _ N. assert (X : Nat.eqb k j = false) by (apply Nat.eqb_neq; congruence). rewrite X. ring.
Qed.
(** the form of the inverse, through the form of the matrix *)
Lemma inverse_form : forall m A B y, is_inverse m A B -> vsum m (fun k => vsum m (fun l => y k * B k l * y l)) = form m A (mul m B y).
Proof.
  intros m A B y H. unfold form. set (z := mul m B y).
  transitivity (vsum m (fun k => y k * z k)).
  { apply vsum_ext. intros k _. unfold z, mul. rewrite <- vsum_scale. apply vsum_ext. intros; ring. }
  apply vsum_ext. intros k L. rewrite <- (mul_inverse m A B y k H L) at 1. fold z. unfold mul at 1. rewrite Rmult_comm, <- vsum_scale. apply vsum_ext. intros; ring.
Qed.

(** C79: the preconditioner of a symmetric positive definite matrix is positive definite on the
    entries that belong to cells - as the conjugate gradient method asks for. *)
Theorem C79_positive : forall dpc n E cells x, made_from dpc n E cells ->
  (forall x, (exists g, (g < n)%nat /\ x g <> 0) -> 0 < form n E x) ->
  0 <= vsum n (fun g => x g * schwarz dpc cells x g) /\
  ((exists c k, In c cells /\ (k < dpc)%nat /\ x (s_dofs c k) <> 0) -> 0 < vsum n (fun g => x g * schwarz dpc cells x g)).
Proof.
  intros dpc n E cells x H P. rewrite schwarz_form by (intros c k I L; apply (H c I); exact L).
  set (w := s_weight dpc cells).
  assert (Q_ : forall c, In c cells -> let y := fun k => x (s_dofs c k) * w (s_dofs c k) in
     0 <= vsum dpc (fun k => vsum dpc (fun l => y k * s_inv c k l * y l)) /\ ((exists k, (k < dpc)%nat /\ y k <> 0) -> 0 < vsum dpc (fun k => vsum dpc (fun l => y k * s_inv c k l * y l)))).
  { intros c I y. destruct (H c I) as (R1 & R2 & V). rewrite (inverse_form dpc _ _ y V). set (z := mul dpc (s_inv c) y).
    assert (Z : (exists k, (k < dpc)%nat /\ z k <> 0) \/ forall k, (k < dpc)%nat -> z k = 0).
    { generalize dpc. intros d. induction d as [|d IH]; [ right; intros; lia | ]. destruct IH as [(k & L & N) | A]; [ left; exists k; split; [ lia | exact N ] | ].
      destruct (Req_EM_T (z d) 0) as [E0 | E0]; [ right | left; exists d; split; [ lia | exact E0 ] ]. intros k L. destruct (Nat.eq_dec k d) as [-> | N]; [ exact E0 | apply A; lia ]. }
    destruct Z as [Z | Z].
    - pose proof (block_form_pos dpc n E c R1 R2 P z Z). split; [ lra | auto ].
    - assert (Y : forall k, (k < dpc)%nat -> y k = 0).
      { intros k L. rewrite <- (mul_inverse dpc _ _ y k V L). fold z. unfold mul. rewrite (vsum_ext dpc _ (fun _ => 0)) by (intros l Ll; rewrite (Z l Ll); ring). apply vsum_zero. }
      split; [ | intros (k & L & N); elim N; auto ].
      unfold form. rewrite (vsum_ext dpc _ (fun _ => 0)); [ rewrite vsum_zero; lra | ]. intros k L. rewrite (vsum_ext dpc _ (fun _ => 0)); [ apply vsum_zero | ]. intros l Ll. rewrite (Z l Ll). ring. }
  split.
  - apply csum_nonneg. intros c I. apply (Q_ c I).
  - intros (c & k & I & L & N). apply csum_pos with c; [ intros d J; apply (Q_ d J) | exact I | ].
    apply (Q_ c I). exists k. split; [ exact L | ]. cbn beta. pose proof (weight_pos dpc cells c k I L) as W. fold w in W. intros Z. apply Rmult_integral in Z. destruct Z; [ contradiction | lra ].
Qed.
Print Assumptions C79_positive.

(** C79: for a diagonal matrix the preconditioner is the inverse. *)
Theorem C79_diagonal : forall dpc n E cells x c k, made_from dpc n E cells -> (forall i j, i <> j -> E i j = 0) -> In c cells -> (k < dpc)%nat ->
  E (s_dofs c k) (s_dofs c k) * schwarz dpc cells x (s_dofs c k) = x (s_dofs c k).
Proof.
  intros dpc n E cells x c k H D I L. set (g := s_dofs c k). set (w := s_weight dpc cells). unfold schwarz. fold w.
  rewrite <- csum_scale.
  rewrite (csum_ext cells _ (fun d => x g * vsum dpc (fun j => if Nat.eqb (s_dofs d j) g then w (s_dofs d j) * w (s_dofs d j) else 0))).
  - rewrite csum_scale. unfold w, g. rewrite C79_weights by assumption. ring.
  - intros d J. destruct (H d J) as (R1 & R2 & V). unfold scatter_part. rewrite <- !vsum_scale. apply vsum_ext. intros j Lj.
    destruct (Nat.eqb (s_dofs d j) g) eqn:EG; [ | ring ]. apply Nat.eqb_eq in EG. rewrite <- EG.
    unfold cell_part. set (y := fun l => x (s_dofs d l) * w (s_dofs d l)).
    change (vsum dpc (fun l => s_inv d j l * (x (s_dofs d l) * w (s_dofs d l)))) with (mul dpc (s_inv d) y j).
    pose proof (mul_inverse dpc _ _ y j V Lj) as M. unfold mul at 1 in M. rewrite (vs_single dpc j) in M; [ | exact Lj | intros l Ll N; rewrite D; [ ring | intros X; apply N; symmetry; apply R2; auto ] ].
    unfold y at 2 in M. transitivity (w (s_dofs d j) * (E (s_dofs d j) (s_dofs d j) * mul dpc (s_inv d) y j)); [ ring | rewrite M; ring ].
Qed.
Print Assumptions C79_diagonal.

(** ** Components *)

(** C79: every part of the matrix with [m] successive rows is inverted exactly, if every part has
    an inverse. *)
Theorem C79_components : forall m first M inv x i, (0 < m)%nat ->
  (forall c, is_inverse m (component_block m first M c) (inv c)) ->
  let D x i := vsum m (fun j => component_block m first M (i / m) (i mod m) j * x (j + (i / m) * m)%nat) in
  D (component_vmult m inv x) i = x i /\ component_vmult m inv (D x) i = x i.
Proof.
  intros m first M inv x i P H. cbv zeta.
  assert (L : (i mod m < m)%nat) by (apply Nat.mod_upper_bound; lia).
  assert (DM : forall j, (j < m)%nat -> ((j + i / m * m) / m = i / m /\ (j + i / m * m) mod m = j)%nat).
  { intros j Lj. split; [ rewrite Nat.div_add, Nat.div_small; lia | rewrite Nat.mod_add, Nat.mod_small; lia ]. }
  assert (XI : x (i mod m + i / m * m)%nat = x i) by (f_equal; rewrite (Nat.div_mod i m) at 3 by lia; lia).
  split.
  - rewrite (vsum_ext m _ (fun j => component_block m first M (i / m) (i mod m) j * mul m (inv (i / m)%nat) (fun l => x (l + i / m * m)%nat) j)).
    + change (mul m (component_block m first M (i / m)) (mul m (inv (i / m)%nat) (fun l => x (l + i / m * m)%nat)) (i mod m) = x i). rewrite (mul_inverse m _ _ _ _ (H (i / m)%nat) L). exact XI.
    + intros j Lj. unfold component_vmult. destruct (DM j Lj) as [-> ->]. reflexivity.
  - unfold component_vmult. rewrite (vsum_ext m _ (fun j => inv (i / m)%nat (i mod m) j * mul m (component_block m first M (i / m)) (fun l => x (l + i / m * m)%nat) j)).
    + change (mul m (inv (i / m)%nat) (mul m (component_block m first M (i / m)) (fun l => x (l + i / m * m)%nat)) (i mod m) = x i).
      rewrite (mul_inverse m _ (component_block m first M (i / m))); [ exact XI | | exact L ]. intros a b La Lb. destruct (H (i / m)%nat a b La Lb) as [X Y]. split; assumption.
    + intros j Lj. destruct (DM j Lj) as [-> ->]. reflexivity.
Qed.
Print Assumptions C79_components.

(** C79 refuted for the operators of the sintering application: the finite element of the
    scalar field has one component, so the parts are single entries, and the coupling of two
    components at a node is not inverted. *)
Theorem C79_components_refuted : exists (M : matrix) inv x,
  (forall c, is_inverse 1 (component_block 1 0 M c) (inv c)) /\ (forall c, exists B, is_inverse 2 (component_block 2 0 M c) B) /\
  (forall i j, (i / 2 <> j / 2)%nat -> M i j = 0) /\
  component_vmult 1 inv (fun i => M i 0%nat * x 0%nat + M i 1%nat * x 1%nat) 0%nat <> x 0%nat.
Proof.
  exists (fun i j => if Nat.eqb (i / 2) (j / 2) then (if Nat.eqb i j then 2 else 1) else 0), (fun c i j => / 2), (fun i => 1).
  split; [ | split; [ | split ] ].
  - intros c i j Li Lj. assert (i = 0%nat) by lia. assert (j = 0%nat) by lia. subst. unfold component_block, delta. cbn [vsum]. rewrite !Nat.eqb_refl. split; field.
  - intros c. exists (fun i j => if Nat.eqb i j then 2 / 3 else - (1 / 3)). intros i j Li Lj.
    assert (K : forall a b, (a < 2)%nat -> (b < 2)%nat -> component_block 2 0 (fun i j => if Nat.eqb (i / 2) (j / 2) then (if Nat.eqb i j then 2 else 1) else 0) c a b = if Nat.eqb a b then 2 else 1).
    { intros a b La Lb. unfold component_block. rewrite !Nat.div_add, !Nat.add_0_r, !Nat.div_small by lia. rewrite Nat.add_0_l, Nat.eqb_refl.
      destruct (Nat.eqb a b) eqn:X; [ apply Nat.eqb_eq in X; subst; rewrite Nat.eqb_refl; reflexivity | ]. apply Nat.eqb_neq in X. assert (Y : Nat.eqb (a + c * 2) (b + c * 2) = false) by (apply Nat.eqb_neq; lia). rewrite Y. reflexivity. }
    cbn [vsum]. rewrite !K by lia. unfold delta. destruct i as [|[|i]]; [ | | lia ]; (destruct j as [|[|j]]; [ | | lia ]); cbn [Nat.eqb]; split; lra.
  - intros i j N. assert (X : Nat.eqb (i / 2) (j / 2) = false) by (apply Nat.eqb_neq; exact N). rewrite X. reflexivity.
  - unfold component_vmult. cbn. lra.
Qed.
Print Assumptions C79_components_refuted.

(** ** Case: three entries, two cells that share the middle one, matrix tridiagonal (-1, 4, -1) *)
Definition tri (i j : nat) : R := if Nat.eqb i j then 4 else if Nat.eqb i (S j) || Nat.eqb j (S i) then -1 else 0.
Definition tri_cells : list scell := map (fun c => mkScell (fun k => (c + k)%nat) (fun k l => if Nat.eqb k l then 4 / 15 else 1 / 15)) [0; 1]%nat.
Lemma tri_made : made_from 2 3 tri tri_cells.
Proof.
  intros c [<- | [<- | []]]; cbn [s_dofs s_inv]; (split; [ intros; lia | split; [ intros; lia | ] ]);
  intros i j Li Lj; unfold delta, tri; (destruct i as [|[|i]]; [ | | lia ]); (destruct j as [|[|j]]; [ | | lia ]); cbn; lra.
Qed.
Lemma tri_positive : forall x, (exists g, (g < 3)%nat /\ x g <> 0) -> 0 < form 3 tri x.
Proof.
  intros x (g & L & N). unfold form, tri. cbn. set (a := x 0%nat) in *. set (b := x 1%nat) in *. set (d := x 2%nat) in *.
  assert (X : 0 < a * a + b * b + d * d).
  { destruct g as [|[|[|g]]]; [ | | | lia ]; [ fold a in N; pose proof (Rsqr_pos_lt a N) | fold b in N; pose proof (Rsqr_pos_lt b N) | fold d in N; pose proof (Rsqr_pos_lt d N) ]; unfold Rsqr in *;
    pose proof (Rle_0_sqr a); pose proof (Rle_0_sqr b); pose proof (Rle_0_sqr d); unfold Rsqr in *; lra. }
  pose proof (Rle_0_sqr (a - b)). pose proof (Rle_0_sqr (b - d)). pose proof (Rle_0_sqr a). pose proof (Rle_0_sqr d). unfold Rsqr in *. nra.
Qed.
Example C79_example : 0 < vsum 3 (fun g => (if Nat.eqb g 1 then 1 else 0) * schwarz 2 tri_cells (fun g => if Nat.eqb g 1 then 1 else 0) g) /\ valence 2 tri_cells 1 = 2 /\ valence 2 tri_cells 0 = 1.
Proof.
  split; [ | split; unfold valence, tri_cells; cbn; lra ].
  apply (C79_positive 2 3 tri tri_cells); [ apply tri_made | apply tri_positive | ]. exists (mkScell (fun k => (0 + k)%nat) (fun k l => if Nat.eqb k l then 4 / 15 else 1 / 15)), 1%nat.
  split; [ left; reflexivity | ]. split; [ lia | cbn; lra ].
Qed.
