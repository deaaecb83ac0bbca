(** Properties of the assembled matrices (C70). *)
From Coq Require Import List Reals Arith Bool FunctionalExtensionality Lia Lra.
From Verif Require Import Util OperatorModel OperatorProps AssembleModel.
Import ListNotations.
Local Open Scope R_scope.

(** ** Sums *)
Lemma vs_single : forall n J f, (J < n)%nat -> (forall j, (j < n)%nat -> j <> J -> f j = 0) -> vsum n f = f J.
Proof.
  induction n as [| n IH]; intros J f HJ H; [lia |]. cbn [vsum]. destruct (Nat.eq_dec J n) as [-> | D].
  - rewrite (vsum_ext n f (fun _ => 0)) by (intros; apply H; lia). rewrite vsum_zero. ring.
  - rewrite (IH J) by (lia || (intros; apply H; lia)). rewrite (H n) by lia. ring.
Qed.
Lemma vs_swap : forall n m f, vsum n (fun i => vsum m (fun j => f i j)) = vsum m (fun j => vsum n (fun i => f i j)).
Proof.
  induction n as [| n IH]; intros m f; cbn [vsum]; [rewrite vsum_zero; reflexivity |]. rewrite IH, <- vsum_plus. reflexivity.
Qed.
Lemma vs_app : forall m n f, vsum (m + n) f = vsum m f + vsum n (fun i => f (m + i)%nat).
Proof. intros m n f. induction n as [| n IH]; [rewrite Nat.add_0_r; cbn [vsum]; ring |]. rewrite Nat.add_succ_r. cbn [vsum]. rewrite IH. ring. Qed.
Lemma vs_split : forall a d f, vsum (a * d) f = vsum a (fun b => vsum d (fun i => f (b * d + i)%nat)).
Proof. induction a as [| a IH]; intros d f; [reflexivity |]. cbn [vsum]. rewrite <- IH, <- vs_app. f_equal. lia. Qed.
Lemma vs_abs : forall m f, Rabs (vsum m f) <= vsum m (fun i => Rabs (f i)).
Proof. induction m as [| m IH]; intros f; cbn [vsum]; [rewrite Rabs_R0; lra |]. eapply Rle_trans; [apply Rabs_triang |]. apply Rplus_le_compat_r, IH. Qed.
Lemma vs_le : forall m f g, (forall i, (i < m)%nat -> f i <= g i) -> vsum m f <= vsum m g.
Proof. induction m as [| m IH]; intros f g H; cbn [vsum]; [lra |]. apply Rplus_le_compat; [apply IH; intros; apply H; lia | apply H; lia]. Qed.

(** ** Hypotheses: linear kernels, indices in range *)
Definition kernel_ok (m : nat) (k : (nat -> R) -> nat -> R) : Prop :=
  (forall x y a b i, k (fun l => a * x l + b * y l) i = a * k x i + b * k y i)
  /\ (forall x y, (forall l, (l < m)%nat -> x l = y l) -> forall i, k x i = k y i).
Definition cons_ok (n : nat) (C : nat -> option (list (nat * R))) : Prop := forall g l, C g = Some l -> Forall (fun e => (fst e < n)%nat) l.

Lemma kernel_sum : forall m k x i, kernel_ok m k -> k x i = vsum m (fun j => k (unit_vec j) i * x j).
Proof.
  intros m k x i [L E].
  assert (G : forall p, (p <= m)%nat -> k (fun l => if Nat.ltb l p then x l else 0) i = vsum p (fun j => k (unit_vec j) i * x j)).
  { induction p as [| p IH]; intros Hp; cbn [vsum].
    - rewrite (E _ (fun l => 0 * x l + 0 * x l)) by (intros l _; destruct (Nat.ltb_spec l 0); [lia | ring]). rewrite L. ring.
    - rewrite <- IH by lia. rewrite (E _ (fun l => 1 * (fun l => if Nat.ltb l p then x l else 0) l + x p * unit_vec p l)).
      + rewrite L. ring.
      + intros l _. cbn beta. unfold unit_vec. destruct (Nat.ltb_spec l (S p)), (Nat.ltb_spec l p), (Nat.eqb_spec l p); try lia; subst; try lia; ring. }
  rewrite <- (G m (le_n m)). apply E. intros l Hl. destruct (Nat.ltb_spec l m); [reflexivity | lia].
Qed.

Lemma gather_weight : forall n C x g, cons_ok n C -> (g < n)%nat -> vsum n (fun s => weight C g s * x s) = gather C x g.
Proof.
  intros n C x g HC Hg. unfold weight, gather.
  assert (F : Forall (fun e : nat * R => (fst e < n)%nat) (resolve C g)).
  { unfold resolve. destruct (C g) as [l |] eqn:E; [exact (HC g l E) |]. constructor; [exact Hg | constructor]. }
  induction (resolve C g) as [| e l IH]; cbn [fold_right].
  - rewrite (vsum_ext _ _ (fun _ => 0)) by (intros; ring). apply vsum_zero.
  - inversion F as [| e' l' F1 F2]; subst. rewrite <- (IH F2).
    rewrite (vsum_ext _ _ (fun s => (if Nat.eqb (fst e) s then snd e else 0) * x s + fold_right (fun e s0 => (if Nat.eqb (fst e) s then snd e else 0) + s0) 0 l * x s)) by (intros; ring).
    rewrite vsum_plus. f_equal. rewrite (vs_single n (fst e)); [rewrite Nat.eqb_refl; reflexivity | exact F1 |].
    intros j _ Hj. destruct (Nat.eqb_spec (fst e) j); [congruence | ring].
Qed.
Lemma weight_free : forall C g g', C g = None -> weight C g g' = if Nat.eqb g g' then 1 else 0.
Proof. intros C g g' E. unfold weight, resolve. rewrite E. cbn [fold_right fst snd]. ring. Qed.

Section Product.
Variables (nc dpc n : nat) (lex : nat -> nat).
Hypothesis (Hnc : (0 < nc)%nat) (Hd : (0 < dpc)%nat).

Lemma div_pos : forall b i, (i < dpc)%nat -> ((b * dpc + i) / dpc = b /\ (b * dpc + i) mod dpc = i)%nat.
Proof. intros b i Hi. split; [rewrite Nat.div_add_l by lia; rewrite (Nat.div_small i dpc Hi); lia |]. rewrite Nat.add_comm, Nat.mod_add by lia. apply Nat.mod_small, Hi. Qed.
Lemma div_nc : forall g b, (b < nc)%nat -> ((g * nc + b) / nc = g /\ (g * nc + b) mod nc = b)%nat.
Proof. intros g b Hb. split; [rewrite Nat.div_add_l by lia; rewrite (Nat.div_small b nc Hb); lia |]. rewrite Nat.add_comm, Nat.mod_add by lia. apply Nat.mod_small, Hb. Qed.

Lemma nth_blocks : forall (f : nat -> nat -> nat) m s b i, (b < m)%nat -> (i < dpc)%nat ->
  nth (b * dpc + i) (flat_map (fun b => map (fun i => f b i) (seq 0 dpc)) (seq s m)) 0%nat = f (s + b)%nat i.
Proof.
  induction m as [| m IH]; intros s b i Hb Hi; [lia |]. cbn [seq flat_map].
  assert (Ln : length (map (fun i => f s i) (seq 0 dpc)) = dpc) by (rewrite map_length, seq_length; reflexivity).
  destruct b as [| b].
  - rewrite app_nth1 by (rewrite Ln; lia). cbn [Nat.mul Nat.add]. rewrite (nth_indep _ 0%nat (f s 0%nat)) by (rewrite Ln; lia).
    rewrite (map_nth (fun i => f s i)), seq_nth by exact Hi. rewrite Nat.add_0_r. reflexivity.
  - rewrite app_nth2 by (rewrite Ln; lia). rewrite Ln. replace (S b * dpc + i - dpc)%nat with (b * dpc + i)%nat by lia. rewrite (IH (S s)) by lia. f_equal. lia.
Qed.
Lemma index_all_eq : forall c b i, (b < nc)%nat -> (i < dpc)%nat -> index_all nc dpc lex c (b * dpc + i) = (dof_mf lex c i * nc + b)%nat.
Proof. intros c b i Hb Hi. unfold index_all, index_list. rewrite (nth_blocks (fun b i => (dof_mf lex c i * nc + b)%nat) nc 0) by assumption. reflexivity. Qed.

Lemma weight_inter : forall C g' b' g b, (b' < nc)%nat -> (b < nc)%nat ->
  weight (interleaved_cons nc C) (g' * nc + b') (g * nc + b) = if Nat.eqb b' b then weight C g' g else 0.
Proof.
  intros C g' b' g b Hb' Hb. unfold weight, resolve, interleaved_cons. destruct (div_nc g' b' Hb') as [-> ->].
  assert (Q_ : forall h, Nat.eqb (h * nc + b') (g * nc + b) = Nat.eqb b' b && Nat.eqb h g).
  { intros h. destruct (Nat.eqb_spec b' b) as [-> | D]; cbn [andb].
    - destruct (Nat.eqb_spec h g) as [-> | D]; [apply Nat.eqb_refl |]. apply Nat.eqb_neq. intros X. apply D. exact (proj1 (Nat.mul_cancel_r h g nc (Nat.neq_sym _ _ (Nat.lt_neq _ _ Hnc))) (proj1 (Nat.add_cancel_r _ _ b) X)).
    - apply Nat.eqb_neq. intros X. apply D. destruct (div_nc h b' Hb') as [_ A]. destruct (div_nc g b Hb) as [_ B]. rewrite X in A. congruence. }
  destruct (C g') as [l |]; cbn [option_map].
  - induction l as [| e l IH]; cbn [map fold_right fst snd]; [destruct (Nat.eqb b' b); reflexivity |]. rewrite IH, Q_. destruct (Nat.eqb b' b); cbn [andb]; [reflexivity | ring].
  - cbn [fold_right fst snd]. rewrite Q_. destruct (Nat.eqb b' b); cbn [andb]; [reflexivity | ring].
Qed.
Lemma inter_ok : forall C, cons_ok n C -> cons_ok (n * nc) (interleaved_cons nc C).
Proof.
  intros C HC g l E. unfold interleaved_cons in E. destruct (C (g / nc)%nat) as [k |] eqn:Ek; [| discriminate]. cbn [option_map] in E. injection E as <-.
  apply Forall_map. eapply Forall_impl; [| exact (HC _ _ Ek)]. intros e He. cbn [fst]. assert (g mod nc < nc)%nat by (apply Nat.mod_upper_bound; lia). cbn beta in He. assert (S (fst e) * nc <= n * nc)%nat by (apply Nat.mul_le_mono_r; exact He). lia.
Qed.
Lemma gather_inter : forall C x g b, (b < nc)%nat -> gather (interleaved_cons nc C) (interleave nc x) (g * nc + b) = gather C (x b) g.
Proof.
  intros C x g b Hb. unfold gather, resolve, interleaved_cons. destruct (div_nc g b Hb) as [-> ->].
  assert (I_ : forall h, interleave nc x (h * nc + b)%nat = x b h) by (intros h; unfold interleave; destruct (div_nc h b Hb) as [-> ->]; reflexivity).
  destruct (C g) as [l |]; cbn [option_map].
  - induction l as [| e l IH]; cbn [map fold_right fst snd]; [reflexivity |]. rewrite IH, I_. reflexivity.
  - cbn [fold_right fst snd]. rewrite I_. reflexivity.
Qed.

(** one cell, any local matrix, row without constraint *)
Lemma distribute_row : forall C diag m idx A M N x r, cons_ok N C -> (forall i, (i < m)%nat -> (idx i < N)%nat) -> C r = None ->
  mat_vec N (distribute C diag m idx A M) x r = mat_vec N M x r + vsum m (fun i => weight C (idx i) r * vsum m (fun j => A i j * gather C x (idx j))).
Proof.
  intros C diag m idx A M N x r HC Hi Hr. unfold mat_vec, distribute.
  rewrite (vsum_ext N _ (fun s => M r s * x s + vsum m (fun i => vsum m (fun j => weight C (idx i) r * A i j * (weight C (idx j) s * x s))))).
  - rewrite vsum_plus. f_equal. rewrite vs_swap. apply vsum_ext. intros i Hi'. rewrite vs_swap, <- vsum_scale. apply vsum_ext. intros j Hj.
    rewrite vsum_scale, gather_weight by (exact HC || (apply Hi; exact Hj)). ring.
  - intros s Hs. rewrite (vsum_ext m (fun i => if Nat.eqb (idx i) r && Nat.eqb (idx i) s then match C (idx i) with None => 0 | Some _ => diag A i end else 0) (fun _ => 0)).
    + rewrite vsum_zero, Rplus_0_r, Rmult_plus_distr_r. f_equal. rewrite Rmult_comm, <- vsum_scale. apply vsum_ext. intros i _. rewrite <- vsum_scale. apply vsum_ext. intros j _. ring.
    + intros i _. destruct (Nat.eqb_spec (idx i) r) as [E |]; cbn [andb]; [| reflexivity]. rewrite E, Hr. destruct (Nat.eqb r s); reflexivity.
Qed.

Definition cells_ok (cells : list acell) : Prop := forall c, In c cells -> kernel_ok (nc * dpc) (a_kernel c) /\ forall i, (i < dpc)%nat -> (dof_mf lex c i < n)%nat.

(** the product with the assembled matrix, with whatever is left of the local matrices *)
Lemma product_general : forall C diag cells M src b g, cons_ok n C -> cells_ok cells -> (b < nc)%nat -> C g = None ->
  mat_vec (n * nc) (compute_matrix nc dpc lex (interleaved_cons nc C) diag cells M) (interleave nc src) (g * nc + b) =
  mat_vec (n * nc) M (interleave nc src) (g * nc + b)
  + fold_right (fun c s => vsum dpc (fun i => weight C (dof_mf lex c i) g
                  * vsum (nc * dpc) (fun j => drop_small (nc * dpc) (cell_matrix c) (b * dpc + i) j * local_values dpc lex C c src j)) + s) 0 cells.
Proof.
  intros C diag cells M src b g HC HO Hb Hg. unfold compute_matrix. revert M. induction cells as [| c cells IH]; intros M; cbn [fold_left fold_right]; [ring |].
  rewrite IH by (intros d I; apply HO; right; exact I). destruct (HO c (or_introl eq_refl)) as [_ Hdof].
  assert (Hidx : forall i, (i < nc * dpc)%nat -> (index_all nc dpc lex c i < n * nc)%nat).
  { intros i Hi. rewrite (Nat.div_mod i dpc) by lia. rewrite (Nat.mul_comm dpc). assert (i / dpc < nc)%nat by (apply Nat.div_lt_upper_bound; lia). assert (i mod dpc < dpc)%nat by (apply Nat.mod_upper_bound; lia).
    rewrite index_all_eq by assumption. specialize (Hdof (i mod dpc)%nat H0). nia. }
  rewrite distribute_row; [| apply inter_ok; exact HC | exact Hidx |].
  2:{ unfold interleaved_cons. destruct (div_nc g b Hb) as [-> _]. rewrite Hg. reflexivity. }
  rewrite Rplus_assoc. f_equal. f_equal. rewrite vs_split. rewrite (vs_single nc b); [| exact Hb |].
  - apply vsum_ext. intros i Hi. rewrite index_all_eq by assumption. rewrite weight_inter, Nat.eqb_refl by assumption. f_equal. apply vsum_ext. intros j Hj. f_equal.
    assert (j / dpc < nc)%nat by (apply Nat.div_lt_upper_bound; lia). assert (j mod dpc < dpc)%nat by (apply Nat.mod_upper_bound; lia).
    rewrite (Nat.div_mod j dpc) at 1 by lia. rewrite (Nat.mul_comm dpc), index_all_eq, gather_inter by assumption. reflexivity.
  - intros b' L Db. rewrite (vsum_ext dpc _ (fun _ => 0)); [apply vsum_zero |]. intros i Hi. rewrite index_all_eq, weight_inter by assumption. destruct (Nat.eqb_spec b' b); [contradiction | ring].
Qed.

(** the same for the matrix of one component *)
Lemma block_general : forall C diag cells M x b g, cons_ok n C -> cells_ok cells -> C g = None ->
  mat_vec n (compute_block_matrix dpc lex C diag cells b M) x g =
  mat_vec n M x g
  + fold_right (fun c s => vsum dpc (fun i => weight C (dof_mf lex c i) g
                  * vsum dpc (fun j => cell_matrix c (b * dpc + i) (b * dpc + j) * gather C x (dof_mf lex c j))) + s) 0 cells.
Proof.
  intros C diag cells M x b g HC HO Hg. unfold compute_block_matrix. revert M. induction cells as [| c cells IH]; intros M; cbn [fold_left fold_right]; [ring |].
  rewrite IH by (intros d I; apply HO; right; exact I). destruct (HO c (or_introl eq_refl)) as [_ Hdof].
  rewrite distribute_row; [| exact HC | exact Hdof | exact Hg]. ring.
Qed.
End Product.

(** ** The largest entry *)
Lemma fold_rmax : forall (f : nat -> R) l a, a <= fold_left (fun mx j => Rmax mx (f j)) l a /\ (forall j, In j l -> f j <= fold_left (fun mx j => Rmax mx (f j)) l a)
  /\ (forall B, a <= B -> (forall j, In j l -> f j <= B) -> fold_left (fun mx j => Rmax mx (f j)) l a <= B).
Proof.
  intros f l. induction l as [| x l IH]; intros a; cbn [fold_left].
  - split; [lra |]. split; [intros j [] | intros B H _; exact H].
  - destruct (IH (Rmax a (f x))) as [A [B C]]. split; [eapply Rle_trans; [apply Rmax_l | exact A] |]. split.
    + intros j [<- | I]; [eapply Rle_trans; [apply Rmax_r | exact A] | apply B, I].
    + intros B' Ha Hf. apply C; [apply Rmax_lub; [exact Ha | apply Hf; left; reflexivity] | intros j I; apply Hf; right; exact I].
Qed.
Lemma max_entry_spec : forall m A, 0 <= max_entry m A /\ (forall i j, (i < m)%nat -> (j < m)%nat -> Rabs (A i j) <= max_entry m A)
  /\ (forall B, 0 <= B -> (forall i j, (i < m)%nat -> (j < m)%nat -> Rabs (A i j) <= B) -> max_entry m A <= B).
Proof.
  intros m A. unfold max_entry.
  assert (G : forall l a, (forall i, In i l -> (i < m)%nat) ->
     let r := fold_left (fun mx i => fold_left (fun mx j => Rmax mx (Rabs (A i j))) (seq 0 m) mx) l a in
     a <= r /\ (forall i j, In i l -> (j < m)%nat -> Rabs (A i j) <= r) /\ (forall B, a <= B -> (forall i j, (i < m)%nat -> (j < m)%nat -> Rabs (A i j) <= B) -> r <= B)).
  { induction l as [| i l IH]; intros a Hl; cbv zeta; cbn [fold_left].
    - split; [lra |]. split; [intros i j [] | intros B H _; exact H].
    - destruct (fold_rmax (fun j => Rabs (A i j)) (seq 0 m) a) as [X [Y Z]]. destruct (IH (fold_left (fun mx j => Rmax mx (Rabs (A i j))) (seq 0 m) a)) as [P [Q_ T]]; [intros k I; apply Hl; right; exact I |].
      split; [eapply Rle_trans; [exact X | exact P] |]. split.
      + intros k j [<- | I] Hj; [eapply Rle_trans; [| exact P]; apply Y, in_seq; lia | apply Q_; assumption].
      + intros B Ha HB. apply T; [| exact HB]. apply Z; [exact Ha |]. intros j I. apply HB; [apply Hl; left; reflexivity | apply in_seq in I; lia]. }
  destruct (G (seq 0 m) 0) as [P [Q_ T]]; [intros i I; apply in_seq in I; lia |].
  split; [exact P |]. split; [intros i j Hi Hj; apply Q_; [apply in_seq; lia | exact Hj] | exact T].
Qed.
Lemma e10 : 0 < / 10 ^ 10. Proof. apply Rinv_0_lt_compat, pow_lt. lra. Qed.

Lemma fold_ext : forall {A} (f g : A -> R) l, (forall c, In c l -> f c = g c) -> fold_right (fun c s => f c + s) 0 l = fold_right (fun c s => g c + s) 0 l.
Proof. intros A f g l H. induction l as [| c l IH]; cbn [fold_right]; [reflexivity |]. rewrite H, IH by (try (left; reflexivity); intros; apply H; right; assumption). reflexivity. Qed.
Lemma mat_vec_zero : forall m x r, mat_vec m zero_matrix x r = 0.
Proof. intros. unfold mat_vec, zero_matrix. rewrite (vsum_ext _ _ (fun _ => 0)) by (intros; ring). apply vsum_zero. Qed.
Lemma init_matrix : forall nc dpc lex C diag cells prev, initialize_system_matrix nc dpc lex C diag cells true prev = compute_matrix nc dpc lex C diag cells zero_matrix.
Proof. intros. unfold initialize_system_matrix. destruct prev; reflexivity. Qed.

(** entries of a cell matrix that are not zero are not much smaller than the others *)
Definition no_small_entries (m : nat) (c : acell) : Prop :=
  forall i j, (i < m)%nat -> (j < m)%nat -> a_kernel c (unit_vec j) i = 0
    \/ forall i' j', (i' < m)%nat -> (j' < m)%nat -> / 10 ^ 10 * Rabs (a_kernel c (unit_vec j') i') <= Rabs (a_kernel c (unit_vec j) i).

(** without periodic boundaries the product with the assembled matrix is the matrix-free one *)
Theorem C70_product : forall nc dpc n lex hanging periodic diag cells prev src b g,
  (0 < nc)%nat -> (0 < dpc)%nat -> cons_ok n hanging -> cells_ok nc dpc n lex cells ->
  (forall c, In c cells -> no_small_entries (nc * dpc) c) ->
  (b < nc)%nat -> (g < n)%nat -> hanging g = None ->
  mat_vec (n * nc) (initialize_system_matrix nc dpc lex (matrix_constraints nc hanging periodic false) diag cells true prev) (interleave nc src) (g * nc + b)
  = mf_vmult dpc lex (field_constraints hanging periodic false) cells src b g.
Proof.
  intros nc dpc n lex hanging periodic diag cells prev src b g Hnc Hd HC HO HS Hb Hg Hh.
  replace (field_constraints hanging periodic false) with hanging by (apply functional_extensionality; intros k; unfold field_constraints; destruct (hanging k); reflexivity).
  rewrite init_matrix. unfold matrix_constraints. rewrite (product_general nc dpc n lex Hnc Hd) by assumption. rewrite mat_vec_zero, Rplus_0_l. unfold mf_vmult.
  apply (fold_ext _ (fun c => mf_cell dpc lex hanging c src b g)). intros c I. destruct (HO c I) as [HK _]. unfold mf_cell. apply vsum_ext. intros i Hi. f_equal.
  rewrite (kernel_sum _ _ (local_values dpc lex hanging c src) (b * dpc + i)%nat HK). apply vsum_ext. intros j Hj. f_equal.
  assert (Hbi : (b * dpc + i < nc * dpc)%nat) by (assert (S b * dpc <= nc * dpc)%nat by (apply Nat.mul_le_mono_r; lia); lia).
  unfold drop_small, cell_matrix. destruct (Rlt_dec _ _) as [L | L]; [| reflexivity].
  destruct (HS c I (b * dpc + i)%nat j Hbi Hj) as [Z | Z]; [symmetry; exact Z |]. exfalso.
  destruct (max_entry_spec (nc * dpc) (cell_matrix c)) as [M0 [_ M2]]. pose proof e10 as E10.
  assert (X : max_entry (nc * dpc) (cell_matrix c) <= Rabs (a_kernel c (unit_vec j) (b * dpc + i)%nat) * 10 ^ 10).
  { apply M2; [apply Rmult_le_pos; [apply Rabs_pos | apply pow_le; lra] |]. intros i' j' Hi' Hj'. specialize (Z i' j' Hi' Hj'). unfold cell_matrix.
    apply (Rmult_le_reg_l (/ 10 ^ 10)); [exact E10 |]. replace (/ 10 ^ 10 * (Rabs (a_kernel c (unit_vec j) (b * dpc + i)%nat) * 10 ^ 10)) with (Rabs (a_kernel c (unit_vec j) (b * dpc + i)%nat)) by (field; apply pow_nonzero; lra). exact Z. }
  apply (Rmult_le_compat_l (/ 10 ^ 10)) in X; [| lra].
  replace (/ 10 ^ 10 * (Rabs (a_kernel c (unit_vec j) (b * dpc + i)%nat) * 10 ^ 10)) with (Rabs (a_kernel c (unit_vec j) (b * dpc + i)%nat)) in X by (field; apply pow_nonzero; lra).
  unfold cell_matrix in L, X. lra.
Qed.
Print Assumptions C70_product.

(** with small entries: at most what the removed entries amount to *)
Theorem C70_product_error : forall nc dpc n lex hanging periodic diag cells prev src b g (B : acell -> R),
  (0 < nc)%nat -> (0 < dpc)%nat -> cons_ok n hanging -> cells_ok nc dpc n lex cells ->
  (forall c i j, In c cells -> (i < nc * dpc)%nat -> (j < nc * dpc)%nat -> Rabs (a_kernel c (unit_vec j) i) <= B c) ->
  (b < nc)%nat -> (g < n)%nat -> hanging g = None ->
  Rabs (mat_vec (n * nc) (initialize_system_matrix nc dpc lex (matrix_constraints nc hanging periodic false) diag cells true prev) (interleave nc src) (g * nc + b)
        - mf_vmult dpc lex (field_constraints hanging periodic false) cells src b g)
  <= fold_right (fun c s => vsum dpc (fun i => Rabs (weight hanging (dof_mf lex c i) g)
       * (/ 10 ^ 10 * B c * vsum (nc * dpc) (fun j => Rabs (gather hanging (src (j / dpc)%nat) (dof_mf lex c (j mod dpc)))))) + s) 0 cells.
Proof.
  intros nc dpc n lex hanging periodic diag cells prev src b g B Hnc Hd HC HO HB Hb Hg Hh.
  replace (field_constraints hanging periodic false) with hanging by (apply functional_extensionality; intros k; unfold field_constraints; destruct (hanging k); reflexivity).
  rewrite init_matrix. unfold matrix_constraints. rewrite (product_general nc dpc n lex Hnc Hd) by assumption. rewrite mat_vec_zero, Rplus_0_l. unfold mf_vmult. pose proof e10 as E10.
  clear Hg. induction cells as [| c cells IH]; cbn [fold_right]; [rewrite Rminus_0_r, Rabs_R0; lra |].
  match goal with |- Rabs (?a + ?s - (?m + ?t)) <= ?e + ?r => replace (a + s - (m + t)) with ((a - m) + (s - t)) by ring; eapply Rle_trans; [apply Rabs_triang |]; apply Rplus_le_compat end.
  2:{ apply IH; [intros d I; apply HO; right; exact I | intros d i j I; apply HB; right; exact I]. }
  clear IH. destruct (HO c (or_introl eq_refl)) as [HK _]. unfold mf_cell.
  match goal with |- Rabs (vsum dpc ?f - vsum dpc ?h) <= _ => replace (vsum dpc f - vsum dpc h) with (vsum dpc (fun i => 1 * f i + -1 * h i)) by (rewrite vsum_lin; ring) end.
  eapply Rle_trans; [apply vs_abs |]. apply vs_le. intros i Hi. cbn beta.
  assert (Hbi : (b * dpc + i < nc * dpc)%nat) by (assert (S b * dpc <= nc * dpc)%nat by (apply Nat.mul_le_mono_r; lia); lia).
  rewrite (kernel_sum _ _ (local_values dpc lex hanging c src) (b * dpc + i)%nat HK).
  match goal with |- Rabs (1 * (?w * ?x) + -1 * (?w * ?y)) <= _ => replace (1 * (w * x) + -1 * (w * y)) with (w * (x - y)) by ring end.
  rewrite Rabs_mult. apply Rmult_le_compat_l; [apply Rabs_pos |].
  match goal with |- Rabs (vsum ?m ?f - vsum ?m ?h) <= _ => replace (vsum m f - vsum m h) with (vsum m (fun i => 1 * f i + -1 * h i)) by (rewrite vsum_lin; ring) end.
  eapply Rle_trans; [apply vs_abs |]. rewrite <- vsum_scale. apply vs_le. intros j Hj. cbn beta.
  match goal with |- Rabs (1 * (?w * ?x) + -1 * (?y * ?x)) <= _ => replace (1 * (w * x) + -1 * (y * x)) with ((w - y) * x) by ring end.
  rewrite Rabs_mult. apply Rmult_le_compat_r; [apply Rabs_pos |].
  assert (B0 : 0 <= B c) by (eapply Rle_trans; [apply Rabs_pos | apply (HB c (b * dpc + i)%nat j (or_introl eq_refl) Hbi Hj)]).
  unfold drop_small. destruct (Rlt_dec _ _) as [L | L]; [| unfold cell_matrix; rewrite Rminus_diag_eq, Rabs_R0 by reflexivity; nra].
  unfold Rminus. rewrite Rplus_0_l, Rabs_Ropp. left. eapply Rlt_le_trans; [exact L |]. apply Rmult_le_compat_l; [lra |].
  apply max_entry_spec; [exact B0 |]. intros i' j' Hi' Hj'. apply HB; [left; reflexivity | assumption | assumption].
Qed.
Print Assumptions C70_product_error.

(** the matrix of a component is its diagonal block, with the constraints of the field *)
Theorem C70_block_product : forall nc dpc n lex C diag cells prev x b g,
  (0 < dpc)%nat -> cons_ok n C -> cells_ok nc dpc n lex cells -> (b < nc)%nat -> (g < n)%nat -> C g = None ->
  mat_vec n (initialize_block_system_matrix dpc lex C diag cells true prev b) x g
  = mf_vmult dpc lex C cells (fun b' g' => if Nat.eqb b' b then x g' else 0) b g.
Proof.
  intros nc dpc n lex C diag cells prev x b g Hd HC HO Hb Hg Hh.
  assert (E : initialize_block_system_matrix dpc lex C diag cells true prev b = compute_block_matrix dpc lex C diag cells b zero_matrix) by (unfold initialize_block_system_matrix; destruct prev; reflexivity).
  rewrite E, (block_general nc dpc n lex) by assumption. rewrite mat_vec_zero, Rplus_0_l. unfold mf_vmult.
  apply (fold_ext _ (fun c => mf_cell dpc lex C c (fun b' g' => if Nat.eqb b' b then x g' else 0) b g)). intros c I. destruct (HO c I) as [HK _]. unfold mf_cell.
  apply vsum_ext. intros i Hi. f_equal. rewrite (kernel_sum _ _ _ (b * dpc + i)%nat HK). rewrite vs_split. rewrite (vs_single nc b); [| exact Hb |].
  - apply vsum_ext. intros j Hj. unfold cell_matrix, local_values. destruct (div_pos nc dpc ltac:(lia) Hd b j Hj) as [-> ->]. rewrite Nat.eqb_refl. reflexivity.
  - intros b' Hb' Db. rewrite (vsum_ext dpc _ (fun _ => 0)); [apply vsum_zero |]. intros j Hj. unfold local_values. destruct (div_pos nc dpc ltac:(lia) Hd b' j Hj) as [-> ->].
    destruct (Nat.eqb_spec b' b); [contradiction |]. unfold gather. replace (fold_right _ 0 _) with 0; [ring |]. induction (resolve C _) as [| e l IH]; cbn [fold_right]; [reflexivity |]. rewrite <- IH. ring.
Qed.
Print Assumptions C70_block_product.

(** assembling again gives the same matrix, whatever was there before *)
Theorem C70_reassembly : forall nc dpc lex C diag cells prev prev' bprev bprev',
  initialize_system_matrix nc dpc lex C diag cells true prev = initialize_system_matrix nc dpc lex C diag cells true prev'
  /\ (forall b, initialize_block_system_matrix dpc lex C diag cells true bprev b = initialize_block_system_matrix dpc lex C diag cells true bprev' b).
Proof. intros. split; [rewrite !init_matrix; reflexivity |]. intros b. unfold initialize_block_system_matrix. destruct bprev, bprev'; reflexivity. Qed.
Print Assumptions C70_reassembly.

(** ** Fixed entries: [clear_row] *)
Lemma clear_rows_entry : forall rows M i j, clear_rows rows M i j = if existsb (Nat.eqb i) rows then (if Nat.eqb i j then 1 else 0) else M i j.
Proof.
  induction rows as [| r rows IH]; intros M i j; unfold clear_rows; cbn [fold_left existsb]; [reflexivity |]. fold (clear_rows rows (clear_row r M)). rewrite IH.
  unfold clear_row. destruct (existsb (Nat.eqb i) rows) eqn:E; [rewrite orb_true_r; reflexivity |]. rewrite orb_false_r. destruct (Nat.eqb_spec i r) as [-> |]; [rewrite (Nat.eqb_sym j r) |]; reflexivity.
Qed.
(** rows of fixed entries are those of the identity; the other rows agree with the product
    that takes the fixed entries of the source as zero if they are zero *)
Theorem C70_fixed_entries : forall m M rows x r, (r < m)%nat ->
  (In r rows -> mat_vec m (clear_rows rows M) x r = x r)
  /\ (~ In r rows -> mat_vec m (clear_rows rows M) x r = mat_vec m M x r)
  /\ (~ In r rows -> (forall s, In s rows -> x s = 0) -> mat_vec m (clear_rows rows M) x r = mat_vec m M (fun s => if existsb (Nat.eqb s) rows then 0 else x s) r).
Proof.
  intros m M rows x r Hr. assert (X : forall s, existsb (Nat.eqb s) rows = true <-> In s rows).
  { intros s. rewrite existsb_exists. split; [intros [y [I E]]; apply Nat.eqb_eq in E; subst; exact I | intros I; exists s; split; [exact I | apply Nat.eqb_refl]]. }
  unfold mat_vec. split; [| split].
  - intros I. apply X in I. rewrite (vs_single m r); [| exact Hr |]; rewrite ?clear_rows_entry, ?I, ?Nat.eqb_refl; [ring |].
    intros j _ D. rewrite clear_rows_entry, I. destruct (Nat.eqb_spec r j); [congruence | ring].
  - intros I. apply vsum_ext. intros s _. rewrite clear_rows_entry. destruct (existsb (Nat.eqb r) rows) eqn:E; [apply X in E; contradiction | reflexivity].
  - intros I Z. apply vsum_ext. intros s _. rewrite clear_rows_entry. destruct (existsb (Nat.eqb r) rows) eqn:E; [apply X in E; contradiction |].
    destruct (existsb (Nat.eqb s) rows) eqn:E'; [| reflexivity]. rewrite Z by (apply X, E'). reflexivity.
Qed.
Print Assumptions C70_fixed_entries.
(** otherwise not: the columns of fixed entries stay *)
Theorem C70_fixed_columns_refuted : exists M x, mat_vec 2 (clear_rows [0%nat] M) x 1%nat <> mat_vec 2 M (fun s => if existsb (Nat.eqb s) [0%nat] then 0 else x s) 1%nat.
Proof. exists (fun _ _ => 1), (fun _ => 1). unfold mat_vec. cbn [vsum clear_rows clear_row fold_left existsb Nat.eqb orb]. unfold clear_rows, clear_row. cbn [fold_left Nat.eqb]. lra. Qed.
Print Assumptions C70_fixed_columns_refuted.

(** ** Periodic boundaries: two elements on a line, ends identified, mass matrix *)
Definition line_kernel (x : nat -> R) (i : nat) : R := match i with 0%nat => 2 * x 0%nat + x 1%nat | 1%nat => x 0%nat + 2 * x 1%nat | _ => 0 end.
Definition line_cells : list acell := [mkAcell (fun i => i) line_kernel; mkAcell (fun i => S i) line_kernel].
Definition ends : nat -> option (list (nat * R)) := fun g => if Nat.eqb g 2 then Some [(0%nat, 1)] else None.
Lemma line_ok : cells_ok 1 2 3 (fun i => i) line_cells.
Proof.
  intros c I. assert (K : kernel_ok (1 * 2) line_kernel).
  { split; [intros x y a b [| [| i]]; cbn [line_kernel]; ring |]. intros x y H [| [| i]]; cbn [line_kernel]; rewrite ?(H 0%nat), ?(H 1%nat) by lia; reflexivity. }
  destruct I as [<- | [<- | []]]; cbn [a_kernel a_dofs dof_mf]; (split; [exact K |]); intros i Hi; unfold dof_mf; cbn [a_dofs]; lia.
Qed.
Lemma line_entries : forall c, In c line_cells -> no_small_entries (1 * 2) c.
Proof.
  intros c I i j Hi Hj. right. intros i' j' Hi' Hj'. assert (P : 0 < / 10 ^ 10 <= 1 / 2).
  { split; [apply e10 |]. unfold Rdiv. rewrite Rmult_1_l. apply Rinv_le_contravar; [lra |]. rewrite <- (pow_1 2). apply Rle_trans with (10 ^ 1); [lra |]. apply Rle_pow; [lra | lia]. }
  assert (V : forall i j, (i < 2)%nat -> (j < 2)%nat -> line_kernel (unit_vec j) i = if Nat.eqb i j then 2 else 1).
  { intros [| [| k]] [| [| l]] A B; try lia; cbn [line_kernel unit_vec Nat.eqb]; unfold unit_vec; cbn [Nat.eqb]; ring. }
  assert (W : forall a b, (a < 2)%nat -> (b < 2)%nat -> 1 <= Rabs (line_kernel (unit_vec b) a) <= 2).
  { intros a b A B. rewrite V by assumption. destruct (Nat.eqb a b); rewrite Rabs_right by lra; lra. }
  assert (Kc : a_kernel c = line_kernel) by (destruct I as [<- | [<- | []]]; reflexivity). rewrite Kc. specialize (W i j Hi Hj) as W1. specialize (W i' j' Hi' Hj') as W2. nra.
Qed.
Example C70_applies : cons_ok 3 (fun _ => None) /\ cells_ok 1 2 3 (fun i => i) line_cells /\ (forall c, In c line_cells -> no_small_entries (1 * 2) c)
  /\ mf_vmult 2 (fun i => i) (fun _ => None) line_cells (fun _ _ => 1) 0 1 = 6.
Proof.
  split; [intros g l E; discriminate |]. split; [exact line_ok |]. split; [exact line_entries |].
  unfold mf_vmult, mf_cell, line_cells, weight, resolve, local_values, gather, dof_mf. cbn [fold_right vsum a_kernel a_dofs Nat.eqb Nat.mul Nat.add line_kernel Nat.div Nat.divmod Nat.modulo fst snd Nat.sub]. unfold resolve. cbn [fold_right fst snd]. ring.
Qed.

Theorem C70_periodic_refuted : forall diag prev,
  mat_vec (3 * 1) (initialize_system_matrix 1 2 (fun i => i) (matrix_constraints 1 (fun _ => None) ends true) diag line_cells true prev) (interleave 1 (fun _ _ => 1)) (0 * 1 + 0) = 3
  /\ mf_vmult 2 (fun i => i) (field_constraints (fun _ => None) ends true) line_cells (fun _ _ => 1) 0 0 = 6.
Proof.
  intros diag prev. split.
  - change (matrix_constraints 1 (fun _ => None) ends true) with (matrix_constraints 1 (fun _ => None) ends false).
    rewrite (C70_product 1 2 3 (fun i => i) (fun _ => None) ends diag line_cells prev (fun _ _ => 1) 0 0); try lia; try reflexivity; [| intros g l E; discriminate | exact line_ok | exact line_entries].
    unfold mf_vmult, mf_cell, line_cells, weight, resolve, local_values, gather, dof_mf, field_constraints. cbn [fold_right vsum a_kernel a_dofs Nat.eqb Nat.mul Nat.add line_kernel Nat.div Nat.divmod Nat.modulo fst snd Nat.sub]. unfold resolve. cbn [fold_right fst snd]. ring.
  - unfold mf_vmult, mf_cell, line_cells, weight, resolve, local_values, gather, dof_mf, field_constraints, ends. cbn [fold_right vsum a_kernel a_dofs Nat.eqb Nat.mul Nat.add line_kernel Nat.div Nat.divmod Nat.modulo fst snd Nat.sub]. unfold resolve. cbn [fold_right fst snd Nat.eqb]. ring.
Qed.
Print Assumptions C70_periodic_refuted.

(** ** Components of different size: the row of the small one is lost *)
Definition scaled_kernel (x : nat -> R) (i : nat) : R := match i with 0%nat => x 0%nat | 1%nat => / 10 ^ 11 * x 1%nat | _ => 0 end.
Theorem C70_small_component_refuted : forall diag prev,
  cells_ok 2 1 1 (fun i => i) [mkAcell (fun i => i) scaled_kernel]
  /\ (forall s, initialize_system_matrix 2 1 (fun i => i) (matrix_constraints 2 (fun _ => None) (fun _ => None) false) diag [mkAcell (fun i => i) scaled_kernel] true prev 1%nat s = 0)
  /\ mf_vmult 1 (fun i => i) (fun _ => None) [mkAcell (fun i => i) scaled_kernel] (fun _ _ => 1) 1 0 = / 10 ^ 11.
Proof.
  intros diag prev. split; [| split].
  - intros c [<- | []]. cbn [a_kernel]. split; [| intros i Hi; unfold dof_mf; cbn [a_dofs]; lia]. split; [intros x y a b [| [| i]]; cbn [scaled_kernel]; ring |].
    intros x y H [| [| i]]; cbn [scaled_kernel]; rewrite ?(H 0%nat), ?(H 1%nat) by lia; reflexivity.
  - intros s. rewrite init_matrix. unfold compute_matrix. cbn [fold_left]. set (A := cell_matrix _).
    assert (P11 : 0 < / 10 ^ 11) by (apply Rinv_0_lt_compat, pow_lt; lra).
    assert (P10 : / 10 ^ 11 < / 10 ^ 10) by (apply Rinv_lt_contravar; [apply Rmult_lt_0_compat; apply pow_lt; lra |]; apply Rlt_pow; [lra | lia]).
    assert (E : drop_small 2 A 1 0 = 0 /\ drop_small 2 A 1 1 = 0).
    { destruct (max_entry_spec 2 A) as [_ [M1 _]]. specialize (M1 0%nat 0%nat ltac:(lia) ltac:(lia)).
      assert (A00 : A 0%nat 0%nat = 1) by reflexivity. rewrite A00, Rabs_R1 in M1.
      assert (A10 : A 1%nat 0%nat = 0) by (unfold A, cell_matrix; cbn [a_kernel scaled_kernel]; unfold unit_vec; cbn [Nat.eqb]; ring).
      assert (A11 : A 1%nat 1%nat = / 10 ^ 11) by (unfold A, cell_matrix; cbn [a_kernel scaled_kernel]; unfold unit_vec; cbn [Nat.eqb]; ring).
      pose proof e10 as E10. unfold drop_small. rewrite A10, A11, Rabs_R0, (Rabs_right (/ 10 ^ 11)) by lra.
      split; [destruct (Rlt_dec _ _); reflexivity |]. destruct (Rlt_dec _ _) as [L | L]; [reflexivity |]. exfalso. apply L. nra. }
    destruct E as [E0 E1]. change (2 * 1)%nat with 2%nat. unfold distribute. cbn [vsum]. unfold zero_matrix.
    change (index_all 2 1 (fun i => i) (mkAcell (fun i => i) scaled_kernel) 0) with 0%nat. change (index_all 2 1 (fun i => i) (mkAcell (fun i => i) scaled_kernel) 1) with 1%nat.
    rewrite E0, E1. unfold weight, resolve, matrix_constraints, interleaved_cons. cbn [option_map fold_right fst snd Nat.eqb andb]. destruct s as [| [| s]]; cbn [Nat.eqb]; ring.
  - unfold mf_vmult, mf_cell, weight, resolve, local_values, gather, dof_mf. cbn [fold_right vsum a_kernel a_dofs Nat.eqb Nat.mul Nat.add scaled_kernel Nat.div Nat.divmod Nat.modulo fst snd Nat.sub]. unfold resolve. cbn [fold_right fst snd]. ring.
Qed.
Print Assumptions C70_small_component_refuted.

(** ** Diagonal *)
Theorem C70_inverse_diagonal : forall d i, (/ 10 ^ 10 < Rabs (d i) -> inverse_diagonal d i * d i = 1) /\ inverse_diagonal d i <> 0 /\ (d i = 0 -> inverse_diagonal d i = 1).
Proof.
  intros d i. unfold inverse_diagonal. pose proof e10 as E. destruct (Rlt_dec (/ 10 ^ 10) (Rabs (d i))) as [L | L].
  - assert (d i <> 0) by (intros Z; rewrite Z, Rabs_R0 in L; lra). split; [intros _; field; assumption |]. split; [unfold Rdiv; rewrite Rmult_1_l; apply Rinv_neq_0_compat; assumption | contradiction].
  - split; [contradiction |]. split; [lra | reflexivity].
Qed.
Print Assumptions C70_inverse_diagonal.
Theorem C70_small_diagonal_refuted : forall d i, d i = / 10 ^ 11 -> inverse_diagonal d i * d i = / 10 ^ 11.
Proof.
  intros d i E. unfold inverse_diagonal. rewrite E. assert (0 < / 10 ^ 11) by (apply Rinv_0_lt_compat, pow_lt; lra).
  assert (/ 10 ^ 11 < / 10 ^ 10) by (apply Rinv_lt_contravar; [apply Rmult_lt_0_compat; apply pow_lt; lra |]; apply Rlt_pow; [lra | lia]).
  rewrite Rabs_right by lra. destruct (Rlt_dec _ _); [lra | ring].
Qed.
Print Assumptions C70_small_diagonal_refuted.

(** ** Numbering: interleaving is the order of the system element only if no object has more
    than one entry *)
Theorem C70_numbering : forall nc objects,
  (forall o j b, (o < length objects)%nat -> (j < nth o objects 0)%nat -> (b < nc)%nat -> system_index nc objects b o j = (scalar_index objects o j * nc + b)%nat)
  <-> (nc <= 1)%nat \/ (forall o, (o < length objects)%nat -> (nth o objects 0 <= 1)%nat).
Proof.
  intros nc objects. unfold system_index, scalar_index. split.
  - intros H. destruct (Nat.le_gt_cases nc 1) as [L | L]; [left; exact L |]. right. intros o Ho. destruct (Nat.le_gt_cases (nth o objects 0%nat) 1) as [K | K]; [exact K |]. exfalso.
    specialize (H o 1%nat 0%nat Ho K ltac:(lia)). rewrite Nat.mul_add_distr_r in H. lia.
  - intros H o j b Ho Hj Hb. destruct H as [H | H].
    + assert (b = 0)%nat by lia. assert (nc = 1)%nat by lia. subst. lia.
    + specialize (H o Ho). assert (j = 0)%nat by lia. assert (E : (nth o objects 0 = 1)%nat) by lia. rewrite E. subst. rewrite Nat.add_0_r. lia.
Qed.
Print Assumptions C70_numbering.
(** a line with two entries between two vertices *)
Example C70_numbering_case : system_index 2 [1; 1; 2]%nat 1 2 0 = 6%nat /\ (scalar_index [1; 1; 2]%nat 2 0 * 2 + 1 = 5)%nat.
Proof. split; reflexivity. Qed.
