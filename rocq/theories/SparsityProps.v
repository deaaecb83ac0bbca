(** C77: the matrices fit into their sparsity patterns. *)
From Coq Require Import List Reals Arith Bool Lia Lra.
From Verif Require Import Util OperatorModel OperatorProps AssembleModel AssembleProps SparsityModel.
Import ListNotations.
Local Open Scope R_scope.

Lemma vsum_nonzero : forall n f, vsum n f <> 0 -> exists i, (i < n)%nat /\ f i <> 0.
Proof.
  induction n as [|n IH]; intros f H; cbn [vsum] in H; [ lra | ].
  destruct (Req_EM_T (f n) 0) as [E | E].
  - destruct (IH f) as (i & L & N); [ lra | exists i; split; [ lia | exact N ] ].
  - exists n. split; [ lia | exact E ].
Qed.

(** ** The mask *)
Lemma mask_sum_nonneg : forall nq T i j, (forall q, (q < nq)%nat -> 0 <= T 0%nat i q /\ 0 <= T 0%nat j q) ->
  0 <= mask_sum nq T i j /\ (mask_sum nq T i j <> 0 <-> exists q, (q < nq)%nat /\ T 0%nat i q <> 0 /\ T 0%nat j q <> 0).
Proof.
  intros nq T i j H. unfold mask_sum. induction nq as [|n IH]; cbn [vsum].
  - split; [ lra | ]. split; [ lra | ]. intros (q & L & _). lia.
  - destruct IH as [P E]; [ intros q L; apply H; lia | ]. destruct (H n) as [A B]; [ lia | ].
    assert (K : 0 <= T 0%nat i n * T 0%nat j n) by (apply Rmult_le_pos; assumption).
    split; [ lra | ]. split.
    + intros N. destruct (Req_EM_T (T 0%nat i n * T 0%nat j n) 0) as [Z | Z].
      * destruct (proj1 E) as (q & L & U); [ lra | exists q; split; [ lia | exact U ] ].
      * exists n. split; [ lia | ]. split; intros Y; apply Z; rewrite Y; ring.
    + intros (q & L & U & V). destruct (Nat.eq_dec q n) as [-> | NE].
      * assert (0 < T 0%nat i n * T 0%nat j n) by (apply Rmult_lt_0_compat; lra). lra.
      * assert (vsum n (fun q => T 0%nat i q * T 0%nat j q) <> 0) by (apply E; exists q; split; [ lia | split; assumption ]). lra.
Qed.

(** C77: if no shape function is negative at a point of the quadrature, an entry of the mask
    is set exactly if the two shape functions share a point. *)
Theorem C77_mask : forall nq T i j, (forall q, (q < nq)%nat -> 0 <= T 0%nat i q /\ 0 <= T 0%nat j q) ->
  (scalar_mask nq T i j = true <-> exists q, (q < nq)%nat /\ T 0%nat i q <> 0 /\ T 0%nat j q <> 0).
Proof.
  intros nq T i j H. destruct (mask_sum_nonneg nq T i j H) as [_ E]. rewrite <- E. unfold scalar_mask.
  destruct (Req_EM_T (mask_sum nq T i j) 0) as [Z | Z]; split; intros K; try congruence; try reflexivity; exact Z.
Qed.
Print Assumptions C77_mask.

Lemma system_mask_spec : forall nc dpc nq T i ic j jc, (ic < nc)%nat -> (jc < nc)%nat -> (i < dpc)%nat -> (j < dpc)%nat ->
  system_mask nc dpc nq T (i * nc + ic) (j * nc + jc) = scalar_mask nq T i j.
Proof.
  intros nc dpc nq T i ic j jc A B Ci Cj. unfold system_mask. apply eq_true_iff_eq. rewrite existsb_exists. split.
  - intros (i' & I1 & H). apply existsb_exists in H. destruct H as (j' & J1 & H). apply andb_true_iff in H. destruct H as [H1 H2].
    apply existsb_exists in H2. destruct H2 as (ic' & I2 & H2). apply existsb_exists in H2. destruct H2 as (jc' & J2 & H2).
    apply andb_true_iff in H2. destruct H2 as [K L]. apply Nat.eqb_eq in K, L. apply in_seq in I1, I2, J1, J2.
    assert (i' = i). { apply (f_equal (fun x => x / nc)%nat) in K. rewrite !Nat.div_add_l, !Nat.div_small in K by lia. lia. }
    assert (j' = j). { apply (f_equal (fun x => x / nc)%nat) in L. rewrite !Nat.div_add_l, !Nat.div_small in L by lia. lia. }
    subst. exact H1.
  - intros H. exists i. split; [ apply in_seq; lia | ]. apply existsb_exists. exists j. split; [ apply in_seq; lia | ].
    rewrite H. cbn [andb]. apply existsb_exists. exists ic. split; [ apply in_seq; lia | ]. apply existsb_exists. exists jc. split; [ apply in_seq; lia | ].
    rewrite !Nat.eqb_refl. reflexivity.
Qed.

(** ** The layout: entry [i * nc + ic] of a cell in the numbering of the system is the
    interleaved index of entry [i] of the scalar field, whatever objects the cell has *)
Lemma scalar_length : forall objs, length (scalar_dofs objs) = fold_right (fun o s => (fst o + s)%nat) 0%nat objs.
Proof. induction objs as [|o objs IH]; [ reflexivity | ]. unfold scalar_dofs in *. cbn [flat_map fold_right]. rewrite app_length, seq_length, IH. reflexivity. Qed.
Theorem C77_layout : forall nc objs i ic, (i < length (scalar_dofs objs))%nat -> (ic < nc)%nat ->
  length (system_dofs nc objs) = (nc * length (scalar_dofs objs))%nat /\
  nth (i * nc + ic) (system_dofs nc objs) 0%nat = (nth i (scalar_dofs objs) 0 * nc + ic)%nat.
Proof.
  intros nc objs i ic L B. split.
  - clear L i. induction objs as [|o objs IH]; [ cbn; lia | ]. unfold scalar_dofs, system_dofs in *. cbn [flat_map]. rewrite !app_length, !seq_length, IH, Nat.mul_add_distr_l. reflexivity.
  - revert i L. induction objs as [|[n s] objs IH]; intros i L; [ cbn in L; lia | ].
    unfold scalar_dofs, system_dofs in *. cbn [flat_map fst snd] in *. rewrite app_length, seq_length in L.
    destruct (Nat.lt_ge_cases i n) as [A | A].
    + assert (i * nc + ic < nc * n)%nat by nia.
      rewrite !app_nth1 by (rewrite seq_length; lia). rewrite !seq_nth by lia. nia.
    + assert (nc * n <= i * nc + ic)%nat by nia.
      rewrite !app_nth2 by (rewrite seq_length; lia). rewrite !seq_length.
      replace (i * nc + ic - nc * n)%nat with ((i - n) * nc + ic)%nat by nia. apply IH. lia.
Qed.
Print Assumptions C77_layout.

(** ** Writing *)
Fixpoint tsum (ts : list triple) (r s : nat) : R :=
  match ts with [] => 0 | t :: ts => (if Nat.eqb (fst (fst t)) r && Nat.eqb (snd (fst t)) s then snd t else 0) + tsum ts r s end.
Lemma tsum_app : forall a b r s, tsum (a ++ b) r s = tsum a r s + tsum b r s.
Proof. induction a as [|t a IH]; intros b r s; cbn [app tsum]; [ lra | rewrite IH; lra ]. Qed.
Lemma tsum_seq : forall (f : nat -> list triple) m r s, tsum (flat_map f (seq 0 m)) r s = vsum m (fun i => tsum (f i) r s).
Proof.
  intros f m r s. induction m as [|m IH]; [ reflexivity | ].
  rewrite seq_S, flat_map_app, tsum_app, IH. cbn [vsum flat_map Nat.add]. rewrite app_nil_r. reflexivity.
Qed.
Lemma add_entries_ok : forall P ts M, (forall t, In t ts -> snd t <> 0 -> in_pattern P (fst (fst t)) (snd (fst t)) = true) ->
  exists M', add_entries P ts M = Some M' /\ forall r s, M' r s = M r s + tsum ts r s.
Proof.
  intros P ts. induction ts as [|t ts IH]; intros M H.
  - exists M. split; [ reflexivity | ]. intros r s. cbn. lra.
  - cbn [add_entries]. unfold add_entry. destruct (Req_EM_T (snd t) 0) as [Z | Z].
    + cbn [obind]. destruct (IH M) as (M' & E & K); [ intros u I; apply H; right; exact I | ].
      exists M'. split; [ exact E | ]. intros r s. rewrite K. cbn [tsum]. rewrite Z.
      destruct (Nat.eqb (fst (fst t)) r && Nat.eqb (snd (fst t)) s); lra.
    + rewrite (H t (or_introl eq_refl) Z). cbn [obind].
      destruct (IH (fun r s => M r s + (if Nat.eqb (fst (fst t)) r && Nat.eqb (snd (fst t)) s then snd t else 0))) as (M' & E & K); [ intros u I; apply H; right; exact I | ].
      exists M'. split; [ exact E | ]. intros r s. rewrite K. cbn [tsum]. lra.
Qed.
Lemma add_entries_missing : forall P ts M t, In t ts -> snd t <> 0 -> in_pattern P (fst (fst t)) (snd (fst t)) = false -> add_entries P ts M = None.
Proof.
  intros P ts. induction ts as [|u ts IH]; intros M t I N F; [ contradiction | ]. cbn [add_entries]. destruct I as [-> | I].
  - unfold add_entry. destruct (Req_EM_T (snd t) 0); [ contradiction | ]. rewrite F. reflexivity.
  - destruct (add_entry P M u) as [M'|]; [ cbn [obind]; exact (IH M' t I N F) | reflexivity ].
Qed.

Lemma tsum_products : forall le lf a r s,
  tsum (flat_map (fun e : nat * R => map (fun f : nat * R => (fst e, fst f, snd e * snd f * a)) lf) le) r s =
  fold_right (fun e x => (if Nat.eqb (fst e) r then snd e else 0) + x) 0 le * fold_right (fun e x => (if Nat.eqb (fst e) s then snd e else 0) + x) 0 lf * a.
Proof.
  intros le lf a r s. induction le as [|e le IH]; [ cbn; lra | ].
  cbn [flat_map fold_right]. rewrite tsum_app, IH.
  enough (tsum (map (fun f : nat * R => (fst e, fst f, snd e * snd f * a)) lf) r s = (if Nat.eqb (fst e) r then snd e else 0) * fold_right (fun e x => (if Nat.eqb (fst e) s then snd e else 0) + x) 0 lf * a) as E by (rewrite E; ring).
  clear IH. induction lf as [|f lf IH]; [ cbn; lra | ].
  cbn [map tsum fold_right fst snd]. rewrite IH.
  destruct (Nat.eqb (fst e) r), (Nat.eqb (fst f) s); cbn [andb]; ring.
Qed.
(** what is written adds up to what [distribute] gives *)
Lemma cell_entries_sum : forall C diag m idx A M r s, M r s + tsum (cell_entries C diag m idx A) r s = distribute C diag m idx A M r s.
Proof.
  intros C diag m idx A M r s. unfold cell_entries, distribute. rewrite tsum_app, !tsum_seq, Rplus_assoc. f_equal. f_equal.
  - apply vsum_ext. intros i Li. rewrite tsum_seq. apply vsum_ext. intros j Lj. rewrite tsum_products. reflexivity.
  - apply vsum_ext. intros i Li. destruct (C (idx i)); cbn; [ rewrite Rplus_0_r; reflexivity | ].
    destruct (Nat.eqb (idx i) r && Nat.eqb (idx i) s); reflexivity.
Qed.

Lemma in_pattern_In : forall P r s, In (r, s) P -> in_pattern P r s = true.
Proof. intros P r s I. apply existsb_exists. exists (r, s). split; [ exact I | ]. cbn. rewrite !Nat.eqb_refl. reflexivity. Qed.
Lemma in_pattern_iff : forall P r s, in_pattern P r s = true <-> In (r, s) P.
Proof.
  intros P r s. split; [ | apply in_pattern_In ]. intros H. apply existsb_exists in H. destruct H as ([a b] & I & E).
  apply andb_true_iff in E. destruct E as [E F]. apply Nat.eqb_eq in E, F. cbn in E, F. subst. exact I.
Qed.

(** the entries of a cell are in the pattern of the cell, if the local matrix has nonzero
    entries only where the mask is set; [pos] leads from the order of the local matrix to the
    order of the mask *)
Lemma cell_fits : forall C diag m mask dofs idx A pos,
  (forall i, (i < m)%nat -> (pos i < m)%nat /\ idx i = dofs (pos i)) ->
  (forall i j, (i < m)%nat -> (j < m)%nat -> A i j <> 0 -> mask (pos i) (pos j) = true) ->
  forall t, In t (cell_entries C diag m idx A) -> snd t <> 0 -> In (fst t) (cell_pattern C m mask dofs).
Proof.
  intros C diag m mask dofs idx A pos HP HA t I N. unfold cell_entries in I. unfold cell_pattern. apply in_or_app. apply in_app_or in I. destruct I as [I | I].
  - left. apply in_flat_map in I. destruct I as (i & Li & I). apply in_flat_map in I. destruct I as (j & Lj & I). apply in_flat_map in I. destruct I as (e & Ie & I).
    apply in_map_iff in I. destruct I as (f & <- & If). apply in_seq in Li, Lj. cbn [fst snd] in *.
    destruct (HP i) as [Pi Ei]; [ lia | ]. destruct (HP j) as [Pj Ej]; [ lia | ].
    apply in_flat_map. exists (pos i). split; [ apply in_seq; lia | ]. apply in_flat_map. exists (pos j). split; [ apply in_seq; lia | ].
    rewrite HA; [ | lia | lia | intros Z; apply N; rewrite Z; ring ].
    apply in_prod; apply in_map; [ rewrite <- Ei; exact Ie | rewrite <- Ej; exact If ].
  - right. apply in_flat_map in I. destruct I as (i & Li & I). apply in_seq in Li. destruct (HP i) as [Pi Ei]; [ lia | ].
    destruct (C (idx i)) as [l|] eqn:EC; [ | contradiction ]. destruct I as [<- | []]. apply in_flat_map. exists (pos i). split; [ apply in_seq; lia | ].
    rewrite <- Ei, EC. left. reflexivity.
Qed.

(** ** The local matrix *)
Definition good_table (dpc nq nt : nat) (T : table) : Prop :=
  forall i q, (i < dpc)%nat -> (q < nq)%nat -> 0 <= T 0%nat i q /\ (T 0%nat i q = 0 -> forall t, (t < nt)%nat -> T t i q = 0).

Lemma local_entry : forall nc dpc nq nt T lex objs coef k l, (0 < dpc)%nat -> good_table dpc nq nt T -> (forall i, (i < dpc)%nat -> (lex i < dpc)%nat) ->
  (k < nc * dpc)%nat -> (l < nc * dpc)%nat ->
  cell_matrix (mesh_cell nc dpc nq nt T lex objs coef) k l <> 0 -> scalar_mask nq T (lex (k mod dpc)%nat) (lex (l mod dpc)%nat) = true.
Proof.
  intros nc dpc nq nt T lex objs coef k l D G HL Lk Ll N.
  assert (Mk : (k mod dpc < dpc)%nat) by (apply Nat.mod_upper_bound; lia). assert (Ml : (l mod dpc < dpc)%nat) by (apply Nat.mod_upper_bound; lia).
  apply C77_mask; [ intros q Lq; split; apply (G _ q); auto | ].
  unfold cell_matrix, mesh_cell, point_kernel in N. cbn [a_kernel] in N.
  destruct (vsum_nonzero _ _ N) as (q & Lq & N1). destruct (vsum_nonzero _ _ N1) as (t & Lt & N2).
  assert (N3 : T t (lex (k mod dpc)%nat) q <> 0) by (intros Z; apply N2; rewrite Z; ring).
  assert (N4 : vsum nc (fun b => vsum nt (fun t' => coef q (k / dpc)%nat b t t' * evaluated dpc T lex (unit_vec l) b t' q)) <> 0) by (intros Z; apply N2; rewrite Z; ring).
  destruct (vsum_nonzero _ _ N4) as (b & Lb & N5). destruct (vsum_nonzero _ _ N5) as (t' & Lt' & N6).
  assert (N7 : evaluated dpc T lex (unit_vec l) b t' q <> 0) by (intros Z; apply N6; rewrite Z; ring).
  destruct (vsum_nonzero _ _ N7) as (j & Lj & N8). unfold unit_vec in N8. destruct (Nat.eqb (b * dpc + j) l) eqn:E; [ | exfalso; apply N8; ring ].
  apply Nat.eqb_eq in E. assert (l mod dpc = j)%nat. { subst l. rewrite Nat.add_comm, Nat.mod_add by lia. apply Nat.mod_small. lia. }
  exists q. split; [ exact Lq | ]. split.
  - intros Z. apply N3. apply (G _ q); auto.
  - intros Z. apply N8. rewrite H in Z. destruct (G (lex j) q) as [_ K]; [ auto | exact Lq | ]. rewrite (K Z t' Lt'). ring.
Qed.

Lemma drop_small_nonzero : forall m A i j, drop_small m A i j <> 0 -> A i j <> 0.
Proof. intros m A i j. unfold drop_small. destruct (Rlt_dec _ _); [ congruence | auto ]. Qed.

Lemma distribute_ext : forall C diag m idx A M M' r s, M r s = M' r s -> distribute C diag m idx A M r s = distribute C diag m idx A M' r s.
Proof. intros. unfold distribute. rewrite H. reflexivity. Qed.
Lemma compute_ext : forall nc dpc lex C diag cells M M', (forall r s, M r s = M' r s) -> forall r s, compute_matrix nc dpc lex C diag cells M r s = compute_matrix nc dpc lex C diag cells M' r s.
Proof.
  intros nc dpc lex C diag cells. induction cells as [|c cells IH]; intros M M' H r s; [ apply H | ].
  unfold compute_matrix in *. cbn [fold_left]. apply IH. intros. apply distribute_ext, H.
Qed.
Lemma block_ext : forall dpc lex C diag b cells M M', (forall r s, M r s = M' r s) -> forall r s, compute_block_matrix dpc lex C diag cells b M r s = compute_block_matrix dpc lex C diag cells b M' r s.
Proof.
  intros dpc lex C diag b cells. induction cells as [|c cells IH]; intros M M' H r s; [ apply H | ].
  unfold compute_block_matrix in *. cbn [fold_left]. apply IH. intros. apply distribute_ext, H.
Qed.

Definition mesh := list (list (nat * nat) * (nat -> nat -> nat -> nat -> nat -> R)).
Definition cells_of (nc dpc nq nt : nat) (T : table) (lex : nat -> nat) (ms : mesh) : list acell := map (fun m => mesh_cell nc dpc nq nt T lex (fst m) (snd m)) ms.
Definition mesh_ok (dpc : nat) (ms : mesh) : Prop := forall m, In m ms -> length (scalar_dofs (fst m)) = dpc.

(** C77: assembling the matrix of the system succeeds - every nonzero value finds its entry in
    the pattern - and gives the matrix of C70, for every number of components, element, mesh,
    constraints and linear operator, provided the shape functions are not negative at the
    points and vanish together with their derivatives. *)
Theorem C77_assembles : forall nc dpc nq nt T lex C diag ms M,
  (0 < dpc)%nat -> (0 < nc)%nat -> good_table dpc nq nt T -> (forall i, (i < dpc)%nat -> (lex i < dpc)%nat) -> mesh_ok dpc ms ->
  exists M', assemble_in (system_pattern nc dpc nq T C (map fst ms)) nc dpc lex C diag (cells_of nc dpc nq nt T lex ms) M = Some M' /\
    forall r s, M' r s = compute_matrix nc dpc lex C diag (cells_of nc dpc nq nt T lex ms) M r s.
Proof.
  intros nc dpc nq nt T lex C diag ms M D NC G HL HM.
  assert (SUB : forall m, In m ms -> forall e, In e (cell_pattern C (nc * dpc) (if Nat.eqb nc 1 then scalar_mask nq T else system_mask nc dpc nq T) (fun k => nth k (system_dofs nc (fst m)) 0%nat)) ->
     In e (system_pattern nc dpc nq T C (map fst ms))).
  { intros m I e Ie. unfold system_pattern. apply in_flat_map. exists (fst m). split; [ apply in_map; exact I | exact Ie ]. }
  set (P := system_pattern nc dpc nq T C (map fst ms)) in *. clearbody P. revert M HM SUB. induction ms as [|m ms IH]; intros M HM SUB.
  - exists M. split; reflexivity.
  - cbn [cells_of map assemble_in]. fold (cells_of nc dpc nq nt T lex ms).
    set (c := mesh_cell nc dpc nq nt T lex (fst m) (snd m)).
    assert (Lm : length (scalar_dofs (fst m)) = dpc) by (apply HM; left; reflexivity).
    destruct (add_entries_ok P (cell_entries C diag (nc * dpc) (index_all nc dpc lex c) (drop_small (nc * dpc) (cell_matrix c))) M) as (M1 & E1 & K1).
    { intros t It Nt. destruct t as [[r s] x]. cbn [fst snd] in *. apply in_pattern_In. apply (SUB m (or_introl eq_refl)).
      pose (pos := fun k => (lex (k mod dpc) * nc + k / dpc)%nat).
      assert (DEC : forall k, (k < nc * dpc)%nat -> (k mod dpc < dpc)%nat /\ (k / dpc < nc)%nat /\ k = (k / dpc * dpc + k mod dpc)%nat).
      { intros k Lk. split; [ apply Nat.mod_upper_bound; lia | ]. split; [ apply Nat.div_lt_upper_bound; nia | ]. rewrite (Nat.div_mod k dpc) at 1 by lia. lia. }
      refine (cell_fits C diag (nc * dpc) _ _ _ _ pos _ _ (r, s, x) It Nt).
      - intros k Lk. destruct (DEC k Lk) as (A & B & E). pose proof (HL _ A) as A'. split; [ unfold pos; nia | ].
        destruct (C77_layout nc (fst m) (lex (k mod dpc)) (k / dpc)) as [_ LAY]; [ lia | exact B | ]. unfold pos. rewrite LAY.
        rewrite E at 1. rewrite index_all_eq by (try lia; exact A). unfold dof_mf, c, mesh_cell. cbn [a_dofs]. reflexivity.
      - intros k l Lk Ll N. apply drop_small_nonzero in N. unfold c in N. pose proof (local_entry nc dpc nq nt T lex (fst m) (snd m) k l D G HL Lk Ll N) as MK.
        destruct (DEC k Lk) as (A & B & _), (DEC l Ll) as (A2 & B2 & _). unfold pos.
        destruct (Nat.eqb nc 1) eqn:E1.
        + apply Nat.eqb_eq in E1. subst nc. replace (k / dpc)%nat with 0%nat by lia. replace (l / dpc)%nat with 0%nat by lia. rewrite !Nat.mul_1_r, !Nat.add_0_r. exact MK.
        + rewrite system_mask_spec by auto. exact MK. }
    fold c. rewrite E1. cbn [obind]. destruct (IH M1) as (M2 & E2 & K2).
    { intros m' I'. apply HM. right. exact I'. } { intros m' I'. apply SUB. right. exact I'. }
    exists M2. split; [ exact E2 | ]. intros r s. rewrite K2. unfold compute_matrix. cbn [fold_left]. apply compute_ext. intros r' s'. rewrite K1. apply cell_entries_sum.
Qed.
Print Assumptions C77_assembles.

(** the same for the matrix of one component *)
Theorem C77_assembles_block : forall nc dpc nq nt T lex C diag b ms M,
  (0 < dpc)%nat -> (b < nc)%nat -> good_table dpc nq nt T -> (forall i, (i < dpc)%nat -> (lex i < dpc)%nat) -> mesh_ok dpc ms ->
  exists M', assemble_block_in (scalar_pattern dpc nq T C (map fst ms)) dpc lex C diag b (cells_of nc dpc nq nt T lex ms) M = Some M' /\
    forall r s, M' r s = compute_block_matrix dpc lex C diag (cells_of nc dpc nq nt T lex ms) b M r s.
Proof.
  intros nc dpc nq nt T lex C diag b ms M D NC G HL HM.
  assert (SUB : forall m, In m ms -> forall e, In e (cell_pattern C dpc (scalar_mask nq T) (fun k => nth k (scalar_dofs (fst m)) 0%nat)) -> In e (scalar_pattern dpc nq T C (map fst ms))).
  { intros m I e Ie. unfold scalar_pattern. apply in_flat_map. exists (fst m). split; [ apply in_map; exact I | exact Ie ]. }
  set (P := scalar_pattern dpc nq T C (map fst ms)) in *. clearbody P. revert M HM SUB. induction ms as [|m ms IH]; intros M HM SUB.
  - exists M. split; reflexivity.
  - cbn [cells_of map assemble_block_in]. fold (cells_of nc dpc nq nt T lex ms).
    set (c := mesh_cell nc dpc nq nt T lex (fst m) (snd m)).
    destruct (add_entries_ok P (cell_entries C diag dpc (dof_mf lex c) (fun i j => cell_matrix c (b * dpc + i)%nat (b * dpc + j)%nat)) M) as (M1 & E1 & K1).
    { intros t It Nt. destruct t as [[r s] x]. cbn [fst snd] in *. apply in_pattern_In. apply (SUB m (or_introl eq_refl)).
      refine (cell_fits C diag dpc _ _ _ _ lex _ _ (r, s, x) It Nt).
      - intros k Lk. split; [ apply HL; exact Lk | reflexivity ].
      - intros k l Lk Ll N. unfold c in N. pose proof (local_entry nc dpc nq nt T lex (fst m) (snd m) (b * dpc + k) (b * dpc + l) D G HL ltac:(nia) ltac:(nia) N) as MK.
        replace ((b * dpc + k) mod dpc)%nat with k in MK by (rewrite Nat.add_comm, Nat.mod_add, Nat.mod_small; lia).
        replace ((b * dpc + l) mod dpc)%nat with l in MK by (rewrite Nat.add_comm, Nat.mod_add, Nat.mod_small; lia). exact MK. }
    rewrite E1. cbn [obind]. destruct (IH M1) as (M2 & E2 & K2).
    { intros m' I'. apply HM. right. exact I'. } { intros m' I'. apply SUB. right. exact I'. }
    exists M2. split; [ exact E2 | ]. intros r s. rewrite K2. unfold compute_block_matrix. cbn [fold_left]. apply block_ext. intros r' s'. rewrite K1. apply cell_entries_sum.
Qed.
Print Assumptions C77_assembles_block.

(** ** Hat functions *)
Lemma prod_zero : forall n f, prod_n n f = 0 -> exists d, (d < n)%nat /\ f d = 0.
Proof.
  induction n as [|n IH]; intros f H; cbn [prod_n] in H; [ lra | ]. apply Rmult_integral in H. destruct H as [H | H].
  - destruct (IH f H) as (d & L & E). exists d. split; [ lia | exact E ].
  - exists n. split; [ lia | exact H ].
Qed.
Lemma prod_has_zero : forall n f d, (d < n)%nat -> f d = 0 -> prod_n n f = 0.
Proof.
  induction n as [|n IH]; intros f d L E; [ lia | ]. cbn [prod_n]. destruct (Nat.eq_dec d n) as [-> | N]; [ rewrite E; ring | ].
  rewrite (IH f d) by (try lia; exact E). ring.
Qed.
Lemma prod_nonneg : forall n f, (forall d, (d < n)%nat -> 0 <= f d) -> 0 <= prod_n n f.
Proof. induction n as [|n IH]; intros f H; cbn [prod_n]; [ lra | ]. apply Rmult_le_pos; [ apply IH; intros; apply H; lia | apply H; lia ]. Qed.
Lemma hat_nonneg : forall m k x, 0 <= hat m k x.
Proof. intros. apply Rmax_l. Qed.
Lemma hat_zero : forall m k x, hat m k x = 0 -> hat_slope m k x = 0.
Proof.
  intros m k x H. unfold hat in H. unfold hat_slope. destruct (Rlt_dec (Rabs (INR m * x - INR k)) 1) as [L | L]; [ | reflexivity ].
  exfalso. pose proof (Rmax_r 0 (1 - Rabs (INR m * x - INR k))). lra.
Qed.
(** the slope is the derivative away from the nodes *)
Lemma hat_derivative : forall m k x, (forall j : Z, INR m * x <> IZR j) -> derivable_pt_lim (hat m k) x (hat_slope m k x).
Proof.
  intros m k x NN.
  assert (HM : 0 <= INR m) by apply pos_INR.
  assert (N0 : INR m * x <> INR k) by (rewrite (INR_IZR_INZ k); apply NN).
  assert (N1 : INR m * x - INR k <> 1). { intros E. apply (NN (Z.of_nat k + 1)%Z). rewrite plus_IZR, <- (INR_IZR_INZ k). lra. }
  assert (N2 : INR m * x - INR k <> -1). { intros E. apply (NN (Z.of_nat k - 1)%Z). rewrite minus_IZR, <- (INR_IZR_INZ k). lra. }
  set (y := INR m * x - INR k) in *.
  (* a neighbourhood without nodes *)
  assert (EX : exists d, 0 < d /\ forall z, Rabs z < d -> Rabs (INR m * z) < Rmin (Rabs y) (Rmin (Rabs (y - 1)) (Rabs (y + 1)))).
  { set (g := Rmin (Rabs y) (Rmin (Rabs (y - 1)) (Rabs (y + 1)))).
    assert (0 < g). { unfold g. repeat apply Rmin_glb_lt; apply Rabs_pos_lt; intros E; unfold y in E, N1, N2; first [ apply N0; lra | apply N1; lra | apply N2; lra ]. }
    exists (g / (INR m + 1)). split; [ apply Rdiv_lt_0_compat; lra | ]. intros z Hz. rewrite Rabs_mult, (Rabs_pos_eq (INR m)) by exact HM.
    apply Rle_lt_trans with (INR m * (g / (INR m + 1))); [ apply Rmult_le_compat_l; lra | ].
    apply Rmult_lt_reg_r with (INR m + 1); [ lra | ]. replace (INR m * (g / (INR m + 1)) * (INR m + 1)) with (INR m * g) by (field; lra). nra. }
  destruct EX as (d & Pd & HD). intros eps Pe. exists (mkposreal d Pd). intros h Nh Hh. cbn in Hh. specialize (HD h Hh).
  replace ((hat m k (x + h) - hat m k x) / h) with (hat_slope m k x); [ rewrite Rminus_diag_eq, Rabs_R0 by reflexivity; exact Pe | ].
  assert (B1 : Rabs (INR m * h) < Rabs y) by (eapply Rlt_le_trans; [ exact HD | apply Rmin_l ]).
  assert (B2 : Rabs (INR m * h) < Rabs (y - 1)) by (eapply Rlt_le_trans; [ exact HD | eapply Rle_trans; [ apply Rmin_r | apply Rmin_l ] ]).
  assert (B3 : Rabs (INR m * h) < Rabs (y + 1)) by (eapply Rlt_le_trans; [ exact HD | eapply Rle_trans; [ apply Rmin_r | apply Rmin_r ] ]).
  unfold hat, hat_slope. replace (INR m * (x + h) - INR k) with (y + INR m * h) by (unfold y; ring). fold y.
  assert (N0' : y <> 0) by (intros E; unfold y in E; apply N0; lra).
  set (w := INR m * h) in *. assert (W : INR m = w / h) by (unfold w; field; exact Nh).
  apply (Rmult_eq_reg_r h); [ | exact Nh ]. replace ((Rmax 0 (1 - Rabs (y + w)) - Rmax 0 (1 - Rabs y)) / h * h) with (Rmax 0 (1 - Rabs (y + w)) - Rmax 0 (1 - Rabs y)) by (field; exact Nh).
  assert (SW : INR m * h = w) by reflexivity.
  destruct (Rlt_dec (Rabs y) 1) as [L1 | L1].
  - destruct (Rlt_dec (INR m * x) (INR k)) as [L2 | L2].
    + assert (y < 0) by (unfold y; lra). rewrite SW. clear - L1 H B1 B2 B3. unfold Rmax. revert L1 B1 B2 B3. unfold Rabs. repeat destruct (Rcase_abs _); repeat destruct (Rle_dec _ _); lra.
    + assert (0 < y) by (unfold y in *; lra). replace (- INR m * h) with (- w) by (rewrite <- SW; ring). clear - L1 H B1 B2 B3. unfold Rmax. revert L1 B1 B2 B3. unfold Rabs. repeat destruct (Rcase_abs _); repeat destruct (Rle_dec _ _); lra.
  - rewrite Rmult_0_l. clear - L1 N1 N2 B1 B2 B3. unfold Rmax. revert L1 B1 B2 B3. unfold Rabs. repeat destruct (Rcase_abs _); repeat destruct (Rle_dec _ _); lra.
Qed.

(** C77: FE_Q of degree one and FE_Q_iso_Q1 meet the condition, in every dimension, with every
    number of subdivisions and all points; away from the nodes the table holds the
    derivatives. *)
Theorem C77_elements : forall dim m idx pts dpc nq,
  good_table dpc nq (S dim) (tensor_table dim m idx pts) /\
  (forall k x, (forall j : Z, INR m * x <> IZR j) -> derivable_pt_lim (hat m k) x (hat_slope m k x)).
Proof.
  intros dim m idx pts dpc nq. split; [ | intros; apply hat_derivative; assumption ].
  intros i q Li Lq. cbn [tensor_table]. split; [ apply prod_nonneg; intros; apply hat_nonneg | ].
  intros Z t Lt. destruct t as [|e]; [ exact Z | ]. cbn [tensor_table]. destruct (prod_zero _ _ Z) as (d & Ld & Ed).
  apply (prod_has_zero dim _ d Ld). cbn beta in *. destruct (Nat.eqb d e); [ apply hat_zero; exact Ed | exact Ed ].
Qed.
Print Assumptions C77_elements.

(** ** FE_Q of degree two with one point: the middle of the cell.  Functions of the two
    vertices and the middle: values 0, 0, 1, derivatives -1, 1, 0. *)
Definition quadratic_table : table := fun t i q => match t, i with
  | 0%nat, 2%nat => 1 | 1%nat, 0%nat => -1 | 1%nat, 1%nat => 1 | _, _ => 0 end.
Definition quadratic_mesh : mesh := [([(1, 0); (1, 1); (1, 2)]%nat, fun q b b' t t' => if (Nat.eqb t 1 && Nat.eqb t' 1)%bool then 1 else 0)].

(** C77 refuted: with this element the operator of diffusion couples the two vertices, the
    pattern does not have the entry, and assembling fails - for the system matrix and for
    the block matrix. *)
Theorem C77_refuted : forall diag M,
  let P := scalar_pattern 3 1 quadratic_table (fun _ => None) (map fst quadratic_mesh) in
  let cells := cells_of 1 3 1 2 quadratic_table (fun i => i) quadratic_mesh in
  mesh_ok 3 quadratic_mesh /\
  (forall x, derivable_pt_lim (fun x => (1 - x) * (1 - 2 * x)) x (4 * x - 3)) /\ (1 - 1 / 2) * (1 - 2 * (1 / 2)) = quadratic_table 0 0 0 /\ 4 * (1 / 2) - 3 = quadratic_table 1 0 0 /\
  compute_matrix 1 3 (fun i => i) (fun _ => None) diag cells zero_matrix 0%nat 1%nat <> 0 /\
  assemble_in (system_pattern 1 3 1 quadratic_table (fun _ => None) (map fst quadratic_mesh)) 1 3 (fun i => i) (fun _ => None) diag cells M = None /\
  assemble_block_in P 3 (fun i => i) (fun _ => None) diag 0 cells M = None.
Proof.
  intros diag M. cbv zeta.
  assert (ENT : forall c, c = mesh_cell 1 3 1 2 quadratic_table (fun i => i) [(1, 0); (1, 1); (1, 2)]%nat (fun q b b' t t' => if (Nat.eqb t 1 && Nat.eqb t' 1)%bool then 1 else 0) ->
    forall i j, (i < 3)%nat -> (j < 3)%nat -> cell_matrix c i j = quadratic_table 1 i 0 * quadratic_table 1 j 0).
  { intros c -> i j Li Lj. unfold cell_matrix, mesh_cell, point_kernel, evaluated, unit_vec. cbn [a_kernel vsum].
    destruct i as [|[|[|i]]]; [ | | | lia ]; (destruct j as [|[|[|j]]]; [ | | | lia ]); cbn; ring. }
  assert (PAT : scalar_mask 1 quadratic_table 0 1 = false).
  { unfold scalar_mask, mask_sum. cbn [vsum quadratic_table]. destruct (Req_EM_T _ 0) as [E | E]; [ reflexivity | exfalso; apply E; ring ]. }
  assert (M01 : forall x, x <> 2%nat -> forall y, scalar_mask 1 quadratic_table x y = false).
  { intros x Nx y. unfold scalar_mask, mask_sum. cbn [vsum quadratic_table]. destruct (Req_EM_T _ 0) as [E | E]; [ reflexivity | exfalso; apply E ].
    destruct x as [|[|[|x]]]; try (exfalso; lia); destruct y as [|[|[|y]]]; ring. }
  assert (NOTIN : forall n, (n = 3)%nat -> in_pattern (cell_pattern (fun _ => None) n (scalar_mask 1 quadratic_table) (fun k => nth k (scalar_dofs [(1, 0); (1, 1); (1, 2)]%nat) 0%nat) ++ []) 0 1 = false).
  { intros n ->. rewrite app_nil_r. apply not_true_iff_false. intros H. apply in_pattern_iff in H. unfold cell_pattern in H. apply in_app_or in H. destruct H as [H | H].
    - apply in_flat_map in H. destruct H as (k & Lk & H). apply in_flat_map in H. destruct H as (l & Ll & H).
      apply in_seq in Lk, Ll. destruct (Nat.eq_dec k 2) as [-> | Nk].
      + destruct (scalar_mask 1 quadratic_table 2 l); [ | contradiction ]. apply in_prod_iff in H. destruct H as [H _]. cbn in H. destruct H as [H | []]. discriminate.
      + rewrite M01 in H by exact Nk. contradiction.
    - apply in_flat_map in H. destruct H as (k & Lk & H). contradiction. }
  split; [ intros m [<- | []]; reflexivity | ].
  split.
  { intros x. replace (4 * x - 3) with ((0 - 1) * (1 - 2 * x) + (1 - x) * (0 - 2 * 1)) by ring.
    apply (derivable_pt_lim_mult (fun x => 1 - x) (fun x => 1 - 2 * x)).
    - apply (derivable_pt_lim_minus (fct_cte 1) id); [ apply derivable_pt_lim_const | apply derivable_pt_lim_id ].
    - apply (derivable_pt_lim_minus (fct_cte 1) (mult_real_fct 2 id)); [ apply derivable_pt_lim_const | apply derivable_pt_lim_scal, derivable_pt_lim_id ]. }
  split; [ cbn; lra | ]. split; [ cbn; lra | ].
  set (c := mesh_cell 1 3 1 2 quadratic_table (fun i => i) [(1, 0); (1, 1); (1, 2)]%nat (fun q b b' t t' => if (Nat.eqb t 1 && Nat.eqb t' 1)%bool then 1 else 0)) in *.
  assert (CE := ENT c eq_refl).
  assert (MAX : max_entry (1 * 3) (cell_matrix c) <= 1).
  { apply max_entry_spec; [ lra | ]. intros i j Li Lj. cbn [Nat.mul Nat.add] in Li, Lj. rewrite CE by lia.
    destruct i as [|[|[|i]]]; [ | | | lia ]; (destruct j as [|[|[|j]]]; [ | | | lia ]); cbn; unfold Rabs; destruct (Rcase_abs _); lra. }
  assert (D01 : drop_small (1 * 3) (cell_matrix c) 0 1 = -1).
  { unfold drop_small. rewrite CE by lia. replace (quadratic_table 1 0 0 * quadratic_table 1 1 0) with (-1) by (cbn; ring).
    destruct (Rlt_dec _ _) as [L | L]; [ | reflexivity ]. exfalso. rewrite Rabs_left in L by lra. assert (/ 10 ^ 10 < 1) by (rewrite <- Rinv_1; apply Rinv_lt_contravar; lra).
    pose proof e10. nra. }
  split.
  { unfold cells_of, quadratic_mesh. cbn [map fst snd]. fold c. unfold compute_matrix. cbn [fold_left]. set (D := drop_small (1 * 3) (cell_matrix c)) in *. clearbody D.
    unfold distribute. cbn. rewrite D01. unfold zero_matrix. intros E. lra. }
  split.
  - unfold cells_of, quadratic_mesh. cbn [map fst snd]. fold c. cbn [assemble_in].
    rewrite (add_entries_missing _ _ M (0%nat, 1%nat, 1 * 1 * -1)); [ reflexivity | | cbn; lra | exact (NOTIN 3%nat eq_refl) ].
    unfold cell_entries. apply in_or_app. left. apply in_flat_map. exists 0%nat. split; [ apply in_seq; lia | ]. apply in_flat_map. exists 1%nat. split; [ apply in_seq; lia | ].
    rewrite D01. left. reflexivity.
  - unfold cells_of, quadratic_mesh. cbn [map fst snd]. fold c. cbn [assemble_block_in].
    rewrite (add_entries_missing _ _ M (0%nat, 1%nat, 1 * 1 * -1)); [ reflexivity | | cbn; lra | exact (NOTIN 3%nat eq_refl) ].
    unfold cell_entries. apply in_or_app. left. apply in_flat_map. exists 0%nat. split; [ apply in_seq; lia | ]. apply in_flat_map. exists 1%nat. split; [ apply in_seq; lia | ].
    rewrite CE by lia. left. cbn. f_equal. ring.
Qed.
Print Assumptions C77_refuted.

(** two cells of FE_Q_iso_Q1 with three subdivisions on a line, two components: the lines have
    two entries each, the middle vertex is shared *)
Definition iso_mesh : mesh := [([(1, 0); (1, 1); (2, 2)]%nat, fun q b b' t t' => INR (1 + b + b')); ([(1, 1); (1, 4); (2, 5)]%nat, fun q b b' t t' => 1)].
Definition iso_idx (i d : nat) : nat := nth i [0; 3; 1; 2]%nat 0%nat.
Definition iso_pts (q d : nat) : R := (2 * INR q + 1) / 6.
Example C77_example : forall diag M,
  exists M', assemble_in (system_pattern 2 4 3 (tensor_table 1 3 iso_idx iso_pts) (fun _ => None) (map fst iso_mesh)) 2 4 (fun i => nth i [0; 2; 3; 1]%nat 0%nat) (fun _ => None) diag
    (cells_of 2 4 3 2 (tensor_table 1 3 iso_idx iso_pts) (fun i => nth i [0; 2; 3; 1]%nat 0%nat) iso_mesh) M = Some M'.
Proof.
  intros diag M. destruct (C77_assembles 2 4 3 2 (tensor_table 1 3 iso_idx iso_pts) (fun i => nth i [0; 2; 3; 1]%nat 0%nat) (fun _ => None) diag iso_mesh M) as (M' & E & _).
  - lia. - lia. - apply C77_elements.
  - intros i Li. destruct i as [|[|[|[|i]]]]; cbn; lia.
  - intros m [<- | [<- | []]]; reflexivity.
  - exists M'. exact E.
Qed.
Example C77_layout_example : system_dofs 2 [(1, 0); (1, 1); (2, 2)]%nat = [0; 1; 2; 3; 4; 5; 6; 7]%nat /\ system_dofs 2 [(1, 1); (1, 4); (2, 5)]%nat = [2; 3; 8; 9; 10; 11; 12; 13]%nat /\ scalar_dofs [(1, 1); (1, 4); (2, 5)]%nat = [1; 4; 5; 6]%nat.
Proof. repeat split. Qed.
(** the entry of two neighbouring hats is in the mask, that of two far ones is not *)
Example C77_mask_example : scalar_mask 3 (tensor_table 1 3 iso_idx iso_pts) 0 2 = true /\ scalar_mask 3 (tensor_table 1 3 iso_idx iso_pts) 0 3 = false.
Proof.
  assert (H : forall k q, (q < 3)%nat -> hat 3 k (iso_pts q 0) = Rmax 0 (1 - Rabs (INR q + 1 / 2 - INR k))) by (intros k q Lq; unfold hat, iso_pts; f_equal; f_equal; f_equal; change (INR 3) with (2 + 1); field).
  split.
  - apply C77_mask; [ intros q Lq; split; apply C77_elements with (dpc := 4%nat) (nq := 3%nat); lia | ].
    exists 0%nat. split; [ lia | ]. cbn [tensor_table prod_n iso_idx nth]. rewrite !H by lia. cbn [INR]. unfold Rmax, Rabs. split; repeat destruct (Rcase_abs _); repeat destruct (Rle_dec _ _); lra.
  - apply not_true_iff_false. intros E. apply C77_mask in E; [ | intros q Lq; split; apply C77_elements with (dpc := 4%nat) (nq := 3%nat); lia ].
    destruct E as (q & Lq & A & B). cbn [tensor_table prod_n iso_idx nth] in A, B. rewrite !H in A, B by exact Lq.
    destruct q as [|[|[|q]]]; [ | | | lia ]; cbn [INR] in A, B; unfold Rmax, Rabs in A, B; revert A B; repeat destruct (Rcase_abs _); repeat destruct (Rle_dec _ _); intros; lra.
Qed.
