(** Properties of the report of the memory in use (claim C125). *)
From Coq Require Import QArith NArith List Bool Arith Lia.
From Verif Require Import Util MemoryModel.
Import ListNotations.
Local Open Scope N_scope.
Local Open Scope list_scope.

Definition sum_n (l : list N) : N := fold_right N.add 0 l.

(** ** Containers *)

(** The sizes held by an object: those of the values and of the objects at the end of the
    pointers. *)
Inductive holds : mem -> list N -> Prop :=
| holds_value : forall n, holds (Fundamental n) [n]
| holds_object : forall n, holds (Object (Some n)) [n]
| holds_null : holds (Pointer None) []
| holds_pointer : forall m l, holds m l -> holds (Pointer (Some m)) l
| holds_vector : forall ms ls, Forall2 holds ms ls -> holds (Vector ms) (concat ls)
| holds_levels : forall ms ls, Forall2 holds ms ls -> holds (Levels ms) (concat ls).

(** An object without a report is met. *)
Inductive unreported : mem -> Prop :=
| un_object : unreported (Object None)
| un_pointer : forall m, unreported m -> unreported (Pointer (Some m))
| un_vector : forall ms m, In m ms -> unreported m -> unreported (Vector ms)
| un_levels : forall ms m, In m ms -> unreported m -> unreported (Levels ms).

Lemma sum_app : forall a b, sum_n (a ++ b) = sum_n a + sum_n b.
Proof. induction a as [|x a IH]; intros b; cbn [sum_n fold_right app]; [reflexivity|]. fold (sum_n (a ++ b)). fold (sum_n a). rewrite IH. lia. Qed.

Lemma fold_none : forall (f : mem -> option N) ms, fold_left (fun acc m => plus_report acc (f m)) ms None = None.
Proof. intros f ms. induction ms as [|m ms IH]; [reflexivity|]. exact IH. Qed.

Lemma fold_sum : forall (f : mem -> option N) ms ns a, Forall2 (fun m n => f m = Some n) ms ns ->
  fold_left (fun acc m => plus_report acc (f m)) ms (Some a) = Some (a + sum_n ns).
Proof.
  intros f ms ns a H. revert a. induction H as [|m n ms ns E H IH]; intros a.
  - cbn. f_equal. lia.
  - cbn [fold_left]. rewrite E. cbn [plus_report obind]. rewrite IH. cbn [sum_n fold_right].
    fold (sum_n ns). f_equal. lia.
Qed.

Lemma fold_bad : forall (f : mem -> option N) ms m a, In m ms -> f m = None ->
  fold_left (fun acc m => plus_report acc (f m)) ms a = None.
Proof.
  intros f ms. induction ms as [|x ms IH]; intros m a [] E.
  - subst x. cbn [fold_left]. rewrite E. destruct a; apply fold_none.
  - cbn [fold_left]. exact (IH m _ H E).
Qed.

Fixpoint holds_report (m : mem) (l : list N) (H : holds m l) {struct H} : consumption m = Some (sum_n l).
Proof.
  destruct H as [n|n| |m l H|ms ls H|ms ls H].
  - cbn. f_equal. lia.
  - cbn. f_equal. lia.
  - reflexivity.
  - cbn [consumption]. exact (holds_report m l H).
  - cbn [consumption].
    assert (E : Forall2 (fun m n => consumption m = Some n) ms (map sum_n ls)).
    { induction H as [|m l ms ls Hm H IH]; cbn [map]; constructor; [exact (holds_report m l Hm)|exact IH]. }
    rewrite (fold_sum _ _ _ _ E). f_equal. clear. induction ls as [|l ls IH]; [reflexivity|].
    cbn [map sum_n fold_right concat]. rewrite sum_app. fold (sum_n (map sum_n ls)). lia.
  - cbn [consumption].
    assert (E : Forall2 (fun m n => consumption m = Some n) ms (map sum_n ls)).
    { induction H as [|m l ms ls Hm H IH]; cbn [map]; constructor; [exact (holds_report m l Hm)|exact IH]. }
    rewrite (fold_sum _ _ _ _ E). f_equal. clear. induction ls as [|l ls IH]; [reflexivity|].
    cbn [map sum_n fold_right concat]. rewrite sum_app. fold (sum_n (map sum_n ls)). lia.
Qed.

Lemma unreported_throws : forall m, unreported m -> consumption m = None.
Proof.
  intros m H. induction H as [|m H IH|ms m Hin H IH|ms m Hin H IH]; cbn [consumption].
  - reflexivity.
  - exact IH.
  - exact (fold_bad _ _ _ _ Hin IH).
  - exact (fold_bad _ _ _ _ Hin IH).
Qed.

Fixpoint holds_or_not (m : mem) : (exists l, holds m l) \/ unreported m.
Proof.
  assert (L : forall ms, (fix go (ms : list mem) : Prop := match ms with [] => True | m :: r => ((exists l, holds m l) \/ unreported m) /\ go r end) ms ->
    (exists ls, Forall2 holds ms ls) \/ (exists m, In m ms /\ unreported m)).
  { induction ms as [|x ms IH]; intros G; [left; exists []; constructor|].
    destruct G as [[[l Hl]|Hu] G]; [|right; exists x; split; [left; reflexivity|exact Hu]].
    destruct (IH G) as [[ls Hls]|(y & Hy & Hu)].
    - left. exists (l :: ls). constructor; assumption.
    - right. exists y. split; [right; exact Hy|exact Hu]. }
  destruct m as [n|[n|]|[m|]|ms|ms].
  - left. eexists. constructor.
  - left. eexists. constructor.
  - right. constructor.
  - destruct (holds_or_not m) as [[l H]|H]; [left; eexists; constructor; exact H|right; constructor; exact H].
  - left. eexists. constructor.
  - destruct (L ms) as [[ls H]|(m & Hm & H)].
    + induction ms as [|m ms IH]; [exact I|split; [exact (holds_or_not m)|exact IH]].
    + left. eexists. constructor. exact H.
    + right. econstructor; eassumption.
  - destruct (L ms) as [[ls H]|(m & Hm & H)].
    + induction ms as [|m ms IH]; [exact I|split; [exact (holds_or_not m)|exact IH]].
    + left. eexists. constructor. exact H.
    + right. econstructor; eassumption.
Qed.

(** The report of any nesting of containers and pointers is the sum of the sizes held; there is
    an exception exactly if an object without a report is met. *)
Theorem C125_containers : forall m,
  (forall l, holds m l -> consumption m = Some (fold_right N.add 0 l)) /\
  (consumption m = None <-> unreported m) /\
  (consumption m <> None -> exists l, holds m l).
Proof.
  intros m. split; [exact (holds_report m)|]. split.
  - split; [|exact (unreported_throws m)]. intro E.
    destruct (holds_or_not m) as [[l H]|H]; [|exact H]. rewrite (holds_report m l H) in E. discriminate.
  - intro E. destruct (holds_or_not m) as [H|H]; [exact H|]. elim E. exact (unreported_throws m H).
Qed.

(** ** Operators *)

Definition matrices (o : operator_data) : list (nat * N) :=
  flat_map (fun b => match b with Some x => [x] | None => [] end) (od_blocks o).

Definition matrix_dec : forall x y : nat * N, {x = y} + {x <> y}.
Proof. decide equality; [apply N.eq_dec|apply Nat.eq_dec]. Defined.

(** The memory held by the members of an operator, every matrix counted once. *)
Definition held (o : operator_data) : N :=
  od_constraints o + od_system o + sum_n (map snd (nodup matrix_dec (matrices o)))
  + sum_n (od_src o) + sum_n (od_dst o) + 4 * N.of_nat (od_indices o) + 8 * N.of_nat (od_values o).

Lemma blocks_report : forall l, consumption (Vector (map matrix_pointer l)) =
  Some (sum_n (map snd (flat_map (fun b : option (nat * N) => match b with Some x => [x] | None => [] end) l))).
Proof.
  intros l.
  assert (H : holds (Vector (map matrix_pointer l))
    (concat (map (fun b : option (nat * N) => match b with Some x => [snd x] | None => [] end) l))).
  { constructor. induction l as [|[x|] l IH]; cbn [map]; constructor; try exact IH; cbn; repeat constructor. }
  rewrite (holds_report _ _ H). do 2 f_equal.
  clear. induction l as [|[x|] l IH]; cbn [map concat flat_map app]; [reflexivity|f_equal; exact IH|exact IH].
Qed.

Lemma vector_report : forall l, consumption (block_vector l) = Some (sum_n l).
Proof.
  intros l. unfold block_vector.
  assert (H : holds (Vector (map (fun n => Pointer (Some (Object (Some n)))) l)) (concat (map (fun n => [n]) l))).
  { constructor. induction l as [|x l IH]; cbn [map]; constructor; [repeat constructor|exact IH]. }
  rewrite (holds_report _ _ H). do 2 f_equal.
  clear. induction l as [|x l IH]; cbn [map concat app]; [reflexivity|f_equal; exact IH].
Qed.

Lemma values_report : forall b n, consumption (Vector (repeat (Fundamental b) n)) = Some (b * N.of_nat n).
Proof.
  intros b n.
  assert (H : holds (Vector (repeat (Fundamental b) n)) (concat (repeat [b] n))).
  { constructor. induction n as [|n IH]; cbn [repeat]; constructor; [constructor|exact IH]. }
  rewrite (holds_report _ _ H). f_equal. clear.
  induction n as [|n IH]; [cbn; lia|]. cbn [repeat concat app sum_n fold_right].
  fold (sum_n (concat (repeat [b] n))). rewrite IH. lia.
Qed.

Lemma nodup_le : forall l : list (nat * N), sum_n (map snd (nodup matrix_dec l)) <= sum_n (map snd l).
Proof.
  induction l as [|x l IH]; [reflexivity|]. cbn [nodup].
  destruct (in_dec matrix_dec x l); cbn [map sum_n fold_right];
    fold (sum_n (map snd l)); try fold (sum_n (map snd (nodup matrix_dec l))); lia.
Qed.

Lemma operator_report : forall o, operator_memory o =
  Some (od_constraints o + od_system o + 2 * sum_n (map snd (matrices o))
    + sum_n (od_src o) + sum_n (od_dst o) + 4 * N.of_nat (od_indices o) + 8 * N.of_nat (od_values o)).
Proof.
  intros o. unfold operator_memory. rewrite blocks_report, !vector_report, !values_report.
  fold (matrices o). cbn [plus_report obind]. f_equal. lia.
Qed.

(** Without block matrices the report of an operator is what its members hold. *)
Theorem C125_operator : forall o, matrices o = [] -> operator_memory o = Some (held o).
Proof. intros o H. rewrite operator_report. unfold held. rewrite H. cbn [nodup map sum_n fold_right]. f_equal; lia. Qed.

(** With any that take memory it is too large: they are added twice, and shared ones again for
    every block. *)
Theorem C125_operator_refuted : forall o, 0 < sum_n (map snd (matrices o)) ->
  exists n, operator_memory o = Some n /\ held o + sum_n (map snd (matrices o)) <= n /\ held o < n.
Proof.
  intros o H. rewrite operator_report. eexists. split; [reflexivity|].
  pose proof (nodup_le (matrices o)). unfold held. lia.
Qed.

(** ** Preconditioners *)

(** The preconditioners asked for their report when [p] is. *)
Inductive asks : precond -> precond -> Prop :=
| asks_self : forall p, asks p p
| asks_first : forall a b c d e f p q r x, asks p x -> asks (BlockPreconditioner a b c d e f (Some p) q r) x
| asks_second : forall a b c d e f q p r x, asks p x -> asks (BlockPreconditioner a b c d e f q (Some p) r) x.

Lemma operator_pointer_report : forall o, exists n, consumption (operator_pointer o) = Some n.
Proof. intros [o|]; cbn; [rewrite operator_report|]; eauto. Qed.

Lemma operator_levels_report : forall l, exists n, consumption (Levels (map operator_pointer l)) = Some n.
Proof.
  intros l. destruct (consumption (Levels (map operator_pointer l))) as [n|] eqn:E; [eauto|].
  exfalso. apply C125_containers in E. inversion E as [| | |ms m Hin Hu]; subst.
  apply in_map_iff in Hin. destruct Hin as (o & <- & _).
  destruct (operator_pointer_report o) as [n Hn]. rewrite (unreported_throws _ Hu) in Hn. discriminate.
Qed.

Fixpoint depth (p : precond) : nat :=
  match p with
  | BlockPreconditioner _ _ _ _ _ _ p0 p1 _ =>
      S (Nat.max (match p0 with Some p => depth p | None => O end) (match p1 with Some p => depth p | None => O end))
  | _ => O
  end.

(** The report of a preconditioner is an exception exactly if a geometric multigrid method or a
    block diagonal inverse is asked, at the top or as the first or second preconditioner of a
    block preconditioner. *)
Theorem C125_preconditioner : forall p,
  precond_memory p = None <->
  exists x, asks p x /\ (x = Gmg \/ x = InverseComponentBlockDiagonal \/ x = InverseBlockDiagonal).
Proof.
  assert (Bound : forall n p, (depth p < n)%nat -> precond_memory p = None <->
    exists x, asks p x /\ (x = Gmg \/ x = InverseComponentBlockDiagonal \/ x = InverseBlockDiagonal));
    [|intros p; exact (Bound (S (depth p)) p (Nat.lt_succ_diag_r _))].
  induction n as [|n IHn]; intros p Hdep; [lia|].
  assert (S : forall q, (forall x, asks q x -> x = q) -> precond_memory q <> None ->
    q <> Gmg -> q <> InverseComponentBlockDiagonal -> q <> InverseBlockDiagonal ->
    (precond_memory q = None <-> exists x, asks q x /\ (x = Gmg \/ x = InverseComponentBlockDiagonal \/ x = InverseBlockDiagonal))).
  { intros q Hq Hn H1 H2 H3. split; [intro; contradiction|].
    intros (x & Hx & H). rewrite (Hq x Hx) in H. tauto. }
  destruct p as [|d| | |a src dst|l|f src dst|f|f src dst| |op0 op1 op1b op2 mg1 mgb p0 p1 p2].
  - apply S; try discriminate. intros x Hx. inversion Hx; reflexivity.
  - apply S; try discriminate. intros x Hx. inversion Hx; reflexivity.
  - split; [|reflexivity]. intros _. eexists. split; [apply asks_self|tauto].
  - split; [|reflexivity]. intros _. eexists. split; [apply asks_self|tauto].
  - apply S; try discriminate; [intros x Hx; inversion Hx; reflexivity|].
    cbn [precond_memory]. rewrite !vector_report. discriminate.
  - apply S; try discriminate; [intros x Hx; inversion Hx; reflexivity|].
    cbn [precond_memory]. rewrite !vector_report. discriminate.
  - apply S; try discriminate; [intros x Hx; inversion Hx; reflexivity|].
    cbn [precond_memory]. rewrite !vector_report. discriminate.
  - apply S; try discriminate. intros x Hx. inversion Hx; reflexivity.
  - apply S; try discriminate; [intros x Hx; inversion Hx; reflexivity|].
    cbn [precond_memory]. rewrite !vector_report. discriminate.
  - split; [|reflexivity]. intros _. eexists. split; [apply asks_self|tauto].
  - cbn [precond_memory].
    destruct (operator_pointer_report op0) as [n0 ->]. destruct (operator_pointer_report op1) as [n1 ->].
    destruct (operator_pointer_report op1b) as [n2 ->]. destruct (operator_levels_report mg1) as [n3 ->].
    destruct (operator_levels_report mgb) as [n4 ->]. cbn [plus_report obind].
    cbn [depth] in Hdep.
    assert (IH0 : forall q, p0 = Some q -> precond_memory q = None <->
      exists x, asks q x /\ (x = Gmg \/ x = InverseComponentBlockDiagonal \/ x = InverseBlockDiagonal)).
    { intros q ->. apply IHn. lia. }
    assert (IH1 : forall q, p1 = Some q -> precond_memory q = None <->
      exists x, asks q x /\ (x = Gmg \/ x = InverseComponentBlockDiagonal \/ x = InverseBlockDiagonal)).
    { intros q ->. apply IHn. lia. }
    split.
    + intro E. destruct p0 as [p0|].
      * destruct (precond_memory p0) as [m0|] eqn:E0.
        -- destruct p1 as [p1|]; [|discriminate].
           destruct (precond_memory p1) as [m1|] eqn:E1; [discriminate|].
           apply (IH1 _ eq_refl) in E1. destruct E1 as (x & Hx & H). exists x. split; [apply asks_second; exact Hx|exact H].
        -- apply (IH0 _ eq_refl) in E0. destruct E0 as (x & Hx & H). exists x. split; [apply asks_first; exact Hx|exact H].
      * destruct p1 as [p1|]; [|discriminate].
        destruct (precond_memory p1) as [m1|] eqn:E1; [discriminate|].
        apply (IH1 _ eq_refl) in E1. destruct E1 as (x & Hx & H). exists x. split; [apply asks_second; exact Hx|exact H].
    + intros (x & Hx & H). inversion Hx; subst.
      * destruct H as [H|[H|H]]; discriminate.
      * match goal with A : asks ?p x |- _ => assert (E : precond_memory p = None) by (apply (IH0 _ eq_refl); exists x; auto); rewrite E end.
        reflexivity.
      * match goal with A : asks ?p x |- _ => assert (E : precond_memory p = None) by (apply (IH1 _ eq_refl); exists x; auto); rewrite E end.
        destruct p0 as [p0|]; [destruct (precond_memory p0)|]; reflexivity.
Qed.

(** What is reported, otherwise: the vectors of the methods that have some and the hierarchy of
    an algebraic multigrid method, but not the factors of ILU and IC; for a block preconditioner
    the sum over its operators, those of the levels and the first two preconditioners. *)
Definition report_of (o : option operator_data) (n : N) : Prop :=
  match o with Some o => operator_memory o = Some n | None => n = 0 end.
Inductive amounts : precond -> N -> Prop :=
| am_identity : amounts Identity 0
| am_diagonal : forall d, amounts (InverseDiagonal d) d
| am_amg : forall a src dst, amounts (Amg a src dst) (a + sum_n src + sum_n dst)
| am_block_amg : forall l, amounts (BlockAmg l) (sum_n l)
| am_ilu : forall f src dst, amounts (Ilu f src dst) (sum_n src + sum_n dst)
| am_block_ilu : forall f, amounts (BlockIlu f) 0
| am_ic : forall f src dst, amounts (Ic f src dst) (sum_n src + sum_n dst)
| am_block : forall op0 op1 op1b op2 mg1 mgb p0 p1 p2 n0 n1 n2 l1 lb m0 m1,
    report_of op0 n0 -> report_of op1 n1 -> report_of op1b n2 ->
    Forall2 report_of mg1 l1 -> Forall2 report_of mgb lb ->
    optional p0 m0 -> optional p1 m1 ->
    amounts (BlockPreconditioner op0 op1 op1b op2 mg1 mgb p0 p1 p2)
      (n0 + n1 + n2 + sum_n l1 + sum_n lb + m0 + m1)
with optional : option precond -> N -> Prop :=
| op_none : optional None 0
| op_some : forall p n, amounts p n -> optional (Some p) n.
Lemma pointer_amount : forall o, exists n, report_of o n /\ consumption (operator_pointer o) = Some n.
Proof. intros [o|]; cbn; [rewrite operator_report; eauto|eauto]. Qed.
Lemma levels_amount : forall l, exists ns, Forall2 report_of l ns /\ consumption (Levels (map operator_pointer l)) = Some (sum_n ns).
Proof.
  intros l.
  assert (H : exists ns, Forall2 report_of l ns /\ Forall2 (fun m n => consumption m = Some n) (map operator_pointer l) ns).
  { induction l as [|o l (ns & H1 & H2)]; [exists []; split; constructor|].
    destruct (pointer_amount o) as (n & Hn & E). exists (n :: ns). split; constructor; assumption. }
  destruct H as (ns & H1 & H2). exists ns. split; [exact H1|]. cbn [consumption]. rewrite (fold_sum _ _ _ _ H2).
  f_equal.
Qed.
Theorem C125_amounts : forall p n, precond_memory p = Some n -> amounts p n.
Proof.
  assert (Bound : forall k p n, (depth p < k)%nat -> precond_memory p = Some n -> amounts p n);
    [|intros p n; exact (Bound (S (depth p)) p n (Nat.lt_succ_diag_r _))].
  induction k as [|k IH]; intros p n Hd E; [lia|].
  destruct p as [|d| | |a src dst|l|f src dst|f|f src dst| |op0 op1 op1b op2 mg1 mgb p0 p1 p2];
    cbn [precond_memory] in E; try discriminate;
    try (rewrite ?vector_report in E; cbn [plus_report obind] in E; injection E as <-; constructor).
  destruct (pointer_amount op0) as (n0 & R0 & C0). destruct (pointer_amount op1) as (n1 & R1 & C1).
  destruct (pointer_amount op1b) as (n2 & R2 & C2). destruct (levels_amount mg1) as (l1 & R3 & C3).
  destruct (levels_amount mgb) as (lb & R4 & C4). rewrite C0, C1, C2, C3, C4 in E.
  cbn [plus_report obind] in E. cbn [depth] in Hd.
  assert (O : forall q m, (match q with Some p => depth p | None => O end < k)%nat ->
    match q with Some p => precond_memory p | None => Some 0 end = Some m -> optional q m).
  { intros [q|] m Hq Em; [constructor; exact (IH q m Hq Em)|]. injection Em as <-. constructor. }
  destruct (match p0 with Some p => precond_memory p | None => Some 0 end) as [m0|] eqn:E0; [|discriminate].
  destruct (match p1 with Some p => precond_memory p | None => Some 0 end) as [m1|] eqn:E1; [|discriminate].
  cbn [plus_report obind] in E. injection E as <-.
  apply am_block; auto; apply O; auto; lia.
Qed.

(** The operator of the solid and its preconditioner are left out. *)
Theorem C125_solid_refuted : forall op0 op1 op1b op2 op2' mg1 mgb p0 p1 p2 p2',
  precond_memory (BlockPreconditioner op0 op1 op1b op2 mg1 mgb p0 p1 p2) =
  precond_memory (BlockPreconditioner op0 op1 op1b op2' mg1 mgb p0 p1 p2').
Proof. reflexivity. Qed.

(** ** The report of the driver *)

Lemma over_ranks_sum : forall f l, over_ranks (fun r => Some (f r)) l = Some (sum_n (map f l)).
Proof.
  intros f l. induction l as [|r l IH]; [reflexivity|]. cbn [over_ranks fold_right map sum_n].
  change (fold_right _ (Some 0) l) with (over_ranks (fun r => Some (f r)) l). rewrite IH. reflexivity.
Qed.

Lemma over_ranks_given : forall f g l, (forall r, In r l -> f r = Some (g r)) -> over_ranks f l = Some (sum_n (map g l)).
Proof.
  intros f g l. induction l as [|r l IH]; intros H; [reflexivity|]. cbn [over_ranks fold_right map sum_n].
  change (fold_right _ (Some 0) l) with (over_ranks f l).
  rewrite IH by (intros; apply H; right; assumption). rewrite (H r (or_introl eq_refl)). reflexivity.
Qed.

(** If it is asked for and the system has changed, every line holds the sum over the ranks in
    units of 10^9 bytes; otherwise nothing is printed. The number in the first line is the sum of
    the lines below it except the one of the sintering data. *)
Theorem C125_report : forall enabled changed l op pre,
  (forall r, In r l -> r_operator r = Some (op r)) -> (forall r, In r l -> r_precond r = Some (pre r)) ->
  if enabled && changed then
    exists total parts data, memory_report enabled changed l = Some (Some (total, parts)) /\
      parts = map (fun f : rank_memory -> N => (inject_Z (Z.of_N (fold_right N.add 0%N (map f l))) / inject_Z 1000000000)%Q)
        [r_tria; r_dofs; r_constraints; r_matrix_free; r_data; op; r_history; pre] /\
      nth_error parts 4 = Some data /\ (total + data == fold_right Qplus 0 parts)%Q
  else memory_report enabled changed l = Some None.
Proof.
  intros enabled changed l op pre Ho Hp. unfold memory_report.
  destruct (enabled && changed); [|reflexivity].
  rewrite !over_ranks_sum, (over_ranks_given _ _ _ Ho), (over_ranks_given _ _ _ Hp).
  cbn [obind]. eexists; eexists; eexists. split; [reflexivity|]. split; [reflexivity|].
  split; [reflexivity|]. cbn [map fold_right]. unfold gigabytes.
  rewrite !N2Z.inj_add, !inject_Z_plus. field.
Qed.

(** So the first line is less than the sum of the others whenever the sintering data takes any
    memory. *)
Theorem C125_total_refuted : forall l total parts,
  memory_report true true l = Some (Some (total, parts)) -> (exists r, In r l /\ 0 < r_data r) ->
  (total < fold_right Qplus 0 parts)%Q.
Proof.
  intros l total parts H (r & Hr & Hd). unfold memory_report in H. cbn [andb] in H.
  rewrite !over_ranks_sum in H. cbn [obind] in H.
  destruct (over_ranks r_operator l) as [o|]; [|discriminate]. cbn [obind] in H.
  destruct (over_ranks r_precond l) as [p|]; [|discriminate]. cbn [obind] in H.
  assert (P : 0 < sum_n (map r_data l)).
  { clear H. induction l as [|x l IH]; [destruct Hr|]. cbn [map sum_n fold_right]. fold (sum_n (map r_data l)).
    destruct Hr as [->|Hr]; [lia|specialize (IH Hr); lia]. }
  assert (E : (total + gigabytes (sum_n (map r_data l)) == fold_right Qplus 0 parts)%Q).
  { injection H as <- <-. cbn [map fold_right]. unfold gigabytes.
    rewrite !N2Z.inj_add, !inject_Z_plus. field. }
  assert (G : (0 < gigabytes (sum_n (map r_data l)))%Q).
  { unfold gigabytes. apply Qlt_shift_div_l; [reflexivity|]. rewrite Qmult_0_l.
    change 0%Q with (inject_Z 0). rewrite <- Zlt_Qlt. lia. }
  rewrite <- E. rewrite <- (Qplus_0_r total) at 1. apply Qplus_lt_r. exact G.
Qed.

(** ** Cases *)

(** two blocks share a matrix of 100 bytes *)
Definition ex_operator : operator_data :=
  mkOp 10 20 [None; Some (1%nat, 50); Some (2%nat, 100); Some (2%nat, 100)] [8; 8] [8] 3 2.
Example ex_operator_memory : operator_memory ex_operator = Some 582 /\ held ex_operator = 232.
Proof. vm_compute. split; reflexivity. Qed.

Example ex_no_blocks : operator_memory (mkOp 10 20 [] [8; 8] [8] 3 2) = Some 82.
Proof. reflexivity. Qed.

Example ex_precond :
  precond_memory (BlockPreconditioner (Some ex_operator) None None None [] [None; Some ex_operator]
    (Some (Ilu 1000 [4] [4])) (Some (InverseDiagonal 7)) (Some Gmg)) = Some (582 + 582 + 8 + 7) /\
  precond_memory (BlockPreconditioner None None None None [] [] None (Some Gmg) None) = None.
Proof. vm_compute. split; reflexivity. Qed.

Example ex_report :
  match memory_report true true [mkRank 1 2 3 4 5 (Some 6) 7 (Some 8); mkRank 1 1 1 1 1 (Some 1) 1 (Some 1)] with
  | Some (Some (total, parts)) => (total == 38 # 1000000000)%Q /\ (fold_right Qplus 0 parts == 44 # 1000000000)%Q
  | _ => False
  end.
Proof. vm_compute. split; reflexivity. Qed.

Print Assumptions C125_containers.
Print Assumptions C125_operator.
Print Assumptions C125_operator_refuted.
Print Assumptions C125_preconditioner.
Print Assumptions C125_amounts.
Print Assumptions C125_solid_refuted.
Print Assumptions C125_report.
Print Assumptions C125_total_refuted.
