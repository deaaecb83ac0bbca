(** C33: the forces grains exert on each other cancel; C34: the rotation follows
    the torque. *)
From Coq Require Import List Reals Arith Bool Lia Lra Permutation.
From Verif Require Import ForceModel.
Import ListNotations.
Local Open Scope R_scope.

(** ** Sums *)

Lemma rsum_ext : forall A (f g : A -> R) l, (forall x, In x l -> f x = g x) -> rsum f l = rsum g l.
Proof.
  intros A f g l. induction l as [|x l IH]; intro H; [reflexivity|]. cbn.
  rewrite (H x) by (left; reflexivity). rewrite IH; [reflexivity|]. intros y Hy. apply H. right. exact Hy.
Qed.

Lemma rsum_plus : forall A (f g : A -> R) l, rsum (fun x => f x + g x) l = rsum f l + rsum g l.
Proof. intros A f g l. induction l as [|x l IH]; cbn; [lra|]. rewrite IH. lra. Qed.

Lemma rsum_scal : forall A a (f : A -> R) l, rsum (fun x => a * f x) l = a * rsum f l.
Proof. intros A a f l. induction l as [|x l IH]; cbn; [lra|]. rewrite IH. lra. Qed.

Lemma rsum_zero : forall A (l : list A), rsum (fun _ => 0) l = 0.
Proof. intros A l. induction l as [|x l IH]; cbn; lra. Qed.

Lemma rsum_all0 : forall A (f : A -> R) l, (forall x, In x l -> f x = 0) -> rsum f l = 0.
Proof. intros A f l H. rewrite (rsum_ext A f (fun _ => 0) l H). apply rsum_zero. Qed.

Lemma rsum_app : forall A (f : A -> R) a b, rsum f (a ++ b) = rsum f a + rsum f b.
Proof. intros A f a b. induction a as [|x a IH]; cbn; [lra|]. rewrite IH. lra. Qed.

Lemma rsum_swap : forall A B (f : A -> B -> R) la lb,
  rsum (fun x => rsum (f x) lb) la = rsum (fun y => rsum (fun x => f x y) la) lb.
Proof.
  intros A B f la lb. induction la as [|x la IH]; cbn; [symmetry; apply rsum_zero|].
  rewrite IH, <- rsum_plus. reflexivity.
Qed.

Lemma rsum_filter : forall A (p : A -> bool) (f : A -> R) l,
  rsum f (filter p l) = rsum (fun x => if p x then f x else 0) l.
Proof. intros A p f l. induction l as [|x l IH]; cbn; [reflexivity|]. destruct (p x); cbn; rewrite IH; lra. Qed.

Lemma rsum_perm : forall A (f : A -> R) a b, Permutation a b -> rsum f a = rsum f b.
Proof. intros A f a b H. induction H; cbn; lra. Qed.

Lemma rsum_concat : forall A (f : A -> R) ll, rsum (fun l => rsum f l) ll = rsum f (concat ll).
Proof. intros A f ll. induction ll as [|l ll IH]; cbn; [reflexivity|]. rewrite rsum_app, IH. reflexivity. Qed.

Lemma rsum_antisym : forall A (f : A -> A -> R) l, (forall x y, f x y = - f y x) ->
  rsum (fun x => rsum (f x) l) l = 0.
Proof.
  intros A f l H. assert (E := rsum_swap A A f l l).
  assert (E2 : rsum (fun y => rsum (fun x => f x y) l) l = - rsum (fun x => rsum (f x) l) l).
  { rewrite <- (Rmult_1_l (rsum (fun x => rsum (f x) l) l)) at 1.
    rewrite Ropp_mult_distr_l, <- rsum_scal. apply rsum_ext. intros x _.
    rewrite <- rsum_scal. apply rsum_ext. intros y _. rewrite (H y x). lra. }
  lra.
Qed.

Lemma rsum_delta : forall n s (x : R), (s < n)%nat ->
  rsum (fun s' => if Nat.eqb s' s then x else 0) (seq 0 n) = x.
Proof.
  intros n s x H.
  assert (G : forall m a, (a <= s < a + m)%nat -> rsum (fun s' => if Nat.eqb s' s then x else 0) (seq a m) = x).
  { induction m as [|m IH]; intros a Ha; [lia|]. cbn [seq rsum].
    destruct (Nat.eqb_spec a s) as [->|Hne].
    - rewrite rsum_all0; [lra|]. intros y Hy. apply in_seq in Hy. destruct (Nat.eqb_spec y s); [lia|reflexivity].
    - rewrite IH by lia. lra. }
  apply G. lia.
Qed.

(** ** Closed forms of the accumulated data *)

Definition on_segment (c : cell) (i s : nat) : bool :=
  c_rel c i && match c_seg c i with Some s' => Nat.eqb s s' | None => false end.

Lemma local_sum_spec : forall n what cells s comp,
  local_sum n what cells s comp =
  rsum (fun c => rsum (fun i => if on_segment c i s then what c i s comp else 0) (seq 0 n)) cells.
Proof.
  intros n what cells s comp. unfold local_sum.
  assert (V : forall c l data, fold_left (visit what c) l data s comp =
    data s comp + rsum (fun i => if on_segment c i s then what c i s comp else 0) l).
  { intros c l. induction l as [|i l IH]; intro data; cbn [fold_left rsum]; [lra|].
    rewrite IH. unfold visit, on_segment. destruct (c_rel c i); cbn [andb]; [|lra].
    destruct (c_seg c i) as [s'|]; [|lra]. unfold add_to.
    destruct (Nat.eqb_spec s s') as [->|]; lra. }
  assert (G : forall l data, fold_left (fun data c => fold_left (visit what c) (seq 0 n) data) l data s comp =
    data s comp + rsum (fun c => rsum (fun i => if on_segment c i s then what c i s comp else 0) (seq 0 n)) l).
  { induction l as [|c l IH]; intro data; cbn [fold_left rsum]; [lra|]. rewrite IH, V. lra. }
  rewrite G. lra.
Qed.

Lemma local_pairs_spec : forall dim n k ceq cgb sm cells s t comp,
  local_pairs dim n k ceq cgb sm cells s t comp =
  rsum (fun c => rsum (fun i => rsum (fun j =>
    if on_segment c i s && on_segment c j t && negb (Nat.eqb i j)
    then pair_contribution dim k ceq cgb sm c i j comp else 0) (seq 0 n)) (seq 0 n)) cells.
Proof.
  intros dim n k ceq cgb sm cells s t comp. unfold local_pairs.
  assert (V : forall c i l data, c_rel c i = true ->
    fold_left (visit_pair dim k ceq cgb sm c i) l data s t comp =
    data s t comp + rsum (fun j =>
      if on_segment c i s && on_segment c j t && negb (Nat.eqb i j)
      then pair_contribution dim k ceq cgb sm c i j comp else 0) l).
  { intros c i l. induction l as [|j l IH]; intros data Hr; cbn [fold_left rsum]; [lra|].
    rewrite IH by assumption. unfold visit_pair, on_segment. rewrite Hr. cbn [andb].
    destruct (Nat.eqb i j); cbn [negb andb]; [rewrite !andb_false_r; lra|]. rewrite andb_true_r.
    destruct (c_rel c j); cbn [andb].
    - destruct (c_seg c i) as [s'|]; cbn [andb]; [|lra]. destruct (c_seg c j) as [t'|].
      + unfold add_to2. destruct (Nat.eqb s s' && Nat.eqb t t'); lra.
      + rewrite andb_false_r. lra.
    - rewrite andb_false_r. lra. }
  assert (W : forall c l data,
    fold_left (fun data i => if c_rel c i then fold_left (visit_pair dim k ceq cgb sm c i) (seq 0 n) data else data) l data s t comp =
    data s t comp + rsum (fun i => rsum (fun j =>
      if on_segment c i s && on_segment c j t && negb (Nat.eqb i j)
      then pair_contribution dim k ceq cgb sm c i j comp else 0) (seq 0 n)) l).
  { intros c l. induction l as [|i l IH]; intro data; cbn [fold_left rsum]; [lra|]. rewrite IH.
    destruct (c_rel c i) eqn:E.
    - rewrite V by assumption. lra.
    - rewrite (rsum_all0 _ _ (seq 0 n)); [lra|]. intros j _. unfold on_segment. rewrite E. reflexivity. }
  match goal with |- fold_left ?F _ _ _ _ _ = _ => set (step := F) end.
  assert (G : forall l data, fold_left step l data s t comp = data s t comp +
    rsum (fun c => rsum (fun i => rsum (fun j =>
      if on_segment c i s && on_segment c j t && negb (Nat.eqb i j)
      then pair_contribution dim k ceq cgb sm c i j comp else 0) (seq 0 n)) (seq 0 n)) l).
  { induction l as [|c l IH]; intro data; cbn [fold_left rsum]; [lra|]. rewrite IH. unfold step at 1.
    rewrite W. lra. }
  rewrite G. lra.
Qed.

(** ** C33 *)

Theorem C33_action_reaction : forall k ceq cgb sm q i j d,
  dF k ceq cgb sm q i j d = - dF k ceq cgb sm q j i d.
Proof. intros. unfold dF. rewrite (Rmult_comm (eta q i) (eta q j)). lra. Qed.
Print Assumptions C33_action_reaction.

Lemma force_comp : forall dim n k ceq cgb sm c i rc d, (d < dim)%nat ->
  contribution dim n k ceq cgb sm c i rc (S d) =
  rsum (fun q => jxw q * force_at n k ceq cgb sm c q i d) (c_qps c).
Proof.
  intros dim n k ceq cgb sm c i rc d Hd. unfold contribution. apply rsum_ext. intros q _. cbn [Nat.eqb].
  destruct (Nat.leb_spec (S d) dim); [|lia]. replace (S d - 1)%nat with d by lia. reflexivity.
Qed.

(** In every cell the forces on the relevant order parameters cancel. *)
Lemma cell_balance : forall dim n k ceq cgb sm c rc d, (d < dim)%nat ->
  rsum (fun i => if c_rel c i then contribution dim n k ceq cgb sm c i (rc i) (S d) else 0) (seq 0 n) = 0.
Proof.
  intros dim n k ceq cgb sm c rc d Hd.
  rewrite (rsum_ext _ _ (fun i => rsum (fun q =>
     jxw q * rsum (fun j => if c_rel c i && c_rel c j && negb (Nat.eqb i j) then dF k ceq cgb sm q i j d else 0) (seq 0 n)) (c_qps c))).
  - rewrite rsum_swap. apply rsum_all0. intros q _. rewrite rsum_scal.
    rewrite (rsum_antisym _ (fun i j => if c_rel c i && c_rel c j && negb (Nat.eqb i j) then dF k ceq cgb sm q i j d else 0)); [lra|].
    intros i j. rewrite (Nat.eqb_sym j i), (andb_comm (c_rel c j) (c_rel c i)).
    destruct (c_rel c i && c_rel c j && negb (Nat.eqb i j)); [apply C33_action_reaction|lra].
  - intros i _. destruct (c_rel c i) eqn:E.
    + rewrite force_comp by assumption. apply rsum_ext. intros q _. f_equal. unfold force_at, others.
      rewrite rsum_filter. reflexivity.
    + symmetry. apply rsum_all0. intros q _. rewrite rsum_zero. lra.
Qed.

Definition indices_ok (n n_segments : nat) (procs : list (list cell)) : Prop :=
  forall cells c i s, In cells procs -> In c cells -> (i < n)%nat -> c_rel c i = true -> c_seg c i = Some s -> (s < n_segments)%nat.

(** force on the order parameters of a cell which are relevant there but do not
    belong to any segment *)
Definition untracked_force (dim n : nat) (k ceq cgb sm : R) (procs : list (list cell)) (d : nat) : R :=
  rsum (fun cells => rsum (fun c => rsum (fun i =>
    if c_rel c i && match c_seg c i with None => true | Some _ => false end
    then contribution dim n k ceq cgb sm c i (fun _ => 0) (S d) else 0) (seq 0 n)) cells) procs.

(** The forces on all segments together are opposite to the forces on what is
    relevant somewhere without being tracked. *)
Theorem C33_generic_balance : forall dim n k ceq cgb sm center n_segments procs d,
  (d < dim)%nat -> indices_ok n n_segments procs ->
  rsum (fun s => grains_data dim n k ceq cgb sm center procs s (S d)) (seq 0 n_segments) =
  - untracked_force dim n k ceq cgb sm procs d.
Proof.
  intros dim n k ceq cgb sm center n_segments procs d Hd Hok.
  unfold grains_data, untracked_force. rewrite rsum_swap.
  match goal with |- ?a = - ?b => assert (E : a + b = 0); [|lra] end.
  rewrite <- rsum_plus. apply rsum_all0. intros cells Hcells.
  rewrite (rsum_ext _ _ (fun s => rsum (fun c => rsum (fun i => if on_segment c i s
     then contribution dim n k ceq cgb sm c i (center s) (S d) else 0) (seq 0 n)) cells)).
  2: { intros s _. apply local_sum_spec. }
  rewrite rsum_swap, <- rsum_plus. apply rsum_all0. intros c Hc.
  rewrite rsum_swap, <- rsum_plus.
  refine (eq_trans _ (cell_balance dim n k ceq cgb sm c (fun _ _ => 0) d Hd)). apply rsum_ext. intros i Hi.
  apply in_seq in Hi. unfold on_segment. destruct (c_rel c i) eqn:Er; cbn [andb].
  - destruct (c_seg c i) as [s'|] eqn:Es.
    + rewrite (rsum_ext _ _ (fun s => if Nat.eqb s s' then contribution dim n k ceq cgb sm c i (fun _ => 0) (S d) else 0)).
      * rewrite rsum_delta; [lra|]. apply (Hok cells c i s'); try assumption. lia.
      * intros s _. destruct (Nat.eqb s s'); [|reflexivity]. rewrite !force_comp by assumption. reflexivity.
    + rewrite rsum_zero. lra.
  - rewrite rsum_zero. lra.
Qed.
Print Assumptions C33_generic_balance.

(** If everything that is relevant is tracked, the sum of all forces is zero. *)
Theorem C33_generic_partial : forall dim n k ceq cgb sm center n_segments procs d,
  (d < dim)%nat -> indices_ok n n_segments procs ->
  (forall cells c i, In cells procs -> In c cells -> (i < n)%nat -> c_rel c i = true -> c_seg c i <> None) ->
  rsum (fun s => grains_data dim n k ceq cgb sm center procs s (S d)) (seq 0 n_segments) = 0.
Proof.
  intros dim n k ceq cgb sm center n_segments procs d Hd Hok Ht.
  rewrite C33_generic_balance by assumption. unfold untracked_force.
  rewrite rsum_all0; [lra|]. intros cells Hcells. apply rsum_all0. intros c Hc. apply rsum_all0. intros i Hi.
  apply in_seq in Hi. destruct (c_rel c i) eqn:Er; [|reflexivity]. cbn [andb].
  destruct (c_seg c i) eqn:Es; [reflexivity|]. exfalso. apply (Ht cells c i); try assumption. lia.
Qed.
Print Assumptions C33_generic_partial.

(** Otherwise not: a cell in which one order parameter is too small to be tracked
    pushes the other grain. *)
Definition ex_q : qpoint :=
  mkQ 1 (fun _ => 0) 2 (fun i => match i with 0%nat => 1 | _ => 1/100 end)
    (fun i d => match i, d with 0%nat, 0%nat => 1 | _, _ => 0 end).
Definition ex_cell (seg1 : option nat) : cell :=
  mkCell (fun _ => true) (fun i => match i with 0%nat => Some 0%nat | _ => seg1 end) [ex_q].

Lemma ex_force : forall seg1 rc, contribution 2 2 1 1 0 0 (ex_cell seg1) 0 rc 1 = 4/100.
Proof.
  intros seg1 rc. rewrite (force_comp 2) by lia. unfold force_at, others, dF, gb_weight.
  cbn [ex_cell c_qps c_rel ex_q jxw eta grad conc rsum seq filter Nat.eqb negb andb].
  destruct (Rlt_dec 0 0); [lra|]. lra.
Qed.

Theorem C33_untracked_refuted : exists dim n k ceq cgb sm center n_segments procs,
  indices_ok n n_segments procs /\
  rsum (fun s => grains_data dim n k ceq cgb sm center procs s 1) (seq 0 n_segments) <> 0.
Proof.
  exists 2%nat, 2%nat, 1, 1, 0, 0, (fun _ _ => 0), 1%nat, [[ex_cell None]]. split.
  - intros cells c i s [<-|[]] [<-|[]] Hi Hr Hs. cbn in Hs. destruct i; [injection Hs as <-; lia|discriminate].
  - cbn [rsum seq]. unfold grains_data. cbn [rsum]. rewrite local_sum_spec. cbn [rsum seq].
    unfold on_segment. cbn [ex_cell c_rel c_seg andb Nat.eqb]. fold (ex_cell None). rewrite ex_force. lra.
Qed.
Print Assumptions C33_untracked_refuted.

(** The forces do not depend on how the cells are distributed over the processes. *)
Theorem C33_distribution : forall dim n k ceq cgb sm center procs procs' s comp,
  Permutation (concat procs) (concat procs') ->
  grains_data dim n k ceq cgb sm center procs s comp = grains_data dim n k ceq cgb sm center procs' s comp.
Proof.
  intros dim n k ceq cgb sm center procs procs' s comp P. unfold grains_data.
  assert (G : forall ps, rsum (fun cells => local_sum n (fun c i s => contribution dim n k ceq cgb sm c i (center s)) cells s comp) ps =
    rsum (fun c => rsum (fun i => if on_segment c i s then contribution dim n k ceq cgb sm c i (center s) comp else 0) (seq 0 n)) (concat ps)).
  { intro ps. rewrite <- rsum_concat. apply rsum_ext. intros cells _. apply local_sum_spec. }
  rewrite !G. apply rsum_perm. exact P.
Qed.
Print Assumptions C33_distribution.

Lemma forces_gbs_spec : forall dim n k ceq cgb sm procs s t comp,
  forces_gbs dim n k ceq cgb sm procs s t comp =
  rsum (fun c => rsum (fun i => rsum (fun j =>
    if on_segment c i s && on_segment c j t && negb (Nat.eqb i j)
    then pair_contribution dim k ceq cgb sm c i j comp else 0) (seq 0 n)) (seq 0 n)) (concat procs).
Proof.
  intros. unfold forces_gbs. rewrite <- rsum_concat. apply rsum_ext. intros cells _. apply local_pairs_spec.
Qed.

(** Weighted operator: the force of one segment on another is opposite to the
    reverse one, and both see the same area. *)
Theorem C33_weighted_action_reaction : forall dim n k ceq cgb sm procs s t,
  (forall d, (d < dim)%nat ->
     forces_gbs dim n k ceq cgb sm procs s t d = - forces_gbs dim n k ceq cgb sm procs t s d) /\
  forces_gbs dim n k ceq cgb sm procs s t dim = forces_gbs dim n k ceq cgb sm procs t s dim.
Proof.
  intros dim n k ceq cgb sm procs s t.
  assert (G : forall comp a, (forall c i j, pair_contribution dim k ceq cgb sm c i j comp = a * pair_contribution dim k ceq cgb sm c j i comp) ->
    forces_gbs dim n k ceq cgb sm procs s t comp = a * forces_gbs dim n k ceq cgb sm procs t s comp).
  { intros comp a H. rewrite !forces_gbs_spec, <- rsum_scal. apply rsum_ext. intros c _.
    rewrite rsum_swap, <- rsum_scal. apply rsum_ext. intros i _. rewrite <- rsum_scal. apply rsum_ext. intros j _.
    rewrite (Nat.eqb_sym j i), (andb_comm (on_segment c j s) (on_segment c i t)).
    destruct (on_segment c i t && on_segment c j s && negb (Nat.eqb i j)); [apply H|lra]. }
  split.
  - intros d Hd. rewrite (G d (-1)); [lra|]. intros c i j. unfold pair_contribution. rewrite <- rsum_scal.
    apply rsum_ext. intros q _. destruct (Nat.ltb_spec d dim); [|lia].
    rewrite (C33_action_reaction k ceq cgb sm q i j d). lra.
  - rewrite (G dim 1); [lra|]. intros c i j. unfold pair_contribution. rewrite <- rsum_scal.
    apply rsum_ext. intros q _. destruct (Nat.ltb_spec dim dim); [lia|]. lra.
Qed.
Print Assumptions C33_weighted_action_reaction.

(** The sum of all forces of the weighted operator is zero, and they do not
    depend on the distribution over the processes. *)
Theorem C33_weighted : forall dim n k ceq cgb sm n_segments procs,
  (forall d, (d < dim)%nat ->
     rsum (fun s => weighted_force dim n k ceq cgb sm n_segments procs s d) (seq 0 n_segments) = 0) /\
  forall procs' s d, Permutation (concat procs) (concat procs') ->
    weighted_force dim n k ceq cgb sm n_segments procs s d =
    weighted_force dim n k ceq cgb sm n_segments procs' s d.
Proof.
  intros dim n k ceq cgb sm n_segments procs. split.
  - intros d Hd. unfold weighted_force.
    apply (rsum_antisym _ (fun s t =>
      if negb (Nat.eqb s t) then
        if Rlt_dec (/ 10 ^ 10) (Rabs (forces_gbs dim n k ceq cgb sm procs s t dim))
        then forces_gbs dim n k ceq cgb sm procs s t d * (1 / forces_gbs dim n k ceq cgb sm procs s t dim) else 0
      else 0)).
    intros s t. rewrite (Nat.eqb_sym t s). destruct (negb (Nat.eqb s t)); [|lra].
    destruct (C33_weighted_action_reaction dim n k ceq cgb sm procs s t) as (A & B).
    rewrite (A d Hd), B. destruct (Rlt_dec (/ 10 ^ 10) _); lra.
  - intros procs' s d P. unfold weighted_force. apply rsum_ext. intros t _.
    assert (E : forall comp, forces_gbs dim n k ceq cgb sm procs s t comp = forces_gbs dim n k ceq cgb sm procs' s t comp).
    { intro comp. rewrite !forces_gbs_spec. apply rsum_perm. exact P. }
    rewrite !E. reflexivity.
Qed.
Print Assumptions C33_weighted.

Example C33_case : forall center,
  let procs := [[ex_cell (Some 1%nat)]] in
  indices_ok 2 2 procs /\
  (forall cells c i, In cells procs -> In c cells -> (i < 2)%nat -> c_rel c i = true -> c_seg c i <> None) /\
  grains_data 2 2 1 1 0 0 center procs 0 1 = 4/100 /\ grains_data 2 2 1 1 0 0 center procs 1 1 = - (4/100).
Proof.
  intros center procs.
  assert (OK : indices_ok 2 2 procs).
  { intros cells c i s [<-|[]] [<-|[]] Hi Hr Hs. cbn in Hs. destruct i; injection Hs as <-; lia. }
  assert (TR : forall cells c i, In cells procs -> In c cells -> (i < 2)%nat -> c_rel c i = true -> c_seg c i <> None).
  { intros cells c i [<-|[]] [<-|[]] Hi _. cbn. destruct i; discriminate. }
  assert (E0 : grains_data 2 2 1 1 0 0 center procs 0 1 = 4/100).
  { unfold grains_data, procs. cbn [rsum]. rewrite local_sum_spec. cbn [rsum seq].
    unfold on_segment. cbn [ex_cell c_rel c_seg andb Nat.eqb]. fold (ex_cell (Some 1%nat)). rewrite ex_force. lra. }
  split; [exact OK|]. split; [exact TR|]. split; [exact E0|].
  pose proof (C33_generic_partial 2 2 1 1 0 0 center 2 procs 0 ltac:(lia) OK TR) as S. cbn [rsum seq] in S. lra.
Qed.

(** ** C34 *)

Section Rotation.
Variables (dim n : nat) (k ceq cgb sm : R) (center : nat -> nat -> R) (procs : list (list cell)) (s : nat).

(** integral over the segment [s] *)
Definition over_segment (f : cell -> nat -> qpoint -> R) : R :=
  rsum (fun cells => rsum (fun c => rsum (fun i =>
    if on_segment c i s then rsum (fun q => jxw q * f c i q) (c_qps c) else 0) (seq 0 n)) cells) procs.

Lemma over_ext : forall f g, (forall c i q, f c i q = g c i q) -> over_segment f = over_segment g.
Proof.
  intros f g H. unfold over_segment. apply rsum_ext. intros cells _. apply rsum_ext. intros c _. apply rsum_ext. intros i _.
  destruct (on_segment c i s); [|reflexivity]. apply rsum_ext. intros q _. rewrite H. reflexivity.
Qed.

Lemma over_plus : forall f g, over_segment (fun c i q => f c i q + g c i q) = over_segment f + over_segment g.
Proof.
  intros f g. unfold over_segment. rewrite <- rsum_plus. apply rsum_ext. intros cells _. rewrite <- rsum_plus.
  apply rsum_ext. intros c _. rewrite <- rsum_plus. apply rsum_ext. intros i _.
  destruct (on_segment c i s); [|lra]. rewrite <- rsum_plus. apply rsum_ext. intros q _. lra.
Qed.

Lemma over_scal : forall a f, over_segment (fun c i q => a * f c i q) = a * over_segment f.
Proof.
  intros a f. unfold over_segment. rewrite <- rsum_scal. apply rsum_ext. intros cells _. rewrite <- rsum_scal.
  apply rsum_ext. intros c _. rewrite <- rsum_scal. apply rsum_ext. intros i _.
  destruct (on_segment c i s); [|lra]. rewrite <- rsum_scal. apply rsum_ext. intros q _. lra.
Qed.

(** The power of the forces acting on segment [s] in a velocity field. *)
Definition power (v : (nat -> R) -> nat -> R) : R :=
  over_segment (fun c i q => rsum (fun d => force_at n k ceq cgb sm c q i d * v (pos q) d) (seq 0 dim)).

Lemma data_over : forall comp, grains_data dim n k ceq cgb sm center procs s comp =
  over_segment (fun c i q =>
    if Nat.eqb comp 0 then eta q i
    else if Nat.leb comp dim then force_at n k ceq cgb sm c q i (comp - 1)
    else torque_at dim n k ceq cgb sm c q i (center s) (comp - dim - 1)).
Proof.
  intro comp. unfold grains_data, over_segment. apply rsum_ext. intros cells _. apply local_sum_spec.
Qed.

End Rotation.

Lemma rsum_cross : forall A (l : list A) a (f : A -> nat -> R) d,
  rsum (fun j => cross3 a (f j) d) l = cross3 a (fun e => rsum (fun j => f j e) l) d.
Proof.
  intros A l a f d. induction l as [|x l IH]; cbn [rsum].
  - unfold cross3. destruct d as [|[|d]]; lra.
  - rewrite IH. unfold cross3. destruct d as [|[|d]]; lra.
Qed.

Lemma rsum_cross2 : forall A (l : list A) a (f : A -> nat -> R),
  rsum (fun j => cross2 a (f j)) l = cross2 a (fun e => rsum (fun j => f j e) l).
Proof.
  intros A l a f. induction l as [|x l IH]; cbn [rsum].
  - unfold cross2. lra.
  - rewrite IH. unfold cross2. lra.
Qed.

(** In 3D the rotation about the true centre never works against the forces it
    comes from: the power is the square of the torque. *)
Theorem C34_power_3d : forall n k ceq cgb sm center procs s mr,
  let data := grains_data 3 n k ceq cgb sm center procs s in
  power 3 n k ceq cgb sm procs s (rotation_velocity 3 mr data (center s)) =
  mr * (1 / data 0%nat) * (data 4%nat ^ 2 + data 5%nat ^ 2 + data 6%nat ^ 2) /\
  (0 <= mr -> 0 < data 0%nat -> 0 <= power 3 n k ceq cgb sm procs s (rotation_velocity 3 mr data (center s))).
Proof.
  intros n k ceq cgb sm center procs s mr data.
  assert (E : power 3 n k ceq cgb sm procs s (rotation_velocity 3 mr data (center s)) =
    mr * (1 / data 0%nat) * (data 4%nat ^ 2 + data 5%nat ^ 2 + data 6%nat ^ 2)).
  { set (a := mr * (1 / data 0%nat)).
    assert (T : forall e, (e < 3)%nat -> data (4 + e)%nat =
      over_segment n procs s (fun c i q => cross3 (fun e => pos q e - center s e) (force_at n k ceq cgb sm c q i) e)).
    { intros e He. unfold data. rewrite data_over. apply over_ext. intros c i q.
      cbn [Nat.eqb Nat.add]. destruct (Nat.leb_spec (S (S (S (S e)))) 3); [lia|].
      replace (S (S (S (S e))) - 3 - 1)%nat with e by lia. unfold torque_at. cbn [Nat.eqb]. apply rsum_cross. }
    unfold power.
    rewrite (over_ext n procs s _ (fun c i q =>
      (a * data 4%nat) * cross3 (fun e => pos q e - center s e) (force_at n k ceq cgb sm c q i) 0 +
      ((a * data 5%nat) * cross3 (fun e => pos q e - center s e) (force_at n k ceq cgb sm c q i) 1 +
       (a * data 6%nat) * cross3 (fun e => pos q e - center s e) (force_at n k ceq cgb sm c q i) 2))).
    - rewrite !over_plus, !over_scal. rewrite <- (T 0%nat), <- (T 1%nat), <- (T 2%nat) by lia. cbn [Nat.add]. ring.
    - intros c i q. cbn [seq rsum]. unfold rotation_velocity. cbn [Nat.eqb]. fold a. unfold cross3. cbn [Nat.add]. ring. }
  split; [exact E|]. intros Hm Hv. rewrite E.
  apply Rmult_le_pos.
  - apply Rmult_le_pos; [exact Hm|]. apply Rlt_le, Rdiv_lt_0_compat; lra.
  - assert (A := Rle_0_sqr (data 4%nat)). assert (B := Rle_0_sqr (data 5%nat)). assert (C := Rle_0_sqr (data 6%nat)).
    unfold Rsqr in *. cbn [pow]. lra.
Qed.
Print Assumptions C34_power_3d.

(** In 2D the torque has the sign opposite to that of the rotation: whenever it is
    not zero the rotation works against the forces. *)
Theorem C34_power_2d_refuted : forall n k ceq cgb sm center procs s mr,
  let data := grains_data 2 n k ceq cgb sm center procs s in
  power 2 n k ceq cgb sm procs s (rotation_velocity 2 mr data (center s)) =
  - (mr * (1 / data 0%nat) * data 3%nat ^ 2) /\
  (0 < mr -> 0 < data 0%nat -> data 3%nat <> 0 ->
   power 2 n k ceq cgb sm procs s (rotation_velocity 2 mr data (center s)) < 0).
Proof.
  intros n k ceq cgb sm center procs s mr data.
  assert (E : power 2 n k ceq cgb sm procs s (rotation_velocity 2 mr data (center s)) =
    - (mr * (1 / data 0%nat) * data 3%nat ^ 2)).
  { set (a := mr * (1 / data 0%nat)).
    assert (T : data 3%nat =
      over_segment n procs s (fun c i q => cross2 (fun e => pos q e - center s e) (force_at n k ceq cgb sm c q i))).
    { unfold data. rewrite data_over. apply over_ext. intros c i q.
      cbn [Nat.eqb Nat.leb]. unfold torque_at. cbn [Nat.eqb]. apply rsum_cross2. }
    unfold power.
    rewrite (over_ext n procs s _ (fun c i q =>
      (- (a * data 3%nat)) * cross2 (fun e => pos q e - center s e) (force_at n k ceq cgb sm c q i))).
    - rewrite over_scal, <- T. ring.
    - intros c i q. cbn [seq rsum]. unfold rotation_velocity. cbn [Nat.eqb]. fold a. unfold cross2. ring. }
  split; [exact E|]. intros Hm Hv Ht. rewrite E.
  assert (0 < mr * (1 / data 0%nat) * data 3%nat ^ 2); [|lra].
  apply Rmult_lt_0_compat.
  - apply Rmult_lt_0_compat; [exact Hm|]. apply Rdiv_lt_0_compat; lra.
  - cbn [pow]. rewrite Rmult_1_r. apply Rsqr_pos_lt. exact Ht.
Qed.
Print Assumptions C34_power_2d_refuted.

(** The rotation velocity vanishes at the stored centre. *)
Theorem C34_zero_at_stored_centre_partial : forall dim mr data rc d, rotation_velocity dim mr data rc rc d = 0.
Proof.
  intros dim mr data rc d. unfold rotation_velocity. destruct (Nat.eqb dim 2).
  - replace (match d with 0%nat => - (rc 1%nat - rc 1%nat) | S _ => rc 0%nat - rc 0%nat end) with 0 by (destruct d; lra). lra.
  - unfold cross3. destruct d as [|[|d]]; ring.
Qed.
Print Assumptions C34_zero_at_stored_centre_partial.

(** The stored centre of a segment is the true one times the number of local
    cells (and order parameters) in which the segment was met. *)
Theorem C34_stored_centre : forall n center cells s d,
  grains_center n center cells s d =
  INR (length (filter (fun p => on_segment (fst p) (snd p) s) (list_prod cells (seq 0 n)))) * center s d.
Proof.
  intros n center cells s d. unfold grains_center. rewrite local_sum_spec.
  induction cells as [|c cells IH]; cbn [rsum list_prod filter length]; [cbn; lra|].
  rewrite IH, filter_app, app_length, plus_INR, Rmult_plus_distr_r. f_equal.
  clear IH. induction (seq 0 n) as [|i l IHl]; cbn [rsum map filter length]; [cbn; lra|].
  cbn [fst snd]. destruct (on_segment c i s); cbn [length]; rewrite ?S_INR, IHl; lra.
Qed.
Print Assumptions C34_stored_centre.

(** So with two cells the rotation is not about the centre of the grain. *)
Definition ex_turn (x : R) : cell :=
  mkCell (fun _ => true) (fun i => Some i)
    [mkQ 1 (fun d => match d with 0%nat => x | _ => 1 end) 2 (fun _ => 1)
       (fun i d => match i, d with 0%nat, 0%nat => 1 | _, _ => 0 end)].

Theorem C34_centre_refuted : exists n k ceq cgb sm center cells s mr,
  let data := grains_data 2 n k ceq cgb sm center [cells] s in
  data 0%nat <> 0 /\
  rotation_velocity 2 mr data (grains_center n center cells s) (center s) 0 <> 0.
Proof.
  exists 2%nat, 1, 1, 0, 0, (fun _ _ => 1/2), [ex_turn 0; ex_turn 1], 0%nat, 1.
  assert (V : grains_data 2 2 1 1 0 0 (fun _ _ => 1/2) [[ex_turn 0; ex_turn 1]] 0 0 = 2).
  { rewrite data_over. unfold over_segment. cbn [rsum seq on_segment ex_turn c_rel c_seg andb Nat.eqb c_qps jxw eta]. cbn. lra. }
  assert (T : grains_data 2 2 1 1 0 0 (fun _ _ => 1/2) [[ex_turn 0; ex_turn 1]] 0 3 = 4).
  { rewrite data_over. unfold over_segment, torque_at, others, cross2, dF, gb_weight. destruct (Rlt_dec 0 0); [lra|].
    cbn. lra. }
  cbv zeta. split; [rewrite V; lra|]. unfold rotation_velocity. cbn [Nat.eqb].
  rewrite V, T, C34_stored_centre. cbn. lra.
Qed.
Print Assumptions C34_centre_refuted.

Example C34_case :
  let data := grains_data 3 2 1 1 0 0 (fun _ _ => 1/2) [[ex_turn 0]] 0 in
  data 0%nat = 1 /\ data 1%nat = 4 /\ data 4%nat = 0 /\ data 5%nat = 2 /\ data 6%nat = -2 /\
  power 3 2 1 1 0 0 [[ex_turn 0]] 0 (rotation_velocity 3 1 data (fun _ => 1/2)) = 8.
Proof.
  intro data.
  assert (D : data 0%nat = 1 /\ data 1%nat = 4 /\ data 4%nat = 0 /\ data 5%nat = 2 /\ data 6%nat = -2).
  { unfold data. rewrite !data_over. unfold over_segment, torque_at, force_at, others, cross3, dF, gb_weight.
    destruct (Rlt_dec 0 0); [lra|]. cbn. repeat split; lra. }
  destruct D as (D0 & D1 & D4 & D5 & D6).
  split; [exact D0|]. split; [exact D1|]. split; [exact D4|]. split; [exact D5|]. split; [exact D6|].
  destruct (C34_power_3d 2 1 1 0 0 (fun _ _ => 1/2) [[ex_turn 0]] 0 1) as (E & _).
  fold data in E. rewrite E, D0, D4, D5, D6. lra.
Qed.

(** The translation follows the force: its power is the square of the force. *)
Theorem C34_translation : forall dim n k ceq cgb sm center procs s mt,
  let data := grains_data dim n k ceq cgb sm center procs s in
  power dim n k ceq cgb sm procs s (fun _ => translation_velocity mt data) =
  mt * (1 / data 0%nat) * rsum (fun d => data (S d) ^ 2) (seq 0 dim) /\
  (0 <= mt -> 0 < data 0%nat -> 0 <= power dim n k ceq cgb sm procs s (fun _ => translation_velocity mt data)).
Proof.
  intros dim n k ceq cgb sm center procs s mt data.
  assert (E : power dim n k ceq cgb sm procs s (fun _ => translation_velocity mt data) =
    mt * (1 / data 0%nat) * rsum (fun d => data (S d) ^ 2) (seq 0 dim)).
  { unfold power. rewrite <- rsum_scal.
    assert (G : forall ds, (forall d, In d ds -> (d < dim)%nat) ->
      over_segment n procs s (fun c i q => rsum (fun d => force_at n k ceq cgb sm c q i d * translation_velocity mt data d) ds) =
      rsum (fun d => mt * (1 / data 0%nat) * data (S d) ^ 2) ds).
    { induction ds as [|d ds IH]; intros Hds; cbn [rsum].
      - rewrite (over_ext n procs s _ (fun c i q => 0 * 0)) by (intros; lra). rewrite (over_scal n procs s 0 (fun _ _ _ => 0)). lra.
      - rewrite over_plus, IH by (intros; apply Hds; right; assumption). f_equal.
        rewrite (over_ext n procs s _ (fun c i q => translation_velocity mt data d * force_at n k ceq cgb sm c q i d)) by (intros; lra).
        rewrite over_scal. assert (T : over_segment n procs s (fun c i q => force_at n k ceq cgb sm c q i d) = data (S d)).
        { unfold data. rewrite data_over. apply over_ext. intros c i q. cbn [Nat.eqb].
          pose proof (Hds d (or_introl eq_refl)). destruct (Nat.leb_spec (S d) dim); [|lia]. replace (S d - 1)%nat with d by lia. reflexivity. }
        rewrite T. unfold translation_velocity. ring. }
    apply G. intros d Hd. apply in_seq in Hd. lia. }
  split; [exact E|]. intros Hm Hv. rewrite E. apply Rmult_le_pos.
  - apply Rmult_le_pos; [exact Hm|]. apply Rlt_le, Rdiv_lt_0_compat; lra.
  - clear E. induction (seq 0 dim) as [|d ds IH]; cbn [rsum]; [lra|]. pose proof (pow2_ge_0 (data (S d))). lra.
Qed.
Print Assumptions C34_translation.

(** Where the forces act: beyond the threshold for the product of the order parameters
    (sharply, or smoothly with one half at the threshold), or in proportion to the product. *)
Theorem C33_where : forall k ceq cgb sm q i j d,
  let full := (grad q i d - grad q j d) * (k * (conc q - ceq)) in
  (0 < cgb -> sm <= 0 -> eta q i * eta q j <= cgb -> dF k ceq cgb sm q i j d = 0) /\
  (0 < cgb -> sm <= 0 -> cgb < eta q i * eta q j -> dF k ceq cgb sm q i j d = full) /\
  (0 < cgb -> 0 < sm -> exists w, 0 < w < 1 /\ dF k ceq cgb sm q i j d = w * full /\
     (eta q i * eta q j = cgb -> w = 1 / 2) /\ (eta q i * eta q j < cgb -> w < 1 / 2) /\ (cgb < eta q i * eta q j -> 1 / 2 < w)) /\
  (cgb <= 0 -> dF k ceq cgb sm q i j d = 4 * (eta q i * eta q j) * full).
Proof.
  intros k ceq cgb sm q i j d full. unfold dF, gb_weight. set (x := eta q i * eta q j).
  split; [|split; [|split]]; intros.
  - destruct (Rlt_dec 0 cgb); [|lra]. destruct (Rlt_dec 0 sm); [lra|]. destruct (Rlt_dec cgb x); [lra|]. ring.
  - destruct (Rlt_dec 0 cgb); [|lra]. destruct (Rlt_dec 0 sm); [lra|]. destruct (Rlt_dec cgb x); [|lra]. unfold full. ring.
  - destruct (Rlt_dec 0 cgb); [|lra]. destruct (Rlt_dec 0 sm); [|lra].
    exists (1 / (1 + exp (- sm * (x - cgb)))). pose proof (exp_pos (- sm * (x - cgb))) as P.
    assert (K : 1 / (1 + exp (- sm * (x - cgb))) * (1 + exp (- sm * (x - cgb))) = 1) by (field; lra).
    set (e := exp (- sm * (x - cgb))) in *. set (w := 1 / (1 + e)) in *.
    assert (W : 0 < w) by (apply Rdiv_lt_0_compat; lra).
    assert (We : 0 < w * e) by (apply Rmult_lt_0_compat; assumption).
    assert (Lt : forall y, y < e -> w * y < w * e) by (intros; apply Rmult_lt_compat_l; assumption).
    assert (Gt : forall y, e < y -> w * e < w * y) by (intros; apply Rmult_lt_compat_l; assumption).
    split; [lra|]. split; [unfold full; ring|]. split; [|split]; intros Hx.
    + assert (e = 1) by (unfold e; rewrite Hx; replace (- sm * (cgb - cgb)) with 0 by ring; apply exp_0). unfold w. rewrite H1. field.
    + assert (1 < e). { unfold e. rewrite <- exp_0. apply exp_increasing. assert (0 < sm * (cgb - x)) by (apply Rmult_lt_0_compat; lra). lra. }
      pose proof (Lt 1 H1). lra.
    + assert (e < 1). { unfold e. rewrite <- exp_0. apply exp_increasing. assert (0 < sm * (x - cgb)) by (apply Rmult_lt_0_compat; lra). lra. }
      pose proof (Gt 1 H1). lra.
  - destruct (Rlt_dec 0 cgb); [lra|]. unfold full. ring.
Qed.
Print Assumptions C33_where.
