From Coq Require Import List Arith ZArith QArith Lia.
From Verif Require Import Util TimeSchemesModel TimeSchemesSpec TimeSchemesProofs
  TimeDataModel TimeDataSpec.
Import ListNotations.
Local Open Scope nat_scope.

Lemma shift_spec : forall n dt, n < length dt ->
  exists dt', shift n dt = Some dt' /\ length dt' = length dt /\
    forall j, vget dt' j = if (1 <=? j) && (j <=? n) then vget dt (j - 1) else vget dt j.
Proof.
  induction n as [|i IH]; intros dt H; simpl.
  - exists dt. repeat split. intro j. destruct j; reflexivity.
  - destruct (vget_some Q dt i ltac:(lia)) as [v Ev]. rewrite Ev. simpl.
    destruct (vset_some Q dt (S i) v H) as [dt1 E1]. rewrite E1. simpl.
    pose proof (vset_length _ _ _ _ _ E1) as L1.
    destruct (IH dt1 ltac:(lia)) as [dt2 [E2 [L2 G2]]].
    exists dt2. split; [exact E2|]. split; [lia|]. intro j. rewrite G2.
    rewrite !(vset_get _ _ _ _ _ _ E1).
    destruct j as [|j]; [reflexivity|].
    change (1 <=? S j) with true. cbn [andb].
    destruct (Nat.leb_spec (S j) i) as [A|A], (Nat.leb_spec (S j) (S i)) as [B|B]; try lia.
    + destruct (Nat.eqb_spec (S j - 1) (S i)); [lia|]. reflexivity.
    + assert (j = i) by lia. subst j. rewrite Nat.eqb_refl.
      replace (S i - 1) with i by lia. symmetry; exact Ev.
    + destruct (Nat.eqb_spec (S j) (S i)); [lia|]. reflexivity.
Qed.

(** update_dt on the list: push in front, drop the last. *)
Lemma shift_push : forall x dt, dt <> [] ->
  exists dt', shift (length dt - 1) dt = Some dt' /\
    vset dt' 0 x = Some (x :: firstn (length dt - 1) dt).
Proof.
  intros x dt HN. assert (HL : length dt > 0) by (destruct dt; [congruence|simpl; lia]).
  destruct (shift_spec (length dt - 1) dt ltac:(lia)) as [dt' [E [L G]]].
  exists dt'. split; [exact E|].
  destruct (vset_some Q dt' 0 x ltac:(lia)) as [r Er]. rewrite Er. f_equal.
  apply list_ext. intro j. rewrite (vset_get _ _ _ _ _ _ Er). rewrite G.
  destruct j as [|j]; [reflexivity|]. simpl Nat.eqb. cbv iota.
  change (1 <=? S j) with true. cbn [andb]. rewrite vget_cons_S, vget_firstn.
  replace (S j - 1) with j by lia.
  destruct (Nat.leb_spec (S j) (length dt - 1)), (Nat.ltb_spec j (length dt - 1)); try lia.
  - reflexivity.
  - apply vget_none. lia.
Qed.

Definition scheme_order (s : option scheme) : nat :=
  match s with Some s => get_order s | None => 0 end.

Definition slots (s : option scheme) : nat := Nat.max (scheme_order s) 1.

Lemma slots_pos : forall s, slots s > 0.
Proof. intro s. unfold slots. lia. Qed.

(** Invariant linking the stored data to the run. *)
Definition inv (s : option scheme) (d : time_data) (r : run_state) : Prop :=
  td_scheme d = s /\ td_order d = scheme_order s /\ td_dt d = newest (slots s) r /\
  match s with
  | None => True
  | Some sc => compute_weights sc (td_dt d) = Some (td_weights d)
  end.

Lemma newest_length : forall k r, length (newest k r) = k.
Proof.
  intros k r. unfold newest. rewrite firstn_length. simpl.
  rewrite app_length, repeat_length. lia.
Qed.

Lemma firstn_pad : forall k (l : list Q) n, k <= n ->
  firstn k (l ++ repeat 0%Q n) = firstn k (l ++ repeat 0%Q k).
Proof. intros k l n H. vext. Qed.

Lemma newest_update : forall k x r, k > 0 ->
  x :: firstn (k - 1) (newest k r) = newest k (step r (Update x)).
Proof.
  intros k x r H. unfold newest. destruct k as [|k]; [lia|].
  replace (S k - 1) with k by lia. rewrite firstn_firstn.
  replace (Nat.min k (S k)) with k by lia. simpl step. cbn [current accepted].
  change (firstn (S k) (x :: ?l)) with (x :: firstn k l). simpl firstn at 2.
  reflexivity.
Qed.

Lemma newest_replace : forall k x r, k > 0 ->
  x :: skipn 1 (newest k r) = newest k (step r (Replace x)).
Proof.
  intros k x r H. unfold newest. destruct k as [|k]; [lia|]. reflexivity.
Qed.

Lemma update_weights_inv : forall s d d' r,
  td_scheme d = s -> td_order d = scheme_order s -> td_dt d = newest (slots s) r ->
  update_weights d = Some d' -> inv s d' r.
Proof.
  intros s d d' r HS HO HD H. unfold update_weights in H. rewrite HS in H.
  destruct s as [sc|].
  - destruct (compute_weights sc (td_dt d)) as [w|] eqn:E; simpl in H; [|discriminate].
    injection H as <-. unfold inv; simpl. repeat split; auto.
  - injection H as <-. unfold inv. auto.
Qed.

Lemma exec1_inv : forall s d r o d', inv s d r -> exec1 d o = Some d' -> inv s d' (step r o).
Proof.
  intros s d r o d' [HS [HO [HD HW]]] H. pose proof (slots_pos s) as HP.
  pose proof (newest_length (slots s) r) as HL.
  destruct o as [x|x]; simpl in H.
  - unfold update_dt in H. rewrite HO, HD in H.
    replace (scheme_order s - 1) with (length (newest (slots s) r) - 1) in H
      by (rewrite HL; unfold slots; lia).
    destruct (shift_push x (newest (slots s) r)) as [dt' [E1 E2]].
    { intro C. rewrite C in HL. simpl in HL. lia. }
    rewrite E1 in H. simpl in H. rewrite E2 in H. simpl in H.
    eapply update_weights_inv in H; eauto; cbn [td_dt].
    rewrite HL. apply newest_update. assumption.
  - unfold replace_dt in H. rewrite HD in H.
    destruct (newest (slots s) r) as [|y l] eqn:E; [simpl in HL; lia|].
    simpl in H. eapply update_weights_inv in H; eauto; cbn [td_dt].
    rewrite <- (newest_replace (slots s) x r) by assumption. rewrite E. reflexivity.
Qed.

Lemma newest_init : forall k x, k > 0 -> newest k (mkRun x []) = x :: repeat 0%Q (k - 1).
Proof.
  intros k x H. destruct k as [|k]; [lia|]. unfold newest. simpl.
  rewrite Nat.sub_0_r. f_equal. change (0%Q :: repeat 0%Q k) with (repeat 0%Q (S k)).
  rewrite <- (app_nil_l (repeat 0%Q (S k))), (firstn_pad k [] (S k)) by lia. simpl.
  rewrite <- (repeat_length 0%Q k) at 1. apply firstn_all.
Qed.

Lemma td_ctor_init_inv : forall s x d, td_ctor_init s x = Some d -> inv s d (mkRun x []).
Proof.
  intros s x d H. unfold td_ctor_init, update_dt in H.
  assert (HD : td_dt (td_ctor s) = repeat 0%Q (slots s)) by reflexivity.
  assert (HO : td_order (td_ctor s) = scheme_order s) by reflexivity.
  rewrite HD, HO in H. pose proof (slots_pos s) as HP.
  replace (scheme_order s - 1) with (length (repeat 0%Q (slots s)) - 1) in H
    by (rewrite repeat_length; unfold slots; lia).
  destruct (shift_push x (repeat 0%Q (slots s))) as [dt' [E1 E2]].
  { destruct (slots s); [lia|discriminate]. }
  rewrite E1 in H. simpl in H. rewrite E2 in H. simpl in H.
  eapply update_weights_inv in H; eauto.
  cbn [td_dt]. rewrite repeat_length, newest_init by assumption. f_equal.
  clear. destruct (slots s) as [|n]; [reflexivity|]. rewrite Nat.sub_succ, Nat.sub_0_r.
  change (repeat 0%Q (S n)) with ([] ++ repeat 0%Q (S n)).
  rewrite (firstn_pad n [] (S n)) by lia. simpl.
  rewrite <- (repeat_length 0%Q n) at 1. apply firstn_all.
Qed.

Lemma exec_inv : forall s ops d r d', inv s d r -> exec d ops = Some d' ->
  inv s d' (fold_left step ops r).
Proof.
  induction ops as [|o ops IH]; intros d r d' HI H; simpl in *.
  - injection H as <-. exact HI.
  - destruct (exec1 d o) as [d1|] eqn:E; simpl in H; [|discriminate].
    eapply IH; [|exact H]. eapply exec1_inv; eassumption.
Qed.

Lemma run_td_inv : forall s x ops d, run_td s x ops = Some d -> inv s d (run x ops).
Proof.
  intros s x ops d H. unfold run_td in H.
  destruct (td_ctor_init s x) as [d0|] eqn:E; simpl in H; [|discriminate].
  eapply exec_inv; [|exact H]. apply td_ctor_init_inv. exact E.
Qed.

(** Progress: with positive step sizes nothing is undefined. *)
Definition run_positive (r : run_state) : Prop :=
  (0 < current r)%Q /\ positive (accepted r).

Lemma step_positive : forall r o, run_positive r -> (0 < op_dt o)%Q -> run_positive (step r o).
Proof.
  intros r o [H1 H2] H. destruct o; split; simpl in *; auto.
  constructor; assumption.
Qed.

Lemma positive_firstn : forall k l, positive l -> positive (firstn k l).
Proof.
  induction k; intros l H; [constructor|]. destruct l; simpl; [constructor|].
  inversion H; subst. constructor; [assumption|]. apply IHk. assumption.
Qed.

(** The newest k step sizes split in the positive ones and the padding. *)
Lemma newest_split : forall k r,
  newest k r = firstn k (current r :: accepted r)
             ++ repeat 0%Q (k - length (firstn k (current r :: accepted r))).
Proof.
  intros k r. unfold newest.
  change (current r :: accepted r ++ repeat 0%Q k)
    with ((current r :: accepted r) ++ repeat 0%Q k).
  generalize (current r :: accepted r) as l. intro l.
  rewrite firstn_app. f_equal.
  rewrite firstn_length.
  assert (E : k - Nat.min k (length l) = k - length l) by lia. rewrite E.
  change (repeat 0%Q k) with ([] ++ repeat 0%Q k).
  rewrite firstn_pad by lia. simpl.
  rewrite <- (repeat_length 0%Q (k - length l)) at 1. apply firstn_all.
Qed.

Lemma weights_defined : forall sc r, run_positive r ->
  exists w, compute_weights sc (newest (get_order sc) r) = Some w.
Proof.
  intros sc r [H1 H2]. rewrite newest_split.
  set (pos := firstn (get_order sc) (current r :: accepted r)).
  destruct (sum_padded sc pos) as [w [E _]].
  - apply positive_firstn. constructor; assumption.
  - unfold pos. rewrite firstn_length. lia.
  - exists w. exact E.
Qed.

Lemma slots_some : forall sc, slots (Some sc) = get_order sc.
Proof. destruct sc; reflexivity. Qed.

Lemma update_weights_defined : forall s d r,
  td_scheme d = s -> td_dt d = newest (slots s) r -> run_positive r ->
  exists d', update_weights d = Some d'.
Proof.
  intros s d r HS HD HP. unfold update_weights. rewrite HS.
  destruct s as [sc|]; [|eauto].
  destruct (weights_defined sc r HP) as [w E]. rewrite HD, slots_some, E. simpl. eauto.
Qed.

Lemma exec1_defined : forall s d r o, inv s d r -> run_positive r -> (0 < op_dt o)%Q ->
  exists d', exec1 d o = Some d'.
Proof.
  intros s d r o [HS [HO [HD HW]]] HR HPo. pose proof (slots_pos s) as HP.
  pose proof (newest_length (slots s) r) as HL.
  pose proof (step_positive r o HR HPo) as HR'.
  destruct o as [x|x]; simpl.
  - unfold update_dt. rewrite HO, HD.
    replace (scheme_order s - 1) with (length (newest (slots s) r) - 1)
      by (rewrite HL; unfold slots; lia).
    destruct (shift_push x (newest (slots s) r)) as [dt' [E1 E2]].
    { intro C. rewrite C in HL. simpl in HL. lia. }
    rewrite E1. simpl. rewrite E2. simpl.
    eapply update_weights_defined; [reflexivity| |exact HR']. rewrite HL, HS.
    cbn [td_scheme td_dt]. apply newest_update. assumption.
  - unfold replace_dt. rewrite HD.
    destruct (newest (slots s) r) as [|y l] eqn:E; [simpl in HL; lia|]. simpl.
    eapply update_weights_defined; [reflexivity| |exact HR']. rewrite HS.
    cbn [td_scheme td_dt]. rewrite <- (newest_replace (slots s) x r) by assumption.
    rewrite E. reflexivity.
Qed.

Lemma td_ctor_init_defined : forall s x, (0 < x)%Q -> exists d, td_ctor_init s x = Some d.
Proof.
  intros s x Hx. destruct s as [[| |]|]; unfold td_ctor_init, update_dt; simpl; try eauto.
  all: match goal with |- exists d, update_weights ?dd = Some d =>
    destruct (update_weights_defined (td_scheme dd) dd (mkRun x []) eq_refl eq_refl
       (conj Hx (Forall_nil _))) as [d E]; eauto end.
Qed.

Lemma exec_defined : forall s ops d r, inv s d r -> run_positive r -> positive_ops ops ->
  exists d', exec d ops = Some d'.
Proof.
  induction ops as [|o ops IH]; intros d r HI HR HP; simpl; [eauto|].
  inversion HP; subst. destruct (exec1_defined s d r o HI HR) as [d1 E]; [assumption|].
  rewrite E. simpl. eapply IH with (r := step r o); try assumption.
  - eapply exec1_inv; eassumption.
  - apply step_positive; assumption.
Qed.

Lemma run_td_defined : forall s x ops, (0 < x)%Q -> positive_ops ops ->
  exists d, run_td s x ops = Some d.
Proof.
  intros s x ops Hx HP. unfold run_td. destruct (td_ctor_init_defined s x Hx) as [d E].
  rewrite E. simpl. eapply exec_defined with (r := mkRun x []); try assumption.
  - apply td_ctor_init_inv. exact E.
  - split; [assumption|constructor].
Qed.

Lemma fold_positive : forall ops r, run_positive r -> positive_ops ops ->
  run_positive (fold_left step ops r).
Proof.
  induction ops as [|o ops IH]; intros r HR HP; simpl; [assumption|].
  inversion HP; subst. apply IH; [apply step_positive; assumption|assumption].
Qed.

Lemma run_positive_run : forall x ops, (0 < x)%Q -> positive_ops ops -> run_positive (run x ops).
Proof.
  intros x ops Hx HP. apply fold_positive; [|assumption].
  split; [assumption|constructor].
Qed.

(** The derivative computed with the stored weights is exact. *)
Lemma stored_weights_exact : forall sc x ops d p t missing,
  (0 < x)%Q -> positive_ops ops -> run_td (Some sc) x ops = Some d ->
  let known := firstn (get_order sc) (current (run x ops) :: accepted (run x ops)) in
  length p <= S (length known) ->
  length missing = get_order sc - length known ->
  exists v, compute_time_derivative 0 (peval p t) (td_weights d)
              (past_values p t known ++ missing) = Some v /\
            (v == peval (pderiv p) t)%Q.
Proof.
  intros sc x ops d p t missing Hx HP H known HD HM.
  apply run_td_inv in H. destruct H as [HS [HO [HT HW]]].
  rewrite HT, slots_some, newest_split in HW. fold known in HW.
  assert (HK : length known <= get_order sc).
  { unfold known. rewrite firstn_length. lia. }
  destruct (run_positive_run x ops Hx HP) as [Q1 Q2].
  assert (HK1 : 1 <= length known).
  { unfold known. rewrite firstn_length. simpl. destruct sc; simpl; lia. }
  destruct (exact_padded sc known p t missing) as [w [v [E1 [E2 E3]]]]; try assumption.
  - apply positive_firstn. constructor; assumption.
  - lia.
  - rewrite E1 in HW. injection HW as ->. eauto.
Qed.

(** Saving and loading. *)
Lemma firstn_newest : forall k r, firstn k (newest k r) = newest k r.
Proof. intros. rewrite <- (newest_length k r) at 1. apply firstn_all. Qed.

Lemma load_save_implicit : forall sc x ops d,
  run_td (Some sc) x ops = Some d ->
  exists d', load td_default (save_td d) = Some d' /\
    td_order d' = td_order d /\ td_dt d' = td_dt d /\ td_scheme d' = None.
Proof.
  intros sc x ops d H. apply run_td_inv in H. destruct H as [HS [HO [HT HW]]].
  rewrite slots_some in HT. simpl in HO.
  unfold load, save_td. cbn [ar_order ar_dt]. rewrite HO, HT, newest_length, Nat.leb_refl.
  eexists. split; [reflexivity|]. simpl. rewrite firstn_newest. auto.
Qed.

Lemma copy_dt_spec : forall n dst src, n <= length dst -> n <= length src ->
  exists r, copy_dt n dst src = Some r /\ length r = length dst /\
    forall j, vget r j = if j <? n then vget src j else vget dst j.
Proof.
  induction n as [|n IH]; intros dst src H1 H2; simpl.
  - exists dst. repeat split.
  - destruct (IH dst src) as [r [E [L G]]]; [lia|lia|]. rewrite E. simpl.
    destruct (vget_some Q src n ltac:(lia)) as [v Ev]. rewrite Ev. simpl.
    destruct (vset_some Q r n v ltac:(lia)) as [r' E']. rewrite E'.
    exists r'. split; [reflexivity|]. split; [rewrite (vset_length _ _ _ _ _ E'); lia|].
    intro j. rewrite (vset_get _ _ _ _ _ _ E'), G.
    destruct (Nat.eqb_spec j n) as [->|NE].
    + destruct (Nat.ltb_spec n (S n)); [|lia]. symmetry; exact Ev.
    + destruct (Nat.ltb_spec j n), (Nat.ltb_spec j (S n)); try lia; reflexivity.
Qed.

Lemma vget_newest : forall k r j, j < k -> vget (newest k r) j = vget (newest (S j) r) j.
Proof.
  intros k r j H. unfold newest, vget.
  assert (G : forall m (l : list Q), j < m -> nth_error (firstn m l) j = nth_error l j).
  { clear. intro m. revert j. induction m as [|m IH]; intros j l H; [lia|].
    destruct l as [|y l]; [destruct j; reflexivity|]. destruct j; simpl; [reflexivity|].
    apply IH. lia. }
  rewrite !G by lia.
  change (current r :: accepted r ++ repeat 0%Q k)
    with ((current r :: accepted r) ++ repeat 0%Q k).
  change (current r :: accepted r ++ repeat 0%Q (S j))
    with ((current r :: accepted r) ++ repeat 0%Q (S j)).
  generalize (current r :: accepted r) as l. intro l.
  destruct (Nat.lt_ge_cases j (length l)).
  - rewrite !nth_error_app1 by assumption. reflexivity.
  - rewrite !nth_error_app2 by assumption. rewrite !nth_error_repeat by lia. reflexivity.
Qed.

Lemma restart_full : forall sc x ops d sc',
  (0 < x)%Q -> positive_ops ops -> run_td (Some sc) x ops = Some d ->
  exists d', restart_time_data (Some sc') (save_td d) true = Some d' /\
    td_scheme d' = Some sc' /\ td_order d' = get_order sc' /\
    td_dt d' = firstn (get_order sc') (newest (get_order sc) (run x ops)
                 ++ repeat 0%Q (get_order sc')) /\
    compute_weights sc' (td_dt d') = Some (td_weights d').
Proof.
  intros sc x ops d sc' Hx HP H.
  destruct (load_save_implicit sc x ops d H) as [l [E1 [E2 [E3 E4]]]].
  pose proof (run_td_inv _ _ _ _ H) as [HS [HO [HT HW]]].
  rewrite slots_some in HT. simpl in HO.
  unfold restart_time_data. rewrite E1. cbv beta iota delta [obind].
  unfold td_ctor_copy. rewrite E2, E3, HO, HT.
  set (N := newest (get_order sc) (run x ops)).
  assert (LN : length N = get_order sc) by apply newest_length.
  assert (P1 : get_order sc > 0) by (destruct sc; simpl; lia).
  assert (P2 : get_order sc' > 0) by (destruct sc'; simpl; lia).
  destruct (vget_some Q N 0 ltac:(lia)) as [v0 Ev]. rewrite Ev. cbv beta iota delta [obind].
  assert (HD0 : td_dt (td_ctor (Some sc')) = repeat 0%Q (get_order sc')).
  { change (repeat 0%Q (slots (Some sc')) = repeat 0%Q (get_order sc')).
    rewrite slots_some. reflexivity. }
  rewrite HD0.
  destruct (vset_some Q (repeat 0%Q (get_order sc')) 0 v0) as [dt1 Es].
  { rewrite repeat_length. lia. }
  rewrite Es. pose proof (vset_length _ _ _ _ _ Es) as L1. rewrite repeat_length in L1.
  change (td_order (td_ctor (Some sc'))) with (get_order sc').
  destruct (copy_dt_spec (Nat.min (get_order sc') (get_order sc)) dt1 N)
    as [dt2 [Ec [L2 G2]]]; [lia|lia|]. rewrite Ec.
  assert (HF : dt2 = firstn (get_order sc') (N ++ repeat 0%Q (get_order sc'))).
  { apply list_ext. intro j. rewrite G2, (vset_get _ _ _ _ _ _ Es).
    destruct (Nat.lt_ge_cases j (get_order sc')) as [J|J].
    - assert (R : vget (firstn (get_order sc') (N ++ repeat 0%Q (get_order sc'))) j
                  = vget (N ++ repeat 0%Q (get_order sc')) j).
      { clear -J. generalize (N ++ repeat 0%Q (get_order sc')). intro l.
        revert j l J. generalize (get_order sc'). unfold vget.
        induction n as [|n IH]; intros j l J; [lia|].
        destruct l; [destruct j; reflexivity|]. destruct j; simpl; [reflexivity|].
        apply IH. lia. }
      rewrite R. unfold vget.
      destruct (Nat.ltb_spec j (Nat.min (get_order sc') (get_order sc))).
      + rewrite nth_error_app1 by lia. reflexivity.
      + destruct (Nat.eqb_spec j 0); [lia|].
        rewrite nth_error_app2 by lia. rewrite !nth_error_repeat by lia. reflexivity.
    - unfold vget.
      assert (R : nth_error (firstn (get_order sc') (N ++ repeat 0%Q (get_order sc'))) j = None).
      { apply nth_error_None. rewrite firstn_length. lia. }
      rewrite R. destruct (Nat.ltb_spec j (Nat.min (get_order sc') (get_order sc))); [lia|].
      destruct (Nat.eqb_spec j 0); [lia|].
      apply nth_error_None. rewrite repeat_length. lia. }
  unfold update_weights. cbn [td_scheme td_order td_dt td_weights].
  assert (HX : exists w, compute_weights sc' dt2 = Some w).
  { rewrite HF. unfold N. rewrite newest_split.
    destruct (run_positive_run x ops Hx HP) as [Q1 Q2].
    set (K := firstn (get_order sc) (current (run x ops) :: accepted (run x ops))).
    assert (KP : positive K) by (apply positive_firstn; constructor; assumption).
    destruct (sum_padded sc' (firstn (get_order sc') K)) as [w [Ew _]].
    { apply positive_firstn; assumption. }
    { rewrite firstn_length. lia. }
    exists w. rewrite <- Ew. f_equal. rewrite <- app_assoc, <- repeat_app.
    rewrite firstn_app. f_equal. rewrite firstn_length.
    replace (get_order sc' - Nat.min (get_order sc') (length K))
      with (get_order sc' - length K) by lia.
    change (repeat 0%Q (get_order sc - length K + get_order sc'))
      with ([] ++ repeat 0%Q (get_order sc - length K + get_order sc')).
    rewrite firstn_pad by lia. simpl.
    rewrite <- (repeat_length 0%Q (get_order sc' - length K)) at 1. apply firstn_all. }
  destruct HX as [w Ew]. rewrite Ew. eexists. split; [reflexivity|]. simpl. auto.
Qed.

Lemma restart_same : forall sc x ops d,
  (0 < x)%Q -> positive_ops ops -> run_td (Some sc) x ops = Some d ->
  restart_time_data (Some sc) (save_td d) true = Some d.
Proof.
  intros sc x ops d Hx HP H.
  destruct (restart_full sc x ops d sc Hx HP H) as [d' [E [E1 [E2 [E3 E4]]]]].
  rewrite E. f_equal. apply run_td_inv in H. destruct H as [HS [HO [HT HW]]].
  rewrite slots_some in HT.
  assert (ED : td_dt d' = td_dt d).
  { rewrite E3, HT. rewrite <- (newest_length (get_order sc) (run x ops)) at 1.
    rewrite firstn_app, firstn_all, Nat.sub_diag. simpl. apply app_nil_r. }
  rewrite ED, HW in E4. injection E4 as E4.
  clear E3. destruct d', d; simpl in *. subst. reflexivity.
Qed.

Lemma restart_short : forall sc x ops d sc',
  (0 < x)%Q -> positive_ops ops -> run_td (Some sc) x ops = Some d ->
  exists d', restart_time_data (Some sc') (save_td d) false = Some d' /\
    td_ctor_init (Some sc') (current (run x ops)) = Some d'.
Proof.
  intros sc x ops d sc' Hx HP H.
  destruct (load_save_implicit sc x ops d H) as [l [E1 [E2 [E3 E4]]]].
  pose proof (run_td_inv _ _ _ _ H) as [HS [HO [HT HW]]]. rewrite slots_some in HT.
  unfold restart_time_data. rewrite E1. cbv beta iota delta [obind].
  unfold get_current_dt. rewrite E3, HT.
  replace (vget (newest (get_order sc) (run x ops)) 0) with (Some (current (run x ops)))
    by (destruct sc; reflexivity).
  destruct (run_positive_run x ops Hx HP) as [Q1 Q2].
  destruct (td_ctor_init_defined (Some sc') _ Q1) as [d' E]. eauto.
Qed.
