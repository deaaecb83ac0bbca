From Coq Require Import List Arith ZArith QArith Qabs Qminmax Lia Lqa.
From Verif Require Import Util TimeSchemesModel TimeSchemesSpec TimeSchemesProofs
  TimeDataModel TimeDataSpec TimeDataProofs HistoryModel TimeLoopModel TimeLoopSpec.
Import ListNotations.
Local Open Scope nat_scope.

Section P.
Context {V : Type}.
Implicit Types (s : state V) (a : answer V) (h rest : list V) (l : ledger V).

Lemma Some_eq : forall A (x y : A), Some x = Some y -> x = y.
Proof. congruence. Qed.

(** commit_old_solutions *)
Lemma commit_loop_spec : forall i h, i + 1 < length h \/ i = 0 ->
  exists h', commit_loop i h = Some h' /\ length h' = length h /\
    forall j, vget h' j = if (2 <=? j) && (j <=? S i) then vget h (j - 1) else vget h j.
Proof.
  induction i as [|i IH]; intros h H; cbn [commit_loop].
  - exists h. repeat split. intro j. destruct (Nat.leb_spec 2 j), (Nat.leb_spec j 1); try lia; cbn [andb]; try reflexivity.
  - destruct H as [H|H]; [|lia].
    destruct (vget_some V h (S i) ltac:(lia)) as [v Ev]. rewrite Ev. cbn [obind].
    destruct (vset_some V h (S (S i)) v ltac:(lia)) as [h1 E1]. rewrite E1. cbn [obind].
    pose proof (vset_length _ _ _ _ _ E1) as L1.
    destruct (IH h1) as [h2 [E2 [L2 G2]]]; [lia|].
    exists h2. split; [exact E2|]. split; [lia|]. intro j. rewrite G2, !(vset_get _ _ _ _ _ _ E1).
    destruct (Nat.leb_spec 2 j), (Nat.leb_spec j (S i)), (Nat.leb_spec j (S (S i))); try lia;
      cbn [andb].
    + destruct (Nat.eqb_spec (j - 1) (S (S i))); [lia|]. reflexivity.
    + assert (j = S (S i)) by lia. subst j. rewrite Nat.eqb_refl.
      replace (S (S i) - 1) with (S i) by lia. symmetry. exact Ev.
    + destruct (Nat.eqb_spec j (S (S i))); [lia|]. reflexivity.
    + destruct (Nat.eqb_spec j (S (S i))); [lia|]. reflexivity.
Qed.

Lemma commit_cons : forall u c rest,
  commit_old_solutions (u :: c :: rest) = Some (u :: c :: firstn (length rest) (c :: rest)).
Proof.
  intros u c rest. unfold commit_old_solutions. simpl length.
  replace (S (S (length rest)) - 2) with (length rest) by lia.
  destruct (commit_loop_spec (length rest) (u :: c :: rest)) as [h' [E [L G]]].
  { simpl. lia. }
  rewrite E. f_equal. apply list_ext. intro j. rewrite G.
  destruct j as [|[|j]]; [reflexivity| |].
  - reflexivity.
  - rewrite !vget_cons_S, vget_firstn. change (2 <=? S (S j)) with true. cbn [andb].
    replace (S (S j) - 1) with (S j) by lia. rewrite vget_cons_S.
    destruct (Nat.leb_spec (S (S j)) (S (length rest))), (Nat.ltb_spec j (length rest)); try lia.
    + reflexivity.
    + apply vget_none. lia.
Qed.

(** apply_filtered on a history of at least two vectors *)
Lemma apply_from_old : forall (f : V -> V) rest i, i >= 2 ->
  apply_from i true false true f rest = map f rest.
Proof.
  induction rest as [|x r IH]; intros i H; simpl; [reflexivity|].
  unfold can_process. destruct (Nat.eqb_spec i 0); [lia|]. destruct (Nat.eqb_spec i 1); [lia|].
  destruct (Nat.ltb_spec 1 i); [|lia]. simpl. f_equal. apply IH. lia.
Qed.

Lemma apply_from_none : forall (f : V -> V) rest i, i >= 1 ->
  apply_from i true false false f rest = rest.
Proof.
  induction rest as [|x r IH]; intros i H; simpl; [reflexivity|].
  unfold can_process. destruct (Nat.eqb_spec i 0); [lia|]. rewrite !andb_false_r. simpl.
  f_equal. apply IH. lia.
Qed.

Lemma apply_except_recent : forall (f : V -> V) c j rest,
  apply_filtered true false true f (c :: j :: rest) = f c :: j :: map f rest.
Proof.
  intros. unfold apply_filtered. simpl. f_equal. f_equal. apply apply_from_old. lia.
Qed.

Lemma apply_current : forall (f : V -> V) c rest,
  apply_filtered true false false f (c :: rest) = f c :: rest.
Proof. intros. unfold apply_filtered. simpl. f_equal. apply apply_from_none. lia. Qed.

Lemma filter_from_old : forall rest i, i >= 2 ->
  filter_from i true false true rest = rest.
Proof.
  induction rest as [|x r IH]; intros i H; simpl; [reflexivity|].
  unfold can_process. destruct (Nat.eqb_spec i 0); [lia|]. destruct (Nat.eqb_spec i 1); [lia|].
  destruct (Nat.ltb_spec 1 i); [|lia]. simpl. f_equal. apply IH. lia.
Qed.

Lemma filter_except_recent : forall c j rest,
  filter_history true false true (c :: j :: rest) = c :: rest.
Proof. intros. unfold filter_history. simpl. f_equal. apply filter_from_old. lia. Qed.

Lemma fill_from_old : forall rest src i, i >= 2 ->
  fill_from i true false true src rest = firstn (length rest) src ++ skipn (length src) rest.
Proof.
  induction rest as [|x r IH]; intros src i H; simpl.
  - rewrite skipn_nil. reflexivity.
  - unfold can_process. destruct (Nat.eqb_spec i 0); [lia|]. destruct (Nat.eqb_spec i 1); [lia|].
    destruct (Nat.ltb_spec 1 i); [|lia]. simpl.
    destruct src as [|y src]; simpl.
    + f_equal. rewrite IH by lia. rewrite firstn_nil. reflexivity.
    + f_equal. apply IH. lia.
Qed.

Lemma fill_except_recent : forall c j rest y src,
  fill_filtered true false true (y :: src) (c :: j :: rest) =
  y :: j :: firstn (length rest) src ++ skipn (length src) rest.
Proof. intros. unfold fill_filtered. simpl. f_equal. f_equal. apply fill_from_old. lia. Qed.

(** The work before the step. *)
Lemma before_step_hist : forall p s a c j rest, hist s = c :: j :: rest ->
  exists c' rest', hist (before_step p s a) = c' :: j :: rest' /\
    length rest' = length rest /\
    c' :: rest' = sols_before p s a (c :: rest).
Proof.
  intros p s a c j rest H. unfold before_step, sols_before.
  destruct (has_converged s); [|exists c, rest; auto].
  cbn [hist]. rewrite H.
  destruct (sanity_check_solution p); [rewrite apply_current|];
  destruct (do_amr s); try rewrite apply_except_recent;
  destruct (do_gt s); try rewrite apply_except_recent;
  eexists; eexists; (split; [reflexivity|]); split; rewrite ?map_length; reflexivity.
Qed.

Lemma before_step_fields : forall p s a,
  t (before_step p s a) = t s /\ dt (before_step p s a) = dt s /\
  n_timestep (before_step p s a) = n_timestep s /\ td (before_step p s a) = td s /\
  time_last_output (before_step p s a) = time_last_output s /\
  restart_counter (before_step p s a) = restart_counter s /\
  outputs (before_step p s a) = outputs s /\ checkpoints (before_step p s a) = checkpoints s /\
  n_failed (before_step p s a) = n_failed s.
Proof. intros p s a. unfold before_step. destruct (has_converged s); repeat split. Qed.

(** One pass, spelled out. *)
Inductive pass_result (p : params) (s : state V) (a : answer V) c rest : option (outcome V) -> Prop :=
| pr_finish : loop_condition p s = false -> pass_result p s a c rest (Some (Finished s))
| pr_abort : forall s',
    loop_condition p s = true ->
    (a_result a = None \/ remap_now p s a = None) ->
    Qle (dt s * (1 # 2)) (time_step_min p) ->
    t s' = t s -> dt s' = (dt s * (1#2))%Q -> get_current_solution (hist s') = Some c ->
    n_timestep s' = n_timestep s -> outputs s' = outputs s -> checkpoints s' = checkpoints s ->
    pass_result p s a c rest (Some (Aborted s'))
| pr_fail : forall s' d,
    loop_condition p s = true ->
    (a_result a = None \/ remap_now p s a = None) ->
    Qlt (time_step_min p) (dt s * (1 # 2)) ->
    replace_dt (td s) (dt s * (1#2)) = Some d -> td s' = d ->
    t s' = t s -> dt s' = (dt s * (1#2))%Q -> hist s' = c :: c :: rest ->
    has_converged s' = false -> n_timestep s' = n_timestep s ->
    outputs s' = outputs s -> checkpoints s' = checkpoints s ->
    time_last_output s' = time_last_output s -> restart_counter s' = restart_counter s ->
    pass_result p s a c rest (Some (Running s'))
| pr_fail_ub :
    loop_condition p s = true ->
    (a_result a = None \/ remap_now p s a = None) ->
    Qlt (time_step_min p) (dt s * (1 # 2)) ->
    replace_dt (td s) (dt s * (1#2)) = None ->
    pass_result p s a c rest None
| pr_success : forall s' u f d,
    loop_condition p s = true ->
    a_result a = Some u -> remap_now p s a = Some f ->
    let run_gt := andb (negb (is_last p (t s + dt s))) (check_inconsistency p) in
    let x := next_dt p (a_good a) (t s + dt s) (dt s) in
    let last := is_last p (t s + dt s) in
    let out := andb (qltb 0 (output_time_interval p))
                  (orb (Qle_bool (output_time_interval p + time_last_output s) (t s + dt s)) last) in
    let save := orb last (a_restart a) in
    update_dt (td s) x = Some d -> td s' = d ->
    t s' = (t s + dt s)%Q -> dt s' = x ->
    hist s' = (if run_gt then f u :: c :: firstn (length rest) (c :: map f rest)
               else u :: c :: firstn (length rest) (c :: rest)) ->
    has_converged s' = true -> n_timestep s' = S (n_timestep s) ->
    time_last_output s' = (if out then (t s + dt s)%Q else time_last_output s) ->
    outputs s' = (if out then (t s + dt s)%Q :: outputs s else outputs s) ->
    restart_counter s' = (if save then S (restart_counter s) else restart_counter s) ->
    (exists ck, ck_name ck = checkpoint_name p (restart_counter s) /\
       ck_t ck = (t s + dt s)%Q /\
       (checkpoints s' = if save then ck :: checkpoints s else checkpoints s) /\
       ck = mkCkpt (ck_name ck) (t s') (n_timestep s') (n_last_amr s') (n_last_gt s')
              (time_last_output s') (restart_counter s') (n_failed s') (full_history p)
              (if full_history p then filter_history true false true (hist s')
               else firstn 1 (hist s')) (save_td (td s))) ->
    pass_result p s a c rest (Some (Running s'))
| pr_success_ub : forall u f,
    loop_condition p s = true ->
    a_result a = Some u -> remap_now p s a = Some f ->
    update_dt (td s) (next_dt p (a_good a) (t s + dt s) (dt s)) = None ->
    pass_result p s a c rest None.

Lemma failure_cases : forall p s a s0 c rest h1 g,
  loop_condition p s = true -> (a_result a = None \/ remap_now p s a = None) ->
  s0 = before_step p s a -> h1 = g :: c :: rest ->
  pass_result p s a c rest (process_failure p s0 h1).
Proof.
  intros p s a s0 c rest h1 g LC HF -> ->. unfold process_failure, get_recent_old_solution.
  cbn [vget nth_error obind set_current_solution vset].
  destruct (before_step_fields p s a) as (B1 & B2 & B3 & B4 & B5 & B6 & B7 & B8 & B9).
  rewrite B2. destruct (qltb (time_step_min p) (dt s * (1 # 2))) eqn:E.
  - apply qltb_true in E. rewrite B4.
    destruct (replace_dt (td s) (dt s * (1 # 2))) as [d|] eqn:ED; cbn [obind].
    + eapply pr_fail; cbn; eauto.
    + eapply pr_fail_ub; eauto.
  - apply qltb_false in E. eapply pr_abort; cbn; eauto.
Qed.

Lemma pass_cases : forall p s a c j rest, hist s = c :: j :: rest ->
  exists c' rest', c' :: rest' = sols_before p s a (c :: rest) /\ length rest' = length rest /\
    old_solutions_at_attempt p s a = Some (c' :: rest') /\
    pass_result p s a c' rest' (pass p s a).
Proof.
  intros p s a c j rest H.
  destruct (before_step_hist p s a c j rest H) as (c' & rest' & HH & HL & HE).
  exists c', rest'. split; [exact HE|]. split; [exact HL|]. split.
  { unfold old_solutions_at_attempt, prepare_guess. rewrite HH. reflexivity. }
  unfold pass. destruct (loop_condition p s) eqn:LC; [|apply pr_finish; exact LC].
  unfold prepare_guess. rewrite HH. cbn [get_current_solution vget nth_error obind
    set_recent_old_solution vset set_current_solution].
  destruct (before_step_fields p s a) as (B1 & B2 & B3 & B4 & B5 & B6 & B7 & B8 & B9).
  unfold attempt. destruct (a_result a) as [u|] eqn:ER;
    [|eapply failure_cases; eauto].
  cbn [set_current_solution vset obind]. rewrite B1, B2.
  change (if negb (is_last p (t s + dt s)) && check_inconsistency p
          then a_gt_now a else Some (fun v : V => v)) with (remap_now p s a).
  destruct (remap_now p s a) as [f|] eqn:RM; [|eapply failure_cases; eauto].
  set (run_gt := negb (is_last p (t s + dt s)) && check_inconsistency p) in *.
  set (h1 := if run_gt then apply_filtered true false true f (u :: c' :: rest')
             else u :: c' :: rest').
  unfold after_success. cbn [hist].
  assert (HC : commit_old_solutions h1 =
     Some (if run_gt then f u :: c' :: firstn (length rest') (c' :: map f rest')
           else u :: c' :: firstn (length rest') (c' :: rest'))).
  { unfold h1. destruct run_gt.
    - rewrite apply_except_recent, commit_cons, map_length. reflexivity.
    - apply commit_cons. }
  rewrite HC. cbn [obind td dt t n_timestep time_last_output restart_counter outputs checkpoints].
  rewrite B3, B4, B5, B6, B7, B8.
  destruct (update_dt (td s) (next_dt p (a_good a) (t s + dt s) (dt s))) as [d|] eqn:ED; cbn [obind].
  - eapply pr_success; try eassumption; try reflexivity; cbn.
    eexists. split; [|split; [|split; [reflexivity|]]]; reflexivity.
  - eapply pr_success_ub; eassumption.
Qed.

(** ** The invariant *)
Definition slots_of (sc : option scheme) : nat := slots sc.

Record good_state (sc : option scheme) (s : state V) (l : ledger V) : Prop := {
  gs_hist : exists c j rest, hist s = c :: j :: rest /\ c :: rest = firstn (slots sc) (l_sols l) /\
              length (c :: rest) = slots sc;
  gs_td : inv sc (td s) (mkRun (dt s) (l_steps l)) }.

Lemma sols_before_firstn : forall p s a k (ls : list V),
  firstn k (sols_before p s a ls) = sols_before p s a (firstn k ls).
Proof.
  intros p s a k ls. unfold sols_before. destruct (has_converged s); [|reflexivity].
  destruct (sanity_check_solution p); destruct (do_amr s); destruct (do_gt s);
    rewrite ?firstn_map; try reflexivity;
    unfold on_newest; destruct k, ls; reflexivity.
Qed.

Lemma firstn_cons_firstn : forall k (u c : V) rest ls,
  c :: rest = firstn k ls -> length (c :: rest) = k ->
  u :: firstn (length rest) (c :: rest) = firstn k (u :: ls).
Proof.
  intros k u c rest ls H HL. destruct k as [|k]; [simpl in HL; lia|].
  simpl in HL. injection HL as HL. simpl firstn at 2. f_equal.
  rewrite H, firstn_firstn, HL. f_equal. lia.
Qed.

Lemma pass_good : forall p sc s l a s',
  good_state sc s l -> harmless_remap p s a -> pass p s a = Some (Running s') ->
  good_state sc s' (ledger_pass p s a l).
Proof.
  intros p sc s l a s' [(c & j & rest & HH & HC & HL) HT] HR HP.
  destruct (pass_cases p s a c j rest HH) as (c' & rest' & HE & HLr & HO & PR).
  assert (HC' : c' :: rest' = firstn (slots sc) (sols_before p s a (l_sols l))).
  { rewrite HE, HC. symmetry. apply sols_before_firstn. }
  assert (HL' : length (c' :: rest') = slots sc) by (simpl in *; lia).
  rewrite HP in PR. inversion PR; subst.
  - (* failure *)
    assert (EL : ledger_pass p s a l = mkLedger (sols_before p s a (l_sols l)) (l_steps l)).
    { unfold ledger_pass. destruct H1 as [E|E]; rewrite E; [reflexivity|].
      destruct (a_result a); reflexivity. }
    rewrite EL. split.
    + exists c', c', rest'. cbn [l_sols]. auto.
    + cbn [l_steps]. rewrite H6.
      exact (exec1_inv sc (td s) _ (Replace (dt s * (1#2))) _ HT H3).
  - assert (EL : ledger_pass p s a l = mkLedger (map f (u :: sols_before p s a (l_sols l))) (dt s :: l_steps l)).
    { unfold ledger_pass. rewrite H1, H2. reflexivity. }
    rewrite EL.
    assert (FI : forall v, f v = v) by (apply HR; assumption).
    assert (MI : forall ls : list V, map f ls = ls).
    { induction ls as [|y ls IH]; simpl; [reflexivity|]. rewrite FI, IH. reflexivity. }
    rewrite MI. split.
    + cbn [l_sols].
      exists u, c', (firstn (length rest') (c' :: rest')). split.
      * rewrite H7. rewrite MI, FI. destruct run_gt; reflexivity.
      * split.
        -- apply firstn_cons_firstn; assumption.
        -- rewrite <- HL'. cbn [length]. f_equal. rewrite firstn_length. simpl. lia.
    + cbn [l_steps]. rewrite H6.
      exact (exec1_inv sc (td s) _ (Update x) _ HT H3).
Qed.

Lemma reach_good : forall p sc s0 l0 s l,
  good_state sc s0 l0 -> reach p (harmless_remap p) s0 l0 s l -> good_state sc s l.
Proof.
  intros p sc s0 l0 s l H0 HR. induction HR as [|s l a s' HR IH HK HP]; [assumption|].
  eapply pass_good; eassumption.
Qed.

Lemma initial_good : forall p sc u0 junk s0,
  initial_state p sc u0 junk = Some s0 -> good_state sc s0 (initial_ledger u0 (slots sc)).
Proof.
  intros p sc u0 junk s0 H. unfold initial_state in H.
  destruct (td_ctor_init sc (time_step_init p)) as [d|] eqn:E; cbn [obind] in H; [|discriminate].
  pose proof (td_ctor_init_inv _ _ _ E) as HI. destruct HI as [I1 [I2 [I3 I4]]].
  destruct (get_current_dt d) as [x|] eqn:EX; cbn [obind] in H; [|discriminate].
  assert (SZ : Nat.max (S (td_order d)) 2 = S (slots sc)) by (rewrite I2; unfold slots; lia).
  rewrite SZ in H. clear SZ.
  apply Some_eq in H. subst s0.
  assert (EXx : x = time_step_init p).
  { unfold get_current_dt in EX. rewrite I3, newest_init in EX by apply slots_pos.
    simpl in EX. congruence. }
  pose proof (slots_pos sc) as SP.
  destruct (slots sc) as [|k] eqn:SK; [lia|]. split.
  - cbn [hist].
    change (repeat junk (S (S k))) with (junk :: junk :: repeat junk k).
    rewrite apply_except_recent.
    exists u0, junk, (repeat u0 k).
    split; [|rewrite SK; split].
    + f_equal. f_equal. clear. induction k; simpl; [reflexivity|]. rewrite IHk. reflexivity.
    + simpl. f_equal. rewrite <- (repeat_length u0 k) at 2. symmetry. apply firstn_all.
    + simpl. rewrite repeat_length. reflexivity.
  - cbn [td dt l_steps initial_ledger]. subst x.
    rewrite <- SK in I3. exact (conj I1 (conj I2 (conj I3 I4))).
Qed.

(** C05 *)
Lemma old_are_accepted : forall p sc u0 junk s0 s l a,
  initial_state p sc u0 junk = Some s0 ->
  reach p (harmless_remap p) s0 (initial_ledger u0 (slots sc)) s l ->
  old_solutions_at_attempt p s a = Some (firstn (slots sc) (sols_before p s a (l_sols l))) /\
  td_dt (td s) = newest (slots sc) (mkRun (dt s) (l_steps l)).
Proof.
  intros p sc u0 junk s0 s l a HI HR.
  pose proof (reach_good _ _ _ _ _ _ (initial_good _ _ _ _ _ HI) HR)
    as [(c & j & rest & HH & HC & HL) HT].
  destruct (pass_cases p s a c j rest HH) as (c' & rest' & HE & HLr & HO & PR).
  split.
  - rewrite HO. f_equal. rewrite sols_before_firstn, <- HC. exact HE.
  - apply HT.
Qed.

(** ** Times and step sizes *)
Local Open Scope Q_scope.

Definition positive_params (p : params) : Prop :=
  0 < time_step_init p /\ 0 < time_step_max p.

Definition tinv (p : params) (s : state V) : Prop :=
  0 < dt s /\ t s <= time_end p /\
  (loop_condition p s = true -> t s + dt s <= time_end p).

Lemma loop_condition_true : forall p s, t s <= time_end p ->
  loop_condition p s = true -> tol_termination < time_end p - t s.
Proof.
  intros p s H LC. unfold loop_condition in LC. apply qltb_true in LC.
  rewrite Qabs_neg in LC; lra.
Qed.

Lemma is_last_bound : forall p x, is_last p x = false -> x <= time_end p ->
  tol_termination <= time_end p - x.
Proof.
  intros p x H L. unfold is_last in H. apply qltb_false in H.
  rewrite Qabs_neg in H; lra.
Qed.

Lemma is_last_loop : forall p x, is_last p x = true ->
  qltb tol_termination (Qabs (x - time_end p)) = false.
Proof.
  intros p x H. unfold is_last in H. apply qltb_true in H. apply qltb_false. lra.
Qed.

Lemma tol_pos : 0 < tol_termination.
Proof. reflexivity. Qed.

Lemma next_dt_spec : forall p good x d,
  0 < d -> 0 < time_step_max p -> x <= time_end p -> is_last p x = false ->
  0 < next_dt p good x d /\ x + next_dt p good x d <= time_end p.
Proof.
  intros p good x d HD HM HX HL. unfold next_dt. rewrite HL.
  pose proof (is_last_bound p x HL HX) as HB. pose proof tol_pos.
  set (d1 := if good && qltb 1 (growth_factor p) then
               if qltb (time_step_max p) (d * growth_factor p) then time_step_max p
               else d * growth_factor p else d).
  assert (P1 : 0 < d1).
  { unfold d1. destruct (good && qltb 1 (growth_factor p)) eqn:E; [|assumption].
    apply andb_prop in E. destruct E as [_ E]. apply qltb_true in E.
    destruct (qltb (time_step_max p) (d * growth_factor p)); [assumption|].
    apply Qmult_lt_0_compat; lra. }
  destruct (qltb (time_end p) (x + d1)) eqn:E.
  - split; lra.
  - apply qltb_false in E. split; assumption.
Qed.

Lemma next_dt_pos : forall p good x d,
  0 < d -> 0 < time_step_max p -> x <= time_end p -> 0 < next_dt p good x d.
Proof.
  intros p good x d HD HM HX. destruct (is_last p x) eqn:E.
  - unfold next_dt. rewrite E. assumption.
  - apply next_dt_spec; assumption.
Qed.

Lemma tinv_pass : forall p s a s' c j rest,
  positive_params p -> hist s = c :: j :: rest -> tinv p s -> pass p s a = Some (Running s') ->
  tinv p s' /\
  ((t s' = t s /\ n_timestep s' = n_timestep s) \/
   (t s < t s' /\ n_timestep s' = S (n_timestep s))).
Proof.
  intros p s a s' c j rest [HP1 HP2] HH (T1 & T2 & T3) HP.
  destruct (pass_cases p s a c j rest HH) as (c' & rest' & _ & _ & _ & PR).
  rewrite HP in PR. inversion PR; subst.
  - specialize (T3 H0). split.
    + unfold tinv. rewrite H5, H6. split; [lra|]. split; [assumption|]. intros _. lra.
    + left. split; assumption.
  - specialize (T3 H0). split.
    + unfold tinv. rewrite H5, H6. split; [apply next_dt_pos; assumption|].
      split; [assumption|]. intro LC. unfold x.
      destruct (is_last p (t s + dt s)) eqn:EL.
      * exfalso. unfold loop_condition in LC. rewrite H5 in LC.
        rewrite is_last_loop in LC by assumption. discriminate.
      * apply next_dt_spec; assumption.
    + right. split; [rewrite H5; lra|assumption].
Qed.

(** Definedness of a pass *)
Definition full_good sc p s (l : ledger V) : Prop :=
  good_state sc s l /\ tinv p s /\ positive (l_steps l).

Lemma pass_defined : forall p sc s a c j rest steps,
  positive_params p -> hist s = c :: j :: rest ->
  inv sc (td s) (mkRun (dt s) steps) -> positive steps -> tinv p s ->
  exists o, pass p s a = Some o.
Proof.
  intros p sc s a c j rest steps [HP1 HP2] HH HI HS (T1 & T2 & T3).
  destruct (pass_cases p s a c j rest HH) as (c' & rest' & _ & _ & _ & PR).
  destruct (pass p s a) as [o|]; [eauto|]. exfalso. inversion PR; subst.
  - destruct (exec1_defined sc (td s) _ (Replace (dt s * (1#2))) HI) as [d E].
    + split; assumption.
    + simpl. lra.
    + simpl in E. congruence.
  - destruct (exec1_defined sc (td s) _ (Update (next_dt p (a_good a) (t s + dt s) (dt s))) HI) as [d E].
    + split; assumption.
    + simpl. apply next_dt_pos; try assumption. apply T3. assumption.
    + simpl in E. congruence.
Qed.

(** The part of the invariant that needs no assumption about remapping. *)
Definition base_good sc (s : state V) : Prop :=
  (exists c j rest, hist s = c :: j :: rest /\ length (c :: rest) = slots sc) /\
  exists steps, inv sc (td s) (mkRun (dt s) steps) /\ positive steps.

Lemma base_pass : forall p sc s a s',
  positive_params p -> base_good sc s -> tinv p s -> pass p s a = Some (Running s') ->
  base_good sc s' /\ tinv p s'.
Proof.
  intros p sc s a s' PP [(c & j & rest & HH & HL) (steps & HI & HS)] HT HP.
  pose proof (tinv_pass p s a s' c j rest PP HH HT HP) as [HT' _].
  split; [|exact HT'].
  destruct (pass_cases p s a c j rest HH) as (c' & rest' & HE & HLr & _ & PR).
  rewrite HP in PR. inversion PR; subst.
  - split.
    + exists c', c', rest'. split; [assumption|]. simpl in *. lia.
    + exists steps. split; [|assumption]. rewrite H6.
      exact (exec1_inv sc (td s) _ (Replace (dt s * (1#2))) _ HI H3).
  - split.
    + destruct run_gt; eexists; eexists; eexists; (split; [exact H7|]);
        cbn [length]; rewrite firstn_length; cbn [length]; rewrite ?map_length;
        simpl in *; lia.
    + exists (dt s :: steps). split; [|constructor; [apply HT|assumption]]. rewrite H6.
      exact (exec1_inv sc (td s) _ (Update x) _ HI H3).
Qed.

Lemma base_initial : forall p sc u0 junk s0,
  initial_state p sc u0 junk = Some s0 -> base_good sc s0.
Proof.
  intros p sc u0 junk s0 H. destruct (initial_good _ _ _ _ _ H) as [(c & j & rest & A & B & C) D].
  split; [exists c, j, rest; auto|]. exists []. split; [exact D|constructor].
Qed.

Lemma initial_times : forall p sc u0 junk s0,
  initial_state p sc u0 junk = Some s0 ->
  t s0 = time_start p /\ dt s0 = time_step_init p /\ n_timestep s0 = 0%nat /\
  time_last_output s0 = 0 /\ restart_counter s0 = 0%nat /\ checkpoints s0 = [] /\
  outputs s0 = (if qltb 0 (output_time_interval p) then [time_start p] else []) /\
  has_converged s0 = true.
Proof.
  intros p sc u0 junk s0 H. unfold initial_state in H.
  destruct (td_ctor_init sc (time_step_init p)) as [d|] eqn:E; cbn [obind] in H; [|discriminate].
  pose proof (td_ctor_init_inv _ _ _ E) as [I1 [I2 [I3 I4]]].
  destruct (get_current_dt d) as [x|] eqn:EX; cbn [obind] in H; [|discriminate].
  injection H as <-. cbn.
  unfold get_current_dt in EX. rewrite I3, newest_init in EX by apply slots_pos.
  simpl in EX. injection EX as ->. repeat split.
Qed.

Lemma initial_defined : forall p sc u0 junk, 0 < time_step_init p ->
  exists s0, initial_state p sc u0 junk = Some s0.
Proof.
  intros p sc u0 junk HP. unfold initial_state.
  destruct (td_ctor_init_defined sc _ HP) as [d E]. rewrite E. cbn [obind].
  pose proof (td_ctor_init_inv _ _ _ E) as [I1 [I2 [I3 I4]]].
  unfold get_current_dt. rewrite I3, newest_init by apply slots_pos. cbn. eauto.
Qed.

Definition fits (p : params) : Prop := time_start p + time_step_init p <= time_end p.

Lemma tinv_initial : forall p sc u0 junk s0,
  positive_params p -> fits p -> initial_state p sc u0 junk = Some s0 -> tinv p s0.
Proof.
  intros p sc u0 junk s0 [P1 P2] F H.
  destruct (initial_times _ _ _ _ _ H) as (E1 & E2 & _). unfold tinv, fits in *.
  rewrite E1, E2. split; [assumption|]. split; [lra|]. intros _. assumption.
Qed.

Lemma reach_base : forall p sc u0 junk s0 l0 s l,
  positive_params p -> fits p -> initial_state p sc u0 junk = Some s0 ->
  reach p anything s0 l0 s l -> base_good sc s /\ tinv p s.
Proof.
  intros p sc u0 junk s0 l0 s l PP F HI HR. induction HR as [|s l a s' HR [IH1 IH2] HK HP].
  - split; [eapply base_initial|eapply tinv_initial]; eassumption.
  - eapply base_pass; eassumption.
Qed.

(** ** Termination *)
Definition stops (p : params) (a : nat -> answer V) (s : state V) : Prop :=
  exists n s', run_loop p a n (Running s) = Some (Finished s') \/
               run_loop p a n (Running s) = Some (Aborted s').

Definition qmin3 (x y z : Q) : Q := Qmin x (Qmin y z).

(** Lower bound for every step that is not clipped at the end. *)
Definition dinv (p : params) (delta : Q) (s : state V) : Prop :=
  delta <= dt s \/ t s + dt s == time_end p.

Lemma next_dt_lower : forall p good x d delta,
  delta <= d -> 0 < d -> delta <= time_step_max p -> is_last p x = false ->
  delta <= next_dt p good x d \/ x + next_dt p good x d == time_end p.
Proof.
  intros p good x d delta H1 H0 H2 HL. unfold next_dt. rewrite HL.
  set (d1 := if good && qltb 1 (growth_factor p) then
               if qltb (time_step_max p) (d * growth_factor p) then time_step_max p
               else d * growth_factor p else d).
  assert (P1 : delta <= d1).
  { unfold d1. destruct (good && qltb 1 (growth_factor p)) eqn:E; [|assumption].
    apply andb_prop in E. destruct E as [_ E]. apply qltb_true in E.
    destruct (qltb (time_step_max p) (d * growth_factor p)); [assumption|].
    assert (0 <= d * (growth_factor p - 1)) by (apply Qmult_le_0_compat; lra). lra. }
  destruct (qltb (time_end p) (x + d1)); [right; lra|left; assumption].
Qed.

Lemma stops_step : forall p (a : nat -> answer V) s s', pass p s (a O) = Some (Running s') ->
  stops p (fun i => a (S i)) s' -> stops p a s.
Proof.
  intros p a s s' H (n & s2 & HS). exists (S n), s2. cbn [run_loop]. rewrite H. exact HS.
Qed.

Lemma stops_now : forall p (a : nat -> answer V) s o, pass p s (a O) = Some o ->
  (forall s', o <> Running s') -> stops p a s.
Proof.
  intros p a s o H HN. destruct o as [s'|s'|s'].
  - exfalso. eapply HN. reflexivity.
  - exists 1%nat, s'. left. cbn [run_loop]. rewrite H. reflexivity.
  - exists 1%nat, s'. right. cbn [run_loop]. rewrite H. reflexivity.
Qed.

Lemma loop_false_stops : forall p (a : nat -> answer V) s, loop_condition p s = false -> stops p a s.
Proof.
  intros p a s H. apply (stops_now p a s (Finished s)); [|discriminate].
  unfold pass. rewrite H. reflexivity.
Qed.

Lemma exists_pow : forall m d, 0 < m -> exists K : nat, d <= m * inject_Z (2 ^ Z.of_nat K).
Proof.
  intros m d Hm. set (q := d / m).
  assert (Hd : d == m * q) by (unfold q; field; lra).
  assert (HB : exists K : nat, q <= inject_Z (2 ^ Z.of_nat K)).
  { destruct q as [n k]. exists (Z.to_nat (Z.abs n)).
    unfold Qle. simpl. rewrite Z.mul_1_r.
    assert (Z.abs n <= 2 ^ Z.of_nat (Z.to_nat (Z.abs n)))%Z.
    { rewrite Z2Nat.id by lia. apply Z.lt_le_incl. apply Z.pow_gt_lin_r; lia. }
    nia. }
  destruct HB as [K HB]. exists K. rewrite Hd. apply Qmult_le_l; assumption.
Qed.

Lemma exists_steps : forall x delta, 0 < delta -> exists N : nat, x <= inject_Z (Z.of_nat N) * delta.
Proof.
  intros x delta H. destruct (exists_pow delta x H) as [K HK].
  exists (Z.to_nat (2 ^ Z.of_nat K)). rewrite Z2Nat.id by (apply Z.pow_nonneg; lia). lra.
Qed.

Lemma terminates_aux : forall p sc delta,
  positive_params p -> 0 < time_step_min p -> 0 < delta ->
  delta <= time_step_min p -> delta <= time_step_max p ->
  forall (N K : nat) s (a : nat -> answer V),
    base_good sc s -> tinv p s -> dinv p delta s ->
    time_end p - t s <= inject_Z (Z.of_nat N) * delta ->
    dt s <= time_step_min p * inject_Z (2 ^ Z.of_nat K) ->
    stops p a s.
Proof.
  intros p sc delta PP Pm Pd L1 L2. induction N as [|N IHN].
  - intros K s a HB HT HD HN HK. apply loop_false_stops.
    unfold loop_condition. apply qltb_false. destruct HT as (_ & T2 & _).
    change (inject_Z (Z.of_nat 0)) with 0 in HN. pose proof tol_pos.
    rewrite Qabs_neg; lra.
  - induction K as [|K IHK]; intros s a HB HT HD HN HK;
      pose proof HB as [(c & j & rest & HH & HL) (steps & HI & HS)];
      destruct (pass_defined p sc s (a O) c j rest steps PP HH HI HS HT) as [o Ho];
      destruct (pass_cases p s (a O) c j rest HH) as (c' & rest' & _ & _ & _ & PR);
      rewrite Ho in PR; inversion PR; subst;
      try (eapply stops_now; [eassumption|discriminate]);
      pose proof (base_pass p sc s (a O) s' PP HB HT Ho) as [HB' HT'].
    + (* failure with dt <= min: impossible *)
      exfalso. change (inject_Z (2 ^ Z.of_nat 0)) with 1 in HK. lra.
    + (* success *)
      destruct (loop_condition p s') eqn:LC'.
      2: { eapply stops_step; [eassumption|]. apply loop_false_stops. assumption. }
      assert (EL : is_last p (t s + dt s) = false).
      { destruct (is_last p (t s + dt s)) eqn:E; [|reflexivity]. exfalso.
        unfold loop_condition in LC'. rewrite H5, is_last_loop in LC' by assumption. discriminate. }
      destruct HD as [HD|HD].
      * eapply stops_step; [eassumption|]. destruct (exists_pow (time_step_min p) (dt s') Pm) as [K' HK'].
        eapply (IHN K'); try eassumption.
        -- unfold dinv. rewrite H5, H6. apply next_dt_lower; try assumption. apply HT.
        -- rewrite H5. rewrite Nat2Z.inj_succ, <- Z.add_1_r, inject_Z_plus in HN.
           change (inject_Z 1) with 1 in HN. lra.
      * exfalso. unfold is_last in EL. apply qltb_false in EL.
        rewrite Qabs_pos in EL by lra. pose proof tol_pos. lra.
    + (* failure *)
      eapply stops_step; [eassumption|]. apply IHK; try assumption.
      * unfold dinv. left. rewrite H6. lra.
      * rewrite H5. assumption.
      * rewrite H6. rewrite Nat2Z.inj_succ, Z.pow_succ_r, inject_Z_mult in HK by lia.
        change (inject_Z 2) with 2 in HK. lra.
    + destruct (loop_condition p s') eqn:LC'.
      2: { eapply stops_step; [eassumption|]. apply loop_false_stops. assumption. }
      assert (EL : is_last p (t s + dt s) = false).
      { destruct (is_last p (t s + dt s)) eqn:E; [|reflexivity]. exfalso.
        unfold loop_condition in LC'. rewrite H5, is_last_loop in LC' by assumption. discriminate. }
      destruct HD as [HD|HD].
      * eapply stops_step; [eassumption|]. destruct (exists_pow (time_step_min p) (dt s') Pm) as [K' HK'].
        eapply (IHN K'); try eassumption.
        -- unfold dinv. rewrite H5, H6. apply next_dt_lower; try assumption. apply HT.
        -- rewrite H5. rewrite Nat2Z.inj_succ, <- Z.add_1_r, inject_Z_plus in HN.
           change (inject_Z 1) with 1 in HN. lra.
      * exfalso. unfold is_last in EL. apply qltb_false in EL.
        rewrite Qabs_pos in EL by lra. pose proof tol_pos. lra.
Qed.

Lemma run_loop_reach : forall p n (a : nat -> answer V) s0 l0 s l o,
  reach p anything s0 l0 s l -> run_loop p a n (Running s) = Some o ->
  (exists s' l', o = Running s' /\ reach p anything s0 l0 s' l') \/
  (exists s1 l1 a1, reach p anything s0 l0 s1 l1 /\ pass p s1 a1 = Some o /\ forall s', o <> Running s').
Proof.
  induction n as [|n IH]; intros a s0 l0 s l o HR H; cbn [run_loop] in H.
  - injection H as <-. left. eauto.
  - destruct (pass p s (a O)) as [o1|] eqn:E; cbn [obind] in H; [|discriminate].
    destruct o1 as [s1|s1|s1].
    + eapply (IH _ s0 l0 s1 (ledger_pass p s (a O) l)); [|exact H].
      eapply reach_pass; [exact HR|exact I|exact E].
    + assert (o = Finished s1) by (destruct n; cbn [run_loop] in H; congruence). subst o.
      right. exists s, l, (a O). split; [assumption|]. split; [assumption|discriminate].
    + assert (o = Aborted s1) by (destruct n; cbn [run_loop] in H; congruence). subst o.
      right. exists s, l, (a O). split; [assumption|]. split; [assumption|discriminate].
Qed.

Lemma finished_end : forall p sc u0 junk s0 (a : nat -> answer V) n s,
  positive_params p -> fits p -> initial_state p sc u0 junk = Some s0 ->
  run_loop p a n (Running s0) = Some (Finished s) ->
  time_end p - tol_termination <= t s <= time_end p.
Proof.
  intros p sc u0 junk s0 a n s PP F HI HR.
  destruct (run_loop_reach p n a s0 (mkLedger [] []) s0 (mkLedger [] []) _ (reach_init _ _ _ _) HR)
    as [(s' & l' & E & _)|(s1 & l1 & a1 & R1 & E1 & _)]; [discriminate|].
  destruct (reach_base p sc u0 junk s0 _ s1 l1 PP F HI R1) as [HB HT].
  destruct HB as [(c & j & rest & HH & HL) _].
  destruct (pass_cases p s1 a1 c j rest HH) as (c' & rest' & _ & _ & _ & PR).
  rewrite E1 in PR. inversion PR; subst. destruct HT as (_ & T2 & _).
  unfold loop_condition in H0. apply qltb_false in H0.
  rewrite Qabs_neg in H0 by lra. lra.
Qed.

(** ** Outputs *)
(** Gaps between consecutive entries (newest first), the newest gap excluded if
    [skip]. *)
Fixpoint spaced (x : Q) (l : list Q) : Prop :=
  match l with
  | a :: ((b :: _) as r) => x <= a - b /\ spaced x r
  | _ => True
  end.

Definition oinv (p : params) (s : state V) : Prop :=
  (exists r, outputs s = time_last_output s :: r) /\
  (if is_last p (t s) then spaced (output_time_interval p) (tl (outputs s))
   else spaced (output_time_interval p) (outputs s)).

Lemma spaced_tl : forall x (l : list Q), spaced x l -> spaced x (tl l).
Proof. intros x l H. destruct l as [|a [|b r]]; simpl in *; tauto. Qed.

Lemma outputs_pass : forall p s a s' c j rest,
  hist s = c :: j :: rest -> 0 < output_time_interval p -> oinv p s ->
  pass p s a = Some (Running s') -> oinv p s'.
Proof.
  intros p s a s' c j rest HH HO [[r OI] OS] HP.
  destruct (pass_cases p s a c j rest HH) as (c' & rest' & _ & _ & _ & PR).
  rewrite HP in PR. inversion PR; subst.
  - unfold oinv. rewrite H5, H10, H12. split; [exists r; assumption|exact OS].
  - assert (NL : is_last p (t s) = false).
    { destruct (is_last p (t s)) eqn:E; [|reflexivity]. apply is_last_loop in E.
      unfold loop_condition in H0. congruence. }
    rewrite NL in OS. unfold oinv. rewrite H5, H11, H10. unfold out, last.
    assert (QO : qltb 0 (output_time_interval p) = true) by (apply qltb_true; assumption).
    rewrite QO. cbn [andb].
    destruct (is_last p (t s + dt s)) eqn:EL.
    + rewrite orb_true_r. split; [eauto|]. exact OS.
    + rewrite orb_false_r.
      destruct (Qle_bool (output_time_interval p + time_last_output s) (t s + dt s)) eqn:EQ.
      * apply Qle_bool_iff in EQ. split; [eauto|]. rewrite OI. simpl. split; [lra|].
        rewrite OI in OS. exact OS.
      * split; [eauto|]. exact OS.
Qed.

(** ** Checkpoints *)
Fixpoint names_from (p : params) (counter : nat) (n : nat) : list nat :=
  match n with
  | O => []
  | S n' => checkpoint_name p (counter - 1) :: names_from p (counter - 1) n'
  end.

Definition kinv (p : params) (c0 : nat) (s : state V) : Prop :=
  restart_counter s = (c0 + length (checkpoints s))%nat /\
  map ck_name (checkpoints s) = names_from p (restart_counter s) (length (checkpoints s)).

Lemma checkpoints_pass : forall p c0 s a s' c j rest,
  hist s = c :: j :: rest -> kinv p c0 s -> pass p s a = Some (Running s') -> kinv p c0 s'.
Proof.
  intros p c0 s a s' c j rest HH [K1 K2] HP.
  destruct (pass_cases p s a c j rest HH) as (c' & rest' & _ & _ & _ & PR).
  rewrite HP in PR. inversion PR; subst.
  - unfold kinv. rewrite H11, H13. auto.
  - unfold kinv. destruct H13 as (ck & CN & CT & CE & _). rewrite CE, H12.
    destruct save; [|auto]. cbn [length map names_from]. split; [lia|].
    replace (S (restart_counter s) - 1)%nat with (restart_counter s) by lia.
    rewrite CN, K2. reflexivity.
Qed.

(** ** The calls made to the time data *)
Lemma exec_snoc : forall ops d o, exec d (ops ++ [o]) = (d' <- exec d ops ;; exec1 d' o).
Proof.
  induction ops as [|o' ops IH]; intros d o; simpl.
  - destruct (exec1 d o); reflexivity.
  - destruct (exec1 d o') as [d'|]; simpl; [apply IH|reflexivity].
Qed.

Lemma run_td_snoc : forall sc x ops d o d', run_td sc x ops = Some d ->
  exec1 d o = Some d' -> run_td sc x (ops ++ [o]) = Some d'.
Proof.
  intros sc x ops d o d' H E. unfold run_td in *.
  destruct (td_ctor_init sc x) as [d0|]; cbn [obind] in *; [|discriminate].
  rewrite exec_snoc, H. exact E.
Qed.

Lemma run_snoc : forall x ops o, run x (ops ++ [o]) = step (run x ops) o.
Proof. intros. unfold run. apply fold_left_app. Qed.

Definition calls (sc : option scheme) (x : Q) (s : state V) (l : ledger V) : Prop :=
  exists ops, run_td sc x ops = Some (td s) /\ positive_ops ops /\
    run x ops = mkRun (dt s) (l_steps l).

Definition steps_agree (p : params) (s : state V) (a : answer V) (l l' : ledger V) : Prop :=
  l_steps l' = l_steps (ledger_pass p s a l).

Lemma calls_pass : forall p sc x s l a s',
  positive_params p -> base_good sc s -> tinv p s -> calls sc x s l ->
  pass p s a = Some (Running s') -> calls sc x s' (ledger_pass p s a l).
Proof.
  intros p sc x s l a s' PP HB HT (ops & C1 & C2 & C3) HP.
  destruct HB as [(c & j & rest & HH & HL) _].
  destruct (pass_cases p s a c j rest HH) as (c' & rest' & _ & _ & _ & PR).
  pose proof (tinv_pass p s a s' c j rest PP HH HT HP) as [(P' & _) _].
  rewrite HP in PR. inversion PR; subst.
  - assert (EL : l_steps (ledger_pass p s a l) = l_steps l).
    { unfold ledger_pass. destruct H1 as [E|E]; rewrite E; [reflexivity|].
      destruct (a_result a); reflexivity. }
    exists (ops ++ [Replace (dt s * (1#2))]). split; [eapply run_td_snoc; eassumption|]. split.
    + apply Forall_app. split; [assumption|]. constructor; [|constructor]. simpl.
      rewrite H6 in P'. assumption.
    + rewrite run_snoc, C3, EL, H6. reflexivity.
  - assert (EL : l_steps (ledger_pass p s a l) = dt s :: l_steps l).
    { unfold ledger_pass. rewrite H1, H2. reflexivity. }
    exists (ops ++ [Update x0]). split; [eapply run_td_snoc; eassumption|]. split.
    + apply Forall_app. split; [assumption|]. constructor; [|constructor]. simpl.
      rewrite H6 in P'. assumption.
    + rewrite run_snoc, C3, EL, H6. reflexivity.
Qed.

Lemma calls_initial : forall p sc u0 junk s0 k, initial_state p sc u0 junk = Some s0 ->
  calls sc (time_step_init p) s0 (initial_ledger u0 k).
Proof.
  intros p sc u0 junk s0 k H. destruct (initial_times _ _ _ _ _ H) as (_ & E2 & _).
  exists []. split; [|split; [constructor|]].
  - unfold initial_state in H. unfold run_td.
    destruct (td_ctor_init sc (time_step_init p)) as [d|]; cbn [obind] in *; [|discriminate].
    destruct (get_current_dt d); cbn [obind] in *; [|discriminate]. injection H as <-. reflexivity.
  - rewrite E2. reflexivity.
Qed.

Lemma reach_calls : forall p sc u0 junk s0 k s l,
  positive_params p -> fits p -> initial_state p sc u0 junk = Some s0 ->
  reach p anything s0 (initial_ledger u0 k) s l -> calls sc (time_step_init p) s l.
Proof.
  intros p sc u0 junk s0 k s l PP F HI HR. induction HR as [|s l a s' HR IH HK HP].
  - eapply calls_initial; eassumption.
  - destruct (reach_base p sc u0 junk s0 _ s l PP F HI HR) as [HB HT].
    eapply calls_pass; eassumption.
Qed.

Lemma reach_weaken : forall p ok s0 l0 s l, reach p ok s0 l0 s l -> reach p anything s0 l0 s l.
Proof.
  intros p ok s0 l0 s l H. induction H; [apply reach_init|].
  eapply reach_pass; [eassumption|exact I|assumption].
Qed.

(** ** Restart *)
Definition same_but_recent (h1 h2 : list V) : Prop :=
  exists c j1 j2 rest, h1 = c :: j1 :: rest /\ h2 = c :: j2 :: rest.

(** Equal except for the recent old solution and the traces. *)
Record alike (s1 s2 : state V) : Prop := {
  al_t : t s1 = t s2; al_dt : dt s1 = dt s2; al_n : n_timestep s1 = n_timestep s2;
  al_amr : n_last_amr s1 = n_last_amr s2; al_gt : n_last_gt s1 = n_last_gt s2;
  al_f : n_failed s1 = n_failed s2;
  al_c : has_converged s1 = has_converged s2; al_da : do_amr s1 = do_amr s2;
  al_dg : do_gt s1 = do_gt s2; al_h : same_but_recent (hist s1) (hist s2);
  al_td : td s1 = td s2; al_o : time_last_output s1 = time_last_output s2;
  al_r : restart_counter s1 = restart_counter s2 }.

Definition alike_outcome (o1 o2 : outcome V) : Prop :=
  match o1, o2 with
  | Running s1, Running s2 => alike s1 s2
  | Finished s1, Finished s2 => alike s1 s2
  | Aborted s1, Aborted s2 => alike s1 s2
  | _, _ => False
  end.

Definition alike_opt (o1 o2 : option (outcome V)) : Prop :=
  match o1, o2 with
  | Some x, Some y => alike_outcome x y
  | None, None => True
  | _, _ => False
  end.

Lemma alike_before : forall p s1 s2 a, alike s1 s2 ->
  alike (before_step p s1 a) (before_step p s2 a).
Proof.
  intros p s1 s2 a H. destruct H. unfold before_step. rewrite <- al_c0.
  destruct (has_converged s1) eqn:E; [|constructor; congruence].
  rewrite <- al_da0, <- al_dg0.
  constructor; cbn [t dt n_timestep n_last_amr n_last_gt n_failed has_converged do_amr do_gt hist td
    time_last_output restart_counter]; try congruence;
    try (rewrite al_n0, ?al_amr0, ?al_gt0; reflexivity).
  - destruct al_h0 as (c & j1 & j2 & rest & -> & ->).
    destruct (sanity_check_solution p); rewrite ?apply_current;
    destruct (do_amr s1); rewrite ?apply_except_recent;
    destruct (do_gt s1); rewrite ?apply_except_recent;
    eexists; eexists; eexists; eexists; split; reflexivity.
Qed.

Lemma alike_failure : forall p s1 s2 g1 g2 c rest, alike s1 s2 ->
  alike_opt (process_failure p s1 (g1 :: c :: rest)) (process_failure p s2 (g2 :: c :: rest)).
Proof.
  intros p s1 s2 g1 g2 c rest H. destruct H. unfold process_failure.
  cbn [get_recent_old_solution vget nth_error obind set_current_solution vset].
  rewrite <- al_dt0, <- al_td0.
  destruct (qltb (time_step_min p) (dt s1 * (1 # 2))).
  - destruct (replace_dt (td s1) (dt s1 * (1 # 2))) as [d|]; cbn; [|exact I].
    constructor; cbn; try congruence. exists c, c, c, rest; auto.
  - cbn. constructor; cbn; try congruence. exists c, c, c, rest; auto.
Qed.

Lemma alike_pass : forall p s1 s2 a, alike s1 s2 -> alike_opt (pass p s1 a) (pass p s2 a).
Proof.
  intros p s1 s2 a H. unfold pass.
  assert (EL : loop_condition p s1 = loop_condition p s2)
    by (unfold loop_condition; rewrite (al_t _ _ H); reflexivity).
  rewrite <- EL. destruct (loop_condition p s1); [|exact H].
  apply (alike_before p s1 s2 a) in H. revert H.
  generalize (before_step p s1 a) (before_step p s2 a). clear s1 s2 EL. intros s1 s2 H.
  pose proof H as HA. destruct H. destruct al_h0 as (c & j1 & j2 & rest & HH1 & HH2).
  unfold prepare_guess. rewrite HH1, HH2.
  cbn [get_current_solution vget nth_error obind set_recent_old_solution vset set_current_solution].
  unfold attempt. destruct (a_result a) as [u|]; [|apply alike_failure; assumption].
  cbn [set_current_solution vset obind]. rewrite <- al_t0, <- al_dt0.
  set (run_gt := negb (is_last p (t s1 + dt s1)) && check_inconsistency p).
  destruct (if run_gt then a_gt_now a else Some (fun v => v)) as [f|];
    [|apply alike_failure; assumption].
  unfold after_success. cbn [hist td dt t n_timestep time_last_output restart_counter outputs
    checkpoints n_failed n_last_amr n_last_gt do_amr do_gt].
  rewrite <- al_n0, <- al_amr0, <- al_gt0, <- al_f0, <- al_td0, <- al_o0, <- al_r0.
  assert (HC : exists c2 rest2, commit_old_solutions
      (if run_gt then apply_filtered true false true f (u :: c :: rest) else u :: c :: rest)
      = Some (c2 :: c :: rest2)).
  { destruct run_gt; [rewrite apply_except_recent|]; rewrite commit_cons; eauto. }
  destruct HC as (c2 & rest2 & HC). rewrite HC. cbn [obind].
  destruct (update_dt (td s1) (next_dt p (a_good a) (t s1 + dt s1) (dt s1))) as [d|];
    cbn [obind alike_opt alike_outcome]; [|exact I].
  constructor; cbn; try reflexivity. exists c2, c, c, rest2; auto.
Qed.

Lemma alike_run : forall p n (a : nat -> answer V) o1 o2, alike_outcome o1 o2 ->
  alike_opt (run_loop p a n o1) (run_loop p a n o2).
Proof.
  intro p. induction n as [|n IH]; intros a o1 o2 H; cbn [run_loop]; [exact H|].
  destruct o1 as [s1|s1|s1], o2 as [s2|s2|s2]; try contradiction; try exact H.
  pose proof (alike_pass p s1 s2 (a O) H) as HP.
  destruct (pass p s1 (a O)), (pass p s2 (a O)); try contradiction; [|exact I].
  apply IH. exact HP.
Qed.

Lemma update_constant : forall sc d r x, inv (Some sc) d r ->
  td_dt d = repeat x (get_order sc) -> update_dt d x = Some d.
Proof.
  intros sc d r x (I1 & I2 & I3 & I4) HR.
  assert (HS : shift (td_order d - 1) (td_dt d) = Some (td_dt d) /\
               vset (td_dt d) 0 x = Some (td_dt d)).
  { rewrite HR, I2. destruct sc; cbn; auto. }
  destruct HS as [HS1 HS2]. unfold update_dt.
  destruct d as [dsc dord ddt dw]. cbn [td_dt td_scheme td_order td_weights] in *.
  rewrite HS1. cbn [obind]. rewrite HS2. cbn [obind]. unfold update_weights.
  cbn [td_scheme td_dt td_order td_weights]. rewrite I1, I4. reflexivity.
Qed.

Lemma restart_alike : forall p sc u0 junk zero s0 k s l a s' ck,
  positive_params p -> fits p -> full_history p = true ->
  initial_state p (Some sc) u0 junk = Some s0 ->
  reach p anything s0 (initial_ledger u0 k) s l ->
  pass p s a = Some (Running s') ->
  checkpoints s' = ck :: checkpoints s ->
  td_dt (td s) = repeat (dt s) (get_order sc) -> dt s' = dt s ->
  do_amr s' = false -> do_gt s' = false ->
  exists r, restart_state (Some sc) zero ck = Some r /\ alike s' r.
Proof.
  intros p sc u0 junk zero s0 k s l a s' ck PP F FH HI HR HP HCK HTD HDT HA HG.
  destruct (reach_base p (Some sc) u0 junk s0 _ s l PP F HI HR) as [HB HT].
  pose proof (reach_calls p (Some sc) u0 junk s0 k s l PP F HI HR) as (ops & C1 & C2 & C3).
  destruct (base_pass p (Some sc) s a s' PP HB HT HP) as [HB' HT'].
  destruct HB' as [(c1 & j1 & rest1 & HH1 & HL1) _].
  destruct HB as [(c & j & rest & HH & HL) (steps & HIN & _)].
  destruct (pass_cases p s a c j rest HH) as (c' & rest' & _ & _ & _ & PR).
  rewrite HP in PR. inversion PR; subst.
  { exfalso. rewrite H11 in HCK. revert HCK. clear. generalize (checkpoints s).
    induction l as [|y l IH]; intro E; [discriminate|]. injection E as E1 E2. subst. auto. }
  destruct H13 as (ck' & CN & CT & CE & CF). rewrite HCK in CE.
  destruct save.
  2: { exfalso. revert CE. clear. generalize (checkpoints s).
       induction l as [|y l IH]; intro E; [discriminate|]. injection E as E1 E2. subst. auto. }
  injection CE as CE. subst ck'. rewrite FH in CF.
  rewrite CF. unfold restart_state. cbn [ck_time ck_full ck_vectors ck_t ck_n ck_n_amr ck_n_gt
    ck_failed ck_last_output ck_counter].
  rewrite (restart_same sc (time_step_init p) ops (td s)) by (try assumption; apply PP).
  cbn [obind].
  assert (ETD : td s' = td s).
  { assert (UC : update_dt (td s) (dt s) = Some (td s)) by (eapply update_constant; eassumption).
    rewrite <- H6, HDT, UC in H3. congruence. }
  assert (EC : get_current_dt (td s) = Some (dt s)).
  { unfold get_current_dt. rewrite HTD. destruct sc; reflexivity. }
  rewrite EC. cbn [obind].
  assert (SZ : Nat.max (S (td_order (td s))) 2 = S (slots (Some sc))).
  { destruct HIN as (_ & I2 & _). rewrite I2. unfold slots. simpl. lia. }
  rewrite SZ, HH1, filter_except_recent. rewrite <- HL1.
  change (repeat zero (S (length (c1 :: rest1)))) with (zero :: zero :: repeat zero (length rest1)).
  rewrite fill_except_recent, repeat_length, firstn_all, skipn_all2, app_nil_r
    by (rewrite repeat_length; lia).
  eexists. split; [reflexivity|].
  constructor; cbn; try reflexivity; try congruence.
  exists c1, j1, zero, rest1. auto.
Qed.

(** ** Termination when the first step overshoots the end *)
Lemma newest_one : forall sc x y, newest (get_order sc) (mkRun x [y]) =
  firstn (get_order sc) [x; y; 0].
Proof. intros sc x y. destruct sc; reflexivity. Qed.

Lemma nonpos_filter : forall x, x < 0 -> qltb 0 x = false.
Proof. intros x H. apply qltb_false. lra. Qed.

Lemma qdiv_defined : forall a b : Q, ~ b == 0 -> exists c, qdiv a b = Some c.
Proof.
  intros a b H. unfold qdiv. destruct (Qeq_bool b 0) eqn:E.
  - apply Qeq_bool_iff in E. contradiction.
  - eauto.
Qed.

Lemma back_weights : forall sc (l : list Q) x, length l = get_order sc -> vget l 0 = Some x -> x < 0 ->
  (effective_order l <= 1)%nat -> exists w, compute_weights sc l = Some w.
Proof.
  intros sc l x HL H0 HX HE. unfold compute_weights.
  assert (W1 : exists w, weights_order1 l (repeat 0 (S (length l))) = Some w).
  { unfold weights_order1. rewrite H0. cbn [obind].
    destruct (qdiv_defined 1 x) as [a1 ->]; [lra|]. cbn [obind].
    destruct (qdiv_defined (-(1)) x) as [b1 ->]; [lra|]. cbn [obind].
    rewrite HL. destruct sc; cbn; eauto. }
  destruct (effective_order l) as [|[|n]]; [| |lia]; destruct sc; cbn [Nat.eqb]; eauto.
Qed.

Lemma update_back : forall sc d r x,
  inv sc d r -> x < 0 ->
  (match sc with None => True
   | Some sc' => (effective_order (firstn (get_order sc' - 1) (newest (get_order sc') r)) <= 1)%nat end) ->
  exists d', update_dt d x = Some d'.
Proof.
  intros sc d r x (I1 & I2 & I3 & I4) HX HE. unfold update_dt.
  destruct sc as [sc|].
  - destruct (newest_update (slots (Some sc)) x r (slots_pos _)).
    assert (HN : td_dt d <> []).
    { rewrite I3. pose proof (newest_length (slots (Some sc)) r). pose proof (slots_pos (Some sc)).
      destruct (newest (slots (Some sc)) r); [simpl in *; lia|discriminate]. }
    destruct (shift_push x (td_dt d) HN) as (d1 & S1 & S2).
    assert (LN : (td_order d = length (td_dt d))%nat).
    { rewrite I2, I3, newest_length, slots_some. reflexivity. }
    rewrite LN, S1. cbn [obind]. rewrite S2. cbn [obind]. unfold update_weights.
    cbn [td_scheme td_dt td_order td_weights]. rewrite I1.
    destruct (back_weights sc (x :: firstn (length (td_dt d) - 1) (td_dt d)) x) as [w ->].
    + simpl. rewrite firstn_length, I3, newest_length, slots_some. destruct sc; reflexivity.
    + reflexivity.
    + assumption.
    + unfold effective_order in *. cbn [filter]. rewrite nonpos_filter by assumption.
      rewrite I3, newest_length, slots_some. exact HE.
    + cbn. eauto.
  - unfold slots in I3. simpl in I3. rewrite I2, I3. cbn. unfold update_weights.
    cbn [td_scheme td_dt td_order td_weights]. rewrite I1. eauto.
Qed.

Lemma eff_one : forall k d, (effective_order (firstn k (firstn (S k) (d :: repeat 0%Q (S k)))) <= 1)%nat.
Proof.
  intros k d. unfold effective_order. destruct k as [|k]; [simpl; lia|].
  rewrite firstn_firstn, Nat.min_l by lia. cbn [firstn filter].
  assert (E : forall n m, filter (fun v => qltb 0 v) (firstn n (repeat 0 m)) = []).
  { induction n as [|n IH]; intros [|m]; simpl; auto. }
  destruct (qltb 0 d); rewrite E; simpl; lia.
Qed.

(** One accepted step behind the end; the next one goes back to the end. *)
Lemma return_stops : forall p sc s (a : nat -> answer V) d,
  0 < time_step_min p ->
  (exists c j rest, hist s = c :: j :: rest /\ length (c :: rest) = slots sc) ->
  inv sc (td s) (mkRun (dt s) [d]) -> dt s == time_end p - t s -> dt s < 0 ->
  stops p a s.
Proof.
  intros p sc s a d Pm HB HI HD HN. pose proof HB as (c & j & rest & HH & HL).
  destruct (pass_cases p s (a O) c j rest HH) as (c' & rest' & _ & HLr & _ & PR).
  assert (EL : is_last p (t s + dt s) = true).
  { unfold is_last. apply qltb_true. rewrite Qabs_pos by lra. pose proof tol_pos. lra. }
  assert (EX : next_dt p (a_good (a O)) (t s + dt s) (dt s) = dt s).
  { unfold next_dt. rewrite EL. reflexivity. }
  destruct (pass p s (a O)) as [o|] eqn:Ho; inversion PR; subst;
    try (eapply stops_now; [eassumption|discriminate]).
  - exfalso. lra.
  - eapply stops_step; [eassumption|]. apply loop_false_stops.
    unfold loop_condition. rewrite H5. apply is_last_loop. assumption.
  - exfalso. lra.
  - exfalso.
    destruct (update_back sc (td s) _ (dt s) HI HN) as [d' E];
      [|match goal with H : update_dt _ _ = None |- _ => rewrite EX in H; congruence end].
    destruct sc as [sc|]; [|exact I]. unfold newest. cbn [current accepted].
    assert (Q0 : qltb 0 (dt s) = false) by (apply nonpos_filter; assumption).
    destruct sc; unfold effective_order; cbn [get_order Nat.sub firstn app repeat filter length];
      rewrite ?Q0; try (simpl; lia); destruct (qltb 0 d); simpl; lia.
Qed.

Definition two_slots sc (s : state V) : Prop :=
  exists c j rest, hist s = c :: j :: rest /\ length (c :: rest) = slots sc.

Lemma overshoot_update : forall p sc s good,
  positive_params p -> inv sc (td s) (mkRun (dt s) []) -> 0 < dt s ->
  time_end p < t s + dt s ->
  (exists d, update_dt (td s) (next_dt p good (t s + dt s) (dt s)) = Some d) /\
  (is_last p (t s + dt s) = false ->
   next_dt p good (t s + dt s) (dt s) = time_end p - (t s + dt s)).
Proof.
  intros p sc s good PP HI HD HO.
  assert (NX : is_last p (t s + dt s) = false ->
     next_dt p good (t s + dt s) (dt s) = time_end p - (t s + dt s)).
  { intro EL. unfold next_dt. rewrite EL.
    set (d1 := if good && qltb 1 (growth_factor p) then
               if qltb (time_step_max p) (dt s * growth_factor p) then time_step_max p
               else dt s * growth_factor p else dt s).
    assert (P1 : 0 < d1).
    { unfold d1. destruct (good && qltb 1 (growth_factor p)) eqn:E; [|assumption].
      apply andb_prop in E. destruct E as [_ E]. apply qltb_true in E.
      destruct (qltb (time_step_max p) (dt s * growth_factor p)); [apply PP|].
      apply Qmult_lt_0_compat; lra. }
    assert (E1 : qltb (time_end p) (t s + dt s + d1) = true) by (apply qltb_true; lra).
    rewrite E1. reflexivity. }
  split; [|exact NX]. destruct (is_last p (t s + dt s)) eqn:EL.
  - unfold next_dt. rewrite EL.
    destruct (exec1_defined sc (td s) _ (Update (dt s)) HI) as [d E];
      [split; [assumption|constructor]|assumption|eauto].
  - rewrite NX by reflexivity. eapply update_back; [exact HI|lra|].
    destruct sc as [sc|]; [|exact I]. unfold newest. cbn [current accepted app].
    destruct sc; cbn [get_order]; apply (eff_one _ (dt s)).
Qed.

Lemma overshoot_pass : forall p sc s (a : nat -> answer V),
  positive_params p -> 0 < time_step_min p -> two_slots sc s ->
  inv sc (td s) (mkRun (dt s) []) -> 0 < dt s -> time_end p < t s + dt s ->
  stops p a s \/
  exists s', pass p s (a O) = Some (Running s') /\ two_slots sc s' /\ t s' = t s /\
    dt s' = dt s * (1#2) /\ time_step_min p < dt s' /\ inv sc (td s') (mkRun (dt s') []).
Proof.
  intros p sc s a PP Pm HB HI HD HO. pose proof HB as (c & j & rest & HH & HL).
  destruct (overshoot_update p sc s (a_good (a O)) PP HI HD HO) as [[d UD] NX].
  destruct (pass_cases p s (a O) c j rest HH) as (c' & rest' & _ & HLr & _ & PR).
  destruct (pass p s (a O)) as [o|] eqn:Ho; inversion PR; subst;
    try (left; eapply stops_now; [eassumption|discriminate]).
  - right. exists s'. split; [reflexivity|]. split.
    { exists c', c', rest'. split; [assumption|]. simpl in *. lia. }
    split; [assumption|]. split; [assumption|]. split; [rewrite H6; assumption|].
    rewrite H6. exact (exec1_inv sc (td s) _ (Replace (dt s * (1#2))) _ HI H3).
  - left. eapply stops_step; [eassumption|].
    destruct (is_last p (t s + dt s)) eqn:EL.
    + apply loop_false_stops. unfold loop_condition. rewrite H5. apply is_last_loop. assumption.
    + specialize (NX eq_refl). eapply (return_stops p sc _ _ (dt s)); try assumption.
      * destruct run_gt; eexists; eexists; eexists; (split; [exact H7|]);
          cbn [length]; rewrite firstn_length; cbn [length]; rewrite ?map_length;
          simpl in *; lia.
      * rewrite H6. exact (exec1_inv sc (td s) _ (Update x) _ HI H3).
      * rewrite H6, H5. unfold x. rewrite NX. reflexivity.
      * rewrite H6. unfold x. rewrite NX. lra.
  - destruct (exec1_defined sc (td s) _ (Replace (dt s * (1#2))) HI) as [d1 E].
    + split; [assumption|constructor].
    + simpl. lra.
    + simpl in E. congruence.
  - congruence.
Qed.

Lemma fits_stops : forall p sc s (a : nat -> answer V) steps,
  positive_params p -> 0 < time_step_min p -> two_slots sc s ->
  inv sc (td s) (mkRun (dt s) steps) -> positive steps -> 0 < dt s ->
  t s + dt s <= time_end p -> stops p a s.
Proof.
  intros p sc s a steps PP Pm HB HI HS HD HF. destruct PP as [P1 P2].
  set (delta := qmin3 (dt s) (time_step_min p) (time_step_max p)).
  assert (D1 : delta <= dt s) by apply Q.le_min_l.
  assert (D2 : delta <= time_step_min p).
  { unfold delta, qmin3. eapply Qle_trans; [apply Q.le_min_r|apply Q.le_min_l]. }
  assert (D3 : delta <= time_step_max p).
  { unfold delta, qmin3. eapply Qle_trans; [apply Q.le_min_r|apply Q.le_min_r]. }
  assert (D0 : 0 < delta).
  { unfold delta, qmin3. apply Q.min_glb_lt; [assumption|]. apply Q.min_glb_lt; assumption. }
  destruct (exists_pow (time_step_min p) (dt s) Pm) as [K HK].
  destruct (exists_steps (time_end p - t s) delta D0) as [N HN].
  eapply (terminates_aux p sc delta) with (N := N) (K := K); try assumption.
  - split; assumption.
  - split; [exact HB|eauto].
  - split; [assumption|]. split; [lra|]. intros _. assumption.
  - left. assumption.
Qed.

Lemma overshoot_stops : forall p sc, positive_params p -> 0 < time_step_min p ->
  forall (K : nat) s (a : nat -> answer V),
    two_slots sc s -> inv sc (td s) (mkRun (dt s) []) -> 0 < dt s ->
    dt s <= time_step_min p * inject_Z (2 ^ Z.of_nat K) ->
    stops p a s.
Proof.
  intros p sc PP Pm. induction K as [|K IHK]; intros s a HB HI HD HK;
    (destruct (Qlt_le_dec (time_end p) (t s + dt s)) as [HO|HO];
     [|eapply fits_stops; try eassumption; constructor]);
    destruct (overshoot_pass p sc s a PP Pm HB HI HD HO)
      as [HS|(s' & HP & HB' & HT & HDT & HM & HI')]; try assumption.
  - exfalso. change (inject_Z (2 ^ Z.of_nat 0)) with 1 in HK. rewrite HDT in HM. lra.
  - eapply stops_step; [exact HP|]. apply IHK; try assumption; [rewrite HDT; lra|].
    rewrite HDT. rewrite Nat2Z.inj_succ, Z.pow_succ_r, inject_Z_mult in HK by lia.
    change (inject_Z 2) with 2 in HK. lra.
Qed.

Lemma terminates_always : forall p sc u0 junk s0 (a : nat -> answer V),
  positive_params p -> 0 < time_step_min p ->
  initial_state p sc u0 junk = Some s0 -> stops p a s0.
Proof.
  intros p sc u0 junk s0 a PP Pm HI.
  destruct (initial_times _ _ _ _ _ HI) as (E1 & E2 & _).
  destruct (initial_good _ _ _ _ _ HI) as [(c & j & rest & G1 & G2 & G3) G4].
  destruct (exists_pow (time_step_min p) (dt s0) Pm) as [K HK].
  eapply (overshoot_stops p sc PP Pm K); try assumption.
  - exists c, j, rest. auto.
  - rewrite E2. apply PP.
Qed.

(** ** Facts that hold for any start *)
Definition shape (s : state V) : Prop := exists c j rest, hist s = c :: j :: rest.

Lemma shape_pass : forall p s a s', shape s -> pass p s a = Some (Running s') -> shape s'.
Proof.
  intros p s a s' (c & j & rest & HH) HP.
  destruct (pass_cases p s a c j rest HH) as (c' & rest' & _ & _ & _ & PR).
  rewrite HP in PR. inversion PR; subst.
  - exists c', c', rest'. assumption.
  - destruct run_gt; eexists; eexists; eexists; exact H7.
Qed.

Lemma shape_reach : forall p ok s0 l0 s l, shape s0 -> reach p ok s0 l0 s l -> shape s.
Proof.
  intros p ok s0 l0 s l HS HR. induction HR; [assumption|]. eapply shape_pass; eassumption.
Qed.

Lemma shape_initial : forall p sc u0 junk s0, initial_state p sc u0 junk = Some s0 -> shape s0.
Proof.
  intros p sc u0 junk s0 H. destruct (base_initial _ _ _ _ _ H) as [(c & j & rest & A & _) _].
  exists c, j, rest. assumption.
Qed.

Lemma shape_restart : forall sc zero ck s0, restart_state sc zero ck = Some s0 -> shape s0.
Proof.
  intros sc zero ck s0 H. unfold restart_state in H.
  destruct (restart_time_data sc (ck_time ck) (ck_full ck)) as [d|]; cbn [obind] in H; [|discriminate].
  destruct (get_current_dt d) as [x|]; cbn [obind] in H; [|discriminate].
  apply Some_eq in H. subst s0. unfold shape. cbn [hist].
  destruct (Nat.max (S (td_order d)) 2) as [|[|k]] eqn:E; [lia|lia|].
  cbn. destruct (ck_vectors ck); eauto.
Qed.

Lemma outputs_reach : forall p ok s0 l0 s l, shape s0 -> (0 < output_time_interval p)%Q ->
  oinv p s0 -> reach p ok s0 l0 s l -> oinv p s.
Proof.
  intros p ok s0 l0 s l HS HO H0 HR. induction HR as [|s l a s' HR IH HK HP]; [assumption|].
  destruct (shape_reach _ _ _ _ _ _ HS HR) as (c & j & rest & HH).
  eapply outputs_pass; eassumption.
Qed.

Lemma checkpoints_reach : forall p ok c0 s0 l0 s l, shape s0 -> kinv p c0 s0 ->
  reach p ok s0 l0 s l -> kinv p c0 s.
Proof.
  intros p ok c0 s0 l0 s l HS H0 HR. induction HR as [|s l a s' HR IH HK HP]; [assumption|].
  destruct (shape_reach _ _ _ _ _ _ HS HR) as (c & j & rest & HH).
  eapply checkpoints_pass; eassumption.
Qed.

Lemma names_from_nth : forall p n c i, (i < n)%nat -> (n <= c)%nat ->
  nth_error (names_from p c n) i = Some (checkpoint_name p (c - 1 - i)).
Proof.
  induction n as [|n IH]; intros c i H L; [lia|]. destruct i as [|i]; simpl.
  - f_equal. f_equal. lia.
  - rewrite IH by lia. f_equal. f_equal. lia.
Qed.

Lemma names_distinct : forall p c i j, (i < j)%nat -> (j < c)%nat ->
  (max_output p = 0%nat \/ (j - i < max_output p)%nat) ->
  checkpoint_name p (c - 1 - i) <> checkpoint_name p (c - 1 - j).
Proof.
  intros p c i j H1 H2 H3 E. unfold checkpoint_name in E.
  destruct (Nat.eqb_spec (max_output p) 0) as [E0|E0]; [lia|]. destruct H3 as [H3|H3]; [contradiction|].
  set (n := max_output p) in *.
  pose proof (Nat.div_mod (c - 1 - i) n ltac:(assumption)) as D1.
  pose proof (Nat.div_mod (c - 1 - j) n ltac:(assumption)) as D2.
  rewrite E in D1.
  assert ((c - 1 - i) = (c - 1 - j) + (j - i))%nat by lia.
  set (q1 := ((c - 1 - i) / n)%nat) in *. set (q2 := ((c - 1 - j) / n)%nat) in *.
  assert (n * q1 = n * q2 + (j - i))%nat by lia.
  assert (q2 < q1 \/ q1 <= q2)%nat as [?|?] by lia; nia.
Qed.

Lemma find_first : forall A (f : A -> bool) (l : list A) i x,
  nth_error l i = Some x -> f x = true ->
  (forall k y, (k < i)%nat -> nth_error l k = Some y -> f y = false) ->
  find f l = Some x.
Proof.
  intros A f. induction l as [|y l IH]; intros i x H1 H2 H3; [destruct i; discriminate|].
  destruct i as [|i]; simpl in *.
  - injection H1 as ->. rewrite H2. reflexivity.
  - rewrite (H3 O y); [|lia|reflexivity]. eapply IH; try eassumption.
    intros k z Hk Hz. apply (H3 (S k) z); [lia|assumption].
Qed.

Lemma rotation : forall p c0 (s : state V) i ck, kinv p c0 s ->
  nth_error (checkpoints s) i = Some ck ->
  (max_output p = 0%nat \/ (i < max_output p)%nat) ->
  find (fun c => Nat.eqb (ck_name c) (ck_name ck)) (checkpoints s) = Some ck.
Proof.
  intros p c0 s i ck [K1 K2] HN HM.
  assert (L : (i < length (checkpoints s))%nat) by (apply nth_error_Some; congruence).
  assert (NM : forall k y, nth_error (checkpoints s) k = Some y ->
     ck_name y = checkpoint_name p (restart_counter s - 1 - k)).
  { intros k y Hk. assert (Lk : (k < length (checkpoints s))%nat) by (apply nth_error_Some; congruence).
    assert (E : nth_error (map ck_name (checkpoints s)) k = Some (ck_name y))
      by (apply map_nth_error; assumption).
    rewrite K2, names_from_nth in E by lia. congruence. }
  eapply find_first; [exact HN|apply Nat.eqb_refl|].
  intros k y Hk Hy. apply Nat.eqb_neq. rewrite (NM _ _ Hy), (NM _ _ HN).
  apply names_distinct; lia.
Qed.

Lemma names_bounded : forall p c0 (s : state V) ck, kinv p c0 s -> max_output p <> 0%nat ->
  In ck (checkpoints s) -> (ck_name ck < max_output p)%nat.
Proof.
  intros p c0 s ck [K1 K2] HM HI. apply (in_map ck_name) in HI. rewrite K2 in HI.
  revert HI. generalize (restart_counter s) (length (checkpoints s)). intros c n. revert c.
  induction n as [|n IH]; intros c HI; [contradiction|]. destruct HI as [HI|HI].
  - rewrite <- HI. unfold checkpoint_name. destruct (Nat.eqb_spec (max_output p) 0); [contradiction|].
    apply Nat.mod_upper_bound. assumption.
  - eapply IH. exact HI.
Qed.

(** ** The two newest solutions after an accepted step *)
Lemma two_newest : forall p sc u0 junk s0 s l a s' u,
  initial_state p sc u0 junk = Some s0 ->
  reach p (harmless_remap p) s0 (initial_ledger u0 (slots sc)) s l ->
  harmless_remap p s a -> a_result a = Some u ->
  pass p s a = Some (Running s') -> n_timestep s' = S (n_timestep s) ->
  vget (hist s') 0 = nth_error (l_sols (ledger_pass p s a l)) 0 /\
  vget (hist s') 1 = nth_error (l_sols (ledger_pass p s a l)) 1.
Proof.
  intros p sc u0 junk s0 s l a s' u HI HR HK HA HP HN.
  pose proof (reach_good _ _ _ _ _ _ (initial_good _ _ _ _ _ HI) HR)
    as [(c & j & rest & HH & HC & HL) HT].
  destruct (pass_cases p s a c j rest HH) as (c' & rest' & HE & HLr & _ & PR).
  rewrite HP in PR. inversion PR; subst; [exfalso; lia|].
  assert (FI : forall v, f v = v) by (apply HK; assumption).
  unfold ledger_pass. rewrite H1, H2. cbn [l_sols map].
  assert (HS : exists r, sols_before p s a (l_sols l) = c' :: r).
  { assert (E : firstn (slots sc) (sols_before p s a (l_sols l)) = c' :: rest')
      by (rewrite sols_before_firstn, <- HC; symmetry; exact HE).
    destruct (slots sc), (sols_before p s a (l_sols l)) as [|z r]; try discriminate.
    simpl in E. injection E as -> _. eauto. }
  destruct HS as [r HS]. rewrite HS, H7. cbn [map nth_error]. rewrite !FI.
  destruct run_gt; split; reflexivity.
Qed.

End P.
