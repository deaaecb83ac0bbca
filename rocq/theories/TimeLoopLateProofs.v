(** The time loop terminates also with failures after the new time is set. *)
From Coq Require Import List Arith ZArith QArith Qabs Qminmax Lia Lqa Bool.
From Verif Require Import Util TimeSchemesModel TimeSchemesSpec TimeDataModel TimeDataSpec
  TimeDataProofs HistoryModel TimeLoopModel TimeLoopSpec TimeLoopProofs TimeLoopLateModel.
Import ListNotations.
Local Open Scope Q_scope.

Section LateProofs.
Context {V : Type}.

(** A run with answers and late failures *)
Fixpoint run_late (p : params) (a : nat -> answer V * bool) (n : nat) (o : outcome V) : option (outcome V) :=
  match n with
  | O => Some o
  | S n' =>
      match o with
      | Running s => o' <- pass_late p s (fst (a O)) (snd (a O)) ;; run_late p (fun i => a (S i)) n' o'
      | _ => Some o
      end
  end.
Definition stops_late (p : params) (a : nat -> answer V * bool) (s : state V) : Prop :=
  exists n s', run_late p a n (Running s) = Some (Finished s') \/ run_late p a n (Running s) = Some (Aborted s').

Lemma late_step : forall p a s s', pass_late p s (fst (a O)) (snd (a O)) = Some (Running s') ->
  stops_late p (fun i => a (S i)) s' -> stops_late p a s.
Proof. intros p a s s' H (n & s2 & HS). exists (S n), s2. cbn [run_late]. rewrite H. exact HS. Qed.
Lemma late_now : forall p a s o, pass_late p s (fst (a O)) (snd (a O)) = Some o -> (forall s', o <> Running s') -> stops_late p a s.
Proof.
  intros p a s o H HN. destruct o as [s'|s'|s'].
  - exfalso. eapply HN. reflexivity.
  - exists 1%nat, s'. left. cbn [run_late]. rewrite H. reflexivity.
  - exists 1%nat, s'. right. cbn [run_late]. rewrite H. reflexivity.
Qed.
Lemma late_false : forall p a s, loop_condition p s = false -> stops_late p a s.
Proof. intros p a s H. apply (late_now p a s (Finished s)); [|discriminate]. unfold pass_late. now rewrite H. Qed.

(** One pass: as without such failures, or the time is advanced and the step halved *)
Inductive late_result (p : params) (s : state V) (a : answer V) (n : nat) : option (outcome V) -> Prop :=
| lr_abort : forall s', loop_condition p s = true ->
    late_result p s a n (Some (Aborted s'))
| lr_run : forall s' d c j rest, loop_condition p s = true ->
    let x := next_dt p (a_good a) (t s + dt s) (dt s) * (1 # 2) in
    time_step_min p < x -> replace_dt (td s) x = Some d -> td s' = d ->
    t s' = t s + dt s -> dt s' = x -> hist s' = c :: j :: rest -> length rest = n ->
    late_result p s a n (Some (Running s'))
| lr_ub : loop_condition p s = true ->
    let x := next_dt p (a_good a) (t s + dt s) (dt s) * (1 # 2) in
    time_step_min p < x -> replace_dt (td s) x = None -> late_result p s a n None.

Lemma late_cases : forall p (s : state V) a b c j rest, hist s = c :: j :: rest ->
  pass_late p s a b = pass p s a \/ late_result p s a (length rest) (pass_late p s a b).
Proof.
  intros p s a b c j rest HH. destruct b; [|now left].
  unfold pass_late, pass. destruct (loop_condition p s) eqn:LC; [|now left].
  destruct (before_step_hist p s a c j rest HH) as (c1 & rest1 & B1 & B2 & _).
  destruct (before_step_fields p s a) as (F1 & F2 & F3 & F4 & _).
  unfold prepare_guess. rewrite B1.
  cbn [get_current_solution vget nth_error obind set_recent_old_solution vset set_current_solution].
  unfold attempt_late, attempt. destruct (a_result a) as [u|]; [|now left].
  cbn [set_current_solution vset obind]. rewrite F1, F2.
  destruct (if negb (is_last p (t s + dt s)) && check_inconsistency p then a_gt_now a else Some (fun v : V => v)) as [f|]; [|now left].
  right.
  assert (EH : exists y r, (if negb (is_last p (t s + dt s)) && check_inconsistency p
     then apply_filtered true false true f (u :: c1 :: rest1) else u :: c1 :: rest1) = y :: c1 :: r /\ length r = length rest).
  { destruct (_ && _); [rewrite apply_except_recent|]; eexists; eexists; (split; [reflexivity|]); rewrite ?map_length; exact B2. }
  destruct EH as (y & r & EH & EL). rewrite EH. unfold process_failure.
  cbn [get_recent_old_solution set_current_solution vget vset nth_error obind]. cbn [dt t n_timestep n_failed td]. rewrite F4.
  destruct (qltb (time_step_min p) _) eqn:QL.
  - apply qltb_true in QL. destruct (replace_dt _ _) as [d|] eqn:R; cbn [obind].
    + eapply lr_run; try eassumption; try reflexivity.
    + eapply lr_ub; eassumption.
  - now apply lr_abort.
Qed.

Lemma late_base : forall p sc s a n s', positive_params p -> base_good sc s -> tinv p s -> S n = slots sc ->
  late_result p s a n (Some (Running s')) -> 0 < time_step_min p -> base_good sc s' /\ tinv p s' /\ time_step_min p < dt s'.
Proof.
  intros p sc s a n s' [PP1 PP2] [_ (steps & HI & HS)] (T1 & T2 & T3) En LR Pm. inversion LR; subst. specialize (T3 H0). split; [|split].
  - split; [exists c, j, rest; split; [assumption|]; cbn [length]; assumption|].
    exists steps. split; [|assumption]. rewrite H5. exact (exec1_inv sc (td s) _ (Replace x) _ HI H2).
  - unfold tinv. rewrite H4, H5. split; [lra|]. split; [assumption|]. intros LC.
    destruct (is_last p (t s + dt s)) eqn:EL.
    + exfalso. unfold loop_condition in LC. rewrite H4 in LC. rewrite is_last_loop in LC by assumption. discriminate.
    + destruct (next_dt_spec p (a_good a) (t s + dt s) (dt s)) as [N1 N2]; try assumption. unfold x in *. lra.
  - rewrite H5. assumption.
Qed.

Lemma late_aux : forall p sc delta,
  positive_params p -> 0 < time_step_min p -> 0 < delta ->
  delta <= time_step_min p -> delta <= time_step_max p ->
  forall (N K : nat) (s : state V) a,
    base_good sc s -> tinv p s -> dinv p delta s ->
    time_end p - t s <= inject_Z (Z.of_nat N) * delta ->
    dt s <= time_step_min p * inject_Z (2 ^ Z.of_nat K) ->
    stops_late p a s.
Proof.
  intros p sc delta PP Pm Pd L1 L2. induction N as [|N IHN].
  - intros K s a HB HT HD HN HK. apply late_false.
    unfold loop_condition. apply qltb_false. destruct HT as (_ & T2 & _).
    change (inject_Z (Z.of_nat 0)) with 0 in HN. pose proof tol_pos.
    rewrite Qabs_neg; lra.
  - assert (Adv : forall s a s', base_good sc s' -> tinv p s' -> tinv p s -> dinv p delta s -> loop_condition p s = true ->
       time_end p - t s <= inject_Z (Z.of_nat (S N)) * delta -> t s' = t s + dt s ->
       (is_last p (t s + dt s) = false -> dinv p delta s') ->
       pass_late p s (fst (a O)) (snd (a O)) = Some (Running s') -> stops_late p a s).
    { intros s a s' HB' HT' HT HD LC HN Et Hd HP. eapply late_step; [eassumption|].
      destruct (loop_condition p s') eqn:LC'; [|now apply late_false].
      assert (EL : is_last p (t s + dt s) = false).
      { destruct (is_last p (t s + dt s)) eqn:E; [|reflexivity]. exfalso.
        unfold loop_condition in LC'. rewrite Et, is_last_loop in LC' by assumption. discriminate. }
      destruct HD as [HD|HD].
      - destruct (exists_pow (time_step_min p) (dt s') Pm) as [K' HK'].
        eapply (IHN K'); try eassumption; [now apply Hd|].
        rewrite Et. rewrite Nat2Z.inj_succ, <- Z.add_1_r, inject_Z_plus in HN.
        change (inject_Z 1) with 1 in HN. lra.
      - exfalso. unfold is_last in EL. apply qltb_false in EL.
        rewrite Qabs_pos in EL by lra. pose proof tol_pos. lra. }
    assert (Late : forall s a, base_good sc s -> tinv p s -> dinv p delta s ->
       time_end p - t s <= inject_Z (Z.of_nat (S N)) * delta ->
       forall n, S n = slots sc -> late_result p s (fst (a O)) n (pass_late p s (fst (a O)) (snd (a O))) -> stops_late p a s).
    { intros s a HB HT HD HN n En LR. destruct (pass_late p s (fst (a O)) (snd (a O))) as [o|] eqn:Ho.
      - destruct o as [s'|s'|s'].
        + destruct (late_base p sc s _ n s' PP HB HT En LR Pm) as (HB' & HT' & HM).
          inversion LR; subst. eapply (Adv s a s'); try eassumption. intros _. left. lra.
        + inversion LR.
        + eapply late_now; [eassumption|discriminate].
      - exfalso. inversion LR; subst. destruct HB as [_ (steps & HI & HS)].
        destruct (exec1_defined sc (td s) _ (Replace x) HI) as [d E].
        + split; [apply HT|assumption].
        + simpl. lra.
        + simpl in E. congruence. }
    induction K as [|K IHK]; intros s a HB HT HD HN HK;
      pose proof HB as [(c & j & rest & HH & HL) (steps & HI & HS)];
      (destruct (late_cases p s (fst (a O)) (snd (a O)) c j rest HH) as [EP|LR];
       [|now apply (Late s a HB HT HD HN (length rest))]);
      destruct (pass_defined p sc s (fst (a O)) c j rest steps PP HH HI HS HT) as [o Ho];
      destruct (pass_cases p s (fst (a O)) c j rest HH) as (c' & rest' & _ & _ & _ & PR);
      rewrite Ho in PR; pose proof Ho as Ho'; rewrite <- EP in Ho'; inversion PR; subst;
      try (eapply late_now; [eassumption|discriminate]);
      pose proof (base_pass p sc s (fst (a O)) s' PP HB HT Ho) as [HB' HT'].
    + exfalso. change (inject_Z (2 ^ Z.of_nat 0)) with 1 in HK. lra.
    + eapply (Adv s a s'); try eassumption. intros EL. unfold dinv. rewrite H5, H6.
      destruct HD as [HD|HD]; [apply next_dt_lower; try assumption; apply HT|].
      exfalso. unfold is_last in EL. apply qltb_false in EL. rewrite Qabs_pos in EL by lra. pose proof tol_pos. lra.
    + eapply late_step; [eassumption|]. apply IHK; try assumption.
      * unfold dinv. left. rewrite H6. lra.
      * rewrite H5. assumption.
      * rewrite H6. rewrite Nat2Z.inj_succ, Z.pow_succ_r, inject_Z_mult in HK by lia.
        change (inject_Z 2) with 2 in HK. lra.
    + eapply (Adv s a s'); try eassumption. intros EL. unfold dinv. rewrite H5, H6.
      destruct HD as [HD|HD]; [apply next_dt_lower; try assumption; apply HT|].
      exfalso. unfold is_last in EL. apply qltb_false in EL. rewrite Qabs_pos in EL by lra. pose proof tol_pos. lra.
Qed.

Lemma late_return : forall p sc (s : state V) a d,
  0 < time_step_min p -> two_slots sc s -> inv sc (td s) (mkRun (dt s) [d]) -> dt s == time_end p - t s -> dt s < 0 ->
  stops_late p a s.
Proof.
  intros p sc s a d Pm HB HI HD HN. pose proof HB as (c & j & rest & HH & HL).
  assert (EL : is_last p (t s + dt s) = true).
  { unfold is_last. apply qltb_true. rewrite Qabs_pos by lra. pose proof tol_pos. lra. }
  assert (EX : next_dt p (a_good (fst (a O))) (t s + dt s) (dt s) = dt s).
  { unfold next_dt. rewrite EL. reflexivity. }
  destruct (late_cases p s (fst (a O)) (snd (a O)) c j rest HH) as [EP|LR].
  - destruct (pass_cases p s (fst (a O)) c j rest HH) as (c' & rest' & _ & HLr & _ & PR).
    destruct (pass p s (fst (a O))) as [o|] eqn:Ho; inversion PR; subst;
      try (eapply late_now; [eassumption|discriminate]).
    + exfalso. lra.
    + eapply late_step; [eassumption|]. apply late_false.
      unfold loop_condition. rewrite H5. apply is_last_loop. assumption.
    + exfalso. lra.
    + exfalso.
      destruct (update_back sc (td s) _ (dt s) HI HN) as [d' E];
        [|match goal with H : update_dt _ _ = None |- _ => rewrite EX in H; congruence end].
      destruct sc as [sc|]; [|exact I]. unfold newest. cbn [current accepted].
      assert (Q0 : qltb 0 (dt s) = false) by (apply nonpos_filter; assumption).
      destruct sc; unfold effective_order; cbn [get_order Nat.sub firstn app repeat filter length];
        rewrite ?Q0; try (simpl; lia); destruct (qltb 0 d); simpl; lia.
  - destruct (pass_late p s (fst (a O)) (snd (a O))) as [o|] eqn:Ho; inversion LR; subst.
    + eapply late_now; [eassumption|discriminate].
    + exfalso. unfold x in *. rewrite EX in *. lra.
    + exfalso. unfold x in *. rewrite EX in *. lra.
Qed.

Lemma late_overshoot_pass : forall p sc (s : state V) a,
  positive_params p -> 0 < time_step_min p -> two_slots sc s ->
  inv sc (td s) (mkRun (dt s) []) -> 0 < dt s -> time_end p < t s + dt s ->
  stops_late p a s \/
  exists s', pass_late p s (fst (a O)) (snd (a O)) = Some (Running s') /\ two_slots sc s' /\ t s' = t s /\
    dt s' = dt s * (1#2) /\ time_step_min p < dt s' /\ inv sc (td s') (mkRun (dt s') []).
Proof.
  intros p sc s a PP Pm HB HI HD HO. pose proof HB as (c & j & rest & HH & HL).
  destruct (overshoot_update p sc s (a_good (fst (a O))) PP HI HD HO) as [[d UD] NX].
  destruct (late_cases p s (fst (a O)) (snd (a O)) c j rest HH) as [EP|LR].
  - destruct (pass_cases p s (fst (a O)) c j rest HH) as (c' & rest' & _ & HLr & _ & PR).
    rewrite EP.
    destruct (pass p s (fst (a O))) as [o|] eqn:Ho; inversion PR; subst;
      try (left; eapply late_now; [eassumption|discriminate]).
    + right. exists s'. split; [reflexivity|]. split.
      { exists c', c', rest'. split; [assumption|]. simpl in *. lia. }
      split; [assumption|]. split; [assumption|]. split; [rewrite H6; assumption|].
      rewrite H6. exact (exec1_inv sc (td s) _ (Replace (dt s * (1#2))) _ HI H3).
    + left. eapply late_step; [eassumption|].
      destruct (is_last p (t s + dt s)) eqn:EL.
      * apply late_false. unfold loop_condition. rewrite H5. apply is_last_loop. assumption.
      * specialize (NX eq_refl). eapply (late_return p sc _ _ (dt s)); try assumption.
        -- destruct run_gt; eexists; eexists; eexists; (split; [exact H7|]);
             cbn [length]; rewrite firstn_length; cbn [length]; rewrite ?map_length;
             simpl in *; lia.
        -- rewrite H6. exact (exec1_inv sc (td s) _ (Update x) _ HI H3).
        -- rewrite H6, H5. unfold x. rewrite NX. reflexivity.
        -- rewrite H6. unfold x. rewrite NX. lra.
    + destruct (exec1_defined sc (td s) _ (Replace (dt s * (1#2))) HI) as [d1 E].
      * split; [assumption|constructor].
      * simpl. lra.
      * simpl in E. congruence.
    + congruence.
  - left. destruct (pass_late p s (fst (a O)) (snd (a O))) as [o|] eqn:Ho; inversion LR; subst.
    + eapply late_now; [eassumption|discriminate].
    + eapply late_step; [eassumption|]. apply late_false. unfold loop_condition. rewrite H4.
      destruct (is_last p (t s + dt s)) eqn:EL; [now apply is_last_loop|].
      exfalso. unfold x in *. rewrite (NX eq_refl) in *. lra.
    + exfalso. destruct (exec1_defined sc (td s) _ (Replace x) HI) as [d1 E].
      * split; [assumption|constructor].
      * simpl. lra.
      * simpl in E. congruence.
Qed.

Lemma late_fits : forall p sc (s : state V) a steps,
  positive_params p -> 0 < time_step_min p -> two_slots sc s ->
  inv sc (td s) (mkRun (dt s) steps) -> positive steps -> 0 < dt s ->
  t s + dt s <= time_end p -> stops_late p a s.
Proof.
  intros p sc s a steps PP Pm HB HI HS HD HF. destruct PP as [P1 P2].
  set (delta := qmin3 (dt s) (time_step_min p) (time_step_max p)).
  assert (D1 : delta <= dt s) by apply Q.le_min_l.
  assert (D2 : delta <= time_step_min p).
  { unfold delta, qmin3. eapply Qle_trans; [apply Q.le_min_r|apply Q.le_min_l]. }
  assert (D3 : delta <= time_step_max p).
  { unfold delta, qmin3. eapply Qle_trans; [apply Q.le_min_r|apply Q.le_min_r]. }
  assert (D0 : 0 < delta).
  { unfold delta, qmin3. apply Q.min_glb_lt; [assumption|]. apply Q.min_glb_lt; assumption. }
  destruct (exists_pow (time_step_min p) (dt s) Pm) as [K HK].
  destruct (exists_steps (time_end p - t s) delta D0) as [N HN].
  eapply (late_aux p sc delta) with (N := N) (K := K); try assumption.
  - split; assumption.
  - split; [exact HB|eauto].
  - split; [assumption|]. split; [lra|]. intros _. assumption.
  - left. assumption.
Qed.

Lemma late_overshoot : forall p sc, positive_params p -> 0 < time_step_min p ->
  forall (K : nat) (s : state V) a,
    two_slots sc s -> inv sc (td s) (mkRun (dt s) []) -> 0 < dt s ->
    dt s <= time_step_min p * inject_Z (2 ^ Z.of_nat K) ->
    stops_late p a s.
Proof.
  intros p sc PP Pm. induction K as [|K IHK]; intros s a HB HI HD HK;
    (destruct (Qlt_le_dec (time_end p) (t s + dt s)) as [HO|HO];
     [|eapply late_fits; try eassumption; constructor]);
    destruct (late_overshoot_pass p sc s a PP Pm HB HI HD HO)
      as [HS|(s' & HP & HB' & HT & HDT & HM & HI')]; try assumption.
  - exfalso. change (inject_Z (2 ^ Z.of_nat 0)) with 1 in HK. rewrite HDT in HM. lra.
  - eapply late_step; [exact HP|]. apply IHK; try assumption; [rewrite HDT; lra|].
    rewrite HDT. rewrite Nat2Z.inj_succ, Z.pow_succ_r, inject_Z_mult in HK by lia.
    change (inject_Z 2) with 2 in HK. lra.
Qed.

Lemma late_always : forall p sc u0 junk (s0 : state V) a,
  positive_params p -> 0 < time_step_min p ->
  initial_state p sc u0 junk = Some s0 -> stops_late p a s0.
Proof.
  intros p sc u0 junk s0 a PP Pm HI.
  destruct (initial_times _ _ _ _ _ HI) as (E1 & E2 & _).
  destruct (initial_good _ _ _ _ _ HI) as [(c & j & rest & G1 & G2 & G3) G4].
  destruct (exists_pow (time_step_min p) (dt s0) Pm) as [K HK].
  eapply (late_overshoot p sc PP Pm K); try assumption.
  - exists c, j, rest. auto.
  - rewrite E2. apply PP.
Qed.

(** The invariants through runs with late failures *)
Definition holds (p : params) sc (o : outcome V) : Prop :=
  match o with
  | Running s => base_good sc s /\ tinv p s
  | Finished s => base_good sc s /\ tinv p s /\ loop_condition p s = false
  | Aborted _ => True
  end.
Lemma late_holds : forall p sc (s : state V) a b o, positive_params p -> 0 < time_step_min p ->
  base_good sc s -> tinv p s -> pass_late p s a b = Some o -> holds p sc o.
Proof.
  intros p sc s a b o PP Pm HB HT HP. pose proof HB as [(c & j & rest & HH & HL) _].
  destruct o as [s'|s'|s']; [| |exact I].
  - destruct (late_cases p s a b c j rest HH) as [EP|LR].
    + rewrite EP in HP. exact (base_pass p sc s a s' PP HB HT HP).
    + rewrite HP in LR. destruct (late_base p sc s a (length rest) s' PP HB HT HL LR Pm) as (A & B & _). now split.
  - assert (E : s' = s /\ loop_condition p s = false).
    { destruct (late_cases p s a b c j rest HH) as [EP|LR].
      - rewrite EP in HP. destruct (pass_cases p s a c j rest HH) as (c' & rest' & _ & _ & _ & PR). rewrite HP in PR.
        inversion PR; subst. now split.
      - rewrite HP in LR. inversion LR. }
    destruct E as [-> LF]. cbn [holds]. split; [exact HB|]. split; [exact HT|exact LF].
Qed.
Lemma late_run_holds : forall p sc, positive_params p -> 0 < time_step_min p -> forall n a (o o' : outcome V),
  holds p sc o -> run_late p a n o = Some o' -> holds p sc o'.
Proof.
  intros p sc PP Pm. induction n as [|n IH]; intros a o o' H R; cbn [run_late] in R; [now injection R as <-|].
  destruct o as [s|s|s]; [|injection R as <-; exact H|injection R as <-; exact H].
  destruct (pass_late p s (fst (a O)) (snd (a O))) as [o1|] eqn:E; [|discriminate]. cbn [obind] in R.
  apply (IH _ _ _ (late_holds p sc s _ _ _ PP Pm (proj1 H) (proj2 H) E) R).
Qed.
End LateProofs.
