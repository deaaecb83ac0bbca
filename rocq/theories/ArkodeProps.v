(** C102: time stepping with ARKode *)
From Coq Require Import List QArith Arith Bool Lia.
From Verif Require Import Util BlockVectorModel BlockVectorProps ArkodeModel.
Import ListNotations.
Open Scope nat_scope.

(** The blocks whose equation is stationary ([want = true]) or not ([want = false]), in order. *)
Fixpoint pick {B} (want : bool) (types : list equation_type) (l : list B) : list B :=
  match types, l with
  | t :: types, x :: l =>
    match t with
    | Stationary => if want then x :: pick want types l else pick want types l
    | _ => if want then pick want types l else x :: pick want types l
    end
  | _, _ => []
  end.

Lemma collect_spec : forall types c idx, collect c types = Some idx ->
  (forall i, In i idx <-> c <= i /\ nth_error types (i - c) = Some Stationary) /\ NoDup idx.
Proof.
  induction types as [ | t types IH]; intros c idx H; cbn [collect] in H.
  - injection H as <-. split; [ | constructor]. intros i. split; [intros [] | ]. intros [_ E]. destruct (i - c); discriminate.
  - assert (Hs : forall i, c <= i -> i <> c -> i - c = S (i - S c)) by (intros; lia). destruct t; [discriminate | | ].
    + destruct (IH _ _ H) as [H1 H2]. split; [ | exact H2]. intros i. rewrite H1. split; intros [Hi E].
      * split; [lia | ]. now rewrite (Hs i) by lia.
      * destruct (Nat.eq_dec i c) as [-> | n]; [rewrite Nat.sub_diag in E; discriminate | ]. rewrite (Hs i) in E by lia. split; [lia | exact E].
    + destruct (collect (S c) types) as [l | ] eqn:E0; [ | discriminate]. cbn [obind] in H. injection H as <-.
      destruct (IH _ _ E0) as [H1 H2]. split.
      * intros i. cbn [In]. rewrite H1. split.
        -- intros [<- | [Hi E]]; [rewrite Nat.sub_diag; split; [lia | reflexivity] | ]. split; [lia | ]. now rewrite (Hs i) by lia.
        -- intros [Hi E]. destruct (Nat.eq_dec i c) as [-> | n]; [now left | right]. rewrite (Hs i) in E by lia. split; [lia | exact E].
      * constructor; [ | exact H2]. rewrite H1. lia.
Qed.

(** The constructor lists exactly the stationary components, in ascending order, and throws
    exactly if the kind of some equation is not known. *)
Theorem C102_indices : forall types,
  (stationary_indices types = None <-> In Undefined types) /\
  (forall idx, stationary_indices types = Some idx ->
     (forall i, In i idx <-> nth_error types i = Some Stationary) /\
     (forall a b i j, a < b -> nth_error idx a = Some i -> nth_error idx b = Some j -> i < j)).
Proof.
  intros types. unfold stationary_indices. split.
  - generalize 0. induction types as [ | t types IH]; intros c; cbn [collect In]; [split; [discriminate | intros []] | ].
    destruct t.
    + split; auto.
    + rewrite IH. split; [auto | intros [H | H]; [discriminate | exact H]].
    + split.
      * intros H. destruct (collect (S c) types) eqn:E; [discriminate | ]. right. apply (IH (S c)), E.
      * intros [H | H]; [discriminate | ]. apply (IH (S c)) in H. now rewrite H.
  - intros idx H. split.
    + intros i. destruct (collect_spec types 0 idx H) as [H1 _]. rewrite H1, Nat.sub_0_r. split; [intros [_ E]; exact E | intros E; split; [lia | exact E]].
    + revert idx H. generalize 0. induction types as [ | t types IH]; intros c idx H a b i j Hab Hi Hj; cbn [collect] in H.
      * injection H as <-. destruct a; discriminate.
      * destruct t; [discriminate | exact (IH _ _ H a b i j Hab Hi Hj) | ].
        destruct (collect (S c) types) as [l | ] eqn:E; [ | discriminate]. cbn [obind] in H. injection H as <-.
        destruct b as [ | b]; [lia | ]. cbn [nth_error] in Hj. destruct a as [ | a]; cbn [nth_error] in Hi.
        -- injection Hi as <-. apply nth_error_In in Hj. apply (collect_spec _ _ _ E) in Hj. lia.
        -- exact (IH _ _ E a b i j ltac:(lia) Hi Hj).
Qed.
Print Assumptions C102_indices.

Lemma remove_all_app : forall B i1 i2 (l : list B) b1 r1 b2 r2, remove_all i1 l = Some (b1, r1) -> remove_all i2 r1 = Some (b2, r2) ->
  remove_all (i1 ++ i2) l = Some (b1 ++ b2, r2).
Proof.
  induction i1 as [ | i i1 IH]; intros i2 l b1 r1 b2 r2 H1 H2; cbn [remove_all app] in *.
  - injection H1 as <- <-. exact H2.
  - destruct (remove_block i l) as [[x l1] | ]; [ | discriminate]. cbn [obind fst snd] in *.
    destruct (remove_all i1 l1) as [[b r] | ] eqn:E; [ | discriminate]. cbn [obind fst snd] in *. injection H1 as <- <-.
    rewrite (IH i2 l1 b r b2 r2 E H2). reflexivity.
Qed.

Lemma remove_pick_aux : forall B types c idx (pre l : list B), collect c types = Some idx -> length pre = c -> length l = length types ->
  remove_all (rev idx) (pre ++ l) = Some (rev (pick true types l), pre ++ pick false types l).
Proof.
  intros B. induction types as [ | t types IH]; intros c idx pre [ | x l] H Hc Hl; try discriminate; cbn [collect] in H.
  - injection H as <-. reflexivity.
  - destruct t; [discriminate | | ].
    + specialize (IH (S c) idx (pre ++ [x]) l H ltac:(rewrite app_length; cbn; lia) ltac:(cbn in Hl; lia)).
      rewrite <- !app_assoc in IH. exact IH.
    + destruct (collect (S c) types) as [l0 | ] eqn:E; [ | discriminate]. cbn [obind] in H. injection H as <-.
      specialize (IH (S c) l0 (pre ++ [x]) l E ltac:(rewrite app_length; cbn; lia) ltac:(cbn in Hl; lia)).
      rewrite <- !app_assoc in IH. cbn [rev pick]. apply (remove_all_app B _ _ _ _ _ _ _ IH).
      cbn [remove_all]. rewrite (remove_block_spec B c _ x) by (unfold vget; rewrite nth_error_app2 by lia; rewrite Hc, Nat.sub_diag; reflexivity).
      cbn [obind fst snd]. f_equal. f_equal. unfold delete_at. subst c.
      rewrite firstn_app, Nat.sub_diag, firstn_all, firstn_O, app_nil_r. f_equal.
      rewrite skipn_app, skipn_all2 by lia. replace (S (length pre) - length pre) with 1 by lia. reflexivity.
Qed.
Lemma remove_pick : forall B types idx (l : list B), stationary_indices types = Some idx -> length l = length types ->
  remove_all (rev idx) l = Some (rev (pick true types l), pick false types l).
Proof. intros B types idx l H Hl. exact (remove_pick_aux B types 0 idx [] l H eq_refl Hl). Qed.
Lemma insert_pick : forall B (null : B) types idx (l : list B), stationary_indices types = Some idx -> length l = length types ->
  insert_all null idx (pick true types l) (pick false types l) = Some l.
Proof.
  intros B null types idx l H Hl. pose proof (C12_remove_all_insert_all B null _ _ _ _ (remove_pick B types idx l H Hl)) as X.
  now rewrite !rev_involutive in X.
Qed.

Lemma pick_ends : forall B types (l : list B), length l = length types -> length (pick true types l) + length (pick false types l) = length types.
Proof. induction types as [ | t types IH]; intros [ | x l] H; try discriminate; [reflexivity | ]. cbn [length] in H. specialize (IH l ltac:(lia)). destruct t; cbn [pick length]; lia. Qed.
Lemma pick_same_length : forall B C want types (l : list B) (m : list C), length l = length types -> length m = length types -> length (pick want types l) = length (pick want types m).
Proof.
  intros B C want. induction types as [ | t types IH]; intros [ | x l] [ | y m] Hl Hm; try discriminate; [reflexivity | ].
  cbn [length] in *. specialize (IH l m ltac:(lia) ltac:(lia)). destruct t, want; cbn [pick length]; lia.
Qed.
Lemma pick_index_length : forall B types c idx (l : list B), collect c types = Some idx -> length l = length types -> length (pick true types l) = length idx.
Proof.
  intros B. induction types as [ | t types IH]; intros c idx [ | x l] H Hl; try discriminate; cbn [collect] in H.
  - injection H as <-. reflexivity.
  - cbn [length] in Hl. destruct t; [discriminate | apply (IH (S c)); auto; lia | ].
    destruct (collect (S c) types) as [l0 | ] eqn:E; [ | discriminate]. cbn [obind] in H. injection H as <-. cbn [pick length]. f_equal. apply (IH (S c)); auto; lia.
Qed.

(** any blocks of the right number fit together *)
Lemma weave : forall B types (l s y : list B), length l = length types -> length s = length (pick true types l) -> length y = length (pick false types l) ->
  exists full, length full = length types /\ pick true types full = s /\ pick false types full = y.
Proof.
  intros B. induction types as [ | t types IH]; intros [ | x l] s y Hl Hs Hy; try discriminate.
  - destruct s; [ | discriminate]. destruct y; [ | discriminate]. exists []. repeat split.
  - cbn [length] in Hl. destruct t; cbn [pick length] in Hs, Hy.
    + destruct y as [ | a y]; [discriminate | ]. destruct (IH l s y) as [full [H1 [H2 H3]]]; auto; try (cbn in Hy; lia).
      exists (a :: full). cbn [length pick]. repeat split; auto; congruence.
    + destruct y as [ | a y]; [discriminate | ]. destruct (IH l s y) as [full [H1 [H2 H3]]]; auto; try (cbn in Hy; lia).
      exists (a :: full). cbn [length pick]. repeat split; auto; congruence.
    + destruct s as [ | a s]; [discriminate | ]. destruct (IH l s y) as [full [H1 [H2 H3]]]; auto; try (cbn in Hs; lia).
      exists (a :: full). cbn [length pick]. repeat split; auto; congruence.
Qed.

(** Whatever whole vector [full] the time-dependent blocks [y] and the kept stationary blocks
    form: the right hand side given to ARKode is minus the residual of [full] at the
    time-dependent components, and [y] is as before. *)
Theorem C102_rhs : forall (B : Type) (null : B) neg residual types idx full dummy t ydot,
  stationary_indices types = Some idx -> length full = length types ->
  (forall t u, length (residual t u) = length u) ->
  length dummy = length idx -> length ydot = length (pick false types full) ->
  explicit_function null neg residual idx (pick true types full) dummy t (pick false types full) ydot =
  Some (map neg (pick false types (residual t full)), pick false types full).
Proof.
  intros B null neg residual types idx full dummy t ydot Hi Hl Hr Hd Hy. unfold explicit_function.
  rewrite (insert_pick B null types idx full Hi Hl). cbn [obind].
  assert (Hd' : length dummy = length (pick true types full)) by (rewrite Hd; symmetry; exact (pick_index_length B types 0 idx full Hi Hl)).
  destruct (weave B types full dummy ydot Hl Hd' Hy) as [g [G1 [<- <-]]].
  rewrite (insert_pick B null types idx g Hi G1). cbn [obind].
  rewrite (remove_pick B types idx full Hi Hl). cbn [obind].
  rewrite (remove_pick B types idx (residual t full) Hi ltac:(rewrite Hr; exact Hl)). reflexivity.
Qed.
Print Assumptions C102_rhs.

Lemma update_ok : forall (B : Type) neg set_zero distribute (mass : option (B -> B)) idx r sol,
  (forall i, In i idx -> i < length r) -> length r = length sol -> NoDup idx ->
  exists sol', update_stationary neg set_zero distribute mass idx r sol = Some sol' /\ length sol' = length sol /\
    (forall i, In i idx -> vget sol' i = option_map (algebraic neg set_zero distribute mass) (vget r i)) /\
    (forall i, ~ In i idx -> vget sol' i = vget sol i).
Proof.
  intros B neg set_zero distribute mass. induction idx as [ | b idx IH]; intros r sol Hi Hl Hn; cbn [update_stationary].
  - exists sol. repeat split. intros i [].
  - inversion Hn as [ | b' idx' Hb Hn']; subst b' idx'.
    destruct (vget_some B r b ltac:(apply Hi; now left)) as [rb Er]. rewrite Er. cbn [obind].
    destruct (vset_some B sol b (algebraic neg set_zero distribute mass rb) ltac:(rewrite <- Hl; apply Hi; now left)) as [s1 E1]. rewrite E1. cbn [obind].
    pose proof (vset_length _ _ _ _ _ E1) as L1.
    destruct (IH r s1) as [s2 [E2 [L2 [G2 K2]]]]; [intros; apply Hi; now right | lia | exact Hn' | ].
    exists s2. split; [exact E2 | split; [lia | split]].
    + intros i [<- | Hin]; [ | now apply G2]. rewrite (K2 b Hb), (vset_get _ _ _ _ _ _ E1), Nat.eqb_refl, Er. reflexivity.
    + intros i Hne. rewrite K2 by (intro; apply Hne; now right). rewrite (vset_get _ _ _ _ _ _ E1).
      destruct (Nat.eqb_spec i b) as [-> | _]; [exfalso; apply Hne; now left | reflexivity].
Qed.

(** A step: ARKode gets the right hand side with the stationary values of the solution passed
    in and the time-dependent blocks.  The new solution has the blocks ARKode returns at the
    time-dependent components, and at each stationary component minus the solution with the
    mass matrix of the residual at the end time, where the residual is taken of the new
    time-dependent and the old stationary blocks.  The time advances by [dt].  If ARKode
    fails, so does the step. *)
Theorem C102_step : forall (B : Type) (null : B) neg set_zero distribute mass residual types idx dummy (ode : @solver B) dt s,
  stationary_indices types = Some idx -> length (solution s) = length types ->
  (forall t u, length (residual t u) = length u) ->
  let t1 := (time s + dt * 1)%Q in
  let result := ode (explicit_function null neg residual idx (pick true types (solution s)) dummy) (negb (ready s)) t1 (pick false types (solution s)) in
  let step := make_step null neg set_zero distribute mass residual ode idx dummy dt s in
  (result = None -> step = None) /\
  (forall y, result = Some y -> length y = length (pick false types (solution s)) ->
     exists s' full, step = Some s' /\ (time s' == time s + dt)%Q /\ ready s' = true /\ length (solution s') = length types /\
       length full = length types /\ pick false types full = y /\ pick true types full = pick true types (solution s) /\
       (forall b, nth_error types b = Some TimeDependent -> vget (solution s') b = vget full b) /\
       (forall b, nth_error types b = Some Stationary -> vget (solution s') b = option_map (algebraic neg set_zero distribute mass) (vget (residual (time s') full) b))).
Proof.
  intros B null neg set_zero distribute mass residual types idx dummy ode dt s Hi Hl Hr t1 result step.
  assert (Hstep : step = obind result (fun y => obind (match idx with [] => Some y | _ => obind (insert_all null idx (pick true types (solution s)) y) (fun sol => update_stationary neg set_zero distribute mass idx (residual t1 sol) sol) end)
     (fun sol => Some (mkState sol t1 true)))).
  { unfold step, make_step. rewrite (remove_pick B types idx (solution s) Hi Hl). cbn [obind fst snd]. rewrite rev_involutive. reflexivity. }
  split; [intros H; rewrite Hstep, H; reflexivity | ]. intros y Hy Hly. rewrite Hstep, Hy. cbn [obind]. clear Hstep step.
  destruct (weave B types (solution s) (pick true types (solution s)) y Hl eq_refl Hly) as [full [F1 [F2 F3]]].
  destruct (C102_indices types) as [_ Hidx]. destruct (Hidx idx Hi) as [Hin _]. destruct (collect_spec types 0 idx Hi) as [_ Hnd].
  assert (Ht : (t1 == time s + dt)%Q) by (unfold t1; ring).
  destruct idx as [ | b0 idx0] eqn:Eidx.
  - cbn [obind]. assert (E : y = full).
    { pose proof (insert_pick B null types [] full Hi F1) as X. pose proof (pick_index_length B types 0 [] full Hi F1) as X0.
      cbn [length] in X0. destruct (pick true types full); [ | discriminate]. cbn [insert_all] in X. congruence. }
    exists (mkState y t1 true), full. cbn [solution time ready]. rewrite E. repeat split; auto; try congruence.
    intros b Hb. apply Hin in Hb. destruct Hb.
  - rewrite <- Eidx in *. rewrite <- F2, <- F3, (insert_pick B null types idx full Hi F1). cbn [obind].
    destruct (update_ok B neg set_zero distribute mass idx (residual t1 full) full) as [sol' [E [L [G K]]]].
    { intros i H. rewrite Hr, F1. apply Hin in H. apply nth_error_Some. congruence. } { apply Hr. } { exact Hnd. }
    rewrite E. cbn [obind]. exists (mkState sol' t1 true), full. cbn [solution time ready]. repeat split; auto; try congruence.
    + intros b Hb. apply K. intros H. apply Hin in H. congruence.
    + intros b Hb. apply G. now apply Hin.
Qed.
Print Assumptions C102_step.

(** *** Several steps *)
Definition is_step (e : event) : bool := match e with Step _ => true | Clear => false end.
Definition steps (es : list event) : nat := length (filter is_step es).
Definition span (es : list event) : Q := fold_right (fun e a => match e with Step dt => (dt + a)%Q | Clear => a end) 0%Q es.

(** A step restarts ARKode exactly if nothing was done before with a fresh object or if the
    object was cleared right before; and the time is the sum of all step sizes. *)
Theorem C102_restart : forall (B : Type) (null : B) neg set_zero distribute mass residual (ode : @solver B) idx dummy before dt after s s' flags,
  run null neg set_zero distribute mass residual ode idx dummy (before ++ Step dt :: after) s = Some (s', flags) ->
  (time s' == time s + span (before ++ Step dt :: after))%Q /\ length flags = steps (before ++ Step dt :: after) /\
  (nth_error flags (steps before) = Some true <-> (before = [] /\ ready s = false) \/ exists b, before = b ++ [Clear]).
Proof.
  intros B null neg set_zero distribute mass residual ode idx dummy before dt after s s' flags H.
  assert (Hstep : forall dt s s1, make_step null neg set_zero distribute mass residual ode idx dummy dt s = Some s1 -> ready s1 = true /\ (time s1 == time s + dt)%Q).
  { intros dt0 s0 s1 E. unfold make_step in E. destruct (remove_all (rev idx) (solution s0)) as [rm | ]; [ | discriminate]. cbn [obind] in E.
    destruct (ode _ _ _ _) as [y | ]; [ | discriminate]. cbn [obind] in E.
    match type of E with obind ?x _ = _ => destruct x as [sol | ]; [ | discriminate] end. cbn [obind] in E. injection E as <-.
    cbn [ready time]. split; [reflexivity | ring]. }
  assert (Hrun : forall es s s' flags, run null neg set_zero distribute mass residual ode idx dummy es s = Some (s', flags) -> (time s' == time s + span es)%Q /\ length flags = steps es).
  { induction es as [ | [d | ] es IH]; intros s0 s1 fl E; cbn [run] in E.
    - injection E as <- <-. split; [unfold span; cbn; ring | reflexivity].
    - destruct (make_step _ _ _ _ _ _ _ _ _ d s0) as [s2 | ] eqn:E1; [ | discriminate]. cbn [obind] in E.
      destruct (run _ _ _ _ _ _ _ _ _ es s2) as [[s3 fl3] | ] eqn:E2; [ | discriminate]. cbn [obind fst snd] in E. injection E as <- <-.
      destruct (Hstep _ _ _ E1) as [_ T]. destruct (IH _ _ _ E2) as [T2 L2]. split.
      + rewrite T2, T. unfold span. cbn [fold_right]. ring.
      + unfold steps in *. cbn [filter is_step length]. lia.
    - destruct (IH _ _ _ E) as [T2 L2]. split; [exact T2 | exact L2]. }
  destruct (Hrun _ _ _ _ H) as [H1 H2]. split; [exact H1 | split; [exact H2 | ]]. clear H1 H2.
  revert s flags H. induction before as [ | e before IH]; intros s flags H.
  - cbn [app run] in H. destruct (make_step _ _ _ _ _ _ _ _ _ dt s) as [s2 | ] eqn:E1; [ | discriminate]. cbn [obind] in H.
    destruct (run _ _ _ _ _ _ _ _ _ after s2) as [[s3 fl3] | ] eqn:E2; [ | discriminate]. cbn [obind fst snd] in H. injection H as <- <-.
    cbn [steps filter length nth_error]. split.
    + intros X. injection X as X. left. split; [reflexivity | now destruct (ready s)].
    + intros [[_ X] | [b X]]; [now rewrite X | destruct b; discriminate].
  - cbn [app run] in H. destruct e as [d | ].
    + destruct (make_step _ _ _ _ _ _ _ _ _ d s) as [s2 | ] eqn:E1; [ | discriminate]. cbn [obind] in H.
      destruct (run _ _ _ _ _ _ _ _ _ (before ++ Step dt :: after) s2) as [[s3 fl3] | ] eqn:E2; [ | discriminate]. cbn [obind fst snd] in H. injection H as <- <-.
      unfold steps in *. cbn [filter is_step length nth_error]. rewrite (IH s2 fl3 E2). destruct (Hstep _ _ _ E1) as [R _]. split.
      * intros [[_ X] | [b ->]]; [congruence | ]. right. exists (Step d :: b). reflexivity.
      * intros [[X _] | [b X]]; [discriminate | ]. right. destruct b as [ | e b]; [discriminate | ]. injection X as <- X. exists b. exact X.
    + unfold steps in *. cbn [filter is_step length]. rewrite (IH (clear s) flags H). cbn [clear ready]. split.
      * intros [[-> _] | [b ->]]; right; [exists []; reflexivity | exists (Clear :: b); reflexivity].
      * intros [[X _] | [b X]]; [discriminate | ]. destruct b as [ | e b].
        -- injection X as X. left. auto.
        -- injection X as <- X. right. exists b. exact X.
Qed.
Print Assumptions C102_restart.

(** *** What does not hold *)
(** Two half steps of the explicit Euler method, as a solver that ARKode may be. *)
Definition euler2 (start : Q) : @solver Q := fun rhs _ t1 y =>
  let h := ((t1 - start) / 2)%Q in
  let add := fun a b => map (fun p => (fst p + h * snd p)%Q) (combine a b) in
  obind (rhs start y (map (fun _ => 0%Q) y)) (fun k1 =>
  let y1 := add (snd k1) (fst k1) in
  obind (rhs (start + h)%Q y1 (map (fun _ => 0%Q) y)) (fun k2 => Some (add (snd k2) (fst k2)))).

(** [u' = w] with the stationary equation [w = u]: the right hand side that ARKode sees within
    the step uses the value of [w] from the start of the step.  From [u = w = 1] two half
    steps give 2 instead of 9/4 for the equation [u' = u]. *)
Definition lag (t : Q) (v : list Q) : list Q := match v with [u; w] => [(- w)%Q; (- u)%Q] | _ => v end.
Theorem C102_lagged_refuted :
  stationary_indices [TimeDependent; Stationary] = Some [1] /\
  exists s', make_step 0%Q Qopp (fun x => x) (fun x => x) None lag (euler2 0%Q) [1] [0%Q] 1%Q (mkState [1%Q; 1%Q] 0%Q false) = Some s' /\
    map Qred (solution s') = [2%Q; 2%Q] /\
    (exists y, euler2 0%Q (fun t v _ => Some (v, v)) true 1%Q [1%Q] = Some y /\ map Qred y = [(9 # 4)%Q]).
Proof. split; [reflexivity | ]. eexists. split; [vm_compute; reflexivity | ]. split; [vm_compute; reflexivity | ]. eexists. split; vm_compute; reflexivity. Qed.
Print Assumptions C102_lagged_refuted.

(** Two stationary equations [w1 = u] and [w2 = w1]: after the step the second does not hold,
    since all stationary blocks are set from one residual. *)
Definition chain (t : Q) (v : list Q) : list Q := match v with [w1; w2; u] => [(- u)%Q; (- w1)%Q; 0%Q] | _ => v end.
Theorem C102_chain_refuted :
  stationary_indices [Stationary; Stationary; TimeDependent] = Some [0; 1] /\
  exists s', make_step 0%Q Qopp (fun x => x) (fun x => x) None chain (euler2 0%Q) [0; 1] [0%Q; 0%Q] 1%Q (mkState [0%Q; 0%Q; 1%Q] 0%Q false) = Some s' /\
    map Qred (solution s') = [1%Q; 0%Q; 1%Q].
Proof. split; [reflexivity | ]. eexists. split; vm_compute; reflexivity. Qed.
Print Assumptions C102_chain_refuted.

(** The sign is changed after the constraints have been applied: a stationary value that the
    constraints fix to [g] comes out as [- g]. *)
Theorem C102_constraint_refuted : forall g : Q, ~ (g == 0)%Q ->
  exists s', make_step 0%Q Qopp (fun _ => 0%Q) (fun _ => g) None lag (euler2 0%Q) [1] [0%Q] 1%Q (mkState [1%Q; g] 0%Q false) = Some s' /\
    exists w, vget (solution s') 1 = Some w /\ (w == - g)%Q /\ ~ (w == g)%Q.
Proof.
  intros g Hg. eexists. split; [reflexivity | ]. eexists. split; [reflexivity | ]. cbn -[Qopp]. unfold algebraic. split; [reflexivity | ].
  intros E. apply Hg. rewrite <- (Qmult_1_l g). setoid_replace (1 * g)%Q with ((1 # 2) * (g + g))%Q by ring.
  assert (X : (g + g == 0)%Q) by (rewrite <- E at 1; ring). rewrite X. ring.
Qed.
Print Assumptions C102_constraint_refuted.

(** The mass matrix: without constraints, if [solve] inverts the matrix, [solve_mass] gives
    the vector that the matrix maps to the right hand side, block by block, and keeps the
    right hand side. *)
Theorem C102_mass : forall (B : Type) (vmult solve : B -> B) (b : list B), (forall r, vmult (solve r) = r) ->
  mass_times_vector vmult (fst (solve_mass (fun x => x) (fun x => x) solve b)) = b /\ snd (solve_mass (fun x => x) (fun x => x) solve b) = b.
Proof.
  intros B vmult solve b H. unfold mass_times_vector, solve_mass. cbn [fst snd]. rewrite map_map. split; [ | apply map_id].
  rewrite <- (map_id b) at 2. apply map_ext. exact H.
Qed.
Print Assumptions C102_mass.

(** A step with a stationary component between two time-dependent ones. *)
Example C102_applies :
  stationary_indices [TimeDependent; Stationary; TimeDependent] = Some [1] /\
  pick true [TimeDependent; Stationary; TimeDependent] [1%Q; 2%Q; 3%Q] = [2%Q] /\
  pick false [TimeDependent; Stationary; TimeDependent] [1%Q; 2%Q; 3%Q] = [1%Q; 3%Q] /\
  (let residual := fun (_ : Q) v => match v with [a; b; c] => [(- b)%Q; (- (a + c))%Q; (a - c)%Q] | _ => v end in
   explicit_function 0%Q Qopp residual [1] [2%Q] [0%Q] 0%Q [1%Q; 3%Q] [0%Q; 0%Q] = Some ([2%Q; 2%Q], [1%Q; 3%Q]) /\
   option_map (fun s => (map Qred (solution s), Qred (time s), ready s))
     (make_step 0%Q Qopp (fun x => x) (fun x => x) (Some (fun x => (x / 2)%Q)) residual (euler2 0%Q) [1] [0%Q] 1%Q (mkState [1%Q; 2%Q; 3%Q] 0%Q false)) =
   Some ([3%Q; 4%Q; 5%Q], 1%Q, true)) /\
  stationary_indices [TimeDependent; Undefined] = None.
Proof. repeat apply conj; try reflexivity; try (vm_compute; reflexivity). Qed.
