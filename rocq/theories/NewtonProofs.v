(** Proofs about the Newton solvers. *)
From Coq Require Import QArith Lqa List Arith Bool Lia.
From Verif Require Import Util NewtonModel.
Import ListNotations.
Local Open Scope nat_scope.

Lemma fle_fin : forall a q, fle a (Fin q) = true <-> exists r, a = Fin r /\ (r <= q)%Q.
Proof.
  intros [r| |] q; simpl; split; try discriminate; try (intros (? & ? & ?); discriminate).
  - intro H. exists r. split; [reflexivity|]. apply Qle_bool_iff. assumption.
  - intros (r' & E & H). injection E as <-. apply Qle_bool_iff. assumption.
Qed.

Lemma flt_fin : forall a c n, flt a (fscale c n) = true ->
  exists r, a = Fin r /\ (forall q, n = Fin q -> (r < c * q)%Q).
Proof.
  intros [r| |] c [q| |] H; simpl in H; try discriminate.
  - apply qltb_true in H. exists r. split; [reflexivity|]. intros q' E. injection E as <-. assumption.
  - exists r. split; [reflexivity|]. intros q' E. discriminate.
Qed.

Section S.
Context {V : Type}.
Variables (residual : V -> V) (norm : V -> fl) (add : Q -> V -> V -> V) (neg : V -> V).
Variable linear : list (event V) -> V -> option (V * nat).
Variable p : params.
Hypothesis norm_nonneg : forall v q, norm v = Fin q -> (0 <= q)%Q.

Notation damp := (damp residual norm add).
Notation newton_pass := (newton_pass residual norm add neg linear p).
Notation newton_loop := (newton_loop residual norm add neg linear p).
Notation damped_newton := (damped_newton residual norm add neg linear p).
Notation newton_start := (newton_start residual norm p).
Notation check := (check p).
Notation old_pass := (old_pass residual norm add neg linear).
Notation old_loop := (old_loop residual norm add neg linear p).

(** The iterate, its residual and its norm belong together. *)
Definition consistent (s : nstate V) : Prop :=
  res s = residual (dst s) /\ norm_r s = norm (residual (dst s)).

(** Trial points of a damping loop, newest first, and the last step length. *)
Lemma damp_spec : forall n omega x inc nr lg tmp r nt om lg',
  damp n omega x inc nr lg = (tmp, r, nt, om, lg') ->
  r = residual tmp /\ nt = norm (residual tmp) /\
  exists k, k <= n /\ (om == omega / inject_Z (2 ^ Z.of_nat (S k)))%Q /\
    exists trials, lg' = trials ++ lg /\ length trials = S k /\
      (forall e, In e trials -> exists v, e = EResidual v) /\
      (k = n \/ fge nt (fscale (1 - (1 # 10) * om) nr) = false).
Proof.
  induction n as [|n IH]; intros omega x inc nr lg tmp r nt om lg' H; cbn [NewtonModel.damp] in H;
    destruct (fge (norm (residual (add omega x inc))) (fscale (1 - (1 # 10) * (omega / 2)) nr)) eqn:E.
  - injection H as <- <- <- <- <-. repeat split. exists 0. split; [lia|]. split; [reflexivity|].
    exists [EResidual (add omega x inc)]. repeat split; try (left; reflexivity).
    intros e [<-|[]]. eauto.
  - injection H as <- <- <- <- <-. repeat split. exists 0. split; [lia|]. split; [reflexivity|].
    exists [EResidual (add omega x inc)]. repeat split; try (left; reflexivity).
    intros e [<-|[]]. eauto.
  - destruct (IH _ _ _ _ _ _ _ _ _ _ H) as (H1 & H2 & k & Hk & Ho & tr & E1 & E2 & E3 & E4).
    split; [exact H1|]. split; [exact H2|]. exists (S k). split; [lia|]. split.
    + rewrite Ho. rewrite (Nat2Z.inj_succ (S k)), Z.pow_succ_r by lia.
      rewrite inject_Z_mult. field. intro C.
      assert (0 < 2 ^ Z.of_nat (S k))%Z by (apply Z.pow_pos_nonneg; lia).
      unfold Qeq in C. simpl in C. lia.
    + exists (tr ++ [EResidual (add omega x inc)]). rewrite <- app_assoc. split; [exact E1|].
      rewrite app_length. simpl. split; [lia|]. split.
      * intros e He. apply in_app_iff in He. destruct He as [He|[<-|[]]]; eauto.
      * destruct E4; [left; lia|right; assumption].
  - injection H as <- <- <- <- <-. repeat split. exists 0. split; [lia|]. split; [reflexivity|].
    exists [EResidual (add omega x inc)]. repeat split; try (right; assumption).
    intros e [<-|[]]. eauto.
Qed.

(** What one pass of either solver leaves behind. *)
Inductive passed (s : nstate V) : nstate V -> Prop :=
| passed_intro : forall s' trials mid,
    consistent s' -> it s' = S (it s) -> hist_newton s' = S (hist_newton s) ->
    log s' = EAccept (norm_r s') :: trials ++ ELinear :: mid ++ log s ->
    1 <= length trials <= 100 ->
    (forall e, In e trials -> exists v, e = EResidual v) ->
    (forall e, In e mid -> exists v, e = EJacobian v \/ e = EPreconditioner v) ->
    passed s s'.

Lemma omega_range : forall k om, (om == 1 / inject_Z (2 ^ Z.of_nat (S k)))%Q -> (0 < om <= 1)%Q.
Proof.
  intros k om H.
  assert (P : (1 <= 2 ^ Z.of_nat (S k))%Z).
  { assert (0 < 2 ^ Z.of_nat (S k))%Z by (apply Z.pow_pos_nonneg; lia). lia. }
  assert (P1 : (1 <= inject_Z (2 ^ Z.of_nat (S k)))%Q) by (change 1%Q with (inject_Z 1); rewrite <- Zle_Qle; exact P).
  rewrite H. split.
  - apply Qlt_shift_div_l; lra.
  - apply Qle_shift_div_r; lra.
Qed.

Lemma newton_pass_running : forall hp s s', newton_pass hp s = Running s' ->
  threshold_newton_iter p <> 0 /\ passed s s' /\
  (use_damping p = true -> exists r, norm_r s' = Fin r /\
     forall q, norm_r s = Fin q -> (0 <= q)%Q -> (r < q)%Q).
Proof.
  intros hp s s' H. unfold NewtonModel.newton_pass in H.
  destruct (Nat.eqb_spec (threshold_newton_iter p) 0); [discriminate|]. split; [assumption|].
  set (ex := (hist_newton s mod threshold_newton_iter p =? 0) || (threshold_linear_iter p <? hist_linear s)) in H.
  assert (HM : exists mid, (if hp && do_update p && ex
             then EPreconditioner (dst s) :: EJacobian (dst s) :: log s
             else EJacobian (dst s) :: log s) = mid ++ log s /\
             forall e, In e mid -> exists v, e = EJacobian v \/ e = EPreconditioner v).
  { destruct (hp && do_update p && ex).
    - exists [EPreconditioner (dst s); EJacobian (dst s)]. split; [reflexivity|].
      intros e [<-|[<-|[]]]; eauto.
    - exists [EJacobian (dst s)]. split; [reflexivity|]. intros e [<-|[]]; eauto. }
  destruct HM as (mid & EM & HMid). cbv zeta in H. rewrite EM in H.
  destruct (linear (mid ++ log s) (neg (res s))) as [[inc nl]|]; [|discriminate].
  destruct (use_damping p).
  - destruct (damp 99 1 (dst s) inc (norm_r s) (ELinear :: mid ++ log s)) as [[[[tmp r] nt] om] lg'] eqn:ED.
    destruct (damp_spec _ _ _ _ _ _ _ _ _ _ _ ED) as (H1 & H2 & k & Hk & Ho & tr & E1 & E2 & E3 & E4).
    destruct (flt nt (fscale (1 - (1 # 10) * om) (norm_r s))) eqn:EF; [|discriminate].
    injection H as <-. split.
    + eapply (passed_intro s _ tr mid); simpl; try reflexivity; try assumption; try lia.
      * split; simpl; assumption.
      * rewrite E1. reflexivity.
    + intros _. simpl. destruct (flt_fin _ _ _ EF) as (r0 & -> & HL). exists r0. split; [reflexivity|].
      intros q Hq Hq0. specialize (HL q Hq). destruct (omega_range k om Ho) as [O1 O2]. nra.
  - injection H as <-. split; [|discriminate].
    eapply (passed_intro s _ [EResidual (add 1 (dst s) inc)] mid); simpl; try reflexivity; try assumption; try lia.
    + split; reflexivity.
    + intros e [<-|[]]. eauto.
Qed.

Lemma newton_pass_not_returned : forall hp s s',
  newton_pass hp s <> Returned s' /\ newton_pass hp s <> NoConvergence s'.
Proof.
  intros hp s s'. unfold NewtonModel.newton_pass.
  destruct (threshold_newton_iter p =? 0); [split; discriminate|]. cbv zeta.
  match goal with |- context [linear ?l ?r] => destruct (linear l r) as [[inc nl]|] end; [|split; discriminate].
  destruct (use_damping p); [|split; discriminate].
  match goal with |- context [damp ?a ?b ?c ?d ?e ?f] => destruct (damp a b c d e f) as [[[[t r] nt] om] lg] end.
  destruct (flt nt (fscale (1 - (1 # 10) * om) (norm_r s))); split; discriminate.
Qed.

(** Induction over the states reached by the loop. *)
Lemma newton_loop_invariant : forall (P : nstate V -> Prop) hp user c0,
  (forall s s', P s -> check user (it s) (norm_r s) c0 (dst s) (res s) = Iterate ->
     newton_pass hp s = Running s' -> P s') ->
  forall fuel s, P s ->
  match newton_loop fuel hp user c0 s with
  | Returned s' => P s' /\ check user (it s') (norm_r s') c0 (dst s') (res s') = Success
  | NoConvergence s' => P s' /\ check user (it s') (norm_r s') c0 (dst s') (res s') = Failure
  | NoDamping s' => exists s1, P s1 /\ newton_pass hp s1 = NoDamping s' /\
      check user (it s1) (norm_r s1) c0 (dst s1) (res s1) = Iterate
  | LinearThrew s' => exists s1, P s1 /\ newton_pass hp s1 = LinearThrew s' /\
      check user (it s1) (norm_r s1) c0 (dst s1) (res s1) = Iterate
  | Undefined => threshold_newton_iter p = 0
  | Running s' => P s' /\ check user (it s') (norm_r s') c0 (dst s') (res s') = Iterate
  end.
Proof.
  intros P hp user c0 HP. induction fuel as [|fuel IH]; intros s Hs; cbn [NewtonModel.newton_loop].
  - destruct (check user (it s) (norm_r s) c0 (dst s) (res s)) eqn:E; auto.
  - destruct (check user (it s) (norm_r s) c0 (dst s) (res s)) eqn:E; auto.
    destruct (newton_pass hp s) as [s'|s'|s'|s'| |s'] eqn:EP; eauto.
    + exfalso. apply (proj1 (newton_pass_not_returned hp s s')). assumption.
    + exfalso. apply (proj2 (newton_pass_not_returned hp s s')). assumption.
    + unfold NewtonModel.newton_pass in EP.
      destruct (Nat.eqb_spec (threshold_newton_iter p) 0); [assumption|]. exfalso. cbv zeta in EP.
      match type of EP with context [linear ?l ?r] => destruct (linear l r) as [[inc nl]|] end; [|discriminate].
      destruct (use_damping p); [|discriminate].
      match type of EP with context [damp ?a ?b ?c ?d ?e ?f] => destruct (damp a b c d e f) as [[[[t r] nt] om] lg] end.
      destruct (flt nt (fscale (1 - (1 # 10) * om) (norm_r s))); discriminate.
    + apply IH. eapply HP; eassumption.
Qed.

Lemma check_success : forall (user : option (nat -> fl -> V -> V -> state)) step v c0 x r, check user step v c0 x r = Success ->
  (fle v (Fin (abs_tol p)) = true \/ fle (fdiv v c0) (Fin (rel_tol p)) = true) /\
  (forall f, user = Some f -> f step v x r = Success).
Proof.
  intros user step v c0 x r H. unfold NewtonModel.check in H.
  assert (C : control_check p step v c0 = Success).
  { destruct user as [f|]; [|assumption].
    destruct (control_check p step v c0), (f step v x r); congruence. }
  split.
  - unfold control_check in C.
    destruct (fgt v (Fin (abs_tol p)) && fgt (fdiv v c0) (Fin (rel_tol p)) && (step <? max_iter p)); [discriminate|].
    destruct (fle v (Fin (abs_tol p))); [left; reflexivity|].
    destruct (fle (fdiv v c0) (Fin (rel_tol p))); [right; reflexivity|discriminate].
  - intros f ->. rewrite C in H. destruct (f step v x r); congruence.
Qed.

(** Without a user check that asks for more, the loop goes on only below the
    limit. *)
Lemma check_iterate : forall (user : option (nat -> fl -> V -> V -> state)) step v c0 x r, check user step v c0 x r = Iterate ->
  (forall f, user = Some f -> f step v x r <> Iterate) ->
  step < max_iter p /\ fgt v (Fin (abs_tol p)) = true /\ fgt (fdiv v c0) (Fin (rel_tol p)) = true.
Proof.
  intros user step v c0 x r H HU. unfold NewtonModel.check in H.
  assert (C : control_check p step v c0 = Iterate).
  { destruct user as [f|]; [|assumption]. specialize (HU f eq_refl).
    destruct (control_check p step v c0), (f step v x r); congruence. }
  unfold control_check in C.
  destruct (fgt v (Fin (abs_tol p))), (fgt (fdiv v c0) (Fin (rel_tol p))), (Nat.ltb_spec step (max_iter p));
    simpl in C; try (destruct (_ || _); discriminate); auto.
  all: destruct (fle v (Fin (abs_tol p)) || fle (fdiv v c0) (Fin (rel_tol p))); discriminate.
Qed.

Lemma start_consistent : forall hn hl x lg, consistent (newton_start hn hl x lg).
Proof. intros. split; reflexivity. Qed.

(** Accepted norms in the log since the start, newest first. *)
Fixpoint accepted (lg : list (event V)) : list fl :=
  match lg with
  | [] => []
  | EStart n :: r | EAccept n :: r => n :: accepted r
  | _ :: r => accepted r
  end.

Lemma accepted_app : forall a b, accepted (a ++ b) = accepted a ++ accepted b.
Proof. induction a as [|[]]; intros b; simpl; rewrite ?IHa; reflexivity. Qed.

Lemma accepted_none : forall l, (forall e, In e l -> forall n, e <> EAccept n /\ e <> EStart n) -> accepted l = [].
Proof.
  induction l as [|e l IH]; intro H; [reflexivity|]. simpl.
  destruct e; try (apply IH; intros; apply H; right; assumption);
    exfalso; destruct (H _ (or_introl eq_refl) n); congruence.
Qed.

Lemma passed_accepted : forall s s', passed s s' ->
  accepted (log s') = norm_r s' :: accepted (log s).
Proof.
  intros s s' H. destruct H as [s' tr mid HC HI HH HL HT HE HM]. rewrite HL. simpl. f_equal.
  rewrite accepted_app. simpl. rewrite accepted_app.
  rewrite (accepted_none tr), (accepted_none mid); [reflexivity| |].
  - intros e He n. destruct (HM _ He) as (v & [E|E]); subst e; split; discriminate.
  - intros e He n. destruct (HE _ He) as (v & ->); split; discriminate.
Qed.

(** Number of residual evaluations and of linear solves in the log. *)
Fixpoint n_residuals (lg : list (event V)) : nat :=
  match lg with [] => 0 | EResidual _ :: r => S (n_residuals r) | _ :: r => n_residuals r end.

Lemma n_residuals_app : forall a b, n_residuals (a ++ b) = n_residuals a + n_residuals b.
Proof. induction a as [|[]]; intros b; simpl; rewrite ?IHa; reflexivity. Qed.

Lemma n_residuals_le : forall l, n_residuals l <= length l.
Proof. induction l as [|[]]; simpl; lia. Qed.

Lemma n_residuals_none : forall l, (forall e, In e l -> forall v, e <> EResidual v) -> n_residuals l = 0.
Proof.
  induction l as [|e l IH]; intro H; [reflexivity|]. simpl.
  destruct e; try (apply IH; intros; apply H; right; assumption).
  exfalso. eapply H; [left; reflexivity|reflexivity].
Qed.

Lemma passed_residuals : forall s s', passed s s' ->
  n_residuals (log s) < n_residuals (log s') <= 100 + n_residuals (log s).
Proof.
  intros s s' H. destruct H as [s' tr mid HC HI HH HL HT HE HM]. rewrite HL. simpl.
  rewrite n_residuals_app. simpl. rewrite n_residuals_app, (n_residuals_none mid).
  - assert (n_residuals tr = length tr); [|lia]. clear -HE.
    induction tr as [|e tr IH]; [reflexivity|]. destruct (HE e (or_introl eq_refl)) as [v ->]. simpl.
    f_equal. apply IH. intros e He. apply HE. right. assumption.
  - intros e He v ->. destruct (HM _ He) as (v' & [?|?]); discriminate.
Qed.

(** Strictly decreasing finite norms, newest first; the first one (last in the
    list) is arbitrary. *)
Fixpoint decreasing (l : list fl) : Prop :=
  match l with
  | a :: (b :: _) as r => (exists x y, a = Fin x /\ b = Fin y /\ (x < y)%Q) /\ decreasing r
  | _ => True
  end.

Lemma bad_start : forall fuel hp user s c0, norm_r s = c0 -> (forall q, c0 <> Fin q) ->
  newton_loop fuel hp user c0 s = NoConvergence s.
Proof.
  intros fuel hp user s c0 E H.
  assert (C : check user (it s) (norm_r s) c0 (dst s) (res s) = Failure).
  { unfold NewtonModel.check, control_check. rewrite E.
    destruct c0 as [q| |]; [exfalso; eapply H; reflexivity| |]; simpl; destruct user; reflexivity. }
  destruct fuel; cbn [NewtonModel.newton_loop]; rewrite C; reflexivity.
Qed.

Lemma loop_stops : forall hp user c0,
  (forall f, user = Some f -> forall st v x r, f st v x r <> Iterate) ->
  forall fuel s, max_iter p <= it s + fuel -> forall s', newton_loop fuel hp user c0 s <> Running s'.
Proof.
  intros hp user c0 HU. induction fuel as [|fuel IH]; intros s H s' C; cbn [NewtonModel.newton_loop] in C;
    destruct (check user (it s) (norm_r s) c0 (dst s) (res s)) eqn:E; try discriminate;
    destruct (check_iterate _ _ _ _ _ _ E) as [H1 _]; try (intros f ->; apply HU; reflexivity).
  - lia.
  - destruct (newton_pass hp s) as [s1|s1|s1|s1| |s1] eqn:EP; try discriminate.
    apply newton_pass_running in EP. destruct EP as (_ & HP & _). destruct HP as [s1 tr mid _ HI _ _ _ _ _].
    apply (IH s1 ltac:(lia) s' C).
Qed.

Lemma pass_failed_log : forall hp s s',
  newton_pass hp s = NoDamping s' \/ newton_pass hp s = LinearThrew s' ->
  it s' = it s /\ dst s' = dst s /\ hist_newton s' = hist_newton s /\
  accepted (log s') = accepted (log s) /\ n_residuals (log s') <= 100 + n_residuals (log s).
Proof.
  intros hp s s' H. unfold NewtonModel.newton_pass in H.
  destruct (Nat.eqb_spec (threshold_newton_iter p) 0); [destruct H; discriminate|]. cbv zeta in H.
  match type of H with context [linear ?l ?r] => set (lg := l) in H; destruct (linear lg r) as [[inc nl]|] end.
  - assert (HA : accepted lg = accepted (log s) /\ n_residuals lg = n_residuals (log s)).
    { unfold lg. destruct (hp && do_update p && _); auto. }
    destruct HA as [HA HN].
    destruct (use_damping p); [|destruct H; discriminate].
    destruct (damp 99 1 (dst s) inc (norm_r s) (ELinear :: lg)) as [[[[tmp r] nt] om] lg'] eqn:ED.
    destruct (damp_spec _ _ _ _ _ _ _ _ _ _ _ ED) as (H1 & H2 & k & Hk & Ho & tr & E1 & E2 & E3 & E4).
    destruct (flt nt (fscale (1 - (1 # 10) * om) (norm_r s))); [destruct H; discriminate|].
    destruct H as [H|H]; [|discriminate]. injection H as <-. simpl.
    repeat split; rewrite E1, ?accepted_app, ?n_residuals_app; simpl; rewrite ?HA, ?HN.
    + rewrite (accepted_none tr); [reflexivity|]. intros e He n0. destruct (E3 _ He) as (v & ->).
      split; discriminate.
    + pose proof (n_residuals_le tr). lia.
  - destruct H as [H|H]; [discriminate|]. injection H as <-. simpl. repeat split.
    + unfold lg. destruct (hp && do_update p && _); reflexivity.
    + unfold lg. destruct (hp && do_update p && _); simpl; lia.
Qed.

(** *** Preconditioner age *)

(** Newton iterations completed since the preconditioner was set up last;
    [None] if it never was. *)
Fixpoint age (lg : list (event V)) : option nat :=
  match lg with
  | [] => None
  | EPreconditioner _ :: _ => Some 0
  | EAccept _ :: r => option_map S (age r)
  | _ :: r => age r
  end.

(** All linear solves in a log used a preconditioner not older than [n]. *)
Definition fresh_solves (n : nat) (lg : list (event V)) : Prop :=
  forall a b, lg = a ++ ELinear :: b -> exists k, age b = Some k /\ k < n.

Definition age_bound (n h : nat) : nat := if h mod n =? 0 then n else h mod n.

Definition age_inv (h : nat) (lg : list (event V)) : Prop :=
  fresh_solves (threshold_newton_iter p) lg /\
  (0 < h -> exists k, age lg = Some k /\ k <= age_bound (threshold_newton_iter p) h).

Lemma fresh_cons : forall n e lg, e <> ELinear -> fresh_solves n lg -> fresh_solves n (e :: lg).
Proof.
  intros n e lg H F a b E. destruct a as [|x a]; simpl in E; injection E as E1 E2; [congruence|].
  eapply F. exact E2.
Qed.

Lemma fresh_linear : forall n lg k, age lg = Some k -> k < n -> fresh_solves n lg ->
  fresh_solves n (ELinear :: lg).
Proof.
  intros n lg k HA HK F a b E. destruct a as [|x a]; simpl in E.
  - injection E as <-. eauto.
  - injection E as _ E2. eapply F. exact E2.
Qed.

Lemma fresh_app : forall n tr lg, (forall e, In e tr -> e <> ELinear) -> fresh_solves n lg ->
  fresh_solves n (tr ++ lg).
Proof.
  induction tr as [|e tr IH]; intros lg H F; [exact F|]. simpl. apply fresh_cons.
  - apply H. left. reflexivity.
  - apply IH; [|exact F]. intros; apply H; right; assumption.
Qed.

Lemma age_app : forall tr lg, (forall e, In e tr -> exists v, e = EResidual v) -> age (tr ++ lg) = age lg.
Proof.
  induction tr as [|e tr IH]; intros lg H; [reflexivity|]. simpl.
  destruct (H e (or_introl eq_refl)) as [v ->]. apply IH. intros; apply H; right; assumption.
Qed.

Lemma age_bound_pos : forall n h, n <> 0 -> 0 < h -> 1 <= age_bound n h.
Proof. intros n h H1 H2. unfold age_bound. destruct (Nat.eqb_spec (h mod n) 0); lia. Qed.

Lemma age_bound_succ : forall n h, n <> 0 -> h mod n <> 0 ->
  S (h mod n) <= age_bound n (S h).
Proof.
  intros n h H1 H2. unfold age_bound.
  pose proof (Nat.mod_upper_bound h n H1) as U.
  assert (E : S h mod n = S (h mod n) mod n).
  { rewrite <- Nat.add_1_r, <- (Nat.add_1_r (h mod n)). symmetry. apply Nat.add_mod_idemp_l. assumption. }
  rewrite E. destruct (Nat.eq_dec (S (h mod n)) n) as [C|C].
  - rewrite C, Nat.mod_same by assumption. rewrite Nat.eqb_refl. lia.
  - rewrite (Nat.mod_small (S (h mod n))) by lia. destruct (Nat.eqb_spec (S (h mod n)) 0); lia.
Qed.

Lemma pass_age : forall s, do_update p = true ->
  age_inv (hist_newton s) (log s) ->
  match newton_pass true s with
  | Running s' | NoDamping s' | LinearThrew s' | Returned s' | NoConvergence s' =>
      age_inv (hist_newton s') (log s')
  | Undefined => True
  end.
Proof.
  intros s HU [HF HA]. unfold NewtonModel.newton_pass.
  destruct (Nat.eqb_spec (threshold_newton_iter p) 0) as [|HN]; [exact I|]. cbv zeta. rewrite HU.
  cbn [andb].
  set (ex := (hist_newton s mod threshold_newton_iter p =? 0) || (threshold_linear_iter p <? hist_linear s)).
  set (lg := if ex then EPreconditioner (dst s) :: EJacobian (dst s) :: log s else EJacobian (dst s) :: log s).
  assert (HL : fresh_solves (threshold_newton_iter p) lg).
  { unfold lg. destruct ex; repeat apply fresh_cons; try discriminate; assumption. }
  assert (HG : exists k, age lg = Some k /\ k < threshold_newton_iter p /\
     S k <= age_bound (threshold_newton_iter p) (S (hist_newton s)) /\
     (0 < hist_newton s -> k <= age_bound (threshold_newton_iter p) (hist_newton s))).
  { unfold lg. destruct ex eqn:EX.
    - exists 0. split; [reflexivity|]. repeat split; try lia.
      apply age_bound_pos; [assumption|lia].
    - unfold ex in EX. apply orb_false_iff in EX. destruct EX as [EX _].
      apply Nat.eqb_neq in EX.
      assert (0 < hist_newton s).
      { destruct (hist_newton s); [|lia]. rewrite Nat.mod_0_l in EX by assumption. congruence. }
      destruct (HA H) as (k & Hk & Hb). exists k. split; [exact Hk|].
      pose proof (Nat.mod_upper_bound (hist_newton s) _ HN).
      assert (HB : k <= hist_newton s mod threshold_newton_iter p).
      { unfold age_bound in Hb. destruct (Nat.eqb_spec (hist_newton s mod threshold_newton_iter p) 0); [congruence|assumption]. }
      split; [lia|]. split; [|intros _; exact Hb].
      eapply Nat.le_trans; [|apply age_bound_succ; assumption]. lia. }
  destruct HG as (k & K1 & K2 & K3 & K4).
  destruct (linear lg (neg (res s))) as [[inc nl]|].
  - pose proof (fresh_linear _ _ _ K1 K2 HL) as HL2.
    destruct (use_damping p).
    + destruct (damp 99 1 (dst s) inc (norm_r s) (ELinear :: lg)) as [[[[tmp r] nt] om] lg'] eqn:ED.
      destruct (damp_spec _ _ _ _ _ _ _ _ _ _ _ ED) as (H1 & H2 & k0 & Hk & Ho & tr & E1 & E2 & E3 & E4).
      assert (HF2 : fresh_solves (threshold_newton_iter p) lg').
      { rewrite E1. apply fresh_app; [|exact HL2]. intros e He. destruct (E3 e He) as [v ->]. discriminate. }
      assert (HA2 : age lg' = Some k) by (rewrite E1, age_app by exact E3; exact K1).
      destruct (flt nt (fscale (1 - (1 # 10) * om) (norm_r s))); simpl; split; simpl.
      * apply fresh_cons; [discriminate|assumption].
      * intros _. rewrite HA2. simpl. eauto.
      * assumption.
      * intro HP. rewrite HA2. eauto.
    + simpl. split; simpl.
      * do 2 (apply fresh_cons; [discriminate|]). assumption.
      * intros _. rewrite K1. simpl. eauto.
  - simpl. split; simpl; [assumption|]. intro HP. rewrite K1. eauto.
Qed.

Lemma loop_age : forall user c0, do_update p = true -> forall fuel s,
  age_inv (hist_newton s) (log s) ->
  match newton_loop fuel true user c0 s with
  | Running s' | NoDamping s' | LinearThrew s' | Returned s' | NoConvergence s' =>
      age_inv (hist_newton s') (log s')
  | Undefined => True
  end.
Proof.
  intros user c0 HU. induction fuel as [|fuel IH]; intros s H; cbn [NewtonModel.newton_loop];
    destruct (check user (it s) (norm_r s) c0 (dst s) (res s)); auto.
  pose proof (pass_age s HU H) as HP.
  destruct (newton_pass true s) as [s1|s1|s1|s1| |s1]; auto. apply IH. exact HP.
Qed.

(** *** The solver of newton.h *)

Lemma old_pass_running : forall up ev s s', old_pass up ev s = Running s' ->
  passed s s' /\
  exists r, norm_r s' = Fin r /\ forall q, norm_r s = Fin q -> (0 <= q)%Q -> (r < q)%Q.
Proof.
  intros up ev s s' H. unfold NewtonModel.old_pass in H.
  destruct (up && (ev =? 0)); [discriminate|]. cbv zeta in H.
  assert (HM : exists mid, (if up && (it s mod ev =? 0)
             then EPreconditioner (dst s) :: EJacobian (dst s) :: log s
             else EJacobian (dst s) :: log s) = mid ++ log s /\
             forall e, In e mid -> exists v, e = EJacobian v \/ e = EPreconditioner v).
  { destruct (up && (it s mod ev =? 0)).
    - exists [EPreconditioner (dst s); EJacobian (dst s)]. split; [reflexivity|].
      intros e [<-|[<-|[]]]; eauto.
    - exists [EJacobian (dst s)]. split; [reflexivity|]. intros e [<-|[]]; eauto. }
  destruct HM as (mid & EM & HMid). rewrite EM in H.
  destruct (linear (mid ++ log s) (neg (res s))) as [[inc nl]|]; [|discriminate].
  destruct (damp 99 1 (dst s) inc (norm_r s) (ELinear :: mid ++ log s)) as [[[[tmp r] nt] om] lg'] eqn:ED.
  destruct (damp_spec _ _ _ _ _ _ _ _ _ _ _ ED) as (H1 & H2 & k & Hk & Ho & tr & E1 & E2 & E3 & E4).
  destruct (flt nt (fscale (1 - (1 # 10) * om) (norm_r s))) eqn:EF; [|discriminate].
  injection H as <-. split.
  - eapply (passed_intro s _ tr mid); simpl; try reflexivity; try assumption; try lia.
    + split; simpl; assumption.
    + rewrite E1. reflexivity.
  - simpl. destruct (flt_fin _ _ _ EF) as (r0 & -> & HL). exists r0. split; [reflexivity|].
    intros q Hq Hq0. specialize (HL q Hq). destruct (omega_range k om Ho) as [O1 O2]. nra.
Qed.

Definition old_continue (c0 : fl) (s : nstate V) : bool :=
  fgt (norm_r s) (Fin (abs_tol p)) && fgt (fdiv (norm_r s) c0) (Fin (rel_tol p)) && (it s <? max_iter p).

Lemma old_pass_not_returned : forall up ev s s',
  old_pass up ev s <> Returned s' /\ old_pass up ev s <> NoConvergence s'.
Proof.
  intros up ev s s'. unfold NewtonModel.old_pass.
  destruct (up && (ev =? 0)); [split; discriminate|]. cbv zeta.
  match goal with |- context [linear ?l ?r] => destruct (linear l r) as [[inc nl]|] end; [|split; discriminate].
  match goal with |- context [damp ?a ?b ?c ?d ?e ?f] => destruct (damp a b c d e f) as [[[[t r] nt] om] lg] end.
  destruct (flt nt (fscale (1 - (1 # 10) * om) (norm_r s))); split; discriminate.
Qed.

Lemma old_loop_invariant : forall (P : nstate V -> Prop) up ev c0,
  (forall s s', P s -> old_continue c0 s = true -> old_pass up ev s = Running s' -> P s') ->
  forall fuel s, P s ->
  match old_loop fuel up ev c0 s with
  | Returned s' => P s' /\
      (fle (norm_r s') (Fin (abs_tol p)) = true \/ fle (fdiv (norm_r s') c0) (Fin (rel_tol p)) = true)
  | NoConvergence s' => P s'
  | Running s' => P s' /\ old_continue c0 s' = true
  | _ => True
  end.
Proof.
  intros P up ev c0 HP. induction fuel as [|fuel IH]; intros s Hs; cbn [NewtonModel.old_loop];
    fold (old_continue c0 s); destruct (old_continue c0 s) eqn:E; [auto| | |].
  - destruct (fle (norm_r s) (Fin (abs_tol p))) eqn:E1, (fle (fdiv (norm_r s) c0) (Fin (rel_tol p))) eqn:E2;
      cbn [orb]; auto.
  - destruct (old_pass up ev s) as [s'|s'|s'|s'| |s'] eqn:EP; eauto.
    + exfalso. apply (proj1 (old_pass_not_returned up ev s s')). assumption.
    + exfalso. apply (proj2 (old_pass_not_returned up ev s s')). assumption.
    + apply IH. eapply HP; eassumption.
  - destruct (fle (norm_r s) (Fin (abs_tol p))) eqn:E1, (fle (fdiv (norm_r s) c0) (Fin (rel_tol p))) eqn:E2;
      cbn [orb]; auto.
Qed.

End S.
