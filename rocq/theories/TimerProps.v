(** Property C43: timer predicates. *)
From Coq Require Import QArith Qround ZArith List Bool Arith Lia Lqa.
From Verif Require Import Util TimerModel.
Import ListNotations.
Local Open Scope nat_scope.

(** a call-count timer with interval [n] fires at the calls number 0, n, 2n, ... counted from
    the start of the run, also when the run is resumed after [start] calls *)
Theorem C43_call_count : forall start intv l, (1 <= intv)%Q ->
  exists fires s, calls (reinit n_calls start intv) l = Some (fires, s) /\ length fires = length l
    /\ forall k, k < length l -> nth_error fires k = Some (Nat.eqb ((Z.to_nat (Qfloor start) + k) mod Z.to_nat (Qfloor intv)) 0).
Proof.
  intros start intv l Hi. set (n := Z.to_nat (Qfloor intv)).
  assert (Hn : 1 <= n).
  { assert (X := Qfloor_resp_le _ _ Hi). change (Qfloor 1) with 1%Z in X. unfold n. lia. }
  assert (G : forall l c last, exists fires s, calls (mkTimer n_calls c intv last) l = Some (fires, s) /\ length fires = length l
    /\ forall k, k < length l -> nth_error fires k = Some (Nat.eqb ((c + k) mod n) 0)).
  { clear l. induction l as [| [t e] l IH]; intros c last; cbn [calls].
    - exists [], (mkTimer n_calls c intv last). split; [reflexivity |]. split; [reflexivity | intros k Hk; cbn in Hk; lia].
    - unfold now at 1. cbn [ttype counter interval last_simulation_time].
      destruct (Qle_bool intv 0) eqn:E; [apply Qle_bool_iff in E; lra |].
      unfold to_unsigned. fold n. destruct (Nat.eqb_spec n 0) as [Z | Z]; [lia |]. unfold obind. cbn [fst snd].
      destruct (IH (S c) last) as [f [s [-> [Lf Hf]]]]. eexists _, _. split; [reflexivity |]. cbn [fst snd]. split; [cbn; lia |].
      intros [| k] Hk; cbn [nth_error length] in *.
      + replace (S c - 1) with (c + 0) by lia. reflexivity.
      + rewrite Hf by lia. replace (S c + k) with (c + S k) by lia. reflexivity. }
  apply (G l (Z.to_nat (Qfloor start)) 0%Q).
Qed.
Print Assumptions C43_call_count.

(** so among any [n] successive calls exactly one fires *)
Theorem C43_once_per_interval : forall start intv l fires s n k, (1 <= intv)%Q -> n = Z.to_nat (Qfloor intv) ->
  calls (reinit n_calls start intv) l = Some (fires, s) -> k + n <= length l ->
  exists j, k <= j < k + n /\ nth_error fires j = Some true
    /\ forall i, k <= i < k + n -> nth_error fires i = Some true -> i = j.
Proof.
  intros start intv l fires s n k Hi En H Hk.
  destruct (C43_call_count start intv l Hi) as [f [s' [H' [Lf Hf]]]]. rewrite H in H'. injection H' as <- <-. rewrite <- En in Hf.
  assert (Hn : 1 <= n).
  { assert (X := Qfloor_resp_le _ _ Hi). change (Qfloor 1) with 1%Z in X. lia. }
  set (c := Z.to_nat (Qfloor start)) in *. clearbody c. clear En.
  set (j := k + ((n - (c + k) mod n) mod n)).
  assert (M1 := Nat.mod_upper_bound (c + k) n ltac:(lia)).
  assert (M2 := Nat.mod_upper_bound (n - (c + k) mod n) n ltac:(lia)).
  assert (D := Nat.div_mod (c + k) n ltac:(lia)).
  exists j. split; [unfold j; lia |]. split.
  - rewrite Hf by (unfold j; lia). f_equal. apply Nat.eqb_eq. unfold j.
    rewrite Nat.add_assoc, Nat.add_mod_idemp_r by lia.
    replace (c + k + (n - (c + k) mod n)) with ((S ((c + k) / n)) * n) by nia. apply Nat.mod_mul. lia.
  - intros i Hir Hfi. rewrite Hf in Hfi by lia. injection Hfi as Hfi. apply Nat.eqb_eq in Hfi.
    assert (Di := Nat.div_mod (c + i) n ltac:(lia)). rewrite Hfi in Di.
    unfold j. destruct (Nat.eq_dec ((c + k) mod n) 0) as [Z | Z].
    + rewrite Z in *. rewrite Nat.sub_0_r, Nat.mod_same by lia. 
      assert (E : n * ((c + i) / n) - n * ((c + k) / n) = i - k) by lia.
      assert ((c + i) / n - (c + k) / n = 0); [| nia]. destruct ((c + i) / n - (c + k) / n) eqn:Q; [reflexivity |]. nia.
    + rewrite (Nat.mod_small (n - (c + k) mod n)) by lia.
      assert ((c + i) / n = S ((c + k) / n)); [| nia].
      assert ((c + k) / n < (c + i) / n) by nia. assert ((c + i) / n < S (S ((c + k) / n))) by nia. lia.
Qed.
Print Assumptions C43_once_per_interval.

(** an interval between zero and one is not rejected: the remainder by zero is undefined *)
Theorem C43_fraction_refuted : forall start intv t e l, (0 < intv < 1)%Q -> calls (reinit n_calls start intv) ((t, e) :: l) = None.
Proof.
  intros start intv t e l H. cbn [calls reinit]. unfold now. cbn [ttype counter interval last_simulation_time].
  destruct (Qle_bool intv 0) eqn:E; [apply Qle_bool_iff in E; lra |].
  unfold to_unsigned. assert (F : Qfloor intv = 0%Z); [| rewrite F; reflexivity].
  assert (A := Qfloor_resp_le 0 intv ltac:(lra)). change (Qfloor 0) with 0%Z in A.
  assert (B := Qfloor_le intv). assert (C : (inject_Z (Qfloor intv) < 1)%Q) by lra. change 1%Q with (inject_Z 1) in C. rewrite <- Zlt_Qlt in C. lia.
Qed.
Print Assumptions C43_fraction_refuted.

(** disabled timers never fire *)
Theorem C43_disabled : forall type start intv l, type = never \/ (intv <= 0)%Q ->
  exists s, calls (reinit type start intv) l = Some (repeat false (length l), s).
Proof.
  intros type start intv l H.
  assert (G : forall l s, ttype s = never \/ (interval s <= 0)%Q -> exists s', calls s l = Some (repeat false (length l), s')).
  { clear. induction l as [| [t e] l IH]; intros s H; cbn [calls length repeat]; [eexists; reflexivity |].
    destruct s as [ty c iv last]. cbn [ttype interval] in H.
    assert (N : now (mkTimer ty c iv last) t e = Some (false, mkTimer ty (S c) iv last)).
    { unfold now. cbn [ttype interval counter last_simulation_time]. destruct H as [-> | H]; [reflexivity |].
      apply Qle_bool_iff in H. rewrite H. destruct ty; reflexivity. }
    rewrite N. unfold obind. cbn [fst snd]. destruct (IH (mkTimer ty (S c) iv last) H) as [s' ->]. eexists. reflexivity. }
  apply G. destruct H as [-> | H]; [left; reflexivity |]. destruct type; cbn; try (right; exact H). left. reflexivity.
Qed.
Print Assumptions C43_disabled.

(** ** Simulation time *)

(** time of the last call before the [k]-th that fired, the start if there is none *)
Fixpoint last_fired (start : Q) (l : list (Q * bool)) (fires : list bool) (k : nat) {struct k} : Q :=
  match k, l, fires with
  | S k, (t, _) :: l, f :: fires => last_fired (if f then t else start) l fires k
  | _, _, _ => start
  end.

Lemma last_fired_ext : forall k a b l fires, (a == b)%Q -> (last_fired a l fires k == last_fired b l fires k)%Q.
Proof.
  induction k as [| k IH]; intros a b l fires E; cbn; [exact E |].
  destruct l as [| [t e] l], fires as [| f fires]; try exact E. apply IH. destruct f; [reflexivity | exact E].
Qed.

(** it fires exactly if the interval (up to 1e-10) has passed since it last fired, or if it
    is called again at the time of the last firing *)
Theorem C43_simulation_time : forall start intv l, (0 < intv)%Q ->
  exists fires s, calls (reinit simulation_time start intv) l = Some (fires, s) /\ length fires = length l
    /\ forall k t e, nth_error l k = Some (t, e) ->
       (nth_error fires k = Some true <->
        (last_fired start l fires k + intv - (1 # 10000000000) < t)%Q \/ (t == last_fired start l fires k)%Q).
Proof.
  intros start intv l Hi.
  assert (G : forall l c last, exists fires s, calls (mkTimer simulation_time c intv last) l = Some (fires, s) /\ length fires = length l
    /\ forall k t e, nth_error l k = Some (t, e) ->
       (nth_error fires k = Some true <-> (last_fired last l fires k + intv - (1 # 10000000000) < t)%Q \/ (t == last_fired last l fires k)%Q)).
  { clear l start. induction l as [| [t e] l IH]; intros c last; cbn [calls].
    - eexists [], _. split; [reflexivity |]. split; [reflexivity |]. intros [| k] t e H; discriminate.
    - unfold now at 1. cbn [ttype counter interval last_simulation_time].
      destruct (Qle_bool intv 0) eqn:E; [apply Qle_bool_iff in E; lra |]. unfold obind. cbn [fst snd].
      set (last' := if qltb (- (1 # 10000000000)) (t - last - intv) then t else last).
      destruct (IH (S c) last') as [f [s [-> [Lf Hf]]]]. cbn [fst snd].
      eexists _, _. split; [reflexivity |]. split; [cbn; lia |].
      assert (B : Qeq_bool last' t = true <-> (last + intv - (1 # 10000000000) < t)%Q \/ (t == last)%Q).
      { unfold last'. destruct (qltb (- (1 # 10000000000)) (t - last - intv)) eqn:Q.
        - apply qltb_true in Q. split; [intros _; left; lra | intros _; apply Qeq_bool_iff; reflexivity].
        - apply qltb_false in Q. rewrite Qeq_bool_iff. split; [intros X; right; symmetry; exact X | intros [X | X]; [lra | symmetry; exact X]]. }
      intros [| k] t' e' H; cbn [nth_error last_fired] in *.
      + injection H as <- <-. rewrite <- B. destruct (Qeq_bool last' t); split; intros X; congruence.
      + rewrite (Hf k t' e' H).
        assert (Eq : (last_fired last' l f k == last_fired (if Qeq_bool last' t then t else last) l f k)%Q).
        { apply last_fired_ext. destruct (Qeq_bool last' t) eqn:Q; [apply Qeq_bool_iff; exact Q |].
          unfold last' in *. destruct (qltb (- (1 # 10000000000)) (t - last - intv)); [| reflexivity].
          exfalso. rewrite (proj2 (Qeq_bool_iff t t) (Qeq_refl t)) in Q. discriminate. }
        rewrite Eq. reflexivity. }
  apply G.
Qed.
Print Assumptions C43_simulation_time.

Lemma last_fired_none : forall k l fires st, (forall m, m < k -> nth_error fires m <> Some true) -> last_fired st l fires k = st.
Proof.
  induction k as [| k IH]; intros l fires st N; [reflexivity |].
  destruct l as [| [t e] l], fires as [| f fires]; try reflexivity. cbn [last_fired].
  destruct f; [exfalso; apply (N 0); [lia | reflexivity] |]. apply IH. intros m R. apply (N (S m)). lia.
Qed.

Lemma last_fired_is : forall i k l fires st t e, i < k -> nth_error l i = Some (t, e) -> nth_error fires i = Some true ->
  (forall m, i < m < k -> nth_error fires m <> Some true) -> last_fired st l fires k = t.
Proof.
  induction i as [| i IH]; intros k l fires st t e L Hl Hf N; (destruct k as [| k]; [lia |]);
    destruct l as [| [t0 e0] l], fires as [| f fires]; try discriminate; cbn [last_fired nth_error] in *.
  - injection Hl as -> ->. injection Hf as ->. apply last_fired_none. intros m R. apply (N (S m)). lia.
  - apply (IH k l fires _ t e); [lia | exact Hl | exact Hf |]. intros m R. apply (N (S m)). lia.
Qed.

(** two successive firings at different times are (up to 1e-10) at least the interval apart,
    and as soon as the interval has passed since a firing it fires again *)
Theorem C43_rate : forall start intv l fires s i j ti tj ei ej, (0 < intv)%Q ->
  calls (reinit simulation_time start intv) l = Some (fires, s) ->
  i < j -> nth_error l i = Some (ti, ei) -> nth_error l j = Some (tj, ej) ->
  nth_error fires i = Some true -> (forall m, i < m < j -> nth_error fires m <> Some true) ->
  (nth_error fires j = Some true -> ~ (tj == ti)%Q -> (intv - (1 # 10000000000) < tj - ti)%Q)
  /\ ((intv <= tj - ti)%Q -> nth_error fires j = Some true).
Proof.
  intros start intv l fires s i j ti tj ei ej Hi H L Hti Htj Fi N.
  destruct (C43_simulation_time start intv l Hi) as [f [s' [H' [Lf Hf]]]]. rewrite H in H'. injection H' as <- <-.
  assert (E := last_fired_is i j l fires start ti ei L Hti Fi N).
  specialize (Hf j tj ej Htj). rewrite E in Hf. rewrite Hf. split.
  - intros [X | X] Y; [lra | contradiction].
  - intros X. left. lra.
Qed.
Print Assumptions C43_rate.

(** ** Wall clock *)

(** all processes take the same decision: it fires if the interval has passed on one of them *)
Theorem C43_real_time : forall intv last clock clock', length last = length clock -> (0 < intv)%Q ->
  (fst (now_real intv last clock clock') = true <->
   exists r l c, nth_error last r = Some l /\ nth_error clock r = Some c /\ (intv < c - l)%Q)
  /\ snd (now_real intv last clock clock') = if fst (now_real intv last clock clock') then clock' else last.
Proof.
  intros intv last clock clock' Len Hi. unfold now_real.
  destruct (Qle_bool intv 0) eqn:E; [apply Qle_bool_iff in E; lra |].
  set (d := map (fun p => qltb intv (snd p - fst p)) (combine last clock)).
  assert (Z : forall d : list bool, list_sum (map (fun b : bool => if b then 1 else 0) d) = 0 <-> ~ In true d).
  { clear. induction d as [| b d IH]; cbn; [tauto |]. destruct b; cbn; [split; [lia | tauto] |].
    fold (list_sum (map (fun b : bool => if b then 1 else 0) d)). rewrite IH. split; [intros A [B | B]; [discriminate | tauto] | tauto]. }
  assert (T : In true d <-> exists r l c, nth_error last r = Some l /\ nth_error clock r = Some c /\ (intv < c - l)%Q).
  { unfold d. rewrite in_map_iff. split.
    - intros [[l c] [Q I]]. cbn in Q. apply qltb_true in Q. apply In_nth_error in I. destruct I as [r Hr].
      exists r, l, c. assert (X : forall (a b : list QArith_base.Q) r l c, nth_error (combine a b) r = Some (l, c) -> nth_error a r = Some l /\ nth_error b r = Some c).
      { clear. induction a as [| x a IH]; intros [| y b] [| r] l c H; cbn in *; try discriminate; [injection H as <- <-; tauto | apply IH; exact H]. }
      apply X in Hr. tauto.
    - intros [r [l [c [Hl [Hc Q]]]]]. exists (l, c). split; [cbn; apply qltb_true; exact Q |].
      assert (X : forall (a b : list QArith_base.Q) r l c, nth_error a r = Some l -> nth_error b r = Some c -> In (l, c) (combine a b)).
      { clear. induction a as [| x a IH]; intros [| y b] [| r] l c H H'; cbn in *; try discriminate.
        - injection H as <-. injection H' as <-. left. reflexivity.
        - right. apply (IH b r); assumption. }
      apply (X _ _ r); assumption. }
  destruct (Nat.eqb_spec (list_sum (map (fun b : bool => if b then 1 else 0) d)) 0) as [Q | Q]; cbn [fst snd]; split; try reflexivity.
  - apply Z in Q. split; [discriminate |]. intros W. apply T in W. contradiction.
  - split; [intros _ | reflexivity]. apply T. destruct (in_dec bool_dec true d) as [I | I]; [exact I |]. apply Z in I. contradiction.
Qed.
Print Assumptions C43_real_time.

Example C43_case :
  option_map fst (calls (reinit n_calls 1 3) (repeat (0%Q, false) 7)) = Some [false; false; true; false; false; true; false]
  /\ option_map fst (calls (reinit simulation_time 0 1) [(1 # 2, false); (1, false); (1, false); (3 # 2, false); (5 # 2, false)]%Q)
     = Some [false; true; true; false; true]
  /\ fst (now_real 1 [0; 0]%Q [(1 # 2); 2]%Q [3; 3]%Q) = true.
Proof. repeat split. Qed.
