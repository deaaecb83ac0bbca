(** Lemmas about the model of the grain growth operator. *)
From Coq Require Import Bool List Reals Arith Lia Lra.
From Verif Require Import Util FreeEnergyModel FreeEnergyProofs MobilityModel MobilityProofs MobilityProps OperatorModel OperatorProofs OperatorProps OperatorMassProps OperatorEnergyProps GrainGrowthModel.
Import ListNotations.
Local Open Scope R_scope.

(** ** the evaluator *)
Fixpoint mix (l : list R) : R := match l with [] => 0 | e :: r => e * e * psum 2 r + mix r end.
Lemma mix_spec : forall l, 2 * mix l = psum 2 l * psum 2 l - psum 4 l.
Proof. induction l as [| e r IH]; cbn [mix psum]; [ring |]. rewrite Rmult_plus_distr_l, IH. ring. Qed.

Lemma nth_error_skipn0 : forall (l : list R) i, (i < length l)%nat -> exists a, nth_error l i = Some a /\ skipn i l = a :: skipn (S i) l.
Proof.
  intros l i H. destruct (nth_error l i) as [a |] eqn:E; [| apply nth_error_None in E; lia].
  exists a. split; [reflexivity | apply vget_skipn; exact E].
Qed.
Lemma mixed_row_spec : forall state i a n j acc, nth_error state i = Some a -> (j + n = length state)%nat ->
  mixed_row state i n j acc = Some (acc + a * a * psum 2 (skipn j state)).
Proof.
  intros state i a. induction n as [| n IH]; intros j acc Ha L; cbn [mixed_row].
  - rewrite skipn_all2 by lia. cbn [psum]. f_equal. ring.
  - destruct (nth_error_skipn0 state j) as [b [B1 B2]]; [lia |]. unfold vget. rewrite Ha, B1. cbn [obind].
    rewrite IH by (exact Ha || lia). rewrite B2. cbn [psum]. f_equal. ring.
Qed.
Lemma mixed_loop_spec : forall state m i acc, (i + m = length state)%nat ->
  mixed_loop state (length state) m i acc = Some (acc + mix (skipn i state)).
Proof.
  intros state. induction m as [| m IH]; intros i acc L; cbn [mixed_loop].
  - rewrite skipn_all2 by lia. cbn [mix]. f_equal. ring.
  - destruct (nth_error_skipn0 state i) as [a [A1 A2]]; [lia |].
    rewrite (mixed_row_spec state i a) by (exact A1 || lia). cbn [obind]. rewrite IH by lia. rewrite A2. cbn [mix]. f_equal. ring.
Qed.

Definition gg_of (p : gg_data) (etas : list R) : gg_eval := mkGGE (g_A p) (g_B p) None (psum 2 etas) None.
Lemma gg_evaluate_spec : forall p etas, gg_evaluate false p etas (length etas) = Some (gg_of p etas).
Proof. intros. unfold gg_evaluate. rewrite power_sum_spec by lia. cbn [obind]. rewrite firstn_all. reflexivity. Qed.
Definition gg_energy (p : gg_data) (etas : list R) : R := - g_A p / 2 * psum 2 etas + g_B p / 4 * psum 4 etas + mix etas + 1 / 4.
Lemma gg_f_spec : forall p etas, (e <- gg_evaluate true p etas (length etas) ;; gg_f e) = Some (gg_energy p etas).
Proof.
  intros. unfold gg_evaluate. rewrite !power_sum_spec by lia. cbn [obind]. rewrite mixed_loop_spec by lia. cbn [obind].
  rewrite !firstn_all. unfold gg_f. cbn [y_s4 y_mixed y_A y_B y_s2 obind skipn]. unfold gg_energy. f_equal. ring.
Qed.

(** ** the residual *)
Fixpoint oldsum (weights : list R) (olds : list (list R)) (index : nat) : R :=
  match weights, olds with w :: weights, o :: olds => nth index o 0 * w + oldsum weights olds index | _, _ => 0 end.
Lemma old_terms_spec : forall weights olds index acc, (length weights <= length olds)%nat -> (forall o, In o olds -> (index < length o)%nat) ->
  old_terms weights olds index acc = Some (acc + oldsum weights olds index).
Proof.
  induction weights as [| w ws IH]; intros [| o olds] index acc L H; cbn in L; try lia; cbn [old_terms oldsum]; try (f_equal; ring).
  unfold vget. rewrite (nth_error_nth' o 0) by (apply H; left; reflexivity). cbn [obind].
  rewrite IH; [f_equal; ring | lia | intros; apply H; right; assumption].
Qed.
Definition gg_time (p : gg_data) (wtd : bool) (olds : list (list R)) (ig : nat) (eta : R) : R :=
  if wtd then eta * hd 0 (g_weights p) + oldsum (tl (g_weights p)) olds ig else 0.
Fixpoint gg_vals (p : gg_data) (wtd : bool) (e : gg_eval) (olds : list (list R)) (ig : nat) (etas : list R) : list R :=
  match etas with [] => [] | eta :: etas => (g_L p * gg_df e eta + gg_time p wtd olds ig eta) :: gg_vals p wtd e olds (S ig) etas end.
Definition gg_grads (p : gg_data) (gs : list vec) : list vec := map (fun (g : vec) d => g_L p * g_kappa p * g d) gs.

Definition time_ok (p : gg_data) (wtd : bool) {A} (olds : list A) : Prop :=
  wtd = true -> g_weights p <> [] /\ (length (tl (g_weights p)) <= length olds)%nat.

Lemma gg_rows_spec : forall p wtd e olds etas gs ig, length gs = length etas ->
  time_ok p wtd olds -> (forall o, In o olds -> (ig + length etas <= length o)%nat) ->
  gg_rows p wtd e olds ig etas gs = Some (gg_vals p wtd e olds ig etas, gg_grads p gs).
Proof.
  intros p wtd e olds. induction etas as [| eta etas IH]; intros [| g gs] ig L T O; cbn in L; try discriminate; [reflexivity |].
  cbn [gg_rows gg_vals gg_grads map].
  assert (E : (if wtd then compute_time_derivative (g_weights p) (g_L p * gg_df e eta) eta olds ig else Some (g_L p * gg_df e eta))
    = Some (g_L p * gg_df e eta + gg_time p wtd olds ig eta)).
  { unfold gg_time. destruct wtd; [| f_equal; ring]. destruct (T eq_refl) as [T1 T2]. unfold compute_time_derivative.
    destruct (g_weights p) as [| w ws]; [contradiction |]. cbn [hd tl] in *.
    rewrite old_terms_spec; [f_equal; ring | exact T2 |]. intros o Io. specialize (O o Io). cbn [length] in O. lia. }
  rewrite E. cbn [obind]. rewrite IH; [reflexivity | congruence | exact T |].
  intros o Io. specialize (O o Io). cbn [length] in O. lia.
Qed.
Lemma gg_residual_point_spec : forall p wtd olds etas gs, length gs = length etas ->
  time_ok p wtd olds -> (forall o, In o olds -> length o = length etas) ->
  gg_residual_point p wtd olds etas gs = Some (gg_vals p wtd (gg_of p etas) olds 0 etas, gg_grads p gs).
Proof.
  intros. unfold gg_residual_point. rewrite gg_evaluate_spec. cbn [obind]. apply gg_rows_spec; [assumption | assumption |].
  intros o Io. rewrite (H1 o Io). cbn. lia.
Qed.
Lemma gg_vals_length : forall p wtd e olds etas ig, length (gg_vals p wtd e olds ig etas) = length etas.
Proof. induction etas as [| eta etas IH]; intros ig; cbn; [reflexivity | f_equal; apply IH]. Qed.
Lemma gg_vals_nth : forall p wtd e olds etas ig k, (k < length etas)%nat ->
  nth k (gg_vals p wtd e olds ig etas) 0 = g_L p * gg_df e (nth k etas 0) + gg_time p wtd olds (ig + k) (nth k etas 0).
Proof.
  induction etas as [| eta etas IH]; intros ig [| k] H; cbn [length] in H; try lia; cbn [gg_vals nth].
  - rewrite Nat.add_0_r. reflexivity.
  - rewrite IH by lia. replace (S ig + k)%nat with (ig + S k)%nat by lia. reflexivity.
Qed.
Lemma gg_grads_nth : forall p gs k d, nth k (gg_grads p gs) vzero d = g_L p * g_kappa p * nth k gs vzero d.
Proof. intros p. induction gs as [| g gs IH]; intros [| k] d; cbn; try (unfold vzero; ring); try reflexivity. apply IH. Qed.

(** ** the linearised operator *)
Lemma vset_nth0 : forall (l : list R) i x l', vset l i x = Some l' -> length l' = length l /\ (i < length l)%nat /\ forall k, nth k l' 0 = if Nat.eqb k i then x else nth k l 0.
Proof.
  induction l as [| y r IH]; intros i x l' H; [discriminate |]. destruct i as [| i]; cbn [vset] in H.
  - injection H as <-. cbn [length]. split; [reflexivity | split; [lia |]]. intros [| k]; reflexivity.
  - destruct (vset r i x) as [r' |] eqn:E; [| discriminate]. injection H as <-. destruct (IH i x r' E) as [A [B C]]. cbn [length].
    split; [congruence | split; [lia |]]. intros [| k]; [reflexivity |]. cbn [nth Nat.eqb]. apply C.
Qed.
Lemma vset_ok : forall (l : list R) i x, (i < length l)%nat -> exists l', vset l i x = Some l'.
Proof. intros. apply vset_some. assumption. Qed.
Lemma vget_ok : forall (l : list R) i, (i < length l)%nat -> vget l i = Some (nth i l 0).
Proof. intros. unfold vget. apply nth_error_nth'. assumption. Qed.

Lemma gg_inner_spec : forall p e lin value ig n jg res,
  (jg + n <= ig)%nat -> (ig < length lin)%nat -> length value = length lin -> length res = length lin ->
  exists res', gg_inner p e lin value ig n jg res = Some res' /\ length res' = length lin
    /\ forall k, nth k res' 0 = nth k res 0
         + (if Nat.eqb k ig then g_L p * 4 * nth ig lin 0 * (vsum (jg + n) (fun j => nth j lin 0 * nth j value 0) - vsum jg (fun j => nth j lin 0 * nth j value 0))
            else if Nat.leb jg k && Nat.ltb k (jg + n) then g_L p * 4 * nth ig lin 0 * nth k lin 0 * nth ig value 0 else 0).
Proof.
  intros p e lin value ig. induction n as [| n IH]; intros jg res Hj Hi Lv Lr; cbn [gg_inner].
  - exists res. split; [reflexivity | split; [exact Lr |]]. intros k. rewrite Nat.add_0_r.
    destruct (Nat.eqb k ig); [ring |]. destruct (Nat.leb_spec jg k), (Nat.ltb_spec k jg); cbn [andb]; try lia; ring.
  - rewrite !vget_ok by lia. cbn [obind].
    destruct (vset_ok res ig (nth ig res 0 + g_L p * gg_d2f_ij e (nth ig lin 0) (nth jg lin 0) * nth jg value 0)) as [r1 E1]; [lia |].
    rewrite E1. cbn [obind]. apply vset_nth0 in E1. destruct E1 as [L1 [_ N1]].
    rewrite vget_ok by lia. cbn [obind]. rewrite (N1 jg). destruct (Nat.eqb_spec jg ig) as [Q1 | Q1]; [lia |].
    destruct (vset_ok r1 jg (nth jg res 0 + g_L p * gg_d2f_ij e (nth ig lin 0) (nth jg lin 0) * nth ig value 0)) as [r2 E2]; [lia |].
    rewrite E2. cbn [obind]. apply vset_nth0 in E2. destruct E2 as [L2 [_ N2]].
    destruct (IH (S jg) r2) as [res' [E [L' N']]]; [lia | lia | lia | lia |].
    exists res'. split; [exact E | split; [exact L' |]]. intros k. rewrite N', N2, N1.
    replace (S jg + n)%nat with (jg + S n)%nat by lia. cbn [vsum]. unfold gg_d2f_ij.
    destruct (Nat.eqb_spec k ig) as [-> | K1].
    + destruct (Nat.eqb_spec ig jg); [lia |]. ring.
    + destruct (Nat.eqb_spec k jg) as [-> | K2].
      * destruct (Nat.leb_spec (S jg) jg); [lia |]. destruct (Nat.leb_spec jg jg); [| lia]. destruct (Nat.ltb_spec jg (jg + S n)); [| lia]. cbn [andb]. ring.
      * destruct (Nat.leb_spec (S jg) k), (Nat.leb_spec jg k), (Nat.ltb_spec k (jg + S n)); cbn [andb]; try lia; ring.
Qed.

Definition gg_row (p : gg_data) (weight : R) (e : gg_eval) (lin value : list R) (m k : nat) : R :=
  if Nat.ltb k m then nth k value 0 * weight + g_L p * gg_d2f_ii e (nth k lin 0) * nth k value 0
     + g_L p * 4 * nth k lin 0 * (vsum m (fun j => nth j lin 0 * nth j value 0) - nth k lin 0 * nth k value 0)
  else 0.
Lemma gg_outer_spec : forall p weight e lin value n ig res,
  (ig + n = length lin)%nat -> length value = length lin -> length res = length lin ->
  (forall k, nth k res 0 = gg_row p weight e lin value ig k) ->
  exists res', gg_outer p weight e lin value n ig res = Some res' /\ length res' = length lin
    /\ forall k, nth k res' 0 = gg_row p weight e lin value (length lin) k.
Proof.
  intros p weight e lin value. induction n as [| n IH]; intros ig res Hn Lv Lr Hr; cbn [gg_outer].
  - exists res. split; [reflexivity | split; [exact Lr |]]. replace (length lin) with ig by lia. exact Hr.
  - rewrite !vget_ok by lia. cbn [obind].
    destruct (vset_ok res ig (nth ig res 0 + (nth ig value 0 * weight + g_L p * gg_d2f_ii e (nth ig lin 0) * nth ig value 0))) as [r1 E1]; [lia |].
    rewrite E1. cbn [obind]. apply vset_nth0 in E1. destruct E1 as [L1 [_ N1]].
    destruct (gg_inner_spec p e lin value ig ig 0 r1) as [r2 [E2 [L2 N2]]]; [lia | lia | lia | lia |].
    rewrite E2. cbn [obind]. apply IH; [lia | lia | lia |].
    intros k. rewrite N2, N1, !Hr. cbn [Nat.add Nat.leb andb vsum]. unfold gg_row. cbn [vsum].
    destruct (Nat.eqb_spec k ig) as [-> | K].
    + destruct (Nat.ltb_spec ig ig); [lia |]. destruct (Nat.ltb_spec ig (S ig)); [| lia]. ring.
    + destruct (Nat.ltb_spec k ig), (Nat.ltb_spec k (S ig)); try lia; ring.
Qed.

Lemma dotp_vsum : forall a b, length b = length a -> vsum (length a) (fun j => nth j a 0 * nth j b 0) = dotp a b.
Proof.
  induction a as [| x a IH]; intros [| y b] H; cbn in H; try discriminate; [reflexivity |].
  cbn [length dotp]. rewrite vsum_first. cbn [nth]. rewrite IH by congruence. reflexivity.
Qed.

Lemma gg_vmult_point_spec : forall p lin value gs w ws, g_weights p = w :: ws -> length value = length lin -> length gs = length lin ->
  exists res, gg_vmult_point p lin value gs = Some (res, gg_grads p gs) /\ length res = length lin
    /\ forall k, (k < length lin)%nat -> nth k res 0 = nth k value 0 * w + g_L p * gg_d2f_ii (gg_of p lin) (nth k lin 0) * nth k value 0
         + g_L p * 4 * nth k lin 0 * (dotp lin value - nth k lin 0 * nth k value 0).
Proof.
  intros p lin value gs w ws Hw Lv Lg. unfold gg_vmult_point. rewrite Hw. cbn [vget nth_error obind]. rewrite Lv, gg_evaluate_spec. cbn [obind].
  destruct (gg_outer_spec p w (gg_of p lin) lin value (length lin) 0 (repeat 0 (length lin))) as [res [E [L N]]];
    [lia | exact Lv | apply repeat_length | |].
  { intros k. unfold gg_row. rewrite nth_repeat. reflexivity. }
  rewrite E. cbn [obind]. exists res. split; [reflexivity | split; [exact L |]].
  intros k Hk. rewrite N. unfold gg_row. destruct (Nat.ltb_spec k (length lin)); [| lia]. rewrite dotp_vsum by exact Lv. reflexivity.
Qed.

Lemma gg_df_deriv : forall p etas values eta v, length values = length etas ->
  derivable_pt_lim (fun t => gg_df (gg_of p (vline etas values t)) (eta + t * v)) 0
    (gg_d2f_ii (gg_of p etas) eta * v + 4 * eta * (dotp etas values - eta * v)).
Proof.
  intros p etas values eta v H. unfold gg_df, gg_d2f_ii, gg_of. cbn [y_A y_B y_s2].
  apply (quartic_deriv
    (- g_A p * eta + g_B p * eta ^ 3 + 2 * eta * (psum 2 etas - eta ^ 2))
    (- g_A p * v + g_B p * 3 * eta ^ 2 * v + 2 * v * (psum 2 etas - eta ^ 2) + 2 * eta * (2 * dotp etas values - 2 * eta * v))
    (g_B p * 3 * eta * v ^ 2 + 2 * v * (2 * dotp etas values - 2 * eta * v) + 2 * eta * (psum 2 values - v ^ 2))
    (g_B p * v ^ 3 + 2 * v * (psum 2 values - v ^ 2)) 0); [intros y; rewrite psum2_line by exact H |]; ring.
Qed.

(** ** the energy *)
Fixpoint dfsum (e : gg_eval) (etas values : list R) : R := match etas, values with eta :: etas, v :: values => gg_df e eta * v + dfsum e etas values | _, _ => 0 end.
Fixpoint dotp3 (etas values : list R) : R := match etas, values with e :: r, v :: s => e * e * e * v + dotp3 r s | _, _ => 0 end.
Lemma dfsum_eq : forall e etas values, length values = length etas ->
  dfsum e etas values = (2 * y_s2 e - y_A e) * dotp etas values + (y_B e - 2) * dotp3 etas values.
Proof.
  intros e. induction etas as [| a r IH]; intros [| v w] H; cbn in H; try discriminate; cbn [dfsum dotp dotp3]; [ring |].
  rewrite IH by congruence. unfold gg_df. ring.
Qed.
Lemma psum4_deriv : forall etas values, length values = length etas ->
  derivable_pt_lim (fun t => psum 4 (vline etas values t)) 0 (4 * dotp3 etas values).
Proof.
  induction etas as [| e r IH]; intros [| v w] H; cbn in H; try discriminate; cbn [vline psum dotp3].
  - eapply derivable_eq; [| apply derivable_const0]. ring.
  - eapply derivable_eq; [| apply derivable_plus; [| apply IH; congruence]].
    2:{ apply (quartic_deriv (e ^ 4) (4 * e ^ 3 * v) (6 * e ^ 2 * v ^ 2) (4 * e * v ^ 3) (v ^ 4) _ _ (4 * (e * e * e * v))); [intros y |]; ring. }
    ring.
Qed.
Lemma gg_energy_deriv : forall p etas values, length values = length etas ->
  derivable_pt_lim (fun t => gg_energy p (vline etas values t)) 0 (dfsum (gg_of p etas) etas values).
Proof.
  intros p etas values H.
  assert (D2 := psum2_deriv etas values H). assert (D4 := psum4_deriv etas values H).
  assert (Z2 : psum 2 (vline etas values 0) = psum 2 etas) by (rewrite psum2_line by exact H; ring).
  apply (derivable_ext (fun t => (psum 2 (vline etas values t) * (- g_A p / 2) + psum 4 (vline etas values t) * (g_B p / 4 - 1 / 2))
    + ((psum 2 (vline etas values t) * psum 2 (vline etas values t)) * (1 / 2) + 1 / 4))).
  { intros t. unfold gg_energy. assert (M := mix_spec (vline etas values t)). lra. }
  eapply derivable_eq; [| apply derivable_plus; [apply derivable_plus; apply derivable_scal; [exact D2 | exact D4] |
     apply derivable_plus; [apply derivable_scal; apply derivable_mult; exact D2 | apply derivable_const0]]].
  cbv beta. rewrite Z2, dfsum_eq by exact H. cbn [gg_of y_s2 y_A y_B]. field.
Qed.
