(** Lemmas about the model of finite difference products. *)
From Coq Require Import String List Reals Arith Bool Permutation Lia Lra.
From Verif Require Import Util OperatorModel OperatorProps JfreeModel.
Import ListNotations.
Local Open Scope list_scope.
Local Open Scope R_scope.

(** cells read and write only their own entries *)
Definition cell_wf (nb n : nat) (c : jcell) : Prop :=
  (forall i, In i (jc_dofs c) -> (i < n)%nat)
  /\ (forall acc u u', (forall b i, (b < nb)%nat -> In i (jc_dofs c) -> u b i = u' b i) ->
        (forall b i, jc_f c acc u b i = jc_f c acc u' b i) /\ (forall s, jc_g c u s = jc_g c u' s))
  /\ (forall acc u b i, ~ In i (jc_dofs c) -> jc_f c acc u b i = 0).

Lemma within_spec : forall lo hi i, reflect (lo <= i < hi)%nat (within lo hi i).
Proof.
  intros lo hi i. unfold within. destruct (Nat.leb_spec0 lo i), (Nat.ltb_spec0 i hi); cbn [andb]; constructor; lia.
Qed.
Lemma csum_perm : forall f a b, Permutation a b -> csum f a = csum f b.
Proof. intros f a b P. unfold csum. induction P as [| x l l' P IH | x y l | l l' l'' P1 IH1 P2 IH2]; cbn [fold_right]; [reflexivity | rewrite IH; reflexivity | ring | congruence]. Qed.
Lemma csum_app : forall f a b, csum f (a ++ b) = csum f a + csum f b.
Proof. intros f a b. unfold csum. induction a as [| x a IH]; cbn [app fold_right]; [ring |]. rewrite IH. ring. Qed.
Lemma csum_ext : forall f g l, (forall c, In c l -> f c = g c) -> csum f l = csum g l.
Proof. intros f g l H. unfold csum. induction l as [| c l IH]; cbn [fold_right]; [reflexivity |]. rewrite IH, H by (try (left; reflexivity); intros; apply H; right; assumption). reflexivity. Qed.

Section Loop.
Variables (nb n : nat) (delta : R) (src res u0 : bvec) (acc : nat -> R).
Hypothesis Hd : delta <> 0.
Let us : bvec := fun b i => u0 b i + delta * src b i.

Definition inv_u (st : nat -> phase) (u : bvec) : Prop :=
  (forall i, st i <> Fresh -> (i < n)%nat)
  /\ (forall b i, u b i = if Nat.ltb b nb then match st i with Ready => us b i | _ => u0 b i end else u0 b i).
Definition inv_dst (st : nat -> phase) (done : list jcell) (dst : bvec) : Prop :=
  forall b i, (b < nb)%nat ->
    match st i with
    | Fresh => csum (fun c => jc_f c acc us b i) done = 0
    | Ready => dst b i = csum (fun c => jc_f c acc us b i) done
    | Finished => dst b i = (csum (fun c => jc_f c acc us b i) done - res b i) / delta
    end.

Lemma pre_inv_u : forall st lo hi u, (hi <= n)%nat -> (forall i, (lo <= i < hi)%nat -> st i = Fresh) -> inv_u st u ->
  inv_u (set_phase lo hi Ready st) (update_range nb lo hi (fun b i x => x + delta * src b i) u).
Proof.
  intros st lo hi u Hh Hf [I1 I2]. split.
  - intros i. unfold set_phase. destruct (within_spec lo hi i); [lia | apply I1].
  - intros b i. unfold update_range, set_phase. rewrite I2. destruct (Nat.ltb b nb); cbn [andb]; [| reflexivity].
    destruct (within_spec lo hi i) as [W | W]; [| reflexivity]. rewrite Hf by exact W. reflexivity.
Qed.
Lemma post_inv_u : forall st lo hi u, (forall i, (lo <= i < hi)%nat -> st i = Ready) -> inv_u st u ->
  inv_u (set_phase lo hi Finished st) (update_range nb lo hi (fun b i x => x - delta * src b i) u).
Proof.
  intros st lo hi u Hf [I1 I2]. split.
  - intros i. unfold set_phase. destruct (within_spec lo hi i) as [W | W]; [intros _; apply I1; rewrite Hf by exact W; discriminate | apply I1].
  - intros b i. unfold update_range, set_phase. rewrite I2. destruct (Nat.ltb b nb); cbn [andb]; [| reflexivity].
    destruct (within_spec lo hi i) as [W | W]; [| reflexivity]. rewrite Hf by exact W. unfold us. ring.
Qed.
Lemma agree : forall st u c, inv_u st u -> (forall i, In i (jc_dofs c) -> st i = Ready) -> forall b i, (b < nb)%nat -> In i (jc_dofs c) -> u b i = us b i.
Proof. intros st u c [_ I2] H b i Hb Hi. rewrite I2, (H i Hi). destruct (Nat.ltb_spec b nb); [reflexivity | lia]. Qed.

Lemma run_residual : forall evs st done m, (forall c, In c (works evs) -> cell_wf nb n c) -> legal n st evs ->
  inv_u st (x_u m) -> inv_dst st done (x_dst m) -> x_acc m = acc ->
  (forall b i, x_u (run nb delta src res false evs m) b i = u0 b i)
  /\ (forall b i, (b < nb)%nat -> (i < n)%nat ->
        x_dst (run nb delta src res false evs m) b i = (csum (fun c => jc_f c acc us b i) (done ++ works evs) - res b i) / delta).
Proof.
  induction evs as [| ev evs IH]; intros st done m Hw L IU ID HA.
  - cbn [legal run works] in *. rewrite app_nil_r. split.
    + intros b i. destruct IU as [I1 I2]. rewrite I2. destruct (Nat.ltb b nb); [| reflexivity]. destruct (st i) eqn:E; try reflexivity.
      assert (st i = Finished) by (apply L, I1; rewrite E; discriminate). congruence.
    + intros b i Hb Hi. specialize (ID b i Hb). rewrite (L i Hi) in ID. exact ID.
  - destruct ev as [lo hi | c | lo hi]; cbn [legal run step_event works] in *.
    + destruct L as [Lh [Lf L]]. apply (IH (set_phase lo hi Ready st)); try assumption; cbn [pre_op x_u x_dst x_acc]; [apply pre_inv_u; assumption |].
      intros b i Hb. specialize (ID b i Hb). unfold set_phase, update_range. destruct (Nat.ltb_spec b nb); [| lia]. cbn [andb].
      destruct (within_spec lo hi i) as [W | W]; [| exact ID]. rewrite (Lf i W) in ID. symmetry. exact ID.
    + destruct L as [Lr L]. replace (done ++ c :: works evs) with ((done ++ [c]) ++ works evs) by (rewrite <- app_assoc; reflexivity).
      assert (Hc : cell_wf nb n c) by (apply Hw; left; reflexivity). destruct Hc as [C1 [C2 C3]].
      apply (IH st); try assumption; cbn [x_u x_dst x_acc]; [intros d I; apply Hw; right; exact I |].
      intros b i Hb. specialize (ID b i Hb). rewrite csum_app. unfold csum at 2 4 6. cbn [fold_right].
      destruct (in_dec Nat.eq_dec i (jc_dofs c)) as [I | I].
      * rewrite (Lr i I) in ID |- *. rewrite ID, HA. destruct (C2 acc (x_u m) us) as [E _]; [apply (agree st); assumption |]. rewrite E. ring.
      * rewrite !C3 by exact I. rewrite !Rplus_0_r. exact ID.
    + destruct L as [Lr L]. apply (IH (set_phase lo hi Finished st)); try assumption; cbn [post_op x_u x_dst x_acc]; [apply post_inv_u; assumption |].
      intros b i Hb. specialize (ID b i Hb). unfold set_phase, update_range. destruct (Nat.ltb_spec b nb); [| lia]. cbn [andb].
      destruct (within_spec lo hi i) as [W | W]; [| exact ID]. rewrite (Lr i W) in ID. rewrite ID. field. exact Hd.
Qed.

Lemma run_forces : forall evs st m, (forall c, In c (works evs) -> cell_wf nb n c) -> legal n st evs -> inv_u st (x_u m) ->
  (forall b i, x_u (run nb delta src res true evs m) b i = u0 b i)
  /\ (forall s, x_acc (run nb delta src res true evs m) s = x_acc m s + csum (fun c => jc_g c us s) (works evs)).
Proof.
  induction evs as [| ev evs IH]; intros st m Hw L IU.
  - cbn [legal run works] in *. split; [| intros s; unfold csum; cbn [fold_right]; ring].
    intros b i. destruct IU as [I1 I2]. rewrite I2. destruct (Nat.ltb b nb); [| reflexivity]. destruct (st i) eqn:E; try reflexivity.
    assert (st i = Finished) by (apply L, I1; rewrite E; discriminate). congruence.
  - destruct ev as [lo hi | c | lo hi]; cbn [legal run step_event works] in *.
    + destruct L as [Lh [Lf L]]. destruct (IH (set_phase lo hi Ready st) (pre_op nb delta src lo hi m)) as [A B]; try assumption; [apply pre_inv_u; assumption |]. split; [exact A | exact B].
    + destruct L as [Lr L]. assert (Hc : cell_wf nb n c) by (apply Hw; left; reflexivity). destruct Hc as [C1 [C2 C3]].
      destruct (IH st (mkMachine (x_dst m) (x_u m) (fun s => x_acc m s + jc_g c (x_u m) s))) as [A B]; try assumption; [intros d I; apply Hw; right; exact I |].
      split; [exact A |]. intros s. rewrite B. cbn [x_acc]. destruct (C2 acc (x_u m) us) as [_ E]; [apply (agree st); assumption |]. rewrite E. unfold csum. cbn [fold_right]. ring.
    + destruct L as [Lr L]. destruct (IH (set_phase lo hi Finished st) (post_op nb delta src res lo hi m)) as [A B]; try assumption; [apply post_inv_u; assumption |]. split; [exact A | exact B].
Qed.
Lemma start_u : forall u, (forall b i, u b i = u0 b i) -> inv_u (fun _ => Fresh) u.
Proof. intros u H. split; [intros i X; contradiction |]. intros b i. rewrite H. destruct (Nat.ltb b nb); reflexivity. Qed.
Lemma start_dst : forall d, inv_dst (fun _ => Fresh) [] d.
Proof. intros d b i _. reflexivity. Qed.
End Loop.

(** ** norms and steps *)
Lemma vsum_nonneg : forall n f, (forall i, (i < n)%nat -> 0 <= f i) -> 0 <= vsum n f.
Proof. induction n as [| n IH]; intros f H; cbn [vsum]; [lra |]. specialize (IH f (fun i Hi => H i (Nat.lt_lt_succ_r _ _ Hi))). specialize (H n (Nat.lt_succ_diag_r n)). lra. Qed.
Lemma vsum_nonneg_zero : forall n f, (forall i, (i < n)%nat -> 0 <= f i) -> vsum n f = 0 -> forall i, (i < n)%nat -> f i = 0.
Proof.
  induction n as [| n IH]; intros f H E i Hi; [lia |]. cbn [vsum] in E.
  assert (A : 0 <= vsum n f) by (apply vsum_nonneg; intros; apply H; lia). assert (B : 0 <= f n) by (apply H; lia).
  destruct (Nat.eq_dec i n) as [-> | D]; [lra |]. apply IH; [intros; apply H; lia | lra | lia].
Qed.
Lemma bsum_nonneg : forall nb n f, (forall b i, 0 <= f b i) -> 0 <= bsum nb n f.
Proof. intros. unfold bsum. apply vsum_nonneg. intros. apply vsum_nonneg. intros. auto. Qed.
Lemma bsum_nonneg_zero : forall nb n f, (forall b i, 0 <= f b i) -> bsum nb n f = 0 -> forall b i, (b < nb)%nat -> (i < n)%nat -> f b i = 0.
Proof.
  intros nb n f H E b i Hb Hi. unfold bsum in E.
  apply (vsum_nonneg_zero n (fun i => f b i)); [intros; apply H | | exact Hi].
  apply (vsum_nonneg_zero nb (fun b => vsum n (fun i => f b i))); [intros; apply vsum_nonneg; intros; apply H | exact E | exact Hb].
Qed.
Lemma bsum_ext : forall nb n f g, (forall b i, (b < nb)%nat -> (i < n)%nat -> f b i = g b i) -> bsum nb n f = bsum nb n g.
Proof. intros. unfold bsum. apply vsum_ext. intros. apply vsum_ext. intros. auto. Qed.
Lemma bsum_scale : forall nb n f a, bsum nb n (fun b i => a * f b i) = a * bsum nb n f.
Proof. intros. unfold bsum. rewrite <- vsum_scale. apply vsum_ext. intros. apply vsum_scale. Qed.
Lemma bsum_zero : forall nb n, bsum nb n (fun _ _ => 0) = 0.
Proof. intros. unfold bsum. rewrite (vsum_ext _ _ (fun _ => 0)) by (intros; apply vsum_zero). apply vsum_zero. Qed.
Lemma inner_nonneg : forall nb n x, 0 <= inner nb n x x.
Proof. intros. unfold inner. apply bsum_nonneg. intros. nra. Qed.

Definition vanishes (nb n : nat) (x : bvec) : Prop := forall b i, (b < nb)%nat -> (i < n)%nat -> x b i = 0.
Lemma l2_zero : forall nb n x, l2_norm nb n x = 0 <-> vanishes nb n x.
Proof.
  intros nb n x. unfold l2_norm. split.
  - intros E b i Hb Hi. apply sqrt_eq_0 in E; [| apply inner_nonneg]. unfold inner in E.
    assert (X : x b i * x b i = 0) by (apply (bsum_nonneg_zero nb n (fun b i => x b i * x b i)); [intros; nra | exact E | exact Hb | exact Hi]). nra.
  - intros H. unfold inner. rewrite (bsum_ext nb n _ (fun _ _ => 0)) by (intros; rewrite H by assumption; ring). rewrite bsum_zero. apply sqrt_0.
Qed.
Lemma l1_zero : forall nb n x, l1_norm nb n x = 0 -> vanishes nb n x.
Proof.
  intros nb n x E b i Hb Hi. unfold l1_norm in E.
  assert (X : Rabs (x b i) = 0) by (apply (bsum_nonneg_zero nb n (fun b i => Rabs (x b i))); [intros; apply Rabs_pos | exact E | exact Hb | exact Hi]).
  destruct (Req_dec (x b i) 0) as [Z | Z]; [exact Z | apply Rabs_no_R0 in Z; contradiction].
Qed.
Lemma l2_pos : forall nb n x, ~ vanishes nb n x -> 0 < l2_norm nb n x.
Proof. intros nb n x H. assert (0 <= l2_norm nb n x) by apply sqrt_pos. assert (l2_norm nb n x <> 0) by (intros E; apply H, l2_zero, E). lra. Qed.
Lemma l1_pos : forall nb n x, ~ vanishes nb n x -> 0 < l1_norm nb n x.
Proof.
  intros nb n x H. assert (0 <= l1_norm nb n x) by (apply bsum_nonneg; intros; apply Rabs_pos).
  assert (l1_norm nb n x <> 0) by (intros E; apply H, l1_zero, E). lra.
Qed.
Lemma vanishes_dec : forall nb n x, vanishes nb n x \/ ~ vanishes nb n x.
Proof. intros nb n x. destruct (Req_dec (l2_norm nb n x) 0) as [E | E]; [left; apply l2_zero; exact E | right; intros H; apply E, l2_zero, H]. Qed.
