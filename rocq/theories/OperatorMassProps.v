(** Property C62: the solid volume (integral of the concentration) is conserved. *)
From Coq Require Import List QArith Reals Arith Lia Lra Qreals.
From Verif Require Import Util TimeSchemesModel TimeSchemesSpec WeightProofs FreeEnergyModel FreeEnergyProofs MobilityModel MobilityProofs OperatorModel OperatorProofs OperatorProps.
Import ListNotations.
Local Open Scope R_scope.

(** the shape functions at the point are a partition of unity *)
Definition partition (n : nat) (q : point) : Prop :=
  vsum n (q_N q) = 1 /\ forall d, vsum n (fun j => q_G q j d) = 0.

(** weighted sum *)
Fixpoint wsum (ws vs : list R) : R := match ws, vs with w :: ws, v :: vs => w * v + wsum ws vs | _, _ => 0 end.

Lemma dot_vsum : forall dim n (G : nat -> vec) (g : vec), vsum n (fun i => dot dim (G i) g) = dot dim (fun d => vsum n (fun i => G i d)) g.
Proof.
  induction dim as [| dim IH]; intros n G g; cbn [dot]; [apply vsum_zero |].
  rewrite vsum_plus, IH. f_equal.
  rewrite (vsum_ext n _ (fun i => g dim * G i dim)) by (intros; ring). rewrite vsum_scale. ring.
Qed.
Lemma dot_zero : forall dim (a g : vec), (forall d, a d = 0) -> dot dim a g = 0.
Proof. induction dim as [| dim IH]; intros a g H; cbn [dot]; [reflexivity |]. rewrite IH, H by exact H. ring. Qed.

Lemma scatter_other : forall dim q k i blocks vs gs, ~ In k blocks -> scatter dim q blocks vs gs k i = 0.
Proof.
  intros dim q k i. induction blocks as [| b blocks IH]; intros [| v vs] [| g gs] H; cbn [scatter]; try reflexivity.
  destruct (Nat.eqb_spec b k) as [-> | _]; [exfalso; apply H; left; reflexivity |].
  rewrite IH; [ring |]. intros C. apply H. right. exact C.
Qed.

(** what a point contributes to all rows of the concentration *)
Lemma scatter_sum : forall dim n q ops v vs g gs, q_blocks q = 0%nat :: ops -> ~ In 0%nat ops -> partition n q ->
  vsum n (fun i => scatter dim q (q_blocks q) (v :: vs) (g :: gs) 0%nat i) = q_w q * v.
Proof.
  intros dim n q ops v vs g gs Hb Ho [HN HG]. rewrite Hb. cbn [scatter Nat.eqb].
  rewrite (vsum_ext n _ (fun i => q_w q * v * q_N q i + q_w q * dot dim (q_G q i) g)).
  - rewrite vsum_lin, HN, dot_vsum, dot_zero by exact HG. ring.
  - intros i _. rewrite scatter_other by exact Ho. ring.
Qed.

Lemma residual_point_total : forall p wtd n q H u, cell_ok q ->
  exists vs g gs, residual_point p wtd (values n q H) (q_vel q) (values n q u) (grads n q u)
    = Some (time_part wtd (o_weight p) (value_at n q u 0%nat) (value_at n q H 0%nat) :: vs, g :: gs).
Proof.
  intros p wtd n q H u [ops [Hb [_ [_ Hv]]]]. unfold residual_point, values, grads. rewrite Hb. cbn [map].
  rewrite residual_quad_spec by (cbn [length]; rewrite ?map_length; reflexivity). cbn [obind].
  unfold add_advection. cbn [fst snd]. rewrite advect_spec.
  - cbn [obind fst snd nth]. do 3 eexists. reflexivity.
  - rewrite map_length. exact Hv.
  - unfold eta_grads. rewrite !map_length. reflexivity.
Qed.

Lemma solid_volume_cons : forall n q pts x, cell_ok q ->
  solid_volume n (q :: pts) x = match solid_volume n pts x with Some v => Some (value_at n q x 0%nat * q_w q + v) | None => None end.
Proof.
  intros n q pts x [ops [Hb _]]. unfold solid_volume. cbn [domain_quantity].
  assert (E : values n q x = value_at n q x 0%nat :: map (value_at n q x) (1%nat :: ops)) by (unfold values; rewrite Hb; reflexivity).
  rewrite E. cbn [vget nth_error obind].
  unfold obind. destruct (domain_quantity _ pts); reflexivity.
Qed.

Lemma solid_volume_total : forall n pts x, (forall q, In q pts -> cell_ok q) ->
  exists v, solid_volume n pts x = Some v.
Proof.
  intros n. induction pts as [| q pts IH]; intros x H; [exists 0; reflexivity |].
  destruct (IH x) as [v E]; [intros; apply H; right; assumption |].
  rewrite solid_volume_cons, E by (apply H; left; reflexivity). eexists. reflexivity.
Qed.

(** the sum of the rows of the concentration in terms of the weighted old solutions *)
Lemma balance_history : forall p n pts H u,
  (forall q, In q pts -> cell_ok q /\ partition n q) ->
  exists r vu vh, (forall i, residual p n pts 2 H u 0%nat i = Some (r i))
    /\ solid_volume n pts u = Some vu /\ solid_volume n pts H = Some vh
    /\ vsum n r = o_weight p * vu + vh.
Proof.
  intros p n. induction pts as [| q pts IH]; intros H u Hq.
  - exists (fun _ => 0), 0, 0. repeat split. rewrite vsum_zero. ring.
  - destruct (IH H u) as [r [vu [vh [E1 [E2 [E3 E4]]]]]]; [intros; apply Hq; right; assumption |].
    destruct (Hq q (or_introl eq_refl)) as [Ok Pa].
    destruct (residual_point_total p 2 n q H u Ok) as [vs [g [gs E]]].
    exists (fun i => scatter (o_dim p) q (q_blocks q) (time_part 2 (o_weight p) (value_at n q u 0%nat) (value_at n q H 0%nat) :: vs) (g :: gs) 0%nat i + r i).
    do 2 eexists. split; [| split; [rewrite solid_volume_cons, E2 by exact Ok; reflexivity | split; [rewrite solid_volume_cons, E3 by exact Ok; reflexivity |]]].
    + intros i. unfold residual in *. cbn [cell_loop]. rewrite E, E1. reflexivity.
    + rewrite vsum_plus, E4. destruct Ok as [ops [Hb [H0 [H1 _]]]].
      rewrite (scatter_sum (o_dim p) n q (1%nat :: ops)); [| exact Hb | | exact Pa].
      * unfold time_part. cbn [Nat.leb Nat.eqb]. ring.
      * intros [C | C]; [discriminate | contradiction].
Qed.

Lemma solid_volume_lin : forall n pts a b w va vb, (forall q, In q pts -> cell_ok q) ->
  solid_volume n pts a = Some va -> solid_volume n pts b = Some vb ->
  solid_volume n pts (fun k j => a k j + b k j * w) = Some (va + vb * w).
Proof.
  intros n. induction pts as [| q pts IH]; intros a b w va vb H Ha Hb.
  - cbn in *. injection Ha as <-. injection Hb as <-. f_equal. ring.
  - rewrite solid_volume_cons in * by (apply H; left; reflexivity).
    destruct (solid_volume n pts a) as [sa |] eqn:Ea; [| discriminate]. destruct (solid_volume n pts b) as [sb |] eqn:Eb; [| discriminate].
    rewrite (IH a b w sa sb) by (auto; intros; apply H; right; assumption).
    injection Ha as <-. injection Hb as <-. f_equal.
    assert (V : value_at n q (fun k j => a k j + b k j * w) 0%nat = value_at n q a 0%nat + value_at n q b 0%nat * w).
    { unfold value_at. rewrite (vsum_ext n _ (fun j => 1 * (q_N q j * a 0%nat j) + w * (q_N q j * b 0%nat j))) by (intros; ring). rewrite vsum_lin. ring. }
    rewrite V. ring.
Qed.

Lemma history_volume : forall n pts V, (forall q, In q pts -> cell_ok q) -> (forall x, solid_volume n pts x = Some (V x)) ->
  forall ws olds H, history_state ws olds = Some H -> V H = wsum ws (map V olds).
Proof.
  intros n pts V Hq HV.
  assert (Z : V (fun _ _ => 0) = 0).
  { assert (L := solid_volume_lin n pts (fun _ _ => 0) (fun _ _ => 0) 1 _ _ Hq (HV _) (HV _)). rewrite HV in L. injection L as L.
    replace (V (fun _ _ => 0 + 0 * 1)) with (V (fun _ _ => 0)) in L; [lra |].
    assert (X : Some (V (fun _ _ => 0)) = Some (V (fun _ _ => 0 + 0 * 1))).
    { rewrite <- !HV. unfold solid_volume. clear. induction pts as [| q pts IH]; [reflexivity |]. cbn [domain_quantity].
      rewrite IH. unfold obind, values. destruct (q_blocks q) as [| b l]; [reflexivity |]. cbn [map vget nth_error].
      assert (E : value_at n q (fun _ _ => 0) b = value_at n q (fun _ _ => 0 + 0 * 1) b) by (unfold value_at; apply vsum_ext; intros; ring).
      rewrite E. reflexivity. }
    injection X as X. exact X. }
  assert (Lp : forall ws olds acc H, history_loop ws olds acc = Some H -> V H = V acc + wsum ws (map V olds)).
  { induction ws as [| w ws IH]; intros [| o olds] acc H E; cbn [history_loop] in E; try discriminate; cbn [map wsum].
    - injection E as <-. ring.
    - injection E as <-. ring.
    - rewrite (IH _ _ _ E). assert (S1 := solid_volume_lin n pts acc o w _ _ Hq (HV _) (HV _)). rewrite HV in S1. injection S1 as ->. ring. }
  intros [| w ws] [| o olds] H E; cbn [history_state] in E; try discriminate. rewrite (Lp _ _ _ _ E). cbn [map wsum].
  assert (S1 := solid_volume_lin n pts (fun _ _ => 0) o w _ _ Hq (HV _) (HV _)). rewrite HV, Z in S1. injection S1 as S1.
  assert (X : Some (V (fun b j => o b j * w)) = Some (V (fun k j => 0 + o k j * w))).
  { rewrite <- !HV. unfold solid_volume. clear. induction pts as [| q pts IH]; [reflexivity |]. cbn [domain_quantity].
    rewrite IH. unfold obind, values. destruct (q_blocks q) as [| b l]; [reflexivity |]. cbn [map vget nth_error].
    assert (E : value_at n q (fun b j => o b j * w) b = value_at n q (fun k j => 0 + o k j * w) b) by (unfold value_at; apply vsum_ext; intros; ring).
    rewrite E. reflexivity. }
  injection X as ->. rewrite S1. ring.
Qed.

(** For all meshes, mobilities (scalar and tensorial), velocities, weights and states: the
    residual is defined, and the sum of its rows of the concentration is the weighted sum
    of the solid volumes of the new and the old solutions. *)
Theorem C62_balance : forall p n pts ws olds history u V,
  (forall q, In q pts -> cell_ok q /\ partition n q) ->
  (forall x, solid_volume n pts x = Some (V x)) ->
  history_state ws olds = Some history ->
  exists r, (forall i, residual p n pts 2 history u 0%nat i = Some (r i))
    /\ vsum n r = o_weight p * V u + wsum ws (map V olds).
Proof.
  intros p n pts ws olds history u V Hq HV HH.
  destruct (balance_history p n pts history u Hq) as [r [vu [vh [E1 [E2 [E3 E4]]]]]].
  exists r. split; [exact E1 |]. rewrite HV in E2, E3. injection E2 as <-. injection E3 as <-.
  rewrite E4, (history_volume n pts V (fun q I => proj1 (Hq q I)) HV ws olds history HH). reflexivity.
Qed.
Print Assumptions C62_balance.

Lemma wsum_const : forall ws vs k m, (length ws <= length vs)%nat -> 
  (forall i, (i < k)%nat -> (i < length vs)%nat -> nth_error vs i = Some m) ->
  (forall i, (k <= i < length ws)%nat -> nth_error ws i = Some 0) -> wsum ws vs = fold_right Rplus 0 ws * m.
Proof.
  induction ws as [| w ws IH]; intros [| v vs] k m L Hv Hw; cbn [length] in L; try lia; cbn [wsum fold_right]; try ring.
  destruct k as [| k].
  - rewrite (IH vs 0%nat m); [| lia | intros; lia |].
    + specialize (Hw 0%nat ltac:(cbn [length]; lia)). cbn in Hw. injection Hw as ->. ring.
    + intros i Hi. apply (Hw (S i)). cbn [length]. lia.
  - rewrite (IH vs k m); [| lia | |].
    + specialize (Hv 0%nat ltac:(lia) ltac:(cbn [length]; lia)). cbn in Hv. injection Hv as ->. ring.
    + intros i Hi Hi'. apply (Hv (S i)); cbn [length]; lia.
    + intros i Hi. apply (Hw (S i)). cbn [length]. lia.
Qed.

Lemma q2r_sum : forall ws, fold_right Rplus 0 (map Q2R ws) = Q2R (qsum ws).
Proof.
  induction ws as [| w ws IH]; cbn [map fold_right qsum]; [symmetry; apply RMicromega.Q2R_0 |].
  rewrite Q2R_plus. f_equal. exact IH.
Qed.

(** Every run with an implicit scheme, any step sizes (including the start-up phase, in
    which the missing old solutions are arbitrary) whose rows of the concentration vanish
    conserves the solid volume.  The mesh may not change, velocities and all other data
    may. *)
Theorem C62_conservation : forall s n (p : nat -> op_data) (pts : nat -> list point) (u : nat -> state)
    (dts : nat -> list Q) (olds : nat -> list state) V,
  (forall k q, In q (pts k) -> cell_ok q /\ partition n q) ->
  (forall k x, solid_volume n (pts k) x = Some (V x)) ->
  (forall k, positive (dts k) /\ (1 <= length (dts k) <= get_order s)%nat /\ (length (dts k) <= S k)%nat) ->
  (forall k, length (olds k) = get_order s) ->
  (forall k i, (i < length (dts k))%nat -> nth_error (olds k) i = Some (u (k - i)%nat)) ->
  (forall k w ws, compute_weights s (dts k ++ repeat 0%Q (get_order s - length (dts k))) = Some (w :: ws) ->
     o_weight (p k) = Q2R w
     /\ exists history, history_state (map Q2R ws) (olds k) = Some history
        /\ forall i, (i < n)%nat -> residual (p k) n (pts k) 2 history (u (S k)) 0%nat i = Some 0) ->
  forall k, V (u k) = V (u 0%nat).
Proof.
  intros s n p pts u dts olds V Hq HV Hdt Lo Ho Hr k.
  induction k as [k IH] using lt_wf_ind. destruct k as [| k]; [reflexivity |].
  destruct (Hdt k) as [Pd [Ld Lk]].
  destruct (weights_split s (dts k) Pd Ld) as [w [ws [Ew [Pw [Lw [Sw Zw]]]]]].
  destruct (Hr k w ws Ew) as [Wt [hist [Hh Rz]]].
  destruct (C62_balance (p k) n (pts k) (map Q2R ws) (olds k) hist (u (S k)) V (Hq k) (HV k) Hh) as [r [E1 E2]].
  assert (Z : vsum n r = 0).
  { rewrite <- (vsum_zero n). apply vsum_ext. intros j Hj. assert (A := E1 j). rewrite (Rz j Hj) in A. injection A as A. symmetry. exact A. }
  rewrite (wsum_const (map Q2R ws) (map V (olds k)) (length (dts k)) (V (u 0%nat))) in E2.
  - rewrite q2r_sum, Wt, Z in E2.
    assert (Sr : Q2R w + Q2R (qsum ws) = 0) by (rewrite <- Q2R_plus, <- RMicromega.Q2R_0; apply Qeq_eqR; exact Sw).
    assert (Pr : 0 < Q2R w) by (rewrite <- RMicromega.Q2R_0; apply Qlt_Rlt; exact Pw).
    assert (E : Q2R w * (V (u (S k)) - V (u 0%nat)) = 0).
    { replace (Q2R (qsum ws)) with (- Q2R w) in E2 by lra. lra. }
    apply Rmult_integral in E. destruct E; lra.
  - rewrite !map_length, Lw, Lo. lia.
  - intros i Hi _. rewrite nth_error_map, (Ho k i Hi). cbn. f_equal. apply IH. lia.
  - intros i Hi. rewrite map_length, Lw in Hi. rewrite nth_error_map, (Zw i) by lia. cbn. f_equal. apply RMicromega.Q2R_0.
Qed.
Print Assumptions C62_conservation.

(** ** A run: one linear element with the quadrature points at its ends, constant mobility
    one, gradient of the chemical potential [1]; in every step of length one a volume of
    one moves from the right to the left node. *)
Definition lobatto : list point :=
  [mkPoint (1 / 2) (fun j => if Nat.eqb j 0 then 1 else 0) (fun j _ => if Nat.eqb j 0 then -1 else 1) [0; 1]%nat [];
   mkPoint (1 / 2) (fun j => if Nat.eqb j 0 then 0 else 1) (fun j _ => if Nat.eqb j 0 then -1 else 1) [0; 1]%nat []].
Definition moving (k : nat) : state := fun b j =>
  match b with 0%nat => if Nat.eqb j 0 then 2 * INR k else 10 - 2 * INR k | _ => if Nat.eqb j 0 then 0 else 1 end.

Example C62_applies :
  let p := mkOp 1 1 1 1 1 1 1 (mkCoefficients 1 1 0 0 1) false in
  let volume x := 1 / 2 * x 0%nat 0%nat + 1 / 2 * x 0%nat 1%nat in
  (forall q, In q lobatto -> cell_ok q /\ partition 2 q)
  /\ (forall x, solid_volume 2 lobatto x = Some (volume x))
  /\ (forall k w ws, compute_weights BDF1 ([1%Q] ++ repeat 0%Q (get_order BDF1 - length [1%Q])) = Some (w :: ws) ->
     o_weight p = Q2R w
     /\ exists history, history_state (map Q2R ws) [moving k] = Some history
        /\ forall i, (i < 2)%nat -> residual p 2 lobatto 2 history (moving (S k)) 0%nat i = Some 0)
  /\ moving 0 0%nat 0%nat <> moving 1 0%nat 0%nat
  /\ volume (moving 0) = 5.
Proof.
  cbv zeta. split; [| split; [| split; [| split]]].
  - intros q [<- | [<- | []]]; (split; [exists []; cbn; repeat split; auto | split; [cbn; lra | intros d; cbn; lra]]).
  - intros x. unfold solid_volume, lobatto. cbn [domain_quantity values q_blocks map vget nth_error obind value_at vsum q_N q_w Nat.eqb]. f_equal. lra.
  - intros k w ws E.
    assert (E' : Some [1 / 1; - (1) / 1]%Q = Some (w :: ws)) by exact E. injection E' as <- <-.
    assert (Q1 : Q2R (1 / 1) = 1) by (rewrite <- RMicromega.Q2R_1; apply Qeq_eqR; reflexivity).
    assert (Q2 : Q2R (- (1) / 1) = -1).
    { replace (-1) with (- Q2R 1) by (rewrite RMicromega.Q2R_1; reflexivity). rewrite <- Q2R_opp. apply Qeq_eqR. reflexivity. }
    split; [cbn [o_weight]; symmetry; exact Q1 |].
    cbn [map]. rewrite Q2. cbn [history_state history_loop]. eexists. split; [reflexivity |].
    intros i Hi. unfold residual, lobatto. cbn [cell_loop]. unfold values, grads. cbn [q_blocks map].
    unfold residual_point. rewrite !residual_quad_spec by reflexivity. cbn [obind]. unfold add_advection. cbn [fst snd eta_grads map q_vel].
    rewrite !advect_spec by reflexivity. cbn [obind fst snd advect_c scatter Nat.eqb o_dim dot q_w q_N q_G q_blocks].
    unfold apply_M. cbn [o_tensorial o_mobility]. unfold apply_M_scalar, M_scalar, grad_at, value_at, time_part. cbn [vsum q_G q_N Nat.eqb Nat.leb o_weight m_vol m_vap m_surf m_gb nth moving].
    rewrite S_INR. f_equal.
    destruct i as [| [| i]]; [| | lia]; cbn [Nat.eqb]; ring_simplify; lra.
  - cbn. lra.
  - cbn. lra.
Qed.
