(** Property C68: the product with the linearised grand potential operator (Greenquist) and
    the derivative of its residual. *)
From Coq Require Import Bool List Reals Arith Lia Lra.
From Verif Require Import Util FreeEnergyModel FreeEnergyProofs MobilityModel MobilityProofs MobilityProps OperatorModel OperatorProofs OperatorProps OperatorMassProps OperatorEnergyProps GrainGrowthModel GrainGrowthProofs GrainGrowthProps GreenquistModel GreenquistProofs.
Import ListNotations.
Local Open Scope R_scope.

(** what the product has in excess of the derivative at a point *)
Definition gq_defect_point (p : gq_data) (olds : list (list R)) (lin : list R) (lin_gradient : list vec) (value : list R) : list R * list vec :=
  match lin, lin_gradient, value with
  | phi :: mu :: etas, _ :: _ :: getas, v0 :: v1 :: vs =>
      let e := gq_of phi mu etas in
      (phi_defect p e phi etas v0 vs :: mu_defect p e (gq_time p olds 0 phi) v1 :: map (fun _ => 0) etas,
       vzero :: vzero :: map (fun (g : vec) d => - (c_L p * dkappa p e * g d * v0)) getas)
  | _, _, _ => ([], [])
  end.

Lemma scatter_minus : forall dim q k i blocks (a b c : list R) (ga gb gc : list vec),
  length a = length blocks -> length b = length blocks -> length c = length blocks -> length ga = length blocks -> length gb = length blocks -> length gc = length blocks ->
  (forall x, nth x a 0 = nth x b 0 - nth x c 0) -> (forall x d, nth x ga vzero d = nth x gb vzero d - nth x gc vzero d) ->
  scatter dim q blocks a ga k i = scatter dim q blocks b gb k i - scatter dim q blocks c gc k i.
Proof.
  intros dim q k i. induction blocks as [| x blocks IH]; intros [| a0 a] [| b0 b] [| c0 c] [| ga0 ga] [| gb0 gb] [| gc0 gc] L1 L2 L3 L4 L5 L6 H1 H2; cbn in L1, L2, L3, L4, L5, L6; try discriminate; cbn [scatter]; [ring |].
  rewrite (IH a b c ga gb gc) by first [congruence | intros y; exact (H1 (S y)) | intros y d; exact (H2 (S y) d)].
  assert (A : a0 = b0 - c0) by exact (H1 0%nat).
  assert (B : dot dim (q_G q i) ga0 = dot dim (q_G q i) gb0 - dot dim (q_G q i) gc0).
  { assert (B : forall d, ga0 d = gb0 d - gc0 d) by exact (H2 0%nat). clear - B. induction dim as [| dim IH]; cbn [dot]; [ring |]. rewrite IH, B. ring. }
  destruct (Nat.eqb x k); [rewrite A, B; ring | ring].
Qed.

(** at a point *)
Lemma gq_etas_line : forall p olds phi mu v0 v1 etas vs, c_Va p <> 0 -> c_kb p <> 0 -> c_km p <> 0 -> length vs = length etas ->
  forall ls ws ic, length ws = length ls ->
  dlist (fun t => gq_etas p (gq_of (phi + t * v0) (mu + t * v1) (vline etas vs t)) olds ic (vline ls ws t))
        (eta_lins p (gq_of phi mu etas) (hd 0 (c_weights p)) phi etas vs v0 v1 ls ws).
Proof.
  intros p olds phi mu v0 v1 etas vs H1 H2 H3 L. induction ls as [| l ls IH]; intros [| w ws] ic H; cbn in H; try discriminate; cbn [vline gq_etas eta_lins]; [apply dlist_nil |].
  apply (dlist_cons (fun t => gq_time p olds ic (l + t * w) + eta_res p (gq_of (phi + t * v0) (mu + t * v1) (vline etas vs t)) (l + t * w))); [| apply IH; congruence].
  apply eta_row_deriv; assumption.
Qed.
Definition eta_flux (p : gq_data) (e : gq_eval) (v0 : R) (g h : vec) : vec := fun d => c_L p * kappa p e * h d - - (c_L p * dkappa p e * g d * v0).
Fixpoint eta_fluxes (p : gq_data) (e : gq_eval) (v0 : R) (gs hs : list vec) : list vec :=
  match gs, hs with g :: gs, h :: hs => eta_flux p e v0 g h :: eta_fluxes p e v0 gs hs | _, _ => [] end.
Lemma gq_egrads_line : forall p phi mu v0 v1 etas vs, length vs = length etas ->
  forall gs hs, length hs = length gs ->
  dvlist (fun t => gq_egrads (c_L p * kappa p (gq_of (phi + t * v0) (mu + t * v1) (vline etas vs t))) (gvline gs hs t)) (eta_fluxes p (gq_of phi mu etas) v0 gs hs).
Proof.
  intros p phi mu v0 v1 etas vs L. induction gs as [| g gs IH]; intros [| h hs] H; cbn in H; try discriminate; cbn [gvline gq_egrads map eta_fluxes]; [apply dvlist_nil |].
  apply (dvlist_cons (fun t d => c_L p * kappa p (gq_of (phi + t * v0) (mu + t * v1) (vline etas vs t)) * (g d + t * h d))); [| apply IH; congruence].
  intros d. unfold eta_flux. apply eta_flux_deriv; assumption.
Qed.
Lemma eta_fluxes_nth : forall p e v0 gs hs k d, length hs = length gs ->
  nth k (eta_fluxes p e v0 gs hs) vzero d = nth k (gq_egrads (c_L p * kappa p e) hs) vzero d - nth k (map (fun (g : vec) d => - (c_L p * dkappa p e * g d * v0)) gs) vzero d.
Proof.
  intros p e v0. induction gs as [| g gs IH]; intros [| h hs] k d H; cbn in H; try discriminate.
  - destruct k; cbn; unfold vzero; ring.
  - destruct k; [reflexivity |]. cbn [eta_fluxes gq_egrads map nth]. apply IH. congruence.
Qed.
Lemma eta_fluxes_length : forall p e v0 gs hs, length hs = length gs -> length (eta_fluxes p e v0 gs hs) = length gs.
Proof. intros p e v0. induction gs as [| g gs IH]; intros [| h hs] H; cbn in *; try discriminate; [reflexivity |]. rewrite IH; congruence. Qed.
Lemma eta_lins_length : forall p e w phi etas vs v0 v1 ls ws, length ws = length ls -> length (eta_lins p e w phi etas vs v0 v1 ls ws) = length ls.
Proof. intros p e w phi etas vs v0 v1. induction ls as [| g gs IH]; intros [| h hs] H; cbn in *; try discriminate; [reflexivity |]. rewrite IH; congruence. Qed.
Lemma nth_zeros : forall (A : Type) (l : list A) k, nth k (map (fun _ => 0) l) 0 = 0.
Proof. induction l as [| a l IH]; intros [| k]; cbn [map nth]; try reflexivity. apply IH. Qed.

Lemma gq_point : forall p olds lin value gl gv, c_Va p <> 0 -> c_kb p <> 0 -> c_km p <> 0 -> weights_ok p olds -> (2 <= length lin)%nat ->
  (forall o, In o olds -> length o = length lin) -> length value = length lin -> length gl = length lin -> length gv = length lin ->
  exists VR GR jv jg mv mg,
    (forall t, gq_residual_point p true olds (vline lin value t) (gvline gl gv t) = Some (VR t, GR t))
    /\ gq_vmult_point p 0 0 olds lin gl value gv = Some (mv, mg)
    /\ dlist VR jv /\ dvlist GR jg
    /\ length jv = length lin /\ length jg = length lin /\ length mv = length lin /\ length mg = length lin
    /\ length (fst (gq_defect_point p olds lin gl value)) = length lin /\ length (snd (gq_defect_point p olds lin gl value)) = length lin
    /\ (forall x, nth x jv 0 = nth x mv 0 - nth x (fst (gq_defect_point p olds lin gl value)) 0)
    /\ (forall x d, nth x jg vzero d = nth x mg vzero d - nth x (snd (gq_defect_point p olds lin gl value)) vzero d).
Proof.
  intros p olds [| phi [| mu etas]] [| v0 [| v1 vs]] [| gphi [| gmu getas]] [| g0 [| g1 gs]] Hv Hb Hm W H2 Ho L1 L2 L3; cbn in H2, L1, L2, L3; try discriminate; try lia.
  assert (Lv : length vs = length etas) by congruence. assert (Lg : length getas = length etas) by congruence. assert (Lh : length gs = length etas) by congruence.
  destruct (c_weights p) as [| w ws] eqn:Hw; [destruct W as [W _]; contradiction |].
  pose proof (gq_vmult_point_spec p 0 0 olds phi mu etas gphi gmu getas v0 v1 vs g0 g1 gs w ws Hw W (fun o I => eq_ind_r (fun n => (2 <= n)%nat) H2 (Ho o I)) Lv Lh) as M. cbv zeta in M.
  set (e := gq_of phi mu etas) in *.
  assert (Hd : hd 0 (c_weights p) = w) by (rewrite Hw; reflexivity).
  pose proof (phi_row_deriv p olds phi mu v0 v1 etas vs Hv Hb Hm Lv) as D0. cbv zeta in D0.
  pose proof (mu_row_deriv p olds phi mu v0 v1 etas vs Hv Hb Hm Lv) as D1. cbv zeta in D1.
  pose proof (gq_etas_line p olds phi mu v0 v1 etas vs Hv Hb Hm Lv etas vs 2 Lv) as D2.
  pose proof (gq_egrads_line p phi mu v0 v1 etas vs Lv getas gs (eq_trans Lh (eq_sym Lg))) as D3.
  fold e in D0, D1, D2, D3. rewrite Hd in D0, D1, D2.
  do 6 eexists. split; [| split; [exact M |]].
  { intros t. cbn [vline gvline]. rewrite gq_residual_point_spec; [reflexivity | exact W | rewrite gvline_length, vline_length; congruence |].
    intros o I. rewrite (Ho o I), vline_length by exact Lv. reflexivity. }
  split; [apply dlist_cons; [exact D0 | apply dlist_cons; [exact D1 | exact D2]] |].
  split; [apply (dvlist_cons _ _ (fun d => c_Lphi p * dkappa p e * gphi d * v0 + c_Lphi p * kappa p e * g0 d)); [intros d; apply phi_flux_deriv; assumption |];
          apply (dvlist_cons _ _ (fun d => mob p phi etas * gmu d * dchi_dphi p e * v0 + mob p phi etas * chi p e * g1 d + chi p e * (dM_surf_dc (c_mobility p) phi * gmu d * v0)
             + chi p e * gmu d * (2 * m_gb (c_mobility p)) * (rsum etas * rsum vs - dotp etas vs))); [intros d; apply mu_flux_deriv; assumption | exact D3] |].
  cbn [length gq_defect_point fst snd]. unfold gq_egrads. rewrite !map_length, eta_fluxes_length, !eta_lins_length by congruence.
  repeat split; try congruence.
  - intros [| [| x]]; cbn [nth]; [reflexivity | reflexivity |]. rewrite nth_zeros. ring.
  - intros [| [| x]] d; cbn [nth].
    + unfold vzero. ring.
    + rewrite flux_loop_spec by (cbn [Nat.add]; exact Lv). cbn [skipn]. unfold vzero. ring.
    + apply eta_fluxes_nth. congruence.
Qed.

(** For all meshes, shape functions, quadrature formulas, numbers of grains, states, old
    solutions, time integration weights and directions: the product with the linearised
    operator is the derivative of the residual plus the three terms of [gq_defect_point] -
    if the two variables that are added to without having been set happen to be zero. *)
Theorem C68_defect : forall p n pts olds u v k i,
  c_Va p <> 0 -> c_kb p <> 0 -> c_km p <> 0 -> c_weights p <> [] -> (length (c_weights p) <= S (length olds))%nat ->
  (forall q, In q pts -> (2 <= length (q_blocks q))%nat) ->
  exists F l d,
    (forall t, gq_residual p n pts true olds (fun b j => u b j + t * v b j) k i = Some (F t))
    /\ gq_vmult p n pts 0 0 olds u v k i = Some l
    /\ cell_loop (c_dim p) (fun q => Some (gq_defect_point p (map (values n q) olds) (values n q u) (grads n q u) (values n q v))) pts k i = Some d
    /\ derivable_pt_lim F 0 (l - d).
Proof.
  intros p n pts olds u v k i Hv Hb Hm Hw Hl Hq. unfold gq_residual, gq_vmult. induction pts as [| q pts IH].
  - exists (fun _ => 0), 0, 0. repeat split; try reflexivity. rewrite Rminus_0_r. apply derivable_const0.
  - destruct IH as [F [l [d [E1 [E2 [E3 D]]]]]]; [intros x I; apply Hq; right; exact I |].
    assert (W : weights_ok p (map (values n q) olds)) by (split; [exact Hw | rewrite map_length; destruct (c_weights p); cbn in *; lia]).
    destruct (gq_point p (map (values n q) olds) (values n q u) (values n q v) (grads n q u) (grads n q v) Hv Hb Hm W) as [VR [GR [jv [jg [mv [mg [A1 [A2 [A3 [A4 [B1 [B2 [B3 [B4 [B5 [B6 [B7 B8]]]]]]]]]]]]]]]]];
      rewrite ?values_length, ?grads_length; try reflexivity; [apply Hq; left; reflexivity | |].
    { intros o I. apply in_map_iff in I. destruct I as [s [<- _]]. apply values_length. }
    rewrite values_length in B1, B2, B3, B4, B5, B6.
    exists (fun t => scatter (c_dim p) q (q_blocks q) (VR t) (GR t) k i + F t), (scatter (c_dim p) q (q_blocks q) mv mg k i + l),
      (scatter (c_dim p) q (q_blocks q) (fst (gq_defect_point p (map (values n q) olds) (values n q u) (grads n q u) (values n q v)))
         (snd (gq_defect_point p (map (values n q) olds) (values n q u) (grads n q u) (values n q v))) k i + d).
    split; [| split; [| split]].
    + intros t. cbn [cell_loop]. rewrite (E1 t). change (fun b j => u b j + t * v b j) with (sline u v t). rewrite values_line, grads_line, A1. reflexivity.
    + cbn [cell_loop]. rewrite E2, A2. reflexivity.
    + cbn [cell_loop obind]. rewrite E3. reflexivity.
    + match goal with |- derivable_pt_lim _ 0 (?a + l - (?b + d)) => replace (a + l - (b + d)) with (a - b + (l - d)) by ring end.
      apply derivable_plus; [| exact D]. rewrite <- (scatter_minus _ q k i (q_blocks q) jv mv _ jg mg) by assumption.
      apply scatter_deriv; assumption.
Qed.
Print Assumptions C68_defect.

(** ** where the product is the derivative *)
Lemma scatter_none : forall dim q k i blocks vs gs, (forall x, nth x vs 0 = 0) -> (forall x d, nth x gs vzero d = 0) -> scatter dim q blocks vs gs k i = 0.
Proof.
  intros dim q k i. induction blocks as [| b blocks IH]; intros [| x vs] [| g gs] H1 H2; cbn [scatter]; try reflexivity.
  rewrite IH by (first [intros y; exact (H1 (S y)) | intros y d; exact (H2 (S y) d)]).
  assert (A : x = 0) by exact (H1 0%nat). assert (B : dot dim (q_G q i) g = 0).
  { assert (B : forall d, g d = 0) by exact (H2 0%nat). clear - B. induction dim as [| dim IH]; cbn [dot]; [ring |]. rewrite IH, B. ring. }
  rewrite A, B. destruct (Nat.eqb b k); ring.
Qed.

(** The coefficients of the interface do not vary, or the point is outside the narrow
    transition where they do; and the phases have the same stiffness, or the point is in a
    bulk phase, or nothing changes there: *)
Theorem C68_jacobian_partial : forall p n pts olds u v k i,
  c_Va p <> 0 -> c_kb p <> 0 -> c_km p <> 0 -> c_weights p <> [] -> (length (c_weights p) <= S (length olds))%nat ->
  (forall q, In q pts -> exists ops, q_blocks q = 0%nat :: 1%nat :: ops) ->
  (forall q, In q pts ->
     ((c_eps_s p = c_eps_gb p /\ c_kap_s p = c_kap_gb p) \/ value_at n q u 0%nat <= 0 \/ 3 / 10 <= value_at n q u 0%nat)
     /\ (c_kb p = c_km p \/ value_at n q u 0%nat <= 0 \/ 1 <= value_at n q u 0%nat \/ value_at n q v 1%nat = 0)) ->
  exists F l,
    (forall t, gq_residual p n pts true olds (fun b j => u b j + t * v b j) k i = Some (F t))
    /\ gq_vmult p n pts 0 0 olds u v k i = Some l
    /\ derivable_pt_lim F 0 l.
Proof.
  intros p n pts olds u v k i Hv Hb Hm Hw Hl Hq Hx.
  destruct (C68_defect p n pts olds u v k i Hv Hb Hm Hw Hl) as [F [l [d [E1 [E2 [E3 D]]]]]].
  { intros q I. destruct (Hq q I) as [ops ->]. cbn. lia. }
  exists F, l. split; [exact E1 | split; [exact E2 |]].
  assert (Z : d = 0).
  { clear E1 E2 D F l. revert d E3. induction pts as [| q pts IH]; intros d E3; cbn [cell_loop obind] in E3; [congruence |].
    destruct (cell_loop (c_dim p) (fun q => Some (gq_defect_point p (map (values n q) olds) (values n q u) (grads n q u) (values n q v))) pts k i) as [s |] eqn:Es; [| discriminate].
    cbn [obind] in E3. assert (Es0 : s = 0).
    { apply IH; [intros x I; apply Hq; right; exact I | intros x I; apply Hx; right; exact I | reflexivity]. }
    destruct (Hq q (or_introl eq_refl)) as [ops Hop]. destruct (Hx q (or_introl eq_refl)) as [Ha Hc].
    unfold values, grads in E3. rewrite Hop in E3. cbn [map gq_defect_point fst snd] in E3.
    set (e := gq_of (value_at n q u 0%nat) (value_at n q u 1%nat) (map (value_at n q u) ops)) in *.
    assert (K : depsilon p e = 0 /\ dkappa p e = 0).
    { unfold depsilon, dkappa, dswitching. destruct Ha as [[-> ->] | Ha]; [split; ring |].
      unfold e, gq_of. cbn [z_phi]. rewrite dH_outside by (lra || exact Ha). split; ring. }
    assert (M : forall dt, mu_defect p e dt (value_at n q v 1%nat) = 0).
    { intros dt. unfold mu_defect. destruct Hc as [-> | [Hc | [Hc | ->]]]; try ring.
      - unfold dhm, e, gq_of. cbn [z_phi]. rewrite dH_outside by (lra || (left; exact Hc)). ring.
      - unfold dhm, e, gq_of. cbn [z_phi]. rewrite dH_outside by (lra || (right; exact Hc)). ring. }
    destruct K as [K1 K2].
    rewrite scatter_none in E3; [rewrite Es0 in E3; injection E3 as <-; ring | |].
    - intros [| [| x]]; cbn [nth]; [unfold phi_defect; rewrite K1; ring | apply M | apply nth_zeros].
    - intros [| [| x]] y; cbn [nth]; [reflexivity | reflexivity |].
      generalize (map (grad_at n q u) ops). intros gs. revert x. induction gs as [| g gs IHg]; intros [| x]; cbn [map nth]; try reflexivity; [rewrite K2; ring | apply IHg]. }
  subst d. rewrite Rminus_0_r in D. exact D.
Qed.
Print Assumptions C68_jacobian_partial.

(** ** where it is not *)
Definition gq_example : gq_data := mkGQ 1 2 1 1 1 2 1 2 1 0 0 1 (3 / 2) [1; -1] (mkCoefficients 1 1 1 1 1) 1.
Definition gq_cell : list point := [element [0; 1; 2]%nat []].
Definition consts (a b c : R) : state := ramp (fun k => match k with 0%nat => a | 1%nat => b | _ => c end) (fun _ => 0).
Lemma consts_value : forall blocks a b c k, value_at 2 (element blocks []) (consts a b c) k = match k with 0%nat => a | 1%nat => b | _ => c end.
Proof. intros. unfold consts. rewrite ramp_value. lra. Qed.
Lemma consts_grad : forall blocks a b c k, grad_at 2 (element blocks []) (consts a b c) k = fun _ => 0.
Proof. intros. unfold consts. rewrite ramp_grad. reflexivity. Qed.
Lemma dH_example : gq_dH (3 / 10) (3 / 20) = 25 / 4.
Proof. unfold gq_dH, mask_gt, mask_lt. destruct (Rlt_dec (3 / 10) (3 / 20)); [lra |]. destruct (Rlt_dec (3 / 20) 0); [lra |]. field. Qed.
Lemma dH_example1 : gq_dH 1 (1 / 2) = 15 / 8.
Proof. unfold gq_dH, mask_gt, mask_lt. destruct (Rlt_dec 1 (1 / 2)); [lra |]. destruct (Rlt_dec (1 / 2) 0); [lra |]. field. Qed.

Definition refutes (p : gq_data) (olds : list state) (u v : state) (k i : nat) : Prop :=
  exists F l, (forall t, gq_residual p 2 gq_cell true olds (fun b j => u b j + t * v b j) k i = Some (F t))
    /\ gq_vmult p 2 gq_cell 0 0 olds u v k i = Some l /\ ~ derivable_pt_lim F 0 l.
Lemma refute : forall olds u v k i d, length olds = 1%nat ->
  cell_loop 1 (fun q => Some (gq_defect_point gq_example (map (values 2 q) olds) (values 2 q u) (grads 2 q u) (values 2 q v))) gq_cell k i = Some d -> d <> 0 ->
  refutes gq_example olds u v k i.
Proof.
  intros olds u v k i d Ho Hd Nz. destruct (C68_defect gq_example 2 gq_cell olds u v k i) as [F [l [d' [E1 [E2 [E3 D]]]]]];
    try (cbn; lra); [cbn; discriminate | rewrite Ho; cbn; lia | intros q [<- | []]; cbn; lia |].
  exists F, l. split; [exact E1 | split; [exact E2 |]]. intros D2. assert (d' = d) by (change (c_dim gq_example) with 1%nat in E3; congruence). subst d'.
  apply Nz. assert (l = l - d) by exact (uniqueness_limite F 0 l (l - d) D2 D). lra.
Qed.

(** The free energy barrier of the interface is not the function whose derivative is used for
    it: the row of the void phase is wrong in the transition. *)
Theorem C68_void_row_refuted : exists olds u v, refutes gq_example olds u v 0%nat 1%nat.
Proof.
  exists [consts (3 / 20) 0 0], (consts (3 / 20) 0 0), (consts 1 0 0).
  eapply refute; [reflexivity | |].
  - unfold gq_cell. cbn [cell_loop obind]. unfold values, grads. cbn [q_blocks element map]. rewrite !consts_value, !consts_grad.
    cbn [gq_defect_point fst snd map scatter Nat.eqb]. reflexivity.
  - unfold phi_defect, depsilon, dswitching, gq_of. cbn [z_phi z_s2 c_Lphi c_eps_s c_eps_gb gq_example wsum c_gamma q_w q_N q_G element dot Nat.eqb psum pow c_dim]. rewrite dH_example. unfold vzero. lra.
Qed.
Print Assumptions C68_void_row_refuted.
(** The row of the chemical potential takes the stiffness of the void for both phases. *)
Theorem C68_potential_row_refuted : exists olds u v, refutes gq_example olds u v 1%nat 1%nat.
Proof.
  exists [consts 0 0 0], (consts (1 / 2) 0 0), (consts 0 1 0).
  eapply refute; [reflexivity | |].
  - unfold gq_cell. cbn [cell_loop obind]. unfold values, grads. cbn [q_blocks element map]. rewrite !consts_value, !consts_grad.
    cbn [gq_defect_point fst snd map scatter Nat.eqb]. reflexivity.
  - unfold mu_defect, dhm, gq_time, gq_of. cbn [z_phi c_Va c_kb c_km gq_example q_w q_N q_G element dot Nat.eqb c_weights hd tl oldsum nth c_dim]. rewrite dH_example1. unfold vzero. lra.
Qed.
Print Assumptions C68_potential_row_refuted.
(** The rows of the grains miss the change of the gradient coefficient with the void phase. *)
Theorem C68_grain_row_refuted : exists olds u v, refutes gq_example olds u v 2%nat 1%nat.
Proof.
  exists [consts (3 / 20) 0 0], (ramp (fun k => match k with 0%nat => 3 / 20 | _ => 0 end) (fun k => match k with 2%nat => 1 | _ => 0 end)), (consts 1 0 0).
  eapply refute; [reflexivity | |].
  - unfold gq_cell. cbn [cell_loop obind]. unfold values, grads. cbn [q_blocks element map]. rewrite !consts_value, !ramp_value, !ramp_grad.
    cbn [gq_defect_point fst snd map scatter Nat.eqb]. reflexivity.
  - unfold dkappa, dswitching, gq_of. cbn [z_phi c_L c_kap_s c_kap_gb gq_example q_w q_N q_G element dot Nat.eqb c_dim]. replace (3 / 20 + 0 / 2) with (3 / 20) by lra. rewrite dH_example. lra.
Qed.
Print Assumptions C68_grain_row_refuted.

(** The product depends on what was in memory before. *)
Theorem C68_initial_value_refuted : exists olds u v l1 l2,
  gq_vmult gq_example 2 gq_cell 0 0 olds u v 1%nat 1%nat = Some l1 /\ gq_vmult gq_example 2 gq_cell 0 1 olds u v 1%nat 1%nat = Some l2 /\ l1 <> l2.
Proof.
  exists [consts 0 0 0], (consts (1 / 2) 0 0), (consts 1 0 0). do 2 eexists.
  assert (W : weights_ok gq_example [[0; 0; 0]]) by (split; [discriminate | cbn; lia]).
  assert (O : forall o, In o [[0; 0; 0]] -> (2 <= length o)%nat) by (intros o [<- | []]; cbn; lia).
  pose proof (fun j => gq_vmult_point_spec gq_example 0 j [[0; 0; 0]] (1 / 2) 0 [0] (fun _ => 0) (fun _ => 0) [fun _ => 0] 1 0 [0] (fun _ => 0) (fun _ => 0) [fun _ => 0] 1 [-1] eq_refl W O eq_refl eq_refl) as M.
  cbv zeta in M.
  split; [| split]; [unfold gq_vmult, gq_cell; cbn [cell_loop]; unfold values, grads; cbn [q_blocks element map]; rewrite !consts_value, !consts_grad, M; cbn [obind fst snd scatter Nat.eqb]; reflexivity ..|].
  cbn [q_w q_N q_G element dot Nat.eqb c_dim gq_example]. unfold dchi_dphi, dhb, dhm. cbn [z_phi gq_of c_Va c_kb c_km gq_example]. rewrite dH_example1. intros X. match type of X with ?a = ?b => assert (Y : b - a = - (15 / 32)) by field end. lra.
Qed.
Print Assumptions C68_initial_value_refuted.

(** a case of [C68_jacobian_partial]: within the void transition of the chemical potential *)
Example C68_jacobian_applies :
  (forall q, In q gq_cell -> exists ops, q_blocks q = 0%nat :: 1%nat :: ops)
  /\ (forall q, In q gq_cell ->
     ((c_eps_s gq_example = c_eps_gb gq_example /\ c_kap_s gq_example = c_kap_gb gq_example) \/ value_at 2 q (consts (1 / 2) 0 (1 / 2)) 0%nat <= 0 \/ 3 / 10 <= value_at 2 q (consts (1 / 2) 0 (1 / 2)) 0%nat)
     /\ (c_kb gq_example = c_km gq_example \/ value_at 2 q (consts (1 / 2) 0 (1 / 2)) 0%nat <= 0 \/ 1 <= value_at 2 q (consts (1 / 2) 0 (1 / 2)) 0%nat \/ value_at 2 q (consts 1 0 1) 1%nat = 0))
  /\ gq_vmult gq_example 2 gq_cell 0 0 [consts 0 0 0] (consts (1 / 2) 0 (1 / 2)) (consts 1 0 1) 2%nat 1%nat = Some (5 / 2).
Proof.
  split; [intros q [<- | []]; exists [2%nat]; reflexivity | split].
  - intros q [<- | []]. rewrite !consts_value. split; [right; right; lra | right; right; right; lra].
  - assert (W : weights_ok gq_example [[0; 0; 0]]) by (split; [discriminate | cbn; lia]).
    assert (O : forall o, In o [[0; 0; 0]] -> (2 <= length o)%nat) by (intros o [<- | []]; cbn; lia).
    pose proof (gq_vmult_point_spec gq_example 0 0 [[0; 0; 0]] (1 / 2) 0 [1 / 2] (fun _ => 0) (fun _ => 0) [fun _ => 0] 1 0 [1] (fun _ => 0) (fun _ => 0) [fun _ => 0] 1 [-1] eq_refl W O eq_refl eq_refl) as M.
    cbv zeta in M. unfold gq_vmult, gq_cell. cbn [cell_loop]. unfold values, grads. cbn [q_blocks element map]. rewrite !consts_value, !consts_grad. match goal with |- context [gq_vmult_point gq_example 0 0 ?o ?a ?b ?c ?d] => assert (M2 : gq_vmult_point gq_example 0 0 o a b c d = _) by exact M; rewrite M2 end. cbn [obind fst snd scatter Nat.eqb eta_lins gq_egrads map q_w q_N q_G element dot c_dim gq_example]. f_equal.
    unfold eta_lin, depsilon, epsilon, switching, dswitching, dhm, hm. cbn [wsum z_phi gq_of c_eps_s c_eps_gb c_L].
    rewrite (dH_outside (3 / 10) (1 / 2)) by first [lra | right; lra]. rewrite dH_example1. unfold gq_H, mask_gt, mask_lt.
    destruct (Rlt_dec (3 / 10) (1 / 2)); [| lra]. destruct (Rlt_dec 1 (1 / 2)); [lra |]. destruct (Rlt_dec (1 / 2) 0); [lra |].
    unfold domega_m, d2omega_m_ij, d2omega_m_ii, d2omega_m_dmu, dzeta, d2zeta_ij, d2zeta_ii, dcm_eq, d2cm_eq_ij, d2cm_eq_ii.
    cbn [z_mu z_s2 gq_of c_gamma c_ceq_GB c_ceq_B c_Va psum pow gq_example c_eps_s c_eps_gb c_L]. field.
Qed.

(** ** pure phases *)
Lemma H_zero : forall b, 0 < b -> gq_H b 0 = 0.
Proof. intros b H. unfold gq_H, mask_gt, mask_lt. destruct (Rlt_dec b 0); [lra |]. destruct (Rlt_dec 0 0); [lra |]. field. lra. Qed.
Lemma H_above : forall b x, 0 < b -> b <= x -> gq_H b x = 1.
Proof. intros b x Hb H. unfold gq_H, mask_gt, mask_lt. destruct (Rlt_dec b x); [reflexivity |]. destruct (Rlt_dec x 0); [lra |]. replace x with b by lra. field. lra. Qed.
Lemma H_below : forall b x, 0 < b -> x <= 0 -> gq_H b x = 0.
Proof. intros b x Hb H. destruct (Rlt_dec x 0) as [X | X]; [| replace x with 0 by lra; apply H_zero; exact Hb]. unfold gq_H, mask_gt, mask_lt. destruct (Rlt_dec b x); [lra |]. destruct (Rlt_dec x 0); [reflexivity | lra]. Qed.
Lemma H_range : forall b x, 0 < b -> 0 <= gq_H b x <= 1.
Proof.
  intros b x Hb. destruct (Rle_dec x 0) as [X | X]; [rewrite H_below by assumption; lra |]. destruct (Rle_dec b x) as [Y | Y]; [rewrite H_above by assumption; lra |].
  unfold gq_H, mask_gt, mask_lt. destruct (Rlt_dec b x); [lra |]. destruct (Rlt_dec x 0); [lra |].
  set (y := x / b). assert (Hy : 0 < y < 1).
  { unfold y. split; [apply Rdiv_lt_0_compat; lra |]. apply (Rmult_lt_reg_r b); [exact Hb |]. unfold Rdiv. rewrite Rmult_assoc, Rinv_l by lra. lra. }
  replace (6 * x ^ 5 / b ^ 5 - 15 * x ^ 4 / b ^ 4 + 10 * x ^ 3 / b ^ 3) with (y ^ 3 * (6 * y ^ 2 - 15 * y + 10)) by (unfold y; field; lra).
  split.
  - apply Rmult_le_pos; [apply pow_le; lra |]. nra.
  - assert (0 <= (1 - y) ^ 3 * (6 * y ^ 2 + 3 * y + 1)) by (apply Rmult_le_pos; [apply pow_le; lra | nra]).
    replace (y ^ 3 * (6 * y ^ 2 - 15 * y + 10)) with (1 - (1 - y) ^ 3 * (6 * y ^ 2 + 3 * y + 1)) by ring. lra.
Qed.

(** whatever the fields are, the susceptibility is between those of the two phases, so the
    coefficient of the time derivative of the chemical potential never changes its sign *)
Theorem C68_susceptibility : forall p e, 0 < c_Va p -> 0 < c_km p -> c_km p <= c_kb p ->
  1 / (c_Va p * c_Va p * c_kb p) <= chi p e <= 1 / (c_Va p * c_Va p * c_km p).
Proof.
  intros p e Hv Hm Hk. unfold chi, hb, hm. pose proof (H_range 1 (z_phi e) Rlt_0_1) as [A B]. set (h := gq_H 1 (z_phi e)) in *.
  assert (V : 0 < / (c_Va p * c_Va p)) by (apply Rinv_0_lt_compat; nra).
  assert (K : / c_kb p <= / c_km p) by (apply Rinv_le_contravar; lra).
  replace (1 / (c_Va p * c_Va p * c_kb p)) with (/ (c_Va p * c_Va p) * / c_kb p) by (field; lra).
  replace (1 / (c_Va p * c_Va p * c_km p)) with (/ (c_Va p * c_Va p) * / c_km p) by (field; lra).
  replace (1 / (c_Va p * c_Va p) * (h / c_kb p + (1 - h) / c_km p)) with (/ (c_Va p * c_Va p) * (h * / c_kb p + (1 - h) * / c_km p)) by (field; lra).
  split; apply Rmult_le_compat_l; try lra; nra.
Qed.
Print Assumptions C68_susceptibility.

Lemma gq_times_off : forall w olds vals ic, gq_times w false olds ic vals = Some (map (fun _ => 0) vals).
Proof. intros w olds. induction vals as [| v vals IH]; intros ic; cbn [gq_times map obind]; [reflexivity |]. rewrite IH. reflexivity. Qed.

(** all of one phase: void, or one grain *)
Definition pure (value : list R) : Prop :=
  (exists mu n, value = 1 :: mu :: repeat 0 n) \/ (exists mu a b, value = 0 :: mu :: repeat 0 a ++ 1 :: repeat 0 b).
Lemma psum_zeros : forall k n, (0 < k)%nat -> psum k (repeat 0 n) = 0.
Proof. intros k n Hk. induction n as [| n IH]; cbn [repeat psum]; [reflexivity |]. rewrite IH, pow_i by exact Hk. ring. Qed.
Lemma psum_app : forall k a b, psum k (a ++ b) = psum k a + psum k b.
Proof. intros k. induction a as [| x a IH]; intros b; cbn [app psum]; [ring |]. rewrite IH. ring. Qed.

Lemma rows_off : forall p e etas gs, length gs = length etas -> (forall x, In x etas -> eta_res p e x = 0) -> (forall g, In g gs -> forall d, g d = 0) ->
  exists jg, gq_eta_rows p e (map (fun _ => 0) etas) etas gs = Some (map (fun _ => 0) etas, jg) /\ length jg = length etas /\ forall x d, nth x jg vzero d = 0.
Proof.
  intros p e. induction etas as [| x etas IH]; intros [| g gs] L H G; cbn in L; try discriminate.
  - exists []. repeat split. intros [| x] d; reflexivity.
  - destruct (IH gs) as [jg [E [L2 Z]]]; [congruence | intros y I; apply H; right; exact I | intros y I; apply G; right; exact I |].
    exists ((fun d => c_L p * kappa p e * g d) :: jg). split; [| split; [cbn; congruence |]].
    + cbn [map gq_eta_rows]. rewrite E. cbn [obind fst snd]. pose proof (H x (or_introl eq_refl)) as Hx. unfold eta_res in Hx. rewrite Hx, Rplus_0_r. reflexivity.
    + intros [| y] d; cbn [nth]; [rewrite (G g (or_introl eq_refl)); ring | apply Z].
Qed.

(** For all meshes, shape functions, numbers of grains, parameters and values of the chemical
    potential: where one phase fills the neighbourhood of every point there is no driving
    force - the time derivatives apart, the residual is zero. *)
Theorem C68_pure_phases : forall p n pts olds u k i,
  (forall q, In q pts -> pure (values n q u) /\ forall b d, In b (q_blocks q) -> grad_at n q u b d = 0) ->
  gq_residual p n pts false olds u k i = Some 0.
Proof.
  intros p n pts olds u k i. unfold gq_residual. induction pts as [| q pts IH]; intros H; [reflexivity |].
  cbn [cell_loop]. rewrite IH by (intros x I; apply H; right; exact I).
  destruct (H q (or_introl eq_refl)) as [P G].
  assert (X : exists jv jg, gq_residual_point p false (map (values n q) olds) (values n q u) (grads n q u) = Some (jv, jg) /\ (forall x, nth x jv 0 = 0) /\ forall x d, nth x jg vzero d = 0).
  { assert (G0 : forall g, In g (grads n q u) -> forall d, g d = 0).
    { intros g I d. unfold grads in I. apply in_map_iff in I. destruct I as [b [<- I]]. apply G. exact I. }
    assert (L : length (grads n q u) = length (values n q u)) by (rewrite grads_length, values_length; reflexivity).
    assert (Y : exists phi mu etas, values n q u = phi :: mu :: etas /\ (forall x, In x etas -> eta_res p (gq_of phi mu etas) x = 0) /\ phi_res p (gq_of phi mu etas) phi = 0).
    { destruct P as [[mu [m E]] | [mu [a [b E]]]].
      - exists 1, mu, (repeat 0 m). split; [exact E |].
        assert (S2 : psum 2 (1 :: repeat 0 m) = 1) by (cbn [psum]; rewrite psum_zeros by lia; cbn [pow]; ring).
        split.
        + intros x I. apply repeat_spec in I. subst x. unfold eta_res, hm, dzeta, domega_m, dcm_eq. cbn [z_phi gq_of z_s2]. rewrite H_above by lra. unfold Rdiv. ring.
        + unfold phi_res, dhb, dhm, hm, depsilon, dswitching, dzeta, domega_m. cbn [z_phi gq_of z_s2]. rewrite !dH_outside by first [lra | right; lra | left; lra]. rewrite H_above by lra. rewrite S2. ring.
      - exists 0, mu, (repeat 0 a ++ 1 :: repeat 0 b). split; [exact E |].
        assert (S2 : psum 2 (0 :: repeat 0 a ++ 1 :: repeat 0 b) = 1).
        { cbn [psum]. rewrite psum_app. cbn [psum]. rewrite !psum_zeros by lia. cbn [pow]. ring. }
        split.
        + intros x I. assert (Hx : x = 0 \/ x = 1).
          { apply in_app_or in I. destruct I as [I | [<- | I]]; [left; exact (repeat_spec _ _ _ I) | right; reflexivity | left; exact (repeat_spec _ _ _ I)]. }
          unfold eta_res, dzeta, domega_m, dcm_eq. cbn [z_s2 gq_of]. rewrite S2. unfold Rdiv. destruct Hx as [-> | ->]; ring.
        + unfold phi_res, dhb, dhm, depsilon, dswitching, dzeta, domega_m, dcm_eq. cbn [z_phi gq_of z_s2]. rewrite !dH_outside by first [lra | right; lra | left; lra]. unfold Rdiv. ring. }
    destruct Y as [phi [mu [etas [E [Y1 Y2]]]]]. rewrite E in L |- *. destruct (grads n q u) as [| gphi [| gmu getas]]; cbn [length] in L; try discriminate.
    unfold gq_residual_point. rewrite gq_evaluate_spec. cbn [obind]. rewrite gq_times_off. cbn [obind map].
    destruct (rows_off p (gq_of phi mu etas) etas getas) as [jg [A [B C]]]; [exact (eq_add_S _ _ (eq_add_S _ _ L)) | exact Y1 | intros g I; apply G0; right; right; exact I |].
    rewrite A. cbn [obind fst snd]. unfold phi_res in Y2. rewrite Y2. do 2 eexists. split; [reflexivity |]. split.
    - intros [| [| x]]; cbn [nth]; [ring | ring | apply nth_zeros].
    - intros [| [| x]] d; cbn [nth]; [rewrite (G0 gphi) by (left; reflexivity); ring | rewrite (G0 gmu) by (right; left; reflexivity); ring | apply C]. }
  destruct X as [jv [jg [-> [Z1 Z2]]]]. cbn [obind fst snd]. rewrite scatter_none by assumption. f_equal. ring.
Qed.
Print Assumptions C68_pure_phases.
Example C68_pure_phases_applies : (forall q, In q gq_cell -> pure (values 2 q (consts 0 5 1)) /\ forall b d, In b (q_blocks q) -> grad_at 2 q (consts 0 5 1) b d = 0).
Proof.
  intros q [<- | []]. split.
  - right. exists 5, 0%nat, 0%nat. unfold values. cbn [q_blocks element map]. rewrite !consts_value. reflexivity.
  - intros b d _. rewrite consts_grad. reflexivity.
Qed.
