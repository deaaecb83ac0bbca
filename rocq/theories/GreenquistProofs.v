(** Lemmas about the model of the grand potential operator. *)
From Coq Require Import Bool List Reals Arith Lia Lra.
From Verif Require Import Util FreeEnergyModel FreeEnergyProofs MobilityModel MobilityProofs MobilityProps OperatorModel OperatorProofs OperatorProps OperatorMassProps OperatorEnergyProps GrainGrowthModel GrainGrowthProofs GreenquistModel.
Import ListNotations.
Local Open Scope R_scope.

(** ** switching functions *)
Lemma derivable_glue : forall f g h x l d, 0 < d -> derivable_pt_lim g x l -> derivable_pt_lim h x l -> g x = f x -> h x = f x ->
  (forall y, Rabs (y - x) < d -> f y = g y \/ f y = h y) -> derivable_pt_lim f x l.
Proof.
  intros f g h x l d Hd Dg Dh Eg Eh E eps He. destruct (Dg eps He) as [[d1 P1] H1]. destruct (Dh eps He) as [[d2 P2] H2]. cbn in H1, H2.
  assert (Hm : 0 < Rmin d (Rmin d1 d2)) by (repeat apply Rmin_pos; assumption).
  exists (mkposreal _ Hm). intros t Ht Hs. cbn in Hs.
  assert (A1 : Rmin d (Rmin d1 d2) <= d) by apply Rmin_l. assert (A2 : Rmin d (Rmin d1 d2) <= Rmin d1 d2) by apply Rmin_r.
  assert (A3 : Rmin d1 d2 <= d1) by apply Rmin_l. assert (A4 : Rmin d1 d2 <= d2) by apply Rmin_r.
  destruct (E (x + t)) as [-> | ->]; [replace (x + t - x) with t by ring; lra | rewrite <- Eg; apply H1; [exact Ht | lra] | rewrite <- Eh; apply H2; [exact Ht | lra]].
Qed.

(** a function that is constant below zero and above [b] *)
Definition cut (lo hi b : R) (f : R -> R) (x : R) : R := mask_gt x b hi (mask_lt x 0 lo (f x)).
Lemma cut_deriv : forall lo hi b f f' x, 0 < b -> (forall y, derivable_pt_lim f y (f' y)) ->
  f 0 = lo -> f b = hi -> f' 0 = 0 -> f' b = 0 -> derivable_pt_lim (cut lo hi b f) x (cut 0 0 b f' x).
Proof.
  intros lo hi b f f' x Hb D E0 E1 F0 F1.
  assert (Lo : forall y, y < 0 -> cut lo hi b f y = lo).
  { intros y Hy. unfold cut, mask_gt, mask_lt. destruct (Rlt_dec b y); [lra |]. destruct (Rlt_dec y 0); [reflexivity | lra]. }
  assert (Hi : forall y, b < y -> cut lo hi b f y = hi).
  { intros y Hy. unfold cut, mask_gt. destruct (Rlt_dec b y); [reflexivity | lra]. }
  assert (Mi : forall y, 0 <= y <= b -> cut lo hi b f y = f y).
  { intros y Hy. unfold cut, mask_gt, mask_lt. destruct (Rlt_dec b y); [lra |]. destruct (Rlt_dec y 0); [lra | reflexivity]. }
  assert (V : cut 0 0 b f' x = if Rlt_dec x 0 then 0 else if Rlt_dec b x then 0 else f' x).
  { unfold cut, mask_gt, mask_lt. destruct (Rlt_dec b x), (Rlt_dec x 0); reflexivity. }
  rewrite V. destruct (Rlt_dec x 0) as [X | X].
  - apply (derivable_local (fun _ => lo) _ x 0 (- x)); [lra | | apply derivable_const0]. intros y Hy. symmetry. apply Lo. apply Rabs_def2 in Hy. lra.
  - destruct (Rlt_dec b x) as [Y | Y].
    + apply (derivable_local (fun _ => hi) _ x 0 (x - b)); [lra | | apply derivable_const0]. intros y Hy. symmetry. apply Hi. apply Rabs_def2 in Hy. lra.
    + destruct (Req_dec x 0) as [-> | X0].
      * rewrite F0. apply (derivable_glue _ (fun _ => lo) f 0 0 b); [exact Hb | apply derivable_const0 | exact (eq_ind _ (derivable_pt_lim f 0) (D 0) _ F0) | rewrite Mi by lra; lra | rewrite Mi by lra; reflexivity |].
        intros y Hy. apply Rabs_def2 in Hy. destruct (Rlt_dec y 0); [left; apply Lo; assumption | right; apply Mi; lra].
      * destruct (Req_dec x b) as [-> | Xb].
        -- rewrite F1. apply (derivable_glue _ f (fun _ => hi) b 0 b); [exact Hb | exact (eq_ind _ (derivable_pt_lim f b) (D b) _ F1) | apply derivable_const0 | rewrite Mi by lra; reflexivity | rewrite Mi by lra; lra |].
           intros y Hy. apply Rabs_def2 in Hy. destruct (Rlt_dec b y); [right; apply Hi; assumption | left; apply Mi; lra].
        -- apply (derivable_local f _ x (f' x) (Rmin x (b - x))); [apply Rmin_pos; lra | | apply D]. intros y Hy. symmetry. apply Mi.
           assert (Rmin x (b - x) <= x) by apply Rmin_l. assert (Rmin x (b - x) <= b - x) by apply Rmin_r. apply Rabs_def2 in Hy. lra.
Qed.

Lemma pow_deriv : forall n y, derivable_pt_lim (fun x => x ^ n) y (INR n * y ^ pred n).
Proof. intros. apply derivable_pt_lim_pow. Qed.
Lemma H_deriv : forall phi0 x, 0 < phi0 -> derivable_pt_lim (gq_H phi0) x (gq_dH phi0 x).
Proof.
  intros b x Hb.
  apply (cut_deriv 0 1 b (fun y => 6 * y ^ 5 / b ^ 5 - 15 * y ^ 4 / b ^ 4 + 10 * y ^ 3 / b ^ 3) (fun y => 30 * y ^ 4 / b ^ 5 - 60 * y ^ 3 / b ^ 4 + 30 * y ^ 2 / b ^ 3)); [exact Hb | | | | |].
  - intros y. apply (derivable_ext (fun y => y ^ 5 * (6 / b ^ 5) - y ^ 4 * (15 / b ^ 4) + y ^ 3 * (10 / b ^ 3))); [intros t; field; lra |].
    eapply derivable_eq; [| apply derivable_plus; [apply derivable_minus |]; apply derivable_scal; apply pow_deriv]. cbn [INR pred]. field. lra.
  - field. lra.
  - field. lra.
  - field. lra.
  - field. lra.
Qed.
Lemma dH_deriv : forall phi0 x, 0 < phi0 -> derivable_pt_lim (gq_dH phi0) x (gq_d2H phi0 x).
Proof.
  intros b x Hb.
  apply (cut_deriv 0 0 b (fun y => 30 * y ^ 4 / b ^ 5 - 60 * y ^ 3 / b ^ 4 + 30 * y ^ 2 / b ^ 3) (fun y => 120 * y ^ 3 / b ^ 5 - 180 * y ^ 2 / b ^ 4 + 60 * y / b ^ 3)); [exact Hb | | | | |].
  - intros y. apply (derivable_ext (fun y => y ^ 4 * (30 / b ^ 5) - y ^ 3 * (60 / b ^ 4) + y ^ 2 * (30 / b ^ 3))); [intros t; field; lra |].
    eapply derivable_eq; [| apply derivable_plus; [apply derivable_minus |]; apply derivable_scal; apply pow_deriv]. cbn [INR pred]. field. lra.
  - field. lra.
  - field. lra.
  - field. lra.
  - field. lra.
Qed.
Lemma H_line : forall b x v, 0 < b -> derivable_pt_lim (fun t => gq_H b (x + t * v)) 0 (gq_dH b x * v).
Proof. intros. apply derivable_comp_line. apply H_deriv. assumption. Qed.
Lemma dH_line : forall b x v, 0 < b -> derivable_pt_lim (fun t => gq_dH b (x + t * v)) 0 (gq_d2H b x * v).
Proof. intros. apply derivable_comp_line. apply dH_deriv. assumption. Qed.
Lemma dH_outside : forall b x, 0 < b -> x <= 0 \/ b <= x -> gq_dH b x = 0.
Proof.
  intros b x Hb H. unfold gq_dH, mask_gt, mask_lt. destruct (Rlt_dec b x); [reflexivity |]. destruct (Rlt_dec x 0); [reflexivity |].
  destruct H as [H | H]; [replace x with 0 by lra | replace x with b by lra]; field; lra.
Qed.

(** ** the evaluator *)
Definition gq_of (phi mu : R) (etas : list R) : gq_eval := mkGQE phi mu (psum 2 (phi :: etas)) (psum 4 (phi :: etas)) (mix (phi :: etas) * 2).
Lemma gq_evaluate_spec : forall phi mu etas, gq_evaluate (phi :: mu :: etas) (length etas) = Some (gq_of phi mu etas).
Proof.
  intros phi mu etas. unfold gq_evaluate. destruct (Nat.ltb_spec (length etas) (length etas)); [lia |]. rewrite firstn_all.
  rewrite !power_sum_spec by (cbn; lia). cbn [obind].
  replace (firstn (S (length etas)) (phi :: etas)) with (phi :: etas) by (change (S (length etas)) with (length (phi :: etas)); rewrite firstn_all; reflexivity).
  rewrite mixed_loop_spec by reflexivity. cbn [obind skipn]. rewrite Rplus_0_l. reflexivity.
Qed.
Lemma mix_deriv : forall etas values, length values = length etas ->
  derivable_pt_lim (fun t => mix (vline etas values t)) 0 (2 * psum 2 etas * dotp etas values - 2 * dotp3 etas values).
Proof.
  intros etas values H.
  apply (derivable_ext (fun t => (psum 2 (vline etas values t) * psum 2 (vline etas values t) - psum 4 (vline etas values t)) * / 2)).
  { intros t. rewrite <- mix_spec. field. }
  eapply derivable_eq; [| apply derivable_scal; apply derivable_minus; [apply derivable_mult; apply psum2_deriv; exact H | apply psum4_deriv; exact H]].
  cbv beta. rewrite !psum2_line by exact H. field.
Qed.

(** ** the residual *)
Definition gq_time (p : gq_data) (olds : list (list R)) (ic : nat) (v : R) : R := v * hd 0 (c_weights p) + oldsum (tl (c_weights p)) olds ic.
Fixpoint gq_tlist (p : gq_data) (olds : list (list R)) (ic : nat) (vals : list R) : list R :=
  match vals with [] => [] | v :: vals => gq_time p olds ic v :: gq_tlist p olds (S ic) vals end.
Definition weights_ok (p : gq_data) {A} (olds : list A) : Prop := c_weights p <> [] /\ (length (tl (c_weights p)) <= length olds)%nat.
Lemma time_spec : forall p olds ic v j, weights_ok p olds -> (forall o, In o olds -> (ic < length o)%nat) ->
  compute_time_derivative (c_weights p) j v olds ic = Some (j + gq_time p olds ic v).
Proof.
  intros p olds ic v j [H1 H2] H. unfold compute_time_derivative, gq_time. destruct (c_weights p) as [| w ws]; [contradiction |]. cbn [hd tl] in *.
  rewrite old_terms_spec by assumption. f_equal. ring.
Qed.
Lemma gq_times_spec : forall p olds vals ic, weights_ok p olds -> (forall o, In o olds -> (ic + length vals <= length o)%nat) ->
  gq_times (c_weights p) true olds ic vals = Some (gq_tlist p olds ic vals).
Proof.
  intros p olds. induction vals as [| v vals IH]; intros ic W H; [reflexivity |]. cbn [gq_times gq_tlist].
  rewrite time_spec by (try assumption; intros o I; specialize (H o I); cbn in H; lia). cbn [obind].
  rewrite IH by (try assumption; intros o I; specialize (H o I); cbn in H; lia). cbn [obind]. rewrite Rplus_0_l. reflexivity.
Qed.
Definition eta_res (p : gq_data) (e : gq_eval) (eta : R) : R := c_L p * (hm e * domega_m p e eta + epsilon p e * dzeta p e eta).
Fixpoint gq_etas (p : gq_data) (e : gq_eval) (olds : list (list R)) (ic : nat) (etas : list R) : list R :=
  match etas with [] => [] | eta :: etas => gq_time p olds ic eta + eta_res p e eta :: gq_etas p e olds (S ic) etas end.
Definition gq_egrads (k : R) (gs : list vec) : list vec := map (fun (g : vec) d => k * g d) gs.
Lemma gq_eta_rows_spec : forall p e olds etas gs ic, length gs = length etas ->
  gq_eta_rows p e (gq_tlist p olds ic etas) etas gs = Some (gq_etas p e olds ic etas, gq_egrads (c_L p * kappa p e) gs).
Proof.
  intros p e olds. induction etas as [| eta etas IH]; intros [| g gs] ic H; cbn in H; try discriminate; [reflexivity |].
  cbn [gq_tlist gq_eta_rows gq_etas gq_egrads map]. rewrite IH by congruence. reflexivity.
Qed.
Definition phi_res (p : gq_data) (e : gq_eval) (phi : R) : R :=
  c_Lphi p * (dhb e * omega_b p e + dhm e * omega_m p e + hm e * domega_m p e phi + depsilon p e * zeta p e + epsilon p e * dzeta p e phi).
Definition mu_fac (p : gq_data) (e : gq_eval) (phi : R) : R := dhb e * domega_b_dmu p e + dhm e * domega_m_dmu p e + hm e * d2omega_m_dmu p e phi.
Definition mob (p : gq_data) (phi : R) (etas : list R) : R := M_vol (c_mobility p) 1 + M_surf (c_mobility p) phi + M_gb (c_mobility p) etas.
Lemma gq_residual_point_spec : forall p olds phi mu etas gphi gmu getas, weights_ok p olds -> length getas = length etas ->
  (forall o, In o olds -> (length o = 2 + length etas)%nat) ->
  gq_residual_point p true olds (phi :: mu :: etas) (gphi :: gmu :: getas)
  = Some ((gq_time p olds 0 phi + phi_res p (gq_of phi mu etas) phi)
            :: (gq_time p olds 1 mu * chi p (gq_of phi mu etas) - gq_time p olds 0 phi * mu_fac p (gq_of phi mu etas) phi)
            :: gq_etas p (gq_of phi mu etas) olds 2 etas,
          (fun d => c_Lphi p * kappa p (gq_of phi mu etas) * gphi d)
            :: (fun d => chi p (gq_of phi mu etas) * mob p phi etas * gmu d)
            :: gq_egrads (c_L p * kappa p (gq_of phi mu etas)) getas).
Proof.
  intros p olds phi mu etas gphi gmu getas W L H. unfold gq_residual_point. rewrite gq_evaluate_spec. cbn [obind].
  rewrite gq_times_spec by (try assumption; intros o I; rewrite (H o I); cbn; lia). cbn [obind gq_tlist].
  rewrite gq_eta_rows_spec by exact L. cbn [obind fst snd]. unfold phi_res, mu_fac, mob.
  do 4 f_equal. ring.
Qed.

(** ** the linearised operator *)
Fixpoint wsum (f : R -> R) (etas values : list R) : R := match etas, values with e :: r, v :: s => f e * v + wsum f r s | _, _ => 0 end.
Lemma wsum_poly : forall f a b etas values, (forall x, f x = a * x + b * (x * x * x)) -> wsum f etas values = a * dotp etas values + b * dotp3 etas values.
Proof.
  intros f a b etas values H. revert values. induction etas as [| e r IH]; intros [| v s]; cbn [wsum dotp dotp3]; try ring. rewrite IH, H. ring.
Qed.
Lemma phi_loop_spec : forall p e phi lins values r, length values = length lins ->
  phi_loop p e phi lins values r
  = Some (r + c_Lphi p * wsum (fun l => dhm e * domega_m p e l + hm e * d2omega_m_ij p e phi l + depsilon p e * dzeta p e l + epsilon p e * d2zeta_ij p phi l) lins values).
Proof.
  intros p e phi. induction lins as [| l lins IH]; intros [| v values] r H; cbn in H; try discriminate; cbn [phi_loop wsum]; [f_equal; ring |].
  rewrite IH by congruence. f_equal. ring.
Qed.
Lemma mu_loop_spec : forall p e phi dt lins values r, length values = length lins ->
  mu_loop p e phi dt lins values r = Some (r - dt * wsum (fun l => dhm e * d2omega_m_dmu p e l + hm e * d3omega_m_dmu_ij p phi l) lins values).
Proof.
  intros p e phi dt. induction lins as [| l lins IH]; intros [| v values] r H; cbn in H; try discriminate; cbn [mu_loop wsum]; [f_equal; ring |].
  rewrite IH by congruence. f_equal. ring.
Qed.
Lemma flux_loop_spec : forall p e gmu lins d values ig g, (ig + length values = length lins)%nat ->
  flux_loop p e gmu lins ig values g d = g d + chi p e * gmu d * (2 * m_gb (c_mobility p)) * (rsum lins * rsum values - dotp (skipn ig lins) values).
Proof.
  intros p e gmu lins d. induction values as [| v values IH]; intros ig g H; cbn [flux_loop rsum].
  - rewrite skipn_all2 by (cbn in H; lia). cbn [dotp]. ring.
  - rewrite IH by (cbn in H; lia). unfold dM_detai_scalar. rewrite other_sum_spec. cbn [Nat.leb andb Nat.add]. cbn [length] in H.
    destruct (Nat.ltb_spec ig (length lins)); [| lia]. destruct (nth_error_skipn0 lins ig) as [a [A1 A2]]; [lia |]. rewrite A2. cbn [dotp].
    rewrite Nat.sub_0_r. rewrite (nth_error_nth lins ig 0 A1). ring.
Qed.
Fixpoint skip_term (h : R -> R) (ig jg : nat) (lins values : list R) : R :=
  match lins, values with l :: lins, v :: values => (if Nat.eqb jg ig then h l * v else 0) + skip_term h ig (S jg) lins values | _, _ => 0 end.
Lemma skip_nth : forall h ig lins values jg, length values = length lins -> (jg <= ig < jg + length lins)%nat -> skip_term h ig jg lins values = h (nth (ig - jg) lins 0) * nth (ig - jg) values 0.
Proof.
  intros h ig. assert (Z : forall lins values jg, (ig < jg)%nat -> skip_term h ig jg lins values = 0).
  { induction lins as [| l lins IH]; intros [| v values] jg H; cbn [skip_term]; try reflexivity. destruct (Nat.eqb_spec jg ig); [lia |]. rewrite IH by lia. ring. }
  induction lins as [| l lins IH]; intros [| v values] jg L H; cbn in L, H; try discriminate; [lia |]. cbn [skip_term].
  destruct (Nat.eqb_spec jg ig) as [-> | D].
  - rewrite Z by lia. rewrite Nat.sub_diag. cbn [nth]. ring.
  - rewrite IH by (congruence || lia). replace (ig - jg)%nat with (S (ig - S jg)) by lia. cbn [nth]. ring.
Qed.
Lemma eta_inner_spec : forall p e l ig lins values jg r, length values = length lins ->
  eta_inner p e l ig jg lins values r
  = Some (r + c_L p * (wsum (fun x => hm e * d2omega_m_ij p e l x + epsilon p e * d2zeta_ij p l x) lins values
                       - skip_term (fun x => hm e * d2omega_m_ij p e l x + epsilon p e * d2zeta_ij p l x) ig jg lins values)).
Proof.
  intros p e l ig. induction lins as [| lj lins IH]; intros [| v values] jg r H; cbn in H; try discriminate; cbn [eta_inner wsum skip_term]; [f_equal; ring |].
  rewrite IH by congruence. f_equal. destruct (Nat.eqb jg ig); ring.
Qed.
Definition eta_lin (p : gq_data) (e : gq_eval) (weight phi : R) (etas values : list R) (v0 v1 l v : R) : R :=
  v * weight
  + c_L p * (dhm e * domega_m p e l + hm e * d2omega_m_ij p e l phi + depsilon p e * dzeta p e l + epsilon p e * d2zeta_ij p l phi) * v0
  + c_L p * (hm e * d2omega_m_dmu p e l) * v1
  + c_L p * (hm e * d2omega_m_ii p e l + epsilon p e * d2zeta_ii p e l) * v
  + c_L p * (wsum (fun x => hm e * d2omega_m_ij p e l x + epsilon p e * d2zeta_ij p l x) etas values
             - (hm e * d2omega_m_ij p e l l + epsilon p e * d2zeta_ij p l l) * v).
Fixpoint eta_lins (p : gq_data) (e : gq_eval) (weight phi : R) (etas values : list R) (v0 v1 : R) (lins vs : list R) : list R :=
  match lins, vs with l :: lins, v :: vs => eta_lin p e weight phi etas values v0 v1 l v :: eta_lins p e weight phi etas values v0 v1 lins vs | _, _ => [] end.
Lemma eta_rows_lin_spec : forall p e weight phi etas values v0 v1 lins vs gs ig, length values = length etas -> length vs = length lins -> length gs = length lins ->
  lins = skipn ig etas -> vs = skipn ig values ->
  gq_eta_rows_lin p e weight phi etas values v0 v1 ig lins vs gs = Some (eta_lins p e weight phi etas values v0 v1 lins vs, gq_egrads (c_L p * kappa p e) gs).
Proof.
  intros p e weight phi etas values v0 v1. induction lins as [| l lins IH]; intros [| v vs] [| g gs] ig L1 L2 L3 E1 E2; cbn in L2, L3; try discriminate; [reflexivity |].
  assert (Hi : (ig < length etas)%nat).
  { destruct (Nat.lt_ge_cases ig (length etas)) as [Q | Q]; [exact Q |]. rewrite skipn_all2 in E1 by lia. discriminate. }
  destruct (nth_error_skipn0 etas ig Hi) as [a [A1 A2]]. destruct (nth_error_skipn0 values ig) as [b [B1 B2]]; [lia |].
  assert (X1 : l = a /\ lins = skipn (S ig) etas) by (split; congruence). assert (X2 : v = b /\ vs = skipn (S ig) values) by (split; congruence).
  destruct X1 as [-> X1], X2 as [-> X2].
  cbn [gq_eta_rows_lin eta_lins gq_egrads map]. rewrite eta_inner_spec by exact L1. cbn [obind].
  rewrite (IH vs gs (S ig)) by (assumption || congruence). cbn [obind fst snd].
  rewrite skip_nth by (exact L1 || lia). rewrite Nat.sub_0_r, (nth_error_nth etas ig 0 A1), (nth_error_nth values ig 0 B1). unfold eta_lin.
  do 2 f_equal. 
Qed.
Lemma gq_vmult_point_spec : forall p j0 j1 olds phi mu lins gphi gmu grest v0 v1 values g0 g1 gs w ws,
  c_weights p = w :: ws -> weights_ok p olds -> (forall o, In o olds -> (2 <= length o)%nat) -> length values = length lins -> length gs = length lins ->
  let e := gq_of phi mu lins in
  gq_vmult_point p j0 j1 olds (phi :: mu :: lins) (gphi :: gmu :: grest) (v0 :: v1 :: values) (g0 :: g1 :: gs)
  = Some ((v0 * w
           + c_Lphi p * (d2hb e * omega_b p e + d2hm e * omega_m p e + dhm e * domega_m p e phi + dhm e * domega_m p e phi + hm e * d2omega_m_ii p e phi
               + d2epsilon p e * zeta p e + depsilon p e * dzeta p e phi + depsilon p e * dzeta p e phi + epsilon p e * d2zeta_ii p e phi) * v0
           + c_Lphi p * mu_fac p e phi * v1
           + c_Lphi p * wsum (fun l => dhm e * domega_m p e l + hm e * d2omega_m_ij p e phi l + depsilon p e * dzeta p e l + epsilon p e * d2zeta_ij p phi l) lins values)
          :: (v1 * w * chi p e + (j1 + gq_time p olds 1 mu) * dchi_dphi p e * v0
              - mu_fac p e phi * v0 * w
              - (d2hb e * domega_b_dmu p e + d2hm e * domega_m_dmu p e + dhm e * d2omega_m_dmu p e phi + dhm e * d2omega_m_dmu p e phi
                   + hm e * d3omega_m_dmu_ii p e phi) * v0 * (j0 + gq_time p olds 0 phi)
              - (dhb e * d2omega_b_dmu2 p + dhm e * d2omega_b_dmu2 p) * v1 * (j0 + gq_time p olds 0 phi)
              - (j0 + gq_time p olds 0 phi) * wsum (fun l => dhm e * d2omega_m_dmu p e l + hm e * d3omega_m_dmu_ij p phi l) lins values)
          :: eta_lins p e w phi lins values v0 v1 lins values,
          (fun d => c_Lphi p * dkappa p e * gphi d * v0 + c_Lphi p * kappa p e * g0 d)
          :: flux_loop p e gmu lins 0 values (fun d => mob p phi lins * gmu d * dchi_dphi p e * v0 + mob p phi lins * chi p e * g1 d + chi p e * (dM_surf_dc (c_mobility p) phi * gmu d * v0))
          :: gq_egrads (c_L p * kappa p e) gs).
Proof.
  intros p j0 j1 olds phi mu lins gphi gmu grest v0 v1 values g0 g1 gs w ws Hw W H L1 L2. cbv zeta. unfold gq_vmult_point.
  rewrite Hw at 1. cbn [vget nth_error obind]. rewrite gq_evaluate_spec. cbn [obind].
  rewrite !time_spec by (try assumption; intros o I; specialize (H o I); lia). cbn [obind].
  rewrite phi_loop_spec by exact L1. cbn [obind]. rewrite mu_loop_spec by exact L1. cbn [obind].
  rewrite eta_rows_lin_spec by (assumption || reflexivity). cbn [obind fst snd]. unfold mu_fac, mob. reflexivity.
Qed.

(** ** derivatives along a line *)
Lemma vline_0 : forall l v, length v = length l -> vline l v 0 = l.
Proof.
  induction l as [| e r IH]; intros [| v w] H; cbn in H; try discriminate; cbn [vline]; [reflexivity |].
  rewrite IH by congruence. f_equal. ring.
Qed.
Lemma prodsum_dotp : forall l m, prodsum l m = dotp l m.
Proof. reflexivity. Qed.

Lemma derivable_neg : forall g x a, derivable_pt_lim g x a -> derivable_pt_lim (fun t => - g t) x (- a).
Proof. intros g x a H. apply (derivable_ext (fun t => g t * - 1)); [intros; ring |]. replace (- a) with (a * - 1) by ring. apply derivable_scal. exact H. Qed.
Lemma derivable_divc : forall g x a k, derivable_pt_lim g x a -> derivable_pt_lim (fun t => g t / k) x (a / k).
Proof. intros. unfold Rdiv. apply derivable_scal. assumption. Qed.
Ltac der :=
  first [ eassumption
        | apply derivable_const0
        | apply derivable_line
        | apply derivable_neg; der
        | apply derivable_divc; der
        | apply derivable_scal; der
        | apply derivable_scal_l; der
        | apply derivable_plus; der
        | apply derivable_minus; der
        | apply derivable_mult; der ].

(** differences between the product and the derivative: values of the first two rows *)
Definition phi_defect (p : gq_data) (e : gq_eval) (phi : R) (etas : list R) (v0 : R) (values : list R) : R :=
  c_Lphi p * depsilon p e
  * wsum (fun x => - 3 * (x * x * x) - x - 2 * c_gamma p * x * (z_s2 e - x * x)) (phi :: etas) (v0 :: values).
Definition mu_defect (p : gq_data) (e : gq_eval) (dphi_dt v1 : R) : R :=
  - dhm e * (1 / (c_Va p * c_Va p * c_km p) - 1 / (c_Va p * c_Va p * c_kb p)) * v1 * dphi_dt.

Section Line.
Variables (p : gq_data) (olds : list (list R)) (phi mu v0 v1 : R) (etas vs : list R).
Hypothesis Hv : c_Va p <> 0.
Hypothesis Hb : c_kb p <> 0.
Hypothesis Hm : c_km p <> 0.
Hypothesis Hl : length vs = length etas.
Let E t := gq_of (phi + t * v0) (mu + t * v1) (vline etas vs t).
Let e := gq_of phi mu etas.

Lemma s2_line : derivable_pt_lim (fun t => psum 2 ((phi + t * v0) :: vline etas vs t)) 0 (2 * (phi * v0 + dotp etas vs)).
Proof. assert (H : length (v0 :: vs) = length (phi :: etas)) by (cbn; congruence). exact (psum2_deriv _ _ H). Qed.
Lemma s4_line : derivable_pt_lim (fun t => psum 4 ((phi + t * v0) :: vline etas vs t)) 0 (4 * dotp3 (phi :: etas) (v0 :: vs)).
Proof. assert (H : length (v0 :: vs) = length (phi :: etas)) by (cbn; congruence). exact (psum4_deriv _ _ H). Qed.
Lemma mix_line : derivable_pt_lim (fun t => mix ((phi + t * v0) :: vline etas vs t)) 0
  (2 * psum 2 (phi :: etas) * (phi * v0 + dotp etas vs) - 2 * dotp3 (phi :: etas) (v0 :: vs)).
Proof. assert (H : length (v0 :: vs) = length (phi :: etas)) by (cbn; congruence). exact (mix_deriv _ _ H). Qed.

Ltac start :=
  pose proof s2_line as X2; pose proof s4_line as X4; pose proof mix_line as XM;
  assert (P1 : 0 < 1) by lra; assert (P3 : 0 < 3 / 10) by lra;
  pose proof (H_line 1 phi v0 P1) as A1; pose proof (dH_line 1 phi v0 P1) as A2;
  pose proof (H_line (3 / 10) phi v0 P3) as A3; pose proof (dH_line (3 / 10) phi v0 P3) as A4.
Ltac fin := cbv beta; rewrite ?(vline_0 etas vs Hl); replace (phi + 0 * v0) with phi by ring; replace (mu + 0 * v1) with mu by ring.

Lemma phi_row_deriv :
  derivable_pt_lim (fun t => gq_time p olds 0 (phi + t * v0) + phi_res p (E t) (phi + t * v0)) 0
   (v0 * hd 0 (c_weights p)
           + c_Lphi p * (d2hb e * omega_b p e + d2hm e * omega_m p e + dhm e * domega_m p e phi + dhm e * domega_m p e phi + hm e * d2omega_m_ii p e phi
               + d2epsilon p e * zeta p e + depsilon p e * dzeta p e phi + depsilon p e * dzeta p e phi + epsilon p e * d2zeta_ii p e phi) * v0
           + c_Lphi p * mu_fac p e phi * v1
           + c_Lphi p * wsum (fun l => dhm e * domega_m p e l + hm e * d2omega_m_ij p e phi l + depsilon p e * dzeta p e l + epsilon p e * d2zeta_ij p phi l) etas vs
    - phi_defect p e phi etas v0 vs).
Proof.
  start. unfold phi_defect. cbn [wsum].
  rewrite (wsum_poly (fun l => dhm e * domega_m p e l + hm e * d2omega_m_ij p e phi l + depsilon p e * dzeta p e l + epsilon p e * d2zeta_ij p phi l)
     (dhm e * (- 1 * (-16 * (c_ceq_GB p - c_ceq_B p) * (1 - z_s2 e)) * mu / c_Va p) + hm e * (- 1 * (32 * (c_ceq_GB p - c_ceq_B p) * phi) * mu / c_Va p)
      + depsilon p e * (- 1 + 2 * c_gamma p * z_s2 e) + epsilon p e * (4 * c_gamma p * phi))
     (depsilon p e * (1 - 2 * c_gamma p))) by (intros x; unfold domega_m, d2omega_m_ij, dcm_eq, d2cm_eq_ij, dzeta, d2zeta_ij, e, gq_of; cbn [z_mu z_s2]; field; exact Hv).
  rewrite (wsum_poly (fun x => - 3 * (x * x * x) - x - 2 * c_gamma p * x * (z_s2 e - x * x)) (- 1 - 2 * c_gamma p * z_s2 e) (- 3 + 2 * c_gamma p)) by (intros x; ring).
  unfold gq_time, phi_res, mu_fac, dhb, dhm, d2hb, d2hm, hm, hb, omega_b, omega_m, domega_m, domega_b_dmu, domega_m_dmu, d2omega_m_dmu, d2omega_m_ii, epsilon, depsilon, d2epsilon, switching, dswitching, d2switching,
    cm_eq, dcm_eq, d2cm_eq_ii, zeta, dzeta, d2zeta_ii, E, e, gq_of.
  cbn [z_phi z_mu z_s2 z_s4 z_mixed].
  eapply derivable_eq; [| der].
  fin. cbn [dotp3]. field. auto.
Qed.

Lemma mu_row_deriv :
  derivable_pt_lim (fun t => gq_time p olds 1 (mu + t * v1) * chi p (E t) - gq_time p olds 0 (phi + t * v0) * mu_fac p (E t) (phi + t * v0)) 0
   (v1 * hd 0 (c_weights p) * chi p e + (0 + gq_time p olds 1 mu) * dchi_dphi p e * v0
              - mu_fac p e phi * v0 * hd 0 (c_weights p)
              - (d2hb e * domega_b_dmu p e + d2hm e * domega_m_dmu p e + dhm e * d2omega_m_dmu p e phi + dhm e * d2omega_m_dmu p e phi
                   + hm e * d3omega_m_dmu_ii p e phi) * v0 * (0 + gq_time p olds 0 phi)
              - (dhb e * d2omega_b_dmu2 p + dhm e * d2omega_b_dmu2 p) * v1 * (0 + gq_time p olds 0 phi)
              - (0 + gq_time p olds 0 phi) * wsum (fun l => dhm e * d2omega_m_dmu p e l + hm e * d3omega_m_dmu_ij p phi l) etas vs
    - mu_defect p e (gq_time p olds 0 phi) v1).
Proof.
  start. unfold mu_defect.
  rewrite (wsum_poly (fun l => dhm e * d2omega_m_dmu p e l + hm e * d3omega_m_dmu_ij p phi l)
     (dhm e * (- 1 * (-16 * (c_ceq_GB p - c_ceq_B p) * (1 - z_s2 e)) / c_Va p) + hm e * (- 1 * (32 * (c_ceq_GB p - c_ceq_B p) * phi) / c_Va p)) 0)
    by (intros x; unfold d2omega_m_dmu, d3omega_m_dmu_ij, dcm_eq, d2cm_eq_ij, e, gq_of; cbn [z_mu z_s2]; field; exact Hv).
  unfold gq_time, chi, dchi_dphi, mu_fac, dhb, dhm, d2hb, d2hm, hm, hb, domega_b_dmu, domega_m_dmu, d2omega_m_dmu, d2omega_b_dmu2, d3omega_m_dmu_ii, cm_eq, dcm_eq, d2cm_eq_ii, dhm, E, e, gq_of.
  cbn [z_phi z_mu z_s2 z_s4 z_mixed].
  eapply derivable_eq; [| der].
  fin. field. auto.
Qed.
Lemma eta_row_deriv : forall ic l v,
  derivable_pt_lim (fun t => gq_time p olds ic (l + t * v) + eta_res p (E t) (l + t * v)) 0 (eta_lin p e (hd 0 (c_weights p)) phi etas vs v0 v1 l v).
Proof.
  intros ic l v. start. unfold eta_lin.
  rewrite (wsum_poly (fun x => hm e * d2omega_m_ij p e l x + epsilon p e * d2zeta_ij p l x)
     (hm e * (- 1 * (32 * (c_ceq_GB p - c_ceq_B p) * l) * mu / c_Va p) + epsilon p e * (4 * c_gamma p * l)) 0)
    by (intros x; unfold d2omega_m_ij, d2cm_eq_ij, d2zeta_ij, e, gq_of; cbn [z_mu z_s2]; field; exact Hv).
  unfold gq_time, eta_res, dhm, hm, domega_m, d2omega_m_dmu, d2omega_m_ij, d2omega_m_ii, d2zeta_ij, d2zeta_ii, dzeta, epsilon, depsilon, switching, dswitching, cm_eq, dcm_eq, d2cm_eq_ii, d2cm_eq_ij, E, e, gq_of.
  cbn [z_phi z_mu z_s2 z_s4 z_mixed].
  eapply derivable_eq; [| der].
  fin. replace (l + 0 * v) with l by ring. field. auto.
Qed.
Lemma phi_flux_deriv : forall a b,
  derivable_pt_lim (fun t => c_Lphi p * kappa p (E t) * (a + t * b)) 0 (c_Lphi p * dkappa p e * a * v0 + c_Lphi p * kappa p e * b).
Proof.
  intros a b. start. unfold kappa, dkappa, switching, dswitching, E, e, gq_of. cbn [z_phi z_mu z_s2 z_s4 z_mixed].
  eapply derivable_eq; [| der]. fin. ring.
Qed.
Lemma eta_flux_deriv : forall a b,
  derivable_pt_lim (fun t => c_L p * kappa p (E t) * (a + t * b)) 0 (c_L p * kappa p e * b - - (c_L p * dkappa p e * a * v0)).
Proof.
  intros a b. start. unfold kappa, dkappa, switching, dswitching, E, e, gq_of. cbn [z_phi z_mu z_s2 z_s4 z_mixed].
  eapply derivable_eq; [| der]. fin. ring.
Qed.
Lemma mu_flux_deriv : forall a b,
  derivable_pt_lim (fun t => chi p (E t) * mob p (phi + t * v0) (vline etas vs t) * (a + t * b)) 0
   (mob p phi etas * a * dchi_dphi p e * v0 + mob p phi etas * chi p e * b + chi p e * (dM_surf_dc (c_mobility p) phi * a * v0)
    + chi p e * a * (2 * m_gb (c_mobility p)) * (rsum etas * rsum vs - dotp etas vs)).
Proof.
  intros a b. start. pose proof (eta_ij_deriv etas vs Hl) as XE. rewrite prodsum_dotp in XE.
  unfold mob, chi, dchi_dphi, hb, hm, dhb, dhm, M_surf, M_gb, dM_surf_dc, E, e, gq_of. cbn [z_phi z_mu z_s2 z_s4 z_mixed].
  eapply derivable_eq; [| der]. fin. field. auto.
Qed.
End Line.
