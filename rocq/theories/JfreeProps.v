(** Properties of finite difference products and tangents (C69). *)
From Coq Require Import String List Reals Arith Bool Permutation FunctionalExtensionality Lia Lra.
From Verif Require Import Util OperatorModel OperatorProps JfreeModel JfreeProofs.
Import ListNotations.
Local Open Scope list_scope.
Local Open Scope string_scope.
Local Open Scope R_scope.

(** the residual without and with advection: sums over the cells, the second with the forces
    of the same state *)
Definition resid (cells : list jcell) (u : bvec) (b i : nat) : R := csum (fun c => jc_f c (fun _ => 0) u b i) cells.
Definition resid_adv (cells : list jcell) (u : bvec) (b i : nat) : R := csum (fun c => jc_f c (fun s => csum (fun c => jc_g c u s) cells) u b i) cells.
Definition along (u src : bvec) (t : R) : bvec := fun b i => u b i + t * src b i.
Definition known (algo : string) : Prop := algo = "bs" \/ algo = "pw".

(** ** Step length *)
Lemma e8 : 0 < / 10 ^ 8. Proof. apply Rinv_0_lt_compat, pow_lt. lra. Qed.
Lemma e6 : 0 < / 10 ^ 6. Proof. apply Rinv_0_lt_compat, pow_lt. lra. Qed.

Theorem C69_step : forall algo nb n u src, known algo ->
  exists h, jf_step algo nb n u src = Some h /\ (h = 0 <-> vanishes nb n src).
Proof.
  intros algo nb n u src K. unfold jf_step, step_length.
  destruct K as [-> | -> ]; cbn [String.eqb Ascii.eqb Bool.eqb]; cbv zeta.
  - destruct (Req_EM_T (l2_norm nb n src) 0) as [Z | Z]; [exists 0; split; [reflexivity |]; split; [intros _; apply l2_zero, Z | reflexivity] |].
    assert (V : ~ vanishes nb n src) by (intros V; apply Z, l2_zero, V). pose proof (l2_pos _ _ _ V) as P2. pose proof (l1_pos _ _ _ V) as P1. pose proof e8 as E8. pose proof e6 as E6.
    destruct (Rlt_dec (/ 10 ^ 6 * l1_norm nb n src) (Rabs (inner nb n u src))) as [B | B]; (eexists; split; [reflexivity |]); (split; [| intros; contradiction]); intros H; exfalso.
    + assert (inner nb n u src <> 0) by (intros X; rewrite X, Rabs_R0 in B; nra).
      apply Rmult_integral in H. destruct H as [H | H]; [lra |]. unfold Rdiv in H. apply Rmult_integral in H. destruct H as [H | H]; [contradiction |]. revert H. apply Rinv_neq_0_compat. nra.
    + apply Rmult_integral in H. destruct H as [H | H]; [lra |]. unfold Rdiv in H. apply Rmult_integral in H. destruct H as [H | H]; [| revert H; apply Rinv_neq_0_compat; nra].
      destruct (Rle_dec 0 (inner nb n u src)); nra.
  - destruct (Req_EM_T (l2_norm nb n src) 0) as [Z | Z]; [exists 0; split; [reflexivity |]; split; [intros _; apply l2_zero, Z | reflexivity] |].
    assert (V : ~ vanishes nb n src) by (intros V; apply Z, l2_zero, V). pose proof (l2_pos _ _ _ V) as P2. pose proof e8 as E8.
    assert (0 < sqrt (1 + l2_norm nb n u)) by (apply sqrt_lt_R0; pose proof (sqrt_pos (inner nb n u u)); unfold l2_norm; lra).
    eexists; split; [reflexivity |]; split; [| intros; contradiction]. intros H'. exfalso. assert (0 < sqrt (1 + l2_norm nb n u) / l2_norm nb n src) by (apply Rdiv_lt_0_compat; assumption). nra.
Qed.
Print Assumptions C69_step.

Theorem C69_perturbation_size : forall nb n u src, ~ vanishes nb n src ->
  exists h, jf_step "pw" nb n u src = Some h /\ 0 < h /\ h * l2_norm nb n src = / 10 ^ 8 * sqrt (1 + l2_norm nb n u).
Proof.
  intros nb n u src V. unfold jf_step, step_length. cbn [String.eqb Ascii.eqb Bool.eqb]. cbv zeta. pose proof (l2_pos _ _ _ V) as P. pose proof e8 as E8.
  destruct (Req_EM_T (l2_norm nb n src) 0) as [Z | Z]; [lra |]. eexists; split; [reflexivity |].
  assert (0 < sqrt (1 + l2_norm nb n u)) by (apply sqrt_lt_R0; pose proof (sqrt_pos (inner nb n u u)); unfold l2_norm; lra).
  split; [apply Rmult_lt_0_compat; [exact E8 | apply Rdiv_lt_0_compat; assumption] |]. set (q := sqrt _). field. exact Z.
Qed.
Print Assumptions C69_perturbation_size.
Theorem C69_unknown_step : forall algo nb n u src, ~ known algo -> jf_step algo nb n u src = None.
Proof.
  intros algo nb n u src K. unfold jf_step, step_length. cbv zeta.
  destruct (String.eqb_spec algo "bs") as [-> | A]; [exfalso; apply K; left; reflexivity |]. destruct (String.eqb_spec algo "pw") as [-> | B]; [exfalso; apply K; right; reflexivity | reflexivity].
Qed.
Print Assumptions C69_unknown_step.

(** ** Products *)
Lemma inv_comm : forall a h, a * (1 / h) = a / h. Proof. intros. unfold Rdiv. ring. Qed.

Theorem C69_fused : forall algo k nb n ncb cells evs res u src dst,
  known algo -> has_pre_post k = true -> (forall c, In c cells -> cell_wf nb n c) -> schedule n cells evs ->
  exists d v, jf_vmult algo k nb n ncb cells evs res u src dst = Some (d, v)
    /\ (forall b i, v b i = u b i)
    /\ (vanishes nb n src -> forall b i, d b i = 0)
    /\ (~ vanishes nb n src -> exists h, jf_step algo nb n u src = Some h /\ h <> 0
          /\ forall b i, (b < nb)%nat -> (i < n)%nat -> d b i = (resid cells (along u src h) b i - res b i) / h).
Proof.
  intros algo k nb n ncb cells evs res u src dst K P W [L Pm].
  destruct (C69_step algo nb n u src K) as [h [Eh Zh]]. unfold jf_vmult. rewrite Eh. cbn [obind].
  destruct (Req_EM_T h 0) as [Z | Z].
  - exists zero_vec, u. split; [reflexivity |]. split; [reflexivity |]. split; [reflexivity |]. intros V. exfalso. apply V, Zh, Z.
  - unfold wrapper_base. rewrite P. cbn [obind].
    destruct (run_residual nb n h src res u (fun _ => 0) Z evs (fun _ => Fresh) [] (mkMachine dst u (fun _ => 0))) as [A B];
      [intros c I; apply W; exact (Permutation_in _ Pm I) | exact L | apply start_u; reflexivity | apply start_dst | reflexivity |].
    eexists; eexists; split; [reflexivity |]. split; [exact A |]. split; [intros V; exfalso; apply Z, Zh, V |].
    intros _. exists h. split; [reflexivity |]. split; [exact Z |]. intros b i Hb Hi. rewrite B by assumption. cbn [app]. unfold resid.
    rewrite (csum_perm _ _ _ Pm). reflexivity.
Qed.
Print Assumptions C69_fused.

Lemma run_x_acc : forall nb h src res evs m, x_acc (run nb h src res false evs m) = x_acc m.
Proof. intros nb h src res evs. induction evs as [| [lo hi | c | lo hi] evs IH]; intros m; cbn [run step_event]; [reflexivity | rewrite IH; reflexivity ..]. Qed.

Theorem C69_advection : forall algo k nb n ncb cells evs1 evs2 res u src dst,
  known algo -> has_pre_post k = true -> (forall c, In c cells -> cell_wf nb n c) -> schedule n cells evs1 -> schedule n cells evs2 ->
  exists d v, jf_vmult_advection algo k nb n ncb cells evs1 evs2 res u src dst = Some (d, v)
    /\ (forall b i, v b i = u b i)
    /\ (vanishes nb n src -> forall b i, d b i = 0)
    /\ (~ vanishes nb n src -> exists h, jf_step algo nb n u src = Some h /\ h <> 0
          /\ forall b i, (b < nb)%nat -> (i < n)%nat -> d b i = (resid_adv cells (along u src h) b i - res b i) / h).
Proof.
  intros algo k nb n ncb cells evs1 evs2 res u src dst K P W [L1 Pm1] [L2 Pm2].
  destruct (C69_step algo nb n u src K) as [h [Eh Zh]]. unfold jf_vmult_advection. rewrite Eh. cbn [obind].
  destruct (Req_EM_T h 0) as [Z | Z].
  - exists zero_vec, u. split; [reflexivity |]. split; [reflexivity |]. split; [reflexivity |]. intros V. exfalso. apply V, Zh, Z.
  - unfold wrapper_advection, wrapper_base. rewrite P. cbn [obind x_dst x_u]. set (m0 := mkMachine dst u (fun _ => 0)).
    destruct (run_forces nb n h src res u (fun _ => 0) evs1 (fun _ => Fresh) m0) as [A1 B1];
      [intros c I; apply W; exact (Permutation_in _ Pm1 I) | exact L1 | apply start_u; reflexivity |].
    set (m1 := run nb h src res true evs1 m0) in *.
    assert (EA : x_acc m1 = (fun s => csum (fun c => jc_g c (along u src h) s) cells)).
    { apply functional_extensionality. intros s. rewrite B1. cbn [m0 x_acc]. rewrite Rplus_0_l, (csum_perm _ _ _ Pm1). reflexivity. }
    destruct (run_residual nb n h src res u (x_acc m1) Z evs2 (fun _ => Fresh) [] m1) as [A B];
      [intros c I; apply W; exact (Permutation_in _ Pm2 I) | exact L2 | apply start_u; exact A1 | apply start_dst | reflexivity |].
    eexists; eexists; split; [reflexivity |]. split; [exact A |]. split; [intros V; exfalso; apply Z, Zh, V |].
    intros _. exists h. split; [reflexivity |]. split; [exact Z |]. intros b i Hb Hi. rewrite B by assumption. cbn [app]. unfold resid_adv.
    rewrite (csum_perm _ _ _ Pm2), EA. reflexivity.
Qed.
Print Assumptions C69_advection.

(** the version without the two functions computes the same *)
Theorem C69_plain : forall algo k nb n ncb cells evs res u src dst h d v,
  known algo -> has_pre_post k = true -> (forall c, In c cells -> cell_wf nb n c) -> schedule n cells evs ->
  jf_step algo nb n u src = Some h -> h <> 0 -> jf_vmult algo k nb n ncb cells evs res u src dst = Some (d, v) ->
  forall b i, fst (jf_vmult_plain (resid cells) h res u src) b i = (resid cells (along u src h) b i - res b i) / h
    /\ snd (jf_vmult_plain (resid cells) h res u src) b i = u b i
    /\ ((b < nb)%nat -> (i < n)%nat -> d b i = fst (jf_vmult_plain (resid cells) h res u src) b i).
Proof.
  intros algo k nb n ncb cells evs res u src dst h d v K P W S_ Eh Z E b i.
  assert (X : fst (jf_vmult_plain (resid cells) h res u src) b i = (resid cells (along u src h) b i - res b i) / h).
  { unfold jf_vmult_plain, along. cbn [fst]. unfold Rdiv. ring. }
  split; [exact X |]. split; [unfold jf_vmult_plain; cbn [snd]; ring |]. intros Hb Hi. rewrite X.
  destruct (C69_fused algo k nb n ncb cells evs res u src dst K P W S_) as [d' [v' [E' [_ [_ H]]]]]. rewrite E in E'. injection E' as <- <-.
  destruct H as [h' [Eh' [_ F]]]; [| rewrite Eh in Eh'; injection Eh' as <-; apply F; assumption].
  intros V. destruct (C69_step algo nb n u src K) as [h' [Eh' Zh']]. rewrite Eh in Eh'. injection Eh' as <-. apply Z, Zh', V.
Qed.
Print Assumptions C69_plain.

Lemma resid_ext : forall nb n cells u u', (forall c, In c cells -> cell_wf nb n c) -> (forall b i, (b < nb)%nat -> (i < n)%nat -> u b i = u' b i) ->
  forall b i, resid cells u b i = resid cells u' b i.
Proof.
  intros nb n cells u u' W H b i. unfold resid. apply csum_ext. intros c I. destruct (W c I) as [C1 [C2 _]].
  apply (C2 (fun _ => 0) u u'). intros. apply H; [assumption | apply C1; assumption].
Qed.

(** exact for affine residuals *)
Theorem C69_affine : forall algo k nb n ncb cells evs u src dst (K : bvec -> bvec),
  known algo -> has_pre_post k = true -> (forall c, In c cells -> cell_wf nb n c) -> schedule n cells evs ->
  (forall u s t b i, resid cells (along u s t) b i = resid cells u b i + t * K s b i) ->
  exists d v, jf_vmult algo k nb n ncb cells evs (resid cells u) u src dst = Some (d, v)
    /\ forall b i, (b < nb)%nat -> (i < n)%nat -> d b i = K src b i.
Proof.
  intros algo k nb n ncb cells evs u src dst K Ka P W S_ HK.
  destruct (C69_fused algo k nb n ncb cells evs (resid cells u) u src dst Ka P W S_) as [d [v [E [_ [H0 H1]]]]].
  exists d, v. split; [exact E |]. intros b i Hb Hi. destruct (vanishes_dec nb n src) as [V | V].
  - rewrite (H0 V). pose proof (HK u src 1 b i) as H. rewrite (resid_ext nb n cells (along u src 1) u W) in H; [lra |].
    intros b' i' Hb' Hi'. unfold along. rewrite V by assumption. ring.
  - destruct (H1 V) as [h [_ [Z F]]]. rewrite F by assumption. rewrite HK. field. exact Z.
Qed.
Print Assumptions C69_affine.

(** error of the product for smooth residuals *)
Lemma mvt_error : forall (F F' : R -> R) h M, h <> 0 -> (forall t, derivable_pt_lim F t (F' t)) ->
  (forall t, Rabs t <= Rabs h -> Rabs (F' t - F' 0) <= M * Rabs t) -> 0 <= M -> Rabs ((F h - F 0) / h - F' 0) <= M * Rabs h.
Proof.
  intros F F' h M Z D B HM.
  destruct (MVT_cor2 (fun t => F (t * h)) (fun t => h * F' (t * h)) 0 1) as [c [E [C0 C1]]]; [lra | |].
  - intros c _. replace (h * F' (c * h)) with (F' (c * h) * h) by ring.
    apply (derivable_pt_lim_comp (fun t => t * h) F); [| apply D].
    intros e He. exists (mkposreal 1 Rlt_0_1). intros k Hk _. replace (((c + k) * h - c * h) / k - h) with 0 by (field; exact Hk). rewrite Rabs_R0. exact He.
  - rewrite Rmult_1_l, Rmult_0_l in E. replace ((F h - F 0) / h) with (F' (c * h)) by (rewrite E; field; exact Z).
    assert (A : Rabs (c * h) <= Rabs h) by (rewrite Rabs_mult, (Rabs_right c) by lra; pose proof (Rabs_pos h); nra).
    eapply Rle_trans; [apply B, A |]. apply Rmult_le_compat_l; assumption.
Qed.
Theorem C69_error : forall k nb n ncb cells evs u src dst b i (F' : R -> R) M,
  has_pre_post k = true -> (forall c, In c cells -> cell_wf nb n c) -> schedule n cells evs ->
  (b < nb)%nat -> (i < n)%nat -> ~ vanishes nb n src ->
  (forall t, derivable_pt_lim (fun t => resid cells (along u src t) b i) t (F' t)) ->
  0 <= M -> (forall t, Rabs (F' t - F' 0) <= M * Rabs t) ->
  exists d v, jf_vmult "pw" k nb n ncb cells evs (resid cells u) u src dst = Some (d, v)
    /\ Rabs (d b i - F' 0) <= M * (/ 10 ^ 8 * sqrt (1 + l2_norm nb n u) / l2_norm nb n src).
Proof.
  intros k nb n ncb cells evs u src dst b i F' M P W S_ Hb Hi V D HM B.
  destruct (C69_fused "pw" k nb n ncb cells evs (resid cells u) u src dst (or_intror eq_refl) P W S_) as [d [v [E [_ [_ H1]]]]].
  exists d, v. split; [exact E |]. destruct (H1 V) as [h [Eh [Z F]]]. rewrite F by assumption.
  destruct (C69_perturbation_size nb n u src V) as [h' [Eh' [Hp Hs]]]. rewrite Eh in Eh'. injection Eh' as <-. pose proof (l2_pos _ _ _ V) as P2.
  replace (/ 10 ^ 8 * sqrt (1 + l2_norm nb n u) / l2_norm nb n src) with (Rabs h) by (rewrite <- Hs, Rabs_right by lra; field; lra).
  assert (Z0 : resid cells u b i = resid cells (along u src 0) b i) by (apply (resid_ext nb n); [exact W |]; intros; unfold along; ring).
  rewrite Z0. apply (mvt_error (fun t => resid cells (along u src t) b i)); try assumption. intros. apply B.
Qed.
Print Assumptions C69_error.

(** ** Scaling of the source *)
Lemma l2_scale : forall nb n x c, l2_norm nb n (fun b i => c * x b i) = Rabs c * l2_norm nb n x.
Proof.
  intros. unfold l2_norm, inner. rewrite (bsum_ext nb n _ (fun b i => (c * c) * (x b i * x b i))) by (intros; ring). rewrite bsum_scale.
  rewrite sqrt_mult_alt by nra. f_equal. replace (c * c) with (Rsqr c) by reflexivity. apply sqrt_Rsqr_abs.
Qed.
Lemma l1_scale : forall nb n x c, l1_norm nb n (fun b i => c * x b i) = Rabs c * l1_norm nb n x.
Proof. intros. unfold l1_norm. rewrite <- bsum_scale. apply bsum_ext. intros. apply Rabs_mult. Qed.
Lemma inner_scale : forall nb n u x c, inner nb n u (fun b i => c * x b i) = c * inner nb n u x.
Proof. intros. unfold inner. rewrite <- bsum_scale. apply bsum_ext. intros. ring. Qed.

Lemma step_scale : forall algo nb n u src c h, known algo -> (0 < c \/ (algo = "bs" /\ c <> 0 /\ inner nb n u src <> 0)) ->
  jf_step algo nb n u src = Some h -> jf_step algo nb n u (fun b i => c * src b i) = Some (h / c).
Proof.
  intros algo nb n u src c h K C. assert (Zc : c <> 0) by (destruct C as [C | [_ [C _]]]; [lra | exact C]). pose proof (Rabs_pos_lt c Zc) as Pc.
  unfold jf_step, step_length. rewrite l2_scale, l1_scale, inner_scale. set (l2 := l2_norm nb n src) in *. set (l1 := l1_norm nb n src) in *. set (ua := inner nb n u src) in *. set (ul := l2_norm nb n u).
  assert (Sq : Rabs c * l2 * (Rabs c * l2) = c * c * (l2 * l2)) by (transitivity ((Rabs c * Rabs c) * (l2 * l2)); [ring |]; rewrite <- Rabs_mult, (Rabs_right (c * c)) by nra; reflexivity).
  destruct K as [-> | -> ]; cbn [String.eqb Ascii.eqb Bool.eqb]; cbv zeta.
  - destruct (Req_EM_T l2 0) as [Z | Z]; destruct (Req_EM_T (Rabs c * l2) 0) as [Z' | Z'].
    { intros E. injection E as <-. f_equal. unfold Rdiv. ring. }
    { exfalso. apply Z'. rewrite Z. ring. }
    { exfalso. apply Rmult_integral in Z'. lra. }
    rewrite Sq, Rabs_mult.
    destruct (Rlt_dec (/ 10 ^ 6 * l1) (Rabs ua)) as [B | B]; destruct (Rlt_dec (/ 10 ^ 6 * (Rabs c * l1)) (Rabs c * Rabs ua)) as [B' | B']; try (exfalso; nra).
    + intros E. injection E as <-. f_equal. field. repeat split; first [exact Zc | exact Z].
    + intros E. injection E as <-. f_equal.
      assert (Sg : (if Rle_dec 0 (c * ua) then 1 else -1) * Rabs c = (if Rle_dec 0 ua then 1 else -1) * c).
      { destruct C as [C | [_ [_ C]]]; [rewrite (Rabs_right c) by lra; destruct (Rle_dec 0 ua), (Rle_dec 0 (c * ua)); try reflexivity; exfalso; nra |].
        unfold Rabs. destruct (Rcase_abs c); destruct (Rle_dec 0 ua), (Rle_dec 0 (c * ua)); try lra; exfalso; nra. }
      replace (/ 10 ^ 6 * (if Rle_dec 0 (c * ua) then 1 else -1) * (Rabs c * l1)) with (/ 10 ^ 6 * ((if Rle_dec 0 (c * ua) then 1 else -1) * Rabs c) * l1) by ring.
      rewrite Sg. set (sg := if Rle_dec 0 ua then 1 else -1). field. repeat split; first [exact Zc | exact Z].
  - assert (Cp : 0 < c) by (destruct C as [C | [C _]]; [exact C | discriminate]). rewrite (Rabs_right c) by lra.
    destruct (Req_EM_T l2 0) as [Z | Z]; destruct (Req_EM_T (c * l2) 0) as [Z' | Z'].
    + intros E. injection E as <-. f_equal. unfold Rdiv. ring.
    + exfalso. apply Z'. rewrite Z. ring.
    + exfalso. apply Rmult_integral in Z'. lra.
    + intros E. injection E as <-. f_equal. set (q := sqrt _). field. repeat split; first [exact Zc | exact Z].
Qed.
Theorem C69_homogeneous : forall algo k nb n ncb cells evs res u src dst dst' c d v d' v',
  known algo -> has_pre_post k = true -> (forall c, In c cells -> cell_wf nb n c) -> schedule n cells evs ->
  (0 < c \/ (algo = "bs" /\ c <> 0 /\ inner nb n u src <> 0)) ->
  jf_vmult algo k nb n ncb cells evs res u src dst = Some (d, v) ->
  jf_vmult algo k nb n ncb cells evs res u (fun b i => c * src b i) dst' = Some (d', v') ->
  forall b i, (b < nb)%nat -> (i < n)%nat -> d' b i = c * d b i.
Proof.
  intros algo k nb n ncb cells evs res u src dst dst' c d v d' v' K P W S_ C E E' b i Hb Hi.
  assert (Zc : c <> 0) by (destruct C as [C | [_ [C _]]]; [lra | exact C]).
  destruct (C69_fused algo k nb n ncb cells evs res u src dst K P W S_) as [x [y [X [_ [H0 H1]]]]]. rewrite E in X. injection X as <- <-.
  destruct (C69_fused algo k nb n ncb cells evs res u (fun b i => c * src b i) dst' K P W S_) as [x [y [X [_ [H0' H1']]]]]. rewrite E' in X. injection X as <- <-.
  destruct (vanishes_dec nb n src) as [V | V].
  - rewrite H0 by exact V. rewrite H0' by (intros b' i' Hb' Hi'; rewrite V by assumption; ring). ring.
  - assert (V' : ~ vanishes nb n (fun b i => c * src b i)).
    { intros V'. apply V. intros b' i' Hb' Hi'. specialize (V' b' i' Hb' Hi'). cbn beta in V'. apply Rmult_integral in V'. destruct V'; [contradiction | assumption]. }
    destruct (H1 V) as [h [Eh [Z F]]]. destruct (H1' V') as [h' [Eh' [Z' F']]].
    rewrite (step_scale _ _ _ _ _ _ _ K C Eh) in Eh'. injection Eh' as <-. rewrite F, F' by assumption.
    rewrite (resid_ext nb n cells (along u (fun b i => c * src b i) (h / c)) (along u src h) W) by (intros; unfold along; field; exact Zc).
    field. repeat split; first [exact Zc | exact Z].
Qed.
Print Assumptions C69_homogeneous.

(** ** Entries that no cell has: constrained entries, for example *)
Theorem C69_untouched : forall algo k nb n ncb cells evs u src dst d v i,
  known algo -> has_pre_post k = true -> (forall c, In c cells -> cell_wf nb n c) -> schedule n cells evs ->
  (forall c, In c cells -> ~ In i (jc_dofs c)) ->
  jf_vmult algo k nb n ncb cells evs (resid cells u) u src dst = Some (d, v) ->
  (forall b, (b < nb)%nat -> (i < n)%nat -> d b i = 0)
  /\ ((forall b j, (b < nb)%nat -> (j < n)%nat -> j <> i -> src b j = 0) -> forall b j, (b < nb)%nat -> (j < n)%nat -> d b j = 0).
Proof.
  intros algo k nb n ncb cells evs u src dst d v i K P W S_ N_ E.
  destruct (C69_fused algo k nb n ncb cells evs (resid cells u) u src dst K P W S_) as [x [y [X [_ [H0 H1]]]]]. rewrite E in X. injection X as <- <-.
  assert (R0 : forall w b, resid cells w b i = 0).
  { intros w b. unfold resid. rewrite (csum_ext _ (fun _ => 0)); [unfold csum; induction cells as [| c l IH]; cbn [fold_right]; [reflexivity | rewrite Rplus_0_l] |].
    - clear -l. induction l as [| c l IH]; cbn [fold_right]; [reflexivity | rewrite IH; ring].
    - intros c I. destruct (W c I) as [_ [_ C3]]. apply C3, N_, I. }
  split.
  - intros b Hb Hi. destruct (vanishes_dec nb n src) as [V | V]; [apply H0, V |]. destruct (H1 V) as [h [_ [Z F]]]. rewrite F, !R0 by assumption. field. exact Z.
  - intros Hs b j Hb Hj. destruct (vanishes_dec nb n src) as [V | V]; [apply H0, V |]. destruct (H1 V) as [h [_ [Z F]]]. rewrite F by assumption.
    replace (resid cells (along u src h) b j) with (resid cells u b j); [field; exact Z |]. unfold resid. apply csum_ext. intros c I.
    destruct (W c I) as [C1 [C2 _]]. apply (C2 (fun _ => 0) u (along u src h)). intros b' i' Hb' Hi'. unfold along.
    rewrite Hs; [ring | exact Hb' | apply C1, Hi' |]. intros ->. exact (N_ c I Hi').
Qed.
Print Assumptions C69_untouched.

(** ** An operator the trait does not accept *)
Theorem C69_fallback : forall algo nb n ncb cells evs res u src dst h,
  known algo -> (ncb <= n)%nat -> jf_step algo nb n u src = Some h -> h <> 0 ->
  let seen := fun b i => if Nat.ltb i ncb then u b i + h * src b i else u b i in
  (forall b i, (nb <= b)%nat -> src b i = 0) ->
  exists d v, jf_vmult algo GrainGrowth nb n ncb cells evs res u src dst = Some (d, v)
    /\ (forall b i, v b i = u b i)
    /\ (forall b i, (b < nb)%nat -> (i < n)%nat ->
          d b i = if Nat.ltb i ncb then (resid cells seen b i - res b i) / h else resid cells seen b i).
Proof.
  intros algo nb n ncb cells evs res u src dst h K Hn Eh Z seen Hs. unfold jf_vmult. rewrite Eh. cbn [obind].
  destruct (Req_EM_T h 0) as [Z' | _]; [contradiction |]. unfold wrapper_base. cbn [has_pre_post]. destruct (Nat.ltb_spec n ncb); [lia |].
  cbn [obind]. eexists; eexists; split; [reflexivity |].
  assert (Es : x_u (pre_op nb h src 0 ncb (mkMachine dst u (fun _ => 0))) = seen).
  { apply functional_extensionality; intros b. apply functional_extensionality; intros i. unfold seen, pre_op, update_range. cbn [x_u].
    destruct (within_spec 0 ncb i), (Nat.ltb_spec i ncb), (Nat.ltb_spec b nb); cbn [andb]; try lia; try reflexivity. rewrite Hs by assumption. ring. }
  split.
  - intros b i. unfold post_op, pre_op, update_range. cbn [x_u]. destruct (Nat.ltb b nb && within 0 ncb i); ring.
  - intros b i Hb Hi. unfold post_op. cbn [x_dst x_acc]. unfold update_range at 1. rewrite Es. cbn [pre_op x_acc].
    destruct (within_spec 0 ncb i), (Nat.ltb_spec i ncb), (Nat.ltb_spec b nb); cbn [andb]; try lia; unfold sum_residual, resid; [apply inv_comm | reflexivity].
Qed.
Print Assumptions C69_fallback.

Definition blocks_ok (nb : nat) (x : bvec) : Prop := forall b i, (nb <= b)%nat -> x b i = 0.

(** a cell with two entries and the residual R(u) = u *)
Definition gg_cell : jcell := mkJcell [0; 1]%nat (fun _ _ => 0) (fun _ u b i => if Nat.ltb b 1 && Nat.ltb i 2 then u b i else 0).
Lemma gg_wf : cell_wf 1 2 gg_cell.
Proof.
  unfold cell_wf. cbn [gg_cell jc_dofs jc_f jc_g]. repeat split.
  - intros i [<- | [<- | []]]; lia.
  - intros b i. destruct (Nat.ltb_spec b 1), (Nat.ltb_spec i 2); cbn [andb]; try reflexivity. apply H; [assumption |]. destruct i as [| [|]]; [left; reflexivity | right; left; reflexivity | lia].
  - intros acc u b i H. destruct (Nat.ltb_spec b 1), (Nat.ltb_spec i 2); cbn [andb]; try reflexivity. exfalso. apply H. destruct i as [| [|]]; [left; reflexivity | right; left; reflexivity | lia].
Qed.
Lemma gg_resid : forall u b i, resid [gg_cell] u b i = if Nat.ltb b 1 && Nat.ltb i 2 then u b i else 0.
Proof. intros. unfold resid, csum. cbn [fold_right gg_cell jc_f]. ring. Qed.
Definition gg_events : list event := [Pre 0 2; Work gg_cell; Post 0 2].
Lemma gg_schedule : schedule 2 [gg_cell] gg_events.
Proof.
  split; [| reflexivity]. cbn [gg_events legal gg_cell jc_dofs]. unfold set_phase. repeat split; try lia.
  - intros i [<- | [<- | []]]; reflexivity.
  - intros i Hi. destruct (within_spec 0 2 i); [reflexivity | lia].
  - intros i Hi. destruct (within_spec 0 2 i); [reflexivity | lia].
Qed.
Definition gg_u : bvec := fun b i => if Nat.eqb b 0 && Nat.eqb i 1 then 2 else 0.
Definition gg_src : bvec := fun b i => if Nat.eqb b 0 && Nat.eqb i 1 then 1 else 0.
Lemma gg_src_nonzero : ~ vanishes 1 2 gg_src.
Proof. intros H. specialize (H 0%nat 1%nat ltac:(lia) ltac:(lia)). unfold gg_src in H. cbn [Nat.eqb andb] in H. lra. Qed.

(** *** With more batches of cells than entries on a process the fallback reaches beyond the
    vector *)
Theorem C69_fallback_range_refuted : forall algo nb n ncb cells evs res u src dst,
  known algo -> ~ vanishes nb n src ->
  (jf_vmult algo GrainGrowth nb n ncb cells evs res u src dst = None <-> (n < ncb)%nat).
Proof.
  intros algo nb n ncb cells evs res u src dst K V. destruct (C69_step algo nb n u src K) as [h [Eh Zh]].
  unfold jf_vmult. rewrite Eh. cbn [obind]. destruct (Req_EM_T h 0) as [Z | Z]; [exfalso; apply V, Zh, Z |].
  unfold wrapper_base. cbn [has_pre_post]. destruct (Nat.ltb_spec n ncb); cbn [obind]; split; intros; try reflexivity; try assumption; try discriminate. lia.
Qed.
Print Assumptions C69_fallback_range_refuted.

(** grain growth: the range of the cell batches stands for the range of the entries; the
    product of a linear residual with the source is wrong, while the analytic value 1 comes
    out with the trait *)
Theorem C69_grain_growth_refuted : forall dst, exists d v,
  jf_vmult "pw" GrainGrowth 1 2 1 [gg_cell] gg_events (resid [gg_cell] gg_u) gg_u gg_src dst = Some (d, v) /\ d 0%nat 1%nat = 2
  /\ exists d' v', jf_vmult "pw" Sinter 1 2 1 [gg_cell] gg_events (resid [gg_cell] gg_u) gg_u gg_src dst = Some (d', v') /\ d' 0%nat 1%nat = 1.
Proof.
  intros dst. destruct (C69_perturbation_size 1 2 gg_u gg_src gg_src_nonzero) as [h [Eh [Hp _]]].
  destruct (C69_fallback "pw" 1 2 1 [gg_cell] gg_events (resid [gg_cell] gg_u) gg_u gg_src dst h (or_intror eq_refl) ltac:(lia) Eh ltac:(lra)) as [d [v [E [_ F]]]].
  { intros b i Hb. unfold gg_src. destruct b; [lia | reflexivity]. }
  exists d, v. split; [exact E |]. split; [rewrite F by lia; cbn [Nat.ltb Nat.leb]; rewrite gg_resid; reflexivity |].
  destruct (C69_affine "pw" Sinter 1 2 1 [gg_cell] gg_events gg_u gg_src dst (fun s b i => if Nat.ltb b 1 && Nat.ltb i 2 then s b i else 0)) as [d' [v' [E' F']]].
  - right; reflexivity.
  - reflexivity.
  - intros c [<- | []]. apply gg_wf.
  - apply gg_schedule.
  - intros u s t b i. rewrite !gg_resid. unfold along. destruct (Nat.ltb b 1 && Nat.ltb i 2); ring.
  - exists d', v'. split; [exact E' |]. rewrite F' by lia. reflexivity.
Qed.
Print Assumptions C69_grain_growth_refuted.

(** ** Not linear: the square, at 0 *)
Definition sq_cell : jcell := mkJcell [0]%nat (fun _ _ => 0) (fun _ u b i => if Nat.ltb b 1 && Nat.ltb i 1 then u b i * u b i else 0).
Lemma sq_wf : cell_wf 1 1 sq_cell.
Proof.
  unfold cell_wf. cbn [sq_cell jc_dofs jc_f jc_g]. repeat split.
  - intros i [<- | []]; lia.
  - intros b i. destruct (Nat.ltb_spec b 1), (Nat.ltb_spec i 1); cbn [andb]; try reflexivity. rewrite (H b i); [reflexivity | assumption | left; lia].
  - intros acc u b i H. destruct (Nat.ltb_spec b 1), (Nat.ltb_spec i 1); cbn [andb]; try reflexivity. exfalso. apply H. left; lia.
Qed.
Lemma sq_resid : forall u, resid [sq_cell] u 0%nat 0%nat = u 0%nat 0%nat * u 0%nat 0%nat.
Proof. intros. unfold resid, csum. cbn [fold_right sq_cell jc_f Nat.ltb Nat.leb andb]. ring. Qed.
Definition sq_events : list event := [Pre 0 1; Work sq_cell; Post 0 1].
Lemma sq_schedule : schedule 1 [sq_cell] sq_events.
Proof.
  split; [| reflexivity]. cbn [sq_events legal sq_cell jc_dofs]. unfold set_phase. repeat split; try lia.
  - intros i [<- | []]; reflexivity.
  - intros i Hi. destruct (within_spec 0 1 i); [reflexivity | lia].
  - intros i Hi. destruct (within_spec 0 1 i); [reflexivity | lia].
Qed.
Theorem C69_negation_refuted : exists u src, forall dst, exists d v d' v',
  jf_vmult "pw" Sinter 1 1 1 [sq_cell] sq_events (resid [sq_cell] u) u src dst = Some (d, v)
  /\ jf_vmult "pw" Sinter 1 1 1 [sq_cell] sq_events (resid [sq_cell] u) u (fun b i => - src b i) dst = Some (d', v')
  /\ d' 0%nat 0%nat <> - d 0%nat 0%nat.
Proof.
  exists (fun _ _ => 0), (fun _ _ => 1). intros dst. set (u := fun _ _ : nat => 0).
  assert (W : forall c, In c [sq_cell] -> cell_wf 1 1 c) by (intros c [<- | []]; apply sq_wf).
  assert (V : ~ vanishes 1 1 (fun _ _ => 1)) by (intros V; specialize (V 0%nat 0%nat ltac:(lia) ltac:(lia)); cbn beta in V; lra).
  assert (V' : ~ vanishes 1 1 (fun _ _ => - 1)) by (intros V'; specialize (V' 0%nat 0%nat ltac:(lia) ltac:(lia)); cbn beta in V'; lra).
  destruct (C69_fused "pw" Sinter 1 1 1 [sq_cell] sq_events (resid [sq_cell] u) u (fun _ _ => 1) dst (or_intror eq_refl) eq_refl W sq_schedule) as [d [v [E [_ [_ H]]]]].
  destruct (C69_fused "pw" Sinter 1 1 1 [sq_cell] sq_events (resid [sq_cell] u) u (fun _ _ => - 1) dst (or_intror eq_refl) eq_refl W sq_schedule) as [d' [v' [E' [_ [_ H']]]]].
  exists d, v, d', v'. split; [exact E |]. split; [exact E' |].
  destruct (H V) as [h [Eh [Z F]]]. destruct (H' V') as [h' [Eh' [Z' F']]].
  destruct (C69_perturbation_size 1 1 u _ V) as [g [Eg [Pg _]]]. rewrite Eh in Eg. injection Eg as <-.
  destruct (C69_perturbation_size 1 1 u _ V') as [g [Eg [Pg' _]]]. rewrite Eh' in Eg. injection Eg as <-.
  rewrite F, F' by lia. rewrite !sq_resid. unfold along, u. intros X.
  replace (((0 + h' * -1) * (0 + h' * -1) - 0 * 0) / h') with h' in X by (field; lra). replace (((0 + h * 1) * (0 + h * 1) - 0 * 0) / h) with h in X by (field; lra). lra.
Qed.
Print Assumptions C69_negation_refuted.

(** the hypotheses of the theorems are met by loops that interleave: two cells that share an
    entry, started and finished in parts *)
Definition part (a b : nat) : jcell := mkJcell [a; b] (fun _ _ => 0) (fun _ u bl i => if Nat.ltb bl 1 && (Nat.eqb i a || Nat.eqb i b) then u bl a * u bl b else 0).
Example C69_applies : schedule 3 [part 0 1; part 1 2] [Pre 1 3; Work (part 1 2); Post 2 3; Pre 0 1; Work (part 0 1); Post 0 2]
  /\ (forall c, In c [part 0 1; part 1 2] -> cell_wf 1 3 c)
  /\ ~ vanishes 1 3 (fun _ _ => 1).
Proof.
  split; [| split].
  - split; [| cbn [works]; apply perm_swap]. cbn [legal part jc_dofs]. unfold set_phase. repeat split; try lia.
    + intros i [<- | [<- | []]]; reflexivity.
    + intros i Hi. destruct (within_spec 1 3 i); [reflexivity | lia].
    + intros i Hi. destruct (within_spec 2 3 i), (within_spec 1 3 i); try reflexivity; lia.
    + intros i [<- | [<- | []]]; reflexivity.
    + intros i Hi. destruct (within_spec 0 1 i), (within_spec 2 3 i), (within_spec 1 3 i); try reflexivity; lia.
    + intros i Hi. destruct (within_spec 0 2 i), (within_spec 0 1 i), (within_spec 2 3 i), (within_spec 1 3 i); try reflexivity; lia.
  - assert (G : forall a b, (a < 3)%nat -> (b < 3)%nat -> cell_wf 1 3 (part a b)).
    { intros a b Ha Hb. unfold cell_wf. cbn [part jc_dofs jc_f jc_g]. repeat split.
      - intros i [<- | [<- | []]]; assumption.
      - intros bl i. destruct (Nat.ltb_spec bl 1); cbn [andb]; [| reflexivity]. rewrite (H bl a), (H bl b); [reflexivity | assumption | right; left; reflexivity | assumption | left; reflexivity].
      - intros acc u bl i H. destruct (Nat.ltb bl 1); cbn [andb]; [| reflexivity]. destruct (Nat.eqb_spec i a) as [-> | ]; [exfalso; apply H; left; reflexivity |].
        destruct (Nat.eqb_spec i b) as [-> | ]; [exfalso; apply H; right; left; reflexivity | reflexivity]. }
    intros c [<- | [<- | []]]; apply G; lia.
  - intros V. specialize (V 0%nat 0%nat ltac:(lia) ltac:(lia)). cbn beta in V. lra.
Qed.

(** ** Numeric tangent *)
Definition bump (u : bvec) (col : nat * nat) (eps : R) : bvec := fun b i => u b i + (if Nat.eqb b (fst col) && Nat.eqb i (snd col) then eps else 0).
Lemma perturb_bump : forall u col eps, perturb u (fst col) (snd col) eps = bump u col eps.
Proof. intros. apply functional_extensionality; intros b. apply functional_extensionality; intros i. unfold perturb, bump. destruct (_ && _); ring. Qed.
Lemma perturb_back : forall u col eps, perturb (perturb u (fst col) (snd col) eps) (fst col) (snd col) (- eps) = u.
Proof. intros. apply functional_extensionality; intros b. apply functional_extensionality; intros i. unfold perturb. destruct (_ && _); ring. Qed.
Lemma in_pairs : forall nb n p, In p (pairs nb n) <-> (fst p < nb /\ snd p < n)%nat.
Proof.
  intros nb n [b i]. unfold pairs. rewrite in_flat_map. cbn [fst snd]. split.
  - intros [b' [Ib Ii]]. apply in_map_iff in Ii. destruct Ii as [i' [E I]]. injection E as <- <-. apply in_seq in Ib. apply in_seq in I. lia.
  - intros [Hb Hi]. exists b. split; [apply in_seq; lia |]. apply in_map_iff. exists i. split; [reflexivity | apply in_seq; lia].
Qed.
Definition same (p q : nat * nat) : bool := Nat.eqb (fst p) (fst q) && Nat.eqb (snd p) (snd q).
Lemma same_spec : forall p q, reflect (p = q) (same p q).
Proof.
  intros [a b] [c d]. unfold same. cbn [fst snd]. destruct (Nat.eqb_spec a c) as [-> | H]; cbn [andb]; [| constructor; congruence].
  destruct (Nat.eqb_spec b d) as [-> | H]; constructor; congruence.
Qed.

Section Tangents.
Variables (nb n : nat) (R_ : bvec -> bvec) (sparse : nat * nat -> nat * nat -> bool) (eps tol : R).
(** what an entry must become, given the entry before *)
Definition quotient (u : bvec) (row col : nat * nat) : R := (R_ (bump u col eps) (fst row) (snd row) - R_ u (fst row) (snd row)) / eps.

Lemma entry_value : forall r0 r1 col row T r c, (let v := (r1 (fst r) (snd r) - r0 (fst r) (snd r)) / eps in
  tangent_entry sparse eps tol r0 r1 col row T r c =
    if same r row && same c col then (if sparse r c then (if Rlt_dec tol (Rabs v) then v else if same r c then 1 else T r c) else T r c) else T r c).
Proof.
  intros r0 r1 col row T r c. cbv zeta. unfold tangent_entry. cbv zeta.
  change (Nat.eqb (fst col) (fst row) && Nat.eqb (snd col) (snd row)) with (same col row).
  destruct (same_spec r row) as [-> | Hr]; cbn [andb].
  - destruct (same_spec c col) as [-> | Hc].
    + destruct (sparse row col); [| reflexivity]. destruct (Rlt_dec tol _).
      * change (Nat.eqb (fst row) (fst row) && Nat.eqb (snd row) (snd row)) with (same row row). change (Nat.eqb (fst col) (fst col) && Nat.eqb (snd col) (snd col)) with (same col col).
        destruct (same_spec row row), (same_spec col col); try contradiction; reflexivity.
      * destruct (same_spec col row) as [-> | D].
        -- change (Nat.eqb (fst row) (fst row) && Nat.eqb (snd row) (snd row)) with (same row row). destruct (same_spec row row); [reflexivity | contradiction].
        -- destruct (same_spec row col); [congruence | reflexivity].
    + assert (X : Nat.eqb (fst c) (fst col) && Nat.eqb (snd c) (snd col) = false) by (change (same c col = false); destruct (same_spec c col); [contradiction | reflexivity]).
      destruct (sparse row col); [| reflexivity]. destruct (Rlt_dec tol _); [| destruct (same col row)]; cbn beta; rewrite ?X, ?andb_false_r; reflexivity.
  - assert (X : Nat.eqb (fst r) (fst row) && Nat.eqb (snd r) (snd row) = false) by (change (same r row = false); destruct (same_spec r row); [contradiction | reflexivity]).
    destruct (sparse row col); [| reflexivity]. destruct (Rlt_dec tol _); [| destruct (same col row)]; cbn beta; rewrite ?X; reflexivity.
Qed.
Definition target (v : R) (r c : nat * nat) (t : R) : R := if sparse r c then (if Rlt_dec tol (Rabs v) then v else if same r c then 1 else t) else t.
Lemma target_idem : forall v r c t, target v r c (target v r c t) = target v r c t.
Proof. intros. unfold target. destruct (sparse r c); [| reflexivity]. destruct (Rlt_dec tol (Rabs v)); [reflexivity |]. destruct (same r c); reflexivity. Qed.
Lemma column_value : forall rows r0 r1 col T r c,
  fold_left (fun T row => tangent_entry sparse eps tol r0 r1 col row T) rows T r c =
  if existsb (same r) rows && same c col then target ((r1 (fst r) (snd r) - r0 (fst r) (snd r)) / eps) r c (T r c) else T r c.
Proof.
  induction rows as [| row rows IH]; intros r0 r1 col T r c; cbn [fold_left existsb]; [reflexivity |].
  rewrite IH. rewrite entry_value. cbv zeta.
  destruct (same r row); cbn [orb andb]; [| reflexivity].
  destruct (same c col); [| rewrite andb_false_r; reflexivity].
  rewrite andb_true_r. fold (target ((r1 (fst r) (snd r) - r0 (fst r) (snd r)) / eps) r c (T r c)). destruct (existsb _ _); [apply target_idem | reflexivity].
Qed.
Lemma existsb_same : forall r l, existsb (same r) l = true <-> In r l.
Proof.
  intros r l. rewrite existsb_exists. split.
  - intros [x [I E]]. destruct (same_spec r x) as [-> |]; [exact I | discriminate].
  - intros I. exists r. split; [exact I |]. destruct (same_spec r r); [reflexivity | contradiction].
Qed.
Lemma columns_value : forall cols u T,
  let st := fold_left (tangent_column nb n R_ sparse eps tol (R_ u)) cols (u, T) in
  fst st = u /\ forall r c, snd st r c = if existsb (same r) (pairs nb n) && existsb (same c) cols then target (quotient u r c) r c (T r c) else T r c.
Proof.
  induction cols as [| col cols IH]; intros u T; cbv zeta; cbn [fold_left existsb].
  - split; [reflexivity |]. intros r c. rewrite andb_false_r. reflexivity.
  - unfold tangent_column at 2 4. cbn [fst snd]. rewrite perturb_back.
    specialize (IH u (fold_left (fun T row => tangent_entry sparse eps tol (R_ u) (R_ (perturb u (fst col) (snd col) eps)) col row T) (pairs nb n) T)).
    cbv zeta in IH. destruct IH as [A B]. split; [exact A |]. intros r c. rewrite B, column_value, perturb_bump.
    destruct (existsb (same r) (pairs nb n)); cbn [andb]; [| reflexivity].
    destruct (same_spec c col) as [<- | D]; cbn [orb]; [| reflexivity].
    fold (quotient u r c). destruct (existsb _ _); [apply target_idem | reflexivity].
Qed.

Theorem C69_tangent : forall u T, fst (numeric_tangent nb n R_ sparse eps tol u T) = u
  /\ forall r c, snd (numeric_tangent nb n R_ sparse eps tol u T) r c =
       if Nat.ltb (fst r) nb && Nat.ltb (snd r) n && (Nat.ltb (fst c) nb && Nat.ltb (snd c) n) && sparse r c then
         (if Rlt_dec tol (Rabs (quotient u r c)) then quotient u r c else if same r c then 1 else T r c)
       else T r c.
Proof.
  intros u T. unfold numeric_tangent. destruct (columns_value (pairs nb n) u T) as [A B]. split; [exact A |]. intros r c. rewrite B.
  assert (X : forall p, existsb (same p) (pairs nb n) = Nat.ltb (fst p) nb && Nat.ltb (snd p) n).
  { intros p. apply eq_true_iff_eq. rewrite existsb_same, in_pairs, andb_true_iff, !Nat.ltb_lt. reflexivity. }
  rewrite !X. unfold target. destruct (_ && _ && (_ && _)); cbn [andb]; [| reflexivity]. destruct (sparse r c); reflexivity.
Qed.

(** distance to the derivative, for a matrix that was zero and entries off the diagonal *)
Theorem C69_tangent_error : forall u T r c (F' : R -> R) M,
  (fst r < nb)%nat -> (snd r < n)%nat -> (fst c < nb)%nat -> (snd c < n)%nat -> sparse r c = true -> T r c = 0 -> 0 < eps -> 0 <= M -> 0 <= tol ->
  (forall t, derivable_pt_lim (fun t => R_ (bump u c t) (fst r) (snd r)) t (F' t)) -> (forall t, Rabs (F' t - F' 0) <= M * Rabs t) ->
  r <> c \/ tol < Rabs (quotient u r c) ->
  Rabs (snd (numeric_tangent nb n R_ sparse eps tol u T) r c - F' 0) <= tol + M * eps.
Proof.
  intros u T r c F' M H1 H2 H3 H4 Hs HT He HM Ht D B O. destruct (C69_tangent u T) as [_ E]. rewrite E. clear E.
  destruct (Nat.ltb_spec (fst r) nb), (Nat.ltb_spec (snd r) n), (Nat.ltb_spec (fst c) nb), (Nat.ltb_spec (snd c) n); try lia. rewrite Hs. cbn [andb].
  assert (Z : R_ (bump u c 0) = R_ u). { f_equal. apply functional_extensionality; intros b. apply functional_extensionality; intros i. unfold bump. destruct (_ && _); ring. }
  assert (Q_ : Rabs (quotient u r c - F' 0) <= M * eps).
  { unfold quotient. rewrite <- Z. replace (M * eps) with (M * Rabs eps) by (rewrite Rabs_right by lra; reflexivity).
    apply (mvt_error (fun t => R_ (bump u c t) (fst r) (snd r))); [lra | exact D | intros; apply B | exact HM]. }
  destruct (Rlt_dec tol (Rabs (quotient u r c))) as [L | L]; [lra |].
  destruct (same_spec r c) as [Er | Er]; [destruct O; [contradiction | lra] |]. rewrite HT.
  replace (0 - F' 0) with (quotient u r c - F' 0 - quotient u r c) by ring. eapply Rle_trans; [apply Rabs_triang |]. rewrite Rabs_Ropp. lra.
Qed.
End Tangents.
Print Assumptions C69_tangent.
Print Assumptions C69_tangent_error.

(** a second assembly keeps entries whose derivative has become zero: R(u) = (u0 u1, u1) *)
Definition bilinear (u : bvec) : bvec := fun b i => if Nat.eqb i 0 then u b 0%nat * u b 1%nat else u b i.
Theorem C69_stale_entry_refuted : exists u1 u2 : bvec,
  let first := numeric_tangent 1 2 bilinear (fun _ _ => true) (/ 10 ^ 7) (/ 10 ^ 12) u1 (fun _ _ => 0) in
  let second := numeric_tangent 1 2 bilinear (fun _ _ => true) (/ 10 ^ 7) (/ 10 ^ 12) u2 (snd first) in
  derivable_pt_lim (fun t => bilinear (bump u2 (0, 1)%nat t) 0%nat 0%nat) 0 0
  /\ snd second (0, 0)%nat (0, 1)%nat = 5.
Proof.
  exists (fun _ i => if Nat.eqb i 0 then 5 else 1), (fun _ i => if Nat.eqb i 0 then 0 else 1). cbv zeta. set (u1 := fun _ i : nat => if Nat.eqb i 0 then 5 else 1). set (u2 := fun _ i : nat => if Nat.eqb i 0 then 0 else 1).
  assert (E7 : 0 < / 10 ^ 7) by (apply Rinv_0_lt_compat, pow_lt; lra). assert (E12 : 0 < / 10 ^ 12) by (apply Rinv_0_lt_compat, pow_lt; lra).
  assert (E12' : / 10 ^ 12 < 1). { rewrite <- Rinv_1. apply Rinv_lt_contravar; [rewrite Rmult_1_l; apply pow_lt; lra |]. apply Rlt_pow_R1; [lra | lia]. }
  split.
  - unfold bilinear, bump, u2. cbn [Nat.eqb fst snd andb]. intros e He. exists (mkposreal 1 Rlt_0_1). intros h Hh _.
    replace (((0 + 0) * (1 + (0 + h)) - (0 + 0) * (1 + 0)) / h - 0) with 0 by (field; exact Hh). rewrite Rabs_R0. exact He.
  - destruct (C69_tangent 1 2 bilinear (fun _ _ => true) (/ 10 ^ 7) (/ 10 ^ 12) u2 (snd (numeric_tangent 1 2 bilinear (fun _ _ => true) (/ 10 ^ 7) (/ 10 ^ 12) u1 (fun _ _ => 0)))) as [_ E].
    rewrite E. destruct (C69_tangent 1 2 bilinear (fun _ _ => true) (/ 10 ^ 7) (/ 10 ^ 12) u1 (fun _ _ => 0)) as [_ E']. rewrite E'.
    cbn [fst snd Nat.ltb Nat.leb andb same Nat.eqb].
    assert (Q2 : quotient bilinear (/ 10 ^ 7) u2 (0, 0)%nat (0, 1)%nat = 0). { unfold quotient, bilinear, bump, u2. cbn [fst snd Nat.eqb andb]. set (e := / 10 ^ 7) in *. field. lra. }
    assert (Q1 : quotient bilinear (/ 10 ^ 7) u1 (0, 0)%nat (0, 1)%nat = 5). { unfold quotient, bilinear, bump, u1. cbn [fst snd Nat.eqb andb]. set (e := / 10 ^ 7) in *. field. lra. }
    rewrite Q1, Q2. rewrite Rabs_R0. destruct (Rlt_dec (/ 10 ^ 12) 0); [lra |]. unfold same. cbn [fst snd Nat.eqb andb]. rewrite (Rabs_right 5) by lra. destruct (Rlt_dec (/ 10 ^ 12) 5); [reflexivity | lra].
Qed.
Print Assumptions C69_stale_entry_refuted.

(** a diagonal entry with derivative zero becomes 1 *)
Theorem C69_diagonal_refuted :
  derivable_pt_lim (fun t => bilinear (bump (fun _ _ => 0) (0, 0)%nat t) 0%nat 0%nat) 0 0
  /\ snd (numeric_tangent 1 2 bilinear (fun _ _ => true) (/ 10 ^ 7) (/ 10 ^ 12) (fun _ _ => 0) (fun _ _ => 0)) (0, 0)%nat (0, 0)%nat = 1.
Proof.
  assert (E7 : 0 < / 10 ^ 7) by (apply Rinv_0_lt_compat, pow_lt; lra). assert (E12 : 0 < / 10 ^ 12) by (apply Rinv_0_lt_compat, pow_lt; lra). split.
  - unfold bilinear, bump. cbn [Nat.eqb fst snd andb]. intros e He. exists (mkposreal 1 Rlt_0_1). intros h Hh _.
    replace (((0 + (0 + h)) * (0 + 0) - (0 + 0) * (0 + 0)) / h - 0) with 0 by (field; exact Hh). rewrite Rabs_R0. exact He.
  - destruct (C69_tangent 1 2 bilinear (fun _ _ => true) (/ 10 ^ 7) (/ 10 ^ 12) (fun _ _ => 0) (fun _ _ => 0)) as [_ E]. rewrite E. cbn [fst snd Nat.ltb Nat.leb andb].
    assert (Q0 : quotient bilinear (/ 10 ^ 7) (fun _ _ => 0) (0, 0)%nat (0, 0)%nat = 0). { unfold quotient, bilinear, bump. cbn [fst snd Nat.eqb andb]. set (e := / 10 ^ 7) in *. field. lra. }
    rewrite Q0, Rabs_R0. destruct (Rlt_dec (/ 10 ^ 12) 0); [lra |]. reflexivity.
Qed.
Print Assumptions C69_diagonal_refuted.
