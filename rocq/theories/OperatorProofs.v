(** Lemmas on the coupled operator. *)
From Coq Require Import List Reals Arith Lia Lra FunctionalExtensionality.
From Verif Require Import Util FreeEnergyModel FreeEnergyProofs FreeEnergyProps MobilityModel MobilityProofs MobilityProps OperatorModel.
Import ListNotations.
Local Open Scope R_scope.

(** ** lines of values and gradients *)
Definition vadd (t : R) (a b : vec) : vec := fun d => a d + t * b d.
Fixpoint gvline (gs gs' : list vec) (t : R) : list vec :=
  match gs, gs' with g :: r, h :: s => vadd t g h :: gvline r s t | _, _ => [] end.

Lemma vline_length : forall a b t, length b = length a -> length (vline a b t) = length a.
Proof. induction a as [| x a IH]; intros [| y b] t H; cbn in *; try discriminate; [reflexivity |]. rewrite IH; congruence. Qed.
Lemma gvline_length : forall a b t, length b = length a -> length (gvline a b t) = length a.
Proof. induction a as [| x a IH]; intros [| y b] t H; cbn in *; try discriminate; [reflexivity |]. rewrite IH; congruence. Qed.

(** ** lists of functions and their derivatives *)
Definition dlist (F : R -> list R) (l : list R) : Prop :=
  (forall t, length (F t) = length l) /\ forall i, derivable_pt_lim (fun t => nth i (F t) 0) 0 (nth i l 0).
Definition vzero : vec := fun _ => 0.
Definition dvlist (F : R -> list vec) (l : list vec) : Prop :=
  (forall t, length (F t) = length l) /\ forall i d, derivable_pt_lim (fun t => nth i (F t) vzero d) 0 (nth i l vzero d).

Lemma dlist_nil : dlist (fun _ => []) [].
Proof. split; [reflexivity |]. intros [| i]; apply derivable_const0. Qed.
Lemma dlist_cons : forall f F a l, derivable_pt_lim f 0 a -> dlist F l -> dlist (fun t => f t :: F t) (a :: l).
Proof.
  intros f F a l H [HL HD]. split; [intros t; cbn; rewrite HL; reflexivity |].
  intros [| i]; cbn [nth]; [exact H | apply HD].
Qed.
Lemma dlist_uncons : forall f F a l, dlist (fun t => f t :: F t) (a :: l) -> derivable_pt_lim f 0 a /\ dlist F l.
Proof.
  intros f F a l [HL HD]. split; [exact (HD 0%nat) |]. split.
  - intros t. specialize (HL t). cbn in HL. congruence.
  - intros i. exact (HD (S i)).
Qed.
Lemma dvlist_nil : dvlist (fun _ => []) [].
Proof. split; [reflexivity |]. intros [| i] d; apply derivable_const0. Qed.
Lemma dvlist_cons : forall (f : R -> vec) F (a : vec) l, (forall d, derivable_pt_lim (fun t => f t d) 0 (a d)) -> dvlist F l -> dvlist (fun t => f t :: F t) (a :: l).
Proof.
  intros f F a l H [HL HD]. split; [intros t; cbn; rewrite HL; reflexivity |].
  intros [| i] d; cbn [nth]; [apply H | apply HD].
Qed.

(** ** the residual at a point, in closed form *)
Definition time_part (wtd : nat) (weight v b : R) : R :=
  (if Nat.leb 1 wtd then v * weight else 0) + (if Nat.eqb wtd 2 then b else 0).

Lemma time_terms_spec : forall wtd weight buffer i v r, (i < length buffer)%nat ->
  time_terms wtd weight buffer i v r = Some (r + time_part wtd weight v (nth i buffer 0)).
Proof.
  intros wtd weight buffer i v r H. unfold time_terms, time_part, vget.
  rewrite (nth_error_nth' buffer 0 H). cbn [obind].
  destruct (Nat.leb 1 wtd), (Nat.eqb wtd 2); f_equal; ring.
Qed.

Fixpoint eta_vals (p : op_data) (wtd : nat) (buffer : list R) (e : evaluation) (i : nat) (etas : list R) : list R :=
  match etas with
  | [] => []
  | eta :: etas => (o_L p * df_detai e eta + time_part wtd (o_weight p) eta (nth i buffer 0)) :: eta_vals p wtd buffer e (S i) etas
  end.
Definition eta_grads (p : op_data) (gs : list vec) : list vec := map (fun (g : vec) d => o_L p * o_kappa_p p * g d) gs.

Lemma eta_rows_spec : forall p wtd buffer e etas gs i, length gs = length etas -> (i + length etas <= length buffer)%nat ->
  eta_rows p wtd buffer e i etas gs = Some (eta_vals p wtd buffer e i etas, eta_grads p gs).
Proof.
  intros p wtd buffer e. induction etas as [| eta etas IH]; intros [| g gs] i H L; cbn in H, L; try discriminate; [reflexivity |].
  cbn [eta_rows eta_vals]. rewrite time_terms_spec by lia. cbn [obind]. rewrite IH by (try congruence; lia). reflexivity.
Qed.

Definition eval_of (p : op_data) (c : R) (etas : list R) : evaluation := mkEval (o_A p) (o_B p) c (psum 2 etas) (Some (psum 3 etas)).
Definition df_dc_of (p : op_data) (c : R) (etas : list R) : R :=
  o_A p * (c * c) * (2 * c - 2) + 2 * o_A p * c * ((- c + 1) * (- c + 1)) + o_B p * (2 * c - 6 * psum 2 etas + 4 * psum 3 etas).

Lemma residual_quad_spec : forall p wtd buffer c mu etas gc gmu getas,
  length getas = length etas -> length buffer = S (S (length etas)) ->
  residual_quad p wtd buffer (c :: mu :: etas) (gc :: gmu :: getas)
  = Some (time_part wtd (o_weight p) c (nth 0 buffer 0) :: (o_weight_alg p * mu - df_dc_of p c etas) :: eta_vals p wtd buffer (eval_of p c etas) 2 etas,
          apply_M p c etas gc getas gmu :: (fun d => - o_kappa_c p * gc d) :: eta_grads p getas).
Proof.
  intros p wtd buffer c mu etas gc gmu getas Hg Hb. unfold residual_quad.
  change (eval_static true (o_A p) (o_B p) (c :: mu :: etas) (length etas)) with (evaluator false true (o_A p) (o_B p) (c :: mu :: etas) (length etas)).
  rewrite evaluator_spec. cbn [obind].
  rewrite time_terms_spec by lia. cbn [obind]. unfold df_dc. cbn [e_s3 e_c e_A e_B e_s2 obind].
  fold (eval_of p c etas). rewrite eta_rows_spec by (try exact Hg; lia). cbn [obind fst snd]. rewrite Rplus_0_l. reflexivity.
Qed.

(** advection in closed form *)
Fixpoint advect_c (vel : list (option vec)) (c : R) (g0 : vec) : vec :=
  match vel with
  | [] => g0
  | v :: vel => advect_c vel c (match v with Some v => fun d => g0 d - v d * c | None => g0 end)
  end.
Fixpoint advect_etas (vel : list (option vec)) (etas : list R) (gs : list vec) : list vec :=
  match vel, etas, gs with
  | v :: vel, e :: etas, g :: gs => match v with Some v => fun d => g d - v d * e | None => g end :: advect_etas vel etas gs
  | _, _, _ => []
  end.
Lemma advect_spec : forall vel c etas g0 gs, length vel = length etas -> length gs = length etas ->
  advect vel c etas g0 gs = Some (advect_c vel c g0, advect_etas vel etas gs).
Proof.
  induction vel as [| v vel IH]; intros c [| e etas] g0 [| g gs] H1 H2; cbn in H1, H2; try discriminate; [reflexivity |].
  cbn [advect advect_c advect_etas]. rewrite IH by congruence. reflexivity.
Qed.

Lemma advect_etas_length : forall vel etas gs, length vel = length etas -> length gs = length etas -> length (advect_etas vel etas gs) = length etas.
Proof.
  induction vel as [| v vel IH]; intros [| e etas] [| g gs] H1 H2; cbn in H1, H2; try discriminate; [reflexivity |].
  cbn [advect_etas length]. rewrite IH; congruence.
Qed.

Lemma advect_c_deriv : forall vel c c' (g : R -> vec) (g' : vec) d,
  (forall d, derivable_pt_lim (fun t => g t d) 0 (g' d)) ->
  derivable_pt_lim (fun t => advect_c vel (c + t * c') (g t) d) 0 (advect_c vel c' g' d).
Proof.
  induction vel as [| v vel IH]; intros c c' g g' d H; cbn [advect_c]; [apply H |].
  apply (IH c c' (fun t => match v with Some v => fun d => g t d - v d * (c + t * c') | None => g t end)).
  destruct v as [v |]; [| exact H]. intros e. cbv beta.
  apply derivable_minus; [apply H |].
  apply (derivable_ext (fun t => (c + t * c') * v e)); [intros; ring |].
  eapply derivable_eq; [| apply derivable_scal; apply derivable_line]. ring.
Qed.

Lemma advect_etas_deriv : forall vel etas etas' (G : R -> list vec) G', length etas' = length etas -> length vel = length etas -> length G' = length etas ->
  dvlist G G' -> dvlist (fun t => advect_etas vel (vline etas etas' t) (G t)) (advect_etas vel etas' G').
Proof.
  induction vel as [| v vel IH]; intros [| e etas] [| e' etas'] G [| g' G'] H1 H2 H3 [HL HD]; cbn in H1, H2, H3; try discriminate.
  - cbn [advect_etas]. apply dvlist_nil.
  - cbn [advect_etas vline].
    assert (T : dvlist (fun t => tl (G t)) G').
    { split.
      - intros t. specialize (HL t). destruct (G t); cbn in *; congruence.
      - intros i d. apply (derivable_ext (fun t => nth (S i) (G t) vzero d)); [| exact (HD (S i) d)].
        intros t. destruct (G t); destruct i; reflexivity. }
    assert (E : forall t, G t = nth 0 (G t) vzero :: tl (G t)) by (intros t; specialize (HL t); destruct (G t); [discriminate | reflexivity]).
    assert (C := dvlist_cons (fun t => match v with Some v => fun d => nth 0 (G t) vzero d - v d * (e + t * e') | None => nth 0 (G t) vzero end)
      (fun t => advect_etas vel (vline etas etas' t) (tl (G t)))
      (match v with Some v => fun d => g' d - v d * e' | None => g' end) (advect_etas vel etas' G')).
    assert (X : forall t, (match v with Some v => fun d => nth 0 (G t) vzero d - v d * (e + t * e') | None => nth 0 (G t) vzero end) :: advect_etas vel (vline etas etas' t) (tl (G t))
      = match G t with g :: gs => (match v with Some v => fun d => g d - v d * (e + t * e') | None => g end) :: advect_etas vel (vline etas etas' t) gs | [] => [] end).
    { intros t. specialize (E t). destruct (G t); [discriminate |]. reflexivity. }
    destruct C as [C1 C2].
    + intros d. assert (D0 := HD 0%nat d). cbn [nth] in D0. destruct v as [v |]; [| exact D0].
      apply (derivable_minus (fun t => nth 0 (G t) vzero d) (fun t => v d * (e + t * e'))); [exact D0 |].
      apply (derivable_ext (fun t => (e + t * e') * v d)); [intros; ring |].
      eapply derivable_eq; [| apply derivable_scal; apply derivable_line]. ring.
    + apply IH; (exact T || congruence).
    + split.
      * intros t. rewrite <- X. apply C1.
      * intros i d. apply (derivable_ext (fun t => nth i ((match v with Some v => fun d => nth 0 (G t) vzero d - v d * (e + t * e') | None => nth 0 (G t) vzero end) :: advect_etas vel (vline etas etas' t) (tl (G t))) vzero d)); [| apply C2].
        intros t. rewrite X. reflexivity.
Qed.

(** ** the linearised operator *)
Lemma apply_mixed_spec : forall L B etas value result, length value = length etas -> length result = length etas ->
  exists result', apply_d2f_detaidetaj L B etas (length etas) value result = Some result' /\ length result' = length etas
    /\ forall i, (i < length etas)%nat -> nth i result' 0 = nth i result 0 + L * 24 * B * nth i etas 0 * (dotp etas value - nth i etas 0 * nth i value 0).
Proof.
  intros L B etas value result Lv Lr.
  unfold apply_d2f_detaidetaj. destruct (Nat.leb_spec (length etas) 1) as [S1 | S1].
  - exists result. split; [reflexivity |]. split; [exact Lr |]. intros i Hi.
    destruct etas as [| a [| b l]]; cbn in S1, Hi; try lia. destruct value as [| v [|]]; try discriminate.
    assert (i = 0%nat) by lia. subst i. cbn. ring.
  - destruct etas as [| a l]; [cbn in S1; lia |]. destruct value as [| b m]; [discriminate |].
    cbn [vget nth_error obind].
    rewrite dot_loop_spec by (cbn [length] in *; lia). cbn [skipn length obind].
    rewrite Nat.sub_succ, Nat.sub_0_r. rewrite (firstn_all l).
    assert (FM : firstn (length l) m = m) by (apply firstn_all2; cbn in Lv; lia). rewrite FM.
    destruct (add_loop_some (L * 24 * B) (a :: l) (b :: m) (a * b + dotp l m) (S (length l)) 0 result) as [result' E];
      try (cbn [length] in *; lia).
    exists result'. split; [exact E |]. apply add_loop_spec in E. destruct E as [Ln G]. split; [rewrite Ln; exact Lr |].
    intros i Hi. specialize (G i).
    destruct (Nat.leb_spec 0 i), (Nat.ltb_spec i (0 + S (length l))); try (cbn [length] in Hi; lia). cbn [andb] in G.
    unfold vget in G.
    rewrite (nth_error_nth' (a :: l) 0 Hi) in G.
    rewrite (nth_error_nth' (b :: m) 0) in G by (rewrite Lv; exact Hi).
    rewrite (nth_error_nth' result 0) in G by (rewrite Lr; exact Hi).
    rewrite (nth_error_nth result' i 0 G). cbn [dotp]. ring.
Qed.

Fixpoint dcsum (e : evaluation) (etas values : list R) : R :=
  match etas, values with eta :: etas, v :: values => d2f_dcdetai e eta * v + dcsum e etas values | _, _ => 0 end.
Lemma mu_row_spec : forall e etas values r, length values = length etas -> mu_row_loop e etas values r = Some (r - dcsum e etas values).
Proof.
  intros e. induction etas as [| eta etas IH]; intros [| v values] r H; cbn in H; try discriminate; cbn [mu_row_loop dcsum].
  - f_equal. ring.
  - rewrite IH by congruence. f_equal. ring.
Qed.

Fixpoint eta_lin_vals (p : op_data) (e : evaluation) (c' : R) (etas values : list R) : list R :=
  match etas, values with
  | eta :: etas, v :: values => (0 + (v * o_weight p + o_L p * (d2f_dcdetai e eta * c' + d2f_detai2 e eta * v))) :: eta_lin_vals p e c' etas values
  | _, _ => []
  end.
Lemma eta_rows_lin_spec : forall p e c' etas values gs, length values = length etas -> length gs = length etas ->
  eta_rows_lin p e c' etas values gs = Some (eta_lin_vals p e c' etas values, eta_grads p gs).
Proof.
  intros p e c'. induction etas as [| eta etas IH]; intros [| v values] [| g gs] H1 H2; cbn in H1, H2; try discriminate; [reflexivity |].
  cbn [eta_rows_lin eta_lin_vals]. rewrite IH by congruence. reflexivity.
Qed.
Lemma eta_lin_vals_length : forall p e c' etas values, length values = length etas -> length (eta_lin_vals p e c' etas values) = length etas.
Proof. intros p e c'. induction etas as [| eta etas IH]; intros [| v values] H; cbn in H; try discriminate; cbn [eta_lin_vals length]; [reflexivity | rewrite IH; congruence]. Qed.
Lemma eta_lin_vals_nth : forall p e c' etas values i, length values = length etas -> (i < length etas)%nat ->
  nth i (eta_lin_vals p e c' etas values) 0
  = nth i values 0 * o_weight p + o_L p * (d2f_dcdetai e (nth i etas 0) * c' + d2f_detai2 e (nth i etas 0) * nth i values 0).
Proof.
  intros p e c'. induction etas as [| eta etas IH]; intros [| v values] i H Hi; cbn in H, Hi; try discriminate; [lia |].
  destruct i as [| i]; cbn [eta_lin_vals nth]; [ring | apply IH; [congruence | lia]].
Qed.

Definition eval_lin (p : op_data) (c : R) (etas : list R) : evaluation := mkEval (o_A p) (o_B p) c (psum 2 etas) None.

Lemma vmult_point_spec : forall p vel c mu etas gc gmu getas c' mu' etas' gc' gmu' getas',
  length etas' = length etas -> length getas' = length etas -> length vel = length etas ->
  exists retas,
    vmult_point p vel (c :: mu :: etas) (gc :: gmu :: getas) (c' :: mu' :: etas') (gc' :: gmu' :: getas')
    = Some (c' * o_weight p :: (o_weight_alg p * mu' - d2f_dc2 (eval_lin p c etas) * c' - dcsum (eval_lin p c etas) etas etas') :: retas,
            advect_c vel c' (apply_M_derivative p c etas gc getas gmu c' etas' gc' gmu') :: (fun d => - o_kappa_c p * gc' d) :: advect_etas vel etas' (eta_grads p getas'))
    /\ length retas = length etas
    /\ forall i, (i < length etas)%nat -> nth i retas 0
       = nth i etas' 0 * o_weight p + o_L p * (d2f_dcdetai (eval_lin p c etas) (nth i etas 0) * c' + d2f_detai2 (eval_lin p c etas) (nth i etas 0) * nth i etas' 0)
         + o_L p * 24 * o_B p * nth i etas 0 * (dotp etas etas' - nth i etas 0 * nth i etas' 0).
Proof.
  intros p vel c mu etas gc gmu getas c' mu' etas' gc' gmu' getas' H1 H2 H3.
  unfold vmult_point.
  change (eval_static false (o_A p) (o_B p) (c :: mu :: etas) (length etas)) with (evaluator false false (o_A p) (o_B p) (c :: mu :: etas) (length etas)).
  rewrite evaluator_spec. cbn [obind]. fold (eval_lin p c etas).
  rewrite mu_row_spec by exact H1. cbn [obind]. rewrite eta_rows_lin_spec by assumption. cbn [obind fst snd].
  destruct (apply_mixed_spec (o_L p) (o_B p) etas etas' (eta_lin_vals p (eval_lin p c etas) c' etas etas') H1) as [retas [E [L G]]].
  { apply eta_lin_vals_length. exact H1. }
  rewrite E. cbn [obind]. exists retas. split; [| split; [exact L |]].
  - unfold add_advection. cbn [snd fst]. rewrite advect_spec; [reflexivity | congruence |].
    unfold eta_grads. rewrite map_length. congruence.
  - intros i Hi. rewrite G by exact Hi. rewrite eta_lin_vals_nth by assumption. ring.
Qed.

(** ** derivatives of the rows *)
Lemma psum2_line : forall etas values t, length values = length etas ->
  psum 2 (vline etas values t) = psum 2 etas + 2 * t * dotp etas values + t * t * psum 2 values.
Proof.
  induction etas as [| e r IH]; intros [| v w] t H; cbn in H; try discriminate; cbn [vline psum dotp]; [ring |].
  rewrite IH by congruence. ring.
Qed.
Fixpoint dotp2 (etas values : list R) : R := match etas, values with e :: r, v :: s => e * e * v + dotp2 r s | _, _ => 0 end.
Lemma psum3_deriv : forall etas values, length values = length etas ->
  derivable_pt_lim (fun t => psum 3 (vline etas values t)) 0 (3 * dotp2 etas values).
Proof.
  induction etas as [| e r IH]; intros [| v w] H; cbn in H; try discriminate; cbn [vline psum dotp2].
  - eapply derivable_eq; [| apply derivable_const0]. ring.
  - eapply derivable_eq; [| apply derivable_plus; [| apply IH; congruence]].
    2:{ apply (quartic_deriv (e ^ 3) (3 * e ^ 2 * v) (3 * e * v ^ 2) (v ^ 3) 0 _ _ (3 * (e * e * v))); [intros y |]; ring. }
    ring.
Qed.
Lemma psum2_deriv : forall etas values, length values = length etas ->
  derivable_pt_lim (fun t => psum 2 (vline etas values t)) 0 (2 * dotp etas values).
Proof.
  intros etas values H. apply (quartic_deriv (psum 2 etas) (2 * dotp etas values) (psum 2 values) 0 0); [| ring].
  intros y. rewrite psum2_line by exact H. ring.
Qed.
Lemma dcsum_eq : forall e etas values, length values = length etas -> dcsum e etas values = e_B e * 12 * (dotp2 etas values - dotp etas values).
Proof.
  intros e. induction etas as [| a r IH]; intros [| v w] H; cbn in H; try discriminate; cbn [dcsum dotp dotp2]; [ring |].
  rewrite IH by congruence. unfold d2f_dcdetai. ring.
Qed.

Lemma df_dc_deriv : forall p c c' etas values, length values = length etas ->
  derivable_pt_lim (fun t => df_dc_of p (c + t * c') (vline etas values t)) 0
    (d2f_dc2 (eval_lin p c etas) * c' + dcsum (eval_lin p c etas) etas values).
Proof.
  intros p c c' etas values H. unfold df_dc_of.
  apply (derivable_ext (fun t => (o_A p * ((c + t * c') * (c + t * c')) * (2 * (c + t * c') - 2) + 2 * o_A p * (c + t * c') * ((- (c + t * c') + 1) * (- (c + t * c') + 1)) + o_B p * 2 * (c + t * c'))
     + (psum 2 (vline etas values t) * (-6 * o_B p) + psum 3 (vline etas values t) * (4 * o_B p)))).
  { intros t. ring. }
  eapply derivable_eq; [| apply derivable_plus; [| apply derivable_plus; apply derivable_scal; [apply psum2_deriv | apply psum3_deriv]; exact H]].
  2:{ apply (derivable_comp_line (fun x => o_A p * (x * x) * (2 * x - 2) + 2 * o_A p * x * ((- x + 1) * (- x + 1)) + o_B p * 2 * x)).
      apply (quartic_deriv 0 (2 * o_A p + 2 * o_B p) (-6 * o_A p) (4 * o_A p) 0); [intros y; ring | reflexivity]. }
  rewrite dcsum_eq by exact H. unfold d2f_dc2, eval_lin. cbn [e_A e_B e_c]. ring.
Qed.

Lemma df_detai_deriv : forall p c c' etas values eta v, length values = length etas ->
  derivable_pt_lim (fun t => df_detai (eval_of p (c + t * c') (vline etas values t)) (eta + t * v)) 0
    (d2f_dcdetai (eval_lin p c etas) eta * c' + d2f_detai2 (eval_lin p c etas) eta * v + 24 * o_B p * eta * (dotp etas values - eta * v)).
Proof.
  intros p c c' etas values eta v H. unfold df_detai, eval_of. cbn [e_B e_c e_s2].
  eapply derivable_eq; [| apply derivable_mult; [apply derivable_scal; apply derivable_line | apply derivable_plus; [| apply psum2_deriv; exact H]]].
  2:{ apply (quartic_deriv (eta * (1 * c - 2) + (- c + 1)) (v * (1 * c - 2) + eta * c' - c') (v * c') 0 0); [intros y; ring | reflexivity]. }
  cbv beta. rewrite psum2_line by exact H. unfold d2f_dcdetai, d2f_detai2, eval_lin. cbn [e_B e_c e_s2]. ring.
Qed.

Lemma time_part_deriv : forall wtd w v v' b, (1 <= wtd)%nat -> derivable_pt_lim (fun t => time_part wtd w (v + t * v') b) 0 (v' * w).
Proof.
  intros wtd w v v' b H. unfold time_part. destruct (Nat.leb_spec 1 wtd); [| lia].
  eapply derivable_eq; [| apply derivable_plus; [apply derivable_scal; apply derivable_line | apply derivable_const0]]. ring.
Qed.

(** the rows of the order parameters along a line *)
Lemma eta_vals_nth : forall p wtd buffer e etas i k, (k < length etas)%nat ->
  nth k (eta_vals p wtd buffer e i etas) 0 = o_L p * df_detai e (nth k etas 0) + time_part wtd (o_weight p) (nth k etas 0) (nth (i + k) buffer 0).
Proof.
  intros p wtd buffer e. induction etas as [| eta etas IH]; intros i k H; cbn in H; [lia |].
  destruct k as [| k]; cbn [eta_vals nth]; [rewrite Nat.add_0_r; reflexivity |].
  rewrite IH by lia. do 3 f_equal. lia.
Qed.
Lemma eta_vals_length : forall p wtd buffer e etas i, length (eta_vals p wtd buffer e i etas) = length etas.
Proof. intros p wtd buffer e. induction etas as [| eta etas IH]; intros i; cbn [eta_vals length]; [reflexivity | rewrite IH; reflexivity]. Qed.
Lemma vline_nth : forall etas values t k, length values = length etas -> nth k (vline etas values t) 0 = nth k etas 0 + t * nth k values 0.
Proof.
  induction etas as [| e r IH]; intros [| v w] t k H; cbn in H; try discriminate; [destruct k; cbn; ring |].
  destruct k as [| k]; cbn [vline nth]; [reflexivity | apply IH; congruence].
Qed.
Lemma gvline_nth : forall gs hs t k d, length hs = length gs -> nth k (gvline gs hs t) vzero d = nth k gs vzero d + t * nth k hs vzero d.
Proof.
  induction gs as [| e r IH]; intros [| v w] t k d H; cbn in H; try discriminate; [destruct k; cbn; unfold vzero; ring |].
  destruct k as [| k]; cbn [gvline nth]; [reflexivity | apply IH; congruence].
Qed.
Lemma eta_grads_nth : forall p gs k d, nth k (eta_grads p gs) vzero d = o_L p * o_kappa_p p * nth k gs vzero d.
Proof.
  intros p. induction gs as [| g gs IH]; intros [| k] d; cbn [eta_grads map nth]; try (unfold vzero; ring).
  apply IH.
Qed.

Lemma derivable_scal_l : forall g x a k, derivable_pt_lim g x a -> derivable_pt_lim (fun t => k * g t) x (k * a).
Proof.
  intros g x a k H. apply (derivable_ext (fun t => g t * k)); [intros; ring |]. rewrite Rmult_comm. apply derivable_scal. exact H.
Qed.
