(** Property C94: the fluxes of the four diffusion mechanisms. *)
From Coq Require Import List Reals Arith Lia Lra FunctionalExtensionality.
From Verif Require Import Util MobilityModel MobilityProofs OperatorModel OperatorProofs OperatorProps OperatorMassProps MobilityProps FluxModel.
Import ListNotations.
Local Open Scope R_scope.

(** ** Loops over pairs of grains *)
Definition lsum {A} (f : A -> R) (l : list A) : R := fold_right (fun x s => f x + s) 0 l.
Lemma lsum_nil : forall A (f : A -> R), lsum f [] = 0.
Proof. reflexivity. Qed.
Lemma lsum_cons : forall A (f : A -> R) x l, lsum f (x :: l) = f x + lsum f l.
Proof. reflexivity. Qed.
Lemma lsum_app : forall A (f : A -> R) l l', lsum f (l ++ l') = lsum f l + lsum f l'.
Proof. intros A f l l'. unfold lsum. induction l as [| x l IH]; cbn [app fold_right]; [ring | rewrite IH; ring]. Qed.
Lemma lsum_ext : forall A (f g : A -> R) l, (forall x, In x l -> f x = g x) -> lsum f l = lsum g l.
Proof. intros A f g l H. unfold lsum. induction l as [| x l IH]; cbn [fold_right]; [reflexivity |]. rewrite H, IH; [reflexivity | intros; apply H; right; assumption | left; reflexivity]. Qed.
Lemma lsum_plus : forall A (f g : A -> R) l, lsum (fun x => f x + g x) l = lsum f l + lsum g l.
Proof. intros A f g l. unfold lsum. induction l as [| x l IH]; cbn [fold_right]; [ring | rewrite IH; ring]. Qed.
Lemma lsum_le : forall A (f g : A -> R) l, (forall x, In x l -> f x <= g x) -> lsum f l <= lsum g l.
Proof.
  intros A f g l H. unfold lsum. induction l as [| x l IH]; cbn [fold_right]; [lra |].
  assert (f x <= g x) by (apply H; left; reflexivity). assert (fold_right (fun x s => f x + s) 0 l <= fold_right (fun x s => g x + s) 0 l) by (apply IH; intros; apply H; right; assumption). lra.
Qed.
Lemma lsum_zero : forall A (l : list A), lsum (fun _ => 0) l = 0.
Proof. intros A l. unfold lsum. induction l as [| x l IH]; cbn [fold_right]; [reflexivity | rewrite IH; ring]. Qed.

Definition indexed {A} (l : list A) : list (nat * A) := combine (seq 0 (length l)) l.
Lemma indexed_app : forall A (l : list A) x, indexed (l ++ [x]) = indexed l ++ [(length l, x)].
Proof.
  intros A l x. unfold indexed. rewrite app_length. cbn [length]. rewrite seq_app. cbn [seq Nat.add].
  assert (G : forall (a : list nat) (b : list A) a' b', length a = length b -> combine (a ++ a') (b ++ b') = combine a b ++ combine a' b').
  { induction a as [| y a IH]; intros [| z b] a' b' H; cbn in H |- *; try discriminate; [reflexivity |]. rewrite IH by congruence. reflexivity. }
  rewrite G by apply seq_length. reflexivity.
Qed.
Lemma indexed_below : forall A (l : list A) y, In y (indexed l) -> (fst y < length l)%nat.
Proof. intros A l [i x] H. apply in_combine_l in H. apply in_seq in H. cbn [fst]. lia. Qed.
Lemma indexed_lsum : forall A (f : A -> R) (l : list A), lsum (fun y => f (snd y)) (indexed l) = lsum f l.
Proof.
  intros A f l. induction l as [| x l IH] using rev_ind; [reflexivity |].
  rewrite indexed_app, !lsum_app, IH. unfold lsum. cbn [fold_right snd]. reflexivity.
Qed.

(** sum over all ordered pairs of different grains *)
Definition pairs {A} (t : A -> A -> R) (l : list (nat * A)) : R :=
  lsum (fun x => lsum (fun y => if negb (Nat.eqb (fst x) (fst y)) then t (snd x) (snd y) else 0) l) l.

Lemma pairs_app : forall A (t : A -> A -> R) (l : list A) x, (forall x y, t x y = t y x) ->
  pairs t (indexed (l ++ [x])) = pairs t (indexed l) + 2 * lsum (t x) l.
Proof.
  intros A t l x Sym. unfold pairs. rewrite indexed_app, lsum_app.
  assert (E : lsum (fun x0 => lsum (fun y => if negb (fst x0 =? fst y)%nat then t (snd x0) (snd y) else 0) (indexed l ++ [(length l, x)])) (indexed l)
    = pairs t (indexed l) + lsum (t x) l).
  { unfold pairs. rewrite <- (indexed_lsum _ (t x)), <- lsum_plus. apply lsum_ext. intros y Hy. rewrite lsum_app. f_equal.
    unfold lsum. cbn [fold_right fst snd]. apply indexed_below in Hy.
    destruct (Nat.eqb_spec (fst y) (length l)) as [C | _]; [lia |]. cbn [negb]. rewrite Sym. ring. }
  rewrite E, lsum_cons, lsum_nil, lsum_app, lsum_cons, lsum_nil. cbn [fst snd]. rewrite Nat.eqb_refl. cbn [negb].
  rewrite (lsum_ext _ _ (fun y => t x (snd y)) (indexed l)).
  - rewrite indexed_lsum. fold (pairs t (indexed l)). ring.
  - intros y Hy. apply indexed_below in Hy. destruct (Nat.eqb_spec (length l) (fst y)) as [C | _]; [lia | reflexivity].
Qed.

Lemma gb_inner_lsum : forall (term : egrain -> egrain -> vec) g before acc d, gb_inner term g before acc d = acc d + lsum (fun b => term g b d) before.
Proof.
  intros term g. induction before as [| b r IH]; intros acc d; cbn [gb_inner]; [unfold lsum; cbn; ring |].
  rewrite IH. unfold lsum. cbn [fold_right]. ring.
Qed.
Lemma gb_outer_pairs : forall (term : egrain -> egrain -> vec) d, (forall x y, term x y d = term y x d) -> forall grains before acc,
  2 * gb_outer term before grains acc d = 2 * acc d + pairs (fun x y => term x y d) (indexed (before ++ grains)) - pairs (fun x y => term x y d) (indexed before).
Proof.
  intros term d Sym. induction grains as [| g r IH]; intros before acc; cbn [gb_outer]; [rewrite app_nil_r; ring |].
  rewrite IH, gb_inner_lsum. rewrite <- app_assoc. cbn [app].
  rewrite (pairs_app _ (fun x y => term x y d) before g Sym). ring.
Qed.

(** ** Tensors *)
Lemma contract_diag : forall dim fac v d, (d < dim)%nat -> contract dim (diagonal_matrix fac) v d = fac * v d.
Proof.
  intros dim fac v d H. unfold contract.
  assert (G : forall n, dot n (diagonal_matrix fac d) v = if Nat.ltb d n then fac * v d else 0).
  { induction n as [| n IH]; cbn [dot]; [reflexivity |]. rewrite IH. unfold diagonal_matrix.
    destruct (Nat.ltb_spec d n), (Nat.ltb_spec d (S n)), (Nat.eqb_spec d n); subst; try lia; ring. }
  rewrite G. destruct (Nat.ltb_spec d dim); [reflexivity | lia].
Qed.
Lemma dot_lin_l : forall dim a b c s t, dot dim (fun d => s * a d + t * b d) c = s * dot dim a c + t * dot dim b c.
Proof. intros. rewrite dot_comm, dot_lin, !(dot_comm _ c). reflexivity. Qed.
Lemma contract_projector : forall dim v fac diag mu d, (d < dim)%nat ->
  contract dim (projector_matrix v fac diag) mu d = fac * (diag * mu d - v d * dot dim v mu).
Proof.
  intros dim v fac diag mu d H. unfold contract, projector_matrix.
  rewrite (dot_ext dim _ mu (fun e => fac * diagonal_matrix diag d e + (- fac * v d) * v e) mu) by (intros; ring).
  rewrite (dot_lin_l dim (diagonal_matrix diag d) v). fold (contract dim (diagonal_matrix diag) mu d).
  rewrite contract_diag by exact H. ring.
Qed.
Lemma contract_neg : forall dim (M : mat) v d, contract dim (fun d e => - M d e) v d = - contract dim M v d.
Proof.
  intros. unfold contract. rewrite (dot_ext dim _ v (fun e => (-1) * M d e + 0 * M d e) v) by (intros; ring).
  rewrite (dot_lin_l dim (M d) (M d)). ring.
Qed.

(** the two ways to filter the direction agree *)
Lemma filters_agree : forall dim v mu d, unit_vector dim v d * dot dim (unit_vector dim v) mu = v d * (unit_vector_filter_2 dim v * dot dim v mu).
Proof.
  intros dim v mu d.
  assert (P := small_pos 10).
  assert (T : / 10 ^ 20 = / 10 ^ 10 * / 10 ^ 10) by (rewrite <- Rinv_mult; f_equal; ring).
  assert (Np : 0 <= norm dim v) by apply sqrt_pos.
  assert (Ns := norm_sq dim v).
  destruct (Rlt_dec (/ 10 ^ 10) (norm dim v)) as [L | L].
  - rewrite unit_vector_on by exact L.
    rewrite (dot_ext dim (unit_vector dim v) mu (fun e => / norm dim v * v e + 0 * v e) mu).
    + rewrite (dot_lin_l dim v v). unfold unit_vector_filter_2, mask_gt, mask_lt.
      assert (B : / 10 ^ 20 < dot dim v v) by (rewrite T, <- Ns; nra).
      destruct (Rlt_dec (/ 10 ^ 20) (dot dim v v)); [| contradiction]. destruct (Rlt_dec (dot dim v v) (/ 10 ^ 20)); [lra |].
      rewrite <- Ns. field. lra.
    + intros e. rewrite unit_vector_on by exact L. unfold Rdiv. ring.
    + reflexivity.
  - rewrite unit_vector_off by exact L. unfold unit_vector_filter_2, mask_gt.
    destruct (Rlt_dec (/ 10 ^ 20) (dot dim v v)) as [C | _]; [exfalso; rewrite T, <- Ns in C; nra |]. unfold Rdiv. ring.
Qed.

Lemma gb_contract : forall dim m gi gj mu d, (d < dim)%nat -> contract dim (gb_matrix dim m gi gj) mu d = m_gb m * gb_term dim mu gi gj d.
Proof. intros. unfold gb_matrix. rewrite contract_projector, filters_agree by assumption. unfold gb_term. ring. Qed.

Lemma gb_term_sym : forall dim mu gi gj d, gb_term dim mu gi gj d = gb_term dim mu gj gi d.
Proof.
  intros dim mu gi gj d. unfold gb_term.
  set (a := fun d0 => snd gi d0 - snd gj d0). set (b := fun d0 => snd gj d0 - snd gi d0).
  assert (D : forall v, dot dim a v = - dot dim b v).
  { intros v. rewrite (dot_ext dim a v (fun e => (-1) * b e + 0 * b e) v) by (unfold a, b; intros; ring).
    rewrite (dot_lin_l dim b b). ring. }
  assert (S2 : dot dim a a = dot dim b b) by (rewrite (D a), (dot_comm dim b a), (D b); ring).
  unfold unit_vector_filter_2. rewrite S2, (D mu).
  replace (a d) with (- b d) by (unfold a, b; ring). ring.
Qed.

Lemma contract_fold : forall A dim (F : A -> mat) (b : A -> bool) mu d l (M : mat),
  contract dim (fold_left (fun M j => if b j then fun d e => M d e + F j d e else M) l M) mu d
  = contract dim M mu d + lsum (fun j => if b j then contract dim (F j) mu d else 0) l.
Proof.
  intros A dim F b mu d. induction l as [| j l IH]; intros M; cbn [fold_left]; [unfold lsum; cbn [fold_right]; ring |].
  rewrite IH. unfold lsum. cbn [fold_right]. destruct (b j); [| ring].
  unfold contract at 1. rewrite (dot_ext dim _ mu (fun e => 1 * M d e + 1 * F j d e) mu) by (intros; ring). rewrite (dot_lin_l dim (M d) (F j d)). unfold contract. ring.
Qed.

Lemma M_gb_contract : forall dim m grains mu d, (d < dim)%nat ->
  contract dim (M_gb_tensorial dim m grains) mu d = m_gb m * pairs (fun x y => gb_term dim mu x y d) (indexed grains).
Proof.
  intros dim m grains mu d H. unfold M_gb_tensorial. fold (indexed grains).
  assert (G : forall l' l M, contract dim (fold_left (fun M i => fold_left (fun M j =>
      if negb (Nat.eqb (fst i) (fst j)) then fun d e => M d e + gb_matrix dim m (snd i) (snd j) d e else M) l' M) l M) mu d
    = contract dim M mu d + m_gb m * lsum (fun x => lsum (fun y => if negb (Nat.eqb (fst x) (fst y)) then gb_term dim mu (snd x) (snd y) d else 0) l') l).
  { intros l'. induction l as [| i l IH]; intros M; cbn [fold_left]; [unfold lsum; cbn [fold_right]; ring |].
    rewrite IH, lsum_cons. rewrite (contract_fold _ dim (fun j => gb_matrix dim m (snd i) (snd j)) (fun j => negb (Nat.eqb (fst i) (fst j)))).
    assert (E : lsum (fun j => if negb (fst i =? fst j)%nat then contract dim (gb_matrix dim m (snd i) (snd j)) mu d else 0) l'
      = m_gb m * lsum (fun y => if negb (fst i =? fst y)%nat then gb_term dim mu (snd i) (snd y) d else 0) l').
    { clear IH. induction l' as [| y l' IHl]; [rewrite !lsum_nil; ring |]. rewrite !lsum_cons, IHl.
      destruct (negb _); [rewrite gb_contract by exact H |]; ring. }
    rewrite E. ring. }
  rewrite G. unfold pairs. unfold contract at 1. rewrite (dot_zero dim) by reflexivity. ring.
Qed.

(** ** The four fluxes together *)
Lemma dot_ext_lt : forall dim a b b', (forall d, (d < dim)%nat -> b d = b' d) -> dot dim a b = dot dim a b'.
Proof. induction dim as [| dim IH]; intros a b b' H; cbn [dot]; [reflexivity |]. rewrite (IH a b b'), H by (auto; intros; apply H; lia). reflexivity. Qed.

(** For all states, mobilities, dimensions and numbers of grains: the four fluxes sum up to
    the flux of the residual; with the tensorial mobility up to the factor 1001/1000 of the
    surface part, which the residual has and the fluxes do not. *)
Theorem C94_fluxes : forall p c etas gc getas gmu d, (d < o_dim p)%nat -> length getas = length etas ->
  flux p volume c etas gc getas gmu d + flux p vapour c etas gc getas gmu d
    + flux p surface c etas gc getas gmu d + flux p boundary c etas gc getas gmu d
  = - apply_M p c etas gc getas gmu d
    + (if o_tensorial p then / 1000 * (4 * m_surf (o_mobility p) * (c * c) * ((1 - c) * (1 - c))) * gmu d else 0).
Proof.
  intros p c etas gc getas gmu d Hd L. unfold flux, apply_M. destruct (o_tensorial p).
  - rewrite !contract_neg. unfold M_vol_tensorial, M_vap_tensorial, M_surf_tensorial.
    rewrite !contract_diag, contract_projector, M_gb_contract by exact Hd. rewrite phi_masked_eq.
    unfold apply_M_tensorial, f_vol_vap, f_surf, projector_scale.
    change (list (R * vec)) with (list egrain). set (grains := (combine etas getas : list egrain)).
    assert (G := gb_outer_pairs (gb_term (o_dim p) gmu) d (fun x y => gb_term_sym (o_dim p) gmu x y d) grains [] (fun _ => 0)).
    cbn [app] in G. change (pairs _ (indexed (@nil egrain))) with 0 in G.
    destruct (Nat.leb_spec (length grains) 1) as [S1 | _].
    + assert (Z : pairs (fun x y => gb_term (o_dim p) gmu x y d) (indexed grains) = 0).
      { destruct grains as [| g [| g' r]]; cbn [length] in S1; [reflexivity | | lia]. unfold pairs, indexed, lsum. cbn. ring. }
      etransitivity; [| apply Rplus_comm]. change (pairs _ _) with (pairs (fun x y : egrain => gb_term (o_dim p) gmu x y d) (indexed grains)). rewrite Z. field.
    + set (P := pairs (fun x y : egrain => gb_term (o_dim p) gmu x y d) (indexed grains)) in *.
      replace P with (2 * gb_outer (gb_term (o_dim p) gmu) [] grains (fun _ : nat => 0) d) by lra. field.
  - unfold M_vol, M_vap, M_surf, M_gb, apply_M_scalar, M_scalar. rewrite phi_masked_eq. ring.
Qed.
Print Assumptions C94_fluxes.

(** ** The fields that are written *)
(** every cell reads all blocks *)
Definition full (n_grains : nat) (q : point) : Prop := q_blocks q = seq 0 (2 + n_grains) /\ length (q_vel q) = n_grains.
Definition resting (q : point) : Prop := Forall (fun v => v = None) (q_vel q).

(** the flux of the concentration in the residual *)
Fixpoint transport (p : op_data) (n n_grains : nat) (pts : list point) (u : state) (i : nat) : R :=
  match pts with
  | [] => 0
  | q :: pts => q_w q * dot (o_dim p) (q_G q i) (advect_c (q_vel q) (value_at n q u 0)
      (apply_M p (value_at n q u 0) (map (value_at n q u) (seq 2 n_grains)) (grad_at n q u 0) (map (grad_at n q u) (seq 2 n_grains)) (grad_at n q u 1)))
      + transport p n n_grains pts u i
  end.

Lemma residual_row : forall p n n_grains pts history u i, (forall q, In q pts -> full n_grains q) ->
  residual p n pts 2 history u 0 i = Some (mass n pts (fun j => o_weight p * u 0%nat j + history 0%nat j) i + transport p n n_grains pts u i).
Proof.
  intros p n ng pts history u i. unfold residual. induction pts as [| q pts IH]; intros H; cbn [cell_loop mass transport]; [f_equal; ring |].
  destruct (H q (or_introl eq_refl)) as [Hb Hv]. cbn [Nat.add seq] in Hb.
  assert (E : residual_point p 2 (values n q history) (q_vel q) (values n q u) (grads n q u)
    = Some (time_part 2 (o_weight p) (value_at n q u 0) (value_at n q history 0)
        :: (o_weight_alg p * value_at n q u 1 - df_dc_of p (value_at n q u 0) (map (value_at n q u) (seq 2 ng)))
        :: eta_vals p 2 (values n q history) (eval_of p (value_at n q u 0) (map (value_at n q u) (seq 2 ng))) 2 (map (value_at n q u) (seq 2 ng)),
       advect_c (q_vel q) (value_at n q u 0) (apply_M p (value_at n q u 0) (map (value_at n q u) (seq 2 ng)) (grad_at n q u 0) (map (grad_at n q u) (seq 2 ng)) (grad_at n q u 1))
        :: (fun d => - o_kappa_c p * grad_at n q u 0 d)
        :: advect_etas (q_vel q) (map (value_at n q u) (seq 2 ng)) (eta_grads p (map (grad_at n q u) (seq 2 ng))))).
  { unfold residual_point, values, grads. rewrite Hb. cbn [map].
    rewrite residual_quad_spec by (cbn [length]; rewrite ?map_length; reflexivity). cbn [obind nth].
    unfold add_advection. cbn [fst snd]. rewrite advect_spec; [reflexivity | rewrite map_length, seq_length; exact Hv |].
    unfold eta_grads. rewrite !map_length. reflexivity. }
  rewrite E. cbn [obind fst snd]. rewrite IH by (intros; apply H; right; assumption). cbn [obind]. f_equal.
  rewrite Hb. cbn [scatter Nat.eqb]. rewrite scatter_other by (rewrite in_seq; lia).
  unfold time_part. cbn [Nat.leb Nat.eqb].
  assert (V : vsum n (fun j => q_N q j * (o_weight p * u 0%nat j + history 0%nat j)) = value_at n q u 0 * o_weight p + value_at n q history 0).
  { unfold value_at. rewrite (vsum_ext n _ (fun j => o_weight p * (q_N q j * u 0%nat j) + 1 * (q_N q j * history 0%nat j))) by (intros; ring). rewrite vsum_lin. ring. }
  rewrite V. ring.
Qed.

Lemma advect_resting : forall vel c g, Forall (fun v => v = None) vel -> advect_c vel c g = g.
Proof. induction vel as [| v vel IH]; intros c g H; cbn [advect_c]; [reflexivity |]. inversion H; subst. apply IH. assumption. Qed.

Definition rhs_sum (p : op_data) (n n_grains : nat) (pts : list point) (u : state) (i : nat) : R :=
  flux_rhs p n n_grains pts u volume i + flux_rhs p n n_grains pts u vapour i + flux_rhs p n n_grains pts u surface i + flux_rhs p n n_grains pts u boundary i.

Lemma rhs_transport : forall p n n_grains pts u i, o_tensorial p = false -> (forall q, In q pts -> resting q) ->
  rhs_sum p n n_grains pts u i = - transport p n n_grains pts u i.
Proof.
  intros p n ng pts u i T. unfold rhs_sum. induction pts as [| q pts IH]; intros H; cbn [flux_rhs transport]; [ring |].
  rewrite advect_resting by (apply H; left; reflexivity). specialize (IH (fun x I => H x (or_intror I))).
  set (c := value_at n q u 0%nat). set (etas := map (value_at n q u) (seq 2 ng)). set (gc := grad_at n q u 0%nat).
  set (getas := map (grad_at n q u) (seq 2 ng)). set (gmu := grad_at n q u 1%nat).
  assert (L : length getas = length etas) by (unfold getas, etas; rewrite !map_length; reflexivity).
  assert (E : dot (o_dim p) (q_G q i) (fun d => 1 * (flux p volume c etas gc getas gmu d + flux p vapour c etas gc getas gmu d) + 1 * (flux p surface c etas gc getas gmu d + flux p boundary c etas gc getas gmu d))
    = dot (o_dim p) (q_G q i) (fun d => (-1) * apply_M p c etas gc getas gmu d)).
  { apply dot_ext_lt. intros d Hd. assert (F := C94_fluxes p c etas gc getas gmu d Hd L). rewrite T in F. lra. }
  rewrite dot_lin, dot_scale in E.
  assert (D2 : forall f g : vec, dot (o_dim p) (q_G q i) (fun d => f d + g d) = dot (o_dim p) (q_G q i) f + dot (o_dim p) (q_G q i) g).
  { intros f g. rewrite (dot_ext _ _ _ (q_G q i) (fun d => 1 * f d + 1 * g d)) by (intros; ring). rewrite (dot_lin _ _ f g). ring. }
  rewrite !D2 in E. set (t := transport p n ng pts u i) in *. change (dot (o_dim p) (q_G q i) (fun d : nat => apply_M p c etas gc getas gmu d)) with (dot (o_dim p) (q_G q i) (apply_M p c etas gc getas gmu)) in E.
  nra.
Qed.

Lemma mass_lin : forall n pts x y a b i, mass n pts (fun j => a * x j + b * y j) i = a * mass n pts x i + b * mass n pts y i.
Proof.
  intros n pts x y a b i. induction pts as [| q pts IH]; cbn [mass]; [ring |]. rewrite IH.
  rewrite (vsum_ext n _ (fun j => a * (q_N q j * x j) + b * (q_N q j * y j))) by (intros; ring). rewrite vsum_lin. ring.
Qed.

(** For all meshes, quadrature formulas, states, weights of the time scheme and numbers of
    grains, without advection and with the scalar mobility: if the step is converged (the
    rows of the concentration vanish) and the mass matrix is regular, the four fields that
    are written sum up to the discrete rate of the concentration.  (They are minus the
    divergences of the fluxes.) *)
Theorem C94_rate : forall p n n_grains pts history u lhs,
  o_tensorial p = false ->
  (forall q, In q pts -> full n_grains q /\ resting q) ->
  (forall x, (forall i, (i < n)%nat -> mass n pts x i = 0) -> forall j, (j < n)%nat -> x j = 0) ->
  (forall i, (i < n)%nat -> residual p n pts 2 history u 0 i = Some 0) ->
  written p n n_grains pts u lhs ->
  forall j, (j < n)%nat -> lhs volume j + lhs vapour j + lhs surface j + lhs boundary j = o_weight p * u 0%nat j + history 0%nat j.
Proof.
  intros p n ng pts history u lhs T Hq Inj Res W j Hj.
  set (x := fun j => 1 * (1 * (1 * lhs volume j + 1 * lhs vapour j) + 1 * (1 * lhs surface j + 1 * lhs boundary j)) + (-1) * (o_weight p * u 0%nat j + history 0%nat j)).
  assert (X : x j = 0).
  { apply Inj; [| exact Hj]. intros i Hi. unfold x.
    rewrite (mass_lin n pts (fun j => 1 * (1 * lhs volume j + 1 * lhs vapour j) + 1 * (1 * lhs surface j + 1 * lhs boundary j)) (fun j => o_weight p * u 0%nat j + history 0%nat j)).
    rewrite (mass_lin n pts (fun j => 1 * lhs volume j + 1 * lhs vapour j) (fun j => 1 * lhs surface j + 1 * lhs boundary j)), !mass_lin.
    rewrite !(W _ i Hi).
    assert (R := Res i Hi). rewrite (residual_row p n ng) in R by (intros; apply Hq; assumption). injection R as R.
    assert (S := rhs_transport p n ng pts u i T (fun q I => proj2 (Hq q I))). unfold rhs_sum in S. lra. }
  unfold x in X. lra.
Qed.
Print Assumptions C94_rate.

(** ** Conservation and dissipation, mechanism by mechanism *)
(** the integral of a field *)
Definition integral (n : nat) (pts : list point) (x : nat -> R) : R := lsum (fun q => q_w q * vsum n (fun j => q_N q j * x j)) pts.

(** For both mobilities, all states and meshes whose shape functions sum up to one: the
    integral of every field that is written vanishes. *)
Theorem C94_conserved : forall p n n_grains pts u lhs k,
  (forall q, In q pts -> partition n q) -> written p n n_grains pts u lhs -> integral n pts (lhs k) = 0.
Proof.
  intros p n ng pts u lhs k Hq W.
  assert (A : vsum n (mass n pts (lhs k)) = integral n pts (lhs k)).
  { clear W. unfold integral. revert Hq. induction pts as [| q pts IH]; intros Hq; [cbn [mass]; rewrite lsum_nil; apply vsum_zero |].
    cbn [mass]. rewrite lsum_cons, <- IH by (intros; apply Hq; right; assumption). destruct (Hq q (or_introl eq_refl)) as [HN _].
    rewrite (vsum_ext n _ (fun i => (q_w q * vsum n (fun j => q_N q j * lhs k j)) * q_N q i + 1 * mass n pts (lhs k) i)) by (intros; ring).
    rewrite vsum_lin, HN. change (vsum n (fun j => mass n pts (lhs k) j)) with (vsum n (mass n pts (lhs k))). ring. }
  rewrite <- A, (vsum_ext n _ (flux_rhs p n ng pts u k)) by (intros; apply W; assumption).
  clear W A lhs. revert Hq. induction pts as [| q pts IH]; intros Hq; cbn [flux_rhs]; [apply vsum_zero |].
  rewrite vsum_plus, IH by (intros; apply Hq; right; assumption). destruct (Hq q (or_introl eq_refl)) as [_ HG].
  rewrite vsum_scale, dot_vsum, dot_zero by exact HG. ring.
Qed.
Print Assumptions C94_conserved.

(** what a mechanism dissipates at a point *)
Lemma flux_dissipates : forall p k c etas gc getas gmu, nonnegative (o_mobility p) -> length getas = length etas ->
  (k = boundary -> Forall (fun e => 0 <= e) etas) -> dot (o_dim p) gmu (flux p k c etas gc getas gmu) <= 0.
Proof.
  intros p k c etas gc getas gmu [Hv [Hp [Hs Hg]]] L He.
  set (m := o_mobility p) in *. set (dim := o_dim p).
  assert (Q : 0 <= dot dim gmu gmu) by apply dot_pos.
  assert (F := phi_range c).
  assert (Sq : 0 <= (c * c) * ((1 - c) * (1 - c))) by (assert (A := Rle_0_sqr (c * (1 - c))); unfold Rsqr in A; nra).
  assert (Scal : forall a, 0 <= a -> dot dim gmu (fun d => - a * gmu d) <= 0).
  { intros a Ha. rewrite dot_scale. nra. }
  unfold flux. fold m dim. destruct (o_tensorial p).
  - destruct k.
    + rewrite (dot_ext_lt dim gmu _ (fun d => - (m_vol m * phi c) * gmu d)).
      * apply Scal. apply Rmult_le_pos; [exact Hv | tauto].
      * intros d Hd. rewrite contract_neg. unfold M_vol_tensorial. rewrite contract_diag, phi_masked_eq by exact Hd. ring.
    + rewrite (dot_ext_lt dim gmu _ (fun d => - (m_vap m * (1 - phi c)) * gmu d)).
      * apply Scal. apply Rmult_le_pos; [exact Hp | lra].
      * intros d Hd. rewrite contract_neg. unfold M_vap_tensorial. rewrite contract_diag, phi_masked_eq by exact Hd. ring.
    + set (nc := unit_vector dim gc). set (s := m_surf m * 4 * (c * c) * (1 - c) * (1 - c)).
      assert (Hsn : 0 <= s) by (unfold s; replace (m_surf m * 4 * (c * c) * (1 - c) * (1 - c)) with (4 * (m_surf m * ((c * c) * ((1 - c) * (1 - c))))) by ring; assert (0 <= m_surf m * ((c * c) * ((1 - c) * (1 - c)))) by (apply Rmult_le_pos; assumption); lra).
      rewrite (dot_ext_lt dim gmu _ (fun d => (- s) * gmu d + (s * dot dim nc gmu) * nc d)).
      * rewrite (dot_lin dim gmu gmu nc). rewrite (dot_comm dim gmu nc).
        assert (B := unit_vector_bound dim gc gmu). fold nc in B. nra.
      * intros d Hd. rewrite contract_neg. unfold M_surf_tensorial. rewrite contract_projector by exact Hd. unfold nc, s. ring.
    + set (grains := (combine etas getas : list egrain)).
      rewrite (dot_ext_lt dim gmu _ (fun d => (- 2 * m_gb m) * gb_outer (gb_term dim gmu) [] grains (fun _ => 0) d)).
      * rewrite (dot_scale dim gmu (gb_outer (gb_term dim gmu) [] grains (fun _ => 0))).
        assert (P : 0 <= dot dim gmu (gb_outer (gb_term dim gmu) [] grains (fun _ => 0))).
        { apply gb_outer_dot; [| rewrite dot_comm, dot_zero by reflexivity; lra].
          intros a b Ia Ib. cbn [app] in Ia, Ib.
          assert (Pa : 0 <= fst a) by (specialize (He eq_refl); rewrite Forall_forall in He; apply He; destruct a as [x y]; apply (in_combine_l _ _ _ _ Ia)).
          assert (Pb : 0 <= fst b) by (specialize (He eq_refl); rewrite Forall_forall in He; apply He; destruct b as [x y]; apply (in_combine_l _ _ _ _ Ib)).
          unfold gb_term. set (v := fun d => snd a d - snd b d).
          rewrite (dot_ext dim gmu _ gmu (fun d => (fst a * fst b) * gmu d + (- (fst a * fst b) * (unit_vector_filter_2 dim v * dot dim v gmu)) * v d)) by (unfold v; intros; ring).
          rewrite (dot_lin dim gmu gmu v), (dot_comm dim gmu v). assert (B := filter_bound dim v gmu).
          assert (0 <= fst a * fst b) by (apply Rmult_le_pos; assumption). nra. }
        nra.
      * intros d Hd. rewrite contract_neg. rewrite M_gb_contract by exact Hd.
        assert (G := gb_outer_pairs (gb_term dim gmu) d (fun x y => gb_term_sym dim gmu x y d) grains [] (fun _ => 0)).
        cbn [app] in G. change (pairs _ (indexed (@nil egrain))) with 0 in G.
        change (pairs _ _) with (pairs (fun x y : egrain => gb_term dim gmu x y d) (indexed grains)).
        set (X := pairs _ _) in *. nra.
  - destruct k.
    + apply Scal. unfold M_vol. rewrite phi_masked_eq. apply Rmult_le_pos; [exact Hv | tauto].
    + apply Scal. unfold M_vap. rewrite phi_masked_eq. apply Rmult_le_pos; [exact Hp | lra].
    + apply Scal. unfold M_surf. apply surf_nonneg. exact Hs.
    + apply Scal. unfold M_gb. assert (0 <= eta_ij_sum etas) by (apply outer_sum_nonneg; [apply He; reflexivity | constructor | lra]). nra.
Qed.

(** For both mobilities with non-negative coefficients, positive quadrature weights and all
    states: every mechanism lowers the free energy (the product of its field with the
    chemical potential is not positive).  For the grain boundaries the order parameters
    have to be non-negative at the points. *)
Theorem C94_dissipation : forall p n n_grains pts u k, nonnegative (o_mobility p) ->
  (forall q, In q pts -> 0 <= q_w q /\ (k = boundary -> forall b, (2 <= b < 2 + n_grains)%nat -> 0 <= value_at n q u b)) ->
  vsum n (fun i => u 1%nat i * flux_rhs p n n_grains pts u k i) <= 0.
Proof.
  intros p n ng pts u k Hm. induction pts as [| q pts IH]; intros Hq; cbn [flux_rhs].
  - rewrite (vsum_ext n _ (fun _ => 0)) by (intros; ring). rewrite vsum_zero. lra.
  - specialize (IH (fun x I => Hq x (or_intror I))). destruct (Hq q (or_introl eq_refl)) as [Hw He].
    set (f := flux p k _ _ _ _ _).
    rewrite (vsum_ext n _ (fun i => q_w q * dot (o_dim p) (fun d => q_G q i d * u 1%nat i) f + 1 * (u 1%nat i * flux_rhs p n ng pts u k i))).
    + rewrite vsum_lin, dot_vsum.
      change (fun d => vsum n (fun i => q_G q i d * u 1%nat i)) with (grad_at n q u 1).
      assert (D : dot (o_dim p) (grad_at n q u 1) f <= 0).
      { apply flux_dissipates; [exact Hm | rewrite !map_length; reflexivity |].
        intros Hk. apply Forall_map, Forall_forall. intros b Hb. apply in_seq in Hb. apply He; [exact Hk | lia]. }
      assert (q_w q * dot (o_dim p) (grad_at n q u 1) f <= 0) by nra. lra.
    + intros i _. rewrite (dot_ext (o_dim p) (fun d => q_G q i d * u 1%nat i) f (fun d => u 1%nat i * q_G q i d + 0 * q_G q i d) f) by (intros; ring).
      rewrite (dot_lin_l (o_dim p) (q_G q i) (q_G q i)). ring.
Qed.
Print Assumptions C94_dissipation.

(** ** Cases: one linear element in one dimension, quadrature in its nodes *)
Definition node (blocks : list nat) (vel : list (option vec)) (k : nat) : point :=
  mkPoint (1 / 2) (fun j => if Nat.eqb j k then 1 else 0) (fun j _ => if Nat.eqb j 0 then -1 else 1) blocks vel.
Definition nodes (blocks : list nat) (vel : list (option vec)) : list point := [node blocks vel 0; node blocks vel 1].

Lemma node_value : forall blocks vel u b, value_at 2 (node blocks vel 0) u b = u b 0%nat /\ value_at 2 (node blocks vel 1) u b = u b 1%nat.
Proof. intros. unfold value_at, node. cbn [vsum q_N Nat.eqb]. split; ring. Qed.
Lemma node_value0 : forall blocks vel u b, value_at 2 (node blocks vel 0) u b = u b 0%nat.
Proof. intros. apply node_value. Qed.
Lemma node_value1 : forall blocks vel u b, value_at 2 (node blocks vel 1) u b = u b 1%nat.
Proof. intros. apply node_value. Qed.
Lemma node_grad : forall blocks vel u b k, grad_at 2 (node blocks vel k) u b = fun _ => u b 1%nat - u b 0%nat.
Proof. intros. apply functional_extensionality. intros d. unfold grad_at, node. cbn [vsum q_G Nat.eqb]. ring. Qed.
Lemma nodes_mass : forall blocks vel x i, (i < 2)%nat -> mass 2 (nodes blocks vel) x i = x i / 2.
Proof. intros blocks vel x [| [| i]] H; [| | lia]; unfold nodes, node; cbn [mass vsum q_N q_w Nat.eqb]; field. Qed.
Lemma nodes_regular : forall blocks vel x, (forall i, (i < 2)%nat -> mass 2 (nodes blocks vel) x i = 0) -> forall j, (j < 2)%nat -> x j = 0.
Proof. intros blocks vel x H j Hj. assert (E := H j Hj). rewrite nodes_mass in E by exact Hj. lra. Qed.
Lemma nodes_partition : forall blocks vel q, In q (nodes blocks vel) -> partition 2 q.
Proof. intros blocks vel q [<- | [<- | []]]; split; intros; unfold node; cbn [vsum q_N q_G Nat.eqb]; ring. Qed.

Lemma nodes_rhs : forall blocks vel p ng u k i, o_dim p = 1%nat -> (i < 2)%nat ->
  flux_rhs p 2 ng (nodes blocks vel) u k i = (if Nat.eqb i 0 then -1 else 1) / 2 *
    (flux p k (u 0%nat 0%nat) (map (fun b => u b 0%nat) (seq 2 ng)) (fun _ => u 0%nat 1%nat - u 0%nat 0%nat) (map (fun b => (fun _ => u b 1%nat - u b 0%nat) : vec) (seq 2 ng)) (fun _ => u 1%nat 1%nat - u 1%nat 0%nat) 0%nat
    + flux p k (u 0%nat 1%nat) (map (fun b => u b 1%nat) (seq 2 ng)) (fun _ => u 0%nat 1%nat - u 0%nat 0%nat) (map (fun b => (fun _ => u b 1%nat - u b 0%nat) : vec) (seq 2 ng)) (fun _ => u 1%nat 1%nat - u 1%nat 0%nat) 0%nat).
Proof.
  intros blocks vel p ng u k i Hd Hi. unfold nodes. cbn [flux_rhs].
  rewrite !node_value0, !node_value1, !node_grad.
  rewrite (map_ext _ _ (node_value0 blocks vel u)), (map_ext _ _ (node_value1 blocks vel u)).
  rewrite (map_ext (grad_at 2 (node blocks vel 0) u) (fun b _ => u b 1%nat - u b 0%nat)) by (intros; apply node_grad).
  rewrite (map_ext (grad_at 2 (node blocks vel 1) u) (fun b _ => u b 1%nat - u b 0%nat)) by (intros; apply node_grad).
  rewrite Hd. cbn [dot]. unfold node. cbn [q_w q_G]. field.
Qed.
Lemma nodes_transport : forall blocks vel p ng u i, o_dim p = 1%nat -> (i < 2)%nat ->
  transport p 2 ng (nodes blocks vel) u i = (if Nat.eqb i 0 then -1 else 1) / 2 *
    (advect_c vel (u 0%nat 0%nat) (apply_M p (u 0%nat 0%nat) (map (fun b => u b 0%nat) (seq 2 ng)) (fun _ => u 0%nat 1%nat - u 0%nat 0%nat) (map (fun b => (fun _ => u b 1%nat - u b 0%nat) : vec) (seq 2 ng)) (fun _ => u 1%nat 1%nat - u 1%nat 0%nat)) 0%nat
    + advect_c vel (u 0%nat 1%nat) (apply_M p (u 0%nat 1%nat) (map (fun b => u b 1%nat) (seq 2 ng)) (fun _ => u 0%nat 1%nat - u 0%nat 0%nat) (map (fun b => (fun _ => u b 1%nat - u b 0%nat) : vec) (seq 2 ng)) (fun _ => u 1%nat 1%nat - u 1%nat 0%nat)) 0%nat).
Proof.
  intros blocks vel p ng u i Hd Hi. unfold nodes. cbn [transport].
  rewrite !node_value0, !node_value1, !node_grad.
  rewrite (map_ext _ _ (node_value0 blocks vel u)), (map_ext _ _ (node_value1 blocks vel u)).
  rewrite (map_ext (grad_at 2 (node blocks vel 0) u) (fun b _ => u b 1%nat - u b 0%nat)) by (intros; apply node_grad).
  rewrite (map_ext (grad_at 2 (node blocks vel 1) u) (fun b _ => u b 1%nat - u b 0%nat)) by (intros; apply node_grad).
  rewrite Hd. cbn [dot]. unfold node. cbn [q_w q_G q_vel]. field.
Qed.
Lemma phi_half : phi (1 / 2) = 1 / 2.
Proof. rewrite phi_in by lra. unfold phi_raw. field. Qed.

(** a concentration and order parameters of one half, the potential [s] times the position *)
Definition half (s e3 : R) : state := fun b j => match b with 0%nat => 1 / 2 | 1%nat => if Nat.eqb j 0 then 0 else s | 2%nat => 1 / 2 | _ => e3 end.
Definition signed (a : R) (j : nat) : R := if Nat.eqb j 0 then a else - a.

(** a converged step with four different fields *)
Example C94_applies :
  let p := mkOp 1 1 1 1 1 1 1 (mkCoefficients 2 1 4 1 1) false in
  let pts := nodes [0; 1; 2; 3]%nat [None; None] in
  let u := half 1 (1 / 2) in
  let history : state := fun b j => match b with 0%nat => signed 6 j - 1 / 2 | _ => 0 end in
  let lhs := fun k => signed match k with volume => 2 | vapour => 1 | surface => 2 | boundary => 1 end in
  (forall q, In q pts -> full 2 q /\ resting q /\ partition 2 q)
  /\ (forall i, (i < 2)%nat -> residual p 2 pts 2 history u 0 i = Some 0)
  /\ written p 2 2 pts u lhs /\ nonnegative (o_mobility p).
Proof.
  cbv zeta. split; [| split; [| split]].
  - intros q Hq. split; [| split]; [| | exact (nodes_partition _ _ q Hq)].
    + destruct Hq as [<- | [<- | []]]; split; reflexivity.
    + destruct Hq as [<- | [<- | []]]; repeat constructor.
  - intros i Hi. rewrite (residual_row _ _ 2) by (intros q [<- | [<- | []]]; split; reflexivity). f_equal.
    rewrite nodes_mass, nodes_transport by (try exact Hi; reflexivity). cbn [advect_c seq map].
    unfold apply_M, apply_M_scalar, M_scalar. cbn [o_tensorial o_mobility m_vol m_vap m_surf m_gb half]. rewrite phi_half.
    unfold eta_ij_sum. cbn [outer_sum inner_sum app o_weight]. unfold signed. destruct i as [| [| i]]; [| | lia]; cbn [Nat.eqb]; field.
  - intros k i Hi. rewrite nodes_mass, nodes_rhs by (try exact Hi; reflexivity). cbn [seq map].
    unfold flux. cbn [o_tensorial o_mobility]. destruct k; unfold M_vol, M_vap, M_surf, M_gb; cbn [m_vol m_vap m_surf m_gb half Nat.eqb]; rewrite ?phi_masked_eq, ?phi_half;
      unfold eta_ij_sum; cbn [outer_sum inner_sum app]; unfold signed; (destruct i as [| [| i]]; [| | lia]); cbn [Nat.eqb]; field.
  - repeat split; cbn; lra.
Qed.

(** With the tensorial mobility the fields do not sum up to the rate: surface diffusion
    alone, the fields sum up to 2 and the rate is 2.002. *)
Theorem C94_tensorial_refuted : exists p n n_grains pts history u lhs j,
  o_tensorial p = true
  /\ (forall q, In q pts -> full n_grains q /\ resting q)
  /\ (forall x, (forall i, (i < n)%nat -> mass n pts x i = 0) -> forall j, (j < n)%nat -> x j = 0)
  /\ (forall i, (i < n)%nat -> residual p n pts 2 history u 0 i = Some 0)
  /\ written p n n_grains pts u lhs /\ (j < n)%nat
  /\ lhs volume j + lhs vapour j + lhs surface j + lhs boundary j = 2
  /\ o_weight p * u 0%nat j + history 0%nat j = 1001 / 500.
Proof.
  assert (UV : forall d, unit_vector 1 (fun _ => 1 / 2 - 1 / 2) d = 0).
  { intros d. apply unit_vector_off. replace (norm 1 (fun _ => 1 / 2 - 1 / 2)) with 0.
    - assert (P := small_pos 10). lra.
    - unfold norm. cbn [dot]. replace (0 + (1 / 2 - 1 / 2) * (1 / 2 - 1 / 2)) with 0 by field. symmetry. apply sqrt_0. }
  exists (mkOp 1 1 1 1 1 1 1 (mkCoefficients 0 0 4 0 1) true), 2%nat, 0%nat, (nodes [0; 1]%nat []),
    (fun b j => match b with 0%nat => signed (1001 / 500) j - 1 / 2 | _ => 0 end), (half 1 0),
    (fun k => signed match k with surface => 2 | _ => 0 end), 0%nat.
  split; [reflexivity |]. split; [intros q [<- | [<- | []]]; (split; [split; reflexivity | constructor]) |].
  split; [apply nodes_regular |]. split; [| split; [| split; [lia | split; unfold signed; cbn; lra]]].
  - intros i Hi. rewrite (residual_row _ _ 0) by (intros q [<- | [<- | []]]; split; reflexivity). f_equal.
    rewrite nodes_mass, nodes_transport by (try exact Hi; reflexivity). cbn [advect_c seq map].
    unfold apply_M, apply_M_tensorial. cbn [o_tensorial o_mobility o_dim combine length Nat.leb half]. rewrite !UV.
    unfold f_vol_vap, f_surf, projector_scale. cbn [m_vol m_vap m_surf m_gb o_weight Nat.eqb].
    unfold signed. destruct i as [| [| i]]; [| | lia]; cbn [Nat.eqb]; field.
  - intros k i Hi. rewrite nodes_mass, nodes_rhs by (try exact Hi; reflexivity). cbn [seq map].
    unfold flux. cbn [o_tensorial o_mobility o_dim half Nat.eqb combine]. rewrite !contract_neg.
    destruct k.
    + unfold M_vol_tensorial. rewrite contract_diag by lia. cbn [m_vol]. unfold signed. destruct (Nat.eqb i 0); field.
    + unfold M_vap_tensorial. rewrite contract_diag by lia. cbn [m_vap]. unfold signed. destruct (Nat.eqb i 0); field.
    + unfold M_surf_tensorial. rewrite contract_projector by lia. rewrite !UV. cbn [m_surf]. unfold signed. destruct (Nat.eqb i 0); field.
    + unfold M_gb_tensorial, contract. cbn [length seq combine fold_left dot]. unfold signed. destruct (Nat.eqb i 0); field.
Qed.
Print Assumptions C94_tensorial_refuted.

(** With advection the fields do not sum up to the rate either: a rigid motion without any
    diffusion. *)
Theorem C94_advection_refuted : exists p n n_grains pts history u lhs j,
  o_tensorial p = false
  /\ (forall q, In q pts -> full n_grains q)
  /\ (forall x, (forall i, (i < n)%nat -> mass n pts x i = 0) -> forall j, (j < n)%nat -> x j = 0)
  /\ (forall i, (i < n)%nat -> residual p n pts 2 history u 0 i = Some 0)
  /\ written p n n_grains pts u lhs /\ (j < n)%nat
  /\ lhs volume j + lhs vapour j + lhs surface j + lhs boundary j = 0
  /\ o_weight p * u 0%nat j + history 0%nat j = -1.
Proof.
  exists (mkOp 1 1 1 1 1 1 1 (mkCoefficients 2 1 4 1 1) false), 2%nat, 1%nat, (nodes [0; 1; 2]%nat [Some (fun _ => 1)]),
    (fun b j => match b with 0%nat => signed (-1) j - 1 / 2 | _ => 0 end), (half 0 0), (fun _ _ => 0), 0%nat.
  split; [reflexivity |]. split; [intros q [<- | [<- | []]]; split; reflexivity |].
  split; [apply nodes_regular |]. split; [| split; [| split; [lia | split; unfold signed; cbn; lra]]].
  - intros i Hi. rewrite (residual_row _ _ 1) by (intros q [<- | [<- | []]]; split; reflexivity). f_equal.
    rewrite nodes_mass, nodes_transport by (try exact Hi; reflexivity). cbn [advect_c seq map half Nat.eqb].
    unfold apply_M, apply_M_scalar. cbn [o_tensorial o_mobility o_weight].
    unfold signed. destruct i as [| [| i]]; [| | lia]; cbn [Nat.eqb]; field.
  - intros k i Hi. rewrite nodes_mass, nodes_rhs by (try exact Hi; reflexivity). unfold flux. cbn [o_tensorial half Nat.eqb].
    destruct k; field.
Qed.
Print Assumptions C94_advection_refuted.

(** With the cut-off the residual ignores order parameters that are small on the cell, the
    fields do not. *)
Theorem C94_cut_refuted : exists p n n_grains pts history u lhs j,
  o_tensorial p = false
  /\ (forall q, In q pts -> full 1 q /\ resting q /\ forall j, u 3%nat j = / 10 ^ 6) /\ n_grains = 2%nat
  /\ (forall x, (forall i, (i < n)%nat -> mass n pts x i = 0) -> forall j, (j < n)%nat -> x j = 0)
  /\ (forall i, (i < n)%nat -> residual p n pts 2 history u 0 i = Some 0)
  /\ written p n n_grains pts u lhs /\ (j < n)%nat
  /\ lhs volume j + lhs vapour j + lhs surface j + lhs boundary j = 2 * / 10 ^ 6
  /\ o_weight p * u 0%nat j + history 0%nat j = 0.
Proof.
  exists (mkOp 1 1 1 1 1 1 1 (mkCoefficients 0 0 0 1 1) false), 2%nat, 2%nat, (nodes [0; 1; 2]%nat [None]),
    (fun b j => match b with 0%nat => - (1 / 2) | _ => 0 end), (half 1 (/ 10 ^ 6)),
    (fun k => signed match k with boundary => 2 * / 10 ^ 6 | _ => 0 end), 0%nat.
  split; [reflexivity |]. split; [intros q [<- | [<- | []]]; (split; [split; reflexivity | split; [repeat constructor | reflexivity]]) |].
  split; [reflexivity |]. split; [apply nodes_regular |]. split; [| split; [| split; [lia | split; unfold signed; cbn [Nat.eqb half o_weight]; [ring | lra]]]].
  - intros i Hi. rewrite (residual_row _ _ 1) by (intros q [<- | [<- | []]]; split; reflexivity). f_equal.
    rewrite nodes_mass, nodes_transport by (try exact Hi; reflexivity). cbn [advect_c seq map half Nat.eqb].
    unfold apply_M, apply_M_scalar, M_scalar. cbn [o_tensorial o_mobility o_weight m_vol m_vap m_surf m_gb].
    unfold eta_ij_sum. cbn [outer_sum inner_sum app]. destruct (Nat.eqb i 0); field.
  - intros k i Hi. rewrite nodes_mass, nodes_rhs by (try exact Hi; reflexivity). cbn [seq map].
    unfold flux. cbn [o_tensorial o_mobility half Nat.eqb]. destruct k; unfold M_vol, M_vap, M_surf, M_gb; cbn [m_vol m_vap m_surf m_gb];
      unfold eta_ij_sum; cbn [outer_sum inner_sum app]; unfold signed; destruct (Nat.eqb i 0); field.
Qed.
Print Assumptions C94_cut_refuted.

(** An order parameter below zero lets the grain boundaries raise the energy. *)
Theorem C94_negative_refuted : exists p n n_grains pts u,
  nonnegative (o_mobility p) /\ (forall q, In q pts -> 0 <= q_w q)
  /\ 0 < vsum n (fun i => u 1%nat i * flux_rhs p n n_grains pts u boundary i).
Proof.
  exists (mkOp 1 1 1 1 1 1 1 (mkCoefficients 0 0 0 1 1) false), 2%nat, 2%nat, (nodes [0; 1; 2; 3]%nat [None; None]), (half 1 (- (1 / 100))).
  split; [repeat split; cbn; lra |]. split; [intros q [<- | [<- | []]]; cbn; lra |].
  cbn [vsum]. rewrite !nodes_rhs by (try reflexivity; lia). cbn [seq map]. unfold flux. cbn [o_tensorial o_mobility half Nat.eqb]. unfold M_gb. cbn [m_gb].
  unfold eta_ij_sum. cbn [outer_sum inner_sum app]. lra.
Qed.
Print Assumptions C94_negative_refuted.
