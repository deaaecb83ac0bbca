(** Lemmas about quadratic forms and about one iteration of the distance algorithm. *)
From Coq Require Import Reals Lra Lia Psatz Bool Arith List.
From Verif Require Import MobilityModel MobilityProofs VecGeom NeckProps MotionModel MotionProps EllipsoidModel.
Local Open Scope R_scope.

(** ** The form along a line *)
Lemma mv_line : forall dim A x v s i, mv dim A (fun d => x d + s * v d) i = mv dim A x i + s * mv dim A v i.
Proof. intros. rewrite !mv_dot. apply dot_line. Qed.
Lemma dot_line_l : forall dim a b c t, dot dim (fun d => b d + t * c d) a = dot dim b a + t * dot dim c a.
Proof. intros. rewrite dot_comm, dot_line, (dot_comm dim a b), (dot_comm dim a c). reflexivity. Qed.
Lemma dot_plus_l : forall dim a b c, dot dim (fun d => b d + c d) a = dot dim b a + dot dim c a.
Proof. intros. induction dim as [|n IH]; cbn [dot]; [ring|]. rewrite IH. ring. Qed.
Lemma dot_minus_l : forall dim a b c, dot dim (fun d => b d - c d) a = dot dim b a - dot dim c a.
Proof. intros. rewrite dot_comm, dot_minus, (dot_comm dim a b), (dot_comm dim a c). reflexivity. Qed.

Record quadratic (dim : nat) (E : ellipsoid) : Prop := {
  q_sym : forall x y, dot dim (mv dim (el_A E) x) y = dot dim (mv dim (el_A E) y) x;
  q_pos : forall x, 0 < dot dim x x -> 0 < dot dim (mv dim (el_A E) x) x;
  q_bound : forall x, dot dim (mv dim (el_A E) x) x <= el_norm E * dot dim x x;
  q_norm : 0 < el_norm E;
  q_center : form dim E (el_center E) = - (1 / 2);
  q_radius : forall x, form dim E x <= 0 -> vdist dim x (el_center E) <= el_max E;
  q_max : 0 < el_max E }.

Lemma form_line : forall dim E x v s, quadratic dim E ->
  form dim E (fun d => x d + s * v d) =
  form dim E x + s * dot dim (gradient dim E x) v + s * s / 2 * dot dim (mv dim (el_A E) v) v.
Proof.
  intros dim E x v s HE. unfold form, gradient.
  rewrite (dot_ext dim (mv dim (el_A E) (fun d => x d + s * v d)) (fun d => x d + s * v d)
    (fun d => mv dim (el_A E) x d + s * mv dim (el_A E) v d) (fun d => x d + s * v d))
    by (intros; first [apply mv_line|reflexivity]).
  rewrite dot_line_l, !dot_line, dot_plus_l. rewrite (q_sym _ _ HE v x). field.
Qed.

Lemma form_ext : forall dim E x y, (forall d, (d < dim)%nat -> x d = y d) -> form dim E x = form dim E y.
Proof.
  intros dim E x y H. unfold form.
  assert (K : dot dim (mv dim (el_A E) x) x = dot dim (mv dim (el_A E) y) y).
  { apply dot_ext_lt; [|exact H]. intros d Hd. unfold mv. apply dsum_ext. intros j Hj. rewrite H by exact Hj. reflexivity. }
  assert (L : dot dim (el_b E) x = dot dim (el_b E) y) by (apply dot_ext_lt; [reflexivity|exact H]).
  rewrite K, L. reflexivity.
Qed.

Lemma form_diff : forall dim E x y, quadratic dim E ->
  form dim E y = form dim E x + dot dim (gradient dim E x) (fun d => y d - x d) +
    1 / 2 * dot dim (mv dim (el_A E) (fun d => y d - x d)) (fun d => y d - x d).
Proof.
  intros dim E x y HE.
  rewrite (form_ext dim E y (fun d => x d + 1 * (y d - x d))) by (intros; ring).
  rewrite (form_line dim E x (fun d => y d - x d) 1 HE). field.
Qed.

Lemma quadratic_nonneg : forall dim E x, quadratic dim E -> 0 <= dot dim (mv dim (el_A E) x) x.
Proof.
  intros dim E x HE. destruct (Rle_lt_or_eq_dec 0 (dot dim x x) (dot_pos dim x)) as [H|H].
  - left. apply (q_pos _ _ HE). exact H.
  - right. symmetry. rewrite (dot_ext_lt dim _ x (mv dim (el_A E) x) (fun _ => 0)); [|reflexivity|intros d Hd; apply (dot_zero dim x); [lra|exact Hd]].
    rewrite dot_comm. apply dot_zero_l.
Qed.

(** A tangent plane supports the ellipsoid. *)
Lemma supporting : forall dim E x p, quadratic dim E -> form dim E x = 0 -> form dim E p <= 0 ->
  dot dim (gradient dim E x) (fun d => p d - x d) <= 0.
Proof.
  intros dim E x p HE Hx Hp. rewrite (form_diff dim E x p HE) in Hp.
  pose proof (quadratic_nonneg dim E (fun d => p d - x d) HE). lra.
Qed.

Lemma gradient_large : forall dim E x, quadratic dim E -> form dim E x = 0 ->
  1 / (2 * el_max E) <= norm dim (gradient dim E x).
Proof.
  intros dim E x HE Hx. pose proof (form_diff dim E x (el_center E) HE) as K. rewrite Hx, (q_center _ _ HE) in K.
  pose proof (quadratic_nonneg dim E (fun d => el_center E d - x d) HE) as P.
  pose proof (dot_norm dim (gradient dim E x) (fun d => - (el_center E d - x d))) as C.
  rewrite norm_opp in C.
  assert (O : dot dim (gradient dim E x) (fun d => - (el_center E d - x d)) = - dot dim (gradient dim E x) (fun d => el_center E d - x d)).
  { rewrite (dot_ext dim _ (fun d => - (el_center E d - x d)) (gradient dim E x) (fun d => -1 * (el_center E d - x d))) by (intros; ring).
    rewrite dot_scale. ring. }
  rewrite O in C.
  assert (V : norm dim (fun d => el_center E d - x d) <= el_max E).
  { change (vdist dim (el_center E) x <= el_max E). rewrite vdist_sym. apply (q_radius _ _ HE). lra. }
  pose proof (q_max _ _ HE) as M. pose proof (norm_nonneg dim (gradient dim E x)) as G.
  assert (1 / 2 <= norm dim (gradient dim E x) * el_max E).
  { apply Rle_trans with (norm dim (gradient dim E x) * norm dim (fun d => el_center E d - x d)); [lra|].
    apply Rmult_le_compat_l; assumption. }
  apply Rmult_le_reg_r with (el_max E); [exact M|].
  replace (1 / (2 * el_max E) * el_max E) with (1 / 2) by (field; lra). exact H.
Qed.

Lemma gradient_pos : forall dim E x, quadratic dim E -> form dim E x = 0 -> 0 < norm dim (gradient dim E x).
Proof.
  intros dim E x HE Hx. pose proof (gradient_large dim E x HE Hx). pose proof (q_max _ _ HE).
  assert (0 < 1 / (2 * el_max E)) by (apply Rdiv_lt_0_compat; lra). lra.
Qed.

(** ** The ball that touches the ellipsoid from inside *)
Definition inner (dim : nat) (E : ellipsoid) (x : vec) : vec := fun d => x d - 1 / el_norm E * gradient dim E x d.
Definition inner_radius (dim : nat) (E : ellipsoid) (x : vec) : R := norm dim (gradient dim E x) / el_norm E.

Lemma inner_ball : forall dim E x y, quadratic dim E -> form dim E x = 0 ->
  vdist dim y (inner dim E x) <= inner_radius dim E x -> form dim E y <= 0.
Proof.
  intros dim E x y HE Hx Hy. rewrite (form_diff dim E x y HE), Hx.
  pose proof (q_norm _ _ HE) as N. pose proof (q_bound _ _ HE (fun d => y d - x d)) as Bd.
  set (n := el_norm E) in *. set (g := gradient dim E x) in *. set (v := fun d => y d - x d) in *.
  assert (K : dot dim v v + 2 / n * dot dim g v + 1 / n * (1 / n) * dot dim g g <= 1 / n * (1 / n) * dot dim g g).
  { assert (E1 : dot dim (fun d => v d + 1 / n * g d) (fun d => v d + 1 / n * g d) =
      dot dim v v + 2 / n * dot dim g v + 1 / n * (1 / n) * dot dim g g).
    { rewrite dot_line_l, !dot_line, (dot_comm dim v g). field. lra. }
    rewrite <- E1. assert (E2 : vdist dim y (inner dim E x) = norm dim (fun d => v d + 1 / n * g d)).
    { unfold vdist. apply norm_ext. intros d. unfold inner, v, g, n. ring. }
    rewrite E2 in Hy. rewrite <- norm_sq. unfold inner_radius in Hy. fold n in Hy. fold g in Hy.
    pose proof (norm_nonneg dim (fun d => v d + 1 / n * g d)).
    apply Rle_trans with (norm dim g / n * (norm dim g / n)).
    - apply Rmult_le_compat; assumption.
    - right. rewrite <- (norm_sq dim g). field. lra. }
  assert (dot dim v v + 2 / n * dot dim g v <= 0) by lra.
  assert (n / 2 * (dot dim v v + 2 / n * dot dim g v) <= 0).
  { assert (0 <= n / 2 * (- (dot dim v v + 2 / n * dot dim g v))) by (apply Rmult_le_pos; lra). lra. }
  replace (n / 2 * (dot dim v v + 2 / n * dot dim g v)) with (n / 2 * dot dim v v + dot dim g v) in H0 by (field; lra). lra.
Qed.

Lemma inner_inside : forall dim E x, quadratic dim E -> form dim E x = 0 -> form dim E (inner dim E x) < 0.
Proof.
  intros dim E x HE Hx. pose proof (q_norm _ _ HE) as N. pose proof (gradient_pos dim E x HE Hx) as G.
  rewrite (form_ext dim E _ (fun d => x d + (- (1 / el_norm E)) * gradient dim E x d)) by (intros; unfold inner; ring).
  rewrite (form_line dim E x _ _ HE), Hx. pose proof (q_bound _ _ HE (gradient dim E x)) as Bd.
  rewrite <- norm_sq in *. set (n := el_norm E) in *. set (g := norm dim (gradient dim E x)) in *.
  set (w := dot dim (mv dim (el_A E) (gradient dim E x)) (gradient dim E x)) in *. clearbody n g w.
  assert (P : 0 <= 1 / n * (1 / n) / 2 * (n * (g * g) - w)).
  { apply Rmult_le_pos; [|lra]. assert (0 < 1 / n) by (apply Rdiv_lt_0_compat; lra).
    assert (0 < 1 / n * (1 / n)) by (apply Rmult_lt_0_compat; assumption). lra. }
  assert (P2 : 0 < 1 / n * (g * g)).
  { apply Rmult_lt_0_compat; [apply Rdiv_lt_0_compat; lra|apply Rmult_lt_0_compat; exact G]. }
  replace (1 / n * (1 / n) / 2 * (n * (g * g) - w)) with (1 / n * (g * g) / 2 - 1 / n * (1 / n) / 2 * w) in P by (field; lra).
  replace (0 + - (1 / n) * (g * g) + - (1 / n) * - (1 / n) / 2 * w) with (- (1 / n * (g * g)) + 1 / n * (1 / n) / 2 * w) by (field; lra).
  lra.
Qed.

Lemma inner_dist : forall dim E x, quadratic dim E -> vdist dim x (inner dim E x) = inner_radius dim E x.
Proof.
  intros dim E x HE. pose proof (q_norm _ _ HE). unfold vdist, inner, inner_radius.
  rewrite (norm_ext dim _ (fun d => 1 / el_norm E * gradient dim E x d)) by (intros; ring). rewrite norm_scale.
  rewrite Rabs_right by (apply Rle_ge; apply Rlt_le; apply Rdiv_lt_0_compat; lra). field. lra.
Qed.

(** ** Roots of the quadratic *)
Lemma quad_factor : forall a b c t, a <> 0 -> 0 <= b * b - 4 * a * c ->
  let q := sqrt (b * b - 4 * a * c) in
  a * t * t + b * t + c = a * (t - (- b - q) / (2 * a)) * (t - (- b + q) / (2 * a)).
Proof.
  intros a b c t Ha HD q. assert (Hq : q * q = b * b - 4 * a * c) by (apply sqrt_sqrt; exact HD).
  apply Rmult_eq_reg_l with (4 * a); [|lra].
  replace (4 * a * (a * (t - (- b - q) / (2 * a)) * (t - (- b + q) / (2 * a))))
    with ((2 * a * t + b) * (2 * a * t + b) - q * q) by (field; lra). rewrite Hq. ring.
Qed.

Lemma in_range_spec : forall v, in_range v = true <-> 0 <= v <= 1.
Proof. intros v. unfold in_range. destruct (Rle_dec 0 v); destruct (Rle_dec v 1); cbn; split; intros; try discriminate; try lra; reflexivity. Qed.
Lemma in_range_no : forall v, v < 0 \/ 1 < v -> in_range v = false.
Proof. intros v H. destruct (in_range v) eqn:F; [|reflexivity]. apply in_range_spec in F. lra. Qed.

Lemma find_coefficients : forall dim E c1 c2, quadratic dim E ->
  let d := fun i => c2 i - c1 i in
  1 / 2 * (dot dim (mv dim (el_A E) c1) c1 - 2 * dot dim (mv dim (el_A E) c1) c2 + dot dim (mv dim (el_A E) c2) c2) =
    1 / 2 * dot dim (mv dim (el_A E) d) d /\
  dot dim (mv dim (el_A E) c2) c1 - dot dim (mv dim (el_A E) c1) c1 + dot dim (el_b E) c2 - dot dim (el_b E) c1 =
    dot dim (gradient dim E c1) d.
Proof.
  intros dim E c1 c2 HE d. split.
  - assert (K : forall z, dot dim (mv dim (el_A E) d) z = dot dim (mv dim (el_A E) c2) z - dot dim (mv dim (el_A E) c1) z).
    { intros z. rewrite (q_sym _ _ HE d z). unfold d. rewrite dot_minus, (q_sym _ _ HE z c2), (q_sym _ _ HE z c1). reflexivity. }
    rewrite K. unfold d. rewrite !dot_minus. rewrite (q_sym _ _ HE c2 c1). ring.
  - unfold gradient. rewrite dot_plus_l. unfold d. rewrite !dot_minus. rewrite (q_sym _ _ HE c2 c1). ring.
Qed.

Lemma form_along : forall dim E c1 c2 t, quadratic dim E -> let d := fun i => c2 i - c1 i in
  form dim E (along c1 c2 t) = 1 / 2 * dot dim (mv dim (el_A E) d) d * t * t + dot dim (gradient dim E c1) d * t + form dim E c1.
Proof. intros dim E c1 c2 t HE d. change (along c1 c2 t) with (fun i => c1 i + t * d i). rewrite (form_line dim E c1 d t HE). field. Qed.

Lemma gradient_along : forall dim E c1 c2 t, let d := fun i => c2 i - c1 i in
  dot dim (gradient dim E (along c1 c2 t)) d = dot dim (gradient dim E c1) d + t * dot dim (mv dim (el_A E) d) d.
Proof.
  intros dim E c1 c2 t d. unfold gradient, along.
  rewrite (dot_ext dim _ d (fun i => (mv dim (el_A E) c1 i + el_b E i) + t * mv dim (el_A E) d i) d); [apply dot_line_l|intros i|reflexivity].
  unfold d at 1. rewrite (mv_line dim (el_A E) c1 (fun i => c2 i - c1 i) t i). fold d. ring.
Qed.

Lemma along_end : forall dim E c1 c2, form dim E (along c1 c2 1) = form dim E c2.
Proof. intros. apply form_ext. intros. unfold along. ring. Qed.
Lemma along_start : forall dim E c1 c2, form dim E (along c1 c2 0) = form dim E c1.
Proof. intros. apply form_ext. intros. unfold along. ring. Qed.

Lemma same_point : forall dim E c1 c2, dot dim (fun i => c2 i - c1 i) (fun i => c2 i - c1 i) = 0 -> form dim E c2 = form dim E c1.
Proof. intros dim E c1 c2 H. apply form_ext. intros d Hd. pose proof (dot_zero dim _ H d Hd) as K. cbn in K. lra. Qed.

(** From a point strictly inside the line leaves once. *)
Lemma find_first : forall dim E c1 c2, quadratic dim E -> form dim E c1 < 0 ->
  let d := fun i => c2 i - c1 i in
  (find_intersection dim E c1 c2 = Some (0, true) /\ form dim E c2 < 0) \/
  (exists t, find_intersection dim E c1 c2 = Some (t, false) /\ 0 < t <= 1 /\ form dim E (along c1 c2 t) = 0 /\
    (forall s, 0 <= s -> form dim E (along c1 c2 s) <= 0 <-> s <= t) /\ 0 < dot dim (gradient dim E (along c1 c2 t)) d).
Proof.
  intros dim E c1 c2 HE H1 d. unfold find_intersection. cbv zeta.
  destruct (find_coefficients dim E c1 c2 HE) as [Ea Eb]. fold d in Ea, Eb. rewrite Ea, Eb.
  change (1 / 2 * dot dim (mv dim (el_A E) c1) c1 + dot dim (el_b E) c1 + el_alpha E) with (form dim E c1).
  pose proof (fun t => form_along dim E c1 c2 t HE) as FA. cbv zeta in FA. fold d in FA.
  pose proof (fun t => gradient_along dim E c1 c2 t) as GA. cbv zeta in GA. fold d in GA.
  pose proof (along_end dim E c1 c2) as End.
  assert (P : 0 < 1 / 2 * dot dim (mv dim (el_A E) d) d \/ 1 / 2 * dot dim (mv dim (el_A E) d) d = 0 /\ form dim E c2 = form dim E c1).
  { destruct (Rle_lt_or_eq_dec 0 (dot dim d d) (dot_pos dim d)) as [H|H].
    - left. pose proof (q_pos _ _ HE d H). lra.
    - right. split; [|apply same_point; symmetry; exact H].
      pose proof (quadratic_nonneg dim E d HE). pose proof (q_bound _ _ HE d) as K. rewrite <- H in K. lra. }
  set (a := 1 / 2 * dot dim (mv dim (el_A E) d) d) in *. assert (Aa : dot dim (mv dim (el_A E) d) d = 2 * a) by (unfold a; lra).
  rewrite Aa in *. clearbody a. set (b := dot dim (gradient dim E c1) d) in *. clearbody b. set (c := form dim E c1) in *. clearbody c.
  unfold solve_quadratic. cbv zeta. destruct (Req_EM_T a 0) as [Z|Z].
  - left. split; [reflexivity|]. destruct P as [P|[_ P]]; [lra|]. rewrite P. exact H1.
  - destruct P as [P|[P _]]; [|contradiction].
    assert (HD : 0 < b * b - 4 * a * c).
    { pose proof (Rle_0_sqr b) as Sb. unfold Rsqr in Sb. assert (0 < a * - c) by (apply Rmult_lt_0_compat; lra). lra. }
    destruct (Rlt_dec (b * b - 4 * a * c) 0) as [L|_]; [lra|].
    pose proof (fun t => quad_factor a b c t Z (Rlt_le _ _ HD)) as QF. cbv zeta in QF.
    assert (Qp : 0 < sqrt (b * b - 4 * a * c)) by (apply sqrt_lt_R0; exact HD).
    set (q := sqrt (b * b - 4 * a * c)) in *. clearbody q.
    set (s1 := (- b - q) / (2 * a)) in *. set (s2 := (- b + q) / (2 * a)) in *.
    assert (D12 : s2 - s1 = q / a) by (unfold s1, s2; field; exact Z).
    assert (S2 : b + s2 * (2 * a) = q) by (unfold s2; field; exact Z).
    assert (D0 : 0 < q / a) by (apply Rdiv_lt_0_compat; assumption).
    clearbody s1 s2.
    assert (F0 : a * (0 - s1) * (0 - s2) < 0) by (rewrite <- QF; lra).
    assert (B1 : s1 < 0).
    { destruct (Rlt_dec s1 0) as [L|L]; [exact L|]. exfalso. assert (0 <= a * (s1 * s2)) by (apply Rmult_le_pos; [lra|apply Rmult_le_pos; lra]). lra. }
    assert (B2 : 0 < s2).
    { destruct (Rlt_dec 0 s2) as [L|L]; [exact L|]. exfalso. assert (0 <= a * (- s1 * - s2)) by (apply Rmult_le_pos; [lra|apply Rmult_le_pos; lra]). lra. }
    rewrite (in_range_no s1) by (left; exact B1). cbn [negb andb].
    assert (Sg : forall s, 0 <= s -> form dim E (along c1 c2 s) <= 0 <-> s <= s2).
    { intros s Hs. rewrite FA, QF. assert (PP : 0 < a * (s - s1)) by (apply Rmult_lt_0_compat; lra). split; intros K.
      - destruct (Rle_dec s s2) as [L|L]; [exact L|]. exfalso. assert (0 < a * (s - s1) * (s - s2)) by (apply Rmult_lt_0_compat; lra). lra.
      - assert (0 <= a * (s - s1) * (s2 - s)) by (apply Rmult_le_pos; lra). lra. }
    destruct (in_range s2) eqn:R2; cbn [negb].
    + right. exists s2. apply in_range_spec in R2. split; [reflexivity|]. split; [lra|]. split.
      * rewrite FA, QF. ring.
      * split; [exact Sg|]. rewrite GA. rewrite S2. exact Qp.
    + left. split; [reflexivity|]. rewrite <- End, FA, QF.
      assert (G2 : 1 < s2). { destruct (Rlt_dec 1 s2) as [L|L]; [exact L|]. rewrite (proj2 (in_range_spec s2)) in R2 by lra. discriminate. }
      assert (0 < a * (1 - s1) * (s2 - 1)) by (apply Rmult_lt_0_compat; [apply Rmult_lt_0_compat|]; lra). lra.
Qed.

(** Towards a point strictly inside the line enters once. *)
Lemma find_second : forall dim E c1 c2, quadratic dim E -> form dim E c2 < 0 ->
  let d := fun i => c2 i - c1 i in
  (find_intersection dim E c1 c2 = Some (0, true) /\ form dim E c1 < 0) \/
  (exists t, find_intersection dim E c1 c2 = Some (t, false) /\ 0 <= t < 1 /\ form dim E (along c1 c2 t) = 0 /\
    (forall s, s <= 1 -> form dim E (along c1 c2 s) <= 0 <-> t <= s) /\ dot dim (gradient dim E (along c1 c2 t)) d < 0).
Proof.
  intros dim E c1 c2 HE H2 d. unfold find_intersection. cbv zeta.
  destruct (find_coefficients dim E c1 c2 HE) as [Ea Eb]. fold d in Ea, Eb. rewrite Ea, Eb.
  change (1 / 2 * dot dim (mv dim (el_A E) c1) c1 + dot dim (el_b E) c1 + el_alpha E) with (form dim E c1).
  pose proof (fun t => form_along dim E c1 c2 t HE) as FA. cbv zeta in FA. fold d in FA.
  pose proof (fun t => gradient_along dim E c1 c2 t) as GA. cbv zeta in GA. fold d in GA.
  pose proof (along_end dim E c1 c2) as End.
  assert (P : 0 < 1 / 2 * dot dim (mv dim (el_A E) d) d \/ 1 / 2 * dot dim (mv dim (el_A E) d) d = 0 /\ form dim E c2 = form dim E c1).
  { destruct (Rle_lt_or_eq_dec 0 (dot dim d d) (dot_pos dim d)) as [H|H].
    - left. pose proof (q_pos _ _ HE d H). lra.
    - right. split; [|apply same_point; symmetry; exact H].
      pose proof (quadratic_nonneg dim E d HE). pose proof (q_bound _ _ HE d) as K. rewrite <- H in K. lra. }
  set (a := 1 / 2 * dot dim (mv dim (el_A E) d) d) in *. assert (Aa : dot dim (mv dim (el_A E) d) d = 2 * a) by (unfold a; lra).
  rewrite Aa in *. clearbody a. set (b := dot dim (gradient dim E c1) d) in *. clearbody b. set (c := form dim E c1) in *. clearbody c.
  unfold solve_quadratic. cbv zeta. destruct (Req_EM_T a 0) as [Z|Z].
  - left. split; [reflexivity|]. destruct P as [P|[_ P]]; [lra|]. rewrite <- P. exact H2.
  - destruct P as [P|[P _]]; [|contradiction].
    assert (V1 : a + b + c < 0) by (rewrite <- End, FA in H2; lra).
    assert (HD : 0 < b * b - 4 * a * c).
    { pose proof (Rle_0_sqr (2 * a + b)) as Sb. unfold Rsqr in Sb. assert (0 < a * - (a + b + c)) by (apply Rmult_lt_0_compat; lra). lra. }
    destruct (Rlt_dec (b * b - 4 * a * c) 0) as [L|_]; [lra|].
    pose proof (fun t => quad_factor a b c t Z (Rlt_le _ _ HD)) as QF. cbv zeta in QF.
    assert (Qp : 0 < sqrt (b * b - 4 * a * c)) by (apply sqrt_lt_R0; exact HD).
    set (q := sqrt (b * b - 4 * a * c)) in *. clearbody q.
    set (s1 := (- b - q) / (2 * a)) in *. set (s2 := (- b + q) / (2 * a)) in *.
    assert (D12 : s2 - s1 = q / a) by (unfold s1, s2; field; exact Z).
    assert (S1 : b + s1 * (2 * a) = - q) by (unfold s1; field; exact Z).
    assert (D0 : 0 < q / a) by (apply Rdiv_lt_0_compat; assumption).
    clearbody s1 s2.
    assert (F0 : a * (1 - s1) * (1 - s2) < 0) by (rewrite <- QF; lra).
    assert (B1 : s1 < 1).
    { destruct (Rlt_dec s1 1) as [L|L]; [exact L|]. exfalso. assert (0 <= a * ((s1 - 1) * (s2 - 1))) by (apply Rmult_le_pos; [lra|apply Rmult_le_pos; lra]). lra. }
    assert (B2 : 1 < s2).
    { destruct (Rlt_dec 1 s2) as [L|L]; [exact L|]. exfalso. assert (0 <= a * ((1 - s1) * (1 - s2))) by (apply Rmult_le_pos; [lra|apply Rmult_le_pos; lra]). lra. }
    rewrite (in_range_no s2) by (right; exact B2). cbn [negb]. rewrite !andb_true_r, andb_false_r.
    assert (Sg : forall s, s <= 1 -> form dim E (along c1 c2 s) <= 0 <-> s1 <= s).
    { intros s Hs. rewrite FA, QF. assert (PP : 0 < a * (s2 - s)) by (apply Rmult_lt_0_compat; lra). split; intros K.
      - destruct (Rle_dec s1 s) as [L|L]; [exact L|]. exfalso. assert (0 < a * (s2 - s) * (s1 - s)) by (apply Rmult_lt_0_compat; lra). lra.
      - assert (0 <= a * (s2 - s) * (s - s1)) by (apply Rmult_le_pos; lra). lra. }
    destruct (in_range s1) eqn:R1; cbn [negb].
    + right. exists s1. apply in_range_spec in R1. split; [reflexivity|]. split; [lra|]. split.
      * rewrite FA, QF. ring.
      * split; [exact Sg|]. rewrite GA. rewrite S1. lra.
    + left. split; [reflexivity|]. rewrite <- (Rplus_0_l c). replace (0 + c) with (a * 0 * 0 + b * 0 + c) by ring. rewrite QF.
      assert (G2 : s1 < 0). { destruct (Rlt_dec s1 0) as [L|L]; [exact L|]. rewrite (proj2 (in_range_spec s1)) in R1 by lra. discriminate. }
      assert (0 < a * (0 - s1) * (s2 - 0)) by (apply Rmult_lt_0_compat; [apply Rmult_lt_0_compat|]; lra). lra.
Qed.
