(** Lemmas on the free energy. *)
From Coq Require Import List Reals Arith Lia Lra Psatz.
From Verif Require Import Util FreeEnergyModel.
Import ListNotations.
Local Open Scope R_scope.

(** the sum of the [p]-th powers *)
Fixpoint psum (p : nat) (etas : list R) : R :=
  match etas with [] => 0 | e :: etas => e ^ p + psum p etas end.

(** replacing the entry [i] *)
Fixpoint upd (etas : list R) (i : nat) (x : R) : list R :=
  match etas, i with
  | [], _ => []
  | _ :: etas, O => x :: etas
  | e :: etas, S i => e :: upd etas i x
  end.

Lemma fixed_power_rec_spec : forall fuel p x, (p <= fuel)%nat -> fixed_power_rec fuel p x = x ^ p.
Proof.
  induction fuel as [| fuel IH]; intros p x Hp.
  - destruct p; [reflexivity | lia].
  - cbn [fixed_power_rec]. destruct p as [| q]; [reflexivity |].
    assert (Hd : ((S q) / 2 <= fuel)%nat).
    { assert ((S q) / 2 < S q)%nat by (apply Nat.div_lt; lia). lia. }
    rewrite IH by exact Hd.
    assert (E : S q = (2 * (S q / 2) + S q mod 2)%nat) by (apply Nat.div_mod; lia).
    assert (M : (S q mod 2 < 2)%nat) by (apply Nat.mod_upper_bound; lia).
    assert (P : (x * x) ^ (S q / 2) = x ^ (2 * (S q / 2))).
    { rewrite pow_mult. f_equal. cbn. ring. }
    destruct (Nat.eqb_spec (S q mod 2) 1) as [O | O].
    + rewrite P. transitivity (x ^ (2 * (S q / 2) + 1)); [rewrite pow_add; cbn [pow]; ring |]. f_equal. lia.
    + rewrite P. f_equal. lia.
Qed.

Lemma fixed_power_spec : forall p x, fixed_power p x = x ^ p.
Proof. intros. apply fixed_power_rec_spec. lia. Qed.

Lemma power_loop_spec : forall p etas n i acc, (i + n <= length etas)%nat ->
  power_loop p etas n i acc = Some (acc + psum p (firstn n (skipn i etas))).
Proof.
  intros p etas. induction n as [| n IH]; intros i acc H.
  - cbn. f_equal. ring.
  - cbn [power_loop]. destruct (vget etas i) as [e |] eqn:E.
    2:{ apply nth_error_None in E. lia. }
    cbn [obind]. rewrite IH by lia. rewrite fixed_power_spec.
    assert (K : skipn i etas = e :: skipn (S i) etas).
    { clear - E. unfold vget in E. revert etas E. induction i as [| i IH]; intros [| a l] E; cbn in *; try discriminate.
      - injection E as ->. reflexivity.
      - apply IH in E. rewrite E. reflexivity. }
    rewrite K. cbn [firstn psum]. f_equal. ring.
Qed.

Lemma power_accumulate_spec : forall p etas, power_accumulate p etas = psum p etas.
Proof.
  intros p etas. unfold power_accumulate.
  assert (G : forall l a, fold_left (fun a b => a + fixed_power p b) l a = a + psum p l).
  { induction l as [| e l IH]; intros a; cbn [fold_left psum]; [ring |]. rewrite IH, fixed_power_spec. ring. }
  rewrite G. ring.
Qed.

Lemma power_sum_spec : forall n p etas, (n <= length etas)%nat -> power_sum n p etas = Some (psum p (firstn n etas)).
Proof.
  intros n p etas H. assert (G := power_loop_spec p etas n 0 0 H). cbn [skipn] in G.
  assert (G' : power_loop p etas n 0 0 = Some (psum p (firstn n etas))) by (rewrite G; f_equal; ring).
  destruct n as [| [| [| n]]]; try exact G'.
  destruct etas as [| a [| b l]]; try (cbn in H; lia).
  destruct p as [| [| [| [| p]]]]; try exact G'; cbn; f_equal; ring.
Qed.

Lemma copy_etas_spec : forall n i c mu etas, (i + n <= length etas)%nat ->
  copy_etas (c :: mu :: etas) n i = Some (firstn n (skipn i etas)).
Proof.
  induction n as [| n IH]; intros i c mu etas H; [reflexivity |].
  cbn [copy_etas]. change (vget (c :: mu :: etas) (2 + i)) with (vget etas i).
  destruct (vget etas i) as [e |] eqn:E.
  2:{ apply nth_error_None in E. lia. }
  cbn [obind]. rewrite IH by lia. cbn [obind].
  assert (K : skipn i etas = e :: skipn (S i) etas).
  { clear - E. unfold vget in E. revert etas E. induction i as [| i IH]; intros [| a l] E; cbn in *; try discriminate.
    - injection E as ->. reflexivity.
    - apply IH in E. rewrite E. reflexivity. }
  rewrite K. reflexivity.
Qed.

Lemma eval_static_spec : forall w A B c mu etas,
  eval_static w A B (c :: mu :: etas) (length etas)
  = Some (mkEval A B c (psum 2 etas) (if w then Some (psum 3 etas) else None)).
Proof.
  intros. unfold eval_static. cbn [vget nth_error obind skipn].
  rewrite !power_sum_spec by lia. rewrite firstn_all. cbn [obind]. destruct w; reflexivity.
Qed.

Lemma eval_dynamic_spec : forall w A B c mu etas,
  eval_dynamic w A B (c :: mu :: etas) (length etas)
  = Some (mkEval A B c (psum 2 etas) (if w then Some (psum 3 etas) else None)).
Proof.
  intros. unfold eval_dynamic. cbn [vget nth_error obind].
  rewrite copy_etas_spec by lia. cbn [skipn obind]. rewrite firstn_all, !power_accumulate_spec. reflexivity.
Qed.

(** ** replacing an entry *)
Lemma upd_length : forall etas i x, length (upd etas i x) = length etas.
Proof. induction etas as [| e l IH]; intros [| i] x; cbn; auto. Qed.

Lemma psum_upd : forall p etas i x y, nth_error etas i = Some y -> psum p (upd etas i x) = psum p etas - y ^ p + x ^ p.
Proof.
  induction etas as [| e l IH]; intros [| i] x y H; cbn in *; try discriminate.
  - injection H as ->. ring.
  - rewrite (IH _ _ _ H). ring.
Qed.

Lemma upd_same : forall etas i y, nth_error etas i = Some y -> upd etas i y = etas.
Proof.
  induction etas as [| e l IH]; intros [| i] y H; cbn in *; try discriminate.
  - injection H as ->. reflexivity.
  - f_equal. auto.
Qed.

Lemma nth_upd : forall etas i x y, nth_error etas i = Some y -> nth_error (upd etas i x) i = Some x.
Proof. induction etas as [| e l IH]; intros [| i] x y H; cbn in *; try discriminate; eauto. Qed.

Lemma nth_upd_other : forall etas i j x, i <> j -> nth_error (upd etas i x) j = nth_error etas j.
Proof.
  induction etas as [| e l IH]; intros [| i] [| j] x H; cbn; try reflexivity; try congruence.
  apply IH. congruence.
Qed.

(** ** derivatives of polynomials *)
Lemma derivable_ext : forall g h x l, (forall y, g y = h y) -> derivable_pt_lim g x l -> derivable_pt_lim h x l.
Proof.
  intros g h x l E D eps He. destruct (D eps He) as [d Hd]. exists d. intros t Ht Hs.
  rewrite <- !E. auto.
Qed.

Lemma mono_deriv : forall a n x, derivable_pt_lim (fun y => a * y ^ n) x (a * (INR n * x ^ pred n)).
Proof.
  intros. apply (derivable_pt_lim_scal (fun y => y ^ n) a x). apply derivable_pt_lim_pow.
Qed.

Lemma quartic_deriv : forall a0 a1 a2 a3 a4 g x l,
  (forall y, g y = a0 + a1 * y + a2 * y ^ 2 + a3 * y ^ 3 + a4 * y ^ 4) ->
  l = a1 + 2 * a2 * x + 3 * a3 * x ^ 2 + 4 * a4 * x ^ 3 ->
  derivable_pt_lim g x l.
Proof.
  intros a0 a1 a2 a3 a4 g x l E ->.
  assert (D := derivable_pt_lim_plus _ _ x _ _
            (derivable_pt_lim_plus _ _ x _ _
              (derivable_pt_lim_plus _ _ x _ _
                 (derivable_pt_lim_plus _ _ x _ _ (mono_deriv a0 0 x) (mono_deriv a1 1 x))
                 (mono_deriv a2 2 x))
              (mono_deriv a3 3 x))
            (mono_deriv a4 4 x)).
  unfold plus_fct in D. simpl INR in D. cbn [Nat.pred] in D.
  match type of D with derivable_pt_lim ?h _ ?l =>
    apply (derivable_ext h); [intros y; rewrite E; ring | replace (a1 + 2 * a2 * x + 3 * a3 * x ^ 2 + 4 * a4 * x ^ 3) with l by ring; exact D] end.
Qed.

(** ** bounds on the sums *)
Lemma psum2_nonneg : forall etas, 0 <= psum 2 etas.
Proof. induction etas; cbn [psum]; [lra |]. pose proof (pow2_ge_0 a). lra. Qed.

Lemma psum2_in : forall etas e, In e etas -> e ^ 2 <= psum 2 etas.
Proof.
  induction etas as [| a l IH]; intros e; [intros [] |]. intros [-> | H]; cbn [psum].
  - pose proof (psum2_nonneg l). lra.
  - specialize (IH e H). pose proof (pow2_ge_0 a). lra.
Qed.

Lemma psum3_le : forall s etas, (forall e, In e etas -> e <= s) -> psum 3 etas <= s * psum 2 etas.
Proof.
  induction etas as [| a l IH]; intros H; cbn [psum]; [lra |].
  assert (IHs := IH (fun e He => H e (or_intror He))).
  assert (Ha := H a (or_introl eq_refl)). pose proof (pow2_ge_0 a).
  assert (a ^ 3 <= s * a ^ 2) by (cbn in *; nra). lra.
Qed.

(** the part of the energy without the double well, compared with the double well *)
Lemma rest_bound_one : forall c s, 0 <= c <= 1 -> 0 <= s <= 1 ->
  c ^ 2 * (1 - c) ^ 2 <= c ^ 2 + 6 * (1 - c) * s ^ 2 - 4 * (2 - c) * s ^ 3 + 3 * s ^ 4.
Proof.
  intros c s [Hc0 Hc1] [Hs0 Hs1].
  assert (E : c ^ 2 + 6 * (1 - c) * s ^ 2 - 4 * (2 - c) * s ^ 3 + 3 * s ^ 4 - c ^ 2 * (1 - c) ^ 2
              = s ^ 2 * (6 * (1 - c) - 4 * s * (2 - c) + 3 * s ^ 2) + c ^ 3 * (2 - c)) by ring.
  destruct (Rle_dec s (1 - c)) as [L | L].
  - assert (0 <= 6 * (1 - c) - 4 * s * (2 - c) + 3 * s ^ 2) by nra.
    assert (0 <= s ^ 2 * (6 * (1 - c) - 4 * s * (2 - c) + 3 * s ^ 2)) by (apply Rmult_le_pos; [apply pow2_ge_0 | assumption]).
    assert (0 <= c ^ 3 * (2 - c)) by (apply Rmult_le_pos; [apply pow_le; assumption | lra]).
    lra.
  - assert (E1 : s ^ 2 * (6 * (1 - c) - 4 * s * (2 - c) + 3 * s ^ 2) + c ^ 3 * (2 - c)
                 = (1 - s) ^ 2 * (3 * s ^ 2 - 2 * s * (1 - 2 * c) - 1 + 2 * c) + (1 - c) ^ 3 * (1 + c)) by ring.
    rewrite E1 in E.
    assert (0 <= 3 * s ^ 2 - 2 * s * (1 - 2 * c) - 1 + 2 * c) by nra.
    assert (0 <= (1 - s) ^ 2 * (3 * s ^ 2 - 2 * s * (1 - 2 * c) - 1 + 2 * c)) by (apply Rmult_le_pos; [apply pow2_ge_0 | assumption]).
    assert (0 <= (1 - c) ^ 3 * (1 + c)) by (apply Rmult_le_pos; [apply pow_le; lra | lra]).
    lra.
Qed.

Lemma rest_bound : forall c etas, 0 <= c <= 1 -> (forall e, In e etas -> 0 <= e <= 1) ->
  c ^ 2 * (1 - c) ^ 2 <= c ^ 2 + 6 * (1 - c) * psum 2 etas - 4 * (2 - c) * psum 3 etas + 3 * psum 2 etas ^ 2.
Proof.
  intros c etas Hc He. assert (N := psum2_nonneg etas).
  destruct (Rle_dec 1 (psum 2 etas)) as [G | G].
  - assert (S3 := psum3_le 1 etas (fun e H => proj2 (He e H))).
    set (a := psum 2 etas) in *. set (b := psum 3 etas) in *. clearbody a b.
    assert (4 * (2 - c) * b <= 4 * (2 - c) * a) by nra.
    assert (c ^ 2 * (1 - c) ^ 2 <= (1 - c) ^ 2).
    { rewrite <- (Rmult_1_l ((1 - c) ^ 2)) at 2. apply Rmult_le_compat_r; [apply pow2_ge_0 |]. nra. }
    assert ((1 - c) ^ 2 <= c ^ 2 + 6 * (1 - c) * a - 4 * (2 - c) * a + 3 * a ^ 2) by nra.
    lra.
  - set (s := sqrt (psum 2 etas)).
    assert (Q : s * s = psum 2 etas) by (apply sqrt_sqrt; exact N).
    assert (P : 0 <= s) by apply sqrt_pos.
    assert (L : s <= 1) by nra.
    assert (S3 : psum 3 etas <= s * psum 2 etas).
    { apply psum3_le. intros e H. assert (e ^ 2 <= psum 2 etas) by (apply psum2_in; exact H).
      destruct (He e H) as [E0 _]. rewrite <- Q in H0. cbn in H0. nra. }
    assert (B := rest_bound_one c s Hc (conj P L)).
    assert (4 * (2 - c) * psum 3 etas <= 4 * (2 - c) * (s * psum 2 etas)).
    { apply Rmult_le_compat_l; [lra | exact S3]. }
    rewrite <- Q in *.
    replace (s ^ 2) with (s * s) in B by ring. replace (s ^ 3) with (s * (s * s)) in B by ring.
    replace (s ^ 4) with ((s * s) ^ 2) in B by ring. lra.
Qed.

(** ** the product with the mixed second derivatives *)
Fixpoint dotp (a b : list R) : R := match a, b with x :: a, y :: b => x * y + dotp a b | _, _ => 0 end.

Lemma vget_skipn : forall (l : list R) i e, vget l i = Some e -> skipn i l = e :: skipn (S i) l.
Proof.
  unfold vget. induction l as [| a l IH]; intros [| i] e E; cbn in *; try discriminate.
  - injection E as ->. reflexivity.
  - apply IH in E. rewrite E. destruct l; reflexivity.
Qed.

Lemma dot_loop_spec : forall etas value n i acc, (i + n <= length etas)%nat -> (i + n <= length value)%nat ->
  dot_loop etas value n i acc = Some (acc + dotp (firstn n (skipn i etas)) (firstn n (skipn i value))).
Proof.
  intros etas value. induction n as [| n IH]; intros i acc H H'.
  - cbn. f_equal. ring.
  - cbn [dot_loop]. destruct (vget etas i) as [e |] eqn:E. 2:{ apply nth_error_None in E. lia. }
    destruct (vget value i) as [v |] eqn:V. 2:{ apply nth_error_None in V. lia. }
    cbn [obind]. rewrite IH by lia.
    rewrite (vget_skipn _ _ _ E), (vget_skipn _ _ _ V). cbn [firstn dotp]. f_equal. ring.
Qed.

Lemma add_loop_spec : forall coef etas value temp n i result result',
  add_loop coef etas value temp n i result = Some result' ->
  length result' = length result
  /\ forall k, vget result' k = if andb (Nat.leb i k) (Nat.ltb k (i + n))
       then match vget etas k, vget value k, vget result k with Some e, Some v, Some r => Some (r + coef * e * (temp - e * v)) | _, _, _ => None end
       else vget result k.
Proof.
  intros coef etas value temp. induction n as [| n IH]; intros i result result' H.
  - cbn in H. injection H as <-. split; [reflexivity |]. intros k.
    destruct (Nat.leb_spec i k), (Nat.ltb_spec k (i + 0)); cbn; try reflexivity; lia.
  - cbn [add_loop] in H.
    destruct (vget etas i) as [e |] eqn:E; [| discriminate H].
    destruct (vget value i) as [v |] eqn:V; [| discriminate H].
    destruct (vget result i) as [r |] eqn:Rr; [| discriminate H].
    cbn [obind] in H.
    destruct (vset result i (r + coef * e * (temp - e * v))) as [result1 |] eqn:S1; [| discriminate H].
    cbn [obind] in H. destruct (IH _ _ _ H) as [L G].
    split; [rewrite L; eapply vset_length; eauto |].
    intros k. rewrite G.
    assert (GV : forall k, vget result1 k = if Nat.eqb k i then Some (r + coef * e * (temp - e * v)) else vget result k)
      by (intros k0; eapply vset_get; eauto).
    rewrite !GV.
    destruct (Nat.eqb_spec k i) as [-> | Ne].
    + destruct (Nat.leb_spec (S i) i), (Nat.ltb_spec i (S i + n)), (Nat.leb_spec i i), (Nat.ltb_spec i (i + S n)); try lia; cbn [andb].
      rewrite E, V, Rr. reflexivity.
    + destruct (Nat.leb_spec (S i) k), (Nat.ltb_spec k (S i + n)), (Nat.leb_spec i k), (Nat.ltb_spec k (i + S n)); try lia; reflexivity.
Qed.

Lemma add_loop_some : forall coef etas value temp n i result,
  (i + n <= length etas)%nat -> (i + n <= length value)%nat -> (i + n <= length result)%nat ->
  exists result', add_loop coef etas value temp n i result = Some result'.
Proof.
  intros coef etas value temp. induction n as [| n IH]; intros i result He Hv Hr.
  - eexists; reflexivity.
  - cbn [add_loop].
    destruct (vget etas i) as [e |] eqn:E. 2:{ apply nth_error_None in E. lia. }
    destruct (vget value i) as [v |] eqn:V. 2:{ apply nth_error_None in V. lia. }
    destruct (vget result i) as [r |] eqn:Rr. 2:{ apply nth_error_None in Rr. lia. }
    cbn [obind].
    destruct (vset result i (r + coef * e * (temp - e * v))) as [result1 |] eqn:S1.
    + cbn [obind]. apply IH; try lia. rewrite (vset_length _ _ _ _ _ S1). lia.
    + exfalso. assert (HS : exists l, vset result i (r + coef * e * (temp - e * v)) = Some l) by (apply vset_some; lia).
      destruct HS as [l HS]. congruence.
Qed.
