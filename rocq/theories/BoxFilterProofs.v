(** Lemmas about BoxFilterModel. *)
From Coq Require Import List QArith Qabs Qminmax Arith Bool Lia Lqa Qfield.
From Verif Require Import Util BoxFilterModel.
Import ListNotations.
Local Open Scope nat_scope.

(** ** Scalar products *)
Lemma qsum_ext : forall (f g : nat -> Q) l, (forall i, In i l -> (f i == g i)%Q) -> (qsum (map f l) == qsum (map g l))%Q.
Proof.
  induction l as [|a l IH]; intro H; [reflexivity|]. cbn [map qsum fold_right]. fold (qsum (map f l)) (qsum (map g l)).
  rewrite (H a (or_introl eq_refl)), IH by (intros i Hi; apply H; right; exact Hi). reflexivity.
Qed.

Lemma qsum_lin : forall (f g : nat -> Q) c l, (qsum (map (fun i => (f i + c * g i)%Q) l) == qsum (map f l) + c * qsum (map g l))%Q.
Proof.
  induction l as [|a l IH]; [cbn; ring|]. cbn [map qsum fold_right] in *. unfold qsum in IH. rewrite IH. ring.
Qed.

Lemma sdot_ext : forall dim a a' b b', (forall i, i < dim -> (a i == a' i)%Q) -> (forall i, i < dim -> (b i == b' i)%Q) -> (sdot dim a b == sdot dim a' b')%Q.
Proof.
  intros dim a a' b b' A B. unfold sdot. apply qsum_ext. intros i Hi. apply in_seq in Hi. rewrite A, B by lia. reflexivity.
Qed.

Lemma sdot_lin : forall dim n a b c, (sdot dim n (fun i => a i + c * b i)%Q == sdot dim n a + c * sdot dim n b)%Q.
Proof.
  intros dim n a b c. unfold sdot. rewrite <- qsum_lin. apply qsum_ext. intros i _. ring.
Qed.

Lemma sdot_scale : forall dim a b c e, (sdot dim (fun i => c * a i)%Q (fun i => e * b i)%Q == c * e * sdot dim a b)%Q.
Proof.
  intros dim a b c e. unfold sdot. induction (seq 0 dim) as [|i l IH]; [cbn; ring|]. cbn [map qsum fold_right] in *. unfold qsum in IH. rewrite IH. ring.
Qed.

Lemma sdot_pos : forall dim a, (0 <= sdot dim a a)%Q.
Proof.
  intros dim a. unfold sdot. induction (seq 0 dim) as [|i l IH]; [cbn; lra|]. cbn [map qsum fold_right] in *. unfold qsum in IH. nra.
Qed.

Lemma sdot_pos_strict : forall dim a d, d < dim -> ~ (a d == 0)%Q -> (0 < sdot dim a a)%Q.
Proof.
  intros dim a d Hd N. unfold sdot. assert (IN : In d (seq 0 dim)) by (apply in_seq; lia). revert IN.
  assert (NN : forall l, (0 <= qsum (map (fun i => (a i * a i)%Q) l))%Q). { induction l as [|i l IH]; [cbn; lra|]. cbn [map qsum fold_right] in *. unfold qsum in IH. nra. }
  induction (seq 0 dim) as [|i l IH]; [intros []|]. cbn [map qsum fold_right]. fold (qsum (map (fun i => (a i * a i)%Q) l)). specialize (NN l). intros [->|H].
  - assert (0 < a d * a d)%Q; [|lra]. destruct (Q_dec (a d) 0) as [[L|G]|E]; [nra|nra|contradiction].
  - specialize (IH H). nra.
Qed.

Lemma sdot_normal : forall dim d w, d < dim -> (sdot dim (normal d) w == - w d)%Q.
Proof.
  intros dim d w Hd. unfold sdot.
  assert (G : forall n s, (qsum (map (fun i => (normal d i * w i)%Q) (seq s n)) == if (s <=? d) && (d <? s + n) then - w d else 0)%Q).
  { induction n as [|n IH]; intro s.
    - destruct (Nat.leb_spec s d), (Nat.ltb_spec d (s + 0)); cbn [andb]; try lia; reflexivity.
    - cbn [seq map qsum fold_right]. fold (qsum (map (fun i => (normal d i * w i)%Q) (seq (S s) n))). rewrite IH. unfold normal.
      destruct (Nat.eqb_spec s d) as [E|N], (Nat.leb_spec (S s) d), (Nat.ltb_spec d (S s + n)), (Nat.leb_spec s d), (Nat.ltb_spec d (s + S n)); try (subst s); cbn [andb]; try lia; ring. }
  rewrite G. destruct (Nat.leb_spec 0 d), (Nat.ltb_spec d (0 + dim)); try lia. reflexivity.
Qed.

(** ** Intersection *)
Lemma intersect_spec : forall dim p0 p1 co no e fac p, (0 <= e)%Q -> intersect_line_plane dim p0 p1 co no e = Some (fac, p) ->
  (sdot dim no (fun i => p i - co i)%Q == 0)%Q /\ (forall i, (p i == p0 i - fac * (p1 i - p0 i))%Q).
Proof.
  intros dim p0 p1 co no e fac p He. unfold intersect_line_plane.
  set (u := fun i => (p0 i - p1 i)%Q). set (w := fun i => (p0 i - co i)%Q). destruct (qltb e (Qabs (sdot dim no u))) eqn:T; [|discriminate].
  apply qltb_true in T. intro H. injection H as <- <-. assert (N : ~ (sdot dim no u == 0)%Q) by (intro C; rewrite C in T; cbn in T; lra). split.
  - set (f := (- sdot dim no w / sdot dim no u)%Q).
    rewrite (sdot_ext dim no no _ (fun i => w i + f * u i)%Q); [|reflexivity|intros i _; unfold w, u; ring].
    rewrite sdot_lin. unfold f. field. exact N.
  - intro i. unfold u. ring.
Qed.

(** Whether a plane of direction [d] is crossed. *)
Definition crossed (dim d : nat) (o v0 v1 : point) : bool :=
  match intersect_line_plane dim v0 v1 o (normal d) (1 # 1000000) with
  | Some (fac, p) => qltb (Qabs fac) 1 && qltb (sdot dim (fun i => p i - v0 i)%Q (fun i => p i - v1 i)%Q) 0
  | None => false
  end.

Lemma crossed_fac : forall dim d o v0 v1 fac p, intersect_line_plane dim v0 v1 o (normal d) (1 # 1000000) = Some (fac, p) ->
  qltb (Qabs fac) 1 && qltb (sdot dim (fun i => p i - v0 i)%Q (fun i => p i - v1 i)%Q) 0 = true -> (-1 < fac /\ fac < 0)%Q.
Proof.
  intros dim d o v0 v1 fac p E H. apply andb_true_iff in H. destruct H as [H1 H2]. apply qltb_true in H1. apply qltb_true in H2. apply Qabs_Qlt_condition in H1.
  destruct (intersect_spec dim v0 v1 o (normal d) (1 # 1000000) fac p ltac:(discriminate) E) as [_ P].
  rewrite (sdot_ext dim _ (fun i => fac * (v0 i - v1 i))%Q _ (fun i => (1 + fac) * (v0 i - v1 i))%Q) in H2 by (intros i _; rewrite P; ring).
  rewrite sdot_scale in H2. pose proof (sdot_pos dim (fun i => v0 i - v1 i)%Q) as S. split; [apply H1|].
  destruct (Qlt_le_dec fac 0) as [L|G]; [exact L|]. exfalso. assert (0 <= fac * (1 + fac))%Q by nra. nra.
Qed.

Lemma intersect_normal : forall dim d o v0 v1 fac p, d < dim -> intersect_line_plane dim v0 v1 o (normal d) (1 # 1000000) = Some (fac, p) ->
  ~ (v0 d - v1 d == 0)%Q /\ (fac * (v0 d - v1 d) == - (v0 d - o d))%Q.
Proof.
  intros dim d o v0 v1 fac p Hd. unfold intersect_line_plane. destruct (qltb (1 # 1000000) (Qabs (sdot dim (normal d) (fun i => v0 i - v1 i)%Q))) eqn:T; [|discriminate].
  apply qltb_true in T. rewrite sdot_normal in T by exact Hd. intro H. injection H as H _.
  assert (N : ~ (v0 d - v1 d == 0)%Q) by (intro C; rewrite C in T; cbn in T; lra). split; [exact N|]. rewrite <- H. rewrite !sdot_normal by exact Hd. field. intro C. apply N. lra.
Qed.

Lemma crossed_true : forall dim d o v0 v1, d < dim -> crossed dim d o v0 v1 = true -> ((v0 d - o d) * (v1 d - o d) < 0)%Q.
Proof.
  intros dim d o v0 v1 Hd H. unfold crossed in H. destruct (intersect_line_plane dim v0 v1 o (normal d) (1 # 1000000)) as [[fac p]|] eqn:E; [|discriminate].
  destruct (crossed_fac _ _ _ _ _ _ _ E H) as [F1 F2]. destruct (intersect_normal _ _ _ _ _ _ _ Hd E) as [N F].
  set (u := (v0 d - v1 d)%Q) in *. assert (W : (v0 d - o d == - fac * u)%Q) by lra. assert (W1 : (v1 d - o d == - (1 + fac) * u)%Q) by (unfold u in *; lra).
  rewrite W, W1. assert (0 < u * u)%Q. { destruct (Q_dec u 0) as [[L|G]|C]; [nra|nra|contradiction]. }
  setoid_replace (- fac * u * (- (1 + fac) * u))%Q with (fac * (1 + fac) * (u * u))%Q by ring. assert (fac * (1 + fac) < 0)%Q by nra. nra.
Qed.

Lemma crossed_intro : forall dim d o v0 v1, d < dim -> (1 # 1000000 < Qabs (v0 d - v1 d))%Q -> ((v0 d - o d) * (v1 d - o d) < 0)%Q -> crossed dim d o v0 v1 = true.
Proof.
  intros dim d o v0 v1 Hd L X. unfold crossed.
  assert (E : exists fac p, intersect_line_plane dim v0 v1 o (normal d) (1 # 1000000) = Some (fac, p)).
  { unfold intersect_line_plane. destruct (qltb (1 # 1000000) (Qabs (sdot dim (normal d) (fun i => v0 i - v1 i)%Q))) eqn:T; [eauto|]. exfalso. apply qltb_false in T. rewrite sdot_normal in T by exact Hd. rewrite Qabs_opp in T. lra. }
  destruct E as (fac & p & E). rewrite E. destruct (intersect_normal _ _ _ _ _ _ _ Hd E) as [N F].
  destruct (intersect_spec dim v0 v1 o (normal d) (1 # 1000000) fac p ltac:(discriminate) E) as [_ P].
  set (u := (v0 d - v1 d)%Q) in *. assert (W : (v0 d - o d == - fac * u)%Q) by lra. assert (W1 : (v1 d - o d == - (1 + fac) * u)%Q) by (unfold u in *; lra).
  rewrite W, W1 in X. assert (U : (0 < u * u)%Q). { destruct (Q_dec u 0) as [[G|G]|C]; [nra|nra|contradiction]. }
  assert (FF : (fac * (1 + fac) < 0)%Q). { destruct (Qlt_le_dec (fac * (1 + fac)) 0) as [A|A]; [exact A|]. exfalso. setoid_replace (- fac * u * (- (1 + fac) * u))%Q with (fac * (1 + fac) * (u * u))%Q in X by ring. nra. }
  assert (F1 : (-1 < fac /\ fac < 0)%Q). { destruct (Qlt_le_dec fac 0); [|exfalso; nra]. destruct (Qlt_le_dec (-1) fac); [auto|exfalso; nra]. }
  apply andb_true_iff. split; apply qltb_true.
  - apply Qabs_Qlt_condition. lra.
  - rewrite (sdot_ext dim _ (fun i => fac * (v0 i - v1 i))%Q _ (fun i => (1 + fac) * (v0 i - v1 i))%Q) by (intros i _; rewrite P; ring).
    rewrite sdot_scale. pose proof (sdot_pos_strict dim (fun i => v0 i - v1 i)%Q d Hd N). nra.
Qed.

(** ** Positions *)
Section Box.
Variables (dim : nat) (low up : point) (eps : Q).
Hypothesis EPS : (0 < eps)%Q.

Lemma position_inside : forall p, position dim low up 0 eps p = Inside -> forall d, d < dim -> (low d < p d /\ p d < up d)%Q.
Proof.
  intros p H d Hd. unfold position in H. destruct (box_contains dim low up 0 p) eqn:B; [|discriminate].
  destruct (existsb _ (seq 0 dim)) eqn:X; [discriminate|]. assert (IN : In d (seq 0 dim)) by (apply in_seq; lia).
  unfold box_contains in B. rewrite forallb_forall in B. specialize (B d IN). apply andb_true_iff in B. destruct B as [B1 B2].
  apply negb_true_iff, qltb_false in B1. apply negb_true_iff, qltb_false in B2.
  assert (NB : qltb (Qabs (low d - p d)) eps || qltb (Qabs (up d - p d)) eps = false).
  { destruct (qltb (Qabs (low d - p d)) eps || qltb (Qabs (up d - p d)) eps) eqn:Y; [|reflexivity]. rewrite <- X. symmetry. apply existsb_exists. exists d. auto. }
  apply orb_false_iff in NB. destruct NB as [N1 N2]. apply qltb_false in N1. apply qltb_false in N2.
  split.
  - destruct (Qlt_le_dec (low d) (p d)) as [L|G]; [exact L|]. exfalso. assert (E : (low d - p d == 0)%Q) by lra. rewrite E in N1. cbn in N1. lra.
  - destruct (Qlt_le_dec (p d) (up d)) as [L|G]; [exact L|]. exfalso. assert (E : (up d - p d == 0)%Q) by lra. rewrite E in N2. cbn in N2. lra.
Qed.

Lemma planes_in : forall o n, In (o, n) (planes dim low up) -> exists d, d < dim /\ n = normal d /\ (o = low \/ o = up).
Proof.
  intros o n H. unfold planes in H. apply in_app_or in H. destruct H as [H|H]; apply in_map_iff in H; destruct H as (d & E & Hd); injection E as <- <-; apply in_seq in Hd; exists d; split; [lia|auto|lia|auto].
Qed.

(** ** One plane *)
Variables (iso null : Q) (pt : nat -> point) (len : nat * nat -> Q).

Lemma plane_step_spec : forall l val0 val1 o d x, d < dim -> ~ (len l == 0)%Q ->
  if crossed dim d o (pt (fst l)) (pt (snd l))
  then exists t vmin imin vmax, (0 < t /\ t < 1)%Q /\ (forall i, i = d -> (pt (fst l) i + t * (pt (snd l) i - pt (fst l) i) == o i)%Q) /\
    (if qltb val1 val0 then imin = snd l /\ vmax = val0 /\ ((1 - t) * val0 + t * vmin == iso)%Q
     else imin = fst l /\ vmax = val1 /\ ((1 - t) * vmin + t * val1 == iso)%Q) /\
    plane_step dim iso pt len l val0 val1 (o, normal d) x = Some (if qltb (1 # 1000000) (Qabs (x imin - vmin)) then put x imin vmin else x)
  else plane_step dim iso pt len l val0 val1 (o, normal d) x = Some x.
Proof.
  intros l val0 val1 o d x Hd HL. destruct (crossed dim d o (pt (fst l)) (pt (snd l))) eqn:C.
  - unfold crossed in C. unfold plane_step. cbn [fst snd]. destruct (intersect_line_plane dim (pt (fst l)) (pt (snd l)) o (normal d) (1 # 1000000)) as [[fac p]|] eqn:E; [|discriminate].
    destruct (crossed_fac _ _ _ _ _ _ _ E C) as [F1 F2]. destruct (intersect_normal _ _ _ _ _ _ _ Hd E) as [_ F]. rewrite C. exists (- fac)%Q.
    assert (AF : (Qabs fac == - fac)%Q) by (apply Qabs_neg; lra).
    destruct (qltb val1 val0) eqn:V.
    + assert (NZ : ~ (Qabs fac * len l == 0)%Q) by (rewrite AF; intro Z; apply Qmult_integral in Z; destruct Z; [lra|contradiction]).
      rewrite (qdiv_some _ _ NZ). cbn [obind]. eexists _, (snd l), val0. split; [lra|]. split; [intros i ->; lra|]. split; [|reflexivity].
      split; [reflexivity|]. split; [reflexivity|]. rewrite AF. field. split; [exact HL|lra].
    + assert (NZ : ~ ((1 - Qabs fac) * len l == 0)%Q) by (rewrite AF; intro Z; apply Qmult_integral in Z; destruct Z; [lra|contradiction]).
      rewrite (qdiv_some _ _ NZ). cbn [obind]. eexists _, (fst l), val1. split; [lra|]. split; [intros i ->; lra|]. split; [|reflexivity].
      split; [reflexivity|]. split; [reflexivity|]. rewrite AF. field. split; [exact HL|lra].
  - unfold crossed in C. unfold plane_step. cbn [fst snd]. destruct (intersect_line_plane dim (pt (fst l)) (pt (snd l)) o (normal d) (1 # 1000000)) as [[fac p]|]; [|reflexivity]. rewrite C. reflexivity.
Qed.

(** ** One line *)
Notation inside i := (position dim low up 0 eps (pt i) = Inside).

(** No plane is crossed between two inner points. *)
Lemma inside_not_crossed : forall o d v0 v1, d < dim -> o = low \/ o = up -> position dim low up 0 eps v0 = Inside -> position dim low up 0 eps v1 = Inside -> crossed dim d o v0 v1 = false.
Proof.
  intros o d v0 v1 Hd Ho H0 H1. destruct (crossed dim d o v0 v1) eqn:C; [|reflexivity]. exfalso. apply (crossed_true dim d o v0 v1 Hd) in C.
  destruct (position_inside v0 H0 d Hd), (position_inside v1 H1 d Hd). destruct Ho as [-> | ->]; nra.
Qed.

Definition kept (x0 x : field) : Prop := forall j, inside j -> x j = x0 j.
Definition low_outside (D : nat -> Prop) (x : field) : Prop := forall j, D j -> ~ inside j -> (x j <= iso)%Q.

Lemma planes_loop_inv : forall (D : nat -> Prop) l val0 val1 x0, ~ (len l == 0)%Q -> D (fst l) -> D (snd l) -> val0 = x0 (fst l) -> val1 = x0 (snd l) ->
  (inside (fst l) /\ (iso <= val0)%Q \/ inside (snd l) /\ (iso <= val1)%Q) ->
  (~ inside (fst l) -> (val0 <= iso)%Q) -> (~ inside (snd l) -> (val1 <= iso)%Q) ->
  forall ps, (forall p, In p ps -> In p (planes dim low up)) -> forall x, kept x0 x -> low_outside D x ->
  exists x', planes_loop dim iso pt len l val0 val1 ps x = Some x' /\ kept x0 x' /\ low_outside D x'.
Proof.
  intros D l val0 val1 x0 HL D0 D1 V0 V1 IN OUT0 OUT1. induction ps as [|[o n] ps IH]; intros HP x K LO; [exists x; auto|].
  cbn [planes_loop]. destruct (planes_in o n (HP _ (or_introl eq_refl))) as (d & Hd & -> & Ho).
  pose proof (plane_step_spec l val0 val1 o d x Hd HL) as S. destruct (crossed dim d o (pt (fst l)) (pt (snd l))) eqn:C.
  2:{ rewrite S. cbn [obind]. apply IH; [intros p Hp; apply HP; right; exact Hp|exact K|exact LO]. }
  destruct S as (t & vmin & imin & vmax & T & _ & M & E). rewrite E. cbn [obind]. apply IH; [intros p Hp; apply HP; right; exact Hp| |].
  - (* inner points are kept *)
    intros j Hj. destruct (qltb (1 # 1000000) (Qabs (x imin - vmin))) eqn:B; [|apply K, Hj]. unfold put. destruct (Nat.eqb_spec j imin) as [->|]; [|apply K, Hj]. exfalso.
    apply qltb_true in B. rewrite (K imin Hj) in B.
    assert (NB : forall a b, inside a -> inside b -> (a = fst l /\ b = snd l \/ a = snd l /\ b = fst l) -> False).
    { intros a b Ha Hb [[-> ->]|[-> ->]]; rewrite (inside_not_crossed o d _ _ Hd Ho) in C by assumption; discriminate. }
    destruct (qltb val1 val0) eqn:V.
    + destruct M as (-> & -> & M). apply qltb_true in V. destruct IN as [[I0 G]|[I1 G]]; [exact (NB _ _ I0 Hj (or_introl (conj eq_refl eq_refl)))|].
      assert (N0 : ~ inside (fst l)) by (intro I0; exact (NB _ _ I0 Hj (or_introl (conj eq_refl eq_refl)))). specialize (OUT0 N0). lra.
    + destruct M as (-> & -> & M). apply qltb_false in V. destruct IN as [[I0 G]|[I1 G]]; [|exact (NB _ _ I1 Hj (or_intror (conj eq_refl eq_refl)))].
      assert (N1 : ~ inside (snd l)) by (intro I1; exact (NB _ _ I1 Hj (or_intror (conj eq_refl eq_refl)))). specialize (OUT1 N1).
      assert (E0 : (val0 == iso)%Q) by lra. assert (E1 : (val1 == iso)%Q) by lra. rewrite E1 in M. assert (VM : (vmin == iso)%Q) by nra.
      rewrite <- V0, VM, E0 in B. setoid_replace (iso - iso)%Q with 0%Q in B by ring. cbn in B. lra.
  - intros j Dj Hj. destruct (qltb (1 # 1000000) (Qabs (x imin - vmin))) eqn:B; [|apply LO; assumption]. unfold put. destruct (Nat.eqb_spec j imin) as [->|]; [|apply LO; assumption].
    destruct (qltb val1 val0) eqn:V.
    + destruct M as (-> & -> & M). apply qltb_true in V. assert (iso <= val0)%Q by (destruct IN as [[I0 G]|[I1 G]]; lra). nra.
    + destruct M as (-> & -> & M). apply qltb_false in V. assert (iso <= val1)%Q by (destruct IN as [[I0 G]|[I1 G]]; lra). nra.
Qed.

Lemma line_step_inv : forall (D : nat -> Prop) x0 l x, ~ (len l == 0)%Q -> D (fst l) -> D (snd l) -> kept x0 x -> low_outside D x ->
  exists x', line_step dim low up 0 eps iso pt len l x = Some x' /\ kept x0 x' /\ low_outside D x'.
Proof.
  intros D x0 l x HL D0 D1 K LO. unfold line_step. destruct ((outside_or_boundary dim low up 0 eps (pt (fst l)) || qltb (x (fst l)) iso) && (outside_or_boundary dim low up 0 eps (pt (snd l)) || qltb (x (snd l)) iso)) eqn:F; [exists x; auto|].
  assert (OB : forall i, outside_or_boundary dim low up 0 eps (pt i) = false -> inside i).
  { intros i H. unfold outside_or_boundary, is_inside in H. destruct (position dim low up 0 eps (pt i)); [discriminate|discriminate|reflexivity]. }
  assert (IN : inside (fst l) /\ (iso <= x (fst l))%Q \/ inside (snd l) /\ (iso <= x (snd l))%Q).
  { apply andb_false_iff in F. destruct F as [F|F]; apply orb_false_iff in F; destruct F as [F1 F2]; apply qltb_false in F2; [left|right]; split; [apply OB, F1|exact F2|apply OB, F1|exact F2]. }
  destruct (planes_loop_inv D l (x (fst l)) (x (snd l)) x HL D0 D1 eq_refl eq_refl IN (LO _ D0) (LO _ D1) (planes dim low up) (fun p H => H) x) as (x' & E & K' & LO'); [intros j _; reflexivity|exact LO|].
  exists x'. split; [exact E|]. split; [|exact LO']. intros j Hj. rewrite (K' j Hj). apply K, Hj.
Qed.

Lemma cells_loop_inv : forall (D : nat -> Prop) x0 cs x, (forall c l, In c cs -> In l (lines c) -> ~ (len l == 0)%Q /\ D (fst l) /\ D (snd l)) -> kept x0 x -> low_outside D x ->
  exists x', cells_loop dim low up 0 eps iso pt len cs x = Some x' /\ kept x0 x' /\ low_outside D x'.
Proof.
  intros D x0. induction cs as [|c cs IH]; intros x H K LO; [exists x; auto|]. cbn [cells_loop].
  assert (S : exists x', cell_step dim low up 0 eps iso pt len c x = Some x' /\ kept x0 x' /\ low_outside D x').
  { unfold cell_step. destruct (negb (intersects dim low up 0 eps (map pt (vertices c)))); [exists x; auto|]. destruct (existsb (fun i => qltb iso (x i)) (vertices c)); [|exists x; auto].
    assert (HL : forall l, In l (lines c) -> ~ (len l == 0)%Q /\ D (fst l) /\ D (snd l)) by (intros l Hl; apply (H c l (or_introl eq_refl) Hl)).
    clear H IH. revert x K LO. induction (lines c) as [|l ls IHl]; intros x K LO; [exists x; auto|]. cbn [lines_loop].
    destruct (HL l (or_introl eq_refl)) as (A & B & C). destruct (line_step_inv D x0 l x A B C K LO) as (x' & E & K' & LO'). rewrite E. cbn [obind].
    apply IHl; [intros m Hm; apply HL; right; exact Hm|exact K'|exact LO']. }
  destruct S as (x' & E & K' & LO'). rewrite E. cbn [obind]. apply IH; [intros c' l Hc; apply H; right; exact Hc|exact K'|exact LO'].
Qed.

(** ** The first loop *)
Lemma clip_spec : forall vs x j, let x' := fold_left (clip dim low up 0 eps iso null pt) vs x in
  (~ In j vs -> x' j = x j) /\
  (In j vs -> (x' j == match position dim low up 0 eps (pt j) with Inside => x j | Boundary => Qmin (x j) iso | Outside => null end)%Q) /\
  (inside j -> x' j = x j).
Proof.
  induction vs as [|i vs IH]; intros x j; cbn [fold_left]; cbv zeta.
  - split; [reflexivity|]. split; [intros []|reflexivity].
  - destruct (IH (clip dim low up 0 eps iso null pt x i) j) as (A & B & C). cbv zeta in A, B, C.
    assert (O : j <> i -> clip dim low up 0 eps iso null pt x i j = x j).
    { intro N. unfold clip, put. destruct (position dim low up 0 eps (pt i)); [| |reflexivity]; destruct (Nat.eqb_spec j i); congruence. }
    assert (T : (clip dim low up 0 eps iso null pt x j j == match position dim low up 0 eps (pt j) with Inside => x j | Boundary => Qmin (x j) iso | Outside => null end)%Q).
    { unfold clip. destruct (position dim low up 0 eps (pt j)); unfold put; rewrite ?Nat.eqb_refl; reflexivity. }
    split; [|split].
    + intro N. rewrite A; [apply O; intro; apply N; left; congruence|intro; apply N; right; assumption].
    + intros H. destruct (in_dec Nat.eq_dec j vs) as [H'|H'].
      * rewrite (B H'). destruct (Nat.eq_dec j i) as [->|NE]; [|rewrite (O NE); reflexivity].
        destruct (position dim low up 0 eps (pt i)); [reflexivity| |exact T]. rewrite T.
        destruct (Q.min_spec (x i) iso) as [[L E]|[L E]]; rewrite E; destruct (Q.min_spec (x i) iso) as [[L' E']|[L' E']]; rewrite ?E' in *; try apply Q.min_l; try apply Q.min_r; lra.
      * destruct H as [->|H]; [|contradiction]. rewrite (A H'). exact T.
    + intro IJ. rewrite (C IJ). unfold clip. destruct (Nat.eq_dec j i) as [->|NE]; [rewrite IJ; reflexivity|]. apply O, NE.
Qed.
End Box.
