(** C58: grains of a microstructure given by their contours. *)
From Coq Require Import List Bool Reals Lra Psatz.
From Verif Require Import Util InitialModel ContourModel.
Import ListNotations.
Local Open Scope R_scope.

(** ** Specification *)

(** Consecutive points of the closed contour. *)
Fixpoint steps (l : list point) : list (point * point) :=
  match l with a :: ((b :: _) as r) => (a, b) :: steps r | _ => [] end.
Definition edges (vs : list point) : list (point * point) := steps (match vs with [] => [] | v :: _ => vs ++ [v] end).
Definition between (a b : point) (t : R) : point := (fst a + t * (fst b - fst a), snd a + t * (snd b - snd a)).
Definition on_contour (vs : list point) (x : point) : Prop :=
  exists a b t, In (a, b) (edges vs) /\ 0 <= t <= 1 /\ x = between a b t.
(** No point repeated. *)
Definition proper (vs : list point) : Prop := forall a b, In (a, b) (edges vs) -> a <> b.
Definition euclid (a b : point) : R := sqrt ((fst a - fst b) ^ 2 + (snd a - snd b) ^ 2).
(** Twice the signed area of a triangle. *)
Definition area (a b c : point) : R := (fst b - fst a) * (snd c - snd a) - (snd b - snd a) * (fst c - fst a).

(** ** Distance to the contour *)

Lemma dist2_euclid : forall a b, pdist a b = euclid a b.
Proof. intros a b. unfold pdist, euclid, dist2. f_equal. ring. Qed.

Lemma dist2_pos : forall a b, a <> b -> 0 < dist2 a b.
Proof.
  intros [ax ay] [bx b_y] H. unfold dist2. cbn [fst snd].
  destruct (Req_dec (ax - bx) 0) as [Hx|Hx].
  - assert (Hy : ay - b_y <> 0).
    { intros E. apply H. assert (ax = bx) by lra. assert (ay = b_y) by lra. subst. reflexivity. }
    assert (K := Rsqr_pos_lt _ Hy). unfold Rsqr in K. rewrite Hx. lra.
  - assert (K := Rsqr_pos_lt _ Hx). assert (K2 := Rle_0_sqr (ay - b_y)). unfold Rsqr in K, K2. lra.
Qed.

Lemma dist2_between : forall p a b t, 0 < dist2 a b ->
  let r := ((fst b - fst a) * (fst p - fst a) + (snd b - snd a) * (snd p - snd a)) / dist2 a b in
  dist2 p (between a b t) = dist2 p a - r * r * dist2 a b + dist2 a b * ((t - r) * (t - r)).
Proof.
  intros p a b t HL. cbv zeta.
  set (L := dist2 a b) in *. set (s := (fst b - fst a) * (fst p - fst a) + (snd b - snd a) * (snd p - snd a)).
  assert (E : L * ((t - s / L) * (t - s / L)) = t * t * L - 2 * t * s + s / L * (s / L) * L) by (field; lra).
  rewrite E. unfold L, s, dist2, between. cbn [fst snd]. ring.
Qed.

Lemma between_0 : forall a b, between a b 0 = a.
Proof. intros [x y] [u v]. unfold between. cbn [fst snd]. f_equal; ring. Qed.
Lemma between_1 : forall a b, between a b 1 = b.
Proof. intros [x y] [u v]. unfold between. cbn [fst snd]. f_equal; ring. Qed.

Lemma edge_distance_spec : forall p a b, a <> b ->
  exists d, edge_distance p a b = Some d /\
    (forall t, 0 <= t <= 1 -> d <= euclid p (between a b t)) /\
    (exists t, 0 <= t <= 1 /\ d = euclid p (between a b t)).
Proof.
  intros p a b Hab. assert (HL := dist2_pos a b Hab). unfold edge_distance.
  destruct (Req_EM_T (dist2 a b) 0) as [E|_]; [lra|].
  assert (HB := fun t => dist2_between p a b t HL). cbv zeta in HB.
  set (r := ((fst b - fst a) * (fst p - fst a) + (snd b - snd a) * (snd p - snd a)) / dist2 a b) in *.
  set (L := dist2 a b) in *. clearbody r L.
  destruct (Rlt_dec r 0) as [Hr|Hr]; [|destruct (Rlt_dec 1 r) as [Hr1|Hr1]].
  - exists (pdist p a). split; [reflexivity|]. split.
    + intros t Ht. rewrite <- dist2_euclid. unfold pdist. apply sqrt_le_1_alt.
      rewrite (HB t). assert (0 <= L * (t * t - 2 * t * r)) by (apply Rmult_le_pos; nra). nra.
    + exists 0. split; [lra|]. rewrite between_0. apply dist2_euclid.
  - exists (pdist b p). split; [reflexivity|].
    assert (Es : pdist b p = euclid p (between a b 1)).
    { rewrite between_1, <- dist2_euclid. unfold pdist, dist2. f_equal. ring. }
    split.
    + intros t Ht. rewrite Es, <- !dist2_euclid. unfold pdist. apply sqrt_le_1_alt.
      rewrite (HB t), (HB 1). assert (0 <= (t - r) * (t - r) - (1 - r) * (1 - r)) by nra.
      assert (0 <= L * ((t - r) * (t - r) - (1 - r) * (1 - r))) by (apply Rmult_le_pos; lra). lra.
    + exists 1. split; [lra|exact Es].
  - exists (sqrt (dist2 p a - r * r * L)). split; [reflexivity|].
    assert (Es : sqrt (dist2 p a - r * r * L) = euclid p (between a b r)).
    { rewrite <- dist2_euclid. unfold pdist. f_equal. rewrite (HB r). ring. }
    split.
    + intros t Ht. rewrite <- dist2_euclid. unfold pdist. apply sqrt_le_1_alt. rewrite (HB t).
      assert (0 <= (t - r) * (t - r)) by apply Rle_0_sqr.
      assert (0 <= L * ((t - r) * (t - r))) by (apply Rmult_le_pos; lra). lra.
    + exists r. split; [lra|exact Es].
Qed.

Lemma distance_loop_spec : forall p l m, (forall a b, In (a, b) (steps l) -> a <> b) ->
  exists d, distance_loop p l (Some m) = Some d /\ d <= m /\
    (forall a b t, In (a, b) (steps l) -> 0 <= t <= 1 -> d <= euclid p (between a b t)) /\
    (d = m \/ exists a b t, In (a, b) (steps l) /\ 0 <= t <= 1 /\ d = euclid p (between a b t)).
Proof.
  intros p l. induction l as [|a l IH]; intros m H.
  - exists m. split; [reflexivity|]. split; [lra|]. split; [|left; reflexivity]. intros a b t [].
  - destruct l as [|b l].
    + exists m. split; [reflexivity|]. split; [lra|]. split; [|left; reflexivity]. intros a' b t [].
    + destruct (edge_distance_spec p a b) as [d [E [Hle [t0 [Ht0 Eat]]]]]; [apply H; left; reflexivity|].
      change (distance_loop p (a :: b :: l) (Some m))
        with (distance_loop p (b :: l) (std_min (edge_distance p a b) (Some m))).
      rewrite E. cbn [std_min].
      assert (Hr : forall a' b', In (a', b') (steps (b :: l)) -> a' <> b') by (intros a' b' K; apply H; right; exact K).
      assert (Em : exists m', (if Rlt_dec m d then Some m else Some d) = Some m' /\ m' <= m /\ m' <= d /\ (m' = m \/ m' = d)).
      { destruct (Rlt_dec m d) as [K|K]; [exists m|exists d]; (split; [reflexivity|]; split; [lra|]; split; [lra|]);
          [left|right]; reflexivity. }
      destruct Em as [m' [-> [H1 [H2 H3]]]].
      destruct (IH m' Hr) as [d' [E' [Hd' [Hall Hat]]]].
      exists d'. split; [exact E'|]. split; [lra|]. split.
      * intros a' b' t K Ht. change (In (a', b') ((a, b) :: steps (b :: l))) in K. destruct K as [K|K].
        -- injection K as <- <-. specialize (Hle t Ht). lra.
        -- exact (Hall a' b' t K Ht).
      * destruct Hat as [-> | [a' [b' [t [K [Ht Et]]]]]].
        -- destruct H3 as [-> | -> ]; [left; reflexivity|]. right. exists a, b, t0. split; [left; reflexivity|]. split; assumption.
        -- right. exists a', b', t. split; [right; exact K|]. split; assumption.
Qed.

(** The distance is the smallest distance to a point of the contour, and it is reached. *)
Theorem C58_distance : forall huge vs p, vs <> [] -> proper vs ->
  (exists x, on_contour vs x /\ euclid p x < huge) ->
  exists d, distance huge vs p = Some d /\
    (forall x, on_contour vs x -> d <= euclid p x) /\
    (exists x, on_contour vs x /\ d = euclid p x).
Proof.
  intros huge vs p Hne Hp [x0 [Hx0 Hh]]. unfold distance.
  destruct (distance_loop_spec p (closed vs) huge) as [d [E [Hd [Hall Hat]]]]; [exact Hp|].
  exists d. split; [exact E|].
  assert (Hmin : forall x, on_contour vs x -> d <= euclid p x).
  { intros x [a [b [t [K [Ht ->]]]]]. exact (Hall a b t K Ht). }
  split; [exact Hmin|].
  destruct Hat as [-> | [a [b [t [K [Ht Et]]]]]].
  - specialize (Hmin x0 Hx0). lra.
  - exists (between a b t). split; [|exact Et]. exists a, b, t. split; [exact K|]. split; [exact Ht|reflexivity].
Qed.
Print Assumptions C58_distance.

(** ** Even-odd rule *)

(** The ray to the right of [p] meets the edge; an end point counts if the other end is
    above the ray. *)
Definition ray_meets (p a b : point) : Prop :=
  (snd a <= snd p < snd b \/ snd b <= snd p < snd a) /\
  exists t, 0 <= t <= 1 /\ snd (between a b t) = snd p /\ fst p < fst (between a b t).

Lemma crosses_spec : forall p a b, crosses p a b = true <-> ray_meets p a b.
Proof.
  intros p a b. unfold crosses, ray_meets, above, between. cbn [fst snd].
  set (x := (fst b - fst a) * (snd p - snd a) / (snd b - snd a) + fst a).
  assert (Hx : snd a <> snd b -> forall t, snd a + t * (snd b - snd a) = snd p -> fst a + t * (fst b - fst a) = x).
  { intros Hn t Ht. unfold x. rewrite <- Ht. field. lra. }
  assert (Hd : snd a <> snd b -> snd a + (snd p - snd a) / (snd b - snd a) * (snd b - snd a) = snd p).
  { intros Hn. field. lra. }
  assert (Hb : snd a <= snd p < snd b \/ snd b <= snd p < snd a ->
               0 <= (snd p - snd a) / (snd b - snd a) <= 1).
  { intros [H|H].
    - assert (P : 0 < snd b - snd a) by lra. split.
      + apply Rmult_le_reg_r with (1 := P). unfold Rdiv. rewrite Rmult_assoc, Rinv_l; lra.
      + apply Rmult_le_reg_r with (1 := P). unfold Rdiv. rewrite Rmult_assoc, Rinv_l; lra.
    - assert (P : 0 < snd a - snd b) by lra.
      replace ((snd p - snd a) / (snd b - snd a)) with ((snd a - snd p) / (snd a - snd b)) by (field; lra). split.
      + apply Rmult_le_reg_r with (1 := P). unfold Rdiv. rewrite Rmult_assoc, Rinv_l; lra.
      + apply Rmult_le_reg_r with (1 := P). unfold Rdiv. rewrite Rmult_assoc, Rinv_l; lra. }
  clearbody x.
  destruct (Rlt_dec (snd p) (snd a)) as [Ha|Ha]; destruct (Rlt_dec (snd p) (snd b)) as [Hb'|Hb']; cbn [xorb andb].
  - split; [discriminate|]. intros [[H|H] _]; lra.
  - assert (Hn : snd a <> snd b) by lra. destruct (Rlt_dec (fst p) x) as [Hl|Hl].
    + split; [intros _|reflexivity]. split; [right; lra|]. exists ((snd p - snd a) / (snd b - snd a)).
      split; [apply Hb; right; lra|]. split; [apply Hd; exact Hn|]. rewrite (Hx Hn _ (Hd Hn)). exact Hl.
    + split; [discriminate|]. intros [_ [t [_ [E L]]]]. rewrite (Hx Hn t E) in L. contradiction.
  - assert (Hn : snd a <> snd b) by lra. destruct (Rlt_dec (fst p) x) as [Hl|Hl].
    + split; [intros _|reflexivity]. split; [left; lra|]. exists ((snd p - snd a) / (snd b - snd a)).
      split; [apply Hb; left; lra|]. split; [apply Hd; exact Hn|]. rewrite (Hx Hn _ (Hd Hn)). exact Hl.
    + split; [discriminate|]. intros [_ [t [_ [E L]]]]. rewrite (Hx Hn t E) in L. contradiction.
  - split; [discriminate|]. intros [[H|H] _]; lra.
Qed.

Lemma ray_meets_sym : forall p a b, ray_meets p a b -> ray_meets p b a.
Proof.
  intros p a b [H [t [Ht [E L]]]]. split; [tauto|]. exists (1 - t). split; [lra|].
  unfold between in *. cbn [fst snd] in *. split; [rewrite <- E; ring|].
  replace (fst b + (1 - t) * (fst a - fst b)) with (fst a + t * (fst b - fst a)) by ring. exact L.
Qed.

Lemma crosses_sym : forall p a b, crosses p a b = crosses p b a.
Proof.
  intros p a b. apply eq_true_iff_eq. rewrite !crosses_spec. split; apply ray_meets_sym.
Qed.

Lemma crosses_self : forall p a, crosses p a a = false.
Proof. intros p a. unfold crosses. rewrite xorb_nilpotent. reflexivity. Qed.

Definition parity (p : point) (es : list (point * point)) : bool :=
  fold_right (fun e b => xorb (crosses p (fst e) (snd e)) b) false es.

Lemma parity_app : forall p l l', parity p (l ++ l') = xorb (parity p l) (parity p l').
Proof.
  intros p l l'. unfold parity. induction l as [|e l IH]; cbn [app fold_right].
  - destruct (fold_right _ false l'); reflexivity.
  - rewrite IH, xorb_assoc. reflexivity.
Qed.

Lemma inside_loop_parity : forall p vs prev b, inside_loop p prev vs b = xorb b (parity p (steps (prev :: vs))).
Proof.
  intros p vs. induction vs as [|v vs IH]; intros prev b.
  - cbn. rewrite xorb_false_r. reflexivity.
  - cbn [inside_loop]. rewrite IH.
    change (steps (prev :: v :: vs)) with ((prev, v) :: steps (v :: vs)).
    change (parity p ((prev, v) :: steps (v :: vs))) with (xorb (crosses p prev v) (parity p (steps (v :: vs)))).
    rewrite (crosses_sym p prev v).
    destruct (crosses p v prev), b, (parity p (steps (v :: vs))); reflexivity.
Qed.

Lemma inside_parity : forall vs p, point_inside vs p = parity p (edges vs).
Proof.
  intros [|v vs] p; [reflexivity|]. unfold point_inside. rewrite inside_loop_parity, xorb_false_l.
  cbn [closed]. rewrite last_last. cbn [app].
  change (steps (v :: v :: vs ++ [v])) with ((v, v) :: steps (v :: vs ++ [v])).
  change (parity p ((v, v) :: steps (v :: vs ++ [v]))) with (xorb (crosses p v v) (parity p (steps (v :: vs ++ [v])))).
  rewrite crosses_self, xorb_false_l. reflexivity.
Qed.

(** A point is inside if the ray to its right meets an odd number of edges. *)
Theorem C58_even_odd : forall vs p, exists bs,
  Forall2 (fun e b => b = true <-> ray_meets p (fst e) (snd e)) (edges vs) bs /\
  point_inside vs p = fold_right xorb false bs.
Proof.
  intros vs p. exists (map (fun e => crosses p (fst e) (snd e)) (edges vs)). split.
  - induction (edges vs) as [|e l IH]; cbn [map]; constructor; [apply crosses_spec|exact IH].
  - rewrite inside_parity. induction (edges vs) as [|e l IH]; [reflexivity|]. cbn [map fold_right].
    change (parity p (e :: l)) with (xorb (crosses p (fst e) (snd e)) (parity p l)). rewrite IH. reflexivity.
Qed.
Print Assumptions C58_even_odd.

Lemma steps_app : forall l a l', steps (l ++ a :: l') = steps (l ++ [a]) ++ steps (a :: l').
Proof.
  induction l as [|x l IH]; intros a l'; [reflexivity|]. destruct l as [|y l]; [reflexivity|].
  change (steps ((x :: y :: l) ++ a :: l')) with ((x, y) :: steps ((y :: l) ++ a :: l')). rewrite IH. reflexivity.
Qed.

(** Cutting a contour along a chord: every point of the plane, also on the chord, is inside
    the whole exactly if it is inside one and only one of the two parts, so that grains with
    a common boundary leave no gap and do not overlap. *)
Theorem C58_cut : forall u l1 v l2 p,
  point_inside (u :: l1 ++ v :: l2) p = xorb (point_inside (u :: l1 ++ [v]) p) (point_inside (v :: l2 ++ [u]) p).
Proof.
  intros u l1 v l2 p. rewrite !inside_parity. unfold edges.
  assert (E0 : (u :: l1 ++ v :: l2) ++ [u] = (u :: l1) ++ v :: (l2 ++ [u])) by (cbn; rewrite <- app_assoc; reflexivity).
  assert (E1 : (u :: l1 ++ [v]) ++ [u] = (u :: l1) ++ v :: [u]) by (cbn; rewrite <- app_assoc; reflexivity).
  assert (E2 : (v :: l2 ++ [u]) ++ [v] = (v :: l2) ++ u :: [v]) by (cbn; rewrite <- app_assoc; reflexivity).
  rewrite E0, E1, E2, (steps_app (u :: l1) v (l2 ++ [u])), (steps_app (u :: l1) v [u]), (steps_app (v :: l2) u [v]), !parity_app.
  cbn [app].
  change (parity p (steps [v; u])) with (xorb (crosses p v u) false).
  change (parity p (steps [u; v])) with (xorb (crosses p u v) false).
  rewrite (crosses_sym p v u), !xorb_false_r.
  destruct (parity p (steps (u :: l1 ++ [v]))), (parity p (steps (v :: l2 ++ [u]))), (crosses p u v); reflexivity.
Qed.
Print Assumptions C58_cut.

Lemma steps_rev : forall l p, parity p (steps (rev l)) = parity p (steps l).
Proof.
  induction l as [|a l IH]; intros p; [reflexivity|]. destruct l as [|b l]; [reflexivity|].
  cbn [rev]. rewrite <- app_assoc. cbn [app]. rewrite (steps_app (rev l) b [a]), parity_app.
  change (steps [b; a]) with [(b, a)]. change (parity p [(b, a)]) with (xorb (crosses p b a) false).
  change (rev l ++ [b]) with (rev (b :: l)). rewrite IH.
  change (parity p (steps (a :: b :: l))) with (xorb (crosses p a b) (parity p (steps (b :: l)))).
  rewrite (crosses_sym p b a), xorb_false_r. apply xorb_comm.
Qed.

(** Neither the sense of the contour nor its first point matters. *)
Theorem C58_orientation : forall v vs p,
  point_inside (v :: rev vs) p = point_inside (v :: vs) p /\ point_inside (vs ++ [v]) p = point_inside (v :: vs) p.
Proof.
  intros v vs p. rewrite !inside_parity. split.
  - unfold edges. change ((v :: rev vs) ++ [v]) with (v :: rev vs ++ [v]).
    replace (v :: rev vs ++ [v]) with (rev ((v :: vs) ++ [v])).
    + apply steps_rev.
    + cbn [app rev]. rewrite rev_app_distr. reflexivity.
  - destruct vs as [|u vs]; [reflexivity|]. unfold edges. cbn [app].
    change (u :: (vs ++ [v]) ++ [u]) with ((u :: vs ++ [v]) ++ [u]).
    assert (E : (u :: vs ++ [v]) ++ [u] = (u :: vs) ++ v :: [u]) by (cbn; rewrite <- app_assoc; reflexivity).
    rewrite E, (steps_app (u :: vs) v [u]), parity_app.
    change (steps (v :: u :: vs ++ [v])) with ((v, u) :: steps ((u :: vs) ++ [v])).
    change (parity p ((v, u) :: steps ((u :: vs) ++ [v]))) with (xorb (crosses p v u) (parity p (steps ((u :: vs) ++ [v])))).
    change (parity p (steps [v; u])) with (xorb (crosses p v u) false). rewrite xorb_false_r. apply xorb_comm.
Qed.
Print Assumptions C58_orientation.

Lemma crosses_area : forall p a b,
  (snd a <= snd p < snd b -> (crosses p a b = true <-> 0 < area a b p)) /\
  (snd b <= snd p < snd a -> (crosses p a b = true <-> area a b p < 0)).
Proof.
  intros p a b. unfold crosses, above, area.
  set (x := (fst b - fst a) * (snd p - snd a) / (snd b - snd a) + fst a).
  split; intros H.
  - destruct (Rlt_dec (snd p) (snd a)); [lra|]. destruct (Rlt_dec (snd p) (snd b)); [|lra]. cbn [xorb andb].
    assert (E : (fst b - fst a) * (snd p - snd a) - (snd b - snd a) * (fst p - fst a) = (snd b - snd a) * (x - fst p)).
    { unfold x. field. lra. }
    rewrite E. clearbody x. destruct (Rlt_dec (fst p) x) as [L|L]; split; intros K; try reflexivity; try discriminate.
    + apply Rmult_lt_0_compat; lra.
    + exfalso. assert (0 <= (snd b - snd a) * (fst p - x)) by (apply Rmult_le_pos; lra). lra.
  - destruct (Rlt_dec (snd p) (snd a)); [|lra]. destruct (Rlt_dec (snd p) (snd b)); [lra|]. cbn [xorb andb].
    assert (E : (fst b - fst a) * (snd p - snd a) - (snd b - snd a) * (fst p - fst a) = (snd b - snd a) * (x - fst p)).
    { unfold x. field. lra. }
    rewrite E. clearbody x. destruct (Rlt_dec (fst p) x) as [L|L]; split; intros K; try reflexivity; try discriminate.
    + assert (0 < (snd a - snd b) * (x - fst p)) by (apply Rmult_lt_0_compat; lra). lra.
    + exfalso. assert (0 <= (snd a - snd b) * (fst p - x)) by (apply Rmult_le_pos; lra). lra.
Qed.

Lemma no_cross : forall p u v, above u p = above v p -> crosses p u v = false.
Proof. intros p u v E. unfold crosses. rewrite E, xorb_nilpotent. reflexivity. Qed.
Lemma above_true : forall u p, snd p < snd u -> above u p = true.
Proof. intros u p H. unfold above. destruct (Rlt_dec (snd p) (snd u)); [reflexivity|contradiction]. Qed.
Lemma above_false : forall u p, snd u <= snd p -> above u p = false.
Proof. intros u p H. unfold above. destruct (Rlt_dec (snd p) (snd u)); [lra|reflexivity]. Qed.

(** the meaning of [point_inside] for a triangle *)
Definition triangle_inside (a b c p : point) : Prop :=
  (0 < area a b p -> 0 < area b c p -> 0 < area c a p -> point_inside [a; b; c] p = true) /\
  (area a b p < 0 \/ area b c p < 0 \/ area c a p < 0 -> point_inside [a; b; c] p = false).

Lemma triangle_turn : forall a b c p, triangle_inside b c a p -> triangle_inside a b c p.
Proof.
  intros a b c p [H1 H2]. unfold triangle_inside.
  assert (E : point_inside [b; c; a] p = point_inside [a; b; c] p) by exact (proj2 (C58_orientation a [b; c] p)).
  rewrite <- E. split; [intros; apply H1; assumption|intros; apply H2; tauto].
Qed.

Lemma triangle_identity : forall a b c p,
  area b c p * (snd a - snd p) + area c a p * (snd b - snd p) + area a b p * (snd c - snd p) = 0 /\
  area b c p + area c a p + area a b p = area a b c.
Proof. intros. unfold area. split; ring. Qed.

Lemma triangle_parity : forall a b c p,
  point_inside [a; b; c] p = xorb (crosses p a b) (xorb (crosses p b c) (xorb (crosses p c a) false)).
Proof. intros. rewrite inside_parity. reflexivity. Qed.

Lemma triangle_low : forall a b c p, 0 < area a b c -> snd a <= snd p -> snd p < snd b -> snd p < snd c ->
  triangle_inside a b c p.
Proof.
  intros a b c p HS Ha Hb Hc. unfold triangle_inside. rewrite triangle_parity.
  rewrite (no_cross p b c) by (rewrite !above_true by assumption; reflexivity).
  destruct (triangle_identity a b c p) as [I T].
  destruct (crosses_area p a b) as [U _]. specialize (U (conj Ha Hb)).
  destruct (crosses_area p c a) as [_ D]. specialize (D (conj Ha Hc)).
  set (A := area a b p) in *. set (B := area b c p) in *. set (C := area c a p) in *. clearbody A B C.
  split.
  - intros PA PB PC. destruct (crosses p a b); [|assert (false = true) by (apply U; exact PA); discriminate].
    destruct (crosses p c a); [|reflexivity]. assert (C < 0) by (apply D; reflexivity). lra.
  - intros PO. destruct (crosses p a b) eqn:E1; destruct (crosses p c a) eqn:E2; try reflexivity; exfalso.
    + assert (PA : 0 < A) by (apply U; reflexivity).
      assert (PC : 0 <= C) by (destruct (Rlt_dec C 0) as [K|K]; [apply D in K; discriminate|lra]).
      assert (PB : B < 0) by lra.
      assert (0 < A * (snd c - snd p)) by (apply Rmult_lt_0_compat; lra).
      assert (0 <= C * (snd b - snd p)) by (apply Rmult_le_pos; lra).
      assert (0 <= (- B) * (snd p - snd a)) by (apply Rmult_le_pos; lra). lra.
    + assert (PC : C < 0) by (apply D; reflexivity).
      assert (PA : A <= 0) by (destruct (Rlt_dec 0 A) as [K|K]; [apply U in K; discriminate|lra]).
      assert (PB : 0 < B) by lra.
      assert (0 < (- C) * (snd b - snd p)) by (apply Rmult_lt_0_compat; lra).
      assert (0 <= (- A) * (snd c - snd p)) by (apply Rmult_le_pos; lra).
      assert (0 <= B * (snd p - snd a)) by (apply Rmult_le_pos; lra). lra.
Qed.

Lemma triangle_high : forall a b c p, 0 < area a b c -> snd p < snd a -> snd b <= snd p -> snd c <= snd p ->
  triangle_inside a b c p.
Proof.
  intros a b c p HS Ha Hb Hc. unfold triangle_inside. rewrite triangle_parity.
  rewrite (no_cross p b c) by (rewrite !above_false by assumption; reflexivity).
  destruct (triangle_identity a b c p) as [I T].
  destruct (crosses_area p a b) as [_ D]. specialize (D (conj Hb Ha)).
  destruct (crosses_area p c a) as [U _]. specialize (U (conj Hc Ha)).
  set (A := area a b p) in *. set (B := area b c p) in *. set (C := area c a p) in *. clearbody A B C.
  split.
  - intros PA PB PC. destruct (crosses p c a); [|assert (false = true) by (apply U; exact PC); discriminate].
    destruct (crosses p a b); [|reflexivity]. assert (A < 0) by (apply D; reflexivity). lra.
  - intros PO. destruct (crosses p a b) eqn:E1; destruct (crosses p c a) eqn:E2; try reflexivity; exfalso.
    + assert (PA : A < 0) by (apply D; reflexivity).
      assert (PC : C <= 0) by (destruct (Rlt_dec 0 C) as [K|K]; [apply U in K; discriminate|lra]).
      assert (PB : 0 < B) by lra.
      assert (0 < B * (snd a - snd p)) by (apply Rmult_lt_0_compat; lra).
      assert (0 <= (- C) * (snd p - snd b)) by (apply Rmult_le_pos; lra).
      assert (0 <= (- A) * (snd p - snd c)) by (apply Rmult_le_pos; lra). lra.
    + assert (PC : 0 < C) by (apply U; reflexivity).
      assert (PA : 0 <= A) by (destruct (Rlt_dec A 0) as [K|K]; [apply D in K; discriminate|lra]).
      assert (PB : B < 0) by lra.
      assert (0 <= C * (snd p - snd b)) by (apply Rmult_le_pos; lra).
      assert (0 <= A * (snd p - snd c)) by (apply Rmult_le_pos; lra).
      assert (0 < (- B) * (snd a - snd p)) by (apply Rmult_lt_0_compat; lra). lra.
Qed.

(** For a triangle this is the inside: strictly within is inside, strictly beyond an edge is
    not.  (Counterclockwise; the other sense by [C58_orientation].) *)
Theorem C58_triangle : forall a b c p, 0 < area a b c ->
  (0 < area a b p -> 0 < area b c p -> 0 < area c a p -> point_inside [a; b; c] p = true) /\
  (area a b p < 0 \/ area b c p < 0 \/ area c a p < 0 -> point_inside [a; b; c] p = false).
Proof.
  intros a b c p HS. change (triangle_inside a b c p).
  assert (HS1 : 0 < area b c a) by (unfold area in *; lra). assert (HS2 : 0 < area c a b) by (unfold area in *; lra).
  destruct (triangle_identity a b c p) as [I T].
  destruct (Rlt_dec (snd p) (snd a)) as [Ha|Ha]; destruct (Rlt_dec (snd p) (snd b)) as [Hb|Hb];
    destruct (Rlt_dec (snd p) (snd c)) as [Hc|Hc].
  - unfold triangle_inside. rewrite triangle_parity, !no_cross by (rewrite !above_true by assumption; reflexivity).
    split; [|reflexivity]. intros PA PB PC. exfalso.
    assert (0 < area b c p * (snd a - snd p)) by (apply Rmult_lt_0_compat; lra).
    assert (0 < area c a p * (snd b - snd p)) by (apply Rmult_lt_0_compat; lra).
    assert (0 < area a b p * (snd c - snd p)) by (apply Rmult_lt_0_compat; lra). lra.
  - apply triangle_turn, triangle_turn, triangle_low; lra.
  - apply triangle_turn, triangle_low; lra.
  - apply triangle_high; lra.
  - apply triangle_low; lra.
  - apply triangle_turn, triangle_high; lra.
  - apply triangle_turn, triangle_turn, triangle_high; lra.
  - unfold triangle_inside. rewrite triangle_parity, !no_cross by (rewrite !above_false by lra; reflexivity).
    split; [|reflexivity]. intros PA PB PC. exfalso.
    assert (L : forall x y, 0 < x -> 0 <= y -> 0 <= x * y) by (intros; apply Rmult_le_pos; lra).
    pose proof (L _ (snd p - snd a) PB ltac:(lra)). pose proof (L _ (snd p - snd b) PC ltac:(lra)).
    pose proof (L _ (snd p - snd c) PA ltac:(lra)).
    assert (Z : forall x y, 0 < x -> x * (snd p - y) = 0 -> y = snd p).
    { intros x y Hx E. apply Rmult_integral in E. lra. }
    assert (snd a = snd p) by (apply (Z (area b c p)); lra).
    assert (snd b = snd p) by (apply (Z (area c a p)); lra).
    assert (snd c = snd p) by (apply (Z (area a b p)); lra).
    assert (E : area a b c = 0) by (unfold area; replace (snd c) with (snd a) by lra; replace (snd b) with (snd a) by lra; ring).
    lra.
Qed.
Print Assumptions C58_triangle.

(** Any contour is the sum of the triangles from its first point to its edges. *)
Theorem C58_fan : forall u l p,
  point_inside (u :: l) p = fold_right (fun e b => xorb (point_inside [u; fst e; snd e] p) b) false (steps l).
Proof.
  intros u l p. induction l as [|a l IH]; [rewrite inside_parity; cbn; rewrite crosses_self; reflexivity|].
  destruct l as [|b l].
  - rewrite inside_parity. cbn. rewrite (crosses_sym p a u). destruct (crosses p u a); reflexivity.
  - change (steps (a :: b :: l)) with ((a, b) :: steps (b :: l)). cbn [fold_right fst snd]. rewrite <- IH.
    change (point_inside (u :: a :: b :: l) p) with (point_inside (u :: [a] ++ b :: l) p). rewrite (C58_cut u [a] b l p).
    cbn [app]. f_equal. exact (proj2 (C58_orientation u (b :: l) p)).
Qed.
Print Assumptions C58_fan.

(** ** Bounding boxes *)

Lemma steps_in : forall l a b, In (a, b) (steps l) -> In a l /\ In b l.
Proof.
  induction l as [|x l IH]; intros a b H; [destruct H|]. destruct l as [|y l]; [destruct H|].
  change (In (a, b) ((x, y) :: steps (y :: l))) in H. destruct H as [H|H].
  - injection H as <- <-. split; [left; reflexivity|right; left; reflexivity].
  - destruct (IH a b H) as [H1 H2]. split; right; assumption.
Qed.

Lemma edges_in : forall vs a b, In (a, b) (edges vs) -> In a vs /\ In b vs.
Proof.
  intros [|v vs] a b H; [destruct H|]. unfold edges in H. apply steps_in in H.
  assert (K : forall x, In x ((v :: vs) ++ [v]) -> In x (v :: vs)).
  { intros x Hx. apply in_app_or in Hx. destruct Hx as [Hx|[<-|[]]]; [exact Hx|left; reflexivity]. }
  destruct H as [H1 H2]. split; apply K; assumption.
Qed.

Lemma between_bounds : forall (f : point -> R) a b t m, (f = fst \/ f = snd) -> 0 <= t <= 1 ->
  (m <= f a -> m <= f b -> m <= f (between a b t)) /\ (f a <= m -> f b <= m -> f (between a b t) <= m).
Proof.
  intros f a b t m Hf Ht.
  assert (E : f (between a b t) = (1 - t) * f a + t * f b).
  { destruct Hf as [-> | -> ]; unfold between; cbn [fst snd]; ring. }
  rewrite E. split; intros H1 H2.
  - assert (0 <= (1 - t) * (f a - m)) by (apply Rmult_le_pos; lra).
    assert (0 <= t * (f b - m)) by (apply Rmult_le_pos; lra). lra.
  - assert (0 <= (1 - t) * (m - f a)) by (apply Rmult_le_pos; lra).
    assert (0 <= t * (m - f b)) by (apply Rmult_le_pos; lra). lra.
Qed.

Lemma parity_none : forall p es, (forall a b, In (a, b) es -> crosses p a b = false) -> parity p es = false.
Proof.
  intros p es. induction es as [|[a b] es IH]; intros H; [reflexivity|].
  change (parity p ((a, b) :: es)) with (xorb (crosses p a b) (parity p es)).
  rewrite (H a b) by (left; reflexivity). rewrite IH; [reflexivity|]. intros a' b' K. apply H. right. exact K.
Qed.

Lemma parity_telescope : forall p l a, (forall u v, In (u, v) (steps (a :: l)) -> crosses p u v = xorb (above u p) (above v p)) ->
  parity p (steps (a :: l)) = xorb (above a p) (above (last l a) p).
Proof.
  intros p l. induction l as [|b l IH]; intros a H.
  - cbn [last]. rewrite xorb_nilpotent. reflexivity.
  - change (steps (a :: b :: l)) with ((a, b) :: steps (b :: l)) in *.
    change (parity p ((a, b) :: steps (b :: l))) with (xorb (crosses p a b) (parity p (steps (b :: l)))).
    rewrite (H a b) by (left; reflexivity). rewrite IH by (intros u v K; apply H; right; exact K).
    assert (E : last (b :: l) a = last l b).
    { clear. revert b. induction l as [|c l IH]; intros b; [reflexivity|]. cbn [last] in *. destruct l; [reflexivity|]. apply IH. }
    rewrite E. destruct (above a p), (above b p), (above (last l b) p); reflexivity.
Qed.

Lemma inside_bounds : forall vs p m, point_inside vs p = true ->
  ((forall u, In u vs -> m <= fst u) -> m <= fst p) /\ ((forall u, In u vs -> fst u <= m) -> fst p <= m) /\
  ((forall u, In u vs -> m <= snd u) -> m <= snd p) /\ ((forall u, In u vs -> snd u <= m) -> snd p <= m).
Proof.
  intros vs p m HI. rewrite inside_parity in HI.
  assert (K : forall P : Prop, (~ P -> parity p (edges vs) = false) -> P \/ ~ P -> P).
  { intros P H [HP|HP]; [exact HP|]. rewrite H in HI by exact HP. discriminate. }
  repeat apply conj; intros H; apply K; try (destruct (Rle_dec m (fst p)); tauto);
    try (destruct (Rle_dec (fst p) m); tauto); try (destruct (Rle_dec m (snd p)); tauto);
    try (destruct (Rle_dec (snd p) m); tauto); intros N; clear K.
  - destruct vs as [|v vs]; [reflexivity|]. unfold edges. change ((v :: vs) ++ [v]) with (v :: (vs ++ [v])).
    rewrite parity_telescope; [rewrite last_last; apply xorb_nilpotent|].
    intros a b Hab. change (In (a, b) (edges (v :: vs))) in Hab. destruct (edges_in _ _ _ Hab) as [Ia Ib].
    apply eq_true_iff_eq. rewrite crosses_spec. split.
    + intros [R _]. unfold above. destruct (Rlt_dec (snd p) (snd a)), (Rlt_dec (snd p) (snd b)); try reflexivity; lra.
    + intros X. assert (R : snd a <= snd p < snd b \/ snd b <= snd p < snd a).
      { unfold above in X. destruct (Rlt_dec (snd p) (snd a)), (Rlt_dec (snd p) (snd b)); try discriminate; [right|left]; lra. }
      assert (T : exists t, 0 <= t <= 1 /\ snd (between a b t) = snd p).
      { exists ((snd p - snd a) / (snd b - snd a)). assert (D : snd b - snd a <> 0) by lra. split.
        - assert (E : (snd p - snd a) / (snd b - snd a) * (snd b - snd a) = snd p - snd a) by (field; exact D).
          set (t := (snd p - snd a) / (snd b - snd a)) in *. clearbody t.
          destruct (Rle_dec 0 t); destruct (Rle_dec t 1); [lra| | |]; exfalso; destruct R; nra.
        - unfold between. cbn [snd]. field. exact D. }
      destruct T as [t [Ht Et]]. split; [exact R|]. exists t. split; [exact Ht|]. split; [exact Et|].
      destruct (between_bounds fst a b t m (or_introl eq_refl) Ht) as [B _]. specialize (B (H a Ia) (H b Ib)). lra.
  - apply parity_none. intros a b Hab. destruct (edges_in _ _ _ Hab) as [Ia Ib].
    destruct (crosses p a b) eqn:E; [|reflexivity]. apply crosses_spec in E. destruct E as [_ [t [Ht [_ L]]]].
    destruct (between_bounds fst a b t m (or_introl eq_refl) Ht) as [_ B]. specialize (B (H a Ia) (H b Ib)). lra.
  - apply parity_none. intros a b Hab. destruct (edges_in _ _ _ Hab) as [Ia Ib].
    specialize (H a Ia) as H1. specialize (H b Ib) as H2. apply no_cross. rewrite !above_true by lra. reflexivity.
  - apply parity_none. intros a b Hab. destruct (edges_in _ _ _ Hab) as [Ia Ib].
    specialize (H a Ia) as H1. specialize (H b Ib) as H2. apply no_cross. rewrite !above_false by lra. reflexivity.
Qed.

Lemma fold_low : forall (f : point -> R) r x, (forall u, In u r -> fold_left (fun m u => Rmin m (f u)) r x <= f u) /\
  fold_left (fun m u => Rmin m (f u)) r x <= x.
Proof.
  intros f r. induction r as [|v r IH]; intros x; cbn [fold_left]; [split; [intros u []|lra]|].
  destruct (IH (Rmin x (f v))) as [H1 H2]. pose proof (Rmin_l x (f v)). pose proof (Rmin_r x (f v)).
  split; [|lra]. intros u [<-|Hu]; [lra|exact (H1 u Hu)].
Qed.
Lemma fold_high : forall (f : point -> R) r x, (forall u, In u r -> f u <= fold_left (fun m u => Rmax m (f u)) r x) /\
  x <= fold_left (fun m u => Rmax m (f u)) r x.
Proof.
  intros f r. induction r as [|v r IH]; intros x; cbn [fold_left]; [split; [intros u []|lra]|].
  destruct (IH (Rmax x (f v))) as [H1 H2]. pose proof (Rmax_l x (f v)). pose proof (Rmax_r x (f v)).
  split; [|lra]. intros u [<-|Hu]; [lra|exact (H1 u Hu)].
Qed.

Lemma extension_pos : forall dir w, 0 <= w -> 0 <= extension dir w.
Proof. intros [ | | ] w H; cbn [extension]; lra. Qed.

(** Looking at the box first does not change whether a point is inside. *)
Theorem C58_box : forall dir w vs p, 0 <= w -> point_inside vs p = true -> point_inside_box dir w vs p = true.
Proof.
  intros dir w [|v r] p Hw HI; [discriminate HI|]. pose proof (extension_pos dir w Hw) as He. unfold point_inside_box.
  assert (L : forall f u, In u (v :: r) -> fold_left (fun m u => Rmin m (f u)) r (f v) <= f u).
  { intros f u [<-|Hu]; destruct (fold_low f r (f v)) as [H1 H2]; [exact H2|exact (H1 u Hu)]. }
  assert (G : forall f u, In u (v :: r) -> f u <= fold_left (fun m u => Rmax m (f u)) r (f v)).
  { intros f u [<-|Hu]; destruct (fold_high f r (f v)) as [H1 H2]; [exact H2|exact (H1 u Hu)]. }
  pose proof (proj1 (inside_bounds _ _ _ HI) (L fst)) as B1.
  pose proof (proj1 (proj2 (inside_bounds _ _ _ HI)) (G fst)) as B2.
  pose proof (proj1 (proj2 (proj2 (inside_bounds _ _ _ HI))) (L snd)) as B3.
  pose proof (proj2 (proj2 (proj2 (inside_bounds _ _ _ HI))) (G snd)) as B4.
  cbv zeta. cbn beta.
  repeat match goal with |- context [Rle_dec ?a ?b] => destruct (Rle_dec a b); [|lra] end. reflexivity.
Qed.
Print Assumptions C58_box.

(** ** Values of an order parameter *)

Lemma euclid_coord : forall a b, Rabs (fst a - fst b) <= euclid a b /\ Rabs (snd a - snd b) <= euclid a b.
Proof.
  intros a b. unfold euclid. rewrite <- !sqrt_Rsqr_abs. unfold Rsqr.
  pose proof (Rle_0_sqr (fst a - fst b)) as H1. pose proof (Rle_0_sqr (snd a - snd b)) as H2. unfold Rsqr in *.
  split; apply sqrt_le_1_alt; cbn [pow]; lra.
Qed.

(** The contours of a grain. *)
Definition on_grain (g : grain) (x : point) : Prop := exists s, In s g /\ on_contour s x.
Definition proper_grain (g : grain) : Prop := g <> [] /\ forall s, In s g -> s <> [] /\ proper s.
Definition is_distance (g : grain) (p : point) (d : R) : Prop :=
  (forall x, on_grain g x -> d <= euclid p x) /\ (exists x, on_grain g x /\ d = euclid p x).

Lemma contour_bounds : forall s x m, on_contour s x ->
  ((forall u, In u s -> m <= fst u) -> m <= fst x) /\ ((forall u, In u s -> fst u <= m) -> fst x <= m) /\
  ((forall u, In u s -> m <= snd u) -> m <= snd x) /\ ((forall u, In u s -> snd u <= m) -> snd x <= m).
Proof.
  intros s x m [a [b [t [Hab [Ht ->]]]]]. destruct (edges_in _ _ _ Hab) as [Ia Ib].
  destruct (between_bounds fst a b t m (or_introl eq_refl) Ht) as [B1 B2].
  destruct (between_bounds snd a b t m (or_intror eq_refl) Ht) as [B3 B4].
  split; [intros H; apply B1; apply H; assumption|]. split; [intros H; apply B2; apply H; assumption|].
  split; intros H; [apply B3|apply B4]; apply H; assumption.
Qed.

(** A point without the extended box is at least as far from the contour as the box is
    extended. *)
Lemma box_far : forall dir w s p x, on_contour s x -> point_inside_box dir w s p = false -> extension dir w <= euclid p x.
Proof.
  intros dir w [|v r] p x Hx HB; [destruct Hx as [a [b [t [[] _]]]]|]. unfold point_inside_box in HB.
  assert (L : forall f u, In u (v :: r) -> fold_left (fun m u => Rmin m (f u)) r (f v) <= f u).
  { intros f u [<-|Hu]; destruct (fold_low f r (f v)) as [H1 H2]; [exact H2|exact (H1 u Hu)]. }
  assert (G : forall f u, In u (v :: r) -> f u <= fold_left (fun m u => Rmax m (f u)) r (f v)).
  { intros f u [<-|Hu]; destruct (fold_high f r (f v)) as [H1 H2]; [exact H2|exact (H1 u Hu)]. }
  pose proof (proj1 (contour_bounds _ _ _ Hx) (L fst)) as B1.
  pose proof (proj1 (proj2 (contour_bounds _ _ _ Hx)) (G fst)) as B2.
  pose proof (proj1 (proj2 (proj2 (contour_bounds _ _ _ Hx))) (L snd)) as B3.
  pose proof (proj2 (proj2 (proj2 (contour_bounds _ _ _ Hx))) (G snd)) as B4.
  destruct (euclid_coord p x) as [E1 E2].
  pose proof (Rle_abs (fst p - fst x)). pose proof (Rle_abs (snd p - snd x)).
  pose proof (Rle_abs (- (fst p - fst x))) as A1. rewrite Rabs_Ropp in A1.
  pose proof (Rle_abs (- (snd p - snd x))) as A2. rewrite Rabs_Ropp in A2.
  cbv zeta beta in HB.
  repeat match type of HB with context [Rle_dec ?a ?b] => destruct (Rle_dec a b); [|lra] end. discriminate.
Qed.

Lemma contour_exists : forall s, s <> [] -> exists x, on_contour s x.
Proof.
  intros [|v s] H; [contradiction|]. destruct s as [|u s].
  - exists v, v, v, 0. split; [left; reflexivity|]. split; [lra|]. symmetry. apply between_0.
  - exists v, v, u, 0. split; [left; reflexivity|]. split; [lra|]. symmetry. apply between_0.
Qed.

(** The distance to a grain is the distance to the nearest point of its contours. *)
Theorem C58_nearest : forall huge g p, proper_grain g -> (forall x, on_grain g x -> euclid p x < huge) ->
  exists d, nearest huge g p = Some d /\ is_distance g p d.
Proof.
  intros huge g p [Hne Hg] Hh. unfold nearest.
  assert (S : forall s, In s g -> exists d, distance huge s p = Some d /\
    (forall x, on_contour s x -> d <= euclid p x) /\ (exists x, on_contour s x /\ d = euclid p x)).
  { intros s Hs. destruct (Hg s Hs) as [H1 H2]. apply C58_distance; [exact H1|exact H2|].
    destruct (contour_exists s H1) as [x Hx]. exists x. split; [exact Hx|]. apply Hh. exists s. split; assumption. }
  clear Hg Hh. destruct g as [|s g]; [contradiction|]. clear Hne. cbn [map].
  destruct (S s (or_introl eq_refl)) as [d [-> [D1 [x0 [D2 D3]]]]].
  assert (K : is_distance [s] p d).
  { split.
    - intros x [s' [[<-|[]] Hx]]. exact (D1 x Hx).
    - exists x0. split; [|exact D3]. exists s. split; [left; reflexivity|exact D2]. }
  clear D1 x0 D2 D3.
  assert (P : forall g done d, is_distance done p d -> (forall s, In s g -> exists d, distance huge s p = Some d /\
    (forall x, on_contour s x -> d <= euclid p x) /\ (exists x, on_contour s x /\ d = euclid p x)) ->
    exists d', fold_left (fun m d => match d, m with Some x, Some y => if Rlt_dec x y then d else m | _, _ => m end)
      (map (fun s => distance huge s p) g) (Some d) = Some d' /\ is_distance (done ++ g) p d').
  { clear. induction g as [|s g IH]; intros done d K S.
    - exists d. rewrite app_nil_r. split; [reflexivity|exact K].
    - cbn [map fold_left]. destruct (S s (or_introl eq_refl)) as [e [-> [D1 [x0 [D2 D3]]]]].
      replace (done ++ s :: g) with ((done ++ [s]) ++ g) by (rewrite <- app_assoc; reflexivity).
      destruct K as [K1 [x1 [K2 K3]]].
      assert (W : forall x, on_grain (done ++ [s]) x -> on_grain done x \/ on_contour s x).
      { intros x [s' [Hs' Hx]]. apply in_app_or in Hs'. destruct Hs' as [Hs'|[<-|[]]]; [left; exists s'; split; assumption|right; exact Hx]. }
      destruct (Rlt_dec e d) as [C|C].
      + apply IH; [|intros s' Hs'; apply S; right; exact Hs']. split.
        * intros x Hx. destruct (W x Hx) as [Hx'|Hx']; [specialize (K1 x Hx'); lra|exact (D1 x Hx')].
        * exists x0. split; [|exact D3]. exists s. split; [apply in_or_app; right; left; reflexivity|exact D2].
      + apply IH; [|intros s' Hs'; apply S; right; exact Hs']. split.
        * intros x Hx. destruct (W x Hx) as [Hx'|Hx']; [exact (K1 x Hx')|specialize (D1 x Hx'); lra].
        * exists x1. split; [|exact K3]. destruct K2 as [s' [Hs' Hx]]. exists s'. split; [apply in_or_app; left; exact Hs'|exact Hx]. }
  exact (P g [s] d K (fun s' Hs' => S s' (or_intror Hs'))).
Qed.
Print Assumptions C58_nearest.

Lemma grain_inside_box : forall dir w g p, 0 <= w -> grain_inside dir w g p = existsb (fun s => point_inside s p) g.
Proof.
  intros dir w g p Hw. unfold grain_inside. induction g as [|s g IH]; [reflexivity|]. cbn [existsb]. rewrite IH. f_equal.
  destruct (point_inside s p) eqn:E; [rewrite (C58_box dir w s p Hw E); reflexivity|apply andb_false_r].
Qed.

Lemma far_grain : forall dir w g p d, is_distance g p d -> grain_in_box dir w g p = false -> extension dir w <= d.
Proof.
  intros dir w g p d [_ [x [[s [Hs Hx]] ->]]] HB. apply (box_far dir w s p x Hx).
  unfold grain_in_box in HB. destruct (point_inside_box dir w s p) eqn:E; [|reflexivity].
  assert (T : existsb (fun s => point_inside_box dir w s p) g = true) by (apply existsb_exists; exists s; split; assumption).
  rewrite T in HB. discriminate.
Qed.

Lemma far_inside : forall dir w g p, grain_in_box dir w g p = false -> grain_inside dir w g p = false.
Proof.
  intros dir w g p. unfold grain_in_box, grain_inside. induction g as [|s g IH]; intros H; [reflexivity|].
  cbn [existsb] in *. apply orb_false_iff in H. destruct H as [H1 H2]. rewrite H1, (IH H2). reflexivity.
Qed.

(** Leaving out the grains whose box does not contain the point changes nothing, neither in
    the interior nor in the interface. *)
Theorem C58_box_filter : forall huge dir w grains p, 0 <= w ->
  (forall g, In g grains -> proper_grain g /\ forall x, on_grain g x -> euclid p x < huge) ->
  op_value huge dir w grains p =
  candidate_loop w dir (map (fun g => (existsb (fun s => point_inside s p) g, nearest huge g p)) grains) 0.
Proof.
  intros huge dir w grains p Hw Hg. unfold op_value.
  assert (P : forall v, 0 <= v ->
    candidate_loop w dir (map (candidate huge dir w p) (filter (fun g => grain_in_box dir w g p) grains)) v =
    candidate_loop w dir (map (fun g => (existsb (fun s => point_inside s p) g, nearest huge g p)) grains) v).
  2:{ apply P. lra. }
  induction grains as [|g grains IH]; intros v Hv; [reflexivity|].
  assert (IH' := fun v Hv => IH (fun g' H => Hg g' (or_intror H)) v Hv). clear IH.
  destruct (Hg g (or_introl eq_refl)) as [Hp Hh]. destruct (C58_nearest huge g p Hp Hh) as [d [En Hd]].
  cbn [filter map]. rewrite <- (grain_inside_box dir w g p Hw).
  destruct (grain_in_box dir w g p) eqn:EB.
  - cbn [map candidate_loop]. unfold candidate at 1. destruct (grain_inside dir w g p); [reflexivity|].
    destruct (Rlt_dec 0 w); [|apply IH'; exact Hv].
    destruct dir; try (apply IH'; exact Hv); apply IH'; apply Rle_trans with v; [exact Hv|apply Rmax_l|exact Hv|apply Rmax_l].
  - rewrite (far_inside _ _ _ _ EB), En. cbn [candidate_loop]. pose proof (far_grain dir w g p d Hd EB) as F.
    destruct (Rlt_dec 0 w); [|apply IH'; exact Hv].
    destruct dir; cbn [extension ref_h] in *; try (apply IH'; exact Hv).
    all: match goal with |- context [Rlt_dec ?x ?h] => destruct (Rlt_dec x h); [lra|] end;
      rewrite Rmax_left by exact Hv; apply IH'; exact Hv.
Qed.
Print Assumptions C58_box_filter.

(** What the value of one grain should be: a linear interface within, around or without the
    contour. *)
Definition profile (dir : direction) (w : R) (inside : bool) (d : R) : R :=
  match dir, inside with
  | Inside, true => Rmin 1 (d / w) | Inside, false => 0
  | Middle, true => Rmin 1 (1 / 2 + d / w) | Middle, false => Rmax 0 (1 / 2 - d / w)
  | Outside, true => 1 | Outside, false => Rmax 0 (1 - d / w)
  end.

Lemma profile_inside : forall dir w d, 0 < w -> 0 <= d ->
  match dir with
  | Outside => 1
  | _ => if Req_EM_T w 0 then 1 else if Rlt_dec d (ref_h dir w) then ref_b dir + ref_k dir * d / ref_h dir w else 1
  end = profile dir w true d.
Proof.
  intros dir w d Hw Hd. assert (E : d / w * w = d) by (field; lra).
  destruct dir; cbn [profile ref_h ref_b ref_k]; try reflexivity;
    (destruct (Req_EM_T w 0); [lra|]); match goal with |- context [Rlt_dec ?x ?h] => destruct (Rlt_dec x h) as [L|L] end.
  all: try (rewrite Rmin_left; [reflexivity|]); try (rewrite Rmin_right; [field; lra|]);
    apply Rmult_le_reg_r with w; lra.
Qed.

Lemma profile_outside : forall dir w d, 0 < w -> 0 <= d -> dir <> Inside ->
  (if Rlt_dec d (ref_h dir w) then ref_b dir - ref_k dir * d / ref_h dir w else 0) = profile dir w false d.
Proof.
  intros dir w d Hw Hd Hi. assert (E : d / w * w = d) by (field; lra).
  destruct dir; cbn [profile ref_h ref_b ref_k]; try contradiction;
    match goal with |- context [Rlt_dec ?x ?h] => destruct (Rlt_dec x h) as [L|L] end.
  all: try (rewrite Rmax_left; [reflexivity|]); try (rewrite Rmax_right; [field; lra|]);
    apply Rmult_le_reg_r with w; lra.
Qed.

Lemma euclid_pos : forall a b, 0 <= euclid a b.
Proof. intros. apply sqrt_pos. Qed.

(** Inside of exactly one grain its value counts, whatever the order of the grains; outside
    of all grains the largest one. *)
Theorem C58_value : forall huge dir w grains p (ds : list R), 0 < w ->
  (forall g, In g grains -> proper_grain g /\ forall x, on_grain g x -> euclid p x < huge) ->
  Forall2 (fun g d => is_distance g p d) grains ds ->
  let inside g := existsb (fun s => point_inside s p) g in
  (forall k g d, nth_error grains k = Some g -> nth_error ds k = Some d -> inside g = true ->
     (forall j g', nth_error grains j = Some g' -> inside g' = true -> j = k) ->
     op_value huge dir w grains p = profile dir w true d) /\
  ((forall g, In g grains -> inside g = false) ->
     op_value huge dir w grains p = fold_left Rmax (map (profile dir w false) ds) 0).
Proof.
  intros huge dir w grains p ds Hw Hg HF inside.
  rewrite (C58_box_filter huge dir w grains p ltac:(lra) Hg).
  change (map (fun g => (existsb (fun s => point_inside s p) g, nearest huge g p)) grains)
    with (map (fun g => (inside g, nearest huge g p)) grains).
  assert (U : forall g d d', is_distance g p d -> is_distance g p d' -> d = d').
  { intros g d d' [A1 [x [A2 A3]]] [B1 [y [B2 B3]]]. specialize (A1 y B2). specialize (B1 x A2). lra. }
  assert (N : forall g d, In g grains -> is_distance g p d -> nearest huge g p = Some d /\ 0 <= d).
  { intros g d Hi Hd. destruct (Hg g Hi) as [Hp Hh]. destruct (C58_nearest huge g p Hp Hh) as [d' [E Hd']].
    rewrite (U g d d' Hd Hd'). split; [exact E|]. destruct Hd' as [_ [x [_ ->]]]. apply euclid_pos. }
  clear Hg U.
  assert (P : forall v, 0 <= v ->
    (forall k g d, nth_error grains k = Some g -> nth_error ds k = Some d -> inside g = true ->
       (forall j g', nth_error grains j = Some g' -> inside g' = true -> j = k) ->
       candidate_loop w dir (map (fun g => (inside g, nearest huge g p)) grains) v = profile dir w true d) /\
    ((forall g, In g grains -> inside g = false) ->
       candidate_loop w dir (map (fun g => (inside g, nearest huge g p)) grains) v =
       fold_left Rmax (map (profile dir w false) ds) v)).
  2:{ exact (P 0 (Rle_refl 0)). }
  revert N. induction HF as [|g d grains ds Hd HF IH]; intros N v Hv.
  - split; [intros k g d E; destruct k; discriminate|reflexivity].
  - destruct (N g d (or_introl eq_refl) Hd) as [En Hpos].
    specialize (IH (fun g' d' Hi => N g' d' (or_intror Hi))).
    cbn [map candidate_loop fold_left]. rewrite En. destruct (Rlt_dec 0 w) as [W|W]; [|contradiction].
    assert (M : forall x, 0 <= Rmax v x) by (intros x; apply Rle_trans with v; [exact Hv|apply Rmax_l]).
    split.
    + intros k g0 d0 Eg Ed HI Hu. destruct (inside g) eqn:EI.
      * assert (k = 0%nat) by (symmetry; apply (Hu 0%nat g); [reflexivity|exact EI]). subst k.
        cbn in Ed. injection Ed as <-. apply profile_inside; assumption.
      * destruct k as [|k]; [cbn in Eg; injection Eg as <-; rewrite HI in EI; discriminate|].
        cbn [nth_error] in Eg, Ed.
        assert (Hu' : forall j g', nth_error grains j = Some g' -> inside g' = true -> j = k).
        { intros j g' Ej Ij. specialize (Hu (S j) g' Ej Ij). injection Hu as ->. reflexivity. }
        destruct dir; [exact (proj1 (IH v Hv) k g0 d0 Eg Ed HI Hu')| |];
          exact (proj1 (IH _ (M _)) k g0 d0 Eg Ed HI Hu').
    + intros HI. rewrite (HI g (or_introl eq_refl)).
      assert (HI' : forall g', In g' grains -> inside g' = false) by (intros g' H; apply HI; right; exact H).
      destruct dir.
      * cbn [profile]. rewrite Rmax_left by exact Hv. exact (proj2 (IH v Hv) HI').
      * rewrite <- (profile_outside Outside w d Hw Hpos) by discriminate. exact (proj2 (IH _ (M _)) HI').
      * rewrite <- (profile_outside Middle w d Hw Hpos) by discriminate. exact (proj2 (IH _ (M _)) HI').
Qed.
Print Assumptions C58_value.

(** ** Repeated points *)

Lemma distance_loop_app : forall p l a r m,
  distance_loop p (l ++ a :: r) m = distance_loop p (a :: r) (distance_loop p (l ++ [a]) m).
Proof.
  intros p l. induction l as [|x l IH]; intros a r m; [reflexivity|].
  destruct l as [|y l].
  - reflexivity.
  - change (distance_loop p ((x :: y :: l) ++ a :: r) m)
      with (distance_loop p ((y :: l) ++ a :: r) (std_min (edge_distance p x y) m)).
    rewrite IH. reflexivity.
Qed.

(** If a file repeats the first point at the end of the contour, the distance is never a
    number, and the grain gets no interface: only the values zero and one. *)
Theorem C58_repeated_end_refuted : forall huge w v vs p, 0 < w ->
  distance huge (v :: vs ++ [v]) p = None /\
  forall dir, op_value huge dir w [[v :: vs ++ [v]]] p = 0 \/ op_value huge dir w [[v :: vs ++ [v]]] p = 1.
Proof.
  intros huge w v vs p Hw.
  assert (E : distance huge (v :: vs ++ [v]) p = None).
  { unfold distance. cbn [closed].
    assert (A : (v :: vs ++ [v]) ++ [v] = (v :: vs) ++ v :: [v]) by (cbn; rewrite <- app_assoc; reflexivity).
    rewrite A, distance_loop_app. cbn [distance_loop]. unfold edge_distance.
    assert (Z : dist2 v v = 0) by (unfold dist2; ring). rewrite Z.
    destruct (Req_EM_T 0 0) as [_|K]; [reflexivity|exfalso; apply K; reflexivity]. }
  split; [exact E|]. intros dir. unfold op_value. cbn [filter].
  destruct (grain_in_box dir w [v :: vs ++ [v]] p); [|left; reflexivity].
  cbn [map]. unfold candidate, nearest. cbn [map fold_left]. rewrite E. cbn [candidate_loop].
  destruct (grain_inside dir w [v :: vs ++ [v]] p).
  - right. destruct dir; try reflexivity; destruct (Req_EM_T w 0); reflexivity.
  - left. destruct (Rlt_dec 0 w); [|contradiction]. destruct dir; try reflexivity; apply Rmax_left; lra.
Qed.
Print Assumptions C58_repeated_end_refuted.

(** A point given twice elsewhere hides all edges before it: here the point (2, 1) is at
    distance one from the bottom edge of the square, but the distance becomes two. *)
Definition square : list point := [(0, 0); (4, 0); (4, 4); (0, 4)].
Definition twice : list point := [(0, 0); (4, 0); (4, 4); (0, 4); (0, 4)].

Lemma edge_distance_some : forall p a b r d, dist2 a b <> 0 ->
  ((fst b - fst a) * (fst p - fst a) + (snd b - snd a) * (snd p - snd a)) = r * dist2 a b ->
  0 <= r <= 1 -> 0 <= d -> dist2 p a - r * r * dist2 a b = d * d -> edge_distance p a b = Some d.
Proof.
  intros p a b r d Hn Er Hr Hd Ed. unfold edge_distance. destruct (Req_EM_T (dist2 a b) 0); [contradiction|].
  rewrite Er. assert (E : r * dist2 a b / dist2 a b = r) by (field; exact Hn). rewrite E.
  destruct (Rlt_dec r 0); [lra|]. destruct (Rlt_dec 1 r); [lra|]. rewrite Ed. f_equal. apply sqrt_square. exact Hd.
Qed.

Theorem C58_repeated_point_refuted :
  distance 100 twice (2, 1) = Some 2 /\ on_contour twice (2, 0) /\ euclid (2, 1) (2, 0) = 1 /\
  distance 100 square (2, 1) = Some 1.
Proof.
  assert (D1 : edge_distance (2, 1) (0, 0) (4, 0) = Some 1)
    by (apply (edge_distance_some _ _ _ (1 / 2)); unfold dist2; cbn [fst snd]; lra).
  assert (D2 : edge_distance (2, 1) (4, 0) (4, 4) = Some 2)
    by (apply (edge_distance_some _ _ _ (1 / 4)); unfold dist2; cbn [fst snd]; lra).
  assert (D3 : edge_distance (2, 1) (4, 4) (0, 4) = Some 3)
    by (apply (edge_distance_some _ _ _ (1 / 2)); unfold dist2; cbn [fst snd]; lra).
  assert (D4 : edge_distance (2, 1) (0, 4) (0, 0) = Some 2)
    by (apply (edge_distance_some _ _ _ (3 / 4)); unfold dist2; cbn [fst snd]; lra).
  assert (D0 : edge_distance (2, 1) (0, 4) (0, 4) = None).
  { unfold edge_distance, dist2. cbn [fst snd]. destruct (Req_EM_T ((0 - 0) * (0 - 0) + (4 - 4) * (4 - 4)) 0); [reflexivity|lra]. }
  split; [|split; [|split]].
  - unfold distance, twice. cbn [closed app distance_loop]. rewrite D1, D2, D3, D0, D4. cbn [std_min].
    destruct (Rlt_dec 100 1); [lra|]. destruct (Rlt_dec 1 2); [|lra]. destruct (Rlt_dec 1 3); [|lra]. reflexivity.
  - exists (0, 0), (4, 0), (1 / 2). split; [left; reflexivity|]. split; [lra|]. unfold between. cbn [fst snd]. f_equal; lra.
  - unfold euclid. cbn [fst snd]. replace ((2 - 2) ^ 2 + (1 - 0) ^ 2) with (1 * 1) by ring. apply sqrt_square. lra.
  - unfold distance, square. cbn [closed app distance_loop]. rewrite D1, D2, D3, D4. cbn [std_min].
    destruct (Rlt_dec 100 1); [lra|]. destruct (Rlt_dec 1 2); [|lra]. destruct (Rlt_dec 1 3); [|lra].
    destruct (Rlt_dec 1 2); [|lra]. reflexivity.
Qed.
Print Assumptions C58_repeated_point_refuted.

(** ** Concrete cases *)

Example C58_square_proper : proper_grain [square] /\ (forall x, on_grain [square] x -> euclid (2, 1) x < 100).
Proof.
  assert (E : forall a b, In (a, b) (edges square) -> (a, b) = ((0, 0), (4, 0)) \/ (a, b) = ((4, 0), (4, 4)) \/
    (a, b) = ((4, 4), (0, 4)) \/ (a, b) = ((0, 4), (0, 0))).
  { intros a b H. cbn in H. intuition (subst; auto). }
  split.
  - split; [discriminate|]. intros s [<-|[]]. split; [discriminate|]. intros a b H Hab.
    destruct (E a b H) as [K|[K|[K|K]]]; injection K as -> ->; injection Hab; intros; lra.
  - intros x [s [[<-|[]] Hx]].
    pose proof (proj1 (contour_bounds _ _ 0 Hx) ltac:(intros u Hu; cbn in Hu; intuition (subst; cbn; lra))) as B1.
    pose proof (proj1 (proj2 (contour_bounds _ _ 4 Hx)) ltac:(intros u Hu; cbn in Hu; intuition (subst; cbn; lra))) as B2.
    pose proof (proj1 (proj2 (proj2 (contour_bounds _ _ 0 Hx))) ltac:(intros u Hu; cbn in Hu; intuition (subst; cbn; lra))) as B3.
    pose proof (proj2 (proj2 (proj2 (contour_bounds _ _ 4 Hx))) ltac:(intros u Hu; cbn in Hu; intuition (subst; cbn; lra))) as B4.
    unfold euclid. cbn [fst snd]. replace 100 with (sqrt (100 * 100)) by (apply sqrt_square; lra).
    apply sqrt_lt_1_alt. split.
    + pose proof (Rle_0_sqr (2 - fst x)). pose proof (Rle_0_sqr (1 - snd x)). unfold Rsqr in *. cbn [pow]. lra.
    + cbn [pow]. destruct x as [x y]. cbn [fst snd] in *.
      assert (0 <= x * (4 - x)) by (apply Rmult_le_pos; lra). assert (0 <= y * (4 - y)) by (apply Rmult_le_pos; lra). lra.
Qed.

Example C58_square_inside : point_inside square (2, 1) = true /\ point_inside square (5, 1) = false.
Proof.
  rewrite !inside_parity. unfold parity, edges, square, crosses, above. cbn [app steps fold_right fst snd].
  split; repeat match goal with |- context [Rlt_dec ?a ?b] => destruct (Rlt_dec a b); try lra; cbn [xorb andb] end; reflexivity.
Qed.

Example C58_square_value : op_value 100 Middle 4 [[square]] (2, 1) = 3 / 4.
Proof.
  destruct C58_square_proper as [P H]. destruct (C58_nearest 100 [square] (2, 1) P H) as [d [E D]].
  assert (Ed : d = 1).
  { unfold nearest in E. cbn [map fold_left] in E.
    rewrite (proj2 (proj2 (proj2 C58_repeated_point_refuted))) in E. injection E as <-. reflexivity. }
  subst d.
  destruct (C58_value 100 Middle 4 [[square]] (2, 1) [1] ltac:(lra)) as [V _].
  - intros g [<-|[]]. split; assumption.
  - constructor; [exact D|constructor].
  - rewrite (V 0%nat [square] 1 eq_refl eq_refl).
    + cbn [profile]. rewrite Rmin_right; lra.
    + cbn [existsb]. rewrite (proj1 C58_square_inside). reflexivity.
    + intros [|j] g' Ej _; [reflexivity|]. destruct j; discriminate.
Qed.

Example C58_triangle_case : point_inside [(0, 0); (4, 0); (0, 4)] (1, 1) = true /\ point_inside [(0, 0); (4, 0); (0, 4)] (3, 3) = false.
Proof.
  destruct (C58_triangle (0, 0) (4, 0) (0, 4) (1, 1)) as [T _]; [unfold area; cbn [fst snd]; lra|].
  destruct (C58_triangle (0, 0) (4, 0) (0, 4) (3, 3)) as [_ U]; [unfold area; cbn [fst snd]; lra|].
  split; [apply T|apply U; right; left]; unfold area; cbn [fst snd]; lra.
Qed.
