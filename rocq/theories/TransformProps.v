(** C108: moving, scaling, rotating and cutting packings. *)
From Coq Require Import Reals List Bool Lra Lia.
From Verif Require Import TransformModel.
Import ListNotations.
Local Open Scope R_scope.

Definition dist2 (p q : sphere) : R := (sx p - sx q) ^ 2 + (sy p - sy q) ^ 2 + (sz p - sz q) ^ 2.
Definition overlap (p q : sphere) : Prop := sqrt (dist2 p q) <= sr p + sr q.

Lemma rlt_true : forall a b, rlt a b = true <-> a < b.
Proof. intros a b. unfold rlt. destruct (Rlt_dec a b); split; intro; try discriminate; auto; contradiction. Qed.
Lemma pmin_le : forall a b, pmin a b <= a /\ pmin a b <= b /\ (pmin a b = a \/ pmin a b = b).
Proof. intros a b. unfold pmin, rlt. destruct (Rlt_dec b a); repeat split; auto; lra. Qed.
Lemma pmax_ge : forall a b, a <= pmax a b /\ b <= pmax a b /\ (pmax a b = a \/ pmax a b = b).
Proof. intros a b. unfold pmax, rlt. destruct (Rlt_dec a b); repeat split; auto; lra. Qed.

(** ** Limits *)
Definition is_limits (coord : sphere -> R) (l : list sphere) (lo hi : R) : Prop :=
  (forall p, In p l -> lo <= coord p - sr p /\ coord p + sr p <= hi) /\
  (exists p, In p l /\ coord p - sr p = lo) /\ (exists p, In p l /\ coord p + sr p = hi).

Lemma limits_fold : forall coord l lo hi,
  let r := fold_left (fun lim p => (pmin (coord p - sr p) (fst lim), pmax (coord p + sr p) (snd lim))) l (lo, hi) in
  fst r <= lo /\ hi <= snd r /\ (forall p, In p l -> fst r <= coord p - sr p /\ coord p + sr p <= snd r) /\
  (fst r = lo \/ exists p, In p l /\ coord p - sr p = fst r) /\ (snd r = hi \/ exists p, In p l /\ coord p + sr p = snd r).
Proof.
  intros coord. induction l as [|q l IH]; intros lo hi; cbn [fold_left].
  - cbn [fst snd]. split; [lra|]. split; [lra|]. split; [intros p []|auto].
  - cbn [fst snd]. destruct (pmin_le (coord q - sr q) lo) as (A1 & A2 & A3). destruct (pmax_ge (coord q + sr q) hi) as (B1 & B2 & B3).
    destruct (IH (pmin (coord q - sr q) lo) (pmax (coord q + sr q) hi)) as (C1 & C2 & C3 & C4 & C5). cbv zeta in *. split; [lra|]. split; [lra|]. split; [|split].
    + intros p [<-|Hp]; [lra|apply C3, Hp].
    + destruct C4 as [C4|(p & Hp & E)]; [|right; exists p; split; [right; exact Hp|exact E]]. destruct A3 as [A3|A3]; [right; exists q; split; [left; reflexivity|congruence]|left; congruence].
    + destruct C5 as [C5|(p & Hp & E)]; [|right; exists p; split; [right; exact Hp|exact E]]. destruct B3 as [B3|B3]; [right; exists q; split; [left; reflexivity|congruence]|left; congruence].
Qed.

(** The printed dimensions are the tight box of the packing if all coordinates are
    below the largest number. *)
Theorem C108_limits : forall coord smax l, l <> [] -> (forall p, In p l -> coord p - sr p < smax /\ - smax < coord p + sr p) ->
  is_limits coord l (fst (limits coord smax l)) (snd (limits coord smax l)).
Proof.
  intros coord smax l NE B. destruct (limits_fold coord l smax (- smax)) as (_ & _ & C3 & C4 & C5). cbv zeta in *. fold (limits coord smax l) in *. split; [exact C3|].
  assert (X : exists p, In p l) by (destruct l as [|p l]; [contradiction|exists p; left; reflexivity]). destruct X as (p & Hp). pose proof (B p Hp). pose proof (C3 p Hp).
  split; [destruct C4 as [C4|C4]; [lra|exact C4]|destruct C5 as [C5|C5]; [lra|exact C5]].
Qed.
Print Assumptions C108_limits.

Lemma is_limits_unique : forall coord l a b c d, is_limits coord l a b -> is_limits coord l c d -> a = c /\ b = d.
Proof.
  intros coord l a b c d (A & (p1 & P1 & E1) & (p2 & P2 & E2)) (B & (q1 & Q1 & F1) & (q2 & Q2 & F2)).
  pose proof (A q1 Q1). pose proof (A q2 Q2). pose proof (B p1 P1). pose proof (B p2 P2). lra.
Qed.

(** Centring moves the middle of the packing to its former lower limit, so it is
    centred at the origin in a direction exactly if it began at zero. *)
Theorem C108_centrify : forall smax l lox hix loy hiy loz hiz, l <> [] ->
  (forall p, In p l -> (sx p - sr p < smax /\ - smax < sx p + sr p) /\ (sy p - sr p < smax /\ - smax < sy p + sr p) /\ (sz p - sr p < smax /\ - smax < sz p + sr p)) ->
  is_limits sx l lox hix -> is_limits sy l loy hiy -> is_limits sz l loz hiz ->
  let l' := transform smax true None None None l in
  (exists lo hi, is_limits sx l' lo hi /\ (lo + hi) / 2 = lox) /\ (exists lo hi, is_limits sy l' lo hi /\ (lo + hi) / 2 = loy) /\
  (exists lo hi, is_limits sz l' lo hi /\ (lo + hi) / 2 = loz).
Proof.
  intros smax l lox hix loy hiy loz hiz NE B X Y Z. cbv zeta. unfold transform.
  assert (GX := C108_limits sx smax l NE (fun p Hp => proj1 (B p Hp))). assert (GY := C108_limits sy smax l NE (fun p Hp => proj1 (proj2 (B p Hp)))). assert (GZ := C108_limits sz smax l NE (fun p Hp => proj2 (proj2 (B p Hp)))).
  destruct (is_limits_unique _ _ _ _ _ _ X GX) as [-> -> ]. destruct (is_limits_unique _ _ _ _ _ _ Y GY) as [-> -> ]. destruct (is_limits_unique _ _ _ _ _ _ Z GZ) as [-> -> ]. clear X Y Z B.
  set (cx := center (limits sx smax l)). set (cy := center (limits sy smax l)). set (cz := center (limits sz smax l)).
  assert (G : forall coord c lim, coord = sx /\ c = cx \/ coord = sy /\ c = cy \/ coord = sz /\ c = cz -> is_limits coord l (fst lim) (snd lim) -> c = center lim ->
    exists lo hi, is_limits coord (map (shift (- cx) (- cy) (- cz)) l) lo hi /\ (lo + hi) / 2 = fst lim).
  { intros coord c lim W (L1 & (p1 & P1 & E1) & (p2 & P2 & E2)) C. exists (fst lim - c), (snd lim - c).
    assert (SH : forall p, coord (shift (- cx) (- cy) (- cz) p) = coord p - c /\ sr (shift (- cx) (- cy) (- cz) p) = sr p) by (intro p; destruct W as [[-> -> ]|[[-> -> ]|[-> -> ]]]; cbn; split; ring).
    split; [|rewrite C; unfold center; field]. split; [|split].
    - intros p Hp. apply in_map_iff in Hp. destruct Hp as (q & <- & Hq). destruct (SH q) as [-> -> ]. specialize (L1 q Hq). lra.
    - exists (shift (- cx) (- cy) (- cz) p1). split; [apply in_map, P1|]. destruct (SH p1) as [-> -> ]. lra.
    - exists (shift (- cx) (- cy) (- cz) p2). split; [apply in_map, P2|]. destruct (SH p2) as [-> -> ]. lra. }
  split; [|split]; [apply (G sx cx)|apply (G sy cy)|apply (G sz cz)]; auto.
Qed.
Print Assumptions C108_centrify.

(** So a packing that does not start at zero is not centred. *)
Theorem C108_centred_refuted : exists smax l lo hi, l <> [] /\ is_limits sx (transform smax true None None None l) lo hi /\ (lo + hi) / 2 <> 0.
Proof.
  set (l := [mkSphere 3 3 3 1; mkSphere 5 3 3 1]).
  assert (B : forall p, In p l -> (sx p - sr p < 100 /\ - 100 < sx p + sr p) /\ (sy p - sr p < 100 /\ - 100 < sy p + sr p) /\ (sz p - sr p < 100 /\ - 100 < sz p + sr p)).
  { intros p [<-|[<-|[]]]; cbn; lra. }
  assert (LX : is_limits sx l 2 6).
  { split; [intros p [<-|[<-|[]]]; cbn; lra|]. split; [exists (mkSphere 3 3 3 1)|exists (mkSphere 5 3 3 1)]; (split; [cbn; auto|cbn; ring]). }
  assert (LY : is_limits sy l 2 4). { split; [intros p [<-|[<-|[]]]; cbn; lra|]. split; exists (mkSphere 3 3 3 1); (split; [cbn; auto|cbn; ring]). }
  assert (LZ : is_limits sz l 2 4). { split; [intros p [<-|[<-|[]]]; cbn; lra|]. split; exists (mkSphere 3 3 3 1); (split; [cbn; auto|cbn; ring]). }
  destruct (C108_centrify 100 l 2 6 2 4 2 4 ltac:(discriminate) B LX LY LZ) as ((lo & hi & L & E) & _). exists 100, l, lo, hi. split; [discriminate|]. split; [exact L|]. rewrite E. lra.
Qed.
Print Assumptions C108_centred_refuted.

(** ** Rotation *)
Lemma sc : forall t, sin t * sin t = 1 - cos t * cos t.
Proof. intro t. pose proof (sin2_cos2 t) as H. unfold Rsqr in H. lra. Qed.

Lemma mat_mul_vec : forall a b v, mat_vec (mat_mul a b) v = mat_vec a (mat_vec b v).
Proof.
  intros [[[[a1 a2] a3] [[b1 b2] b3]] [[c1 c2] c3]] [[[[d1 d2] d3] [[e1 e2] e3]] [[f1 f2] f3]] [[x y] z]. unfold mat_mul, mat_vec, columns, dot. f_equal; [f_equal|]; ring.
Qed.
Definition isometry (m : matrix) : Prop := forall v w, dot (mat_vec m v) (mat_vec m w) = dot v w.
Lemma iso_x : forall d, isometry (Rx d).
Proof. intros d [[x y] z] [[u v] w]. unfold Rx, mat_vec, dot. set (t := radians d). pose proof (sc t) as H. set (s := sin t) in *. set (c := cos t) in *.
  replace ((1 * x + 0 * y + 0 * z) * (1 * u + 0 * v + 0 * w) + (0 * x + c * y + - s * z) * (0 * u + c * v + - s * w) + (0 * x + s * y + c * z) * (0 * u + s * v + c * w)) with (x * u + (c * c + s * s) * (y * v + z * w)) by ring. rewrite H. ring. Qed.
Lemma iso_y : forall d, isometry (Ry d).
Proof. intros d [[x y] z] [[u v] w]. unfold Ry, mat_vec, dot. set (t := radians d). pose proof (sc t) as H. set (s := sin t) in *. set (c := cos t) in *.
  replace ((c * x + 0 * y + s * z) * (c * u + 0 * v + s * w) + (0 * x + 1 * y + 0 * z) * (0 * u + 1 * v + 0 * w) + (- s * x + 0 * y + c * z) * (- s * u + 0 * v + c * w)) with (y * v + (c * c + s * s) * (x * u + z * w)) by ring. rewrite H. ring. Qed.
Lemma iso_z : forall d, isometry (Rz d).
Proof. intros d [[x y] z] [[u v] w]. unfold Rz, mat_vec, dot. set (t := radians d). pose proof (sc t) as H. set (s := sin t) in *. set (c := cos t) in *.
  replace ((c * x + - s * y + 0 * z) * (c * u + - s * v + 0 * w) + (s * x + c * y + 0 * z) * (s * u + c * v + 0 * w) + (0 * x + 0 * y + 1 * z) * (0 * u + 0 * v + 1 * w)) with (z * w + (c * c + s * s) * (x * u + y * v)) by ring. rewrite H. ring. Qed.

Lemma rotation_steps : forall a b c v, mat_vec (rotation (a, b, c)) v = mat_vec (Rz c) (mat_vec (Ry b) (mat_vec (Rx a) v)).
Proof. intros a b c v. unfold rotation. rewrite !mat_mul_vec. reflexivity. Qed.

Definition det (m : matrix) : R :=
  let '((a1, a2, a3), (b1, b2, b3), (c1, c2, c3)) := m in a1 * (b2 * c3 - b3 * c2) - a2 * (b1 * c3 - b3 * c1) + a3 * (b1 * c2 - b2 * c1).
Lemma det_mul : forall a b, det (mat_mul a b) = det a * det b.
Proof. intros [[[[a1 a2] a3] [[b1 b2] b3]] [[c1 c2] c3]] [[[[d1 d2] d3] [[e1 e2] e3]] [[f1 f2] f3]]. unfold mat_mul, det, columns, dot. ring. Qed.

(** The rotation keeps lengths, angles and orientation; it turns about the x-axis
    first, counter-clockwise. *)
Theorem C108_rotation : forall a b c, isometry (rotation (a, b, c)) /\ det (rotation (a, b, c)) = 1 /\
  (forall v, mat_vec (rotation (a, b, c)) v = mat_vec (rotation (0, 0, c)) (mat_vec (rotation (0, b, 0)) (mat_vec (rotation (a, 0, 0)) v))) /\
  mat_vec (rotation (90, 0, 0)) (0, 1, 0) = (0, 0, 1) /\ mat_vec (rotation (0, 90, 0)) (0, 0, 1) = (1, 0, 0) /\ mat_vec (rotation (0, 0, 90)) (1, 0, 0) = (0, 1, 0).
Proof.
  intros a b c.
  assert (R0 : radians 0 = 0) by (unfold radians; field). assert (R90 : radians 90 = PI / 2) by (unfold radians; field).
  assert (Z : forall f, f = Rx \/ f = Ry \/ f = Rz -> forall v, mat_vec (f 0) v = v).
  { intros f F [[x y] z]. destruct F as [-> |[-> | -> ]]; unfold Rx, Ry, Rz, mat_vec, dot; rewrite R0, sin_0, cos_0; f_equal; [f_equal|..]; try ring; f_equal; ring. }
  split; [intros v w; rewrite !rotation_steps, iso_z, iso_y, iso_x; reflexivity|]. split.
  - unfold rotation. rewrite !det_mul. unfold Rx, Ry, Rz, det.
    pose proof (sc (radians a)) as A. pose proof (sc (radians b)) as B. pose proof (sc (radians c)) as C.
    replace (cos (radians c) * (cos (radians c) * 1 - 0 * 0) - - sin (radians c) * (sin (radians c) * 1 - 0 * 0) + 0 * (sin (radians c) * 0 - cos (radians c) * 0)) with (cos (radians c) * cos (radians c) + sin (radians c) * sin (radians c)) by ring.
    replace (cos (radians b) * (1 * cos (radians b) - 0 * 0) - 0 * (0 * cos (radians b) - 0 * - sin (radians b)) + sin (radians b) * (0 * 0 - 1 * - sin (radians b))) with (cos (radians b) * cos (radians b) + sin (radians b) * sin (radians b)) by ring.
    replace (1 * (cos (radians a) * cos (radians a) - - sin (radians a) * sin (radians a)) - 0 * (0 * cos (radians a) - - sin (radians a) * 0) + 0 * (0 * sin (radians a) - cos (radians a) * 0)) with (cos (radians a) * cos (radians a) + sin (radians a) * sin (radians a)) by ring.
    rewrite A, B, C. ring.
  - split; [intro v; rewrite !rotation_steps, !(Z Rx), !(Z Ry), !(Z Rz) by auto; reflexivity|].
    rewrite !rotation_steps, !(Z Rx), !(Z Ry), !(Z Rz) by auto. unfold Rx, Ry, Rz, mat_vec, dot. rewrite R90, sin_PI2, cos_PI2.
    split; [|split]; f_equal; try (f_equal); ring.
Qed.
Print Assumptions C108_rotation.

Lemma rotate_dist2 : forall a p q, dist2 (rotate_sphere (rotation a) p) (rotate_sphere (rotation a) q) = dist2 p q /\ sr (rotate_sphere (rotation a) p) = sr p.
Proof.
  intros [[a b] c] p q. destruct (C108_rotation a b c) as [I _]. set (m := rotation (a, b, c)) in *.
  assert (SR : forall p, sr (rotate_sphere m p) = sr p) by (intro r; unfold rotate_sphere; destruct (mat_vec m (sx r, sy r, sz r)) as [[x y] z]; reflexivity).
  split; [|apply SR]. specialize (I (sx p - sx q, sy p - sy q, sz p - sz q) (sx p - sx q, sy p - sy q, sz p - sz q)).
  assert (LIN : dist2 (rotate_sphere m p) (rotate_sphere m q) = dot (mat_vec m (sx p - sx q, sy p - sy q, sz p - sz q)) (mat_vec m (sx p - sx q, sy p - sy q, sz p - sz q))).
  { unfold rotate_sphere, dist2. destruct m as [[[[a1 a2] a3] [[b1 b2] b3]] [[c1 c2] c3]]. unfold mat_vec, dot. cbn [sx sy sz]. ring. }
  rewrite LIN, I. unfold dot, dist2. ring.
Qed.

Lemma transform_steps : forall smax centrify offset scale rotate l, exists f s, transform smax centrify offset scale rotate l = map f l /\
  s = match scale with Some s => if Req_EM_T s 0 then 1 else s | None => 1 end /\
  forall p q, dist2 (f p) (f q) = s ^ 2 * dist2 p q /\ sr (f p) = s * sr p.
Proof.
  intros smax centrify offset scale rotate l.
  assert (S1 : exists f, (if centrify then map (shift (- center (limits sx smax l)) (- center (limits sy smax l)) (- center (limits sz smax l))) l
      else match offset with Some (x, y, z) => map (shift x y z) l | None => l end) = map f l /\ forall p q, dist2 (f p) (f q) = dist2 p q /\ sr (f p) = sr p).
  { destruct centrify; [eexists; split; [reflexivity|]; intros; unfold dist2; cbn; split; ring|]. destruct offset as [[[x y] z]|]; [eexists; split; [reflexivity|]; intros; unfold dist2; cbn; split; ring|].
    exists (fun p => p). split; [symmetry; apply map_id|]. auto. }
  destruct S1 as (f1 & E1 & F1).
  assert (S2 : exists f, match scale with Some s => if Req_EM_T s 0 then map f1 l else map (scale_sphere s) (map f1 l) | None => map f1 l end = map f l /\
      forall p q, dist2 (f p) (f q) = (match scale with Some s => if Req_EM_T s 0 then 1 else s | None => 1 end) ^ 2 * dist2 p q /\ sr (f p) = (match scale with Some s => if Req_EM_T s 0 then 1 else s | None => 1 end) * sr p).
  { destruct scale as [s|]; [destruct (Req_EM_T s 0)|].
    - exists f1. split; [reflexivity|]. intros p q. destruct (F1 p q) as [-> -> ]. split; ring.
    - exists (fun p => scale_sphere s (f1 p)). split; [apply map_map|]. intros p q. destruct (F1 p q) as [D S0].
      replace (dist2 (scale_sphere s (f1 p)) (scale_sphere s (f1 q))) with (s ^ 2 * dist2 (f1 p) (f1 q)) by (unfold dist2; cbn; ring). rewrite D. split; [reflexivity|]. cbn. rewrite S0. ring.
    - exists f1. split; [reflexivity|]. intros p q. destruct (F1 p q) as [-> -> ]. split; ring. }
  destruct S2 as (f2 & E2 & F2).
  unfold transform. cbv zeta. rewrite E1. rewrite E2. destruct rotate as [a|].
  - exists (fun p => rotate_sphere (rotation a) (f2 p)). eexists. split; [apply map_map|]. split; [reflexivity|]. intros p q. destruct (rotate_dist2 a (f2 p) (f2 q)) as [-> -> ]. apply F2.
  - exists f2. eexists. split; [reflexivity|]. split; [reflexivity|exact F2].
Qed.

(** A transformation with a positive scale keeps all spheres in order, multiplies
    distances and radii by the scale and so keeps all contacts. *)
Theorem C108_contacts : forall smax centrify offset scale rotate l, match scale with Some s => 0 < s | None => True end ->
  let s := match scale with Some s => s | None => 1 end in let l' := transform smax centrify offset scale rotate l in
  length l' = length l /\ forall i j p q p' q', nth_error l i = Some p -> nth_error l j = Some q -> nth_error l' i = Some p' -> nth_error l' j = Some q' ->
    sqrt (dist2 p' q') = s * sqrt (dist2 p q) /\ sr p' = s * sr p /\ (overlap p' q' <-> overlap p q).
Proof.
  intros smax centrify offset scale rotate l SP s l'. destruct (transform_steps smax centrify offset scale rotate l) as (f & s' & E & ES & F).
  assert (SS : s' = s /\ 0 < s). { unfold s. destruct scale as [x|]; [destruct (Req_EM_T x 0); [lra|auto]|split; [exact ES|lra]]. } destruct SS as [-> S0].
  unfold l'. rewrite E. split; [apply map_length|]. intros i j p q p' q' P Q0 P' Q'. rewrite nth_error_map, P in P'. rewrite nth_error_map, Q0 in Q'. injection P' as <-. injection Q' as <-.
  destruct (F p q) as [D R1]. destruct (F q p) as [_ R2].
  assert (DD : sqrt (dist2 (f p) (f q)) = s * sqrt (dist2 p q)).
  { rewrite D, sqrt_mult_alt by (apply pow2_ge_0). rewrite sqrt_pow2 by lra. reflexivity. }
  split; [exact DD|]. split; [exact R1|]. unfold overlap. rewrite DD, R1, R2. rewrite <- Rmult_plus_distr_l. split; intro H; [apply (Rmult_le_reg_l s); assumption|apply Rmult_le_compat_l; lra].
Qed.
Print Assumptions C108_contacts.

(** A scale of zero is ignored. *)
Theorem C108_scale_zero_refuted : forall smax centrify offset rotate l, transform smax centrify offset (Some 0) rotate l = transform smax centrify offset None rotate l.
Proof. intros. unfold transform. cbv zeta. destruct (Req_EM_T 0 0) as [_|C]; [reflexivity|contradiction]. Qed.
Print Assumptions C108_scale_zero_refuted.

(** ** Every sphere is moved first, then scaled about the origin, then turned about it *)
Theorem C108_position : forall smax ox oy oz s a l i p, nth_error l i = Some p -> s <> 0 ->
  exists q, nth_error (transform smax false (Some (ox, oy, oz)) (Some s) (Some a) l) i = Some q
    /\ (sx q, sy q, sz q) = mat_vec (rotation a) (s * (sx p + ox), s * (sy p + oy), s * (sz p + oz)) /\ sr q = s * sr p.
Proof.
  intros smax ox oy oz s a l i p H S0. unfold transform. cbv zeta. destruct (Req_EM_T s 0) as [X|_]; [contradiction|].
  rewrite !nth_error_map, H. cbn [option_map]. eexists. split; [reflexivity|]. unfold rotate_sphere, scale_sphere, shift. cbn [sx sy sz sr].
  rewrite !(Rmult_comm s). destruct (mat_vec (rotation a) ((sx p + ox) * s, (sy p + oy) * s, (sz p + oz) * s)) as [[x y] z]. cbn [sx sy sz sr]. split; reflexivity.
Qed.
Print Assumptions C108_position.

(** ** Cutting *)
Definition strictly_inside (lim : option (R * R)) (x r : R) : Prop := match lim with None => True | Some (a, b) => a < x - r /\ x + r < b end.
Lemma within_true : forall lim x r, within lim x r = true <-> strictly_inside lim x r.
Proof. intros [[a b]|] x r; cbn; [|tauto]. rewrite andb_true_iff, !rlt_true. tauto. Qed.

Lemma extract_filter : forall s lx ly lz l acc, extract s lx ly lz l acc = acc ++ map (fun p => mkSphere (s * sx p) (s * sy p) (s * sz p) (s * sr p))
  (filter (fun p => within lx (sx p) (sr p) && within ly (sy p) (sr p) && within lz (sz p) (sr p)) l).
Proof.
  intros s lx ly lz. induction l as [|p l IH]; intro acc; cbn [extract filter map]; [symmetry; apply app_nil_r|]. rewrite IH.
  destruct (within lx (sx p) (sr p) && within ly (sy p) (sr p) && within lz (sz p) (sr p)); [|reflexivity]. cbn [map]. rewrite <- app_assoc. reflexivity.
Qed.

(** The extracted spheres are the ones strictly inside the given limits, in their
    order and scaled; with a positive scale they lie inside the scaled limits. *)
Theorem C108_extract : forall s lx ly lz l, exists kept, extract s lx ly lz l [] = map (fun p => mkSphere (s * sx p) (s * sy p) (s * sz p) (s * sr p)) kept /\
  (forall p, In p kept <-> In p l /\ strictly_inside lx (sx p) (sr p) /\ strictly_inside ly (sy p) (sr p) /\ strictly_inside lz (sz p) (sr p)) /\
  (exists keep : sphere -> bool, kept = filter keep l) /\
  (0 < s -> forall q, In q (extract s lx ly lz l []) ->
    strictly_inside (option_map (fun ab => (s * fst ab, s * snd ab)) lx) (sx q) (sr q) /\
    strictly_inside (option_map (fun ab => (s * fst ab, s * snd ab)) ly) (sy q) (sr q) /\
    strictly_inside (option_map (fun ab => (s * fst ab, s * snd ab)) lz) (sz q) (sr q)).
Proof.
  intros s lx ly lz l. eexists. split; [rewrite extract_filter; reflexivity|].
  assert (IN : forall p, In p (filter (fun p => within lx (sx p) (sr p) && within ly (sy p) (sr p) && within lz (sz p) (sr p)) l) <-> In p l /\ strictly_inside lx (sx p) (sr p) /\ strictly_inside ly (sy p) (sr p) /\ strictly_inside lz (sz p) (sr p)).
  { intro p. rewrite filter_In, !andb_true_iff, !within_true. tauto. }
  split; [exact IN|]. split; [eexists; reflexivity|]. intros S0 q Hq. rewrite extract_filter in Hq. apply in_map_iff in Hq. destruct Hq as (p & <- & Hp). apply IN in Hp. destruct Hp as (_ & A & B & C). cbn [sx sy sz sr].
  assert (G : forall lim x r, strictly_inside lim x r -> strictly_inside (option_map (fun ab => (s * fst ab, s * snd ab)) lim) (s * x) (s * r)).
  { intros [[a b]|] x r; cbn; [|auto]. intros [H1 H2]. rewrite <- Rmult_minus_distr_l, <- Rmult_plus_distr_l. split; apply Rmult_lt_compat_l; assumption. }
  auto.
Qed.
Print Assumptions C108_extract.

Example C108_case : extract 2 (Some (0, 10)) None None [mkSphere 1 0 0 1; mkSphere 3 0 0 1; mkSphere 9 5 5 2; mkSphere 5 50 0 4] [] = [mkSphere (2 * 3) (2 * 0) (2 * 0) (2 * 1); mkSphere (2 * 5) (2 * 50) (2 * 0) (2 * 4)].
Proof.
  rewrite extract_filter. cbn [app filter within sx sy sz sr andb]. unfold rlt.
  repeat (match goal with |- context [Rlt_dec ?a ?b] => destruct (Rlt_dec a b); try (exfalso; lra) end; cbn [andb]). reflexivity.
Qed.
