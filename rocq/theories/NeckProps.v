(** The plane of the neck between two overlapping particles (property C57). *)
From Coq Require Import List Arith Bool Reals Lra Lia Psatz.
From Verif Require Import Util MobilityModel MobilityProofs VecGeom PackingModel InitialModel InitialProps.
Import ListNotations.
Local Open Scope R_scope.

Lemma sqrt_sq_abs : forall x, sqrt (x * x) = Rabs x.
Proof. intro x. rewrite <- (sqrt_Rsqr_abs x). reflexivity. Qed.

(** The distance of the plane is the absolute value of the height of the triangle's foot. *)
Lemma neck_abs : forall r1 r2 d, 0 <= r1 -> 0 <= r2 -> 0 < d -> Rabs (r1 - r2) <= d <= r1 + r2 ->
  neck_distance r1 r2 d = Some (Rabs (d * d + r1 * r1 - r2 * r2) / (2 * d)).
Proof.
  intros r1 r2 d H1 H2 Hd (A & B). unfold neck_distance. destruct (Req_EM_T d 0); [lra|].
  set (s := (r1 + r2 + d) / 2).
  assert (E : s * (s - r1) * (s - r2) * (s - d) = ((r1 + r2) * (r1 + r2) - d * d) * (d * d - (r1 - r2) * (r1 - r2)) / 16) by (unfold s; field).
  assert (P1 : 0 <= (r1 + r2) * (r1 + r2) - d * d) by nra.
  assert (P2 : 0 <= d * d - (r1 - r2) * (r1 - r2)).
  { unfold Rabs in A. destruct (Rcase_abs (r1 - r2)); nra. }
  assert (P : 0 <= s * (s - r1) * (s - r2) * (s - d)) by (rewrite E; apply Rmult_le_pos; [apply Rmult_le_pos; assumption|lra]).
  destruct (Rlt_dec _ 0); [lra|].
  set (rad := s * (s - r1) * (s - r2) * (s - d)) in *.
  assert (Q : r1 * r1 - 2 / d * sqrt rad * (2 / d * sqrt rad) =
    (d * d + r1 * r1 - r2 * r2) / (2 * d) * ((d * d + r1 * r1 - r2 * r2) / (2 * d))).
  { replace (2 / d * sqrt rad * (2 / d * sqrt rad)) with (4 / (d * d) * (sqrt rad * sqrt rad)) by (field; lra).
    rewrite sqrt_sqrt by exact P. rewrite E. field. lra. }
  rewrite Q. destruct (Rlt_dec _ 0) as [K|_].
  - exfalso. pose proof (Rle_0_sqr ((d * d + r1 * r1 - r2 * r2) / (2 * d))). unfold Rsqr in *. lra.
  - f_equal. rewrite sqrt_sq_abs. unfold Rdiv. rewrite Rabs_mult. f_equal. apply Rabs_pos_eq. left. apply Rinv_0_lt_compat. lra.
Qed.

Lemma neck_none : forall r1 r2 d, 0 <= r1 -> 0 <= r2 -> 0 <= d -> d < Rabs (r1 - r2) -> neck_distance r1 r2 d = None.
Proof.
  intros r1 r2 d H1 H2 Hd A. unfold neck_distance. destruct (Req_EM_T d 0); [reflexivity|].
  set (s := (r1 + r2 + d) / 2).
  assert (E : s * (s - r1) * (s - r2) * (s - d) = ((r1 + r2) * (r1 + r2) - d * d) * (d * d - (r1 - r2) * (r1 - r2)) / 16) by (unfold s; field).
  rewrite E. assert (d * d < (r1 - r2) * (r1 - r2)) by (unfold Rabs in A; destruct (Rcase_abs (r1 - r2)); nra).
  assert (d * d < (r1 + r2) * (r1 + r2)) by nra.
  destruct (Rlt_dec _ 0) as [|K]; [reflexivity|]. exfalso. apply K.
  set (x := (r1 + r2) * (r1 + r2) - d * d) in *. set (y := d * d - (r1 - r2) * (r1 - r2)) in *. assert (0 < x) by (unfold x; lra). assert (y < 0) by (unfold y; lra). nra.
Qed.

(** * The coordinate across the neck *)
Definition between (p1 p2 : particle) : vec := fun d => p_center p2 d - p_center p1 d.
Definition centers_dist (dim : nat) (p1 p2 : particle) : R := vdist dim (p_center p2) (p_center p1).

(** [z] does not lie on the line through the two centers (only needed in 3D). *)
Definition off_line (dim : nat) (p1 p2 : particle) (z : vec) : Prop :=
  dim = 3%nat -> ~ exists t, forall d, (d < 3)%nat -> z d = p_center p1 d + t * between p1 p2 d.

Lemma dot_minus : forall dim a b c, dot dim a (fun d => b d - c d) = dot dim a b - dot dim a c.
Proof. induction dim as [|n IH]; intros a b c; cbn [dot]; [ring|]. rewrite IH. ring. Qed.

Lemma dot3 : forall a b, dot 3 a b = a 0%nat * b 0%nat + a 1%nat * b 1%nat + a 2%nat * b 2%nat.
Proof. intros. cbn [dot]. ring. Qed.

Lemma lagrange : forall u v, dot 3 (cross u v) (cross u v) = dot 3 u u * dot 3 v v - dot 3 u v * dot 3 u v.
Proof. intros u v. rewrite !dot3. cbn [cross]. ring. Qed.

Lemma collinear : forall u v, dot 3 v v = 1 -> norm 3 (cross u v) = 0 -> forall d, (d < 3)%nat -> u d = dot 3 u v * v d.
Proof.
  intros u v Hv H d Hd. assert (E : dot 3 (cross u v) (cross u v) = 0) by (rewrite <- norm_sq, H; ring).
  rewrite lagrange, Hv in E.
  pose proof (dot_zero 3 (fun d => u d - dot 3 u v * v d)) as Z. cbn beta in Z. enough (Y : u d - dot 3 u v * v d = 0) by lra.
  apply Z; [|exact Hd]. clear Z. rewrite !dot3 in *.
  set (k := u 0%nat * v 0%nat + u 1%nat * v 1%nat + u 2%nat * v 2%nat) in *.
  transitivity (u 0%nat * u 0%nat + u 1%nat * u 1%nat + u 2%nat * u 2%nat - 2 * k * (u 0%nat * v 0%nat + u 1%nat * v 1%nat + u 2%nat * v 2%nat)
    + k * k * (v 0%nat * v 0%nat + v 1%nat * v 1%nat + v 2%nat * v 2%nat)); [ring|]. rewrite Hv. fold k. lra.
Qed.

Lemma unit_ex : forall dim p1 p2, 0 < centers_dist dim p1 p2 ->
  dot dim (fun d => (p_center p2 d - p_center p1 d) / centers_dist dim p1 p2) (fun d => (p_center p2 d - p_center p1 d) / centers_dist dim p1 p2) = 1.
Proof.
  intros dim p1 p2 H. set (D := centers_dist dim p1 p2) in *.
  rewrite (dot_ext dim _ _ (fun d => / D * between p1 p2 d) (fun d => / D * between p1 p2 d)) by (intro; unfold between, Rdiv; ring).
  rewrite dot_scale, dot_comm, dot_scale. assert (E : dot dim (between p1 p2) (between p1 p2) = D * D).
  { unfold D, centers_dist, vdist. rewrite norm_sq. reflexivity. }
  rewrite E. field. lra.
Qed.

Lemma coordinate : forall dim p1 p2 z p dm, 0 < centers_dist dim p1 p2 -> off_line dim p1 p2 z ->
  neck_distance (p_radius p1) (p_radius p2) (centers_dist dim p1 p2) = Some dm ->
  neck_coordinate dim p1 p2 z p = Some (dot dim (between p1 p2) (fun d => p d - p_center p1 d) / centers_dist dim p1 p2 - dm).
Proof.
  intros dim p1 p2 z p dm H Ho E. unfold neck_coordinate. fold (centers_dist dim p1 p2). cbv zeta. fold (centers_dist dim p1 p2). rewrite E. cbn [obind].
  set (D := centers_dist dim p1 p2) in *. pose proof (unit_ex dim p1 p2 H) as U. fold D in U.
  set (ex := fun d => (p_center p2 d - p_center p1 d) / D) in *.
  assert (F : ((dim =? 3)%nat && (if Req_EM_T (norm 3 (cross (fun d => z d - p_center p1 d) ex)) 0 then true else false))%bool = false).
  { destruct (Nat.eqb_spec dim 3) as [E3|]; [|reflexivity]. cbn [andb]. destruct (Req_EM_T _ 0) as [N|]; [|reflexivity]. exfalso.
    apply (Ho E3). exists (dot 3 (fun d => z d - p_center p1 d) ex / D). intros d Hd. subst dim.
    pose proof (collinear _ _ U N d Hd) as C. cbn beta in C. unfold ex at 2 in C. unfold between.
    replace (z d) with (p_center p1 d + (z d - p_center p1 d)) by ring. rewrite C. field. lra. }
  rewrite F. clear F. apply f_equal.
  change (dot dim ex (fun d => p d - (p_center p1 d + dm * ex d)) = dot dim (between p1 p2) (fun d => p d - p_center p1 d) / D - dm).
  rewrite (dot_ext dim ex (fun d => p d - (p_center p1 d + dm * ex d)) ex (fun d => (p d - p_center p1 d) - dm * ex d)) by (intro; ring).
  rewrite dot_minus, dot_scale, U. rewrite dot_comm.
  rewrite (dot_ext dim (fun d => p d - p_center p1 d) ex (fun d => p d - p_center p1 d) (fun d => / D * between p1 p2 d)) by (intro; unfold ex, between, Rdiv; ring).
  rewrite dot_scale, dot_comm. unfold Rdiv. ring.
Qed.

(** Two particles overlap properly: the centers are different and no ball contains the
    other. *)
Definition proper_overlap (dim : nat) (p1 p2 : particle) : Prop :=
  0 <= p_radius p1 /\ 0 <= p_radius p2 /\ 0 < centers_dist dim p1 p2 /\
  Rabs (p_radius p1 - p_radius p2) <= centers_dist dim p1 p2 <= p_radius p1 + p_radius p2.

Lemma overlap_sym : forall dim p1 p2, proper_overlap dim p1 p2 -> proper_overlap dim p2 p1.
Proof.
  intros dim p1 p2 (A & B & C & D). unfold proper_overlap, centers_dist in *. rewrite (vdist_sym dim (p_center p1)).
  rewrite (Rabs_minus_sym (p_radius p2)). repeat split; lra.
Qed.

(** The neck lies between the centers. *)
Definition neck_between (dim : nat) (p1 p2 : particle) : Prop :=
  Rabs (p_radius p1 * p_radius p1 - p_radius p2 * p_radius p2) <= centers_dist dim p1 p2 * centers_dist dim p1 p2.

Lemma polar : forall dim a b p,
  2 * dot dim (fun d => b d - a d) (fun d => p d - a d) =
  dot dim (fun d => b d - a d) (fun d => b d - a d) + dot dim (fun d => p d - a d) (fun d => p d - a d) - dot dim (fun d => p d - b d) (fun d => p d - b d).
Proof. induction dim as [|n IH]; intros a b p; cbn [dot]; [ring|]. rewrite Rmult_plus_distr_l, IH. ring. Qed.

Lemma on_both : forall dim p1 p2 p,
  2 * dot dim (between p1 p2) (fun d => p d - p_center p1 d) =
  centers_dist dim p1 p2 * centers_dist dim p1 p2 + vdist dim p (p_center p1) * vdist dim p (p_center p1)
    - vdist dim p (p_center p2) * vdist dim p (p_center p2).
Proof. intros. unfold centers_dist, vdist. rewrite !norm_sq. apply polar. Qed.

(** In proper overlap with the neck between the centers: every point on both spheres lies
    on the plane, seen from either particle, and the coordinates of every point seen from
    the two particles are opposite. *)
Theorem C57_neck_plane_partial : forall dim p1 p2 z z' p, proper_overlap dim p1 p2 -> neck_between dim p1 p2 ->
  off_line dim p1 p2 z -> off_line dim p2 p1 z' ->
  exists x, neck_coordinate dim p1 p2 z p = Some x /\ neck_coordinate dim p2 p1 z' p = Some (- x) /\
    (vdist dim p (p_center p1) = p_radius p1 -> vdist dim p (p_center p2) = p_radius p2 -> x = 0) /\
    (x < 0 <-> vdist dim p (p_center p1) * vdist dim p (p_center p1) - p_radius p1 * p_radius p1 <
               vdist dim p (p_center p2) * vdist dim p (p_center p2) - p_radius p2 * p_radius p2).
Proof.
  intros dim p1 p2 z z' p Hp Hn Hz Hz'. pose proof (overlap_sym _ _ _ Hp) as Hp'.
  destruct Hp as (R1 & R2 & D & O). destruct Hp' as (_ & _ & D' & O').
  pose proof (coordinate dim p1 p2 z p _ D Hz (neck_abs _ _ _ R1 R2 D O)) as E.
  pose proof (coordinate dim p2 p1 z' p _ D' Hz' (neck_abs _ _ _ R2 R1 D' O')) as E'.
  pose proof (on_both dim p1 p2 p) as B. pose proof (on_both dim p2 p1 p) as B'.
  assert (S : centers_dist dim p2 p1 = centers_dist dim p1 p2) by (apply vdist_sym). rewrite S in *.
  unfold neck_between in Hn.
  set (D0 := centers_dist dim p1 p2) in *. set (r1 := p_radius p1) in *. set (r2 := p_radius p2) in *.
  set (x1 := vdist dim p (p_center p1)) in *. set (x2 := vdist dim p (p_center p2)) in *.
  set (u := dot dim (between p1 p2) (fun d => p d - p_center p1 d)) in *.
  set (u' := dot dim (between p2 p1) (fun d => p d - p_center p2 d)) in *.
  assert (N : - (D0 * D0) <= r1 * r1 - r2 * r2 <= D0 * D0) by (unfold Rabs in Hn; destruct (Rcase_abs _); lra).
  rewrite Rabs_pos_eq in E by lra. rewrite Rabs_pos_eq in E' by lra.
  eexists. split; [exact E|]. split; [rewrite E'; f_equal|].
  - replace u' with ((D0 * D0 + x2 * x2 - x1 * x1) / 2) by lra. replace u with ((D0 * D0 + x1 * x1 - x2 * x2) / 2) by lra. field. lra.
  - assert (X : u / D0 - (D0 * D0 + r1 * r1 - r2 * r2) / (2 * D0) = (x1 * x1 - r1 * r1 - (x2 * x2 - r2 * r2)) * / (2 * D0)).
    { replace u with ((D0 * D0 + x1 * x1 - x2 * x2) / 2) by lra. field. lra. }
    rewrite X. assert (I : 0 < / (2 * D0)) by (apply Rinv_0_lt_compat; lra). split.
    + intros -> ->. ring.
    + set (y := x1 * x1 - r1 * r1 - (x2 * x2 - r2 * r2)). split; intro K; [assert (y < 0) by nra; unfold y in *; lra|assert (y < 0) by (unfold y; lra); nra].
Qed.
Print Assumptions C57_neck_plane_partial.

(** Two equal particles of radius 5 with centers 0 and 8 on the first axis. *)
Definition left_p := mkParticle (on_axis 0) 5.
Definition right_p := mkParticle (on_axis 8) 5.
Example C57_neck_plane_applies : proper_overlap 2 left_p right_p /\ neck_between 2 left_p right_p /\ off_line 2 left_p right_p (fun _ => 0) /\
  off_line 2 right_p left_p (fun _ => 0).
Proof.
  unfold proper_overlap, neck_between, centers_dist, off_line. cbn [left_p right_p p_center p_radius]. rewrite axis_dist by lia.
  rewrite (Rabs_pos_eq (8 - 0)) by lra. replace (5 - 5) with 0 by ring. replace (5 * 5 - 5 * 5) with 0 by ring. rewrite Rabs_R0.
  split; [split; [lra|split; [lra|split; lra]]|]. split; [lra|]. split; discriminate.
Qed.

(** Without the hypothesis on the place of the neck the plane lies on the wrong side of the
    center of the smaller particle: the neck of a small particle (radius 5) with a large one
    (radius 13) lies behind the center of the small one, and a point on both spheres is
    placed seven away from the plane. *)
Theorem C57_neck_plane_refuted : exists p1 p2 p, proper_overlap 2 p1 p2 /\ in_contact 2 p1 p2 = true /\
  vdist 2 p (p_center p1) = p_radius p1 /\ vdist 2 p (p_center p2) = p_radius p2 /\
  forall z, exists x, neck_coordinate 2 p1 p2 z p = Some x /\ x = - 7.
Proof.
  (* centers 0 and 9 on the axis, radii 5 and 13: the neck is at (81 + 25 - 169) / 18 = -3.5 *)
  exists (mkParticle (on_axis 0) 5), (mkParticle (on_axis 9) 13).
  exists (fun d => match d with O => - (7 / 2) | _ => sqrt (51 / 4) end).
  set (p := fun d => _). set (p1 := mkParticle _ 5). set (p2 := mkParticle _ 13).
  assert (D : centers_dist 2 p1 p2 = 9).
  { unfold centers_dist. cbn [p1 p2 p_center]. rewrite axis_dist by lia. rewrite Rabs_pos_eq; lra. }
  assert (SS : sqrt (51 / 4) * sqrt (51 / 4) = 51 / 4) by (apply sqrt_sqrt; lra).
  assert (P : proper_overlap 2 p1 p2).
  { unfold proper_overlap. rewrite D. cbn [p1 p2 p_radius]. rewrite Rabs_left by lra. split; [lra|split; [lra|split; lra]]. }
  assert (V1 : vdist 2 p (p_center p1) = 5).
  { unfold vdist. apply norm_unique; [lra|]. cbn [dot p p1 p_center on_axis]. lra. }
  assert (V2 : vdist 2 p (p_center p2) = 13).
  { unfold vdist. apply norm_unique; [lra|]. cbn [dot p p2 p_center on_axis]. lra. }
  split; [exact P|]. split.
  { unfold in_contact. fold (centers_dist 2 p1 p2). rewrite D. cbn [p1 p2 p_radius]. destruct (Rle_dec _ _); [reflexivity|lra]. }
  split; [exact V1|]. split; [exact V2|]. intro z.
  destruct P as (R1 & R2 & Hd & O). pose proof (neck_abs _ _ _ R1 R2 Hd O) as E.
  pose proof (coordinate 2 p1 p2 z p _ Hd ltac:(intro X; discriminate X) E) as C. eexists. split; [exact C|].
  pose proof (on_both 2 p1 p2 p) as B. rewrite V1, V2, D in B. rewrite D. cbn [p1 p2 p_radius]. rewrite Rabs_left by lra. lra.
Qed.
Print Assumptions C57_neck_plane_refuted.

(** A ball within the other one: the plane is not a number, so both particles vanish at
    every point that they both reach. *)
Theorem C57_contained_refuted : forall dim w dir p1 p2 z z' p, 0 <= p_radius p1 -> 0 <= p_radius p2 ->
  centers_dist dim p1 p2 < Rabs (p_radius p1 - p_radius p2) ->
  0 < is_in_sphere dim w dir p (p_center p1) (p_radius p1) -> 0 < is_in_sphere dim w dir p (p_center p2) (p_radius p2) ->
  value_for_particle dim w dir p p1 [(p2, z)] = 0 /\ value_for_particle dim w dir p p2 [(p1, z')] = 0.
Proof.
  assert (G : forall dim w dir p1 p2 z p, 0 <= p_radius p1 -> 0 <= p_radius p2 ->
    centers_dist dim p1 p2 < Rabs (p_radius p1 - p_radius p2) ->
    0 < is_in_sphere dim w dir p (p_center p1) (p_radius p1) -> 0 < is_in_sphere dim w dir p (p_center p2) (p_radius p2) ->
    value_for_particle dim w dir p p1 [(p2, z)] = 0).
  { intros dim w dir p1 p2 z p R1 R2 H C1 C2. unfold value_for_particle. destruct (Req_EM_T _ 0); [lra|].
    cbn [secondary fold_left fst]. destruct (Rlt_dec 0 _); [|lra]. unfold neck_coordinate. fold (centers_dist dim p1 p2).
    rewrite neck_none; [reflexivity|assumption|assumption|apply vdist_nonneg|assumption]. }
  intros dim w dir p1 p2 z z' p R1 R2 H C1 C2. split; apply G; try assumption.
  unfold centers_dist in *. rewrite vdist_sym, Rabs_minus_sym. exact H.
Qed.
Print Assumptions C57_contained_refuted.

(** Radii 10 and 2, centers 0 and 1: both particles are one at the center of the small one,
    they are neighbours, and both order parameters are zero there. *)
Example C57_contained_applies : let p1 := mkParticle (on_axis 0) 10 in let p2 := mkParticle (on_axis 1) 2 in
  in_contact 2 p1 p2 = true /\ centers_dist 2 p1 p2 < Rabs (p_radius p1 - p_radius p2) /\
  is_in_sphere 2 1 Middle (on_axis 1) (p_center p1) 10 = 1 /\ is_in_sphere 2 1 Middle (on_axis 1) (p_center p2) 2 = 1 /\
  cloud_op_value 2 1 Middle (fun _ _ _ => 0) [p1; p2] (on_axis 1) [0%nat] = Some 0 /\
  cloud_op_value 2 1 Middle (fun _ _ _ => 0) [p1; p2] (on_axis 1) [1%nat] = Some 0.
Proof.
  intros p1 p2.
  assert (D : centers_dist 2 p1 p2 = 1) by (unfold centers_dist; cbn [p1 p2 p_center]; rewrite axis_dist by lia; rewrite Rabs_pos_eq; lra).
  assert (C12 : in_contact 2 p1 p2 = true).
  { unfold in_contact. fold (centers_dist 2 p1 p2). rewrite D. cbn [p1 p2 p_radius]. destruct (Rle_dec _ _); [reflexivity|lra]. }
  assert (C21 : in_contact 2 p2 p1 = true).
  { unfold in_contact. rewrite vdist_sym. fold (centers_dist 2 p1 p2). rewrite D. cbn [p1 p2 p_radius]. destruct (Rle_dec _ _); [reflexivity|lra]. }
  assert (S1 : is_in_sphere 2 1 Middle (on_axis 1) (p_center p1) 10 = 1).
  { apply (C39_sphere 2 1 Middle (p_center p1) 10 ltac:(lra)). cbn [p1 p_center lo]. rewrite axis_dist by lia. rewrite Rabs_pos_eq; lra. }
  assert (S2 : is_in_sphere 2 1 Middle (on_axis 1) (p_center p2) 2 = 1).
  { apply (C39_sphere 2 1 Middle (p_center p2) 2 ltac:(lra)). cbn [p2 p_center lo]. rewrite axis_dist by lia. replace (1 - 1) with 0 by ring. rewrite Rabs_R0. lra. }
  assert (H : centers_dist 2 p1 p2 < Rabs (p_radius p1 - p_radius p2)) by (rewrite D; cbn [p1 p2 p_radius]; rewrite Rabs_pos_eq; lra).
  pose proof (C57_contained_refuted 2 1 Middle p1 p2 (fun _ => 0) (fun _ => 0) (on_axis 1)) as T.
  destruct T as (T1 & T2); [cbn; lra|cbn; lra|exact H|cbn [p_radius p1]; fold p1; rewrite S1; lra|cbn [p_radius p2]; fold p2; rewrite S2; lra|].
  split; [exact C12|]. split; [exact H|]. split; [exact S1|]. split; [exact S2|].
  unfold cloud_op_value, particle_value, neighbours. cbn [vget nth_error obind length seq combine filter fst snd Nat.eqb negb andb].
  rewrite C12, C21. cbn [map fst snd andb filter]. rewrite T1, T2. split; destruct (Req_EM_T 0 0); reflexivity.
Qed.

(** In 3D, for two particles one behind the other as seen from the origin: the origin is
    accepted as orientation point, whatever would have been drawn, and the plane is not a
    number, so the particle that is nearer to the origin vanishes wherever the other one
    reaches. *)
Theorem C57_ray_refuted : forall tol w dir p1 p2 u a b p draws, dot 3 u u = 1 -> 0 < tol <= 1 -> tol <= a -> a < b ->
  p_center p1 = (fun d => a * u d) -> p_center p2 = (fun d => b * u d) ->
  0 < is_in_sphere 3 w dir p (p_center p2) (p_radius p2) ->
  get_orientation_point 3 tol (p_center p1) (fun d => between p1 p2 d / centers_dist 3 p1 p2) draws = Some (fun _ => 0) /\
  value_for_particle 3 w dir p p1 [(p2, fun _ => 0)] = 0.
Proof.
  intros tol w dir p1 p2 u a b p draws U Ht Ha Hab E1 E2 C2.
  assert (D : centers_dist 3 p1 p2 = b - a).
  { unfold centers_dist, vdist. apply norm_unique; [lra|]. rewrite E1, E2.
    rewrite (dot_ext 3 _ _ (fun d => (b - a) * u d) (fun d => (b - a) * u d)) by (intro; ring). rewrite dot_scale, dot_comm, dot_scale, U. ring. }
  assert (X : forall d, between p1 p2 d / centers_dist 3 p1 p2 = u d).
  { intro d. rewrite D. unfold between. rewrite E1, E2. field. lra. }
  split.
  - unfold get_orientation_point. cbn [find]. unfold check_orientation_point at 1.
    assert (NV : norm 3 (fun d => 0 - p_center p1 d) = a).
    { apply norm_unique; [lra|]. rewrite E1. rewrite (dot_ext 3 _ _ (fun d => (- a) * u d) (fun d => (- a) * u d)) by (intro; ring).
      rewrite dot_scale, dot_comm, dot_scale, U. ring. }
    rewrite NV. destruct (Rlt_dec a tol); [lra|].
    rewrite (dot_ext 3 _ _ u (fun d => (-1) * u d)) by (first [exact X|intro d; rewrite E1; field; lra]).
    rewrite dot_scale, U. destruct (Rlt_dec _ tol) as [K|]; [|reflexivity]. exfalso. rewrite Rabs_left in K by lra. lra.
  - unfold value_for_particle. destruct (Req_EM_T _ 0) as [Z|]; [exact Z|]. cbn [secondary fold_left fst]. destruct (Rlt_dec 0 _); [|lra].
    unfold neck_coordinate. destruct (neck_distance _ _ _); [|reflexivity]. cbn [obind Nat.eqb andb].
    destruct (Req_EM_T _ 0) as [|K]; [reflexivity|]. exfalso. apply K.
    assert (Z : forall d, cross (fun d => 0 - p_center p1 d) (fun d => (p_center p2 d - p_center p1 d) / vdist 3 (p_center p2) (p_center p1)) d = 0).
    { fold (centers_dist 3 p1 p2). rewrite D, E1, E2. intros [|[|d]]; cbn [cross]; field; lra. }
    rewrite (norm_ext 3 _ (fun _ => 0)) by exact Z. apply norm_unique; [lra|]. rewrite dot_zero_l. ring.
Qed.
Print Assumptions C57_ray_refuted.

(** Equal particles of radius 5 with centers 1 and 9 on the first axis: between them, at 5,
    the nearer one vanishes. *)
Example C57_ray_applies : let p2 := mkParticle (on_axis 9) 5 in
  dot 3 (on_axis 1) (on_axis 1) = 1 /\ (forall d, p_center (mkParticle (on_axis 1) 5) d = 1 * on_axis 1 d) /\ (forall d, p_center p2 d = 9 * on_axis 1 d) /\
  0 < is_in_sphere 3 1 Middle (on_axis 5) (p_center p2) (p_radius p2).
Proof.
  intro p2. split; [cbn [dot on_axis]; ring|]. split; [intros [|d]; cbn; ring|]. split; [intros [|d]; cbn; ring|].
  assert (S : is_in_sphere 3 1 Middle (on_axis 5) (p_center p2) (p_radius p2) = 1); [|lra].
  apply (C39_sphere 3 1 Middle (p_center p2) 5 ltac:(lra)). cbn [p2 p_center lo]. rewrite axis_dist by lia. rewrite Rabs_left; lra.
Qed.

(** * The two order parameters across the neck *)
Lemma sec_one : forall dim w dir p q z, 0 < is_in_sphere dim w dir p (p_center q) (p_radius q) ->
  secondary dim w dir p [(q, z)] = Some (q, z, is_in_sphere dim w dir p (p_center q) (p_radius q)).
Proof. intros. cbn [secondary fold_left fst]. destruct (Rlt_dec 0 _); [reflexivity|lra]. Qed.

(** At a point where both particles are above one half: within half a width of the neck
    the order parameters sum up to one and are both one half on the neck; further away one
    of them vanishes and the other one is the value of its particle. *)
Theorem C57_partition_partial : forall dim w dir p1 p2 z z' p x, 0 < w ->
  proper_overlap dim p1 p2 -> neck_between dim p1 p2 -> off_line dim p1 p2 z -> off_line dim p2 p1 z' ->
  1 / 2 < is_in_sphere dim w dir p (p_center p1) (p_radius p1) -> 1 / 2 < is_in_sphere dim w dir p (p_center p2) (p_radius p2) ->
  neck_coordinate dim p1 p2 z p = Some x ->
  let v1 := value_for_particle dim w dir p p1 [(p2, z)] in
  let v2 := value_for_particle dim w dir p p2 [(p1, z')] in
  (- w / 2 < x < w / 2 -> v1 + v2 = 1) /\ (x = 0 -> v1 = 1 / 2 /\ v2 = 1 / 2) /\
  (w / 2 <= x -> v1 = 0 /\ v2 = is_in_sphere dim w dir p (p_center p2) (p_radius p2)) /\
  (x <= - w / 2 -> v2 = 0 /\ v1 = is_in_sphere dim w dir p (p_center p1) (p_radius p1)).
Proof.
  intros dim w dir p1 p2 z z' p x Hw Hp Hn Hz Hz' C1 C2 E v1 v2.
  destruct (C57_neck_plane_partial dim p1 p2 z z' p Hp Hn Hz Hz') as (x' & E1 & E2 & _).
  rewrite E in E1. injection E1 as <-. subst v1 v2. unfold value_for_particle.
  rewrite !sec_one by lra. rewrite E, E2.
  destruct (Req_EM_T (is_in_sphere dim w dir p (p_center p1) (p_radius p1)) 0); [lra|].
  destruct (Req_EM_T (is_in_sphere dim w dir p (p_center p2) (p_radius p2)) 0); [lra|].
  destruct (Rlt_dec (1 / 2) (is_in_sphere dim w dir p (p_center p2) (p_radius p2))); [|lra].
  destruct (Rlt_dec (1 / 2) (is_in_sphere dim w dir p (p_center p1) (p_radius p1))); [|lra].
  split; [|split; [|split]]; intro H.
  - destruct (Rlt_dec x (w / 2)); [|lra]. destruct (Rlt_dec (- w / 2) x); [|lra].
    destruct (Rlt_dec (- x) (w / 2)); [|lra]. destruct (Rlt_dec (- w / 2) (- x)); [|lra].
    replace (PI * - x / w) with (- (PI * x / w)) by (field; lra). rewrite sin_neg. lra.
  - subst x. rewrite Ropp_0. destruct (Rlt_dec 0 (w / 2)); [|lra]. destruct (Rlt_dec (- w / 2) 0); [|lra].
    replace (PI * 0 / w) with 0 by (field; lra). rewrite sin_0. lra.
  - destruct (Rlt_dec x (w / 2)); [lra|]. destruct (Rlt_dec (- x) (w / 2)); [|lra]. destruct (Rlt_dec (- w / 2) (- x)); [lra|]. split; reflexivity.
  - destruct (Rlt_dec (- x) (w / 2)); [lra|]. destruct (Rlt_dec x (w / 2)); [|lra]. destruct (Rlt_dec (- w / 2) x); [lra|]. split; reflexivity.
Qed.
Print Assumptions C57_partition_partial.

(** Across the neck the order parameter falls strictly from one towards zero, away from its
    own particle. *)
Theorem C57_monotone_partial : forall dim w dir p1 p2 z p p' x x', 0 < w -> 
  1 / 2 < is_in_sphere dim w dir p (p_center p1) (p_radius p1) -> 1 / 2 < is_in_sphere dim w dir p (p_center p2) (p_radius p2) ->
  1 / 2 < is_in_sphere dim w dir p' (p_center p1) (p_radius p1) -> 1 / 2 < is_in_sphere dim w dir p' (p_center p2) (p_radius p2) ->
  neck_coordinate dim p1 p2 z p = Some x -> neck_coordinate dim p1 p2 z p' = Some x' -> - w / 2 < x -> x < x' -> x' < w / 2 ->
  0 < value_for_particle dim w dir p' p1 [(p2, z)] /\
  value_for_particle dim w dir p' p1 [(p2, z)] < value_for_particle dim w dir p p1 [(p2, z)] /\
  value_for_particle dim w dir p p1 [(p2, z)] < 1.
Proof.
  intros dim w dir p1 p2 z p p' x x' Hw A1 A2 B1 B2 E E' L1 L2 L3. unfold value_for_particle. rewrite !sec_one by lra. rewrite E, E'.
  destruct (Req_EM_T (is_in_sphere dim w dir p (p_center p1) (p_radius p1)) 0); [lra|].
  destruct (Req_EM_T (is_in_sphere dim w dir p' (p_center p1) (p_radius p1)) 0); [lra|].
  destruct (Rlt_dec x (w / 2)); [|lra]. destruct (Rlt_dec x' (w / 2)); [|lra].
  destruct (Rlt_dec (1 / 2) (is_in_sphere dim w dir p (p_center p2) (p_radius p2))); [|lra].
  destruct (Rlt_dec (1 / 2) (is_in_sphere dim w dir p' (p_center p2) (p_radius p2))); [|lra].
  destruct (Rlt_dec (- w / 2) x); [|lra]. destruct (Rlt_dec (- w / 2) x'); [|lra].
  pose proof PI_RGT_0 as P.
  assert (S : forall y y', - w / 2 <= y -> y < y' -> y' <= w / 2 -> sin (PI * y / w) < sin (PI * y' / w)).
  { intros y y' Ha Hb Hc. assert (M : forall u, PI * u / w = PI * (u / w)) by (intro; field; lra). rewrite !M.
    assert (U : forall u, - w / 2 <= u <= w / 2 -> - (1 / 2) <= u / w <= 1 / 2).
    { intros u Hu. assert (X : u / w * w = u) by (field; lra). split; apply (Rmult_le_reg_r w); lra. }
    pose proof (U y ltac:(lra)). pose proof (U y' ltac:(lra)).
    assert (y / w < y' / w) by (apply Rmult_lt_compat_r; [apply Rinv_0_lt_compat; exact Hw|exact Hb]).
    apply sin_increasing_1; nra. }
  pose proof (S x x' ltac:(lra) L2 ltac:(lra)) as S1.
  pose proof (S x' (w / 2) ltac:(lra) L3 ltac:(lra)) as S2. replace (PI * (w / 2) / w) with (PI / 2) in S2 by (field; lra). rewrite sin_PI2 in S2.
  pose proof (S (- w / 2) x ltac:(lra) L1 ltac:(lra)) as S3. replace (PI * (- w / 2) / w) with (- (PI / 2)) in S3 by (field; lra). rewrite sin_neg, sin_PI2 in S3.
  lra.
Qed.
Print Assumptions C57_monotone_partial.

(** The particles of above at the center of their neck. *)
Example C57_partition_applies : 1 / 2 < is_in_sphere 2 1 Middle (on_axis 4) (p_center left_p) (p_radius left_p) /\
  1 / 2 < is_in_sphere 2 1 Middle (on_axis 4) (p_center right_p) (p_radius right_p) /\
  neck_coordinate 2 left_p right_p (fun _ => 0) (on_axis 4) = Some 0.
Proof.
  assert (L : is_in_sphere 2 1 Middle (on_axis 4) (p_center left_p) (p_radius left_p) = 1).
  { apply (C39_sphere 2 1 Middle (p_center left_p) 5 ltac:(lra)). cbn [left_p p_center lo]. rewrite axis_dist by lia. rewrite Rabs_pos_eq; lra. }
  assert (Rr : is_in_sphere 2 1 Middle (on_axis 4) (p_center right_p) (p_radius right_p) = 1).
  { apply (C39_sphere 2 1 Middle (p_center right_p) 5 ltac:(lra)). cbn [right_p p_center lo]. rewrite axis_dist by lia. rewrite Rabs_left; lra. }
  split; [lra|]. split; [lra|]. destruct C57_neck_plane_applies as ((R1 & R2 & D & O) & _ & Z & _).
  rewrite (coordinate 2 left_p right_p _ _ _ D Z (neck_abs _ _ _ R1 R2 D O)). f_equal.
  assert (E : centers_dist 2 left_p right_p = 8) by (unfold centers_dist; cbn [left_p right_p p_center]; rewrite axis_dist by lia; rewrite Rabs_pos_eq; lra).
  rewrite E. unfold between. cbn [dot left_p right_p p_center p_radius on_axis]. rewrite Rabs_pos_eq by lra. lra.
Qed.

(** Consequence for the concentration: at a point inside of two overlapping particles the
    concentration is one half on the neck unless the order parameters are accumulated. *)
Theorem C39_neck_refuted : exists p1 p2 p, is_in_sphere 2 1 Middle p (p_center p1) (p_radius p1) = 1 /\ is_in_sphere 2 1 Middle p (p_center p2) (p_radius p2) = 1 /\
  exists v1 v2, cloud_op_value 2 1 Middle (fun _ _ _ => 0) [p1; p2] p [0%nat] = Some v1 /\
    cloud_op_value 2 1 Middle (fun _ _ _ => 0) [p1; p2] p [1%nat] = Some v2 /\
    concentration false false [v1; v2] = Some (1 / 2) /\ concentration true false [v1; v2] = Some 1.
Proof.
  exists left_p, right_p, (on_axis 4).
  assert (L : is_in_sphere 2 1 Middle (on_axis 4) (p_center left_p) (p_radius left_p) = 1).
  { apply (C39_sphere 2 1 Middle (p_center left_p) 5 ltac:(lra)). cbn [left_p p_center lo]. rewrite axis_dist by lia. rewrite Rabs_pos_eq; lra. }
  assert (Rr : is_in_sphere 2 1 Middle (on_axis 4) (p_center right_p) (p_radius right_p) = 1).
  { apply (C39_sphere 2 1 Middle (p_center right_p) 5 ltac:(lra)). cbn [right_p p_center lo]. rewrite axis_dist by lia. rewrite Rabs_left; lra. }
  split; [exact L|]. split; [exact Rr|]. exists (1 / 2), (1 / 2).
  destruct C57_partition_applies as (A & B & C). destruct C57_neck_plane_applies as (P1 & P2 & P3 & P4).
  destruct (C57_partition_partial 2 1 Middle left_p right_p (fun _ => 0) (fun _ => 0) (on_axis 4) 0 ltac:(lra) P1 P2 P3 P4 A B C) as (_ & H & _).
  destruct (H eq_refl) as (V1 & V2).
  assert (D : centers_dist 2 left_p right_p = 8) by (unfold centers_dist; cbn [left_p right_p p_center]; rewrite axis_dist by lia; rewrite Rabs_pos_eq; lra).
  assert (C12 : in_contact 2 left_p right_p = true).
  { unfold in_contact. fold (centers_dist 2 left_p right_p). rewrite D. cbn [left_p right_p p_radius]. destruct (Rle_dec _ _); [reflexivity|lra]. }
  assert (C21 : in_contact 2 right_p left_p = true).
  { unfold in_contact. rewrite vdist_sym. fold (centers_dist 2 left_p right_p). rewrite D. cbn [left_p right_p p_radius]. destruct (Rle_dec _ _); [reflexivity|lra]. }
  unfold cloud_op_value, particle_value, neighbours. cbn [vget nth_error obind length seq combine filter fst snd Nat.eqb negb andb].
  rewrite C12, C21. cbn [map fst snd andb filter]. rewrite V1, V2.
  split; [destruct (Req_EM_T (1 / 2) 0); [lra|reflexivity]|]. split; [destruct (Req_EM_T (1 / 2) 0); [lra|reflexivity]|].
  unfold concentration. cbn [max_element fold_left obind]. split.
  - destruct (Rlt_dec (1 / 2) (1 / 2)); reflexivity.
  - f_equal. rewrite Rmin_left; lra.
Qed.
Print Assumptions C39_neck_refuted.

(** Particles are neighbours if they overlap by at least a thousandth of the sum of their
    radii; particles that only touch are not. *)
Theorem C57_neighbours : forall dim p1 p2,
  (in_contact dim p1 p2 = true <-> (p_radius p1 + p_radius p2) / 1000 <= p_radius p1 + p_radius p2 - centers_dist dim p1 p2) /\
  in_contact dim p1 p2 = in_contact dim p2 p1 /\
  (0 < p_radius p1 + p_radius p2 -> p_radius p1 + p_radius p2 <= centers_dist dim p1 p2 -> in_contact dim p1 p2 = false).
Proof.
  intros dim p1 p2. unfold in_contact, centers_dist. split; [|split].
  - destruct (Rle_dec _ _); split; intros; try reflexivity; try discriminate; lra.
  - rewrite (vdist_sym dim (p_center p1)). rewrite (Rplus_comm (p_radius p2)). reflexivity.
  - intros H1 H2. destruct (Rle_dec _ _); [lra|reflexivity].
Qed.
Print Assumptions C57_neighbours.
