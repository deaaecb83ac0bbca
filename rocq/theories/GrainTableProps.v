(** C127: centers and radii of grains read from a table *)
From Coq Require Import Reals Lra.
From Coq Require Import List Arith Lia.
From Verif Require Import Util GrainTableModel.
Import ListNotations.
Local Open Scope R_scope.

(** What a ball of radius [r] measures, in 3D and 2D *)
Definition ball_measure (is3D : bool) (r : R) : R := if is3D then 4 / 3 * PI * (r * r * r) else PI * (r * r).

Lemma ball_measure_increasing : forall is3D r s, 0 <= r -> r < s -> ball_measure is3D r < ball_measure is3D s.
Proof.
  intros is3D r s H0 H. pose proof PI_RGT_0 as P.
  assert (A : r * r < s * s) by nra.
  assert (B : r * r * r < s * s * s).
  { apply Rle_lt_trans with (r * r * s); [apply Rmult_le_compat_l; nra | apply Rmult_lt_compat_r; lra]. }
  unfold ball_measure. destruct is3D.
  - apply Rmult_lt_compat_l; [lra | exact B].
  - apply Rmult_lt_compat_l; [lra | exact A].
Qed.

Lemma ball_radius_right : forall is3D v, 0 < v ->
  0 < ball_radius is3D (Some v) /\ ball_measure is3D (ball_radius is3D (Some v)) = v.
Proof.
  intros is3D v Hv. pose proof PI_RGT_0 as P. unfold ball_radius. destruct (Rlt_dec 0 v) as [_ | N]; [| contradiction].
  destruct is3D.
  - assert (X : 0 < 3 / 4 * v / PI) by (apply Rdiv_lt_0_compat; lra).
    assert (Y : 0 < Rpower (3 / 4 * v / PI) (1 / 3)) by (unfold Rpower; apply exp_pos).
    split; [exact Y |]. unfold ball_measure. set (r := Rpower (3 / 4 * v / PI) (1 / 3)) in *.
    assert (C : r * r * r = 3 / 4 * v / PI).
    { transitivity (r ^ 3); [ring |]. rewrite <- Rpower_pow by exact Y. unfold r. rewrite Rpower_mult.
      replace (1 / 3 * INR 3) with 1 by (cbn [INR]; field). apply Rpower_1. exact X. }
    rewrite C. field. lra.
  - assert (X : 0 < v / PI) by (apply Rdiv_lt_0_compat; lra).
    split; [apply sqrt_lt_R0; exact X |]. unfold ball_measure. rewrite sqrt_sqrt by lra. field. lra.
Qed.

Lemma write_middle : forall A (l : list A) v x r, write (length l) v (l ++ x :: r) = Some (l ++ v :: r).
Proof. intros A l v x r. induction l as [| y l IH]; [reflexivity |]. cbn [length app write]. rewrite IH. reflexivity. Qed.
Lemma write_end : forall A (l : list A) v, write (length l) v l = None.
Proof. intros A l v. induction l as [| y l IH]; [reflexivity |]. cbn [length write]. rewrite IH. reflexivity. Qed.

Lemma fill_grains_right : forall is3D dim rows k rs ms cs, length rs = length ms -> length rs = length cs ->
  fill_grains is3D (length rs) rows (mkArrays (rs ++ repeat 0 k) (ms ++ repeat 0 k) (cs ++ repeat (repeat 0 dim) k)) =
  if Nat.leb (length rows) k
  then Some (mkArrays (rs ++ map (fun r => ball_radius is3D (gr_volume r)) rows ++ repeat 0 (k - length rows))
                      (ms ++ map gr_radius rows ++ repeat 0 (k - length rows))
                      (cs ++ map (center is3D) rows ++ repeat (repeat 0 dim) (k - length rows)))
  else None.
Proof.
  intros is3D dim rows. induction rows as [| row rows IH]; intros k rs ms cs Hm Hc.
  - cbn [fill_grains length Nat.leb map app]. rewrite Nat.sub_0_r. reflexivity.
  - cbn [fill_grains a_radii a_max a_centers length]. destruct k as [| k].
    + cbn [repeat Nat.leb]. rewrite !app_nil_r. rewrite write_end. reflexivity.
    + cbn [repeat Nat.leb]. rewrite write_middle. cbn [obind]. rewrite Hm, write_middle. cbn [obind]. rewrite <- Hm, Hc, write_middle. cbn [obind].
      rewrite <- Hc.
      specialize (IH k (rs ++ [ball_radius is3D (gr_volume row)]) (ms ++ [gr_radius row]) (cs ++ [center is3D row])).
      rewrite !app_length in IH. cbn [length] in IH. rewrite !Nat.add_1_r in IH.
      rewrite <- !app_assoc in IH. cbn [app] in IH. rewrite IH; [| lia | lia].
      destruct (Nat.leb (length rows) k); reflexivity.
Qed.

Lemma read_grains_right : forall is3D n rows v, (2 <= length rows)%nat -> (exists r, nth_error rows 0 = Some r /\ gr_volume r = Some v) ->
  read_grains is3D n rows =
  if Nat.leb (length rows) n
  then Some (Some (mkArrays (map (fun r => ball_radius is3D (gr_volume r)) rows ++ repeat 0 (n - length rows))
                      (map gr_radius rows ++ repeat 0 (n - length rows))
                      (map (center is3D) rows ++ repeat (repeat 0 (if is3D then 3 else 2)%nat) (n - length rows))))
  else None.
Proof.
  intros is3D n rows v L [r [N V]]. destruct rows as [| r0 [| r1 rows]]; [cbn [length] in L; lia | cbn [length] in L; lia |].
  cbn [nth_error] in N. injection N as ->. unfold read_grains. rewrite V. unfold zeros.
  pose proof (fill_grains_right is3D (if is3D then 3 else 2)%nat (r :: r1 :: rows) n [] [] [] eq_refl eq_refl) as F.
  cbn [length app] in F |- *. rewrite F. destruct (Nat.leb _ n); reflexivity.
Qed.

(** With as many grains as rows every grain has the center and greatest radius of its row, and the
    radius is the only one of a ball (a disk in 2D) with the volume of the row *)
Theorem C127_balls : forall is3D rows first v0, (2 <= length rows)%nat -> nth_error rows 0 = Some first -> gr_volume first = Some v0 ->
  exists a, read_grains is3D (length rows) rows = Some (Some a)
    /\ length (a_radii a) = length rows /\ length (a_max a) = length rows /\ length (a_centers a) = length rows
    /\ forall i row, nth_error rows i = Some row ->
         nth_error (a_max a) i = Some (gr_radius row)
         /\ (exists c, nth_error (a_centers a) i = Some c
               /\ nth_error c 0 = Some (gr_x row) /\ nth_error c 1 = Some (gr_y row)
               /\ nth_error c 2 = (if is3D then Some (gr_z row) else None) /\ nth_error c 3 = None)
         /\ exists r, nth_error (a_radii a) i = Some r /\ 0 <= r
              /\ (forall v, gr_volume row = Some v -> 0 < v -> forall s, 0 <= s -> (ball_measure is3D s = v <-> s = r))
              /\ (forall v, gr_volume row = Some v -> v <= 0 -> r = 0).
Proof.
  intros is3D rows first v0 L N V.
  rewrite (read_grains_right is3D (length rows) rows v0 L) by (exists first; split; assumption).
  rewrite Nat.leb_refl, Nat.sub_diag. cbn [repeat]. rewrite !app_nil_r. eexists. split; [reflexivity |].
  cbn [a_radii a_max a_centers]. rewrite !map_length. do 3 (split; [reflexivity |]).
  intros i row H. split; [apply map_nth_error; exact H |]. split.
  { exists (center is3D row). split; [apply map_nth_error; exact H |]. unfold center. destruct is3D; cbn; repeat split. }
  exists (ball_radius is3D (gr_volume row)).
  split; [apply (map_nth_error (fun r => ball_radius is3D (gr_volume r))); exact H |].
  destruct (gr_volume row) as [v |] eqn:E.
  - destruct (Rlt_dec 0 v) as [P | P].
    + destruct (ball_radius_right is3D v P) as [A B]. split; [lra |]. split.
      * intros w Hw _ s Hs. injection Hw as <-. split; [| intros ->; exact B].
        intros M. destruct (Rtotal_order s (ball_radius is3D (Some v))) as [Q | [Q | Q]]; [| exact Q |].
        -- pose proof (ball_measure_increasing is3D _ _ Hs Q). lra.
        -- assert (Z : 0 <= ball_radius is3D (Some v)) by lra. pose proof (ball_measure_increasing is3D _ _ Z Q). lra.
      * intros w Hw Hn. injection Hw as <-. lra.
    + unfold ball_radius. destruct (Rlt_dec 0 v) as [K | _]; [contradiction |]. split; [lra |]. split; [| reflexivity].
      intros w Hw Hp. injection Hw as <-. contradiction.
  - cbn [ball_radius]. split; [lra |]. split; intros w Hw; discriminate Hw.
Qed.
Print Assumptions C127_balls.

(** More rows than grains are an error, as is a table of at most one row; a first volume that is
    no number skips the table, whatever follows *)
Theorem C127_errors : forall is3D n rows,
  (read_grains is3D n rows = None <->
     ((length rows <= 1)%nat \/ ((n < length rows)%nat /\ exists first v, nth_error rows 0 = Some first /\ gr_volume first = Some v)))
  /\ (read_grains is3D n rows = Some None <-> ((2 <= length rows)%nat /\ exists first, nth_error rows 0 = Some first /\ gr_volume first = None)).
Proof.
  intros is3D n rows. destruct rows as [| r0 [| r1 rows]].
  - cbn. split; [split; [intros _; left; lia | reflexivity] | split; [discriminate | intros [X _]; lia]].
  - cbn. split; [split; [intros _; left; lia | reflexivity] | split; [discriminate | intros [X _]; lia]].
  - destruct (gr_volume r0) as [v |] eqn:V.
    + rewrite (read_grains_right is3D n (r0 :: r1 :: rows) v) by (first [cbn [length]; lia | exists r0; split; [reflexivity | exact V]]).
      destruct (Nat.leb_spec (length (r0 :: r1 :: rows)) n) as [H | H].
      * split; split; try discriminate.
        -- intros [X | [X _]]; [cbn [length] in X; lia | lia].
        -- intros [_ [f [X Y]]]. cbn in X. injection X as <-. congruence.
      * split; split; try discriminate; try reflexivity.
        -- intros _. right. split; [exact H |]. exists r0, v. split; [reflexivity | exact V].
        -- intros [_ [f [X Y]]]. cbn in X. injection X as <-. congruence.
    + unfold read_grains. rewrite V. split; split; try discriminate; try reflexivity.
      * intros [X | [_ [f [w [X Y]]]]]; [cbn [length] in X; lia |]. cbn in X. injection X as <-. congruence.
      * intros _. split; [cbn [length]; lia |]. exists r0. split; [reflexivity | exact V].
Qed.
Print Assumptions C127_errors.

(** With fewer rows than grains the missing ones silently become points at the origin *)
Theorem C127_missing_refuted : forall is3D n rows first v0 i, (2 <= length rows)%nat -> nth_error rows 0 = Some first -> gr_volume first = Some v0 ->
  (length rows <= i < n)%nat ->
  exists a, read_grains is3D n rows = Some (Some a) /\ nth_error (a_radii a) i = Some 0
    /\ exists c, nth_error (a_centers a) i = Some c /\ c <> [] /\ forall x, In x c -> x = 0.
Proof.
  intros is3D n rows first v0 i L N V H.
  rewrite (read_grains_right is3D n rows v0 L) by (exists first; split; assumption).
  destruct (Nat.leb_spec (length rows) n) as [_ | K]; [| lia]. eexists. split; [reflexivity |]. cbn [a_radii a_centers].
  split.
  - rewrite nth_error_app2 by (rewrite map_length; lia). rewrite map_length. apply nth_error_repeat. lia.
  - exists (repeat 0 (if is3D then 3 else 2)%nat). split.
    + rewrite nth_error_app2 by (rewrite map_length; lia). rewrite map_length. apply nth_error_repeat. lia.
    + split; [destruct is3D; discriminate |]. intros x Hx. apply repeat_spec in Hx. exact Hx.
Qed.
Print Assumptions C127_missing_refuted.

(** Only the first volume is checked: a later one that is no number makes a point of its grain *)
Theorem C127_nan_refuted : forall is3D n rows first v0 i row, (length rows <= n)%nat -> nth_error rows 0 = Some first -> gr_volume first = Some v0 ->
  nth_error rows i = Some row -> gr_volume row = None ->
  exists a, read_grains is3D n rows = Some (Some a) /\ nth_error (a_radii a) i = Some 0 /\ nth_error (a_max a) i = Some (gr_radius row).
Proof.
  intros is3D n rows first v0 i row Hn N V Hi Vi.
  assert (I : (i < length rows)%nat) by (apply nth_error_Some; congruence).
  assert (L : (2 <= length rows)%nat). { destruct i as [| i]; [| lia]. rewrite N in Hi. congruence. }
  rewrite (read_grains_right is3D n rows v0 L) by (exists first; split; assumption).
  destruct (Nat.leb_spec (length rows) n) as [_ | K]; [| lia]. eexists. split; [reflexivity |]. cbn [a_radii a_max].
  split; (rewrite nth_error_app1 by (rewrite map_length; exact I)).
  - rewrite (map_nth_error (fun r => ball_radius is3D (gr_volume r)) i rows Hi). rewrite Vi. reflexivity.
  - apply map_nth_error. exact Hi.
Qed.
Print Assumptions C127_nan_refuted.

(** A table in 3D of a ball of radius 2 and of one whose volume is no number, with three grains *)
Definition c127_rows : list grain_row := [mkGrain (Some (32 / 3 * PI)) 3 1 2 3; mkGrain None 4 5 6 7].
Example C127_example : exists a, read_grains true 3 c127_rows = Some (Some a) /\ nth_error (a_radii a) 0 = Some 2
  /\ nth_error (a_radii a) 1 = Some 0 /\ nth_error (a_centers a) 2 = Some [0; 0; 0].
Proof.
  rewrite (read_grains_right true 3 c127_rows (32 / 3 * PI)) by (first [cbn [length c127_rows]; lia | eexists; split; reflexivity]).
  eexists. split; [reflexivity |]. cbn [a_radii a_centers c127_rows map app nth_error gr_volume length Nat.sub repeat]. split; [| split; reflexivity].
  pose proof PI_RGT_0 as P. assert (X : 0 < 32 / 3 * PI) by lra. destruct (ball_radius_right true _ X) as [A B].
  set (r := ball_radius true (Some (32 / 3 * PI))) in *. f_equal.
  destruct (Rtotal_order r 2) as [Q | [Q | Q]]; [| exact Q |].
  - pose proof (ball_measure_increasing true r 2 ltac:(lra) Q) as M. rewrite B in M. unfold ball_measure in M. lra.
  - pose proof (ball_measure_increasing true 2 r ltac:(lra) Q) as M. rewrite B in M. unfold ball_measure in M. lra.
Qed.
(** In 2D, two grains, the second vanished *)
Example C127_example_balls : exists a, read_grains false 2 [mkGrain (Some PI) 3 1 2 0; mkGrain (Some 0) 4 5 6 0] = Some (Some a)
  /\ a_radii a = [1; 0] /\ a_centers a = [[1; 2]; [5; 6]].
Proof.
  rewrite (read_grains_right false 2 _ PI) by (first [cbn [length]; lia | eexists; split; reflexivity]).
  eexists. split; [reflexivity |]. cbn [a_radii a_centers map app gr_volume length Nat.sub repeat]. split; [| reflexivity].
  unfold ball_radius. pose proof PI_RGT_0 as P. destruct (Rlt_dec 0 PI) as [_ | N]; [| contradiction]. destruct (Rlt_dec 0 0) as [N | _]; [lra |].
  replace (PI / PI) with 1 by (field; lra). rewrite sqrt_1. reflexivity.
Qed.
