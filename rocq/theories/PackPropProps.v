(** C105: properties of a packing of spheres (packing_properties.py). *)
From Coq Require Import QArith Qabs Qminmax List Arith Bool Lia Lqa Qfield.
From Verif Require Import Util PackPropModel.
Import ListNotations.
Local Open Scope Q_scope.

(** The sphere of radius [r] around 0 has the cross section pi (r^2 - t^2) at
    height [t]; [below r t] is its primitive. *)
Definition below (r t : Q) : Q := r * r * t - t * t * t / 3.
Definition clamp (r t : Q) : Q := Qmax (- r) (Qmin r t).
(** The volume of the sphere around [c] between the heights [lo] and [hi]. *)
Definition slice (r c lo hi : Q) : Q := below r (clamp r (hi - c)) - below r (clamp r (lo - c)).

(** The positions at which the cases of the code have a gap. *)
Definition gap_case (lo hi c r : Q) : Prop :=
  c == lo \/ c == hi \/ (c - r == lo /\ hi <= c + r) \/ (c - r <= lo /\ c + r == hi).

Global Instance below_mor : Proper (Qeq ==> Qeq ==> Qeq) below.
Proof. intros a b E x y F. unfold below. rewrite E, F. reflexivity. Qed.

Lemma clamp_low : forall r t, 0 < r -> t <= - r -> clamp r t == - r.
Proof. intros r t R T. unfold clamp. rewrite Q.max_l; [reflexivity|]. eapply Qle_trans; [apply Q.le_min_r|exact T]. Qed.
Lemma clamp_high : forall r t, 0 < r -> r <= t -> clamp r t == r.
Proof. intros r t R T. unfold clamp. rewrite Q.min_l by exact T. apply Q.max_r. lra. Qed.
Lemma clamp_mid : forall r t, - r <= t -> t <= r -> clamp r t == t.
Proof. intros r t A B. unfold clamp. rewrite Q.min_r by exact B. apply Q.max_r. exact A. Qed.

Lemma below_incr : forall r x y, - r <= x -> x < y -> y <= r -> below r x < below r y.
Proof.
  intros r x y A B C. assert (E : below r y - below r x == (y - x) * (((3 # 2) * ((r - x) * (r + x)) + (3 # 2) * ((r - y) * (r + y)) + (1 # 2) * ((y - x) * (y - x))) / 3)).
  { unfold below. field. }
  assert (P1 : 0 <= (r - x) * (r + x)) by (apply Qmult_le_0_compat; lra).
  assert (P2 : 0 <= (r - y) * (r + y)) by (apply Qmult_le_0_compat; lra).
  assert (P3 : 0 < (y - x) * (y - x)) by (apply Qmult_lt_0_compat; lra).
  assert (P4 : 0 < (y - x) * (((3 # 2) * ((r - x) * (r + x)) + (3 # 2) * ((r - y) * (r + y)) + (1 # 2) * ((y - x) * (y - x))) / 3)).
  { apply Qmult_lt_0_compat; [lra|]. apply Qlt_shift_div_l; lra. }
  lra.
Qed.

Lemma below_odd : forall r t, below r (- t) == - below r t.
Proof. intros. unfold below. field. Qed.
Lemma sphere_below : forall r, sphere_volume r == below r r - below r (- r).
Proof. intro r. unfold sphere_volume, below. field. Qed.

(** The cap of height [r - b] of a sphere. *)
Theorem C105_cap : forall r b, 0 <= b -> b <= r -> cap_volume r b == below r r - below r b.
Proof.
  intros r b A B. unfold cap_volume. assert (I : 0 <= (r - b) * (r + b)) by (apply Qmult_le_0_compat; lra).
  destruct (qltb (r * r - b * b) 0) eqn:E; [apply qltb_true in E; exfalso; lra|]. cbn [andb]. unfold below. field.
Qed.
Print Assumptions C105_cap.

Lemma slice_whole : forall r c lo hi, 0 < r -> lo <= c - r -> c + r <= hi -> slice r c lo hi == sphere_volume r.
Proof. intros r c lo hi R A B. unfold slice. rewrite (clamp_high r (hi - c)) by lra. rewrite (clamp_low r (lo - c)) by lra. rewrite sphere_below. reflexivity. Qed.
Lemma slice_out : forall r c lo hi, 0 < r -> lo <= hi -> hi <= c - r \/ c + r <= lo -> slice r c lo hi == 0.
Proof.
  intros r c lo hi R L [A|A]; unfold slice.
  - rewrite (clamp_low r (hi - c)), (clamp_low r (lo - c)) by lra. lra.
  - rewrite (clamp_high r (hi - c)), (clamp_high r (lo - c)) by lra. lra.
Qed.
Lemma slice_pos : forall r c lo hi, 0 < r -> lo < hi -> c - r < hi -> lo < c + r -> 0 < slice r c lo hi.
Proof.
  intros r c lo hi R L A B. unfold slice.
  assert (X : forall t, - r <= clamp r t /\ clamp r t <= r).
  { intro t. unfold clamp. split; [apply Q.le_max_l|]. apply Q.max_lub; [lra|apply Q.le_min_l]. }
  assert (Y : clamp r (lo - c) < clamp r (hi - c)).
  { destruct (Qlt_le_dec (lo - c) (- r)) as [C|C]; [rewrite (clamp_low r (lo - c)) by lra|rewrite (clamp_mid r (lo - c)) by lra];
    (destruct (Qlt_le_dec r (hi - c)) as [D|D]; [rewrite (clamp_high r (hi - c)) by lra|rewrite (clamp_mid r (hi - c)) by lra]); lra. }
  pose proof (below_incr r _ _ (proj1 (X (lo - c))) Y (proj2 (X (hi - c)))). lra.
Qed.

Ltac qcase := match goal with |- context [qltb ?a ?b] => let E := fresh "E" in destruct (qltb a b) eqn:E; [apply qltb_true in E|apply qltb_false in E]; cbn [andb] end.
Ltac clamps r := repeat match goal with |- context [clamp r ?t] =>
  first [rewrite (clamp_high r t) by lra | rewrite (clamp_low r t) by lra | rewrite (clamp_mid r t) by lra] end.

Lemma part_gap_zero : forall lo hi c r, 0 < r -> lo < hi -> gap_case lo hi c r -> part lo hi c r == 0.
Proof.
  intros lo hi c r R L G. unfold part. unfold gap_case in G.
  repeat qcase; try reflexivity; exfalso; destruct G as [G|[G|[[G H]|[G H]]]]; lra.
Qed.

Lemma part_good : forall lo hi c r, 0 < r -> lo < hi -> ~ gap_case lo hi c r -> part lo hi c r == slice r c lo hi.
Proof.
  intros lo hi c r R L G.
  assert (NA : ~ c == lo) by (intro; apply G; left; assumption). assert (NB : ~ c == hi) by (intro; apply G; right; left; assumption).
  assert (NC : c - r == lo -> hi <= c + r -> False) by (intros; apply G; right; right; left; auto).
  assert (ND : c - r <= lo -> c + r == hi -> False) by (intros; apply G; right; right; right; auto). clear G.
  unfold part, slice. repeat qcase;
    try (exfalso; solve [lra | apply NA; lra | apply NB; lra | apply NC; lra | apply ND; lra]);
    rewrite ?C105_cap by lra; rewrite ?sphere_below; clamps r;
    try solve [unfold below; field].
  all: try (destruct (Qlt_le_dec lo (c + r)) as [X|X]; [destruct (Qlt_le_dec (c - r) hi) as [Y|Y]|]).
  all: try solve [clamps r; lra].
Qed.

(** The part of a sphere in a slice is right exactly outside of the gaps between
    the cases; there nothing is counted at all. *)
Theorem C105_part : forall lo hi c r, 0 < r -> lo < hi ->
  (~ gap_case lo hi c r -> part lo hi c r == slice r c lo hi) /\
  (gap_case lo hi c r -> part lo hi c r == 0 /\ 0 < slice r c lo hi).
Proof.
  intros lo hi c r R L. split; [apply part_good; assumption|]. intro G. split; [apply part_gap_zero; assumption|].
  unfold gap_case in G. apply slice_pos; [exact R|exact L| |]; destruct G as [G|[G|[[G H]|[G H]]]]; lra.
Qed.
Print Assumptions C105_part.

(** ** Sums *)
Definition total (l : list Q) : Q := fold_right Qplus 0 l.

Lemma slice_nonneg : forall r c lo hi, 0 < r -> lo <= hi -> 0 <= slice r c lo hi.
Proof.
  intros r c lo hi R L. destruct (Qlt_le_dec (c - r) hi) as [A|A]; [|rewrite slice_out; auto; lra].
  destruct (Qlt_le_dec lo (c + r)) as [B|B]; [|rewrite slice_out; auto; lra].
  destruct (Qlt_le_dec lo hi) as [C|C]; [apply Qlt_le_weak, slice_pos; assumption|].
  unfold slice. assert (E : lo == hi) by lra. unfold clamp. rewrite E. lra.
Qed.

Lemma segment_volume_sum : forall lo hi ps a, lo < hi -> (forall p, In p ps -> 0 < snd p /\ ~ gap_case lo hi (fst p) (snd p)) ->
  fold_left (fun v p => let x := part lo hi (fst p) (snd p) in if qltb 0 x then v + x else v) ps a == a + total (map (fun p => slice (snd p) (fst p) lo hi) ps).
Proof.
  intros lo hi ps a L. revert a. induction ps as [|[c r] ps IH]; intros a H; cbn [fold_left map total fold_right fst snd]; [lra|].
  destruct (H (c, r) (or_introl eq_refl)) as [R G]. cbn [fst snd] in R, G. pose proof (part_good lo hi c r R L G) as E. pose proof (slice_nonneg r c lo hi R (Qlt_le_weak _ _ L)) as N.
  rewrite IH by (intros p Hp; apply H; right; exact Hp). cbv zeta. fold (total (map (fun p => slice (snd p) (fst p) lo hi) ps)).
  destruct (qltb 0 (part lo hi c r)) eqn:X; [apply qltb_true in X|apply qltb_false in X]; lra.
Qed.

Lemma slice_add : forall r c x y z, slice r c x y + slice r c y z == slice r c x z.
Proof. intros. unfold slice. lra. Qed.

Lemma clamp_ext : forall r s t, s == t -> clamp r s == clamp r t.
Proof. intros r s t E. unfold clamp. rewrite E. reflexivity. Qed.

Lemma slice_ext : forall r c x y x' y', x == x' -> y == y' -> slice r c x y == slice r c x' y'.
Proof.
  intros r c x y x' y' E F. unfold slice. rewrite (clamp_ext r (y - c) (y' - c)) by lra. rewrite (clamp_ext r (x - c) (x' - c)) by lra. reflexivity.
Qed.

Lemma nq_S : forall n, nq (S n) == nq n + 1.
Proof. intro n. unfold nq. rewrite Nat2Z.inj_succ, <- Z.add_1_r, inject_Z_plus. reflexivity. Qed.
Lemma nq_pos : forall n, (0 < n)%nat -> 0 < nq n.
Proof. intros n H. unfold nq. replace 0 with (inject_Z 0) by reflexivity. rewrite <- Zlt_Qlt. lia. Qed.

Lemma slices_sum : forall r c a step n, total (map (fun i => slice r c (a + nq i * step) (a + (nq i + 1) * step)) (seq 0 n)) == slice r c a (a + nq n * step).
Proof.
  intros r c a step n.
  assert (G : forall m k, total (map (fun i => slice r c (a + nq i * step) (a + (nq i + 1) * step)) (seq k m)) == slice r c (a + nq k * step) (a + nq (k + m) * step)).
  { induction m as [|m IH]; intro k; cbn [seq map total fold_right].
    - rewrite Nat.add_0_r. unfold slice. lra.
    - fold (total (map (fun i => slice r c (a + nq i * step) (a + (nq i + 1) * step)) (seq (S k) m))). rewrite IH.
      rewrite <- (slice_add r c (a + nq k * step) (a + nq (S k) * step) (a + nq (k + S m) * step)). replace (k + S m)%nat with (S k + m)%nat by lia.
      rewrite (slice_ext r c (a + nq k * step) (a + (nq k + 1) * step) (a + nq k * step) (a + nq (S k) * step)); [lra|lra|rewrite nq_S; lra]. }
  rewrite G. rewrite Nat.add_0_l. apply slice_ext; [|reflexivity]. assert (Z0 : nq 0 == 0) by reflexivity. rewrite Z0. lra.
Qed.

Lemma total_app : forall A (f g : A -> Q) l, total (map (fun x => f x + g x) l) == total (map f l) + total (map g l).
Proof. intros A f g. induction l as [|x l IH]; cbn [map total fold_right]; [lra|]. unfold total in IH. rewrite IH. lra. Qed.

Lemma total_ext : forall A (f g : A -> Q) l, (forall x, In x l -> f x == g x) -> total (map f l) == total (map g l).
Proof.
  intros A f g. induction l as [|x l IH]; intro H; cbn [map total fold_right]; [reflexivity|]. rewrite (H x (or_introl eq_refl)).
  unfold total in IH. rewrite IH; [reflexivity|]. intros y Hy. apply H. right. exact Hy.
Qed.

Lemma total_swap : forall A B (f : A -> B -> Q) la lb,
  total (map (fun a => total (map (f a) lb)) la) == total (map (fun b => total (map (fun a => f a b) la)) lb).
Proof.
  intros A B f la lb. induction la as [|a la IH]; cbn [map].
  - cbn [total fold_right]. induction lb as [|b lb IH]; cbn [map total fold_right]; [reflexivity|]. unfold total in IH. rewrite <- IH. lra.
  - cbn [total fold_right]. fold (total (map (fun a => total (map (f a) lb)) la)). rewrite IH.
    rewrite <- (total_app B (f a) (fun b => total (map (fun a => f a b) la)) lb). apply total_ext. intros b _. reflexivity.
Qed.

Lemma total_scale : forall A (f : A -> Q) k l, total (map (fun x => f x * k) l) == total (map f l) * k.
Proof. intros A f k. induction l as [|x l IH]; cbn [map total fold_right]; [lra|]. unfold total in IH. rewrite IH. lra. Qed.

(** If no particle is in a gap, every density is the volume in the slice by the
    volume of the slice, and the densities account for the whole volume. *)
Theorem C105_densities : forall ps lo hi area divs, (0 < divs)%nat -> lo < hi -> 0 < area ->
  let step := (hi - lo) / nq divs in
  (forall p i, In p ps -> (i < divs)%nat -> 0 < snd p /\ ~ gap_case (lo + nq i * step) (lo + (nq i + 1) * step) (fst p) (snd p)) ->
  length (distribute ps lo hi area divs) = divs /\
  (forall i, (i < divs)%nat -> nth i (distribute ps lo hi area divs) 0 * (step * area) ==
     total (map (fun p => slice (snd p) (fst p) (lo + nq i * step) (lo + (nq i + 1) * step)) ps)) /\
  ((forall p, In p ps -> lo <= fst p - snd p /\ fst p + snd p <= hi) ->
     total (distribute ps lo hi area divs) * (step * area) == total (map (fun p => (4 # 3) * (snd p * snd p * snd p)) ps)).
Proof.
  intros ps lo hi area divs D L AR step H. pose proof (nq_pos divs D) as DP.
  assert (SP : 0 < step) by (unfold step; apply Qlt_shift_div_l; lra).
  assert (EACH : forall i, (i < divs)%nat -> segment_volume (lo + nq i * step) (lo + (nq i + 1) * step) ps == total (map (fun p => slice (snd p) (fst p) (lo + nq i * step) (lo + (nq i + 1) * step)) ps)).
  { intros i Hi. unfold segment_volume. rewrite segment_volume_sum; [lra|lra|]. intros p Hp. apply H; assumption. }
  unfold distribute. fold step. split; [rewrite map_length, seq_length; reflexivity|]. split.
  - intros i Hi. rewrite (nth_indep _ 0 ((fun i => segment_volume (lo + nq i * step) (lo + (nq i + 1) * step) ps / (step * area)) 0%nat)) by (rewrite map_length, seq_length; exact Hi).
    rewrite (map_nth (fun i => segment_volume (lo + nq i * step) (lo + (nq i + 1) * step) ps / (step * area))), seq_nth by exact Hi. cbn [Nat.add]. rewrite <- (EACH i Hi). field. split; lra.
  - intro IN. rewrite <- total_scale.
    rewrite (total_ext _ _ (fun i => total (map (fun p => slice (snd p) (fst p) (lo + nq i * step) (lo + (nq i + 1) * step)) ps))).
    2:{ intros i Hi. apply in_seq in Hi. rewrite <- (EACH i) by lia. field. split; lra. }
    rewrite total_swap. apply total_ext. intros p Hp. rewrite slices_sum. destruct (IN p Hp) as [A B]. destruct (H p 0%nat Hp D) as [R _].
    assert (E : lo + nq divs * step == hi) by (unfold step; field; lra). rewrite slice_whole; [reflexivity|exact R|exact A|rewrite E; exact B].
Qed.
Print Assumptions C105_densities.

Lemma limits_spec : forall ps a b,
  let l := fold_left (fun l p => (pymin (fst l) (fst p - snd p), pymax (snd l) (fst p + snd p))) ps (a, b) in
  fst l <= a /\ b <= snd l /\ (forall p : Q * Q, In p ps -> fst l <= fst p - snd p /\ fst p + snd p <= snd l) /\
  (fst l = a \/ exists p, In p ps /\ fst l = fst p - snd p) /\ (snd l = b \/ exists p, In p ps /\ snd l = fst p + snd p).
Proof.
  induction ps as [|q ps IH]; intros a b; cbn [fold_left fst snd].
  - split; [apply Qle_refl|]. split; [apply Qle_refl|]. split; [intros p []|]. split; left; reflexivity.
  - specialize (IH (pymin a (fst q - snd q)) (pymax b (fst q + snd q))). cbv zeta in IH.
    set (l := fold_left (fun l p => (pymin (fst l) (fst p - snd p), pymax (snd l) (fst p + snd p))) ps (pymin a (fst q - snd q), pymax b (fst q + snd q))) in *.
    destruct IH as (A & B & C & D & E).
    assert (M1 : pymin a (fst q - snd q) <= a /\ pymin a (fst q - snd q) <= fst q - snd q /\ (pymin a (fst q - snd q) = a \/ pymin a (fst q - snd q) = fst q - snd q)).
    { unfold pymin. destruct (qltb (fst q - snd q) a) eqn:X; [apply qltb_true in X|apply qltb_false in X]; (split; [lra|split; [lra|auto]]). }
    assert (M2 : b <= pymax b (fst q + snd q) /\ fst q + snd q <= pymax b (fst q + snd q) /\ (pymax b (fst q + snd q) = b \/ pymax b (fst q + snd q) = fst q + snd q)).
    { unfold pymax. destruct (qltb b (fst q + snd q)) eqn:X; [apply qltb_true in X|apply qltb_false in X]; (split; [lra|split; [lra|auto]]). }
    destruct M1 as (M1 & M1' & M1''). destruct M2 as (M2 & M2' & M2'').
    split; [lra|]. split; [lra|]. split; [intros p [<-|Hp]; [split; lra|apply C, Hp]|]. split.
    + destruct D as [D|(p & Hp & D)]; [|right; exists p; split; [right; exact Hp|exact D]]. rewrite D. destruct M1'' as [X|X]; [left; exact X|right; exists q; split; [left; reflexivity|exact X]].
    + destruct E as [E|(p & Hp & E)]; [|right; exists p; split; [right; exact Hp|exact E]]. rewrite E. destruct M2'' as [X|X]; [left; exact X|right; exists q; split; [left; reflexivity|exact X]].
Qed.

(** The limits enclose all particles and are touched by some, if there are
    particles and no coordinate exceeds 10^9. *)
Theorem C105_limits : forall ps lo hi, limits ps = (lo, hi) ->
  (forall p, In p ps -> lo <= fst p - snd p /\ fst p + snd p <= hi) /\
  (ps <> [] -> (forall p, In p ps -> fst p - snd p < 1000000000 /\ - 1000000000 < fst p + snd p) ->
     (exists p, In p ps /\ fst p - snd p == lo) /\ (exists p, In p ps /\ fst p + snd p == hi)).
Proof.
  intros ps lo hi E. destruct (limits_spec ps 1000000000 (- 1000000000)) as (A & B & C & D & F). fold (limits ps) in *. rewrite E in *. cbn [fst snd] in *.
  split; [exact C|]. intros NE R. destruct ps as [|q ps]; [contradiction|]. destruct (C q (or_introl eq_refl)) as [C1 C2]. destruct (R q (or_introl eq_refl)) as [R1 R2]. split.
  - destruct D as [D|(p & Hp & D)]; [exfalso; rewrite D in C1; lra|]. exists p. split; [exact Hp|rewrite D; reflexivity].
  - destruct F as [F|(p & Hp & F)]; [exfalso; rewrite F in C2; lra|]. exists p. split; [exact Hp|rewrite F; reflexivity].
Qed.
Print Assumptions C105_limits.

(** The limits are those of the particles themselves, so that the outermost
    particles touch them: such a particle of at least the thickness of a slice
    is in a gap and is not counted in the first or last slice. *)
Theorem C105_outer_refuted : forall lo hi divs c r, (0 < divs)%nat -> lo < hi -> 0 < r ->
  let step := (hi - lo) / nq divs in step <= 2 * r ->
  (c - r == lo -> part (lo + nq 0 * step) (lo + (nq 0 + 1) * step) c r == 0 /\ 0 < slice r c lo (lo + step)) /\
  (c + r == hi -> part (lo + nq (divs - 1) * step) (lo + (nq (divs - 1) + 1) * step) c r == 0 /\ 0 < slice r c (hi - step) hi).
Proof.
  intros lo hi divs c r D L R step W. pose proof (nq_pos divs D) as DP.
  assert (SP : 0 < step) by (unfold step; apply Qlt_shift_div_l; lra).
  assert (Z0 : nq 0 == 0) by reflexivity.
  assert (DE : (nq (divs - 1) + 1) * step == hi - lo).
  { rewrite <- nq_S. replace (S (divs - 1)) with divs by lia. unfold step. field. lra. }
  split; intro E.
  - split; [|apply slice_pos; lra]. apply part_gap_zero; [exact R|lra|]. right. right. left. rewrite Z0. split; lra.
  - split; [|apply slice_pos; lra]. apply part_gap_zero; [exact R|lra|]. right. right. right. split; lra.
Qed.
Print Assumptions C105_outer_refuted.

(** A packing of one sphere with two slices has density 0 everywhere. *)
Theorem C105_lost_refuted : exists ps, limits ps = (0, 2) /\ (forall p, In p ps -> 0 < snd p) /\ Forall (fun x => x == 0) (distribute ps 0 2 4 2) /\ 0 < total (map (fun p => sphere_volume (snd p)) ps).
Proof.
  exists [(1, 1)]. split; [vm_compute; reflexivity|]. split; [intros p [<-|[]]; reflexivity|]. split; [|vm_compute; reflexivity].
  vm_compute. repeat constructor.
Qed.
Print Assumptions C105_lost_refuted.

Example C105_applies : let ps := [(1, 1); (5 # 2, 1 # 2)] in (fst (limits ps) == 0 /\ snd (limits ps) == 3) /\
  (forall p i, In p ps -> (i < 1)%nat -> 0 < snd p /\ ~ gap_case (0 + nq i * ((3 - 0) / nq 1)) (0 + (nq i + 1) * ((3 - 0) / nq 1)) (fst p) (snd p)) /\
  map Qred (distribute ps 0 3 4 1) = [1 # 8].
Proof.
  split; [split; vm_compute; reflexivity|]. split; [|vm_compute; reflexivity].
  intros p i Hp Hi. replace i with 0%nat by lia. unfold gap_case. destruct Hp as [<-|[<-|[]]]; (split; [reflexivity|]);
  intros [C|[C|[[C1 C2]|[C1 C2]]]]; vm_compute in *; try discriminate; solve [apply C1; reflexivity|apply C2; reflexivity].
Qed.

(** ** Coordination numbers *)
Lemma bump_spec : forall k l, (k < length l)%nat -> exists l', bump k l = Some l' /\ length l' = length l /\ total l' == total l + 1 /\
  forall i, nth i l' 0 == nth i l 0 + (if Nat.eqb i k then 1 else 0).
Proof.
  induction k as [|k IH]; intros [|x l] H; cbn [length] in H; try lia; cbn [bump].
  - exists (x + 1 :: l). split; [reflexivity|]. split; [reflexivity|]. split; [cbn [total fold_right]; lra|]. intros [|i]; cbn [nth Nat.eqb]; lra.
  - destruct (IH l ltac:(lia)) as (l' & E & L & T & N). rewrite E. cbn [obind]. exists (x :: l'). split; [reflexivity|]. split; [cbn [length]; lia|].
    split; [cbn [total fold_right]; fold (total l'); fold (total l); lra|]. intros [|i]; cbn [nth Nat.eqb]; [lra|apply N].
Qed.

Fixpoint degree (i : nat) (contacts : list (nat * nat)) : Q :=
  match contacts with
  | [] => 0
  | (a, b) :: r => (if Nat.eqb i a then 1 else 0) + (if Nat.eqb i b then 1 else 0) + degree i r
  end.

Lemma count_spec : forall cs num, (forall a b, In (a, b) cs -> (a < length num)%nat /\ (b < length num)%nat) ->
  exists num', count_contacts cs num = Some num' /\ length num' = length num /\ total num' == total num + 2 * nq (length cs) /\
    forall i, nth i num' 0 == nth i num 0 + degree i cs.
Proof.
  induction cs as [|[a b] cs IH]; intros num H; cbn [count_contacts].
  - exists num. split; [reflexivity|]. split; [reflexivity|]. split; [cbn [length]; assert (Z0 : nq 0 == 0) by reflexivity; rewrite Z0; lra|]. intro i. cbn [degree]. lra.
  - destruct (H a b (or_introl eq_refl)) as [HA HB]. destruct (bump_spec a num HA) as (n1 & E1 & L1 & T1 & N1). rewrite E1. cbn [obind].
    destruct (bump_spec b n1 ltac:(lia)) as (n2 & E2 & L2 & T2 & N2). rewrite E2. cbn [obind].
    destruct (IH n2) as (n' & E & L & T & N); [intros x y Hxy; destruct (H x y (or_intror Hxy)); lia|].
    exists n'. split; [exact E|]. split; [lia|]. split; [cbn [length]; rewrite T, T2, T1, nq_S; lra|]. intro i. rewrite N, N2, N1. cbn [degree]. lra.
Qed.

Lemma qsum_total : forall l, qsum l == total l.
Proof.
  intro l. unfold qsum. assert (G : forall a, fold_left Qplus l a == a + total l); [|rewrite G; lra].
  induction l as [|x l IH]; intro a; cbn [fold_left total fold_right]; [lra|]. rewrite IH. fold (total l). lra.
Qed.
Lemma repeat_zero : forall n, total (repeat 0 n) == 0 /\ forall i, nth i (repeat 0 n) 0 == 0.
Proof.
  induction n as [|n [A B]]; cbn [repeat]; [split; [reflexivity|intros [|i]; reflexivity]|]. split; [cbn [total fold_right]; fold (total (repeat 0 n)); lra|]. intros [|i]; cbn [nth]; [reflexivity|apply B].
Qed.

(** Every particle gets the number of contacts it takes part in; the average is
    twice the number of contacts by the number of particles. *)
Theorem C105_coordination : forall n cs, (0 < n)%nat -> (forall a b, In (a, b) cs -> (a < n)%nat /\ (b < n)%nat) ->
  (exists num, count_contacts cs (repeat 0 n) = Some num /\ length num = n /\ forall i, nth i num 0 == degree i cs) /\
  (exists v, coord_avg n cs = Some v /\ v == 2 * nq (length cs) / nq n).
Proof.
  intros n cs H R. destruct (count_spec cs (repeat 0 n)) as (num & E & L & T & N); [intros a b Hab; rewrite repeat_length; apply R, Hab|].
  destruct (repeat_zero n) as [Z1 Z2]. split.
  - exists num. split; [exact E|]. split; [rewrite L, repeat_length; reflexivity|]. intro i. rewrite N, Z2. lra.
  - unfold coord_avg. rewrite E. cbn [obind]. destruct n as [|n]; [lia|]. exists (qsum num / nq (S n)). split; [reflexivity|]. rewrite qsum_total, T, Z1. rewrite Qplus_0_l. reflexivity.
Qed.
Print Assumptions C105_coordination.

Example C105_coordination_applies : count_contacts [(0, 1); (1, 2); (0, 2); (2, 3)]%nat (repeat 0 4) = Some [2; 2; 3; 1] /\ coord_avg 4 [(0, 1); (1, 2); (0, 2); (2, 3)]%nat = Some (8 # 4).
Proof. split; vm_compute; reflexivity. Qed.

(** What is printed as average radius is the middle between smallest and largest
    radius. *)
Theorem C105_average_refuted : exists radii a d, radius_summary radii = Some (a, d) /\ ~ a == total radii / nq (length radii).
Proof. exists [1; 1; 4]. eexists. eexists. split; [vm_compute; reflexivity|]. vm_compute. discriminate. Qed.
Print Assumptions C105_average_refuted.

(** All radii are within the printed deviation from it. *)
Theorem C105_radius_interval : forall radii a d, radius_summary radii = Some (a, d) -> forall r, In r radii -> a - d <= r /\ r <= a + d.
Proof.
  intros [|x l] a d H; [discriminate|]. cbn [radius_summary] in H. inversion H; subst. clear H.
  assert (MI : forall l x, fold_left pymin l x <= x /\ forall r, In r l -> fold_left pymin l x <= r).
  { clear. induction l as [|y l IH]; intro x; cbn [fold_left]; [split; [apply Qle_refl|intros r []]|]. destruct (IH (pymin x y)) as [A B].
    assert (C : pymin x y <= x /\ pymin x y <= y) by (unfold pymin; destruct (qltb y x) eqn:E; [apply qltb_true in E|apply qltb_false in E]; split; lra).
    split; [lra|]. intros r [<-|Hr]; [lra|apply B, Hr]. }
  assert (MA : forall l x, x <= fold_left pymax l x /\ forall r, In r l -> r <= fold_left pymax l x).
  { clear. induction l as [|y l IH]; intro x; cbn [fold_left]; [split; [apply Qle_refl|intros r []]|]. destruct (IH (pymax x y)) as [A B].
    assert (C : x <= pymax x y /\ y <= pymax x y) by (unfold pymax; destruct (qltb x y) eqn:E; [apply qltb_true in E|apply qltb_false in E]; split; lra).
    split; [lra|]. intros r [<-|Hr]; [lra|apply B, Hr]. }
  destruct (MI l x) as [A B]. destruct (MA l x) as [C D]. set (mi := fold_left pymin l x) in *. set (ma := fold_left pymax l x) in *.
  assert (HA : (mi + ma) / 2 == (1 # 2) * mi + (1 # 2) * ma) by field.
  intros r [<-|Hr]; [split; lra|]. specialize (B r Hr). specialize (D r Hr). split; lra.
Qed.
Print Assumptions C105_radius_interval.

(** The densities are plotted at the midpoints of the slices (relative to the
    size of the packing) exactly if the size is 1. *)
Theorem C105_positions : forall size divs, (1 < divs)%nat -> length (positions size divs) = divs /\
  ((forall i, (i < divs)%nat -> nth i (positions size divs) 0 == (nq i + (1 # 2)) / nq divs) <-> size == 1).
Proof.
  intros size [|[|m]] H; try lia. clear H. unfold positions, linspace. split; [rewrite map_length, seq_length; reflexivity|].
  set (N := nq (S (S m))). set (M := nq (S m)). assert (NM : N == M + 1) by apply nq_S. assert (MP : 0 < M) by (apply nq_pos; lia).
  assert (NTH : forall i, (i < S (S m))%nat -> nth i (map (fun k => 0 + (1 # 2) * size / N + nq k * ((1 - (1 # 2) * size / N - (0 + (1 # 2) * size / N)) / M)) (seq 0 (S (S m)))) 0
    == (1 # 2) * size / N + nq i * ((1 - size / N) / M)).
  { intros i Hi. rewrite (nth_indep _ 0 ((fun k => 0 + (1 # 2) * size / N + nq k * ((1 - (1 # 2) * size / N - (0 + (1 # 2) * size / N)) / M)) 0%nat)) by (rewrite map_length, seq_length; exact Hi).
    rewrite (map_nth (fun k => 0 + (1 # 2) * size / N + nq k * ((1 - (1 # 2) * size / N - (0 + (1 # 2) * size / N)) / M))), seq_nth by exact Hi. cbn [Nat.add]. field. split; lra. }
  split.
  - intro A. specialize (A 0%nat ltac:(lia)). rewrite NTH in A by lia. assert (Z0 : nq 0 == 0) by reflexivity. rewrite Z0 in A.
    assert (B : size == ((1 # 2) * size / N + 0 * ((1 - size / N) / M)) * (2 * N)) by (field; split; lra). rewrite B, A. field. lra.
  - intros S1 i Hi. rewrite NTH by exact Hi. rewrite S1, NM. field. split; lra.
Qed.
Print Assumptions C105_positions.

Example C105_positions_applies : map Qred (positions 1 2) = [1 # 4; 3 # 4] /\ map Qred (positions (1 # 10) 2) = [1 # 40; 39 # 40].
Proof. split; vm_compute; reflexivity. Qed.
