(** C27: filter of a field by a bounding box. *)
From Coq Require Import List QArith Qabs Qminmax Arith Bool Lia Lqa Qfield.
From Verif Require Import Util BoxFilterModel BoxFilterProofs.
Import ListNotations.
Local Open Scope nat_scope.

(** ** Classification of points *)
(** Without tolerance of the underlying box: the three cases and the filter agree with
    the coordinates. *)
Theorem C27_position : forall dim low up eps p, (0 < eps)%Q ->
  (position dim low up 0 eps p = Outside <-> exists d, d < dim /\ (p d < low d \/ up d < p d)%Q) /\
  (position dim low up 0 eps p = Inside <-> forall d, d < dim -> (low d + eps <= p d /\ p d <= up d - eps)%Q) /\
  (position dim low up 0 eps p = Boundary <-> (forall d, d < dim -> (low d <= p d /\ p d <= up d)%Q) /\ exists d, d < dim /\ (p d < low d + eps \/ up d - eps < p d)%Q).
Proof.
  intros dim low up eps p EP.
  assert (BC : box_contains dim low up 0 p = true <-> forall d, d < dim -> (low d <= p d /\ p d <= up d)%Q).
  { unfold box_contains. rewrite forallb_forall. split.
    - intros H d Hd. specialize (H d ltac:(apply in_seq; lia)). apply andb_true_iff in H. destruct H as [A B]. apply negb_true_iff, qltb_false in A. apply negb_true_iff, qltb_false in B. lra.
    - intros H d Hd. apply in_seq in Hd. specialize (H d ltac:(lia)). apply andb_true_iff. split; apply negb_true_iff, qltb_false; lra. }
  assert (BF : box_contains dim low up 0 p = false <-> exists d, d < dim /\ (p d < low d \/ up d < p d)%Q).
  { split.
    - intro H. unfold box_contains in H. induction (seq 0 dim) as [|d l IH] eqn:E in H |- *; [discriminate|]. clear IH. revert H.
      assert (G : forall l, (forall i, In i l -> i < dim) -> forallb (fun d => negb (qltb (p d) (low d - 0 * (up d - low d))) && negb (qltb (up d + 0 * (up d - low d)) (p d))) l = false -> exists d, d < dim /\ (p d < low d \/ up d < p d)%Q).
      { clear. induction l as [|i l IH]; intros HI H; [discriminate|]. cbn [forallb] in H. apply andb_false_iff in H. destruct H as [H|H]; [|apply IH; [intros j Hj; apply HI; right; exact Hj|exact H]].
        exists i. split; [apply HI; left; reflexivity|]. apply andb_false_iff in H. destruct H as [H|H]; apply negb_false_iff, qltb_true in H; [left|right]; lra. }
      apply G. rewrite <- E. intros i Hi. apply in_seq in Hi. lia.
    - intros (d & Hd & H). destruct (box_contains dim low up 0 p) eqn:B; [|reflexivity]. exfalso. pose proof (proj1 BC eq_refl d Hd). lra. }
  assert (NE : (exists d, d < dim /\ (Qabs (low d - p d) < eps \/ Qabs (up d - p d) < eps)%Q) <-> existsb (fun d => qltb (Qabs (low d - p d)) eps || qltb (Qabs (up d - p d)) eps) (seq 0 dim) = true).
  { rewrite existsb_exists. split.
    - intros (d & Hd & H). exists d. split; [apply in_seq; lia|]. apply orb_true_iff. rewrite !qltb_true. exact H.
    - intros (d & Hd & H). apply in_seq in Hd. exists d. split; [lia|]. apply orb_true_iff in H. rewrite !qltb_true in H. exact H. }
  unfold position. split; [|split].
  - rewrite <- BF. destruct (box_contains dim low up 0 p); [|split; reflexivity]. destruct (existsb _ (seq 0 dim)); split; discriminate.
  - destruct (box_contains dim low up 0 p) eqn:B.
    + pose proof (proj1 BC eq_refl) as IN. destruct (existsb (fun d => qltb (Qabs (low d - p d)) eps || qltb (Qabs (up d - p d)) eps) (seq 0 dim)) eqn:X.
      * split; [discriminate|]. intro H. exfalso. destruct (proj2 NE eq_refl) as (d & Hd & C). specialize (H d Hd). destruct C as [C|C]; apply Qabs_Qlt_condition in C; lra.
      * split; [|reflexivity]. intros _ d Hd. specialize (IN d Hd).
        assert (ND : ~ (Qabs (low d - p d) < eps \/ Qabs (up d - p d) < eps)%Q) by (intro C; assert (false = true) by (apply NE; eauto); discriminate).
        split; apply Qnot_lt_le; intro C; apply ND; [left|right]; apply Qabs_Qlt_condition; lra.
    + split; [discriminate|]. intro H. exfalso. destruct (proj1 BF eq_refl) as (d & Hd & C). specialize (H d Hd). lra.
  - destruct (box_contains dim low up 0 p) eqn:B.
    + pose proof (proj1 BC eq_refl) as IN. destruct (existsb (fun d => qltb (Qabs (low d - p d)) eps || qltb (Qabs (up d - p d)) eps) (seq 0 dim)) eqn:X.
      * split; [|reflexivity]. intros _. split; [exact IN|]. destruct (proj2 NE eq_refl) as (d & Hd & C). exists d. split; [exact Hd|]. destruct C as [C|C]; apply Qabs_Qlt_condition in C; lra.
      * split; [discriminate|]. intros (_ & d & Hd & C). exfalso. specialize (IN d Hd). assert (false = true); [|discriminate]. apply NE. exists d. split; [exact Hd|]. destruct C as [C|C]; [left|right]; apply Qabs_Qlt_condition; lra.
    + split; [discriminate|]. intros (H & _). exfalso. destruct (proj1 BF eq_refl) as (d & Hd & C). specialize (H d Hd). lra.
Qed.
Print Assumptions C27_position.

(** The filter used for integrals is one exactly at the points strictly in the box. *)
Theorem C27_filter_value : forall dim low up p,
  ((forall d, d < dim -> (low d < p d /\ p d < up d)%Q) /\ filter_value dim low up p = 1%Q) \/
  ((exists d, d < dim /\ (p d <= low d \/ up d <= p d)%Q) /\ filter_value dim low up p = 0%Q).
Proof.
  intros dim low up p. unfold filter_value.
  assert (Z : forall l, fold_left (fun v d => let v := if qltb (low d) (p d) then v else 0%Q in if qltb (p d) (up d) then v else 0%Q) l 0%Q = 0%Q).
  { induction l as [|d l IH]; [reflexivity|]. cbn [fold_left]. cbv zeta. destruct (qltb (low d) (p d)), (qltb (p d) (up d)); exact IH. }
  assert (G : forall l, ((forall d, In d l -> (low d < p d /\ p d < up d)%Q) /\ fold_left (fun v d => let v := if qltb (low d) (p d) then v else 0%Q in if qltb (p d) (up d) then v else 0%Q) l 1%Q = 1%Q) \/
    ((exists d, In d l /\ (p d <= low d \/ up d <= p d)%Q) /\ fold_left (fun v d => let v := if qltb (low d) (p d) then v else 0%Q in if qltb (p d) (up d) then v else 0%Q) l 1%Q = 0%Q)).
  { induction l as [|d l IH]; [left; split; [intros d []|reflexivity]|]. cbn [fold_left]. cbv zeta.
    destruct (qltb (low d) (p d)) eqn:A.
    - destruct (qltb (p d) (up d)) eqn:B.
      + apply qltb_true in A. apply qltb_true in B. destruct IH as [[H1 H2]|[(e & He & H1) H2]].
        * left. split; [|exact H2]. intros e [<-|He]; [auto|apply H1, He].
        * right. split; [|exact H2]. exists e. split; [right; exact He|exact H1].
      + apply qltb_false in B. right. rewrite Z. split; [|reflexivity]. exists d. split; [left; reflexivity|auto].
    - apply qltb_false in A. right. split; [exists d; split; [left; reflexivity|auto]|]. destruct (qltb (p d) (up d)); apply Z. }
  destruct (G (seq 0 dim)) as [[H1 H2]|[(d & Hd & H1) H2]]; [left|right]; (split; [|exact H2]).
  - intros d Hd. apply H1, in_seq. lia.
  - exists d. apply in_seq in Hd. split; [lia|exact H1].
Qed.
Print Assumptions C27_filter_value.

Theorem C27_filter_agrees : forall dim low up eps p, (0 < eps)%Q ->
  (position dim low up 0 eps p = Inside -> filter_value dim low up p = 1%Q) /\ (position dim low up 0 eps p = Outside -> filter_value dim low up p = 0%Q).
Proof.
  intros dim low up eps p EP. destruct (C27_position dim low up eps p EP) as (O & I & _). destruct (C27_filter_value dim low up p) as [[H1 H2]|[(d & Hd & H1) H2]]; (split; intro H; [|]); try exact H2; exfalso.
  - apply O in H. destruct H as (d & Hd & C). specialize (H1 d Hd). lra.
  - pose proof (proj1 I H d Hd). lra.
Qed.
Print Assumptions C27_filter_agrees.

(** ** Cells cut by the box *)
Theorem C27_intersects : forall dim low up tol eps vs,
  intersects dim low up tol eps vs = true <-> (exists v, In v vs /\ position dim low up tol eps v <> Inside) /\ (exists v, In v vs /\ position dim low up tol eps v <> Outside).
Proof.
  intros dim low up tol eps vs. unfold intersects. rewrite andb_true_iff, !Nat.ltb_lt.
  assert (G : forall (f : point -> bool), length (filter f vs) < length vs <-> exists v, In v vs /\ f v = false).
  { intro f. assert (LE : forall l, length (filter f l) <= length l) by (clear; induction l as [|v l IH]; [reflexivity|]; cbn [filter]; destruct (f v); cbn [length]; lia).
    induction vs as [|v vs IH]; [cbn; split; [lia|intros (v & [] & _)]|]. cbn [filter]. destruct (f v) eqn:F; cbn [length].
    - rewrite <- Nat.succ_lt_mono, IH. split; intros (w & Hw & E); exists w; [split; [right; exact Hw|exact E]|]. destruct Hw as [->|Hw]; [congruence|auto].
    - split; [intros _; exists v; split; [left; reflexivity|exact F]|]. intros _. specialize (LE vs). lia. }
  rewrite !G. unfold is_inside, is_outside. split; intros [(v & Hv & A) (w & Hw & B)].
  - split; [exists v; split; [exact Hv|intro C; rewrite C in A; discriminate]|exists w; split; [exact Hw|intro C; rewrite C in B; discriminate]].
  - split; [exists v; split; [exact Hv|destruct (position dim low up tol eps v); [reflexivity|reflexivity|contradiction]]|exists w; split; [exact Hw|destruct (position dim low up tol eps w); [contradiction|reflexivity|reflexivity]]].
Qed.
Print Assumptions C27_intersects.

(** ** Intersection of an edge with a plane *)
(** The point found lies on the plane and on the line through the edge. *)
Theorem C27_intersection : forall dim p0 p1 co no e fac p, (0 <= e)%Q -> intersect_line_plane dim p0 p1 co no e = Some (fac, p) ->
  (sdot dim no (fun i => p i - co i)%Q == 0)%Q /\ (forall i, (p i == (1 + fac) * p0 i + (- fac) * p1 i)%Q).
Proof.
  intros dim p0 p1 co no e fac p He H. destruct (intersect_spec dim p0 p1 co no e fac p He H) as [A B]. split; [exact A|]. intro i. rewrite B. ring.
Qed.
Print Assumptions C27_intersection.

(** ** One edge *)
Section Edge.
Variables (dim : nat) (low up : point) (eps iso : Q) (pt : nat -> point) (len : nat * nat -> Q).
Hypothesis EPS : (0 < eps)%Q.

Lemma neg_factor : forall a b c : Q, ((a - c) * (b - c) < 0 -> (c < a /\ b < c) \/ (a < c /\ c < b))%Q.
Proof.
  intros a b c H. destruct (Q_dec a c) as [[L|G]|E].
  - right. split; [exact L|]. destruct (Qlt_le_dec c b) as [X|X]; [exact X|]. exfalso. assert (0 <= (c - a) * (c - b))%Q by nra. nra.
  - left. split; [exact G|]. destruct (Qlt_le_dec b c) as [X|X]; [exact X|]. exfalso. assert (0 <= (a - c) * (b - c))%Q by nra. nra.
  - rewrite E in H. exfalso. setoid_replace ((c - c) * (b - c))%Q with 0%Q in H by ring. lra.
Qed.

Lemma planes_loop_skip : forall l v0 v1 ps x, ~ (len l == 0)%Q -> (forall p, In p ps -> exists o d, p = (o, normal d) /\ d < dim /\ crossed dim d o (pt (fst l)) (pt (snd l)) = false) ->
  planes_loop dim iso pt len l v0 v1 ps x = Some x.
Proof.
  intros l v0 v1 ps x HL. induction ps as [|p ps IH]; intro H; [reflexivity|]. cbn [planes_loop]. destruct (H p (or_introl eq_refl)) as (o & d & -> & Hd & C).
  pose proof (plane_step_spec dim iso pt len l v0 v1 o d x Hd HL) as S. rewrite C in S. rewrite S. cbn [obind]. apply IH. intros q Hq. apply H. right. exact Hq.
Qed.

Lemma planes_loop_app : forall l v0 v1 ps qs x, planes_loop dim iso pt len l v0 v1 (ps ++ qs) x = (y <- planes_loop dim iso pt len l v0 v1 ps x ;; planes_loop dim iso pt len l v0 v1 qs y).
Proof.
  intros l v0 v1. induction ps as [|p ps IH]; intros qs x; [reflexivity|]. cbn [app planes_loop]. destruct (plane_step dim iso pt len l v0 v1 p x) as [y|]; [|reflexivity]. cbn [obind]. apply IH.
Qed.

Lemma seq_split : forall d, d < dim -> seq 0 dim = seq 0 d ++ d :: seq (S d) (dim - S d).
Proof.
  intros d Hd. replace dim with (d + S (dim - S d)) at 1 by lia. rewrite seq_app. reflexivity.
Qed.

(** An edge parallel to the axis [d] from an inner point [a], with a value not below
    the iso level, through the face [o] to the point [b] with a value not above it:
    afterwards the linear interpolation at the face has the iso value (up to the
    tolerance of the code), and only the value at [b] was changed. *)
Theorem C27_edge_cut : forall l a b d o x, l = (a, b) \/ l = (b, a) -> a <> b -> ~ (len l == 0)%Q -> d < dim -> o = low \/ o = up ->
  (forall i, i < dim -> i <> d -> (pt a i == pt b i)%Q) ->
  position dim low up 0 eps (pt a) = Inside -> (iso <= x a)%Q -> (x b <= iso)%Q ->
  (1 # 1000000 < Qabs (pt a d - pt b d))%Q -> ((pt a d - o d) * (pt b d - o d) < 0)%Q ->
  exists x' t, line_step dim low up 0 eps iso pt len l x = Some x' /\ (0 < t /\ t < 1)%Q /\
    (pt a d + t * (pt b d - pt a d) == o d)%Q /\
    (Qabs ((1 - t) * x' a + t * x' b - iso) <= 1 # 1000000)%Q /\ forall j, j <> b -> x' j = x j.
Proof.
  intros l a b d o x HL AB LEN Hd Ho AX IN XA XB BIG CROSS.
  assert (NS : line_step dim low up 0 eps iso pt len l x = planes_loop dim iso pt len l (x (fst l)) (x (snd l)) (planes dim low up) x).
  { unfold line_step. assert (F : outside_or_boundary dim low up 0 eps (pt a) || qltb (x a) iso = false). { unfold outside_or_boundary, is_inside. rewrite IN. cbn. apply qltb_false. exact XA. }
    destruct HL as [-> | ->]; cbn [fst snd]; rewrite F; [reflexivity|]. rewrite andb_false_r. reflexivity. }
  pose proof (position_inside dim low up eps EPS (pt a) IN) as PA.
  assert (ENDS : forall (P : point -> point -> Prop), P (pt a) (pt b) -> P (pt b) (pt a) -> P (pt (fst l)) (pt (snd l))) by (intros P P1 P2; destruct HL as [-> | ->]; assumption).
  assert (NOT : forall o' e, e < dim -> e <> d -> crossed dim e o' (pt (fst l)) (pt (snd l)) = false).
  { intros o' e He NE. destruct (crossed dim e o' (pt (fst l)) (pt (snd l))) eqn:C; [|reflexivity]. exfalso. apply crossed_true in C; [|exact He].
    assert (C' : ((pt a e - o' e) * (pt b e - o' e) < 0)%Q) by (destruct HL as [-> | ->]; cbn [fst snd] in C; [exact C|rewrite Qmult_comm; exact C]). rewrite (AX e He NE) in C'. clear - C'. set (z := (pt b e - o' e)%Q) in *. clearbody z. assert (0 <= z * z)%Q by nra. lra. }
  (* the other face of the direction is not crossed *)
  assert (ALL : exists ps qs, planes dim low up = ps ++ (o, normal d) :: qs /\ forall p, In p ps \/ In p qs -> exists o' e, p = (o', normal e) /\ e < dim /\ crossed dim e o' (pt (fst l)) (pt (snd l)) = false).
  { assert (OTHER : forall o' e, e < dim -> o' = low \/ o' = up -> e <> d -> exists o'' e', (o', normal e) = (o'', normal e') /\ e' < dim /\ crossed dim e' o'' (pt (fst l)) (pt (snd l)) = false).
    { intros o' e He Ho' NE. exists o', e. split; [reflexivity|]. split; [exact He|]. apply NOT; assumption. }
    assert (SAME : forall o', o' = low \/ o' = up -> (o = low /\ o' = up \/ o = up /\ o' = low) -> exists o'' e', (o', normal d) = (o'', normal e') /\ e' < dim /\ crossed dim e' o'' (pt (fst l)) (pt (snd l)) = false).
    { intros o' Ho' N. exists o', d. split; [reflexivity|]. split; [exact Hd|]. destruct (crossed dim d o' (pt (fst l)) (pt (snd l))) eqn:C; [|reflexivity]. exfalso. apply crossed_true in C; [|exact Hd].
      assert (C' : ((pt a d - o' d) * (pt b d - o' d) < 0)%Q) by (destruct HL as [-> | ->]; cbn [fst snd] in C; [exact C|rewrite Qmult_comm; exact C]). specialize (PA d Hd).
      destruct N as [[-> ->]|[-> ->]]; clear - C' PA CROSS; pose proof (neg_factor (pt a d) (pt b d) (low d)); pose proof (neg_factor (pt a d) (pt b d) (up d)); lra. }
    unfold planes. rewrite (seq_split d Hd), !map_app. cbn [map].
    assert (RNG : forall e, In e (seq 0 d) \/ In e (seq (S d) (dim - S d)) -> e < dim /\ e <> d) by (intros e [H|H]; apply in_seq in H; lia).
    destruct Ho as [E|E].
    - exists (map (fun e => (low, normal e)) (seq 0 d)), (map (fun e => (low, normal e)) (seq (S d) (dim - S d)) ++ map (fun e => (up, normal e)) (seq 0 d) ++ (up, normal d) :: map (fun e => (up, normal e)) (seq (S d) (dim - S d))).
      split; [rewrite E; rewrite <- !app_assoc; reflexivity|]. intros p H. rewrite !in_app_iff in H. cbn [In] in H. rewrite !in_map_iff in H.
      destruct H as [(e & <- & He)|[(e & <- & He)|[(e & <- & He)|[<-|(e & <- & He)]]]]; [apply OTHER; [apply RNG; auto|auto|apply RNG; auto]..|apply SAME; auto|apply OTHER; [apply RNG; auto|auto|apply RNG; auto]].
    - exists ((map (fun e => (low, normal e)) (seq 0 d) ++ (low, normal d) :: map (fun e => (low, normal e)) (seq (S d) (dim - S d))) ++ map (fun e => (up, normal e)) (seq 0 d)), (map (fun e => (up, normal e)) (seq (S d) (dim - S d))).
      split; [rewrite E; rewrite <- !app_assoc; reflexivity|]. intros p H. rewrite !in_app_iff in H. cbn [In] in H. rewrite !in_map_iff in H.
      destruct H as [[[(e & <- & He)|[<-|(e & <- & He)]]|(e & <- & He)]|(e & <- & He)]; [apply OTHER; [apply RNG; auto|auto|apply RNG; auto]|apply SAME; auto|apply OTHER; [apply RNG; auto|auto|apply RNG; auto]..]. }
  destruct ALL as (ps & qs & EP & SKIP). rewrite EP, planes_loop_app in NS.
  rewrite (planes_loop_skip l _ _ ps x LEN) in NS by (intros p Hp; apply SKIP; auto). cbn [obind planes_loop] in NS.
  pose proof (plane_step_spec dim iso pt len l (x (fst l)) (x (snd l)) o d x Hd LEN) as PS.
  assert (CR : crossed dim d o (pt (fst l)) (pt (snd l)) = true).
  { destruct HL as [-> | ->]; cbn [fst snd]; apply crossed_intro; [exact Hd|exact BIG|exact CROSS|exact Hd|rewrite <- Qabs_opp; setoid_replace (- (pt b d - pt a d))%Q with (pt a d - pt b d)%Q by ring; exact BIG|nra]. }
  rewrite CR in PS. destruct PS as (t & vmin & imin & vmax & T & POS & M & E). rewrite E in NS. cbn [obind] in NS.
  rewrite (planes_loop_skip l _ _ qs _ LEN) in NS by (intros p Hp; apply SKIP; auto). specialize (POS d eq_refl).
  set (x' := if qltb (1 # 1000000) (Qabs (x imin - vmin)) then put x imin vmin else x) in *.
  assert (XI : (Qabs (x' imin - vmin) <= 1 # 1000000)%Q).
  { unfold x'. destruct (qltb (1 # 1000000) (Qabs (x imin - vmin))) eqn:Q1; [|apply qltb_false, Q1]. unfold put. rewrite Nat.eqb_refl. setoid_replace (vmin - vmin)%Q with 0%Q by ring. discriminate. }
  assert (XO : forall j, j <> imin -> x' j = x j).
  { intros j N. unfold x'. destruct (qltb (1 # 1000000) (Qabs (x imin - vmin))); [|reflexivity]. unfold put. destruct (Nat.eqb_spec j imin); [contradiction|reflexivity]. }
  (* the degenerate case of equal values *)
  assert (DEG : forall v w s, (0 < s)%Q -> (iso <= v)%Q -> (w <= iso)%Q -> (v <= w)%Q -> ((1 - s) * w + s * vmin == iso)%Q -> x imin = v -> x' = x).
  { intros v w s S1 H1 H2 H3 H4 H5. unfold x'. assert (V : (vmin == iso)%Q). { assert (W : (w == iso)%Q) by lra. rewrite W in H4. assert (s * (vmin - iso) == 0)%Q by lra. apply Qmult_integral in H. destruct H; lra. }
    assert (Q0 : (x imin - vmin == 0)%Q) by (rewrite H5, V; lra). destruct (qltb (1 # 1000000) (Qabs (x imin - vmin))) eqn:Q1; [|reflexivity]. apply qltb_true in Q1. rewrite Q0 in Q1. cbn in Q1. lra. }
  assert (AV : forall s e v : Q, (0 <= s)%Q -> (s <= 1)%Q -> (Qabs v <= e)%Q -> (Qabs (s * v) <= e)%Q).
  { intros s e v S0 S1 H. apply Qabs_Qle_condition in H. apply Qabs_Qle_condition. split; nra. }
  destruct HL as [-> | ->]; cbn [fst snd] in *.
  - exists x', t. split; [exact NS|]. split; [exact T|]. split; [exact POS|]. destruct (qltb (x b) (x a)) eqn:V.
    + destruct M as (-> & -> & M). split; [|exact XO]. rewrite (XO a AB).
      setoid_replace ((1 - t) * x a + t * x' b - iso)%Q with (t * (x' b - vmin))%Q by (rewrite <- M; ring). apply AV; [lra|lra|exact XI].
    + destruct M as (-> & -> & M). apply qltb_false in V. assert (D : x' = x) by (apply (DEG (x a) (x b) (1 - t)%Q); [lra|exact XA|exact XB|exact V|rewrite <- M; ring|reflexivity]). rewrite D.
      split; [|reflexivity]. setoid_replace ((1 - t) * x a + t * x b - iso)%Q with 0%Q; [discriminate|]. assert (EA : (x a == iso)%Q) by lra. assert (EB : (x b == iso)%Q) by lra. rewrite EA, EB. ring.
  - exists x', (1 - t)%Q. split; [exact NS|]. split; [lra|]. split; [rewrite <- POS; ring|]. destruct (qltb (x a) (x b)) eqn:V.
    + apply qltb_true in V. lra.
    + destruct M as (-> & -> & M). split; [|exact XO]. rewrite (XO a AB).
      setoid_replace ((1 - (1 - t)) * x a + (1 - t) * x' b - iso)%Q with ((1 - t) * (x' b - vmin))%Q by (rewrite <- M; ring). apply AV; [lra|lra|exact XI].
Qed.
End Edge.
Print Assumptions C27_edge_cut.

(** ** The whole field *)
(** Inner values are kept, all values at vertices not inside become at most the iso
    level: nothing above the iso level remains outside. *)
Theorem C27_filter_mesh : forall dim low up eps iso null pt len cells levels x, (0 < eps)%Q -> (null < iso)%Q -> (eps < iso - null)%Q ->
  (forall c l, In c (concat levels) -> In l (lines c) -> ~ (len l == 0)%Q /\ (exists c', In c' cells /\ In (fst l) (vertices c')) /\ exists c', In c' cells /\ In (snd l) (vertices c')) ->
  exists x', filter_mesh dim low up 0 eps iso null pt len cells levels x = Some x' /\
    (forall j, position dim low up 0 eps (pt j) = Inside -> x' j = x j) /\
    (forall c j, In c cells -> In j (vertices c) -> position dim low up 0 eps (pt j) <> Inside -> (x' j <= iso)%Q).
Proof.
  intros dim low up eps iso null pt len cells levels x EP NI EN HL. unfold filter_mesh.
  assert (A : qltb eps (Qabs (iso - null)) = true) by (apply qltb_true; rewrite Qabs_pos by lra; exact EN). rewrite A.
  set (D := fun j => exists c, In c cells /\ In j (vertices c)).
  assert (CL : fold_left (fun x c => fold_left (clip dim low up 0 eps iso null pt) (vertices c) x) cells x = fold_left (clip dim low up 0 eps iso null pt) (flat_map vertices cells) x).
  { clear. revert x. induction cells as [|c cells IH]; intro x; [reflexivity|]. cbn [fold_left flat_map]. rewrite fold_left_app. apply IH. }
  unfold eliminate. rewrite CL.
  destruct (cells_loop_inv dim low up eps EP iso pt len D x (concat levels) (fold_left (clip dim low up 0 eps iso null pt) (flat_map vertices cells) x)) as (x' & E & K & LO).
  - intros c l Hc Hl. exact (HL c l Hc Hl).
  - intros j Hj. apply (clip_spec dim low up eps iso null pt (flat_map vertices cells) x j). exact Hj.
  - intros j (c & Hc & Hj) NIn. assert (IN : In j (flat_map vertices cells)) by (apply in_flat_map; eauto).
    rewrite (proj1 (proj2 (clip_spec dim low up eps iso null pt (flat_map vertices cells) x j)) IN). destruct (position dim low up 0 eps (pt j)); [lra|apply Q.le_min_r|contradiction].
  - exists x'. split; [exact E|]. split; [exact K|]. intros c j Hc Hj N. apply LO; [exists c; auto|exact N].
Qed.
Print Assumptions C27_filter_mesh.

(** ** Example: the unit square [0, 2] x [0, 1] of two cells, the box ends at x = 3/2 *)
Definition ex_pt (i : nat) : point := fun d => match i, d with
  | 1, 0 => 1%Q | 2, 0 => 2%Q | 3, 1 => 1%Q | 4, 0 => 1%Q | 4, 1 => 1%Q | 5, 0 => 2%Q | 5, 1 => 1%Q | _, _ => 0%Q end.
Definition ex_low : point := fun _ => (-1)%Q.
Definition ex_up : point := fun d => match d with 0 => (3 # 2)%Q | _ => 4%Q end.
Definition ex_cells : list fcell :=
  [mkFCell [0; 1; 3; 4] [(0, 3); (1, 4); (0, 1); (3, 4)]; mkFCell [1; 2; 4; 5] [(1, 4); (2, 5); (1, 2); (4, 5)]].
Definition ex_field (i : nat) : Q := nth i [1; 1; 1; 0; 3 # 4; 1]%Q 0%Q.

Example C27_example : exists x', filter_mesh 2 ex_low ex_up 0 (1 # 4503599627370496) (1 # 2) 0 ex_pt (fun _ => 1%Q) ex_cells [ex_cells] ex_field = Some x' /\
  map (fun i => Qred (x' i)) [0; 1; 2; 3; 4; 5] = [1; 1; 0; 0; 3 # 4; 1 # 4]%Q /\
  (* interpolated at x = 3/2 *) ((x' 1%nat + x' 2%nat) * (1 # 2) == 1 # 2)%Q /\ ((x' 4%nat + x' 5%nat) * (1 # 2) == 1 # 2)%Q.
Proof. eexists. split; [vm_compute; reflexivity|]. split; [vm_compute; reflexivity|]. split; vm_compute; reflexivity. Qed.

Example C27_edge_example : position 2 ex_low ex_up 0 (1 # 4503599627370496) (ex_pt 1) = Inside /\ ((ex_pt 1%nat 0%nat - ex_up 0%nat) * (ex_pt 2%nat 0%nat - ex_up 0%nat) < 0)%Q /\ (1 # 1000000 < Qabs (ex_pt 1%nat 0%nat - ex_pt 2%nat 0%nat))%Q.
Proof. split; [vm_compute; reflexivity|]. split; reflexivity. Qed.

(** ** Where the claim fails *)
(** A cell which contains the whole box has only outer vertices: it is not recognised
    as cut and the field is set to the null value everywhere. *)
Definition big_cell : list fcell := [mkFCell [0; 1; 3; 4] [(0, 3); (1, 4); (0, 1); (3, 4)]].
Definition small_low : point := fun _ => (1 # 4)%Q.
Definition small_up : point := fun _ => (3 # 4)%Q.

Theorem C27_contained_box_refuted : ~ forall dim low up eps vs p, (0 < eps)%Q ->
  (* the coordinates of the point lie between those of vertices *)
  (forall d, d < dim -> exists v w, In v vs /\ In w vs /\ (v d <= p d /\ p d <= w d)%Q) ->
  position dim low up 0 eps p = Inside -> (exists v, In v vs /\ position dim low up 0 eps v = Outside) -> intersects dim low up 0 eps vs = true.
Proof.
  intro H. assert (X : intersects 2 small_low small_up 0 (1 # 100) (map ex_pt [0; 1; 3; 4]) = true); [|vm_compute in X; discriminate].
  apply (H 2 small_low small_up (1 # 100) (map ex_pt [0; 1; 3; 4]) (fun _ => 1 # 2)%Q).
  - reflexivity.
  - intros d Hd. exists (ex_pt 0), (ex_pt 4). split; [left; reflexivity|]. split; [right; right; right; left; reflexivity|].
    destruct d as [|[|d]]; [split; discriminate|split; discriminate|lia].
  - vm_compute. reflexivity.
  - exists (ex_pt 0). split; [left; reflexivity|vm_compute; reflexivity].
Qed.
Print Assumptions C27_contained_box_refuted.

Example C27_contained_box_field : exists x', filter_mesh 2 small_low small_up 0 (1 # 100) (1 # 2) 0 ex_pt (fun _ => 1%Q) big_cell [big_cell] (fun _ => 1%Q) = Some x' /\ map x' [0; 1; 3; 4] = [0; 0; 0; 0]%Q.
Proof. eexists. split; [vm_compute; reflexivity|]. vm_compute. reflexivity. Qed.

(** With the tolerance of the underlying box, relative to its size, a point beyond the
    face is classified as inside; the filter for integrals disagrees. *)
Theorem C27_tolerance_refuted : ~ forall dim low up tol eps p, (0 < eps)%Q -> tol = eps -> position dim low up tol eps p = Inside -> filter_value dim low up p = 1%Q.
Proof.
  intro H. specialize (H 1 (fun _ => (-100)%Q) (fun _ => 0%Q) (1 # 4503599627370496)%Q (1 # 4503599627370496)%Q (fun _ => (50 # 4503599627370496)%Q) eq_refl eq_refl).
  assert (X : filter_value 1 (fun _ => (-100)%Q) (fun _ => 0%Q) (fun _ => (50 # 4503599627370496)%Q) = 1%Q) by (apply H; vm_compute; reflexivity). vm_compute in X. discriminate.
Qed.
Print Assumptions C27_tolerance_refuted.

(** Edges not longer than 10^-6 are not cut at all. *)
Definition tiny_pt (i : nat) : point := fun _ => match i with 0 => 0%Q | _ => (1 # 10000000)%Q end.
Theorem C27_short_edges_refuted : ~ forall dim low up eps iso pt len l x x' t, (0 < eps)%Q -> ~ (len l == 0)%Q ->
  position dim low up 0 eps (pt (fst l)) = Inside -> position dim low up 0 eps (pt (snd l)) = Outside -> (iso <= x (fst l))%Q -> (x (snd l) <= iso)%Q ->
  (0 < t /\ t < 1)%Q -> (exists d, d < dim /\ (pt (fst l) d + t * (pt (snd l) d - pt (fst l) d) == up d)%Q) ->
  line_step dim low up 0 eps iso pt len l x = Some x' -> (Qabs ((1 - t) * x' (fst l) + t * x' (snd l) - iso) <= 1 # 1000000)%Q.
Proof.
  intro H. specialize (H 1 (fun _ => (-1)%Q) (fun _ => 3 # 40000000)%Q (1 # 4503599627370496)%Q (1 # 2)%Q tiny_pt (fun _ => 1%Q) (0, 1) (fun i => match i with 0 => 1%Q | _ => 0%Q end) (fun i => match i with 0 => 1%Q | _ => 0%Q end) (3 # 4)%Q).
  assert (X : (Qabs ((1 - (3 # 4)) * 1 + (3 # 4) * 0 - (1 # 2)) <= 1 # 1000000)%Q); [|vm_compute in X; apply X; reflexivity].
  apply H; try reflexivity; try discriminate.
  - split; reflexivity.
  - exists 0. split; [lia|]. reflexivity.
Qed.
Print Assumptions C27_short_edges_refuted.
