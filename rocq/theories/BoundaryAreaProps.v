(** C93: surfaces of grain boundaries and their areas. *)
From Coq Require Import List QArith Arith Bool Permutation Lia.
From Verif Require Import Util BoundaryAreaModel.
From Coq Require Import Lqa.
Import ListNotations.
Local Open Scope Q_scope.

(** ** Sums *)
Fixpoint total (n : nat) (f : nat -> Q) : Q := match n with O => 0 | S n => total n f + f n end.
Lemma total_ext : forall n f g, (forall i, (i < n)%nat -> f i == g i) -> total n f == total n g.
Proof. induction n as [|n IH]; intros f g H; [reflexivity|]. cbn [total]. rewrite (IH f g), (H n); [reflexivity|lia|intros; apply H; lia]. Qed.
Lemma total_shift : forall n f, total (S n) f == f 0%nat + total n (fun i => f (S i)).
Proof. induction n as [|n IH]; intro f; [cbn; lra|]. cbn [total] in *. rewrite IH. lra. Qed.
Lemma total_le : forall n f g, (forall i, (i < n)%nat -> f i <= g i) -> total n f <= total n g.
Proof.
  induction n as [|n IH]; intros f g H; [cbn; lra|]. cbn [total]. pose proof (H n). pose proof (IH f g).
  assert (f n <= g n) by (apply H; lia). assert (total n f <= total n g) by (apply IH; intros; apply H; lia). lra.
Qed.
Lemma total_scale : forall n a f, total n (fun i => f i * a) == total n f * a.
Proof. induction n as [|n IH]; intros a f; [cbn; lra|]. cbn [total]. rewrite IH. lra. Qed.
Lemma total_zero : forall n f, (forall i, (i < n)%nat -> f i == 0) -> total n f == 0.
Proof. induction n as [|n IH]; intros f H; [reflexivity|]. cbn [total]. rewrite IH, (H n); [lra|lia|intros; apply H; lia]. Qed.

Definition val (v : list Q) (n : nat) : Q := nth n v 0.

Lemma vadd_val : forall a b n, length a = length b -> val (vadd a b) n == val a n + val b n.
Proof.
  unfold val. induction a as [|x a IH]; intros [|y b] n H; try discriminate H; [destruct n; cbn; lra|].
  destruct n as [|n]; cbn [vadd nth]; [reflexivity|]. apply IH. injection H. auto.
Qed.
Lemma vadd_length : forall a b, length a = length b -> length (vadd a b) = length a.
Proof. induction a as [|x a IH]; intros [|y b] H; try discriminate H; [reflexivity|]. cbn. f_equal. apply IH. injection H. auto. Qed.
Lemma vscale_val : forall a b n, length a = length b -> val (vscale a b) n == val a n * val b n.
Proof.
  unfold val. induction a as [|x a IH]; intros [|y b] n H; try discriminate H; [destruct n; cbn; lra|].
  destruct n as [|n]; cbn [vscale nth]; [reflexivity|]. apply IH. injection H. auto.
Qed.
Lemma vscale_length : forall a b, length a = length b -> length (vscale a b) = length a.
Proof. induction a as [|x a IH]; intros [|y b] H; try discriminate H; [reflexivity|]. cbn. f_equal. apply IH. injection H. auto. Qed.
Lemma at_point_total : forall ws vs, length ws = length vs -> at_point ws vs == total (length vs) (fun n => val ws n * val vs n).
Proof.
  induction ws as [|w ws IH]; intros [|v vs] H; try discriminate H; [reflexivity|]. cbn [at_point length].
  rewrite total_shift, IH by (injection H; auto). reflexivity.
Qed.

Section Surfaces.
Variables C P : Type.
Notation facet := (facet P).
Notation loaded := (C * list (list Q))%type.
Variable process_cell : Q -> C -> list Q -> list facet.

(** ** What a facet of a grain boundary is *)
Definition crosses (iso : Q) (v : list Q) : Prop := (exists x, In x v /\ iso < x) /\ (exists y, In y v /\ y < iso).
(** the value of grain [i] times the sum of all others, interpolated to the centroid *)
Definition others (grains : list (list Q)) (i n : nat) : Q :=
  total (length grains) (fun j => if Nat.eqb i j then 0 else val (nth j grains []) n).
Definition contact (grains : list (list Q)) (i : nat) (f : facet) : Q :=
  total (length (nth i grains [])) (fun n => val (weights P f) n * (val (nth i grains []) n * others grains i n)).
(** the same number of nodes for every grain *)
Definition even (N n_grains : nat) (c : loaded) : Prop := length (snd c) = n_grains /\ forall v, In v (snd c) -> length v = N.

Lemma straddles_spec : forall iso v, straddles iso v = true <-> crosses iso v.
Proof.
  intros iso v. unfold straddles, crosses. rewrite andb_true_iff, !existsb_exists.
  split; intros ((x & Hx & Ex) & (y & Hy & Ey)); (split; [exists x|exists y]); split; try assumption; apply qltb_true; assumption.
Qed.

Lemma collect_spec : forall iso i N grains k gb ho, (forall v, In v grains -> length v = N) -> length gb = N ->
  length (fst (collect iso i k grains gb ho)) = N /\
  (forall n, val (fst (collect iso i k grains gb ho)) n == val gb n + total (length grains) (fun j => if Nat.eqb i (k + j) then 0 else val (nth j grains []) n)) /\
  (snd (collect iso i k grains gb ho) = true <-> ho = true \/ exists j v, nth_error grains j = Some v /\ i <> (k + j)%nat /\ straddles iso v = true).
Proof.
  intros iso i N. induction grains as [|v grains IH]; intros k gb ho H L; cbn [collect].
  - split; [exact L|]. split; [intro n; cbn [fst length total]; lra|]. cbn [snd]. split; [auto|]. intros [E|(j & v & E & _)]; [exact E|]. destruct j; discriminate.
  - assert (Hr : forall w, In w grains -> length w = N) by (intros w Hw; apply H; right; exact Hw).
    assert (Lv : length v = N) by (apply H; left; reflexivity).
    assert (SH : forall f : nat -> Q, total (length grains) (fun j => if Nat.eqb i (k + S j) then 0 else f j) == total (length grains) (fun j => if Nat.eqb i (S k + j) then 0 else f j)).
    { intro f. apply total_ext. intros j _. replace (k + S j)%nat with (S k + j)%nat by lia. reflexivity. }
    destruct (Nat.eqb_spec i k) as [E|E].
    + destruct (IH (S k) gb ho Hr L) as (A & B & D). split; [exact A|]. split.
      * intro n. rewrite B. cbn [length]. rewrite total_shift. rewrite Nat.add_0_r. destruct (Nat.eqb_spec i k); [|contradiction]. cbn [nth].
        rewrite (SH (fun j => val (nth j grains []) n)). lra.
      * rewrite D. split; (intros [X|(j & w & X & Y & Z)]; [left; exact X|right]).
        -- exists (S j), w. split; [exact X|]. split; [lia|exact Z].
        -- destruct j as [|j]; [lia|]. exists j, w. split; [exact X|]. split; [lia|exact Z].
    + destruct (IH (S k) (vadd gb v) (straddles iso v || ho)%bool Hr) as (A & B & D); [rewrite vadd_length; lia|]. split; [exact A|]. split.
      * intro n. rewrite B. cbn [length]. rewrite total_shift. rewrite Nat.add_0_r. destruct (Nat.eqb_spec i k); [contradiction|]. cbn [nth].
        rewrite (SH (fun j => val (nth j grains []) n)). rewrite vadd_val by lia. lra.
      * rewrite D, orb_true_iff. split.
        -- intros [[X|X]|(j & w & X & Y & Z)]; [right; exists 0%nat, v; split; [reflexivity|split; [lia|exact X]]|left; exact X|].
           right. exists (S j), w. split; [exact X|]. split; [lia|exact Z].
        -- intros [X|(j & w & X & Y & Z)]; [left; right; exact X|]. destruct j as [|j].
           ++ cbn in X. injection X as ->. left. left. exact Z.
           ++ right. exists j, w. split; [exact X|]. split; [lia|exact Z].
Qed.

Lemma zeros : forall m n, val (repeat 0 m) n == 0.
Proof. unfold val. induction m as [|m IH]; intros [|n]; cbn; try reflexivity. apply IH. Qed.

(** the vector [gb] and the value at a facet *)
Lemma gb_spec : forall iso N n_grains (c : loaded) i v, even N n_grains c -> nth_error (snd c) i = Some v ->
  let s := collect iso i 0 (snd c) (repeat 0 (length v)) false in
  length (vscale (fst s) v) = N /\
  (forall n, val (vscale (fst s) v) n == val v n * others (snd c) i n) /\
  (forall f, length (weights P f) = N -> at_point (weights P f) (vscale (fst s) v) == contact (snd c) i f) /\
  (snd s = true <-> exists j w, nth_error (snd c) j = Some w /\ i <> j /\ straddles iso w = true).
Proof.
  intros iso N n_grains c i v (L & H) E s. assert (Lv : length v = N) by (apply H; exact (nth_error_In _ _ E)).
  destruct (collect_spec iso i N (snd c) 0 (repeat 0 (length v)) false H) as (A & B & D); [rewrite repeat_length; exact Lv|]. fold s in A, B, D.
  assert (G : forall n, val (vscale (fst s) v) n == val v n * others (snd c) i n).
  { intro n. rewrite vscale_val by congruence. rewrite B, zeros. unfold others. cbn [Nat.add]. ring. }
  split; [rewrite vscale_length; congruence|]. split; [exact G|]. split.
  - intros f Lf. rewrite at_point_total by (rewrite vscale_length; congruence). rewrite vscale_length by congruence.
    unfold contact. rewrite (nth_error_nth (snd c) i [] E), A, Lv. apply total_ext. intros n _. rewrite G. reflexivity.
  - rewrite D. split; [intros [X|X]; [discriminate|exact X]|right; assumption].
Qed.

(** the values of the shape functions at a point of a cell with linear elements *)
Definition linear_weights (N : nat) (f : facet) : Prop :=
  length (weights P f) = N /\ (forall n, 0 <= val (weights P f) n) /\ total N (val (weights P f)) == 1.

(** C93_facets: with linear elements the mesh has exactly the facets of the contours of the
    grains for which the product of the grain and the sum of all others, at the centroid, is
    above the limit; the tests before the extraction lose nothing *)
Theorem C93_facets : forall iso gb_lim N n_grains cells f, 0 <= gb_lim ->
  (forall c, In c cells -> even N n_grains c) ->
  (forall c v g, In g (process_cell iso c v) -> linear_weights N g) ->
  In f (boundary_facets C P process_cell iso gb_lim n_grains cells) <->
  exists c i v, In c cells /\ nth_error (snd c) i = Some v /\ crosses iso v /\ In f (process_cell iso (fst c) v) /\ gb_lim < contact (snd c) i f.
Proof.
  intros iso gb_lim N n_grains cells f L0 HE HW.
  assert (STEP : forall c i, In c cells -> In f (grain_facets C P process_cell iso gb_lim c i) <->
    exists v, nth_error (snd c) i = Some v /\ crosses iso v /\ In f (process_cell iso (fst c) v) /\ gb_lim < contact (snd c) i f).
  { intros c i Hc. unfold grain_facets. destruct (nth_error (snd c) i) as [v|] eqn:E.
    2:{ split; [intros []|intros (v & X & _); discriminate]. }
    destruct (gb_spec iso N n_grains c i v (HE c Hc) E) as (G1 & G2 & G3 & G4).
    destruct (collect iso i 0 (snd c) (repeat 0 (length v)) false) as (sum, ho) eqn:ES. cbn [fst snd] in *.
    destruct (straddles iso v) eqn:Es.
    2:{ split; [intros []|]. intros (w & X & Y & _). injection X as <-. apply straddles_spec in Y. congruence. }
    assert (M : In f (process_cell iso (fst c) v) -> gb_lim < contact (snd c) i f -> existsb (fun x => qltb gb_lim x) (vscale sum v) = true).
    { intros If Hf. destruct (HW _ _ _ If) as (W1 & W2 & W3). destruct (existsb _ (vscale sum v)) eqn:Ex; [reflexivity|]. exfalso.
      assert (B : forall n, (n < N)%nat -> val (vscale sum v) n <= gb_lim).
      { intros n Hn. destruct (Qlt_le_dec gb_lim (val (vscale sum v) n)) as [X|X]; [|exact X]. exfalso.
        assert (Y : existsb (fun x => qltb gb_lim x) (vscale sum v) = true); [|congruence].
        apply existsb_exists. exists (val (vscale sum v) n). split; [apply nth_In; lia|apply qltb_true; exact X]. }
      rewrite <- (G3 f W1), at_point_total in Hf by lia. rewrite G1 in Hf.
      assert (X : total N (fun n => val (weights P f) n * val (vscale sum v) n) <= total N (fun n => val (weights P f) n * gb_lim)).
      { apply total_le. intros n Hn. pose proof (W2 n). pose proof (B n Hn). nra. }
      rewrite total_scale, W3 in X. lra. }
    destruct (existsb (fun x => qltb gb_lim x) (vscale sum v) || ho)%bool eqn:Et.
    - rewrite filter_In. split.
      + intros (If & Hf). exists v. split; [reflexivity|]. split; [apply straddles_spec; exact Es|]. split; [exact If|].
        apply qltb_true in Hf. rewrite (G3 f) in Hf; [exact Hf|exact (proj1 (HW _ _ _ If))].
      + intros (w & X & _ & If & Hf). injection X as <-. split; [exact If|]. apply qltb_true. rewrite (G3 f); [exact Hf|exact (proj1 (HW _ _ _ If))].
    - split; [intros []|]. intros (w & X & _ & If & Hf). injection X as <-. rewrite (M If Hf) in Et. discriminate. }
  unfold boundary_facets. rewrite in_flat_map. split.
  - intros (c & Hc & H). apply in_flat_map in H. destruct H as (i & _ & H). apply (STEP c i Hc) in H. destruct H as (v & H). exists c, i, v. tauto.
  - intros (c & i & v & Hc & E & H). exists c. split; [exact Hc|]. apply in_flat_map. exists i. split.
    + apply in_seq. assert (X : (i < length (snd c))%nat) by (apply nth_error_Some; congruence). rewrite (proj1 (HE c Hc)) in X. lia.
    + apply (STEP c i Hc). exists v. tauto.
Qed.

(** ** Areas *)
Definition counted (inside : option (P -> bool)) (f : facet) : Q :=
  if match inside with None => true | Some b => b (center P f) end then measure P f else 0.
Definition qsum (l : list Q) : Q := fold_right Qplus 0 l.
Lemma qsum_app : forall a b, qsum (a ++ b) == qsum a + qsum b.
Proof. unfold qsum. induction a as [|x a IH]; intro b; cbn [app fold_right]; [lra|]. rewrite IH. lra. Qed.
Lemma qsum_perm : forall a b, Permutation a b -> qsum a == qsum b.
Proof. unfold qsum. intros a b H. induction H; cbn [fold_right]; lra. Qed.
Lemma fold_plus : forall l a, fold_left Qplus l a == a + qsum l.
Proof. unfold qsum. induction l as [|x l IH]; intro a; cbn [fold_left fold_right]; [lra|]. rewrite IH. lra. Qed.
Lemma area_sum : forall inside fs, area_in P inside fs == qsum (map (counted inside) fs).
Proof.
  intros inside fs. unfold area_in.
  assert (G : forall fs a, fold_left (fun s f => if match inside with None => true | Some b => b (center P f) end then s + measure P f else s) fs a == a + qsum (map (counted inside) fs)).
  { induction fs0 as [|f l IH]; intro a; cbn [fold_left map]; [cbn; lra|]. rewrite IH. unfold qsum. cbn [fold_right]. unfold counted at 2.
    destruct (match inside with None => true | Some b => b (center P f) end); lra. }
  rewrite G. lra.
Qed.
Lemma procs_sum : forall {A} (F : A -> list facet) inside (procs : list (list A)),
  mpi_sum (map (fun cells => area_in P inside (flat_map F cells)) procs) == qsum (map (counted inside) (flat_map F (concat procs))).
Proof.
  intros A F inside procs. unfold mpi_sum. rewrite fold_plus. induction procs as [|cells procs IH]; [cbn; lra|].
  cbn [map concat]. rewrite flat_map_app, map_app, qsum_app, <- area_sum. unfold qsum at 1. cbn [fold_right]. fold (qsum (map (fun cells => area_in P inside (flat_map F cells)) procs)).
  lra.
Qed.

(** C93_partition: both areas do not depend on the distribution of the cells to processes *)
Theorem C93_partition : forall inside iso gb_lim n_grains procs procs' sprocs sprocs',
  Permutation (concat procs) (concat procs') -> Permutation (concat sprocs) (concat sprocs') ->
  boundaries_area C P process_cell inside iso gb_lim n_grains procs == boundaries_area C P process_cell inside iso gb_lim n_grains procs' /\
  surface_area C P process_cell inside iso sprocs == surface_area C P process_cell inside iso sprocs'.
Proof.
  intros inside iso gb_lim n_grains procs procs' sprocs sprocs' H K. split.
  - unfold boundaries_area, boundary_facets. rewrite !procs_sum.
    rewrite (qsum_perm _ _ (Permutation_map (counted inside) (Permutation_flat_map _ H))). reflexivity.
  - unfold surface_area. rewrite !procs_sum. apply qsum_perm, Permutation_map, Permutation_flat_map, K.
Qed.

(** C93_alone: a single grain has no grain boundary *)
Theorem C93_alone : forall inside iso gb_lim N procs, 0 <= gb_lim -> (forall cells c, In cells procs -> In c cells -> even N 1 c) ->
  boundaries_area C P process_cell inside iso gb_lim 1 procs == 0.
Proof.
  intros inside iso gb_lim N procs L0 HE. unfold boundaries_area, boundary_facets. rewrite procs_sum.
  assert (Z : forall c, In c (concat procs) -> flat_map (grain_facets C P process_cell iso gb_lim c) (seq 0 1) = []).
  { intros c Hc. apply in_concat in Hc. destruct Hc as (cells & Hp & Hc). pose proof (HE cells c Hp Hc) as Ec.
    cbn [seq flat_map]. rewrite app_nil_r. unfold grain_facets. destruct (nth_error (snd c) 0) as [v|] eqn:E; [|reflexivity].
    destruct (gb_spec iso N 1 c 0%nat v Ec E) as (G1 & G2 & _ & G4).
    destruct (collect iso 0 0 (snd c) (repeat 0 (length v)) false) as (sum, ho). cbn [fst snd] in *.
    destruct (straddles iso v); [|reflexivity].
    assert (Ho : ho = false).
    { destruct ho; [|reflexivity]. destruct (proj1 G4 eq_refl) as (j & w & Ej & Hj & _). exfalso.
      assert (X : (j < length (snd c))%nat) by (apply nth_error_Some; congruence). rewrite (proj1 Ec) in X. lia. }
    assert (Ex : existsb (fun x => qltb gb_lim x) (vscale sum v) = false).
    { destruct (existsb _ (vscale sum v)) eqn:X; [|reflexivity]. exfalso. apply existsb_exists in X. destruct X as (x & Hx & Lx). apply qltb_true in Lx.
      destruct (In_nth _ _ 0 Hx) as (n & _ & En). fold (val (vscale sum v) n) in En. rewrite <- En, G2 in Lx.
      unfold others in Lx. rewrite (proj1 Ec) in Lx. cbn in Lx. lra. }
    rewrite Ho, Ex. reflexivity. }
  assert (Y : flat_map (fun c => flat_map (grain_facets C P process_cell iso gb_lim c) (seq 0 1)) (concat procs) = []).
  { clear HE. induction (concat procs) as [|c l IH]; [reflexivity|]. cbn [flat_map] in *. rewrite (Z c (or_introl eq_refl)). apply IH. intros d Hd. apply Z. right. exact Hd. }
  rewrite Y. cbn. lra.
Qed.

(** C93_two: two grains that fill the cells, at the level one half: the area is the area of the
    contour between them, every facet counted once *)
Definition filled (c : C * list Q) : loaded := (fst c, [snd c; map (fun x => 1 - x) (snd c)]).
Theorem C93_two : forall inside gb_lim N procs, (forall cells c, In cells procs -> In c cells -> length (snd c) = N) ->
  (forall c v f, In f (process_cell (1 # 2) c v) -> length (weights P f) = N) ->
  (forall c v, Permutation (process_cell (1 # 2) c (map (fun x => 1 - x) v)) (process_cell (1 # 2) c v)) ->
  boundaries_area C P process_cell inside (1 # 2) gb_lim 2 (map (map filled) procs) ==
  qsum (map (fun c => if straddles (1 # 2) (snd c)
    then qsum (map (counted inside) (filter (fun f => qltb gb_lim (total N (fun n => val (weights P f) n * (val (snd c) n * (1 - val (snd c) n))))) (process_cell (1 # 2) (fst c) (snd c))))
    else 0) (concat procs)).
Proof.
  intros inside gb_lim N procs HE HW HS. unfold boundaries_area, boundary_facets. rewrite procs_sum, <- concat_map.
  assert (IN : forall c, In c (concat procs) -> length (snd c) = N).
  { intros c Hc. apply in_concat in Hc. destruct Hc as (cells & Hp & Hc). exact (HE cells c Hp Hc). }
  revert IN. generalize (concat procs) as cs. clear procs HE. induction cs as [|c cs IH]; intro IN; [cbn; lra|].
  cbn [map flat_map]. rewrite map_app, qsum_app, Qmult_plus_distr_l, IH by (intros d Hd; apply IN; right; exact Hd).
  unfold qsum at 3. cbn [fold_right]. fold qsum.
  apply Qplus_inj_r. clear IH.
  assert (Lc : length (snd c) = N) by (apply IN; left; reflexivity).
  set (v := snd c) in *. set (w := map (fun x => 1 - x) v).
  assert (Ec : even N 2 (filled c)).
  { split; [reflexivity|]. cbn [filled snd]. intros u [<-|[<-|[]]]; [exact Lc|rewrite map_length; exact Lc]. }
  assert (Vw : forall n, (n < N)%nat -> val w n == 1 - val v n).
  { intros n Hn. unfold val, w. rewrite (nth_indep _ 0 ((fun x => 1 - x) 0)) by (rewrite map_length; lia). rewrite map_nth. reflexivity. }
  assert (Sw : straddles (1 # 2) w = straddles (1 # 2) v).
  { apply eq_true_iff_eq. rewrite !straddles_spec. unfold crosses, w. split.
    - intros ((x & Hx & Lx) & (y & Hy & Ly)). apply in_map_iff in Hx. apply in_map_iff in Hy. destruct Hx as (x' & <- & Hx). destruct Hy as (y' & <- & Hy).
      split; [exists y'; split; [exact Hy|lra]|exists x'; split; [exact Hx|lra]].
    - intros ((x & Hx & Lx) & (y & Hy & Ly)). split; [exists (1 - y)|exists (1 - x)]; (split; [apply in_map_iff; eauto|lra]). }
  set (pr := fun f => qltb gb_lim (total N (fun n => val (weights P f) n * (val v n * (1 - val v n))))).
  assert (FI : forall i u, (i < 2)%nat -> nth_error (snd (filled c)) i = Some u -> straddles (1 # 2) v = true ->
    grain_facets C P process_cell (1 # 2) gb_lim (filled c) i = filter pr (process_cell (1 # 2) (fst c) u)).
  { intros i u Hi E Sv. unfold grain_facets. rewrite E.
    destruct (gb_spec (1 # 2) N 2 (filled c) i u Ec E) as (G1 & G2 & G3 & G4).
    destruct (collect (1 # 2) i 0 (snd (filled c)) (repeat 0 (length u)) false) as (sum, ho). cbn [fst snd] in G1, G2, G3, G4.
    assert (Hu : u = v \/ u = w) by (destruct i as [|[|i]]; [left|right|lia]; cbn in E; injection E; intro X0; symmetry; exact X0).
    assert (Su : straddles (1 # 2) u = true) by (destruct Hu as [->| ->]; congruence). rewrite Su.
    assert (Ho : ho = true).
    { apply G4. exists (1 - i)%nat. destruct i as [|[|i]]; [exists w|exists v|lia]; (split; [reflexivity|]; split; [lia|]; congruence). }
    rewrite Ho, orb_true_r. cbn [filled fst]. apply filter_ext_in. intros f Hf. unfold pr. apply eq_true_iff_eq. rewrite !qltb_true.
    rewrite (G3 f (HW _ _ _ Hf)).
    assert (X : contact (snd (filled c)) i f == total N (fun n => val (weights P f) n * (val v n * (1 - val v n)))); [|rewrite X; reflexivity].
    unfold contact. rewrite (nth_error_nth _ _ [] E). rewrite (proj2 Ec u (nth_error_In _ _ E)). apply total_ext. intros n Hn.
    unfold others. cbn [filled snd length total]. fold v. fold w. pose proof (Vw n Hn) as Y.
    destruct i as [|[|i]]; [| |lia]; cbn [Nat.eqb nth].
    - assert (X0 : u = v) by (cbn in E; injection E; intro X0; symmetry; exact X0). rewrite X0, Y. ring.
    - assert (X0 : u = w) by (cbn in E; injection E; intro X0; symmetry; exact X0). rewrite X0, Y. ring. }
  cbn [seq flat_map]. rewrite app_nil_r.
  destruct (straddles (1 # 2) v) eqn:Sv.
  - rewrite (FI 0%nat v), (FI 1%nat w); try reflexivity; try lia. rewrite map_app, qsum_app.
    assert (Pm : Permutation (filter pr (process_cell (1 # 2) (fst c) w)) (filter pr (process_cell (1 # 2) (fst c) v))).
    { generalize (HS (fst c) v). fold w. generalize (process_cell (1 # 2) (fst c) w), (process_cell (1 # 2) (fst c) v). clear. intros a b H.
      induction H as [|x a b H IH|x y a|a b d H1 IH1 H2 IH2]; [constructor| | |exact (perm_trans IH1 IH2)]; cbn [filter].
      - destruct (pr x); [constructor|]; exact IH.
      - destruct (pr x), (pr y); try reflexivity. constructor. }
    rewrite (qsum_perm _ _ (Permutation_map (counted inside) Pm)). fold pr. lra.
  - assert (Z : forall i, grain_facets C P process_cell (1 # 2) gb_lim (filled c) i = []).
    { intro i. unfold grain_facets. destruct (nth_error (snd (filled c)) i) as [u|] eqn:E; [|reflexivity].
      assert (Su : straddles (1 # 2) u = false) by (destruct i as [|[|i]]; [| |destruct i; discriminate E]; cbn in E; injection E; intro X0; rewrite <- X0; [exact Sv|fold v; fold w; congruence]).
      rewrite Su. reflexivity. }
    rewrite !Z. cbn. lra.
Qed.
End Surfaces.
Print Assumptions C93_facets.
Print Assumptions C93_partition.
Print Assumptions C93_alone.
Print Assumptions C93_two.

(** ** The numbers of facets *)
Section Ids.
Variables C P : Type.
Variable process_cell : Q -> C -> list Q -> list (facet P).
Variable get_particle_index : nat -> C -> option nat.
Variable get_grain_and_segment : nat -> nat -> nat * nat.

(** C93_ids: if every cell of a contour has a particle, the facets are those of the contours of all
    blocks, with the grain of the particle and the number of the block *)
Theorem C93_ids : forall iso n_blocks (cells : list (C * list (list Q))) f g b,
  (forall c b v, In c cells -> nth_error (snd c) b = Some v -> process_cell iso (fst c) v <> [] -> get_particle_index b (fst c) <> None) ->
  In (f, (g, b)) (contours C P process_cell get_particle_index get_grain_and_segment true iso n_blocks cells) <->
  (b < n_blocks)%nat /\ exists c v p, In c cells /\ nth_error (snd c) b = Some v /\ In f (process_cell iso (fst c) v) /\
    get_particle_index b (fst c) = Some p /\ fst (get_grain_and_segment b p) = g.
Proof.
  intros iso n_blocks cells f g b H. unfold contours. rewrite in_flat_map. split.
  - intros (k & Hk & I). apply in_seq in Hk. apply in_flat_map in I. destruct I as (c & Hc & I).
    destruct (nth_error (snd c) k) as [v|] eqn:E; [|destruct I]. apply in_map_iff in I. destruct I as (f' & X & If).
    unfold facet_ids in X. injection X as -> Eg ->. split; [lia|].
    destruct (get_particle_index b (fst c)) as [p|] eqn:Ep.
    + exists c, v, p. auto 6.
    + exfalso. apply (H c b v Hc E); [intro Z; rewrite Z in If; destruct If|exact Ep].
  - intros (Hb & c & v & p & Hc & E & If & Ep & Eg). exists b. split; [apply in_seq; lia|]. apply in_flat_map. exists c. split; [exact Hc|].
    rewrite E. apply in_map_iff. exists f. split; [|exact If]. unfold facet_ids. rewrite Ep, Eg. reflexivity.
Qed.

(** C93_zero_refuted: a facet in a cell without a particle gets the number of grain zero *)
Theorem C93_zero_refuted : forall b c d p, get_particle_index b c = None -> get_particle_index b d = Some p ->
  fst (get_grain_and_segment b p) = 0%nat ->
  facet_ids C get_particle_index get_grain_and_segment true b c = facet_ids C get_particle_index get_grain_and_segment true b d.
Proof. intros b c d p H K E. unfold facet_ids. rewrite H, K, E. reflexivity. Qed.
End Ids.
Print Assumptions C93_ids.
Print Assumptions C93_zero_refuted.

(** ** Cells of one dimension: a facet is the point where the linear function has the level *)
Definition line_cell (iso : Q) (x : Q) (vs : list Q) : list (facet Q) :=
  match vs with
  | [a; b] => if straddles iso vs then let t := (iso - a) / (b - a) in [mkFacet Q (x + t) 1 [1 - t; t]] else []
  | _ => []
  end.

(** C93_half_refuted: if only one of two grains has a contour, half of its area is counted *)
Theorem C93_half_refuted : exists cells f, line_cell (1 # 2) 0 [0; 1] = [f] /\ measure Q f == 1 /\
  cells = [(0, [[0; 1]; [3 # 10; 3 # 10]])] /\
  boundaries_area Q Q line_cell None (1 # 2) (14 # 100) 2 [cells] == 1 # 2.
Proof. eexists. eexists. split; [vm_compute; reflexivity|]. split; [reflexivity|]. split; [reflexivity|]. vm_compute. reflexivity. Qed.

(** C93_boxes_refuted: the areas of two boxes with a common face can be more than the area *)
Theorem C93_boxes_refuted : exists (b1 b2 : Q -> bool) cells,
  (forall x, b1 x = true \/ b2 x = true) /\ (forall x, b1 x = true -> b2 x = true -> x == 1 # 2) /\
  surface_area Q Q line_cell (Some b1) (1 # 2) [cells] + surface_area Q Q line_cell (Some b2) (1 # 2) [cells] == 2 /\
  surface_area Q Q line_cell None (1 # 2) [cells] == 1.
Proof.
  exists (fun x => Qle_bool x (1 # 2)), (fun x => Qle_bool (1 # 2) x), [(0, [0; 1])]. split.
  { intro x. rewrite !Qle_bool_iff. destruct (Qlt_le_dec x (1 # 2)); [left; lra|right; lra]. }
  split. { intros x A B. apply Qle_bool_iff in A. apply Qle_bool_iff in B. lra. }
  split; vm_compute; reflexivity.
Qed.

(** C93_degree_refuted: with quadratic elements the test before the extraction loses facets:
    nothing at the nodes is above the limit, but the interpolated value is *)
Definition quadratic (x : Q) : facet Q := mkFacet Q x 1 [(1 - x) * (1 - 2 * x); 4 * x * (1 - x); x * (2 * x - 1)].
Definition quadratic_cell (v w : list Q) : Q * list (list Q) := (0, [v; w]).
Theorem C93_degree_refuted : exists v w f process,
  f = quadratic (1 # 3) /\ at_point (weights Q f) v == 1 # 2 /\ process (1 # 2) 0 v = [f] /\ crosses (1 # 2) v /\
  14 # 100 < contact Q [v; w] 0 f /\
  boundary_facets Q Q process (1 # 2) (14 # 100) 2 [quadratic_cell v w] = [].
Proof.
  exists [7 # 10; 4 # 10; 1 # 10], [2 # 10; 35 # 100; 1 # 10], (quadratic (1 # 3)), (fun _ _ _ => [quadratic (1 # 3)]).
  split; [reflexivity|]. split; [vm_compute; reflexivity|]. split; [reflexivity|]. split.
  { split; [exists (7 # 10)|exists (1 # 10)]; (split; [cbn; tauto|vm_compute; reflexivity]). }
  split; vm_compute; reflexivity.
Qed.
Print Assumptions C93_half_refuted.
Print Assumptions C93_boxes_refuted.
Print Assumptions C93_degree_refuted.

(** ** An example: two grains along three cells, one boundary *)
Definition ex_line : list (list (Q * list Q)) := [[(0, [1; 8 # 10]); (1, [8 # 10; 2 # 10])]; [(2, [2 # 10; 0])]].
Example C93_example :
  boundaries_area Q Q line_cell None (1 # 2) (14 # 100) 2 (map (map (filled Q)) ex_line) == 1 /\
  boundaries_area Q Q line_cell (Some (fun x => Qle_bool x 1)) (1 # 2) (14 # 100) 2 (map (map (filled Q)) ex_line) == 0 /\
  (forall f, In f (line_cell (1 # 2) 1 [8 # 10; 2 # 10]) -> linear_weights Q 2 f).
Proof.
  split; [vm_compute; reflexivity|]. split; [vm_compute; reflexivity|]. intros f [<-|[]]. split; [reflexivity|]. split.
  - intro n. destruct n as [|[|[|n]]]; vm_compute; discriminate.
  - vm_compute. reflexivity.
Qed.
