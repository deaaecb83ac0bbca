(** C37: order parameters of the regular packings. *)
From Coq Require Import List Arith Bool Reals Lra Lia ZArith Sorted FinFun.
From Verif Require Import Util MapModel MobilityModel MobilityProofs VecGeom PackingModel.
Import ListNotations.
Local Open Scope nat_scope.

(** Grain [g] is listed for order parameter [op]. *)
Definition has (m : op_map) (op g : nat) : Prop := exists l, mget op m = Some l /\ In g l.

(** Each of the grains 0..n-1 has exactly one order parameter, no grain is listed
    twice, no other grains are listed, and the order parameters are 0, 1, ... *)
Definition well_assigned (n : nat) (m : op_map) : Prop :=
  (forall g, g < n -> exists op, has m op g /\ forall op', has m op' g -> op' = op) /\
  (forall op g, has m op g -> g < n) /\
  (forall op l, mget op m = Some l -> NoDup l) /\
  map fst m = seq 0 (length m).

Lemma seq_ssorted : forall n a, StronglySorted lt (seq a n).
Proof.
  induction n as [|n IH]; intro a; cbn; constructor; [apply IH|].
  apply Forall_forall. intros x Hx. apply in_seq in Hx. lia.
Qed.

Lemma sorted_ext : forall a b, StronglySorted lt a -> StronglySorted lt b -> (forall x, In x a <-> In x b) -> a = b.
Proof.
  induction a as [|x a IH]; intros b HS Hs HI.
  - destruct b as [|y b]; [reflexivity|]. destruct (proj2 (HI y)). left. reflexivity.
  - destruct b as [|y b]; [destruct (proj1 (HI x)); left; reflexivity|].
    inversion HS as [|? ? HSa Fx]. inversion Hs as [|? ? HSl Fy]. subst.
    rewrite Forall_forall in Fx, Fy.
    assert (x = y).
    { destruct (proj1 (HI x) (or_introl eq_refl)) as [|Hx]; [congruence|].
      destruct (proj2 (HI y) (or_introl eq_refl)) as [|Hy]; [congruence|].
      specialize (Fx _ Hy). specialize (Fy _ Hx). lia. }
    subst y. f_equal. apply IH; [assumption|assumption|].
    intro g. specialize (HI g). cbn in HI. split; intro Hg.
    + destruct (proj1 HI (or_intror Hg)) as [->|]; [|assumption]. specialize (Fx _ Hg). lia.
    + destruct (proj2 HI (or_intror Hg)) as [->|]; [|assumption]. specialize (Fy _ Hg). lia.
Qed.

(** The map is given by a function from grains to order parameters. *)
Definition given_by (n k : nat) (f : nat -> nat) (m : op_map) : Prop :=
  msorted m /\ (forall g, g < n -> f g < k) /\
  forall op, mget op m = if op <? k then Some (filter (fun g => f g =? op) (seq 0 n)) else None.

Lemma given_has : forall n k f m, given_by n k f m -> forall op g, has m op g <-> g < n /\ f g = op.
Proof.
  intros n k f m (_ & Hk & H) op g. unfold has. split.
  - intros (l & E & Hin). rewrite H in E. destruct (op <? k); [|discriminate]. injection E as <-.
    apply filter_In in Hin. destruct Hin as (A & B). apply in_seq in A. apply Nat.eqb_eq in B. split; [lia|assumption].
  - intros (Hg & <-). exists (filter (fun g' => f g' =? f g) (seq 0 n)). split.
    + rewrite H. destruct (Nat.ltb_spec (f g) k) as [|X]; [reflexivity|]. specialize (Hk g Hg). lia.
    + apply filter_In. split; [apply in_seq; lia|apply Nat.eqb_refl].
Qed.

Lemma given_well : forall n k f m, given_by n k f m -> well_assigned n m /\ length m = k.
Proof.
  intros n k f m G. pose proof (given_has n k f m G) as HH. destruct G as (Hs & Hk & H).
  assert (K : map fst m = seq 0 k).
  { apply sorted_ext; [exact Hs|apply seq_ssorted|]. intro x. rewrite mget_key, in_seq. split.
    - intros (v & E). rewrite H in E. destruct (Nat.ltb_spec x k); [lia|discriminate].
    - intro X. rewrite H. destruct (Nat.ltb_spec x k); [eauto|lia]. }
  assert (L : length m = k). { rewrite <- (map_length fst m), K. apply seq_length. }
  split; [|exact L]. split; [|split; [|split]].
  - intros g Hg. exists (f g). split; [apply HH; auto|]. intros op' H'. apply HH in H'. symmetry. apply H'.
  - intros op g H'. apply HH in H'. apply H'.
  - intros op l E. rewrite H in E. destruct (op <? k); [|discriminate]. injection E as <-.
    apply NoDup_filter, seq_NoDup.
  - rewrite K, L. reflexivity.
Qed.

Lemma filter_seq_S : forall p n, filter p (seq 0 (S n)) = filter p (seq 0 n) ++ (if p n then [n] else []).
Proof. intros p n. rewrite seq_S, filter_app. cbn. destruct (p n); reflexivity. Qed.

Lemma push_all_spec : forall f k i K m, given_by i K f m -> (forall g, i <= g < i + k -> f g < K) ->
  exists m', push_all f k i m = Some m' /\ given_by (i + k) K f m'.
Proof.
  intros f. induction k as [|k IH]; intros i K m G Hf; cbn [push_all].
  - exists m. rewrite Nat.add_0_r. auto.
  - destruct G as (Hs & Hk & H). pose proof (Hf i ltac:(lia)) as Fi. unfold push_at. rewrite H.
    destruct (Nat.ltb_spec (f i) K) as [_|]; [|lia]. cbn [obind].
    replace (i + S k) with (S i + k) by lia. apply IH.
    + split; [apply mput_sorted, Hs|]. split.
      * intros g Hg. destruct (Nat.eq_dec g i) as [->|]; [assumption|apply Hk; lia].
      * intro op. rewrite mget_mput, filter_seq_S, H. destruct (Nat.eqb_spec (f i) op) as [<-|Hne].
        -- destruct (Nat.ltb_spec (f i) K); [|lia]. reflexivity.
        -- rewrite app_nil_r. reflexivity.
    + intros g Hg. apply Hf. lia.
Qed.

Lemma own_spec : forall k i m, given_by i i (fun g => g) m -> given_by (i + k) (i + k) (fun g => g) (own k i m).
Proof.
  induction k as [|k IH]; intros i m G; cbn [own].
  - rewrite Nat.add_0_r. exact G.
  - replace (i + S k) with (S i + k) by lia. apply IH. destruct G as (Hs & _ & H).
    split; [apply mput_sorted, Hs|]. split; [auto|].
    intro op. rewrite mget_mput, filter_seq_S, H. destruct (Nat.eqb_spec i op) as [<-|Hne].
    + destruct (Nat.ltb_spec i (S i)); [|lia]. f_equal.
      replace (filter (fun g => g =? i) (seq 0 i)) with (@nil nat); [reflexivity|].
      symmetry. destruct (filter (fun g => g =? i) (seq 0 i)) as [|x l] eqn:E; [reflexivity|].
      assert (X : In x (filter (fun g => g =? i) (seq 0 i))) by (rewrite E; left; reflexivity).
      apply filter_In in X. destruct X as (A & B). apply in_seq in A. apply Nat.eqb_eq in B. lia.
    + rewrite app_nil_r. destruct (Nat.ltb_spec op i), (Nat.ltb_spec op (S i)); try reflexivity; lia.
Qed.

Lemma given_nil : given_by 0 0 (fun g => g) [].
Proof. split; [constructor|]. split; [auto|]. reflexivity. Qed.

(** The function behind the circle. *)
Definition circle_f (n : nat) (minimize : bool) (g : nat) : nat :=
  if minimize then if (n mod 2 =? 1) && (1 <? n) && (g =? n - 1) then 2 else g mod 2 else g.

Lemma circle_given : forall n minimize, exists m k, circle_ops n minimize = Some m /\ given_by n k (circle_f n minimize) m.
Proof.
  intros n [|]; unfold circle_ops.
  - destruct (Nat.eqb_spec n 1) as [->|Hn].
    + eexists. exists 1. split; [reflexivity|]. split; [repeat constructor|]. split.
      * intros g Hg. replace g with 0 by lia. cbn. lia.
      * intros [|op]; reflexivity.
    + destruct (push_all_spec (fun ip => ip mod 2) n 0 2 (touch 1 (touch 0 []))) as (m & E & G).
      { split; [repeat constructor|]. split; [intros; lia|]. intros [|[|op]]; reflexivity. }
      { intros g _. apply Nat.mod_upper_bound. lia. }
      rewrite E. cbn [obind]. rewrite Nat.add_0_l in G. destruct (Nat.eqb_spec (n mod 2) 0) as [H0|H1].
      * exists m, 2. split; [reflexivity|]. destruct G as (Hs & Hk & H). unfold circle_f. rewrite H0. cbn [Nat.eqb andb].
        split; [exact Hs|]. split; [exact Hk|exact H].
      * assert (H1' : n mod 2 = 1). { pose proof (Nat.mod_upper_bound n 2). lia. }
        assert (exists n', n = S n' /\ n' mod 2 = 0) as (n' & -> & Hn').
        { destruct n as [|n']; [cbn in H1'; lia|]. exists n'. split; [reflexivity|].
          pose proof (Nat.div_mod (S n') 2). pose proof (Nat.div_mod n' 2). pose proof (Nat.mod_upper_bound n' 2). lia. }
        destruct G as (Hs & Hk & H). rewrite H. cbn [Nat.ltb Nat.leb obind]. rewrite filter_seq_S, Hn'. cbn [Nat.eqb].
        rewrite rev_app_distr. cbn [rev app]. rewrite rev_involutive.
        eexists. exists 3. split; [reflexivity|]. unfold circle_f. rewrite H1'. cbn [Nat.eqb andb].
        destruct (Nat.ltb_spec 1 (S n')) as [Hlt|]; [|lia]. cbn [andb].
        replace (S n' - 1) with n' by lia.
        split; [apply mput_sorted, mput_sorted, Hs|]. split.
        -- intros g Hg. destruct (g =? n'); [lia|]. pose proof (Nat.mod_upper_bound g 2). lia.
        -- intro op. rewrite !mget_mput, H, !filter_seq_S, Hn', Nat.eqb_refl.
           assert (EF : forall o, filter (fun g => (if g =? n' then 2 else g mod 2) =? o) (seq 0 n') =
                               filter (fun g => g mod 2 =? o) (seq 0 n')).
           { intro o. apply filter_ext_in. intros g Hg. apply in_seq in Hg.
             destruct (Nat.eqb_spec g n'); [lia|reflexivity]. }
           rewrite EF. destruct op as [|[|[|op]]]; cbn [Nat.eqb Nat.ltb Nat.leb].
           ++ rewrite app_nil_r. reflexivity.
           ++ rewrite app_nil_r. reflexivity.
           ++ f_equal. rewrite (filter_ext_in _ (fun _ => false)).
              ** clear. induction (seq 0 n'); [reflexivity|assumption].
              ** intros g _. pose proof (Nat.mod_upper_bound g 2). destruct (Nat.eqb_spec (g mod 2) 2); [lia|reflexivity].
           ++ reflexivity.
  - exists (own n 0 []), n. split; [reflexivity|]. apply (own_spec n 0). exact given_nil.
Qed.

Lemma mod2_S : forall g, (S g) mod 2 <> g mod 2.
Proof.
  intro g. pose proof (Nat.div_mod g 2). pose proof (Nat.div_mod (S g) 2).
  pose proof (Nat.mod_upper_bound g 2). pose proof (Nat.mod_upper_bound (S g) 2). lia.
Qed.

(** Circle: one order parameter for every grain, numbered contiguously, and those of
    neighbours differ; compressed there are at most three of them. *)
Theorem C37_circle : forall n minimize, exists m, circle_ops n minimize = Some m /\ well_assigned n m /\
  (n <> 0 -> length m = if minimize then if n =? 1 then 1 else if n mod 2 =? 0 then 2 else 3 else n) /\
  forall g op op', 2 <= n -> g < n -> has m op g -> has m op' ((g + 1) mod n) -> op <> op'.
Proof.
  intros n minimize. destruct (circle_given n minimize) as (m & k & E & G). exists m. split; [exact E|].
  destruct (given_well _ _ _ _ G) as (W & L). split; [exact W|]. split.
  - intro Hn. unfold circle_ops in E. destruct minimize; [|injection E as <-; apply (given_well n n (fun g => g)); apply (own_spec n 0); exact given_nil].
    destruct (Nat.eqb_spec n 1) as [->|H1]; [injection E as <-; reflexivity|].
    rewrite L. destruct G as (_ & Hk & H). destruct (Nat.eqb_spec (n mod 2) 0) as [H0|H0].
    + destruct (push_all_spec (fun ip => ip mod 2) n 0 2 (touch 1 (touch 0 []))) as (m' & E' & G').
      { split; [repeat constructor|]. split; [intros; lia|]. intros [|[|op]]; reflexivity. }
      { intros g _. apply Nat.mod_upper_bound. lia. }
      rewrite E' in E. cbn [obind] in E. injection E as <-. rewrite <- L. apply (given_well _ _ _ _ G').
    + assert (n mod 2 = 1) as H1' by (pose proof (Nat.mod_upper_bound n 2); lia).
      assert (2 < k).
      { specialize (Hk (n - 1)). unfold circle_f in Hk. rewrite H1' in Hk. cbn [Nat.eqb andb] in Hk.
        destruct (Nat.ltb_spec 1 n); [|lia]. rewrite Nat.eqb_refl in Hk. cbn [andb] in Hk. apply Hk. lia. }
      destruct (Nat.le_gt_cases k 3) as [|X]; [lia|]. exfalso.
      (* a fourth order parameter would be an entry of the map *)
      destruct (push_all_spec (fun ip => ip mod 2) n 0 2 (touch 1 (touch 0 []))) as (m' & E' & (_ & _ & H')).
      { split; [repeat constructor|]. split; [intros; lia|]. intros [|[|op]]; reflexivity. }
      { intros g _. apply Nat.mod_upper_bound. lia. }
      rewrite E' in E. cbn [obind] in E. destruct (mget 0 m') as [l|]; [|discriminate]. cbn [obind] in E.
      destruct (rev l) as [|x r]; [discriminate|]. injection E as <-. specialize (H 3).
      rewrite !mget_mput, H' in H. destruct (Nat.ltb_spec 3 k); [|lia]. discriminate.
  - intros g op op' Hn Hg H1 H2. apply (given_has _ _ _ _ G) in H1. apply (given_has _ _ _ _ G) in H2.
    destruct H1 as (_ & <-). destruct H2 as (_ & <-). unfold circle_f. destruct minimize.
    + assert (En : (g + 1) mod n = if g =? n - 1 then 0 else S g).
      { destruct (Nat.eqb_spec g (n - 1)) as [->|]; [replace (n - 1 + 1) with n by lia; apply Nat.mod_same; lia|].
        rewrite Nat.mod_small by lia. lia. }
      rewrite En. clear En.
      destruct (Nat.ltb_spec 1 n) as [_|]; [|lia]. rewrite andb_true_r.
      destruct (Nat.eqb_spec (n mod 2) 1) as [H1|H1]; cbn [andb].
      * destruct (Nat.eqb_spec g (n - 1)) as [->|Hne].
        -- destruct (Nat.eqb_spec 0 (n - 1)); [lia|]. cbn. lia.
        -- destruct (Nat.eqb_spec (S g) (n - 1)).
           ++ pose proof (Nat.mod_upper_bound g 2). lia.
           ++ intro X. apply (mod2_S g). congruence.
      * destruct (Nat.eqb_spec g (n - 1)) as [->|Hne].
        -- intro X. assert (Y : (n - 1) mod 2 = 0) by (rewrite X; reflexivity).
           pose proof (mod2_S (n - 1)) as Z. replace (S (n - 1)) with n in Z by lia.
           pose proof (Nat.mod_upper_bound n 2). lia.
        -- intro X. apply (mod2_S g). congruence.
    + destruct (Nat.eq_dec g (n - 1)) as [->|].
      * replace (n - 1 + 1) with n by lia. rewrite Nat.mod_same by lia. lia.
      * rewrite Nat.mod_small by lia. lia.
Qed.
Print Assumptions C37_circle.

Example C37_circle_case : circle_ops 5 true = Some [(0, [0; 2]); (1, [1; 3]); (2, [4])] /\
  circle_ops 4 true = Some [(0, [0; 2]); (1, [1; 3])].
Proof. split; reflexivity. Qed.

(** * Hypercube *)

Lemma cells_spec : forall ns c, In c (cells ns) <-> Forall2 lt c ns.
Proof.
  induction ns as [|n ns IH]; intro c; cbn [cells].
  - split; [intros [<-|[]]; constructor|]. intro H. inversion H. left. reflexivity.
  - rewrite in_flat_map. split.
    + intros (i & Hi & Hc). apply in_map_iff in Hc. destruct Hc as (c' & <- & Hc'). apply in_seq in Hi.
      constructor; [lia|]. apply IH, Hc'.
    + intro H. inversion H as [|i n' c' ns' Hi Hc]. subst. exists i. split; [apply in_seq; lia|].
      apply in_map, IH, Hc.
Qed.

Lemma cells_nodup : forall ns, NoDup (cells ns).
Proof.
  induction ns as [|n ns IH]; cbn [cells]; [repeat constructor; auto|].
  assert (H : forall k a, NoDup (flat_map (fun i => map (cons i) (cells ns)) (seq a k))).
  { induction k as [|k IHk]; intro a; cbn [seq flat_map]; [constructor|].
    assert (A : NoDup (map (cons a) (cells ns))).
    { apply FinFun.Injective_map_NoDup; [|exact IH]. intros x y X. congruence. }
    revert A. specialize (IHk (S a)).
    assert (D : forall x, In x (map (cons a) (cells ns)) -> ~ In x (flat_map (fun i => map (cons i) (cells ns)) (seq (S a) k))).
    { intros x Hx Hy. apply in_map_iff in Hx. destruct Hx as (c & <- & _). apply in_flat_map in Hy.
      destruct Hy as (i & Hi & Hy). apply in_map_iff in Hy. destruct Hy as (c' & X & _). apply in_seq in Hi.
      injection X as -> _. lia. }
    revert D IHk. generalize (map (cons a) (cells ns)). generalize (flat_map (fun i => map (cons i) (cells ns)) (seq (S a) k)).
    clear. intros l2 l1. induction l1 as [|x l1 IH]; intros D N2 N1; cbn [app]; [exact N2|].
    inversion N1 as [|? ? Hx N1']. subst. constructor.
    - intro X. apply in_app_or in X. destruct X as [X|X]; [auto|]. apply (D x); [left; reflexivity|assumption].
    - apply IH; auto. intros y Hy. apply D. right. assumption. }
  apply H.
Qed.

Lemma cells_length : forall ns, length (cells ns) = fold_left Nat.mul ns 1.
Proof.
  assert (A : forall ns a, fold_left Nat.mul ns a = a * length (cells ns)).
  { induction ns as [|n ns IH]; intro a; cbn [fold_left cells]; [cbn; lia|].
    rewrite IH. rewrite flat_map_concat_map.
    assert (B : forall k i, length (concat (map (fun i => map (cons i) (cells ns)) (seq i k))) = k * length (cells ns)).
    { induction k as [|k IHk]; intro i; cbn [seq map concat]; [reflexivity|].
      rewrite app_length, map_length, IHk. cbn [Nat.mul]. reflexivity. }
    rewrite B. lia. }
  intro ns. rewrite A. lia.
Qed.

(** The orders are smaller than the number of grains. *)
Lemma order_bound : forall ns c, In c (cells ns) -> S (list_sum c) <= length (cells ns).
Proof.
  intros ns c H. rewrite cells_length. apply cells_spec in H.
  assert (A : forall ns a, fold_left Nat.mul ns a = a * fold_left Nat.mul ns 1).
  { induction ns0 as [|n ns0 IH]; intro a; cbn [fold_left]; [lia|]. rewrite IH, (IH (1 * n)). lia. }
  induction H as [|i n c ns Hi H IH]; [cbn; lia|].
  cbn [fold_left]. rewrite A. change (list_sum (i :: c)) with (i + list_sum c).
  assert ((i + 1) * fold_left Nat.mul ns 1 <= 1 * n * fold_left Nat.mul ns 1) by (apply Nat.mul_le_mono_r; lia).
  nia.
Qed.

Lemma push_spec : forall op g i K f m, given_by i K f m -> g = i -> f i = op -> op < K -> given_by (S i) K f (push op g m).
Proof.
  intros op g i K f m (Hs & Hk & H) -> <- Hf. unfold push. split; [apply mput_sorted, Hs|]. split.
  - intros g' Hg. destruct (Nat.eq_dec g' i) as [->|]; [assumption|apply Hk; lia].
  - intro o. rewrite mget_mput, filter_seq_S, !H. destruct (Nat.eqb_spec (f i) o) as [<-|Hne].
    + destruct (Nat.ltb_spec (f i) K); [|lia]. reflexivity.
    + rewrite app_nil_r. reflexivity.
Qed.

Lemma touch_all_spec : forall k i f m, given_by 0 i f m -> given_by 0 (i + k) f (touch_all k i m).
Proof.
  induction k as [|k IH]; intros i f m G; cbn [touch_all].
  - rewrite Nat.add_0_r. exact G.
  - replace (i + S k) with (S i + k) by lia. apply IH. destruct G as (Hs & _ & H).
    unfold touch. split; [apply memplace_sorted, Hs|]. split; [intros; lia|].
    intro op. rewrite mget_memplace, H. cbn [seq filter].
    destruct (Nat.ltb_spec op i), (Nat.ltb_spec op (S i)); try reflexivity; try lia.
    + destruct (Nat.eqb_spec i op); [reflexivity|lia].
    + destruct (Nat.eqb_spec i op); [lia|reflexivity].
Qed.

Definition cube_f (ns : list nat) (n_op g : nat) : nat :=
  if 0 <? n_op then list_sum (nth g (cells ns) []) mod n_op else g.

Lemma assign_all_spec : forall ns n_op l pre m, 0 < n_op -> cells ns = pre ++ l ->
  given_by (length pre) (Nat.min (length (cells ns)) n_op) (cube_f ns n_op) m ->
  given_by (length (cells ns)) (Nat.min (length (cells ns)) n_op) (cube_f ns n_op) (assign_all l (length pre) n_op m).
Proof.
  intros ns n_op l. induction l as [|c l IH]; intros pre m Hn E G; cbn [assign_all].
  - rewrite app_nil_r in E. assert (L : length (cells ns) = length pre) by (rewrite E; reflexivity).
    rewrite L. rewrite L in G. exact G.
  - unfold assign_order_parameter. destruct (Nat.ltb_spec 0 n_op) as [_|]; [|lia].
    replace (S (length pre)) with (length (pre ++ [c])) by (rewrite app_length; cbn; lia).
    assert (Hc : nth (length pre) (cells ns) [] = c).
    { rewrite E, app_nth2, Nat.sub_diag by lia. reflexivity. }
    apply IH; [assumption|rewrite <- app_assoc; exact E|].
    rewrite app_length. cbn [length]. rewrite Nat.add_1_r. apply push_spec; [exact G|reflexivity| |].
    + unfold cube_f. rewrite Hc. destruct (Nat.ltb_spec 0 n_op); [reflexivity|lia].
    + assert (In c (cells ns)) as Hin by (rewrite E; apply in_or_app; right; left; reflexivity).
      apply order_bound in Hin. apply Nat.min_glb_lt; [|apply Nat.mod_upper_bound; lia].
      pose proof (Nat.mod_le (list_sum c) n_op). lia.
Qed.

Lemma assign_own : forall l k m, given_by k k (fun g => g) m -> given_by (k + length l) (k + length l) (fun g => g) (assign_all l k 0 m).
Proof.
  induction l as [|c l IH]; intros k m G; cbn [assign_all length].
  - rewrite Nat.add_0_r. exact G.
  - replace (k + S (length l)) with (S k + length l) by lia. apply IH.
    cbn. exact (own_spec 1 k m G) || (replace (S k) with (k + 1) by lia; exact (own_spec 1 k m G)).
Qed.

Lemma cube_given : forall ns n_op, given_by (length (cells ns))
  (if 0 <? n_op then Nat.min (length (cells ns)) n_op else length (cells ns)) (cube_f ns n_op) (hypercube_ops ns n_op).
Proof.
  intros ns n_op. unfold hypercube_ops. rewrite <- cells_length. destruct (Nat.ltb_spec 0 n_op) as [Hn|Hn].
  - apply (assign_all_spec ns n_op (cells ns) [] _ Hn eq_refl). cbn [length].
    apply (touch_all_spec _ 0). split; [constructor|]. split; [intros; lia|]. reflexivity.
  - replace n_op with 0 by lia. unfold cube_f. cbn [Nat.ltb Nat.leb]. apply (assign_own (cells ns) 0). exact given_nil.
Qed.

(** Hypercube: the grains are the cells of the grid, each of them once; every grain
    has one order parameter, numbered contiguously; and those of neighbours differ as
    soon as there may be two of them (or if they are not to be minimised). *)
Theorem C37_hypercube : forall ns n_op,
  let m := hypercube_ops ns n_op in
  NoDup (cells ns) /\ (forall c, In c (cells ns) <-> Forall2 lt c ns) /\
  well_assigned (length (cells ns)) m /\
  length m = (if n_op =? 0 then length (cells ns) else Nat.min (length (cells ns)) n_op) /\
  forall g g' a x b op op', n_op <> 1 ->
    vget (cells ns) g = Some (a ++ x :: b) -> vget (cells ns) g' = Some (a ++ S x :: b) ->
    has m op g -> has m op' g' -> op <> op'.
Proof.
  intros ns n_op m. pose proof (cube_given ns n_op) as G. fold m in G.
  destruct (given_well _ _ _ _ G) as (W & L).
  split; [apply cells_nodup|]. split; [apply cells_spec|]. split; [exact W|]. split.
  - rewrite L. destruct n_op; reflexivity.
  - intros g g' a x b op op' Hn Eg Eg' H1 H2. apply (given_has _ _ _ _ G) in H1. apply (given_has _ _ _ _ G) in H2.
    destruct H1 as (_ & <-). destruct H2 as (_ & <-). unfold cube_f. unfold vget in Eg, Eg'.
    rewrite (nth_error_nth _ _ [] Eg), (nth_error_nth _ _ [] Eg'). destruct (Nat.ltb_spec 0 n_op) as [Hp|Hp].
    + rewrite !list_sum_app. change (list_sum (x :: b)) with (x + list_sum b). change (list_sum (S x :: b)) with (S x + list_sum b).
      replace (list_sum a + (S x + list_sum b)) with (S (list_sum a + (x + list_sum b))) by lia.
      set (y := list_sum a + (x + list_sum b)). intro X.
      pose proof (Nat.div_mod y n_op ltac:(lia)) as D1. pose proof (Nat.div_mod (S y) n_op ltac:(lia)) as D2.
      rewrite X in D1.
      assert (n_op * (S y / n_op) = n_op * (y / n_op) + 1) by lia.
      assert (n_op * (S y / n_op - y / n_op) = 1) by (rewrite Nat.mul_sub_distr_l; lia).
      assert (n_op = 1) by (apply Nat.eq_mul_1 in H0; tauto). contradiction.
    + intro X. subst g'. rewrite Eg in Eg'. injection Eg' as Y. apply app_inv_head in Y. injection Y as Y. lia.
Qed.
Print Assumptions C37_hypercube.

Example C37_hypercube_case : hypercube_ops [2; 3] 2 = [(0, [0; 2; 4]); (1, [1; 3; 5])] /\
  hypercube_ops [2; 2] 4 = [(0, [0]); (1, [1; 2]); (2, [3]); (3, [])] (* an order parameter without grains *) /\
  hypercube_ops [2; 2] 0 = [(0, [0]); (1, [1]); (2, [2]); (3, [3])].
Proof. repeat split. Qed.

(** * Where the grains are *)
Local Open Scope R_scope.

Lemma sin_larger : forall n k, (2 <= n)%nat -> (1 <= k <= n - 1)%nat ->
  sin (PI / INR n) <= sin (INR k * (PI / INR n)) /\
  ((2 <= k <= n - 2)%nat -> sin (PI / INR n) < sin (INR k * (PI / INR n))).
Proof.
  intros n k Hn Hk. set (b := PI / INR n).
  assert (Hn2 : 2 <= INR n). { change 2 with (INR 2). apply le_INR. assumption. }
  pose proof PI_RGT_0 as HP.
  assert (Hb : 0 < b). { apply Rdiv_lt_0_compat; lra. }
  assert (Hnb : INR n * b = PI). { unfold b. field. lra. }
  assert (Hb2 : b <= PI / 2). { nra. }
  assert (Hk1 : 1 <= INR k). { change 1 with (INR 1). apply le_INR. lia. }
  assert (Hkn : INR k <= INR n - 1). { replace (INR n - 1) with (INR (n - 1)) by (rewrite minus_INR by lia; reflexivity). apply le_INR. lia. }
  assert (Hx1 : b <= INR k * b). { nra. }
  assert (Hx2 : INR k * b <= PI - b). { nra. }
  destruct (Rle_dec (INR k * b) (PI / 2)) as [Hs|Hs].
  - split.
    + apply sin_incr_1; lra.
    + intro H2. assert (2 <= INR k). { change 2 with (INR 2). apply le_INR. lia. }
      apply sin_increasing_1; try lra. nra.
  - rewrite <- (sin_PI_x (INR k * b)). split.
    + apply sin_incr_1; lra.
    + intro H2. assert (INR k <= INR n - 2).
      { replace (INR n - 2) with (INR (n - 2)) by (rewrite minus_INR by lia; reflexivity). apply le_INR. lia. }
      apply sin_increasing_1; try lra. nra.
Qed.

Lemma chord : forall a b, (cos a - cos b) * (cos a - cos b) + (sin a - sin b) * (sin a - sin b) =
  4 * (sin ((a - b) / 2) * sin ((a - b) / 2)).
Proof.
  intros a b. assert (H : cos (a - b) = 1 - 2 * sin ((a - b) / 2) * sin ((a - b) / 2)).
  { replace (a - b) with (2 * ((a - b) / 2)) at 1 by field. apply cos_2a_sin. }
  rewrite cos_minus in H. pose proof (sin2_cos2 a) as A. pose proof (sin2_cos2 b) as B. unfold Rsqr in *. nra.
Qed.

Lemma circle_distance : forall dim r0 n i j, dim = 2%nat \/ dim = 3%nat -> 0 < r0 -> (2 <= n)%nat -> (i < j)%nat -> (j < n)%nat ->
  vdist dim (circle_center dim r0 n i) (circle_center dim r0 n j) =
  2 * r0 * (sin (INR (j - i) * (PI / INR n)) / sin (PI / INR n)).
Proof.
  intros dim r0 n i j Hd Hr Hn Hij Hj. unfold circle_center.
  destruct (Nat.ltb_spec 1 n) as [_|]; [|lia].
  assert (Hn2 : 2 <= INR n). { change 2 with (INR 2). apply le_INR. assumption. }
  pose proof PI_RGT_0 as HP.
  replace (2 * PI / INR n / 2) with (PI / INR n) by (field; lra).
  assert (Hb : 0 < PI / INR n). { apply Rdiv_lt_0_compat; lra. }
  assert (Hb2 : PI / INR n < PI). { apply (Rmult_lt_reg_r (INR n)); [lra|]. unfold Rdiv. rewrite Rmult_assoc, Rinv_l by lra. nra. }
  pose proof (sin_gt_0 _ Hb Hb2) as Hs.
  destruct (sin_larger n (j - i) Hn ltac:(lia)) as (Hl & _).
  set (h := r0 / sin (PI / INR n)). set (a := INR i * (2 * PI / INR n)). set (b := INR j * (2 * PI / INR n)).
  assert (E : ((a - b) / 2) = - (INR (j - i) * (PI / INR n))).
  { unfold a, b. rewrite minus_INR by lia. field. lra. }
  assert (C := chord a b). rewrite E, sin_neg in C.
  set (s := sin (INR (j - i) * (PI / INR n))) in *.
  unfold vdist. apply norm_unique.
  - apply Rmult_le_pos; [lra|]. apply Rmult_le_pos; [lra|]. left. apply Rinv_0_lt_compat. assumption.
  - assert (F : 2 * r0 * (s / sin (PI / INR n)) * (2 * r0 * (s / sin (PI / INR n))) = h * h * (4 * (s * s))).
    { unfold h. field. lra. }
    rewrite F. replace (4 * (s * s)) with (4 * (- s * - s)) by ring. rewrite <- C.
    destruct Hd as [-> | ->]; cbn [dot]; rewrite ?sin_PI2, ?cos_PI2; ring.
Qed.

(** Circle: neighbours touch each other (their centers are two radii apart) and no two
    grains overlap; grains with the same order parameter do not even touch. *)
Theorem C37_circle_distances : forall dim r0 n i j, dim = 2%nat \/ dim = 3%nat -> 0 < r0 -> (2 <= n)%nat ->
  (i < n)%nat -> (j < n)%nat -> i <> j ->
  let dist := vdist dim (circle_center dim r0 n i) (circle_center dim r0 n j) in
  2 * r0 <= dist /\
  ((j = (i + 1) mod n)%nat -> dist = 2 * r0) /\
  (forall minimize m op, circle_ops n minimize = Some m -> has m op i -> has m op j -> 2 * r0 < dist).
Proof.
  assert (Main : forall dim r0 n i j, dim = 2%nat \/ dim = 3%nat -> 0 < r0 -> (2 <= n)%nat -> (i < j)%nat -> (j < n)%nat ->
    let dist := vdist dim (circle_center dim r0 n i) (circle_center dim r0 n j) in
    2 * r0 <= dist /\ ((j = i + 1)%nat \/ (i = 0 /\ j = n - 1)%nat -> dist = 2 * r0) /\
    (~ ((j = i + 1)%nat \/ (i = 0 /\ j = n - 1)%nat) -> 2 * r0 < dist)).
  { intros dim r0 n i j Hd Hr Hn Hij Hj dist. unfold dist. rewrite circle_distance by assumption.
    destruct (sin_larger n (j - i) Hn ltac:(lia)) as (Hl & Hstr).
    assert (Hn2 : 2 <= INR n). { change 2 with (INR 2). apply le_INR. assumption. }
    pose proof PI_RGT_0 as HP.
    assert (Hb : 0 < PI / INR n). { apply Rdiv_lt_0_compat; lra. }
    assert (Hb2 : PI / INR n < PI). { apply (Rmult_lt_reg_r (INR n)); [lra|]. unfold Rdiv. rewrite Rmult_assoc, Rinv_l by lra. nra. }
    pose proof (sin_gt_0 _ Hb Hb2) as Hs.
    set (s := sin (PI / INR n)) in *. set (t := sin (INR (j - i) * (PI / INR n))) in *.
    assert (Hq : t / s * s = t). { field. lra. }
    split; [|split].
    - assert (1 <= t / s); [|nra]. apply (Rmult_le_reg_r s); lra.
    - intro H. assert (t = s).
      { destruct H as [H|H].
        - unfold t. replace (j - i)%nat with 1%nat by lia. cbn [INR]. rewrite Rmult_1_l. reflexivity.
        - unfold t. replace (j - i)%nat with (n - 1)%nat by lia. rewrite minus_INR by lia. cbn [INR].
          replace ((INR n - 1) * (PI / INR n)) with (PI - PI / INR n) by (field; lra). apply sin_PI_x. }
      rewrite H0. field. lra.
    - intro H. assert (s < t). { apply Hstr. lia. }
      assert (1 < t / s); [|nra]. apply (Rmult_lt_reg_r s); lra. }
  intros dim r0 n i j Hd Hr Hn Hi Hj Hne dist.
  assert (Adj : forall minimize m op, circle_ops n minimize = Some m -> has m op i -> has m op j ->
    ~ (j = (i + 1) mod n)%nat /\ ~ (i = (j + 1) mod n)%nat).
  { intros minimize m op E H1 H2. destruct (C37_circle n minimize) as (m' & E' & _ & _ & K). rewrite E in E'. injection E' as <-.
    split; intro X; [apply (K i op op); auto; rewrite <- X; assumption|apply (K j op op); auto; rewrite <- X; assumption]. }
  assert (Mod : forall a, (a < n)%nat -> ((a + 1) mod n = if a =? n - 1 then 0 else a + 1)%nat).
  { intros a Ha. destruct (Nat.eqb_spec a (n - 1)) as [->|]; [replace (n - 1 + 1)%nat with n by lia; apply Nat.mod_same; lia|].
    apply Nat.mod_small. lia. }
  destruct (Nat.lt_ge_cases i j) as [Hij|Hij].
  - destruct (Main dim r0 n i j Hd Hr Hn Hij Hj) as (A & B & C). split; [exact A|]. split.
    + intro X. apply B. rewrite Mod in X by assumption. destruct (Nat.eqb_spec i (n - 1)); lia.
    + intros minimize m op E H1 H2. apply C. destruct (Adj minimize m op E H1 H2) as (N1 & N2).
      rewrite Mod in N1, N2 by assumption. destruct (Nat.eqb_spec i (n - 1)), (Nat.eqb_spec j (n - 1)); lia.
  - destruct (Main dim r0 n j i Hd Hr Hn ltac:(lia) Hi) as (A & B & C). unfold dist. rewrite vdist_sym. split; [exact A|]. split.
    + intro X. apply B. rewrite Mod in X by assumption. destruct (Nat.eqb_spec i (n - 1)); lia.
    + intros minimize m op E H1 H2. apply C. destruct (Adj minimize m op E H1 H2) as (N1 & N2).
      rewrite Mod in N1, N2 by assumption. destruct (Nat.eqb_spec i (n - 1)), (Nat.eqb_spec j (n - 1)); lia.
Qed.
Print Assumptions C37_circle_distances.

(** Sums over the first [k] indices. *)
Fixpoint zsum (k : nat) (f : nat -> Z) : Z := match k with O => 0%Z | S k => (zsum k f + f k)%Z end.

Lemma zsum_ext : forall k f g, (forall d, (d < k)%nat -> f d = g d) -> zsum k f = zsum k g.
Proof. induction k as [|k IH]; intros f g H; cbn; [reflexivity|]. rewrite (IH f g), (H k) by (intros; auto with arith). reflexivity. Qed.

Lemma zsum_minus : forall k f g, zsum k (fun d => (f d - g d)%Z) = (zsum k f - zsum k g)%Z.
Proof. induction k as [|k IH]; intros f g; cbn; [reflexivity|]. rewrite IH. ring. Qed.

Lemma list_sum_zsum : forall c, Z.of_nat (list_sum c) = zsum (length c) (fun d => Z.of_nat (nth d c 0%nat)).
Proof.
  intro c. induction c as [|x c IH] using rev_ind; [reflexivity|].
  rewrite list_sum_app, app_length, Nat.add_1_r. cbn [list_sum fold_right zsum].
  rewrite app_nth2, Nat.sub_diag by lia. cbn [nth].
  rewrite (zsum_ext _ _ (fun d => Z.of_nat (nth d c 0%nat))) by (intros d Hd; rewrite app_nth1 by assumption; reflexivity).
  rewrite <- IH. lia.
Qed.

Lemma squares : forall k f, (Z.abs (zsum k f) <= zsum k (fun d => f d * f d))%Z /\
  Z.even (zsum k (fun d => f d * f d)%Z) = Z.even (zsum k f).
Proof.
  induction k as [|k IH]; intro f; cbn [zsum]; [split; [cbn; lia|reflexivity]|].
  destruct (IH f) as (A & B). split.
  - assert (Z.abs (f k) <= f k * f k)%Z by nia. lia.
  - rewrite !Z.even_add, B, Z.even_mul. destruct (Z.even (zsum k f)), (Z.even (f k)); reflexivity.
Qed.

Lemma squares_zero : forall k f, zsum k (fun d => (f d * f d)%Z) = 0%Z -> forall d, (d < k)%nat -> f d = 0%Z.
Proof.
  induction k as [|k IH]; intros f H d Hd; [lia|]. cbn [zsum] in H. destruct (squares k f) as (A & _).
  assert (zsum k (fun d => (f d * f d)%Z) = 0 /\ f k = 0)%Z as (A0 & A1) by nia.
  destruct (Nat.eq_dec d k) as [->|]; [assumption|]. apply (IH f A0). lia.
Qed.

Lemma cube_dot : forall r0 c c' k,
  dot k (fun d => hypercube_center r0 c d - hypercube_center r0 c' d) (fun d => hypercube_center r0 c d - hypercube_center r0 c' d) =
  4 * (r0 * r0) * IZR (zsum k (fun d => let z := (Z.of_nat (nth d c 0%nat) - Z.of_nat (nth d c' 0%nat))%Z in z * z)%Z).
Proof.
  intros r0 c c'. induction k as [|k IH]; cbn [dot zsum]; [ring|]. rewrite IH, plus_IZR. cbv zeta.
  rewrite mult_IZR, minus_IZR, <- !INR_IZR_INZ. unfold hypercube_center. ring.
Qed.

(** Hypercube: no two grains overlap, neighbours touch, and grains with the same order
    parameter do not even touch. *)
Theorem C37_hypercube_distances : forall ns n_op r0 g g' c c', 0 < r0 ->
  vget (cells ns) g = Some c -> vget (cells ns) g' = Some c' -> g <> g' ->
  let dist := vdist (length ns) (hypercube_center r0 c) (hypercube_center r0 c') in
  2 * r0 <= dist /\
  (forall a x b, c = a ++ x :: b -> c' = a ++ S x :: b -> dist = 2 * r0) /\
  (forall op, n_op <> 1%nat -> has (hypercube_ops ns n_op) op g -> has (hypercube_ops ns n_op) op g' -> 2 * r0 < dist).
Proof.
  intros ns n_op r0 g g' c c' Hr Hc Hc' Hne dist.
  assert (Hcc : c <> c').
  { intros ->. apply Hne. apply (proj1 (NoDup_nth_error (cells ns)) (cells_nodup ns)).
    - apply vget_lt in Hc. assumption.
    - unfold vget in *. congruence. }
  assert (In1 : In c (cells ns)) by (eapply nth_error_In; exact Hc).
  assert (In2 : In c' (cells ns)) by (eapply nth_error_In; exact Hc').
  assert (L1 : length c = length ns) by (apply cells_spec in In1; clear - In1; induction In1; cbn; congruence).
  assert (L2 : length c' = length ns) by (apply cells_spec in In2; clear - In2; induction In2; cbn; congruence).
  set (f := fun d => (Z.of_nat (nth d c 0%nat) - Z.of_nat (nth d c' 0%nat))%Z).
  set (q := zsum (length ns) (fun d => f d * f d)%Z).
  assert (Hdot : dot (length ns) (fun d => hypercube_center r0 c d - hypercube_center r0 c' d) (fun d => hypercube_center r0 c d - hypercube_center r0 c' d) = 4 * (r0 * r0) * IZR q).
  { apply cube_dot. }
  destruct (squares (length ns) f) as (Sq1 & Sq2). fold q in Sq1, Sq2.
  assert (Hq1 : (1 <= q)%Z).
  { destruct (Z.eq_dec q 0) as [E|]; [|lia]. exfalso. apply Hcc. apply (nth_ext c c' 0%nat 0%nat); [congruence|].
    intros d Hd. pose proof (squares_zero (length ns) f E d ltac:(lia)) as Hz. unfold f in Hz. lia. }
  assert (Hsum : zsum (length ns) f = (Z.of_nat (list_sum c) - Z.of_nat (list_sum c'))%Z).
  { rewrite !list_sum_zsum, L1, L2. apply zsum_minus. }
  assert (Sq : dist * dist = 4 * (r0 * r0) * IZR q). { rewrite <- Hdot. apply norm_sq. }
  pose proof (vdist_nonneg (length ns) (hypercube_center r0 c) (hypercube_center r0 c')) as Hd0. fold dist in Hd0.
  apply IZR_le in Hq1 as Hq1'. split; [|split].
  - assert (4 * (r0 * r0) <= dist * dist) by nra. nra.
  - intros a x b -> ->. unfold dist, vdist. apply norm_unique; [lra|]. rewrite Hdot.
    assert (q = 1)%Z; [|rewrite H; ring].
    rewrite app_length in L1. cbn [length] in L1.
    assert (G : forall b k, (k <= length b)%nat -> zsum (length a + S k) (fun d => (Z.of_nat (nth d (a ++ x :: b) 0%nat) - Z.of_nat (nth d (a ++ S x :: b) 0%nat)) * (Z.of_nat (nth d (a ++ x :: b) 0%nat) - Z.of_nat (nth d (a ++ S x :: b) 0%nat)))%Z = 1%Z).
    { clear. intros b k. induction k as [|k IH]; intro Hk.
      - rewrite Nat.add_1_r. cbn [zsum]. rewrite !app_nth2, Nat.sub_diag by lia. cbn [nth].
        rewrite (zsum_ext _ _ (fun _ => 0%Z)).
        + replace (zsum (length a) (fun _ => 0%Z)) with 0%Z; [lia|]. induction (length a) as [|m IHm]; cbn; [reflexivity|]. lia.
        + intros d Hd. rewrite !app_nth1 by assumption. lia.
      - rewrite Nat.add_succ_r. cbn [zsum]. rewrite IH by lia. rewrite !app_nth2 by lia.
        replace (length a + S k - length a)%nat with (S k) by lia. cbn [nth]. lia. }
    specialize (G b (length b) (le_n _)). rewrite L1 in G. exact G.
  - intros op Hn H1 H2.
    assert (q <> 1)%Z.
    { intro E. rewrite E in *.
      assert (Hpm : (zsum (length ns) f = 1 \/ zsum (length ns) f = -1)%Z).
      { destruct (Z.eq_dec (zsum (length ns) f) 0) as [Z0|]; [rewrite Z0 in Sq2; discriminate|lia]. }
      pose proof (cube_given ns n_op) as G. apply (given_has _ _ _ _ G) in H1. apply (given_has _ _ _ _ G) in H2.
      destruct H1 as (_ & <-). destruct H2 as (_ & H2). unfold cube_f in H2. unfold vget in Hc, Hc'.
      rewrite (nth_error_nth _ _ [] Hc), (nth_error_nth _ _ [] Hc') in H2.
      destruct (Nat.ltb_spec 0 n_op) as [Hp|Hp]; [|congruence].
      pose proof (Nat.div_mod (list_sum c) n_op ltac:(lia)) as D1. pose proof (Nat.div_mod (list_sum c') n_op ltac:(lia)) as D2.
      rewrite H2 in D2. rewrite Hsum in Hpm.
      destruct Hpm as [Hpm|Hpm].
      - assert (X : (n_op * (list_sum c / n_op - list_sum c' / n_op) = 1)%nat) by (rewrite Nat.mul_sub_distr_l; lia).
        apply Nat.eq_mul_1 in X. tauto.
      - assert (X : (n_op * (list_sum c' / n_op - list_sum c / n_op) = 1)%nat) by (rewrite Nat.mul_sub_distr_l; lia).
        apply Nat.eq_mul_1 in X. tauto. }
    assert (Hq2 : (2 <= q)%Z) by lia. apply IZR_le in Hq2. nra.
Qed.
Print Assumptions C37_hypercube_distances.

Lemma fold_max : forall l x, (forall y, In y (x :: l) -> y <= fold_left (fun a b => if Rlt_dec a b then b else a) l x) /\
  In (fold_left (fun a b => if Rlt_dec a b then b else a) l x) (x :: l).
Proof.
  induction l as [|z l IH]; intro x; cbn [fold_left].
  - split; [intros y [->|[]]; lra|left; reflexivity].
  - destruct (Rlt_dec x z) as [H|H].
    + destruct (IH z) as (A & B). split.
      * intros y [->|Hy]; [|apply A, Hy]. specialize (A z (or_introl eq_refl)). lra.
      * right. exact B.
    + destruct (IH x) as (A & B). split.
      * intros y [->|[->|Hy]]; [apply A; left; reflexivity| |apply A; right; exact Hy]. specialize (A x (or_introl eq_refl)). lra.
      * destruct B as [B|B]; [left; exact B|right; right; exact B].
Qed.

Lemma fold_min : forall l x, (forall y, In y (x :: l) -> fold_left (fun a b => if Rlt_dec b a then b else a) l x <= y) /\
  In (fold_left (fun a b => if Rlt_dec b a then b else a) l x) (x :: l).
Proof.
  induction l as [|z l IH]; intro x; cbn [fold_left].
  - split; [intros y [->|[]]; lra|left; reflexivity].
  - destruct (Rlt_dec z x) as [H|H].
    + destruct (IH z) as (A & B). split.
      * intros y [->|Hy]; [|apply A, Hy]. specialize (A z (or_introl eq_refl)). lra.
      * right. exact B.
    + destruct (IH x) as (A & B). split.
      * intros y [->|[->|Hy]]; [apply A; left; reflexivity| |apply A; right; exact Hy]. specialize (A x (or_introl eq_refl)). lra.
      * destruct B as [B|B]; [left; exact B|right; right; exact B].
Qed.

(** The reported domain is the smallest box around all grains. *)
Theorem C37_array_domain : forall dim r0 centers, centers <> [] -> 0 <= r0 ->
  forall d, (d < dim)%nat -> exists lo hi, array_boundaries r0 centers d = Some (lo, hi) /\
  (forall c p, In c centers -> vdist dim c p <= r0 -> lo <= p d <= hi) /\
  (exists c, In c centers /\ c d - r0 = lo) /\ (exists c, In c centers /\ c d + r0 = hi).
Proof.
  intros dim r0 centers Hne Hr d Hd. destruct centers as [|c0 cs]; [congruence|].
  unfold array_boundaries. cbn [map min_element max_element obind].
  set (l := map (fun c : vec => c d) cs). destruct (fold_max l (c0 d)) as (A & B). destruct (fold_min l (c0 d)) as (A' & B').
  exists (fold_left (fun a b => if Rlt_dec b a then b else a) l (c0 d) - r0),
    (fold_left (fun a b => if Rlt_dec a b then b else a) l (c0 d) + r0).
  split; [reflexivity|]. split; [|split].
  - intros c p Hin Hp.
    assert (Hc : In (c d) (c0 d :: l)). { destruct Hin as [->|Hin]; [left; reflexivity|right]. unfold l. apply (in_map (fun c : vec => c d)). exact Hin. }
    specialize (A _ Hc). specialize (A' _ Hc).
    assert (K : Rabs (c d - p d) <= r0).
    { refine (Rle_trans _ _ _ _ Hp). unfold vdist. clear - Hd. set (v := fun d => c d - p d).
      change (c d - p d) with (v d). clearbody v.
      assert (v d * v d <= dot dim v v).
      { induction dim as [|k IH]; [lia|]. cbn [dot]. pose proof (dot_pos k v). destruct (Nat.eq_dec d k) as [->|]; [lra|].
        assert (v d * v d <= dot k v v) by (apply IH; lia). nra. }
      apply sq_le; [apply norm_nonneg|]. rewrite norm_sq. rewrite <- Rabs_mult. rewrite Rabs_pos_eq; [assumption|nra]. }
    pose proof (Rle_abs (c d - p d)). pose proof (Rle_abs (- (c d - p d))) as K2. rewrite Rabs_Ropp in K2. split; lra.
  - destruct B' as [B'|B']; [exists c0; split; [left; reflexivity|]; rewrite <- B'; reflexivity|].
    unfold l in B' at 2. apply in_map_iff in B'. destruct B' as (c & E & Hc). exists c. split; [right; exact Hc|]. rewrite E. reflexivity.
  - destruct B as [B|B]; [exists c0; split; [left; reflexivity|]; rewrite <- B; reflexivity|].
    unfold l in B at 2. apply in_map_iff in B. destruct B as (c & E & Hc). exists c. split; [right; exact Hc|]. rewrite E. reflexivity.
Qed.
Print Assumptions C37_array_domain.

Example C37_distances_case :
  has (hypercube_ops [2; 2]%nat 2) 0 0 /\ has (hypercube_ops [2; 2]%nat 2) 0 3 /\
  2 * 1 < vdist 2 (hypercube_center 1 [0; 0]%nat) (hypercube_center 1 [1; 1]%nat) /\
  2 * 1 < vdist 2 (circle_center 2 1 4 0) (circle_center 2 1 4 2) /\
  vdist 2 (circle_center 2 1 4 0) (circle_center 2 1 4 1) = 2 * 1.
Proof.
  assert (A : has (hypercube_ops [2; 2]%nat 2) 0 0) by (exists [0; 3]%nat; split; [reflexivity|cbn; auto]).
  assert (B : has (hypercube_ops [2; 2]%nat 2) 0 3) by (exists [0; 3]%nat; split; [reflexivity|cbn; auto]).
  split; [exact A|]. split; [exact B|]. split; [|split].
  - apply (C37_hypercube_distances [2; 2]%nat 2 1 0 3 [0; 0]%nat [1; 1]%nat ltac:(lra) eq_refl eq_refl ltac:(discriminate)) with (op := 0%nat);
      [discriminate|exact A|exact B].
  - apply (C37_circle_distances 2 1 4 0 2 (or_introl eq_refl) ltac:(lra) ltac:(lia) ltac:(lia) ltac:(lia) ltac:(discriminate))
      with (minimize := true) (m := [(0, [0; 2]); (1, [1; 3])]%nat) (op := 0%nat);
      [reflexivity|exists [0; 2]%nat; split; [reflexivity|cbn; auto]|exists [0; 2]%nat; split; [reflexivity|cbn; auto]].
  - apply (C37_circle_distances 2 1 4 0 1 (or_introl eq_refl) ltac:(lra) ltac:(lia) ltac:(lia) ltac:(lia) ltac:(discriminate)). reflexivity.
Qed.

Example C37_array_domain_case : exists lo hi, array_boundaries 1 [hypercube_center 1 [0]%nat; hypercube_center 1 [1]%nat] 0 = Some (lo, hi) /\ lo = -1 /\ hi = 3.
Proof.
  unfold array_boundaries, hypercube_center. cbn [map min_element max_element fold_left obind nth INR].
  destruct (Rlt_dec (2 * 1 * 1) (2 * 1 * 0)); [lra|]. destruct (Rlt_dec (2 * 1 * 0) (2 * 1 * 1)); [|lra].
  eexists. eexists. split; [reflexivity|]. split; lra.
Qed.
