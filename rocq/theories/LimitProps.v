(** Property C42: limiting field values. *)
From Coq Require Import QArith List Bool Arith Lia Lqa.
From Verif Require Import Util LimitModel.
Import ListNotations.
Local Open Scope nat_scope.

Definition in_range (lo hi : Q) (v : num) : Prop := match v with Num q => (lo <= q <= hi)%Q | NaN => False end.

Lemma limit_in : forall lo hi q, (lo <= hi)%Q -> in_range lo hi (limit lo hi (Num q)).
Proof.
  intros lo hi q H. unfold limit, nlt. destruct (qltb q lo) eqn:A; [cbn; lra |].
  destruct (qltb hi q) eqn:B; [cbn; lra |]. apply qltb_false in A. apply qltb_false in B. cbn. lra.
Qed.

Lemma limit_fix : forall lo hi v, in_range lo hi v \/ v = NaN -> limit lo hi v = v.
Proof.
  intros lo hi [q |] H; [| reflexivity]. destruct H as [H | H]; [| discriminate]. cbn in H. unfold limit, nlt.
  destruct (qltb q lo) eqn:A; [apply qltb_true in A; lra |].
  destruct (qltb hi q) eqn:B; [apply qltb_true in B; lra | reflexivity].
Qed.

Lemma limit_loop_spec : forall lo hi blocks mask b, (mask = [] \/ b + length blocks <= length mask) ->
  exists r, limit_loop mask lo hi b blocks = Some r /\ length r = length blocks
    /\ forall k v, vget blocks k = Some v ->
         vget r k = Some (if match mask with [] => true | _ => nth (b + k) mask false end then map (limit lo hi) v else v).
Proof.
  intros lo hi. induction blocks as [| w blocks IH]; intros mask b H; cbn [limit_loop].
  - exists []. repeat split. intros [| k] v Hv; discriminate.
  - assert (S1 : selected mask b = Some (match mask with [] => true | _ => nth b mask false end)).
    { unfold selected. destruct mask as [| m mask]; [reflexivity |]. destruct H as [H | H]; [discriminate |].
      unfold vget. apply nth_error_nth'. cbn in *. lia. }
    rewrite S1. unfold obind. destruct (IH mask (S b)) as [r [-> [Lr Hr]]].
    { destruct H as [H | H]; [left; exact H | right; cbn in H; lia]. }
    eexists. split; [reflexivity |]. split; [cbn; lia |].
    intros [| k] v Hv.
    + cbn in Hv. injection Hv as <-. rewrite Nat.add_0_r. reflexivity.
    + rewrite vget_cons_S in *. rewrite (Hr k v Hv). replace (b + S k) with (S b + k) by lia. reflexivity.
Qed.

(** The selected blocks are clamped to the range and nothing else changes: a value in the range
    (and a NaN) stays, a smaller one becomes the lower and a greater one the upper limit. *)
Theorem C42_limit : forall blocks mask lo hi, mask = [] \/ length mask = length blocks -> (lo <= hi)%Q ->
  exists r, limit_vector_values blocks mask lo hi = Some r /\ length r = length blocks
    /\ forall b v, vget blocks b = Some v -> exists w, vget r b = Some w /\ length w = length v
       /\ (mask <> [] -> nth b mask false = false -> w = v)
       /\ (mask = [] \/ nth b mask false = true -> forall i x, vget v i = Some x ->
            exists y, vget w i = Some y
              /\ (in_range lo hi x \/ x = NaN -> y = x)
              /\ (forall q, x = Num q -> (q < lo)%Q -> y = Num lo)
              /\ (forall q, x = Num q -> (hi < q)%Q -> y = Num hi)).
Proof.
  intros blocks mask lo hi Hm Hr. unfold limit_vector_values.
  assert (G : (Nat.eqb (length mask) 0 || Nat.eqb (length blocks) (length mask))%bool = true).
  { destruct Hm as [-> | ->]; [reflexivity |]. rewrite Nat.eqb_refl. apply orb_true_r. }
  rewrite G. destruct (limit_loop_spec lo hi blocks mask 0) as [r [-> [Lr Hv]]]; [destruct Hm as [-> | Hm]; [left; reflexivity | right; lia] |].
  exists r. split; [reflexivity |]. split; [exact Lr |]. intros b v Hb. rewrite (Hv b v Hb). eexists. split; [reflexivity |]. cbn [Nat.add].
  split; [| split].
  - destruct mask; [rewrite map_length; reflexivity |]. destruct (nth b (b0 :: mask) false); [apply map_length | reflexivity].
  - intros N E. destruct mask; [congruence |]. rewrite E. reflexivity.
  - intros E i x Hx.
    assert (E' : match mask with [] => true | _ => nth b mask false end = true) by (destruct mask; [reflexivity | destruct E as [E | E]; [discriminate | exact E]]).
    rewrite E'. exists (limit lo hi x). split; [unfold vget in *; apply map_nth_error; exact Hx |]. split; [| split].
    + intros H. apply limit_fix. exact H.
    + intros q -> L. unfold limit, nlt. apply qltb_true in L. rewrite L. reflexivity.
    + intros q -> L. unfold limit, nlt. destruct (qltb q lo) eqn:A; [apply qltb_true in A; lra |]. apply qltb_true in L. rewrite L. reflexivity.
Qed.
Print Assumptions C42_limit.

(** limiting twice is limiting once, and a second, wider limit changes nothing *)
Theorem C42_idempotent : forall blocks mask lo hi lo' hi' r, (lo <= hi)%Q -> (lo' <= lo)%Q -> (hi <= hi')%Q ->
  limit_vector_values blocks mask lo hi = Some r -> limit_vector_values r mask lo' hi' = Some r.
Proof.
  intros blocks mask lo hi lo' hi' r H H1 H2. unfold limit_vector_values.
  assert (G : forall blocks b r, limit_loop mask lo hi b blocks = Some r -> limit_loop mask lo' hi' b r = Some r /\ length r = length blocks).
  { induction blocks0 as [| v l IH]; intros b r0 E; cbn in E; [injection E as <-; split; reflexivity |].
    unfold obind in E. destruct (selected mask b) as [s |] eqn:Sb; [| discriminate].
    destruct (limit_loop mask lo hi (S b) l) as [r' |] eqn:Er; [| discriminate]. injection E as <-.
    destruct (IH _ _ Er) as [E1 E2]. cbn [limit_loop]. rewrite Sb. unfold obind. rewrite E1. split; [| cbn; lia].
    destruct s; [| reflexivity]. f_equal. f_equal. rewrite map_map. apply map_ext. intros [q |]; [| reflexivity].
    apply limit_fix. left. assert (L := limit_in lo hi q H). destruct (limit lo hi (Num q)); cbn in *; [lra | contradiction]. }
  destruct (Nat.eqb (length mask) 0 || Nat.eqb (length blocks) (length mask))%bool eqn:E; [| discriminate].
  intros E'. destruct (G _ _ _ E') as [E1 E2]. rewrite E2, E. exact E1.
Qed.
Print Assumptions C42_idempotent.

(** a mask of a wrong size is rejected *)
Theorem C42_wrong_mask : forall blocks mask lo hi, mask <> [] -> length mask <> length blocks -> limit_vector_values blocks mask lo hi = None.
Proof.
  intros blocks mask lo hi N L. unfold limit_vector_values. destruct mask; [congruence |].
  destruct (Nat.eqb_spec (length (b :: mask)) 0); [discriminate |]. destruct (Nat.eqb_spec (length blocks) (length (b :: mask))); [congruence | reflexivity].
Qed.
Print Assumptions C42_wrong_mask.

(** The mask of the driver selects the concentration and the order parameters, and neither the
    chemical potential (block 1) nor the blocks behind the order parameters. *)
Theorem C42_mask : forall offset n_components n_total, 1 <= offset -> offset <= n_components -> n_components <= n_total ->
  exists m, build_pf_component_mask offset n_components n_total = Some m /\ length m = n_total
    /\ forall b, b < n_total -> (vget m b = Some true <-> b = 0 \/ offset <= b < n_components)
                              /\ (vget m b = Some false <-> b <> 0 /\ ~ offset <= b < n_components).
Proof.
  intros offset n_components n_total H1 H2 H3. unfold build_pf_component_mask.
  destruct n_total as [| n]; [lia |]. cbn [repeat vset obind].
  assert (G : forall k g m, length m = S n -> offset + g + k <= S n ->
    exists m', set_grains offset g k m = Some m' /\ length m' = S n
      /\ forall b, vget m' b = if (Nat.leb (offset + g) b && Nat.ltb b (offset + g + k))%bool then Some true else vget m b).
  { induction k as [| k IH]; intros g m Lm L; cbn [set_grains].
    - exists m. repeat split; [exact Lm |]. intros b. destruct (Nat.leb_spec (offset + g) b), (Nat.ltb_spec b (offset + g + 0)); try lia; reflexivity.
    - destruct (vset_some _ m (offset + g) true ltac:(lia)) as [m1 E1]. rewrite E1. cbn [obind].
      assert (L1 := vset_length _ _ _ _ _ E1).
      destruct (IH (S g) m1 ltac:(lia) ltac:(lia)) as [m2 [E2 [L2 V2]]]. exists m2. split; [exact E2 |]. split; [exact L2 |].
      intros b. rewrite V2, (vset_get _ _ _ _ _ b E1).
      destruct (Nat.leb_spec (offset + S g) b), (Nat.ltb_spec b (offset + S g + k)), (Nat.leb_spec (offset + g) b), (Nat.ltb_spec b (offset + g + S k)), (Nat.eqb_spec b (offset + g)); cbn; try lia; reflexivity. }
  destruct (G (n_components - offset) 0 (true :: repeat false n)) as [m [E [L V]]]; [cbn; rewrite repeat_length; reflexivity | lia |].
  exists m. split; [exact E |]. split; [exact L |]. intros b Hb. rewrite V.
  assert (W : vget (true :: repeat false n) b = Some (Nat.eqb b 0)).
  { destruct b; [reflexivity |]. rewrite vget_cons_S, vget_repeat. destruct (Nat.ltb_spec b n); [reflexivity | lia]. }
  rewrite W. destruct (Nat.leb_spec (offset + 0) b), (Nat.ltb_spec b (offset + 0 + (n_components - offset))), (Nat.eqb_spec b 0); cbn;
    split; split; intros X; try discriminate; try reflexivity; lia.
Qed.
Print Assumptions C42_mask.

Example C42_case :
  build_pf_component_mask 2 4 5 = Some [true; false; true; true; false]
  /\ limit_vector_values [[Num (3 # 2)]; [Num 7]; [Num (-1 # 2); NaN]; [Num (1 # 2)]; [Num 9]] [true; false; true; true; false] 0 1
     = Some [[Num 1]; [Num 7]; [Num 0; NaN]; [Num (1 # 2)]; [Num 9]].
Proof. split; reflexivity. Qed.
