(** Property C117: the product with the mixed second derivatives of the free energy of grain
    growth. *)
From Coq Require Import List Reals Arith Lia Lra Psatz.
From Verif Require Import Util FreeEnergyModel FreeEnergyProofs FreeEnergyProps GrainGrowthModel GrainProductModel.
Import ListNotations.
Local Open Scope R_scope.

(** the product with the mixed second derivatives [gg_d2f_ij], grain [i] *)
Definition mixed_sum (e : gg_eval) (etas value : list R) (i : nat) : R :=
  fold_right Rplus 0 (map (fun j => if Nat.eqb j i then 0 else gg_d2f_ij e (nth i etas 0) (nth j etas 0) * nth j value 0) (seq 0 (length etas))).

(** ** For all grains, values and contents of the variable without a value: to the entry of
    grain [i] the function adds the product and [4 L eta_i (junk - eta_0 v_0)]. *)
Theorem C117_product : forall e junk L etas value result, (2 <= length etas)%nat ->
  length value = length etas -> length result = length etas ->
  exists result', gg_apply_d2f junk L etas (length etas) value result = Some result'
    /\ length result' = length etas
    /\ forall i, (i < length etas)%nat ->
         nth i result' 0 = nth i result 0 + L * mixed_sum e etas value i + 4 * L * nth i etas 0 * (junk - nth 0 etas 0 * nth 0 value 0).
Proof.
  intros e junk L etas value result H2 Lv Lr.
  destruct (C28_mixed_product L 0 (1 / 6) 0 0 None etas value result Lv Lr) as [r1 [E1 [L1 G1]]].
  unfold apply_d2f_detaidetaj in E1. unfold gg_apply_d2f. destruct (Nat.leb_spec (length etas) 1) as [K | _]; [lia |].
  destruct etas as [| a l]; [cbn in H2; lia |]. destruct value as [| b m]; [discriminate |].
  cbn [vget nth_error obind] in E1. rewrite dot_loop_spec in E1 by (cbn [length] in *; lia). rewrite dot_loop_spec by (cbn [length] in *; lia). cbn [skipn obind] in *.
  set (D := dotp _ _) in *. clearbody D.
  destruct (add_loop_some (L * 4) (a :: l) (b :: m) (junk + D) (length (a :: l)) 0 result) as [r2 E2]; try (cbn [length] in *; lia).
  exists r2. split; [exact E2 |]. apply add_loop_spec in E2. destruct E2 as [L2 G2]. split; [congruence |].
  intros i Hi. apply add_loop_spec in E1. destruct E1 as [_ G1']. specialize (G1' i). specialize (G2 i).
  destruct (nth_error (a :: l) i) as [x |] eqn:Ex. 2:{ apply nth_error_None in Ex. lia. }
  destruct (nth_error (b :: m) i) as [v |] eqn:Ev. 2:{ apply nth_error_None in Ev. lia. }
  destruct (nth_error result i) as [r |] eqn:Er. 2:{ apply nth_error_None in Er. lia. }
  specialize (G1 i x r Ex Er). unfold vget in *. rewrite Ex, Ev, Er in *. rewrite G1 in G1'.
  destruct (Nat.leb_spec 0 i), (Nat.ltb_spec i (0 + length (a :: l))); try lia. cbn [andb] in G1', G2.
  assert (P := f_equal (fun o => match o with Some z => z | None => 0 end) G1'). cbv beta iota in P.
  rewrite (nth_error_nth _ _ 0 Er), (nth_error_nth _ _ 0 G2), (nth_error_nth _ _ 0 Ex).
  unfold mixed_sum. rewrite (nth_error_nth _ _ 0 Ex). change (nth 0 (a :: l) 0) with a. change (nth 0 (b :: m) 0) with b.
  assert (Sm : forall A' c s2 s3, map (fun j => if Nat.eqb j i then 0 else d2f_detaidetaj (mkEval A' (1 / 6) c s2 s3) x (nth j (a :: l) 0) * nth j (b :: m) 0) (seq 0 (length (a :: l)))
     = map (fun j => if Nat.eqb j i then 0 else gg_d2f_ij e x (nth j (a :: l) 0) * nth j (b :: m) 0) (seq 0 (length (a :: l)))).
  { intros. apply map_ext. intros j. destruct (Nat.eqb j i); [reflexivity |]. unfold d2f_detaidetaj, gg_d2f_ij. cbn [e_B]. field. }
  rewrite Sm in P. set (T := fold_right Rplus 0 _) in P |- *. clearbody T.
  assert (P' : L * T = L * 24 * (1 / 6) * x * (a * b + D - x * v)) by (apply (Rplus_eq_reg_l r); exact P).
  rewrite P'. field.
Qed.
Print Assumptions C117_product.

(** ** So the function adds the product exactly if the variable happens to hold [eta_0 v_0] or
    there is nothing to multiply with. *)
Theorem C117_exact : forall e junk L etas value result, (2 <= length etas)%nat -> L <> 0 ->
  length value = length etas -> length result = length etas ->
  exists result', gg_apply_d2f junk L etas (length etas) value result = Some result'
    /\ ((forall i, (i < length etas)%nat -> nth i result' 0 = nth i result 0 + L * mixed_sum e etas value i)
        <-> (junk = nth 0 etas 0 * nth 0 value 0 \/ forall x, In x etas -> x = 0)).
Proof.
  intros e junk L etas value result H2 HL Lv Lr.
  destruct (C117_product e junk L etas value result H2 Lv Lr) as [r [E [_ G]]]. exists r. split; [exact E |]. split.
  - intros H. destruct (Req_dec junk (nth 0 etas 0 * nth 0 value 0)) as [J | J]; [left; exact J |]. right. intros x I.
    apply (In_nth _ _ 0) in I. destruct I as [i [Hi <-]]. specialize (H i Hi). rewrite G in H by exact Hi.
    assert (Z : (4 * L) * (nth i etas 0 * (junk - nth 0 etas 0 * nth 0 value 0)) = 0) by lra.
    apply Rmult_integral in Z. destruct Z as [Z | Z]; [lra |]. apply Rmult_integral in Z. destruct Z as [Z | Z]; [exact Z | lra].
  - intros H i Hi. rewrite G by exact Hi. destruct H as [-> | H]; [ring |]. rewrite (H (nth i etas 0)) by (apply nth_In; exact Hi). ring.
Qed.
Print Assumptions C117_exact.

(** One grain or none: nothing is added, and there is no mixed derivative. *)
Theorem C117_single : forall e junk L etas value result, (length etas <= 1)%nat ->
  gg_apply_d2f junk L etas (length etas) value result = Some result /\ forall i, (i < length etas)%nat -> mixed_sum e etas value i = 0.
Proof.
  intros e junk L etas value result H. unfold gg_apply_d2f. destruct (Nat.leb_spec (length etas) 1); [| lia]. split; [reflexivity |].
  intros i Hi. unfold mixed_sum. destruct etas as [| a [| b l]]; cbn [length] in *; try lia. replace i with 0%nat by lia. cbn. ring.
Qed.
Print Assumptions C117_single.

(** ** Even if the variable starts with zero the product of two grains is wrong. *)
Theorem C117_refuted : exists result', gg_apply_d2f 0 1 [1; 1] 2 [1; 0] [0; 0] = Some result'
  /\ nth 1 result' 0 = 0 /\ forall e, 1 * mixed_sum e [1; 1] [1; 0] 1 = 4.
Proof.
  eexists. split; [reflexivity |]. split; [cbn; lra |]. intros e. unfold mixed_sum, gg_d2f_ij. cbn. lra.
Qed.
Print Assumptions C117_refuted.

Example C117_applies : gg_apply_d2f (1 * 3) 1 [1; 2] 2 [3; 4] [5; 6] = Some [5 + 4 * 8; 6 + 8 * 3].
Proof. cbn. f_equal. f_equal; [| f_equal]; lra. Qed.
