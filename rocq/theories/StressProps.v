(** C71: linear elasticity and inelastic strain rates. *)
From Coq Require Import List Reals Arith Bool Lia Lra Psatz.
From Verif Require Import MobilityModel FreeEnergyProofs MobilityProofs OperatorModel OperatorProofs OperatorProps AssembleProps StressModel.
Import ListNotations.
Local Open Scope R_scope.

(** ** Hooke's law of an isotropic body in three dimensions, in the form of the compliance *)
Definition hooke (E nu : R) (eps sig : tensor) : Prop :=
  forall i j, (i < 3)%nat -> (j < 3)%nat ->
  E * eps i j = (1 + nu) * sig i j - (if Nat.eqb i j then nu * (sig 0%nat 0%nat + sig 1%nat 1%nat + sig 2%nat 2%nat) else 0).

(** in plane components from a tensor in the plane, normal component given *)
Definition embed (A : tensor) (normal : R) : tensor := fun i j =>
  if Nat.ltb i 2 && Nat.ltb j 2 then A i j else if Nat.eqb i 2 && Nat.eqb j 2 then normal else 0.
Definition sym_part (H : tensor) : tensor := fun i j => (H i j + H j i) / 2.
Definition symmetric (dim : nat) (H : tensor) : Prop := forall i j, (i < dim)%nat -> (j < dim)%nat -> H i j = H j i.

Ltac below i H := destruct i as [| [| [| i]]]; [| | | exfalso; lia].
Ltac below2 i H := destruct i as [| [| i]]; [| | exfalso; lia].

Ltac nz := repeat split; let X := fresh in intro X; match goal with K : _ <> 0 |- _ => apply K; lra end.

(** the law fixes the stresses *)
Lemma hooke_unique : forall E nu eps s1 s2, 1 + nu <> 0 -> 1 - 2 * nu <> 0 -> hooke E nu eps s1 -> hooke E nu eps s2 ->
  forall i j, (i < 3)%nat -> (j < 3)%nat -> s1 i j = s2 i j.
Proof.
  intros E nu eps s1 s2 Hn Hm H1 H2 i j Hi Hj.
  set (t1 := s1 0%nat 0%nat + s1 1%nat 1%nat + s1 2%nat 2%nat). set (t2 := s2 0%nat 0%nat + s2 1%nat 1%nat + s2 2%nat 2%nat).
  assert (T : t1 = t2).
  { assert (A0 := H1 0%nat 0%nat ltac:(lia) ltac:(lia)). assert (A1 := H1 1%nat 1%nat ltac:(lia) ltac:(lia)). assert (A2 := H1 2%nat 2%nat ltac:(lia) ltac:(lia)).
    assert (B0 := H2 0%nat 0%nat ltac:(lia) ltac:(lia)). assert (B1 := H2 1%nat 1%nat ltac:(lia) ltac:(lia)). assert (B2 := H2 2%nat 2%nat ltac:(lia) ltac:(lia)).
    cbn [Nat.eqb] in *. apply (Rmult_eq_reg_l (1 - 2 * nu)); [| exact Hm]. unfold t1, t2 in *. lra. }
  specialize (H1 i j Hi Hj). specialize (H2 i j Hi Hj). fold t1 in H1. fold t2 in H2. rewrite T in H1.
  apply (Rmult_eq_reg_l (1 + nu)); [| exact Hn]. lra.
Qed.

(** *** The stresses obey Hooke's law of the body, of the body in plane stress, of the body
    in plane strain; without plane type this needs a symmetric argument *)
Theorem C71_hooke_partial : forall E nu H sig, 1 + nu <> 0 ->
  (** three dimensions *)
  (1 - 2 * nu <> 0 -> symmetric 3 H -> forall ty,
     (hooke E nu H sig <-> forall i j, (i < 3)%nat -> (j < 3)%nat -> sig i j = get_S 3 ty E nu H i j))
  (** two dimensions, normal stress zero, for some normal strain *)
  /\ (1 - nu <> 0 -> 1 - 2 * nu <> 0 -> E <> 0 -> forall ty, ty = plane_stress \/ ty = none /\ symmetric 2 H ->
     ((exists e, hooke E nu (embed (sym_part H) e) (embed sig 0)) <-> forall i j, (i < 2)%nat -> (j < 2)%nat -> sig i j = get_S 2 ty E nu H i j))
  (** two dimensions, normal strain zero, for some normal stress *)
  /\ (1 - 2 * nu <> 0 ->
     ((exists s, hooke E nu (embed (sym_part H) 0) (embed sig s)) <-> forall i j, (i < 2)%nat -> (j < 2)%nat -> sig i j = get_S 2 plane_strain E nu H i j)).
Proof.
  intros E nu H sig Hn. split; [| split].
  - intros Hm Hs ty.
    assert (K : hooke E nu H (get_S 3 ty E nu H)).
    { intros i j Hi Hj. unfold get_S. cbn [Nat.eqb orb]. unfold mu_x_2, lambda, trace. cbn [vsum INR]. 
      below i Hi; below j Hj; cbn [Nat.eqb]; field; nz. }
    split.
    + intros Hh i j Hi Hj. exact (hooke_unique _ _ _ _ _ Hn Hm Hh K i j Hi Hj).
    + intros A i j Hi Hj. rewrite (K i j Hi Hj). rewrite !A by lia. reflexivity.
  - intros Hp Hm HE ty Ht.
    assert (Q : 1 - nu * nu <> 0) by (replace (1 - nu * nu) with ((1 - nu) * (1 + nu)) by ring; apply Rmult_integral_contrapositive_currified; assumption).
    assert (K : forall i j, (i < 2)%nat -> (j < 2)%nat -> get_S 2 ty E nu H i j
      = E / (1 - nu * nu) * ((1 - nu) * sym_part H i j + (if Nat.eqb i j then nu * (H 0%nat 0%nat + H 1%nat 1%nat) else 0))).
    { intros i j Hi Hj. unfold sym_part. destruct Ht as [-> | [-> Hs]]; unfold get_S; cbn [Nat.eqb orb is_none].
      - change (voigt_size 2) with 3%nat. cbn [vsum]. unfold Cmat, f0, f1, f2. change (voigt_size 2) with 3%nat.
        below2 i Hi; below2 j Hj; cbn; field; nz.
      - assert (H 0%nat 1%nat = H 1%nat 0%nat) by (apply Hs; lia). unfold mu_x_2, lambda, trace. cbn [vsum INR].
        below2 i Hi; below2 j Hj; cbn [Nat.eqb]; rewrite ?H0; field; nz. }
    split.
    + intros [e Hh] i j Hi Hj. rewrite K by assumption.
      assert (A0 := Hh 0%nat 0%nat ltac:(lia) ltac:(lia)). assert (A1 := Hh 1%nat 1%nat ltac:(lia) ltac:(lia)).
      assert (A2 := Hh 0%nat 1%nat ltac:(lia) ltac:(lia)). assert (A3 := Hh 1%nat 0%nat ltac:(lia) ltac:(lia)).
      cbn [embed Nat.ltb Nat.leb Nat.eqb andb] in *. unfold embed in *. cbn [Nat.ltb Nat.leb Nat.eqb andb] in *.
      apply (Rmult_eq_reg_l (1 - nu * nu)); [| exact Q].
      replace ((1 - nu * nu) * (E / (1 - nu * nu) * ((1 - nu) * sym_part H i j + (if Nat.eqb i j then nu * (H 0%nat 0%nat + H 1%nat 1%nat) else 0))))
        with ((1 - nu) * (E * sym_part H i j) + (if Nat.eqb i j then nu * (E * sym_part H 0%nat 0%nat + E * sym_part H 1%nat 1%nat) else 0))
        by (unfold sym_part; destruct (Nat.eqb i j); field; nz).
      rewrite A0, A1. below2 i Hi; below2 j Hj; cbn [Nat.eqb]; rewrite ?A0, ?A1, ?A2, ?A3; ring.
    + intros A. exists (- nu / E * (sig 0%nat 0%nat + sig 1%nat 1%nat)). intros i j Hi Hj. unfold embed.
      assert (A0 := A 0%nat 0%nat ltac:(lia) ltac:(lia)). assert (A1 := A 1%nat 1%nat ltac:(lia) ltac:(lia)).
      assert (A2 := A 0%nat 1%nat ltac:(lia) ltac:(lia)). assert (A3 := A 1%nat 0%nat ltac:(lia) ltac:(lia)).
      rewrite K in A0, A1, A2, A3 by lia. cbn [Nat.eqb] in A0, A1, A2, A3.
      below i Hi; below j Hj; cbn [Nat.ltb Nat.leb Nat.eqb andb]; rewrite ?A0, ?A1, ?A2, ?A3; unfold sym_part; field; nz.
  - intros Hm.
    assert (K : forall i j, (i < 2)%nat -> (j < 2)%nat -> get_S 2 plane_strain E nu H i j
      = E / (1 + nu) * sym_part H i j + (if Nat.eqb i j then E * nu / (1 + nu) / (1 - 2 * nu) * (H 0%nat 0%nat + H 1%nat 1%nat) else 0)).
    { intros i j Hi Hj. unfold sym_part, get_S; cbn [Nat.eqb orb is_none].
      change (voigt_size 2) with 3%nat. cbn [vsum]. unfold Cmat, f0, f1, f2. change (voigt_size 2) with 3%nat.
      below2 i Hi; below2 j Hj; cbn; field; nz. }
    split.
    + intros [s Hh] i j Hi Hj.
      assert (L : hooke E nu (embed (sym_part H) 0) (embed (get_S 2 plane_strain E nu H) (E * nu / (1 + nu) / (1 - 2 * nu) * (H 0%nat 0%nat + H 1%nat 1%nat)))).
      { intros k l Hk Hl. unfold embed. below k Hk; below l Hl; cbn [Nat.ltb Nat.leb Nat.eqb andb]; rewrite ?K by lia; cbn [Nat.eqb]; unfold sym_part; field; nz. }
      assert (U := hooke_unique _ _ _ _ _ Hn Hm Hh L i j ltac:(lia) ltac:(lia)). unfold embed in U.
      destruct (Nat.ltb_spec i 2); [| lia]. destruct (Nat.ltb_spec j 2); [| lia]. exact U.
    + intros A. exists (E * nu / (1 + nu) / (1 - 2 * nu) * (H 0%nat 0%nat + H 1%nat 1%nat)). intros i j Hi Hj. unfold embed.
      assert (A0 := A 0%nat 0%nat ltac:(lia) ltac:(lia)). assert (A1 := A 1%nat 1%nat ltac:(lia) ltac:(lia)).
      assert (A2 := A 0%nat 1%nat ltac:(lia) ltac:(lia)). assert (A3 := A 1%nat 0%nat ltac:(lia) ltac:(lia)).
      rewrite K in A0, A1, A2, A3 by lia. cbn [Nat.eqb] in A0, A1, A2, A3.
      below i Hi; below j Hj; cbn [Nat.ltb Nat.leb Nat.eqb andb]; rewrite ?A0, ?A1, ?A2, ?A3; unfold sym_part; field; nz.
Qed.
Print Assumptions C71_hooke_partial.

(** *** Without plane type the gradient is not symmetrised: for every skew gradient (an
    infinitesimal rotation) the stress is a multiple of it instead of zero, so it is not
    symmetric; with a plane type the stress is symmetric and rotations cause none *)
Definition skew (dim : nat) (H : tensor) : Prop := forall i j, (i < dim)%nat -> (j < dim)%nat -> H i j = - H j i.
Theorem C71_rotation : forall ty E nu H, ty <> none ->
  symmetric 2 (get_S 2 ty E nu H)
  /\ (skew 2 H -> forall i j, (i < 2)%nat -> (j < 2)%nat -> get_S 2 ty E nu H i j = 0).
Proof.
  intros ty E nu H Ht. assert (B : is_none ty = false) by (destruct ty; try reflexivity; congruence).
  unfold get_S. rewrite B. cbn [Nat.eqb orb]. change (voigt_size 2) with 3%nat. split.
  - intros i j Hi Hj. below2 i Hi; below2 j Hj; reflexivity.
  - intros Hs i j Hi Hj. assert (A0 := Hs 0%nat 0%nat ltac:(lia) ltac:(lia)). assert (A1 := Hs 1%nat 1%nat ltac:(lia) ltac:(lia)). assert (A2 := Hs 0%nat 1%nat ltac:(lia) ltac:(lia)).
    assert (H 0%nat 0%nat = 0) by lra. assert (H 1%nat 1%nat = 0) by lra.
    below2 i Hi; below2 j Hj; cbn; rewrite ?H0, ?H1, ?A2; ring.
Qed.
Print Assumptions C71_rotation.

Theorem C71_rotation_refuted : forall dim ty E nu H, (dim = 3%nat \/ dim = 2%nat /\ ty = none) -> E <> 0 -> 1 + nu <> 0 -> skew dim H ->
  (forall i j, (i < dim)%nat -> (j < dim)%nat -> get_S dim ty E nu H i j = E / (1 + nu) * H i j)
  /\ ((exists i j, (i < dim)%nat /\ (j < dim)%nat /\ H i j <> 0) -> ~ symmetric dim (get_S dim ty E nu H)).
Proof.
  intros dim ty E nu H Hd HE Hn Hs.
  assert (B : (Nat.eqb dim 3 || is_none ty)%bool = true) by (destruct Hd as [-> | [-> ->]]; reflexivity).
  assert (D0 : forall i, (i < dim)%nat -> H i i = 0) by (intros i Hi; specialize (Hs i i Hi Hi); lra).
  assert (T : trace dim H = 0).
  { unfold trace. rewrite (vsum_ext dim (fun i => H i i) (fun _ => 0)) by (intros; apply D0; assumption). apply vsum_zero. }
  assert (K : forall i j, (i < dim)%nat -> (j < dim)%nat -> get_S dim ty E nu H i j = E / (1 + nu) * H i j).
  { intros i j Hi Hj. unfold get_S. rewrite B, T. unfold mu_x_2. destruct (Nat.eqb i j); ring. }
  split; [exact K |]. intros [i [j [Hi [Hj Hne]]]] C. specialize (C i j Hi Hj). rewrite !K in C by assumption.
  apply Hne. rewrite (Hs j i Hj Hi) in C. apply (Rmult_eq_reg_l (E / (1 + nu))); [lra |].
  unfold Rdiv. apply Rmult_integral_contrapositive_currified; [exact HE | apply Rinv_neq_0_compat; exact Hn].
Qed.
Print Assumptions C71_rotation_refuted.

(** ** The bilinear form *)
Definition ddot (dim : nat) (A B : tensor) : R := vsum dim (fun i => vsum dim (fun j => A i j * B i j)).
Definition admissible (dim : nat) (ty : plane_type) (E nu : R) : Prop :=
  0 < E /\ -1 < nu /\ (if Nat.eqb dim 3 then nu < 1 / 2 else match ty with plane_strain => nu < 1 / 2 | _ => nu < 1 end).
(** the part of the gradient that counts *)
Definition measured (dim : nat) (ty : plane_type) (H : tensor) : tensor :=
  if Nat.eqb dim 3 || is_none ty then H else sym_part H.

Lemma sq_zero : forall x, x * x <= 0 -> x = 0.
Proof. intros x Hx. apply Rsqr_0_uniq. assert (P := Rle_0_sqr x). unfold Rsqr in *. lra. Qed.
Lemma msq_zero : forall m x, 0 < m -> m * (x * x) = 0 -> x = 0.
Proof. intros m x Hm Hx. apply sq_zero. apply Rmult_integral in Hx. lra. Qed.
Lemma sq_pos : forall x, 0 <= x * x.
Proof. exact Rle_0_sqr. Qed.

Lemma get_S_lin : forall dim ty E nu H G a b i j,
  get_S dim ty E nu (fun i j => a * H i j + b * G i j) i j = a * get_S dim ty E nu H i j + b * get_S dim ty E nu G i j.
Proof.
  intros. unfold get_S. destruct (Nat.eqb dim 3 || is_none ty)%bool.
  - unfold trace. rewrite (vsum_lin dim (fun i => H i i) (fun i => G i i)). destruct (Nat.eqb i j); ring.
  - set (K := Cmat dim ty E nu).
    assert (L : forall l, apply_l dim (fun i j => a * H i j + b * G i j) l = a * apply_l dim H l + b * apply_l dim G l).
    { intros l. unfold apply_l. destruct dim as [| [| [| [| dim]]]]; destruct l as [| [| [| [| [| [| l]]]]]]; ring. }
    assert (Sm : forall k, vsum (voigt_size dim) (fun l => K k l * apply_l dim (fun i j => a * H i j + b * G i j) l)
      = a * vsum (voigt_size dim) (fun l => K k l * apply_l dim H l) + b * vsum (voigt_size dim) (fun l => K k l * apply_l dim G l)).
    { intros k. rewrite <- vsum_lin. apply vsum_ext. intros l Hl. rewrite L. ring. }
    unfold apply_l_transposed. destruct dim as [| [| [| [| dim]]]]; destruct i as [| [| [| i]]]; destruct j as [| [| [| j]]]; try ring; apply Sm.
Qed.

Theorem C71_form : forall dim ty E nu H G, dim = 2%nat \/ dim = 3%nat ->
  (** linear *)
  (forall a b i j, get_S dim ty E nu (fun i j => a * H i j + b * G i j) i j = a * get_S dim ty E nu H i j + b * get_S dim ty E nu G i j)
  (** symmetric *)
  /\ ddot dim (get_S dim ty E nu H) G = ddot dim (get_S dim ty E nu G) H
  (** positive *)
  /\ (admissible dim ty E nu ->
      0 <= ddot dim (get_S dim ty E nu H) H
      /\ (ddot dim (get_S dim ty E nu H) H = 0 <-> forall i j, (i < dim)%nat -> (j < dim)%nat -> measured dim ty H i j = 0)).
Proof.
  intros dim ty E nu H G Hd. split; [intros; apply get_S_lin |]. split.
  - destruct Hd as [-> | ->].
    + destruct ty; unfold get_S, ddot; cbn [Nat.eqb orb is_none vsum]; try change (voigt_size 2) with 3%nat; cbn [vsum]; unfold Cmat, trace; cbn; ring.
    + unfold get_S, ddot; cbn [Nat.eqb orb vsum]. unfold trace. cbn. ring.
  - intros [HE [Hn Hu]].
    assert (N1 : 0 < 1 + nu) by lra.
    destruct Hd as [-> | ->].
    + cbn [Nat.eqb] in Hu.
      assert (P : exists m k, 0 < m /\ 0 < m + 2 * k /\ ddot 2 (get_S 2 ty E nu H) H
         = m * ddot 2 (measured 2 ty H) (measured 2 ty H) + k * ((H 0%nat 0%nat + H 1%nat 1%nat) * (H 0%nat 0%nat + H 1%nat 1%nat))).
      { exists (E / (1 + nu)). destruct ty.
        - exists (E * nu / ((1 + nu) * (1 - nu))). assert (0 < 1 - nu) by lra. split; [apply Rdiv_lt_0_compat; assumption |]. split.
          + replace (E / (1 + nu) + 2 * (E * nu / ((1 + nu) * (1 - nu)))) with (E / (1 - nu)) by (field; lra). apply Rdiv_lt_0_compat; assumption.
          + unfold measured, get_S, ddot, sym_part; cbn [Nat.eqb orb is_none vsum]; change (voigt_size 2) with 3%nat; cbn [vsum]; unfold Cmat, f0, f1, f2; cbn. field.
            repeat split; try lra. replace (1 - nu * nu) with ((1 - nu) * (1 + nu)) by ring. apply Rmult_integral_contrapositive_currified; lra.
        - exists (E * nu / (1 + nu) / (1 - 2 * nu)). assert (0 < 1 - 2 * nu) by lra. split; [apply Rdiv_lt_0_compat; assumption |]. split.
          + replace (E / (1 + nu) + 2 * (E * nu / (1 + nu) / (1 - 2 * nu))) with (E / ((1 + nu) * (1 - 2 * nu))) by (field; lra). apply Rdiv_lt_0_compat; [assumption | apply Rmult_lt_0_compat; assumption].
          + unfold measured, get_S, ddot, sym_part; cbn [Nat.eqb orb is_none vsum]; change (voigt_size 2) with 3%nat; cbn [vsum]; unfold Cmat, f0, f1, f2; cbn. field. lra.
        - exists (E * nu / (1 + nu) / (1 - nu)). assert (0 < 1 - nu) by lra. split; [apply Rdiv_lt_0_compat; assumption |]. split.
          + replace (E / (1 + nu) + 2 * (E * nu / (1 + nu) / (1 - nu))) with (E / (1 - nu)) by (field; lra). apply Rdiv_lt_0_compat; assumption.
          + unfold measured, get_S, ddot, mu_x_2, lambda, trace; cbn. field. lra. }
      destruct P as [m [k [Pm [Pk ->]]]].
      assert (D : measured 2 ty H 0%nat 0%nat = H 0%nat 0%nat) by (unfold measured, sym_part; destruct ty; cbn; lra).
      assert (D' : measured 2 ty H 1%nat 1%nat = H 1%nat 1%nat) by (unfold measured, sym_part; destruct ty; cbn; lra).
      rewrite <- D, <- D'. unfold ddot. cbn [vsum]. set (M := measured 2 ty H). set (a := M 0%nat 0%nat). set (b := M 1%nat 1%nat). set (c := M 0%nat 1%nat). set (d := M 1%nat 0%nat).
      assert (I : m * (0 + (0 + a * a + c * c) + (0 + d * d + b * b)) + k * ((a + b) * (a + b))
         = m * (c * c) + m * (d * d) + m / 2 * ((a - b) * (a - b)) + (m + 2 * k) / 2 * ((a + b) * (a + b))) by field.
      rewrite I.
      assert (S1 := Rle_0_sqr c). assert (S2 := Rle_0_sqr d). assert (S3 := Rle_0_sqr (a - b)). assert (S4 := Rle_0_sqr (a + b)). unfold Rsqr in *.
      assert (P1 : 0 <= m * (c * c)) by (apply Rmult_le_pos; lra). assert (P2 : 0 <= m * (d * d)) by (apply Rmult_le_pos; lra).
      assert (P3 : 0 <= m / 2 * ((a - b) * (a - b))) by (apply Rmult_le_pos; lra). assert (P4 : 0 <= (m + 2 * k) / 2 * ((a + b) * (a + b))) by (apply Rmult_le_pos; lra).
      split; [lra |]. split.
      * intros Z.
        assert (Q1 : m * (c * c) = 0) by lra. assert (Q2 : m * (d * d) = 0) by lra. assert (Q3 : m / 2 * ((a - b) * (a - b)) = 0) by lra. assert (Q4 : (m + 2 * k) / 2 * ((a + b) * (a + b)) = 0) by lra.
        assert (R1 : c = 0) by (apply (msq_zero m); assumption). assert (R2 : d = 0) by (apply (msq_zero m); assumption).
        assert (R3 : a - b = 0) by (apply (msq_zero (m / 2)); [lra | assumption]). assert (R4 : a + b = 0) by (apply (msq_zero ((m + 2 * k) / 2)); [lra | assumption]).
        intros i j Hi Hj. below2 i Hi; below2 j Hj; [fold a; lra | fold c; lra | fold d; lra | fold b; lra].
      * intros Z. assert (a = 0) by (apply Z; lia). assert (b = 0) by (apply Z; lia). assert (c = 0) by (apply Z; lia). assert (d = 0) by (apply Z; lia). rewrite H0, H1, H2, H3. ring.
    + cbn [Nat.eqb] in Hu. assert (N2 : 0 < 1 - 2 * nu) by lra.
      set (m := E / (1 + nu)). set (k := E * nu / (1 + nu) / (1 - 2 * nu)).
      assert (Pm : 0 < m) by (apply Rdiv_lt_0_compat; assumption).
      assert (Pk : 0 < m + 3 * k) by (unfold m, k; replace (E / (1 + nu) + 3 * (E * nu / (1 + nu) / (1 - 2 * nu))) with (E / (1 - 2 * nu)) by (field; lra); apply Rdiv_lt_0_compat; assumption).
      assert (I : ddot 3 (get_S 3 ty E nu H) H =
         m * (H 0%nat 1%nat * H 0%nat 1%nat + H 0%nat 2%nat * H 0%nat 2%nat + H 1%nat 0%nat * H 1%nat 0%nat + H 1%nat 2%nat * H 1%nat 2%nat + H 2%nat 0%nat * H 2%nat 0%nat + H 2%nat 1%nat * H 2%nat 1%nat)
         + m / 3 * ((H 0%nat 0%nat - H 1%nat 1%nat) * (H 0%nat 0%nat - H 1%nat 1%nat) + (H 1%nat 1%nat - H 2%nat 2%nat) * (H 1%nat 1%nat - H 2%nat 2%nat) + (H 0%nat 0%nat - H 2%nat 2%nat) * (H 0%nat 0%nat - H 2%nat 2%nat))
         + (m + 3 * k) / 3 * ((H 0%nat 0%nat + H 1%nat 1%nat + H 2%nat 2%nat) * (H 0%nat 0%nat + H 1%nat 1%nat + H 2%nat 2%nat))).
      { unfold m, k, get_S, ddot, mu_x_2, lambda, trace; cbn [Nat.eqb orb vsum INR]. field. lra. }
      rewrite I. unfold measured. cbn [Nat.eqb orb].
      set (a := H 0%nat 0%nat). set (b := H 1%nat 1%nat). set (c := H 2%nat 2%nat).
      set (x1 := H 0%nat 1%nat). set (x2 := H 0%nat 2%nat). set (x3 := H 1%nat 0%nat). set (x4 := H 1%nat 2%nat). set (x5 := H 2%nat 0%nat). set (x6 := H 2%nat 1%nat).
      assert (X1 := sq_pos x1). assert (X2 := sq_pos x2). assert (X3 := sq_pos x3). assert (X4 := sq_pos x4). assert (X5 := sq_pos x5). assert (X6 := sq_pos x6).
      assert (X7 := sq_pos (a - b)). assert (X8 := sq_pos (b - c)). assert (X9 := sq_pos (a - c)). assert (X10 := sq_pos (a + b + c)).
      assert (P1 : 0 <= m * (x1 * x1 + x2 * x2 + x3 * x3 + x4 * x4 + x5 * x5 + x6 * x6)) by (apply Rmult_le_pos; lra).
      assert (P2 : 0 <= m / 3 * ((a - b) * (a - b) + (b - c) * (b - c) + (a - c) * (a - c))) by (apply Rmult_le_pos; lra).
      assert (P3 : 0 <= (m + 3 * k) / 3 * ((a + b + c) * (a + b + c))) by (apply Rmult_le_pos; lra).
      split; [lra |]. split.
      * intros Z.
        assert (Q1 : m * (x1 * x1 + x2 * x2 + x3 * x3 + x4 * x4 + x5 * x5 + x6 * x6) = 0) by lra.
        assert (Q2 : m / 3 * ((a - b) * (a - b) + (b - c) * (b - c) + (a - c) * (a - c)) = 0) by lra.
        assert (Q3 : (m + 3 * k) / 3 * ((a + b + c) * (a + b + c)) = 0) by lra.
        assert (Y1 : x1 * x1 + x2 * x2 + x3 * x3 + x4 * x4 + x5 * x5 + x6 * x6 = 0) by (apply (Rmult_eq_reg_l m); lra).
        assert (Y2 : (a - b) * (a - b) + (b - c) * (b - c) + (a - c) * (a - c) = 0) by (apply (Rmult_eq_reg_l (m / 3)); lra).
        assert (Y3 : (a + b + c) * (a + b + c) = 0) by (apply (Rmult_eq_reg_l ((m + 3 * k) / 3)); lra).
        assert (x1 = 0) by (apply sq_zero; lra). assert (x2 = 0) by (apply sq_zero; lra). assert (x3 = 0) by (apply sq_zero; lra). assert (x4 = 0) by (apply sq_zero; lra). assert (x5 = 0) by (apply sq_zero; lra). assert (x6 = 0) by (apply sq_zero; lra).
        assert (a - b = 0) by (apply sq_zero; lra). assert (b - c = 0) by (apply sq_zero; lra). assert (a + b + c = 0) by (apply sq_zero; lra).
        intros i j Hi Hj. below i Hi; below j Hj; [fold a | fold x1 | fold x2 | fold x3 | fold b | fold x4 | fold x5 | fold x6 | fold c]; lra.
      * intros Z. assert (a = 0) by (apply Z; lia). assert (b = 0) by (apply Z; lia). assert (c = 0) by (apply Z; lia).
        assert (x1 = 0) by (apply Z; lia). assert (x2 = 0) by (apply Z; lia). assert (x3 = 0) by (apply Z; lia). assert (x4 = 0) by (apply Z; lia). assert (x5 = 0) by (apply Z; lia). assert (x6 = 0) by (apply Z; lia).
        rewrite H0, H1, H2, H3, H4, H5, H6, H7, H8. ring.
Qed.
Print Assumptions C71_form.

(** *** Soft regions: the stress is the stress of the material times a factor which is never
    below [c_min] *)
Theorem C71_soft : forall dim ty E nu c_min H c, dim = 2%nat \/ dim = 3%nat -> admissible dim ty E nu -> 0 < c_min ->
  (forall i j, get_stress dim ty E nu c_min H c i j = Rmax c c_min * get_S dim ty E nu H i j)
  /\ c_min * ddot dim (get_S dim ty E nu H) H <= ddot dim (get_stress dim ty E nu c_min H c) H.
Proof.
  intros dim ty E nu c_min H c Hd Ha Hc.
  assert (M : mask_lt c c_min c_min c = Rmax c c_min).
  { unfold mask_lt. destruct (Rlt_dec c c_min); [rewrite Rmax_right; lra | rewrite Rmax_left; lra]. }
  assert (K : forall i j, get_stress dim ty E nu c_min H c i j = Rmax c c_min * get_S dim ty E nu H i j) by (intros; unfold get_stress; rewrite M; reflexivity).
  split; [exact K |].
  assert (D : ddot dim (get_stress dim ty E nu c_min H c) H = Rmax c c_min * ddot dim (get_S dim ty E nu H) H).
  { unfold ddot. rewrite <- vsum_scale. apply vsum_ext. intros i Hi. rewrite <- vsum_scale. apply vsum_ext. intros j Hj. rewrite K. ring. }
  rewrite D. apply Rmult_le_compat_r; [| apply Rmax_r]. apply (C71_form dim ty E nu H H Hd). exact Ha.
Qed.
Print Assumptions C71_soft.

(** ** The operator *)
Lemma dot_vsum : forall dim a b, dot dim a b = vsum dim (fun e => a e * b e).
Proof. induction dim as [| dim IH]; intros; cbn [dot vsum]; [reflexivity |]. rewrite IH. reflexivity. Qed.

Definition pairing (dim n : nat) (v w : state) : R := vsum dim (fun d => vsum n (fun i => v d i * w d i)).
Definition gradient_of (n : nat) (q : point) (u : state) : tensor := fun d e => vsum n (fun j => q_G q j e * u d j).

Lemma submit_pairing : forall dim n q (T : tensor) v,
  pairing dim n v (fun d i => submit dim q (fun _ => 0) T d i) = q_w q * ddot dim T (gradient_of n q v).
Proof.
  intros dim n q T v. unfold pairing, ddot, submit. rewrite <- vsum_scale. apply vsum_ext. intros d Hd.
  rewrite <- vsum_scale.
  rewrite (vsum_ext dim (fun e => q_w q * (T d e * gradient_of n q v d e)) (fun e => vsum n (fun i => q_w q * (T d e * (q_G q i e * v d i))))).
  - rewrite vs_swap. apply vsum_ext. intros i Hi. rewrite dot_vsum.
    rewrite (vsum_ext dim (fun e => q_w q * (T d e * (q_G q i e * v d i))) (fun e => (v d i * q_w q) * (q_G q i e * T d e))) by (intros; ring).
    rewrite vsum_scale. ring.
  - intros e He. unfold gradient_of. rewrite <- !vsum_scale. reflexivity.
Qed.

Lemma product_pairing : forall dim ty E nu n pts u v,
  pairing dim n v (elastic_product dim ty E nu n pts u)
  = fold_right (fun q acc => q_w q * ddot dim (get_S dim ty E nu (gradient_of n q u)) (gradient_of n q v) + acc) 0 pts.
Proof.
  intros dim ty E nu n pts u v. induction pts as [| q pts IH]; cbn [fold_right].
  - unfold pairing, elastic_product. cbn [fold_right]. rewrite (vsum_ext dim _ (fun _ => 0)); [apply vsum_zero |].
    intros d Hd. rewrite (vsum_ext n _ (fun _ => 0)); [apply vsum_zero |]. intros; ring.
  - rewrite <- IH, <- submit_pairing. unfold pairing. rewrite <- vsum_plus. apply vsum_ext. intros d Hd. rewrite <- vsum_plus. apply vsum_ext. intros i Hi.
    unfold elastic_product. cbn [fold_right]. change (gradient_of n q u) with (displacement_gradient n q u). ring.
Qed.

(** *** The product is symmetric; with positive weights and an admissible material it is
    positive and vanishes only for displacements without strain *)
Theorem C71_operator : forall dim ty E nu n pts u v, dim = 2%nat \/ dim = 3%nat ->
  pairing dim n v (elastic_product dim ty E nu n pts u) = pairing dim n u (elastic_product dim ty E nu n pts v)
  /\ (admissible dim ty E nu -> (forall q, In q pts -> 0 < q_w q) ->
      0 <= pairing dim n u (elastic_product dim ty E nu n pts u)
      /\ (pairing dim n u (elastic_product dim ty E nu n pts u) = 0 ->
          forall q, In q pts -> forall i j, (i < dim)%nat -> (j < dim)%nat -> measured dim ty (gradient_of n q u) i j = 0)).
Proof.
  intros dim ty E nu n pts u v Hd. split.
  - rewrite !product_pairing. induction pts as [| q pts IH]; cbn [fold_right]; [reflexivity |]. rewrite IH. f_equal. f_equal. apply (C71_form dim ty E nu _ _ Hd).
  - intros Ha Hw. rewrite product_pairing. induction pts as [| q pts IH]; cbn [fold_right]; [split; [lra | intros _ q []] |].
    destruct IH as [IP IZ]; [intros p Hp; apply Hw; right; exact Hp |].
    destruct (C71_form dim ty E nu (gradient_of n q u) (gradient_of n q u) Hd) as [_ [_ K]]. destruct (K Ha) as [KP KZ].
    assert (W : 0 < q_w q) by (apply Hw; left; reflexivity).
    assert (P : 0 <= q_w q * ddot dim (get_S dim ty E nu (gradient_of n q u)) (gradient_of n q u)) by (apply Rmult_le_pos; lra).
    split; [lra |]. intros Z p [<- | Hp] i j Hi Hj.
    + apply KZ; [| exact Hi | exact Hj]. apply (Rmult_eq_reg_l (q_w q)); [| lra]. rewrite Rmult_0_r. lra.
    + apply (IZ ltac:(lra) p Hp i j Hi Hj).
Qed.
Print Assumptions C71_operator.

(** *** With external loading the product is exactly the change of the residual, so one
    Newton step solves the equation *)
Theorem C71_residual : forall dim ty E nu n f pts u v d i,
  elastic_residual dim ty E nu n (Some f) pts (fun d j => u d j + v d j) d i
  = elastic_residual dim ty E nu n (Some f) pts u d i + elastic_product dim ty E nu n pts v d i.
Proof.
  intros dim ty E nu n f pts u v d i. unfold elastic_residual, elastic_product. induction pts as [| q pts IH]; cbn [fold_right]; [ring |]. rewrite IH.
  enough (K : residual_contribution dim ty E nu n (Some f) q (fun d j => u d j + v d j) d i
     = residual_contribution dim ty E nu n (Some f) q u d i + submit dim q (fun _ => 0) (get_S dim ty E nu (displacement_gradient n q v)) d i) by (rewrite K; ring).
  unfold residual_contribution, submit. rewrite !dot_vsum.
  assert (L : forall e, get_S dim ty E nu (displacement_gradient n q (fun d j => u d j + v d j)) d e
     = get_S dim ty E nu (displacement_gradient n q u) d e + get_S dim ty E nu (displacement_gradient n q v) d e).
  { intros e. rewrite <- (Rmult_1_l (get_S dim ty E nu (displacement_gradient n q u) d e)), <- (Rmult_1_l (get_S dim ty E nu (displacement_gradient n q v) d e)), <- get_S_lin.
    assert (X : forall a b, displacement_gradient n q (fun d j => u d j + v d j) a b = 1 * displacement_gradient n q u a b + 1 * displacement_gradient n q v a b).
    { intros a b. unfold displacement_gradient, grad_at. rewrite <- vsum_lin. apply vsum_ext. intros; ring. }
    unfold get_S. destruct (Nat.eqb dim 3 || is_none ty)%bool.
    - rewrite X. unfold trace. rewrite (vsum_ext dim (fun i => displacement_gradient n q (fun d j => u d j + v d j) i i) (fun i => 1 * displacement_gradient n q u i i + 1 * displacement_gradient n q v i i)) by (intros; apply X). reflexivity.
    - assert (A : forall l, apply_l dim (displacement_gradient n q (fun d j => u d j + v d j)) l = apply_l dim (fun i j => 1 * displacement_gradient n q u i j + 1 * displacement_gradient n q v i j) l).
      { intros l. unfold apply_l. destruct dim as [| [| [| [| dim]]]]; destruct l as [| [| [| [| [| [| l]]]]]]; rewrite ?X; reflexivity. }
      assert (B : forall k, vsum (voigt_size dim) (fun l => Cmat dim ty E nu k l * apply_l dim (displacement_gradient n q (fun d j => u d j + v d j)) l)
        = vsum (voigt_size dim) (fun l => Cmat dim ty E nu k l * apply_l dim (fun i j => 1 * displacement_gradient n q u i j + 1 * displacement_gradient n q v i j) l)) by (intros k; apply vsum_ext; intros; rewrite A; reflexivity).
      unfold apply_l_transposed. destruct dim as [| [| [| [| dim]]]]; destruct d as [| [| [| d]]]; destruct e as [| [| [| e]]]; try reflexivity; apply B. }
  rewrite (vsum_ext dim (fun e => q_G q i e * get_S dim ty E nu (displacement_gradient n q (fun d j => u d j + v d j)) d e)
     (fun e => q_G q i e * get_S dim ty E nu (displacement_gradient n q u) d e + q_G q i e * get_S dim ty E nu (displacement_gradient n q v) d e)) by (intros; rewrite L; ring).
  rewrite vsum_plus. ring.
Qed.
Print Assumptions C71_residual.

(** *** The Voigt notation of the other branch gives the same stresses in three dimensions,
    and is the transpose of the map that takes the stresses back *)
Theorem C71_voigt : forall E nu H v,
  (1 + nu <> 0 -> 1 - 2 * nu <> 0 -> symmetric 3 H -> forall ty i j, (i < 3)%nat -> (j < 3)%nat ->
     get_S 3 ty E nu H i j = apply_l_transposed 3 (fun k => vsum 6 (fun l => Cmat 3 ty E nu k l * apply_l 3 H l)) i j)
  /\ vsum 6 (fun k => v k * apply_l 3 H k) = vsum 3 (fun i => vsum 3 (fun j => apply_l_transposed 3 v i j * H i j))
  /\ vsum 3 (fun k => v k * apply_l 2 H k) = vsum 2 (fun i => vsum 2 (fun j => apply_l_transposed 2 v i j * H i j)).
Proof.
  intros E nu H v. split; [| split; cbn; ring].
  intros Hn Hm Hs ty i j Hi Hj.
  assert (A1 := Hs 0%nat 1%nat ltac:(lia) ltac:(lia)). assert (A2 := Hs 0%nat 2%nat ltac:(lia) ltac:(lia)). assert (A3 := Hs 1%nat 2%nat ltac:(lia) ltac:(lia)).
  unfold get_S, Cmat, f0, f1, f2, mu_x_2, lambda, trace. change (voigt_size 3) with 6%nat. cbn [Nat.eqb orb INR].
  below i Hi; below j Hj; cbn [apply_l_transposed apply_l vsum Nat.eqb Nat.ltb Nat.leb andb]; rewrite <- ?A1, <- ?A2, <- ?A3; field; repeat split; try assumption; intro X; apply Hm; lra.
Qed.
Print Assumptions C71_voigt.

(** *** The residual at rest is the load *)
Theorem C71_load : forall dim ty E nu n f pts u d i,
  elastic_residual dim ty E nu n (Some f) pts u d i
  = fold_right (fun q acc => q_w q * (q_N q i * f q d) + acc) 0 pts + elastic_product dim ty E nu n pts u d i.
Proof.
  intros. unfold elastic_residual, elastic_product, residual_contribution, submit. induction pts as [| q pts IH]; cbn [fold_right]; [ring |]. rewrite IH. ring.
Qed.
Print Assumptions C71_load.

(** *** Without external loading (release mode) the residual of a rigid translation is not
    zero and depends on the number of points, not on their weight *)
Theorem C71_no_loading_refuted : forall dim ty E nu w, dim = 2%nat \/ dim = 3%nat ->
  let q := mkPoint w (fun j => 1 / 2) (fun j _ => if Nat.eqb j 0 then 1 else -1) [] [] in
  let u : state := fun _ _ => 1 in
  (forall d e, gradient_of 2 q u d e = 0)
  /\ elastic_residual dim ty E nu 2 None [q] u 0 0 = 1 / 2
  /\ elastic_residual dim ty E nu 2 None [q; q] u 0 0 = 1.
Proof.
  intros dim ty E nu w Hd q u.
  assert (G : forall d e, gradient_of 2 q u d e = 0) by (intros; unfold gradient_of, q, u; cbn; ring).
  assert (Z : forall i j, get_S dim ty E nu (displacement_gradient 2 q u) i j = 0).
  { intros i j. assert (X : forall a b, displacement_gradient 2 q u a b = 0) by (intros a b; apply (G a b)).
    destruct Hd as [-> | ->]; destruct ty; unfold get_S; cbn [Nat.eqb orb is_none]; unfold trace; cbn [vsum];
    try (rewrite !X; destruct (Nat.eqb i j); ring);
    change (voigt_size 2) with 3%nat; unfold apply_l_transposed; destruct i as [| [| [| i]]]; destruct j as [| [| [| j]]]; cbn [vsum apply_l]; rewrite ?X; ring. }
  assert (R : residual_contribution dim ty E nu 2 None q u 0 0 = 1 / 2).
  { unfold residual_contribution. rewrite dot_vsum. rewrite (vsum_ext dim _ (fun _ => 0)) by (intros; rewrite Z; ring). rewrite vsum_zero. unfold value_at, q, u. cbn. lra. }
  split; [exact G |]. unfold elastic_residual. cbn [fold_right]. rewrite R. lra.
Qed.
Print Assumptions C71_no_loading_refuted.

(** ** Inelastic strain rates *)
Definition upd (e : vec) (i : nat) (x : R) : vec := fun j => if Nat.eqb j i then x else e j.

Lemma v_deriv : forall c, c * c < 1 -> derivable_pt_lim v_of c (dv_dc c).
Proof.
  intros c Hc. assert (A : Rabs c < 1) by (apply Rabs_def1; nra).
  apply (derivable_local (fun y => y * y) v_of c (dv_dc c) (1 - Rabs c)).
  - lra.
  - intros y Hy. unfold v_of, mask_gt. destruct (Rlt_dec 1 (y * y)) as [L |]; [| reflexivity].
    exfalso. assert (Rabs y < 1) by (replace y with ((y - c) + c) by ring; eapply Rle_lt_trans; [apply Rabs_triang | lra]).
    assert (B := Rabs_pos y). assert (y * y = Rabs y * Rabs y) by (rewrite <- Rabs_mult; rewrite Rabs_right; [reflexivity | apply Rle_ge, sq_pos]). nra.
  - eapply derivable_eq; [| apply derivable_mult; apply derivable_pt_lim_id]. unfold dv_dc, id. ring.
Qed.

(** *** Derivatives with respect to the concentration, where its square is below one, and the
    divergences *)
Theorem C71_inelastic_partial : forall dim rho early c n etas grads dg dv i j,
  (c * c < 1 -> derivable_pt_lim (fun x => flux_eps_dot dim rho early x n etas grads dg dv i j) c (flux_eps_dot_dc dim rho early c n etas grads dg dv i j))
  /\ derivable_pt_lim (fun x => flux_eps_dot dim rho early c n etas grads x dv i j) dg (flux_eps_dot_ddiv_gb dim rho early c n etas grads i j)
  /\ derivable_pt_lim (fun x => flux_eps_dot dim rho early c n etas grads dg x i j) dv (flux_eps_dot_ddiv_vol early c n etas i j).
Proof.
  intros dim rho early c n etas grads dg dv i j. unfold flux_eps_dot, flux_eps_dot_dc, flux_eps_dot_ddiv_gb, flux_eps_dot_ddiv_vol.
  destruct early; [repeat split; intros; apply derivable_const0 |]. split; [| split].
  - intros Hc. eapply derivable_eq; [| apply derivable_scal; apply v_deriv; exact Hc]. ring.
  - set (V := v_of c). set (g := g_of n etas). set (w := gb_norm dim n etas grads).
    apply (derivable_ext (fun x => (V * diagonal (- dv / volume_denominator * (1 - g) * fac_vol) i j) + x * (V * (outer w w i j * (rho * g * fac_gb))))).
    + intros x. unfold chi. fold V g w. ring.
    + eapply derivable_eq; [| apply derivable_line]. unfold fac_gb. ring.
  - set (V := v_of c). set (g := g_of n etas). set (w := gb_norm dim n etas grads).
    apply (derivable_ext (fun x => V * (outer w w i j * (rho * dg * g * fac_gb)) + x * (V * (if Nat.eqb i j then - / 3 * (1 - g) else 0)))).
    + intros x. unfold chi, diagonal, volume_denominator, fac_vol. fold V g w. destruct (Nat.eqb i j); field.
    + eapply derivable_eq; [| apply derivable_line]. unfold diagonal, volume_denominator. fold V. destruct (Nat.eqb i j); field.
Qed.
Print Assumptions C71_inelastic_partial.

(** *** Derivative with respect to an order parameter *)
Definition pairs (n : nat) (e : vec) : R := vsum n (fun a => vsum n (fun b => if Nat.ltb a b then e a * e b else 0)).

Lemma pairs_upd : forall n e i x, (i < n)%nat -> pairs n (upd e i x) = pairs n e + (x - e i) * vsum n (fun j => if Nat.eqb j i then 0 else e j).
Proof.
  intros n e i x Hi. unfold pairs. set (s := x - e i). set (dl := fun a : nat => if Nat.eqb a i then 1 else 0).
  assert (U : forall a, upd e i x a = e a + s * dl a).
  { intros a. unfold upd, dl, s. destruct (Nat.eqb_spec a i); [subst; ring | ring]. }
  rewrite (vsum_ext n (fun a => vsum n (fun b => if Nat.ltb a b then upd e i x a * upd e i x b else 0))
    (fun a => vsum n (fun b => if Nat.ltb a b then e a * e b else 0) + s * (dl a * vsum n (fun b => if Nat.ltb i b then e b else 0) + (if Nat.ltb a i then e a else 0)))).
  - rewrite vsum_plus. f_equal. rewrite vsum_scale. f_equal. rewrite vsum_plus.
    rewrite (vs_single n i (fun a => dl a * vsum n (fun b => if Nat.ltb i b then e b else 0))); [| exact Hi | intros j _ Hj; unfold dl; destruct (Nat.eqb_spec j i); [contradiction | ring]].
    unfold dl at 1. rewrite Nat.eqb_refl, Rmult_1_l, <- vsum_plus. apply vsum_ext. intros j Hj.
    destruct (Nat.ltb_spec i j), (Nat.ltb_spec j i), (Nat.eqb_spec j i); try lia; ring.
  - intros a Ha.
    rewrite (vsum_ext n (fun b => if Nat.ltb a b then upd e i x a * upd e i x b else 0)
      (fun b => (if Nat.ltb a b then e a * e b else 0) + (s * (dl a * (if Nat.ltb i b then e b else 0)) + s * ((if Nat.ltb a i then e a else 0) * dl b)))).
    + rewrite !vsum_plus, !vsum_scale. rewrite (vs_single n i dl); [| exact Hi | intros j _ Hj; unfold dl; destruct (Nat.eqb_spec j i); [contradiction | reflexivity]].
      unfold dl at 2. rewrite Nat.eqb_refl. ring.
    + intros b Hb. rewrite !U. unfold dl.
      destruct (Nat.ltb_spec a b), (Nat.ltb_spec i b), (Nat.ltb_spec a i), (Nat.eqb_spec a i), (Nat.eqb_spec b i); subst; try lia; ring.
Qed.
Lemma g_raw_pairs : forall n e, g_raw n e = 4 * pairs n e.
Proof. intros. unfold g_raw, pairs. ring. Qed.
Lemma gb_pairs : forall n e, vsum n (fun i => vsum n (fun j => if Nat.eqb i j then 0 else e i * e j)) = 2 * pairs n e.
Proof.
  intros n e. assert (W : pairs n e = vsum n (fun a => vsum n (fun b => if Nat.ltb b a then e b * e a else 0))) by exact (vs_swap n n (fun a b => if Nat.ltb a b then e a * e b else 0)).
  replace (2 * pairs n e) with (pairs n e + pairs n e) by ring. rewrite W at 2. unfold pairs. rewrite <- vsum_plus. apply vsum_ext. intros a Ha.
  rewrite <- vsum_plus. apply vsum_ext. intros b Hb. destruct (Nat.eqb_spec a b), (Nat.ltb_spec a b), (Nat.ltb_spec b a); try lia; ring.
Qed.

(** away from grain boundaries: twice the sum over all pairs of different order parameters
    between zero and one tenth *)
Theorem C71_order_parameter_partial : forall dim rho early c n etas grads dg dv index i j, (index < n)%nat ->
  0 < pairs n etas < 1 / 20 ->
  derivable_pt_lim (fun x => flux_eps_dot dim rho early c n (upd etas index x) grads dg dv i j) (etas index)
    (flux_eps_dot_detai dim rho early c n etas grads dg dv index i j).
Proof.
  intros dim rho early c n etas grads dg dv index i j Hi [Hp Hq]. unfold flux_eps_dot, flux_eps_dot_detai. destruct early; [apply derivable_const0 |].
  set (D := vsum n (fun j => if Nat.eqb j index then 0 else etas j)). set (P := pairs n etas).
  assert (N : forall e, pairs n e < 1 / 20 -> gb_indicator n e = 0).
  { intros e He. unfold gb_indicator. rewrite gb_pairs. unfold mask_lt. destruct (Rlt_dec (2 * pairs n e) (1 / 10)); [reflexivity | lra]. }
  assert (Gn : forall e, 0 < pairs n e < 1 / 20 -> forall a b, chi dim rho n e grads dg dv a b = diagonal (- dv / volume_denominator * (1 - 4 * pairs n e) * fac_vol) a b).
  { intros e He a b. unfold chi, outer, gb_norm. rewrite N by apply He. unfold g_of. rewrite g_raw_pairs. unfold mask_lt, mask_gt.
    destruct (Rlt_dec (4 * pairs n e) 0); [lra |]. destruct (Rlt_dec 1 (4 * pairs n e)); [lra |]. ring. }
  set (B := Rmin P (1 / 20 - P) / (Rabs D + 1)).
  assert (HB : 0 < B) by (unfold B; apply Rdiv_lt_0_compat; [apply Rmin_pos; unfold P; lra | assert (Z := Rabs_pos D); lra]).
  apply (derivable_local (fun x => (v_of c * (if Nat.eqb i j then - dv / 3 * (1 - 4 * (P - etas index * D)) else 0)) + x * (v_of c * (if Nat.eqb i j then dv / 3 * (4 * D) else 0)))) with (d := B).
  - exact HB.
  - intros y Hy.
    assert (PU : pairs n (upd etas index y) = P + (y - etas index) * D) by (apply pairs_upd; exact Hi).
    assert (Hs : Rabs ((y - etas index) * D) < Rmin P (1 / 20 - P)).
    { rewrite Rabs_mult. assert (Z := Rabs_pos D). assert (Z' := Rabs_pos (y - etas index)).
      apply Rle_lt_trans with (Rabs (y - etas index) * (Rabs D + 1)); [apply Rmult_le_compat_l; lra |].
      apply Rlt_le_trans with (B * (Rabs D + 1)); [apply Rmult_lt_compat_r; lra |]. unfold B, Rdiv. rewrite Rmult_assoc, Rinv_l by lra. lra. }
    assert (M1 := Rmin_l P (1 / 20 - P)). assert (M2 := Rmin_r P (1 / 20 - P)). apply Rabs_def2 in Hs.
    rewrite Gn by (rewrite PU; lra). rewrite PU. unfold diagonal, volume_denominator, fac_vol. destruct (Nat.eqb i j); field.
  - eapply derivable_eq; [| apply derivable_line]. unfold outer, gb_norm, gb_norm_detai. rewrite N by exact Hq. unfold diagonal, volume_denominator, fac_vol, dg_detai. fold D. destruct (Nat.eqb i j); field.
Qed.
Print Assumptions C71_order_parameter_partial.

(** two grains; the difference of their gradients is the first unit vector *)
Definition grads2 : nat -> vec := fun g d => if Nat.eqb g 0 && Nat.eqb d 0 then 1 else 0.
Definition etas2 (x y : R) : vec := fun g => if Nat.eqb g 0 then x else y.
Lemma unit2 : forall d, unit_vector 2 (fun e => grads2 0 e - grads2 1 e) d = if Nat.eqb d 0 then 1 else 0.
Proof.
  intros d. assert (N : norm 2 (fun e => grads2 0 e - grads2 1 e) = 1).
  { unfold norm, dot, grads2. cbn. replace (0 + (1 - 0) * (1 - 0) + (0 - 0) * (0 - 0)) with 1 by ring. apply sqrt_1. }
  rewrite unit_vector_on; rewrite N.
  - unfold grads2. cbn. destruct (Nat.eqb d 0); field.
  - rewrite <- Rinv_1. apply Rinv_lt_contravar; [| apply (pow_lt_1_compat 10 10 ltac:(lra) ltac:(lia)) || (cbn; lra)]. cbn. lra.
Qed.
Lemma chi2 : forall x y dg dv, 0 <= 4 * (x * y) <= 1 -> chi 2 1 2 (etas2 x y) grads2 dg dv 0 0
  = (if Rlt_dec (2 * (x * y)) (1 / 10) then 0 else 2 * (x * y) * (2 * (x * y)) * (dg * (4 * (x * y)))) - dv / 3 * (1 - 4 * (x * y)).
Proof.
  intros x y dg dv Hr. assert (P : pairs 2 (etas2 x y) = x * y) by (unfold pairs, etas2; cbn; ring).
  unfold chi, outer, gb_norm. cbn [vsum Nat.ltb Nat.leb]. rewrite unit2. cbn [Nat.eqb]. unfold g_of, gb_indicator. rewrite gb_pairs, g_raw_pairs, P. unfold mask_lt, mask_gt.
  destruct (Rlt_dec (4 * (x * y)) 0); [lra |]. destruct (Rlt_dec 1 (4 * (x * y))); [lra |]. unfold diagonal, volume_denominator, fac_vol, fac_gb. cbn [Nat.eqb].
  destruct (Rlt_dec (2 * (x * y)) (1 / 10)); field.
Qed.

(** *** The derivatives with respect to an order parameter on a grain boundary and with
    respect to a concentration above one are wrong *)
Theorem C71_derivatives_refuted :
  (derivable_pt_lim (fun x => flux_eps_dot 2 1 false (1 / 2) 2 (etas2 x (1 / 4)) grads2 1 0 0 0) (1 / 2) (3 / 64)
   /\ flux_eps_dot_detai 2 1 false (1 / 2) 2 (etas2 (1 / 2) (1 / 4)) grads2 1 0 0 0 0 = 1 / 64)
  /\ (derivable_pt_lim (fun x => flux_eps_dot 2 1 false x 0 (fun _ => 0) grads2 0 1 0 0) 2 0
      /\ flux_eps_dot_dc 2 1 false 2 0 (fun _ => 0) grads2 0 1 0 0 = - (4 / 3)).
Proof.
  assert (V : v_of (1 / 2) = 1 / 4) by (unfold v_of, mask_gt; destruct (Rlt_dec 1 (1 / 2 * (1 / 2))); lra).
  split; split.
  - apply (derivable_local (fun x => 1 / 4 * (x / 2 * (x / 2) * (1 * x)))) with (d := 1 / 4); [lra | |].
    + intros y Hy. apply Rabs_def2 in Hy. unfold flux_eps_dot. rewrite V, chi2 by lra. destruct (Rlt_dec (2 * (y * (1 / 4))) (1 / 10)); [lra | field].
    + apply (derivable_ext (fun x => 1 / 16 * x ^ 3)); [intros; field |]. eapply derivable_eq; [| apply mono_deriv]. cbn. field.
  - unfold flux_eps_dot_detai. rewrite V. unfold outer, gb_norm. cbn [vsum Nat.ltb Nat.leb]. rewrite unit2. unfold gb_indicator, mask_lt. cbn [vsum Nat.eqb]. unfold etas2. cbn [Nat.eqb].
    unfold gb_norm_detai, dg_detai, diagonal, volume_denominator, fac_gb, fac_vol. cbn [vsum Nat.eqb].
    destruct (Rlt_dec _ (1 / 10)); [exfalso; lra | field].
  - apply (derivable_local (fun x => - (1 / 3))) with (d := 1 / 2); [lra | | apply derivable_const0].
    intros y Hy. apply Rabs_def2 in Hy. unfold flux_eps_dot, v_of, mask_gt. destruct (Rlt_dec 1 (y * y)) as [| L]; [| exfalso; nra].
    unfold chi, outer, gb_norm, g_of, g_raw, diagonal, volume_denominator, fac_vol, mask_lt, mask_gt. cbn [vsum Nat.eqb].
    destruct (Rlt_dec (0 * 4) 0); [lra |]. destruct (Rlt_dec 1 (0 * 4)); [lra | field].
  - unfold flux_eps_dot_dc, dv_dc, chi, outer, gb_norm, g_of, g_raw, diagonal, volume_denominator, fac_vol, mask_lt, mask_gt. cbn [vsum Nat.eqb].
    destruct (Rlt_dec (0 * 4) 0); [lra |]. destruct (Rlt_dec 1 (0 * 4)); [lra | field].
Qed.
Print Assumptions C71_derivatives_refuted.

(** *** The strain rate jumps where a grain boundary begins *)
Theorem C71_jump_refuted :
  flux_eps_dot 2 1 false (1 / 2) 2 (etas2 (1 / 10) (1 / 2)) grads2 1 0 0 0 = 1 / 2000
  /\ forall x, 0 < x < 1 / 10 -> flux_eps_dot 2 1 false (1 / 2) 2 (etas2 x (1 / 2)) grads2 1 0 0 0 = 0.
Proof.
  assert (V : v_of (1 / 2) = 1 / 4) by (unfold v_of, mask_gt; destruct (Rlt_dec 1 (1 / 2 * (1 / 2))); lra).
  split; [| intros x Hx]; unfold flux_eps_dot; rewrite V, chi2 by lra; destruct (Rlt_dec _ (1 / 10)); lra.
Qed.
Print Assumptions C71_jump_refuted.

(** *** The trace of the strain rate: the volume part loses volume at the rate [div_vol] in
    three dimensions only; the normal of a boundary between two grains has the length of
    the indicator, not one *)
Theorem C71_trace : forall dim rho c n etas grads dg dv,
  trace dim (flux_eps_dot dim rho false c n etas grads dg dv)
  = v_of c * (rho * dg * g_of n etas * dot dim (gb_norm dim n etas grads) (gb_norm dim n etas grads) - INR dim / 3 * dv * (1 - g_of n etas)).
Proof.
  intros dim rho c n etas grads dg dv. set (w := gb_norm dim n etas grads). set (g := g_of n etas).
  rewrite dot_vsum. unfold trace.
  rewrite (vsum_ext dim _ (fun i => v_of c * (rho * dg * g) * (w i * w i) + v_of c * (- dv / 3 * (1 - g)) * 1)).
  - rewrite vsum_lin. assert (C : vsum dim (fun _ => 1) = INR dim) by (induction dim as [| m IH]; [reflexivity | cbn [vsum]; rewrite IH, S_INR; reflexivity]).
    rewrite C. field.
  - intros i Hi. unfold flux_eps_dot, chi, outer, diagonal, volume_denominator, fac_gb, fac_vol. rewrite Nat.eqb_refl. fold w g. field.
Qed.
Print Assumptions C71_trace.

Theorem C71_normal : forall dim etas grads, / 10 ^ 10 < norm dim (fun e => grads 0%nat e - grads 1%nat e) ->
  dot dim (gb_norm dim 2 etas grads) (gb_norm dim 2 etas grads) = gb_indicator 2 etas * gb_indicator 2 etas.
Proof.
  intros dim etas grads Hn. set (k := gb_indicator 2 etas). set (f := fun e => grads 0%nat e - grads 1%nat e).
  assert (P := small_pos 10).
  assert (W : forall d, gb_norm dim 2 etas grads d = k / norm dim f * f d).
  { intros d. unfold gb_norm. cbn [vsum Nat.ltb Nat.leb]. fold f. rewrite unit_vector_on by exact Hn. fold k. field. fold f in Hn. lra. }
  rewrite dot_vsum. rewrite (vsum_ext dim _ (fun d => (k / norm dim f * (k / norm dim f)) * (f d * f d))) by (intros; rewrite !W; ring).
  rewrite vsum_scale, <- dot_vsum, <- norm_sq. field. fold f in Hn. lra.
Qed.
Print Assumptions C71_normal.

(** *** With three grains the strain rate depends on the order of the grains *)
Definition grads3 (a b c : nat) : nat -> vec := fun g d =>
  nth g [nth a [fun d => if Nat.eqb d 0 then 3 else 0; fun _ => 0; fun d => if Nat.eqb d 1 then 4 else 0] (fun _ => 0);
         nth b [fun d => if Nat.eqb d 0 then 3 else 0; fun _ => 0; fun d => if Nat.eqb d 1 then 4 else 0] (fun _ => 0);
         nth c [fun d => if Nat.eqb d 0 then 3 else 0; fun _ => 0; fun d => if Nat.eqb d 1 then 4 else 0] (fun _ => 0)] (fun _ => 0) d.
Lemma unit_of : forall (f : vec) r d, 1 <= r -> dot 2 f f = r * r -> unit_vector 2 f d = f d / r.
Proof.
  intros f r d Hr Hd. assert (N : norm 2 f = r) by (unfold norm; rewrite Hd; apply sqrt_square; lra).
  rewrite unit_vector_on; rewrite N; [reflexivity |].
  apply Rlt_le_trans with 1; [| exact Hr]. rewrite <- Rinv_1. apply Rinv_lt_contravar; cbn; lra.
Qed.
Theorem C71_order_refuted : exists etas : vec,
  (forall i, etas i = 1 / 5)
  /\ flux_eps_dot 2 1 false (1 / 2) 3 etas (grads3 0 1 2) 1 0 0 0 <> flux_eps_dot 2 1 false (1 / 2) 3 etas (grads3 1 0 2) 1 0 0 0.
Proof.
  exists (fun _ => 1 / 5). split; [reflexivity |].
  assert (V : v_of (1 / 2) = 1 / 4) by (unfold v_of, mask_gt; destruct (Rlt_dec 1 (1 / 2 * (1 / 2))); lra).
  assert (P : pairs 3 (fun _ => 1 / 5) = 3 / 25) by (unfold pairs; cbn; field).
  assert (G : g_of 3 (fun _ => 1 / 5) = 12 / 25).
  { unfold g_of. rewrite g_raw_pairs, P. unfold mask_lt, mask_gt. destruct (Rlt_dec (4 * (3 / 25)) 0); [lra |]. destruct (Rlt_dec 1 (4 * (3 / 25))); lra. }
  assert (I : gb_indicator 3 (fun _ => 1 / 5) = 6 / 25).
  { unfold gb_indicator. rewrite gb_pairs, P. unfold mask_lt. destruct (Rlt_dec (2 * (3 / 25)) (1 / 10)); lra. }
  assert (N1 : gb_norm 2 3 (fun _ => 1 / 5) (grads3 0 1 2) 0%nat = 8 / 5 * (6 / 25)).
  { unfold gb_norm. rewrite I. cbn [vsum Nat.ltb Nat.leb].
    rewrite (unit_of (fun e => grads3 0 1 2 0 e - grads3 0 1 2 1 e) 3), (unit_of (fun e => grads3 0 1 2 0 e - grads3 0 1 2 2 e) 5), (unit_of (fun e => grads3 0 1 2 1 e - grads3 0 1 2 2 e) 4)
      by (try lra; unfold dot, grads3; cbn; ring). unfold grads3. cbn. field. }
  assert (N2 : gb_norm 2 3 (fun _ => 1 / 5) (grads3 1 0 2) 0%nat = - 2 / 5 * (6 / 25)).
  { unfold gb_norm. rewrite I. cbn [vsum Nat.ltb Nat.leb].
    rewrite (unit_of (fun e => grads3 1 0 2 0 e - grads3 1 0 2 1 e) 3), (unit_of (fun e => grads3 1 0 2 0 e - grads3 1 0 2 2 e) 4), (unit_of (fun e => grads3 1 0 2 1 e - grads3 1 0 2 2 e) 5)
      by (try lra; unfold dot, grads3; cbn; ring). unfold grads3. cbn. field. }
  unfold flux_eps_dot, chi, outer. rewrite V, G, N1, N2. unfold diagonal, fac_gb, fac_vol, volume_denominator. cbn [Nat.eqb]. lra.
Qed.
Print Assumptions C71_order_refuted.

(** *** The indicator is the sum over pairs, cut at zero and one *)
Theorem C71_indicator : forall n etas,
  g_of n etas = Rmax 0 (Rmin 1 (4 * pairs n etas)) /\ v_of (etas 0%nat) = Rmin 1 (etas 0%nat * etas 0%nat).
Proof.
  intros n etas. unfold g_of, v_of. rewrite g_raw_pairs. unfold mask_lt, mask_gt, Rmax, Rmin. split.
  - destruct (Rlt_dec (4 * pairs n etas) 0); destruct (Rle_dec 1 (4 * pairs n etas)); try destruct (Rlt_dec 1 0); try destruct (Rlt_dec 1 (4 * pairs n etas)); try destruct (Rle_dec 0 1); try destruct (Rle_dec 0 (4 * pairs n etas)); lra.
  - destruct (Rlt_dec 1 (etas 0%nat * etas 0%nat)), (Rle_dec 1 (etas 0%nat * etas 0%nat)); lra.
Qed.
Print Assumptions C71_indicator.

(** *** A case: the hypotheses are satisfiable *)
Example C71_applies :
  admissible 3 none 1 (1 / 4) /\ admissible 2 plane_strain 1 (1 / 4)
  /\ get_S 2 plane_strain 1 (1 / 4) (fun i j => if Nat.eqb i 0 && Nat.eqb j 1 then 1 else 0) 1 0 = 2 / 5
  /\ get_S 2 none 1 (1 / 4) (fun i j => if Nat.eqb i 0 && Nat.eqb j 1 then 1 else 0) 1 0 = 0
  /\ 0 < pairs 2 (etas2 (1 / 10) (1 / 10)) < 1 / 20.
Proof.
  unfold admissible. cbn [Nat.eqb]. repeat split; try lra.
  - unfold get_S. cbn [Nat.eqb orb is_none]. change (voigt_size 2) with 3%nat. unfold Cmat, f0, f1, f2. change (voigt_size 2) with 3%nat. cbn. field.
  - unfold get_S. cbn. ring.
  - unfold pairs, etas2. cbn. lra.
  - unfold pairs, etas2. cbn. lra.
Qed.
