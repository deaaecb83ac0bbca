(** C91: choices made at compile time. *)
From Coq Require Import List NArith ZArith Arith Bool Lia.
From Verif Require Import Util MeshFlagsModel DispatchModel.
Import ListNotations.

Lemma in_from_to : forall lo hi n, In n (from_to lo hi) <-> (lo <= n <= hi)%N.
Proof.
  intros lo hi n. unfold from_to. rewrite in_map_iff. split.
  - intros [k [<- I]]. apply in_seq in I. lia.
  - intros H. exists (N.to_nat n). split; [lia |]. apply in_seq. lia.
Qed.
Lemma switch_spec : forall A cases (body : N -> A) n, switch cases body n = (if existsb (N.eqb n) cases then Some (body n) else None).
Proof.
  intros A cases body n. induction cases as [| c cases IH]; [reflexivity |]. cbn [switch existsb]. rewrite (N.eqb_sym n c). destruct (N.eqb_spec c n) as [-> | _]; [reflexivity | exact IH].
Qed.
Lemma switch_range : forall A lo hi (body : N -> A) n, switch (from_to lo hi) body n = if N.leb lo n && N.leb n hi then Some (body n) else None.
Proof.
  intros A lo hi body n. rewrite switch_spec. assert (E : existsb (N.eqb n) (from_to lo hi) = (N.leb lo n && N.leb n hi)); [| rewrite E; reflexivity].
  apply eq_true_iff_eq. rewrite existsb_exists, andb_true_iff, N.leb_le, N.leb_le. split.
  - intros [x [I E]]. apply N.eqb_eq in E. subst x. apply in_from_to in I. exact I.
  - intros H. exists n. split; [apply in_from_to; exact H | apply N.eqb_refl].
Qed.

(** ** Classes with grains and classes without: the operation runs exactly for the compiled range, with
    the number of grains of the object and the number of components belonging to it, for any
    compiled maximum; all other numbers end in the exception. *)
Theorem C91_expand : forall MAX scalar n_grains to_components n_components,
  let lo := if scalar : bool then 2%N else 1%N in
  (forall c g, expand_operations MAX scalar (Some (n_grains, to_components)) n_components = Some (c, g)
     <-> ((lo <= n_grains <= MAX)%N /\ g = Some n_grains /\ c = to_components n_grains))
  /\ (forall c g, expand_operations MAX scalar None n_components = Some (c, g) <-> ((lo <= n_components <= MAX + 2)%N /\ g = None /\ c = n_components))
  /\ (forall c g, expand_n_comp_nt MAX n_components = Some (c, g) <-> ((2 <= n_components <= MAX + 2)%N /\ g = None /\ c = n_components)).
Proof.
  intros MAX scalar ng tc nc lo. unfold expand_operations, expand_n_comp_nt. fold lo. split; [| split]; intros c g; rewrite switch_range.
  - destruct (N.leb_spec lo ng); cbn [andb]; [| split; [discriminate | lia]]. destruct (N.leb_spec ng MAX); [| split; [discriminate | lia]].
    unfold expand_const. rewrite N.min_r by lia. split; [intros E; injection E as <- <-; auto | intros [_ [-> ->]]; reflexivity].
  - destruct (N.leb_spec lo nc); cbn [andb]; [| split; [discriminate | lia]]. destruct (N.leb_spec nc (MAX + 2)); [| split; [discriminate | lia]].
    unfold expand_nonconst. rewrite N.min_r by lia. split; [intros E; injection E as <- <-; auto | intros [_ [-> ->]]; reflexivity].
  - destruct (N.leb_spec 2 nc); cbn [andb]; [| split; [discriminate | lia]]. destruct (N.leb_spec nc (MAX + 2)); [| split; [discriminate | lia]].
    unfold expand_nonconst. rewrite N.min_r by lia. split; [intros E; injection E as <- <-; auto | intros [_ [-> ->]]; reflexivity].
Qed.
Print Assumptions C91_expand.

(** ** The operators: an operation compiled for [c] components runs only on data with [c] components,
    and its number of grains is theirs; too few components are caught although the number of
    grains is computed without sign.  The blocks of the preconditioner agree with the operator on
    which data they exist. *)
Theorem C91_operators : forall MAX dim n, (MAX < 2 ^ 32 - 2)%N -> (n < 2 ^ 32)%N ->
  (forall c g, sintering_operator MAX n = Some (c, g) -> c = n /\ g = Some (n - 2)%N /\ (1 <= n - 2 <= MAX)%N)
  /\ (sintering_operator MAX n <> None <-> (3 <= n <= MAX + 2)%N)
  /\ (cahn_hilliard_block MAX n <> None <-> sintering_operator MAX n <> None) /\ (solid_block MAX dim n <> None <-> sintering_operator MAX n <> None)
  /\ (allen_cahn_block MAX n <> None <-> sintering_operator MAX n <> None)
  /\ (forall c g c' g' c'' g'', sintering_operator MAX n = Some (c, g) -> cahn_hilliard_block MAX n = Some (c', g') -> allen_cahn_block MAX n = Some (c'', g'') -> c = (c' + c'')%N /\ g = g' /\ g = g'')
  /\ (forall c g, grain_growth_operator MAX n = Some (c, g) -> c = n /\ g = Some n).
Proof.
  intros MAX dim n HM Hn.
  assert (U : u32_sub n 2 = if N.ltb n 2 then (n + 2 ^ 32 - 2)%N else (n - 2)%N).
  { unfold u32_sub, u32. rewrite (N.mod_small 2) by lia. destruct (N.ltb_spec n 2); [apply N.mod_small; lia |].
    replace (n + 2 ^ 32 - 2)%N with (n - 2 + 1 * 2 ^ 32)%N by lia. rewrite N.mod_add by lia. apply N.mod_small. lia. }
  assert (P : forall A (body : N -> A), switch (from_to 1 MAX) body (u32_sub n 2) = if N.leb 3 n && N.leb n (MAX + 2) then Some (body (n - 2)%N) else None).
  { intros A body. rewrite switch_range, U. destruct (N.ltb_spec n 2).
    - destruct (N.leb_spec 3 n); [lia |]. cbn [andb]. destruct (N.leb_spec (n + 2 ^ 32 - 2) MAX); [lia |]. rewrite andb_false_r. reflexivity.
    - destruct (N.leb_spec 3 n), (N.leb_spec 1 (n - 2)); try lia; cbn [andb]; try reflexivity. destruct (N.leb_spec n (MAX + 2)), (N.leb_spec (n - 2) MAX); try lia; reflexivity. }
  unfold sintering_operator, cahn_hilliard_block, solid_block, allen_cahn_block, grain_growth_operator, expand_operations. rewrite !P.
  destruct (N.leb_spec 3 n), (N.leb_spec n (MAX + 2)); cbn [andb]; unfold expand_const; try rewrite (N.min_r MAX (n - 2)) by lia;
  (repeat split; intros; try discriminate; try congruence; try lia);
  try match goal with h : Some (_, _) = Some (_, _) |- _ => injection h; intros end; subst; try lia; try congruence; try (f_equal; lia);
  repeat match goal with h : Some (_, _) = Some (_, _) |- _ => injection h; clear h; intros end; subst; try lia; try reflexivity; try congruence;
  match goal with h : switch _ _ _ = Some _ |- _ => rewrite switch_range in h; destruct (N.leb_spec 2 n), (N.leb_spec n MAX); cbn [andb] in h; try discriminate; injection h; intros; subst; rewrite N.min_r by lia; reflexivity end.
Qed.
Print Assumptions C91_operators.
Example C91_operators_applies : sintering_operator 10 5 = Some (5, Some 3)%N /\ allen_cahn_block 10 5 = Some (3, Some 3)%N /\ sintering_operator 10 1 = None /\ sintering_operator 10 13 = None.
Proof. repeat split; vm_compute; reflexivity. Qed.

(** ** Refuted: the range in the message of the exception is the range of the operation.  A model of
    grain growth with one order parameter passes the check of the runner (at least one, at most
    MAX order parameters) and no operation is compiled for it, whatever MAX is *)
Theorem C91_scalar_refuted : forall MAX, (1 <= MAX)%N -> grain_growth_operator MAX 1 = None /\ (forall n, (2 <= n <= MAX)%N -> grain_growth_operator MAX n <> None).
Proof.
  intros MAX H. unfold grain_growth_operator, expand_operations. split.
  - rewrite switch_range. reflexivity.
  - intros n Hn. rewrite switch_range. destruct (N.leb_spec 2 n), (N.leb_spec n MAX); try lia. discriminate.
Qed.
Print Assumptions C91_scalar_refuted.

(** ** Masks: for bits from 1 to 31, the mask of any list of bits contains exactly them; [any_bit_of]
    finds out whether the lists meet. *)
Lemma shift_ok : forall n, (1 <= n <= 31)%Z -> shift n = Some (2 ^ (n - 1))%Z.
Proof.
  intros n H. unfold shift. destruct (Z.leb_spec 1 n), (Z.leb_spec n 32); try lia. cbn [andb]. f_equal. unfold to_int.
  assert (P : (0 < 2 ^ (n - 1) <= 2 ^ 30)%Z) by (split; [apply Z.pow_pos_nonneg; lia | apply Z.pow_le_mono_r; lia]).
  rewrite Z.mod_small by lia. lia.
Qed.
Lemma mask_ok : forall bits, bits <> [] -> (forall b, In b bits -> (1 <= b <= 31)%Z) ->
  exists m, mask bits = Some m /\ (0 <= m)%Z /\ forall b, (1 <= b)%Z -> Z.testbit m (b - 1) = existsb (Z.eqb b) bits.
Proof.
  induction bits as [| n bits IH]; intros NE H; [congruence |]. assert (Hn := H n (or_introl eq_refl)).
  assert (T : forall b, (1 <= b)%Z -> Z.testbit (2 ^ (n - 1)) (b - 1) = Z.eqb b n).
  { intros b Hb. rewrite Z.pow2_bits_eqb by lia. destruct (Z.eqb_spec (n - 1) (b - 1)), (Z.eqb_spec b n); try lia; reflexivity. }
  destruct bits as [| n' bits].
  - exists (2 ^ (n - 1))%Z. split; [| split].
    + cbn [mask]. rewrite shift_ok by exact Hn. destruct n; try reflexivity; lia.
    + apply Z.pow_nonneg. lia.
    + intros b Hb. cbn [existsb]. rewrite orb_false_r. apply T. exact Hb.
  - destruct IH as [m [E [P B]]]; [discriminate | intros; apply H; right; assumption |].
    exists (Z.lor (2 ^ (n - 1)) m). split; [| split].
    + destruct n as [| p | p]; try lia. change (mask (Z.pos p :: n' :: bits)) with (obind (shift (Z.pos p)) (fun a => obind (mask (n' :: bits)) (fun b => Some (Z.lor a b)))).
      rewrite shift_ok, E by exact Hn. reflexivity.
    + apply Z.lor_nonneg. split; [apply Z.pow_nonneg; lia | exact P].
    + intros b Hb. rewrite Z.lor_spec, T, B by exact Hb. reflexivity.
Qed.
Lemma land_bit : forall m b, (0 <= m)%Z -> (1 <= b <= 31)%Z -> is_bit_set m b = Some (Z.testbit m (b - 1)).
Proof.
  intros m b Hm Hb. unfold is_bit_set. rewrite shift_ok by exact Hb. cbn [obind]. f_equal.
  destruct (Z.testbit m (b - 1)) eqn:E.
  - apply Z.ltb_lt. assert (N0 : Z.land m (2 ^ (b - 1)) <> 0%Z). { intros C. assert (X := f_equal (fun z => Z.testbit z (b - 1)) C). cbn beta in X. rewrite Z.land_spec, E, Z.pow2_bits_true, Z.bits_0 in X by lia. discriminate. }
    assert (0 <= Z.land m (2 ^ (b - 1)))%Z by (apply Z.land_nonneg; left; exact Hm). lia.
  - apply Z.ltb_ge. replace (Z.land m (2 ^ (b - 1))) with 0%Z; [lia |]. symmetry. apply Z.bits_inj'. intros k Hk. rewrite Z.land_spec, Z.bits_0, Z.pow2_bits_eqb by lia.
    destruct (Z.eqb_spec (b - 1) k) as [<- | _]; [rewrite E; reflexivity | apply andb_false_r].
Qed.
Theorem C91_mask : forall bits, bits <> [] -> (forall b, In b bits -> (1 <= b <= 31)%Z) ->
  exists m, mask bits = Some m
  /\ (forall b, (1 <= b <= 31)%Z -> exists s, is_bit_set m b = Some s /\ (s = true <-> In b bits))
  /\ (forall asked, asked <> [] -> (forall b, In b asked -> (1 <= b <= 31)%Z) -> exists s, any_bit_of m asked = Some s /\ (s = true <-> exists b, In b asked /\ In b bits)).
Proof.
  intros bits NE H. destruct (mask_ok bits NE H) as [m [E [P B]]]. exists m. split; [exact E |].
  assert (I : forall b, (1 <= b <= 31)%Z -> exists s, is_bit_set m b = Some s /\ (s = true <-> In b bits)).
  { intros b Hb. exists (Z.testbit m (b - 1)). split; [apply land_bit; assumption |]. rewrite B by lia. rewrite existsb_exists. split.
    - intros [x [J Ex]]. apply Z.eqb_eq in Ex. subst x. exact J.
    - intros J. exists b. split; [exact J | apply Z.eqb_refl]. }
  split; [exact I |]. induction asked as [| a asked IH]; intros NA HA; [congruence |].
  destruct (I a (HA a (or_introl eq_refl))) as [s [Es Hs]]. destruct asked as [| a' asked].
  - exists s. split; [exact Es |]. rewrite Hs. split; [intros J; exists a; split; [left; reflexivity | exact J] | intros [b [[<- | []] J]]; exact J].
  - destruct IH as [r [Er Hr]]; [discriminate | intros; apply HA; right; assumption |].
    change (any_bit_of m (a :: a' :: asked)) with (obind (is_bit_set m a) (fun s => if s then Some true else any_bit_of m (a' :: asked))). rewrite Es. cbn [obind]. destruct s.
    + exists true. split; [reflexivity |]. split; [| reflexivity]. intros _. exists a. split; [left; reflexivity | apply Hs; reflexivity].
    + exists r. split; [exact Er |]. rewrite Hr. split.
      * intros [b [J K]]. exists b. split; [right; exact J | exact K].
      * intros [b [[<- | J] K]]; [apply Hs in K; discriminate | exists b; auto].
Qed.
Print Assumptions C91_mask.
Example C91_mask_applies : mask [zero; first; second] = Some 7%Z /\ mask [second] = Some 4%Z /\ any_bit_of 4 [zero; first] = Some false /\ mask [0%Z] = Some 0%Z.
Proof. repeat split; vm_compute; reflexivity. Qed.
(** ** Refuted: every bit of the int can be used.  Bit 32 is the sign, so that the test [> 0] does
    not find it *)
Theorem C91_sign_refuted : exists m, mask [32%Z] = Some m /\ is_bit_set m 32 = Some false.
Proof. exists (- 2147483648)%Z. split; reflexivity. Qed.
Print Assumptions C91_sign_refuted.

(** ** The evaluation of the free energy: with any mask of orders, each function whose order is in the
    mask has the sums it needs and does not depend on the mask.  The other way round the
    energy and its derivative by the composition read a number that was never computed, without a
    message in the release build. *)
Theorem C91_energy : forall A (value : energy_function -> A -> A -> A) value2 p2 p3 orders f,
  orders <> [] -> (forall o, In o orders -> In o [1; 2; 3]%Z) ->
  exists m, mask orders = Some m
  /\ (In (order f) orders -> eval m p2 p3 (energy value value2 f) = Some (match f with F | DfDc => value f p2 p3 | _ => value2 f p2 end))
  /\ (orders = [3%Z] -> f = F \/ f = DfDc -> eval m p2 p3 (energy value value2 f) = None).
Proof.
  intros A value value2 p2 p3 orders f NE H.
  assert (R : forall o, In o orders -> (1 <= o <= 31)%Z) by (intros o I; destruct (H o I) as [<- | [<- | [<- | []]]]; lia).
  destruct (C91_mask orders NE R) as [m [E [_ An]]]. exists m. split; [exact E |].
  destruct (An [zero; first]) as [s [Es Hs]]; [discriminate | intros b [<- | [<- | []]]; unfold zero, first; lia |]. unfold eval. rewrite Es. cbn [obind]. split.
  - intros I. destruct f; cbn [energy order] in *; try (destruct s; reflexivity).
    + assert (S : s = true) by (apply Hs; exists zero; split; [left; reflexivity | exact I]). rewrite S. reflexivity.
    + assert (S : s = true) by (apply Hs; exists first; split; [right; left; reflexivity | exact I]). rewrite S. reflexivity.
  - intros -> Hf. assert (S : s = false). { destruct s; [| reflexivity]. destruct (proj1 Hs eq_refl) as [b [[<- | [<- | []]] [J | []]]]; discriminate. }
    rewrite S. destruct Hf as [-> | ->]; reflexivity.
Qed.
Print Assumptions C91_energy.
