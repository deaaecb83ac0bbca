(** Lemmas about DivisionsModel. *)
From Coq Require Import List QArith Qround ZArith Arith Bool Lia Sorted.
From Verif Require Import Util DivisionsModel.
Import ListNotations.
Local Open Scope nat_scope.

Definition is_prime (p : nat) : Prop := 2 <= p /\ forall d, Nat.divide d p -> d = 1 \/ d = p.

(** ** Prime numbers *)
Lemma no_divisor_spec : forall i, 2 <= i -> (no_divisor i = true <-> forall d, Nat.divide d i -> d = 1 \/ d = i).
Proof.
  intros i Hi. unfold no_divisor. rewrite forallb_forall. split.
  - intros H d [k E]. destruct d as [|[|d]]; [lia|left; reflexivity|]. destruct k as [|[|k]]; [lia|right; lia|]. exfalso.
    assert (ID : S (S d) <= i / 2). { apply Nat.div_le_lower_bound; [lia|]. nia. }
    specialize (H (S (S d))). assert (IN : In (S (S d)) (seq 2 (i / 2 - 1))) by (apply in_seq; lia). specialize (H IN).
    apply negb_true_iff, Nat.eqb_neq in H. apply H. rewrite E. apply Nat.mod_mul. lia.
  - intros H j Hj. apply in_seq in Hj. apply negb_true_iff, Nat.eqb_neq. intro C.
    assert (D : Nat.divide j i) by (apply Nat.mod_divide; [lia|exact C]). apply H in D.
    assert (i / 2 < i) by (apply Nat.div_lt; lia). lia.
Qed.

Lemma get_primes_spec : forall a b p, In p (get_primes a b) <-> a <= p <= b /\ is_prime p.
Proof.
  intros a b p. unfold get_primes. rewrite filter_In, in_seq, andb_true_iff, negb_true_iff, orb_false_iff, !Nat.eqb_neq. unfold is_prime. split.
  - intros (H1 & H2 & H3). assert (2 <= p) by lia. rewrite no_divisor_spec in H3 by assumption. split; [lia|]. split; assumption.
  - intros (H1 & H2 & H3). rewrite no_divisor_spec by assumption. split; [lia|]. split; [lia|assumption].
Qed.

Lemma filter_sorted : forall (f : nat -> bool) l, StronglySorted lt l -> StronglySorted lt (filter f l).
Proof.
  induction l as [|x l IH]; intro H; [constructor|]. inversion H as [|? ? H1 H2]; subst. cbn [filter]. destruct (f x); [|apply IH, H1]. constructor; [apply IH, H1|].
  rewrite Forall_forall in *. intros y Hy. apply filter_In in Hy. apply H2, Hy.
Qed.

Lemma seq_sorted : forall n a, StronglySorted lt (seq a n).
Proof.
  induction n as [|n IH]; intro a; [constructor|]. cbn [seq]. constructor; [apply IH|]. rewrite Forall_forall. intros y Hy. apply in_seq in Hy. lia.
Qed.

(** ** The number of refinements *)
Lemma pow_log2_up : forall k, 1 <= k -> k <= 2 ^ Nat.log2_up k < 2 * k.
Proof.
  intros k Hk. destruct (Nat.eq_dec k 1) as [->|N]; [cbn; lia|]. destruct (Nat.log2_up_spec k) as [A B]; [lia|]. split; [exact B|].
  assert (0 < Nat.log2_up k) by (apply Nat.log2_up_pos; lia). replace (Nat.log2_up k) with (S (pred (Nat.log2_up k))) by lia. cbn [Nat.pow]. lia.
Qed.

Lemma log2_up_least : forall k s, 1 <= k -> (k <= 2 ^ s /\ (forall t, k <= 2 ^ t -> s <= t) <-> s = Nat.log2_up k).
Proof.
  intros k s Hk. assert (M : forall t, k <= 2 ^ t -> Nat.log2_up k <= t).
  { intros t Ht. apply Nat.log2_up_le_mono in Ht. rewrite Nat.log2_up_pow2 in Ht by lia. exact Ht. }
  split.
  - intros [A B]. apply Nat.le_antisymm; [apply B, pow_log2_up, Hk|apply M, A].
  - intros ->. split; [apply pow_log2_up, Hk|exact M].
Qed.

Lemma size_bounds : forall n p, 1 <= p <= n -> n < p * 2 ^ Nat.log2_up (n / p) + p /\ p * 2 ^ Nat.log2_up (n / p) < 2 * n.
Proof.
  intros n p H. assert (K : 1 <= n / p) by (apply Nat.div_le_lower_bound; lia). destruct (pow_log2_up _ K) as [A B].
  pose proof (Nat.div_mod n p ltac:(lia)) as D. pose proof (Nat.mod_upper_bound n p ltac:(lia)). nia.
Qed.

Definition dev (n c : nat) : Z := Z.abs (Z.of_nat c - Z.of_nat n).

Lemma delta_spec : forall n c, (Z.of_nat n < 2 ^ 31)%Z -> c < 2 * n -> elements_delta c n = Some (dev n c).
Proof.
  intros n c Hn Hc. unfold elements_delta, dev. change (2 ^ 32)%Z with 4294967296%Z. change (2 ^ 31)%Z with 2147483648%Z in *.
  destruct (Z.leb_spec 4294967296 (Z.of_nat c)); [lia|].
  destruct (Z.le_gt_cases 0 (Z.of_nat c - Z.of_nat n)) as [P|P].
  - rewrite Z.mod_small by lia. destruct (Z.ltb_spec (Z.of_nat c - Z.of_nat n) 2147483648); [|lia].
    destruct (Z.eqb_spec (Z.of_nat c - Z.of_nat n) (- (2147483648))); [lia|]. reflexivity.
  - assert (E : ((Z.of_nat c - Z.of_nat n) mod 4294967296 = Z.of_nat c - Z.of_nat n + 4294967296)%Z).
    { symmetry. apply (Z.mod_unique _ _ (-1)%Z); [left; lia|lia]. }
    rewrite E. destruct (Z.ltb_spec (Z.of_nat c - Z.of_nat n + 4294967296) 2147483648); [lia|].
    replace (Z.of_nat c - Z.of_nat n + 4294967296 - 4294967296)%Z with (Z.of_nat c - Z.of_nat n)%Z by lia.
    destruct (Z.eqb_spec (Z.of_nat c - Z.of_nat n) (- (2147483648))); [lia|]. reflexivity.
Qed.

Definition refs_of (n p : nat) : nat := Nat.log2_up (n / p).

Lemma choose_spec : forall n, (Z.of_nat n < 2 ^ 31)%Z -> forall primes p s m, (forall q, In q primes -> 1 <= q <= n) ->
  exists p' s' m', choose n primes p s m = Some (p', s') /\ (m' <= m)%Z /\
    (p' = p /\ s' = s /\ m' = m \/ In p' primes /\ s' = refs_of n p' /\ m' = dev n (p' * 2 ^ s') /\ (m' < m)%Z) /\
    (forall q, In q primes -> (m' <= dev n (q * 2 ^ refs_of n q))%Z).
Proof.
  intros n Hn. induction primes as [|q r IH]; intros p s m H.
  - exists p, s, m. split; [reflexivity|]. split; [lia|]. split; [auto|intros q []].
  - assert (Q : 1 <= q <= n) by (apply H; left; reflexivity). cbn [choose]. unfold ceil_log2_nat.
    destruct (Nat.eqb_spec (n / q) 0) as [C|_]; [exfalso; assert (1 <= n / q) by (apply Nat.div_le_lower_bound; lia); lia|]. cbn [obind].
    destruct (size_bounds n q Q) as [_ SB]. rewrite (delta_spec n _ Hn SB). cbn [obind]. fold (refs_of n q).
    assert (H' : forall q, In q r -> 1 <= q <= n) by (intros x Hx; apply H; right; exact Hx).
    destruct (Z.ltb_spec (dev n (q * 2 ^ refs_of n q)) m) as [LT|GE].
    + destruct (IH q (refs_of n q) (dev n (q * 2 ^ refs_of n q)) H') as (p' & s' & m' & E & L & C & MIN). exists p', s', m'. split; [exact E|]. split; [lia|]. split.
      * right. destruct C as [(-> & -> & ->)|(C1 & C2 & C3 & C4)]; [split; [left; reflexivity|split; [reflexivity|split; [reflexivity|exact LT]]]|split; [right; exact C1|split; [exact C2|split; [exact C3|lia]]]].
      * intros x [<-|Hx]; [exact L|apply MIN, Hx].
    + destruct (IH p s m H') as (p' & s' & m' & E & L & C & MIN). exists p', s', m'. split; [exact E|]. split; [exact L|]. split.
      * destruct C as [C|(C1 & C2 & C3 & C4)]; [left; exact C|right]. split; [right; exact C1|]. auto.
      * intros x [<-|Hx]; [lia|apply MIN, Hx].
Qed.

Lemma decompose_spec : forall n max_prime, (Z.of_nat n < 2 ^ 31)%Z -> 2 <= max_prime <= n ->
  exists p s, decompose n max_prime = Some (p, s) /\ is_prime p /\ p <= max_prime /\ s = refs_of n p /\
    forall q, is_prime q -> q <= max_prime -> (dev n (p * 2 ^ s) <= dev n (q * 2 ^ refs_of n q))%Z.
Proof.
  intros n mp Hn Hm. unfold decompose.
  destruct (choose_spec n Hn (get_primes 2 mp) 0 0 (2 ^ 32 - 1)%Z) as (p & s & m & E & L & C & MIN).
  { intros q Hq. apply get_primes_spec in Hq. lia. }
  assert (P2 : In 2 (get_primes 2 mp)).
  { apply get_primes_spec. split; [lia|]. split; [lia|]. intros d [k D]. destruct d as [|[|[|d]]]; [lia|auto|auto|]. destruct k as [|k]; lia. }
  exists p, s. split; [exact E|]. destruct C as [(-> & -> & ->)|(C1 & C2 & C3 & C4)].
  - exfalso. specialize (MIN 2 P2). destruct (size_bounds n 2 ltac:(lia)) as [S1 S2]. unfold dev, refs_of in MIN.
    change (2 ^ 32 - 1)%Z with 4294967295%Z in MIN. change (2 ^ 31)%Z with 2147483648%Z in Hn. lia.
  - apply get_primes_spec in C1. split; [apply C1|]. split; [lia|]. split; [exact C2|]. intros q Hq Hqm. rewrite <- C3. apply MIN. apply get_primes_spec. split; [destruct Hq; lia|exact Hq].
Qed.

(** ** All directions *)
Lemma min_element_spec : forall l, l <> [] -> exists m, min_element l = Some m /\ In m l /\ forall x, In x l -> m <= x.
Proof.
  intros [|x l] H; [contradiction|]. cbn [min_element]. exists (fold_left Nat.min l x). split; [reflexivity|]. clear H.
  assert (G : forall l x, (fold_left Nat.min l x = x \/ In (fold_left Nat.min l x) l) /\ fold_left Nat.min l x <= x /\ forall y, In y l -> fold_left Nat.min l x <= y).
  { clear. induction l as [|y l IH]; intro x; [cbn; split; [left; reflexivity|split; [lia|intros y []]]|]. cbn [fold_left]. destruct (IH (Nat.min x y)) as (A & B & C). split; [|split].
    - destruct A as [A|A]; [|right; right; exact A]. rewrite A. destruct (Nat.min_spec x y) as [[_ ->]|[_ ->]]; [left; reflexivity|right; left; reflexivity].
    - lia.
    - intros z [<-|Hz]; [lia|apply C, Hz]. }
  destruct (G l x) as (A & B & C). split; [destruct A as [A|A]; [left; symmetry; exact A|right; exact A]|]. intros y [<-|Hy]; [exact B|apply C, Hy].
Qed.

Lemma decompose_all_spec : forall mp subs, (forall n, In n subs -> exists r, decompose n mp = Some r) ->
  exists ps, decompose_all mp subs = Some ps /\ length ps = length subs /\ forall d n, vget subs d = Some n -> exists r, vget ps d = Some r /\ decompose n mp = Some r.
Proof.
  intros mp. induction subs as [|n subs IH]; intro H.
  - exists []. split; [reflexivity|]. split; [reflexivity|]. intros [|d] n E; discriminate.
  - destruct (H n (or_introl eq_refl)) as [r Hr]. destruct IH as (ps & E & L & G); [intros m Hm; apply H; right; exact Hm|].
    exists (r :: ps). cbn [decompose_all]. rewrite Hr, E. cbn [obind]. split; [reflexivity|]. split; [cbn; rewrite L; reflexivity|].
    intros [|d] m Em; [|exact (G d m Em)]. injection Em as <-. exists r. split; [reflexivity|exact Hr].
Qed.

(** ** Rational numbers *)
Lemma ceil_unsigned_spec : forall x, (0 <= x)%Q -> exists n, ceil_unsigned x = Some n /\ (x <= inject_Z (Z.of_nat n))%Q /\ (inject_Z (Z.of_nat n) < x + 1)%Q.
Proof.
  intros x Hx. unfold ceil_unsigned. pose proof (Qle_ceiling x) as A. pose proof (Qceiling_lt x) as B.
  assert (P : (0 <= Qceiling x)%Z). { apply (Qceiling_resp_le 0 x) in Hx. exact Hx. }
  destruct (Z.ltb_spec (Qceiling x) 0); [lia|]. exists (Z.to_nat (Qceiling x)). split; [reflexivity|]. rewrite Z2Nat.id by exact P. split; [exact A|].
  assert (X : (inject_Z (Qceiling x) - 1 < x)%Q). { unfold Z.sub in B. rewrite inject_Z_plus in B. exact B. }
  apply (Qplus_lt_l _ _ 1) in X. setoid_replace (inject_Z (Qceiling x) - 1 + 1)%Q with (inject_Z (Qceiling x)) in X by ring. exact X.
Qed.

Lemma pow_inject : forall n, inject_Z (2 ^ Z.of_nat n) == inject_Z (Z.of_nat (2 ^ n)).
Proof. intro n. rewrite Nat2Z.inj_pow. reflexivity. Qed.

Lemma inj_le : forall a b, a <= b -> (inject_Z (Z.of_nat a) <= inject_Z (Z.of_nat b))%Q.
Proof. intros a b H. rewrite <- Zle_Qle. lia. Qed.

Lemma ceil_log2_spec : forall x, (1 # 2 < x)%Q -> exists k, ceil_log2 x = Some k /\ (x <= inject_Z (2 ^ Z.of_nat k))%Q /\
  (forall t, (x <= inject_Z (2 ^ Z.of_nat t))%Q -> k <= t).
Proof.
  intros x Hx. unfold ceil_log2. destruct (Qle_bool x (1 # 2)) eqn:E; [apply Qle_bool_iff in E; exfalso; exact (Qlt_not_le _ _ Hx E)|].
  exists (Nat.log2_up (Z.to_nat (Qceiling x))). split; [reflexivity|].
  assert (P : (1 <= Qceiling x)%Z). { destruct (Z.le_gt_cases 1 (Qceiling x)) as [L|L]; [exact L|]. exfalso. pose proof (Qle_ceiling x) as A.
    assert (B : (inject_Z (Qceiling x) <= 0)%Q) by (change 0%Q with (inject_Z 0); rewrite <- Zle_Qle; lia). apply (Qlt_not_le _ _ Hx). eapply Qle_trans; [exact A|]. eapply Qle_trans; [exact B|]. discriminate. }
  destruct (proj2 (log2_up_least (Z.to_nat (Qceiling x)) _ ltac:(lia)) eq_refl) as [A B]. split.
  - eapply Qle_trans; [apply Qle_ceiling|]. rewrite pow_inject. rewrite <- Zle_Qle. lia.
  - intros t Ht. apply B. apply Qceiling_resp_le in Ht. rewrite Qceiling_Z in Ht. apply Nat2Z.inj_le. rewrite Nat2Z.inj_pow, Z2Nat.id by lia. exact Ht.
Qed.

Lemma round_unsigned_spec : forall x, (0 <= x)%Q -> exists n, round_unsigned x = Some n /\ (inject_Z (Z.of_nat n) <= x + (1 # 2))%Q /\ (x - (1 # 2) < inject_Z (Z.of_nat n))%Q.
Proof.
  intros x Hx. unfold round_unsigned. destruct (Qle_bool x (- (1 # 2))) eqn:E.
  { apply Qle_bool_iff in E. exfalso. apply (Qlt_not_le (- (1 # 2)) 0); [reflexivity|]. eapply Qle_trans; eassumption. }
  assert (X : (0 <= x + (1 # 2))%Q). { setoid_replace 0%Q with (0 + 0)%Q by ring. apply Qplus_le_compat; [exact Hx|discriminate]. }
  assert (P : (0 <= Qfloor (x + (1 # 2)))%Z). { apply Qfloor_resp_le in X. exact X. }
  exists (Z.to_nat (Qfloor (x + (1 # 2)))). split; [reflexivity|]. rewrite Z2Nat.id by exact P. split; [apply Qfloor_le|].
  pose proof (Qlt_floor (x + (1 # 2))) as L. rewrite inject_Z_plus in L. apply (Qplus_lt_l _ _ 1).
  setoid_replace (x - (1 # 2) + 1)%Q with (x + (1 # 2))%Q by ring. exact L.
Qed.

Lemma map_opt_spec : forall (A B : Type) (f : A -> option B) l, (forall x, In x l -> exists y, f x = Some y) ->
  exists ys, map_opt f l = Some ys /\ length ys = length l /\ forall d x, vget l d = Some x -> exists y, vget ys d = Some y /\ f x = Some y.
Proof.
  intros A B f. induction l as [|x l IH]; intro H.
  - exists []. split; [reflexivity|]. split; [reflexivity|]. intros [|d] n E; discriminate.
  - destruct (H x (or_introl eq_refl)) as [y Hy]. destruct IH as (ys & E & L & G); [intros z Hz; apply H; right; exact Hz|].
    exists (y :: ys). cbn [map_opt]. rewrite Hy, E. cbn [obind]. split; [reflexivity|]. split; [cbn; rewrite L; reflexivity|].
    intros [|d] z Ez; [|exact (G d z Ez)]. injection Ez as <-. exists y. split; [reflexivity|exact Hy].
Qed.
