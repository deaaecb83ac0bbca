(** C26: subdivisions of the initial mesh. *)
From Coq Require Import List QArith Qround ZArith Arith Bool Lia Sorted Lqa.
From Verif Require Import Util DivisionsModel DivisionsProofs.
Import ListNotations.
Local Open Scope nat_scope.

(** ** Prime numbers *)
Theorem C26_primes : forall a b, (forall p, In p (get_primes a b) <-> a <= p <= b /\ 2 <= p /\ forall d, Nat.divide d p -> d = 1 \/ d = p) /\
  StronglySorted lt (get_primes a b).
Proof.
  intros a b. split; [|apply filter_sorted, seq_sorted]. intro p. exact (get_primes_spec a b p).
Qed.
Print Assumptions C26_primes.

Example C26_primes_example : get_primes 2 20 = [2; 3; 5; 7; 11; 13; 17; 19].
Proof. vm_compute. reflexivity. Qed.

(** ** One direction *)
(** The chosen number of coarse cells is a prime not above the limit, the refinements
    are the least number reaching [n / p], and no other prime with its refinements
    comes closer to [n]; the deviation is bounded. *)
Theorem C26_decompose : forall n max_prime, (Z.of_nat n < 2 ^ 31)%Z -> 2 <= max_prime <= n ->
  exists p s, decompose n max_prime = Some (p, s) /\
    (2 <= p <= max_prime /\ forall d, Nat.divide d p -> d = 1 \/ d = p) /\
    (n / p <= 2 ^ s /\ forall t, n / p <= 2 ^ t -> s <= t) /\
    (forall q t, 2 <= q <= max_prime -> (forall d, Nat.divide d q -> d = 1 \/ d = q) ->
       n / q <= 2 ^ t -> (forall t', n / q <= 2 ^ t' -> t <= t') ->
       (Z.abs (Z.of_nat (p * 2 ^ s) - Z.of_nat n) <= Z.abs (Z.of_nat (q * 2 ^ t) - Z.of_nat n))%Z) /\
    n < p * 2 ^ s + p /\ p * 2 ^ s < 2 * n.
Proof.
  intros n mp Hn Hm. destruct (decompose_spec n mp Hn Hm) as (p & s & E & [P1 P2] & P3 & -> & MIN). exists p, (refs_of n p).
  assert (K : forall q, 2 <= q <= mp -> 1 <= n / q) by (intros q Hq; apply Nat.div_le_lower_bound; lia).
  split; [exact E|]. split; [split; [lia|exact P2]|]. split; [apply log2_up_least; [apply K; lia|reflexivity]|]. split.
  - intros q t Hq Pq H1 H2. assert (t = refs_of n q) as -> by (apply log2_up_least; [apply K, Hq|auto]). apply MIN; [split; [lia|exact Pq]|lia].
  - apply size_bounds. lia.
Qed.
Print Assumptions C26_decompose.

Example C26_decompose_example : decompose 100 20 = Some (13, 3) /\ decompose 96 7 = Some (3, 5).
Proof. split; vm_compute; reflexivity. Qed.

(** ** All directions *)
(** Coarse cells times [2^base] are the numbers of the decompositions of the single
    directions and the number of base refinements is the largest possible. *)
Theorem C26_adjust : forall subs max_prime, subs <> [] -> 2 <= max_prime -> (forall n, In n subs -> max_prime <= n /\ (Z.of_nat n < 2 ^ 31)%Z) ->
  exists base subs', adjust max_prime subs = Some (base, subs') /\ length subs' = length subs /\
    (forall d n, vget subs d = Some n -> exists p s c, decompose n max_prime = Some (p, s) /\ vget subs' d = Some c /\ c * 2 ^ base = p * 2 ^ s /\
       n < c * 2 ^ base + max_prime /\ c * 2 ^ base < 2 * n) /\
    (exists d n p, vget subs d = Some n /\ decompose n max_prime = Some (p, base) /\ vget subs' d = Some p).
Proof.
  intros subs mp NE Hm H. unfold adjust. destruct (Nat.eqb_spec mp 0) as [C|_]; [lia|].
  destruct (decompose_all_spec mp subs) as (ps & E & L & G).
  { intros m Hn. destruct (H m Hn) as [A B]. destruct (decompose_spec m mp B ltac:(lia)) as (p & s & E & _). eauto. }
  rewrite E. cbn [obind]. destruct (min_element_spec (map snd ps)) as (base & EB & IB & MB). { destruct ps; [destruct subs; [contradiction|discriminate]|discriminate]. }
  rewrite EB. cbn [obind]. exists base, (map (fun p => fst p * 2 ^ (snd p - base)) ps). split; [reflexivity|]. split; [rewrite map_length; exact L|].
  assert (EACH : forall d n, vget subs d = Some n -> exists p s, decompose n mp = Some (p, s) /\ vget ps d = Some (p, s) /\ base <= s).
  { intros d n Hd. destruct (G d n Hd) as ([p s] & V & D). exists p, s. split; [exact D|]. split; [exact V|]. apply MB. apply in_map_iff. exists (p, s). split; [reflexivity|]. exact (nth_error_In _ _ V). }
  split.
  - intros d n Hd. destruct (EACH d n Hd) as (p & s & D & V & LE). exists p, s, (p * 2 ^ (s - base)). split; [exact D|]. split; [unfold vget in *; rewrite nth_error_map, V; reflexivity|].
    assert (X : p * 2 ^ (s - base) * 2 ^ base = p * 2 ^ s). { rewrite <- Nat.mul_assoc, <- Nat.pow_add_r. do 2 f_equal. lia. }
    split; [exact X|]. rewrite X. destruct (H n (nth_error_In _ _ Hd)) as [A B]. destruct (decompose_spec n mp B ltac:(lia)) as (p' & s' & D' & [P1 P2] & P3 & S' & _).
    rewrite D in D'. injection D' as <- <-. rewrite S'. destruct (size_bounds n p ltac:(lia)) as [U V']. unfold refs_of. split; [lia|exact V'].
  - apply in_map_iff in IB. destruct IB as ([p s] & ES & IP). cbn in ES. subst s. destruct (In_nth_error _ _ IP) as [d V].
    destruct (nth_error subs d) as [n|] eqn:Vn. 2:{ apply nth_error_None in Vn. rewrite <- L in Vn. apply nth_error_None in Vn. rewrite Vn in V. discriminate. }
    destruct (G d n Vn) as (r & Vr & D). unfold vget in Vr. rewrite V in Vr. injection Vr as <-. exists d, n, p. split; [exact Vn|]. split; [exact D|].
    unfold vget. rewrite nth_error_map, V. cbn. rewrite Nat.sub_diag. cbn. f_equal. lia.
Qed.
Print Assumptions C26_adjust.

Example C26_adjust_example : (forall n, In n [100; 60; 96] -> 7 <= n /\ (Z.of_nat n < 2 ^ 31)%Z) /\ adjust 7 [100; 60; 96] = Some (4, [7; 4; 6]).
Proof. split; [|vm_compute; reflexivity]. intros n [<-|[<-|[<-|[]]]]; cbn; lia. Qed.

Theorem C26_no_primes : forall subs, adjust 0 subs = Some (0, subs).
Proof. reflexivity. Qed.
Print Assumptions C26_no_primes.

(** The refinement strategy does not change the number of refinements in total. *)
Theorem C26_initial_refines : forall refine b i, fst (make_initial_refines refine b i) + snd (make_initial_refines refine b i) = b + i.
Proof. intros [] b i; cbn; lia. Qed.
Print Assumptions C26_initial_refines.

(** ** The size of the cells *)
Definition nQ (n : nat) : Q := inject_Z (Z.of_nat n).

Lemma nQ_mul : forall a b, (nQ (a * b) == nQ a * nQ b)%Q.
Proof. intros a b. unfold nQ. rewrite Nat2Z.inj_mul, inject_Z_mult. reflexivity. Qed.

Lemma nQ_pow_pos : forall k, (0 < nQ (2 ^ k))%Q.
Proof. intro k. unfold nQ. change 0%Q with (inject_Z 0). rewrite <- Zlt_Qlt. pose proof (Nat.pow_nonzero 2 k). lia. Qed.

(** [width / (divisions_per_interface / divisions_per_element)] *)
Definition wanted_size (width divisions : Q) (per_element : nat) : Q := width / (divisions / nQ per_element).

(** Common part: what the computation of the first subdivisions gives *)
Lemma interface_steps : forall sizes width divisions level0_max dpe, (0 < width)%Q -> (0 < divisions)%Q -> (0 < level0_max)%Q -> 1 <= dpe ->
  (level0_max < 2 * divisions)%Q -> (forall s, In s sizes -> (0 < s)%Q) ->
  exists k subs, (forall refine mp, mesh_from_interface sizes width divisions refine mp level0_max dpe =
      (a <- adjust mp subs ;; Some (mkMesh (snd a) (fst (make_initial_refines refine (fst a) k)) (snd (make_initial_refines refine (fst a) k))))) /\
    length subs = length sizes /\
    forall d s, vget sizes d = Some s -> exists n, vget subs d = Some n /\ 1 <= n /\
      (s <= nQ n * nQ (2 ^ k) * wanted_size width divisions dpe)%Q /\ ((nQ n - 1) * nQ (2 ^ k) * wanted_size width divisions dpe < s)%Q.
Proof.
  intros sizes width divisions l0 dpe W D L0 P R S.
  assert (DP : (0 < nQ dpe)%Q). { unfold nQ. change 0%Q with (inject_Z 0). rewrite <- Zlt_Qlt. lia. }
  assert (EP : (0 < divisions / nQ dpe)%Q) by (apply Qlt_shift_div_l; [exact DP|rewrite Qmult_0_l; exact D]).
  assert (MP : (0 < l0 / nQ dpe)%Q) by (apply Qlt_shift_div_l; [exact DP|rewrite Qmult_0_l; exact L0]).
  assert (HP : (0 < wanted_size width divisions dpe)%Q) by (unfold wanted_size; apply Qlt_shift_div_l; [exact EP|rewrite Qmult_0_l; exact W]).
  assert (RP : (1 # 2 < divisions / nQ dpe / (l0 / nQ dpe))%Q).
  { apply Qlt_shift_div_l; [exact MP|]. setoid_replace ((1 # 2) * (l0 / nQ dpe))%Q with (l0 / 2 / nQ dpe)%Q by (field; intro C; rewrite C in DP; discriminate).
    unfold Qdiv. apply Qmult_lt_compat_r; [apply Qinv_lt_0_compat, DP|]. fold (l0 / 2)%Q. apply Qlt_shift_div_r; [reflexivity|]. lra. }
  destruct (ceil_log2_spec _ RP) as (k & EK & _ & _).
  destruct (map_opt_spec Q nat (fun size => x <- qdiv size (wanted_size width divisions dpe) ;; ceil_unsigned (x / inject_Z (2 ^ Z.of_nat k))) sizes) as (subs & ES & LS & GS).
  { intros s Hs. rewrite qdiv_some by (intro C; rewrite C in HP; discriminate). cbn [obind].
    destruct (ceil_unsigned_spec (s / wanted_size width divisions dpe / inject_Z (2 ^ Z.of_nat k))) as (n & E & _); [|eauto].
    apply Qlt_le_weak. rewrite pow_inject. apply Qlt_shift_div_l; [apply nQ_pow_pos|]. rewrite Qmult_0_l. apply Qlt_shift_div_l; [exact HP|]. rewrite Qmult_0_l. apply S, Hs. }
  exists k, subs. split; [|split; [exact LS|]].
  - intros refine mp. unfold mesh_from_interface. change (inject_Z (Z.of_nat dpe)) with (nQ dpe).
    rewrite (qdiv_some divisions) by (intro C; rewrite C in DP; discriminate). cbn [obind].
    rewrite (qdiv_some l0) by (intro C; rewrite C in DP; discriminate). cbn [obind].
    rewrite (qdiv_some width) by (intro C; rewrite C in EP; discriminate). cbn [obind].
    rewrite (qdiv_some (divisions / nQ dpe)) by (intro C; rewrite C in MP; discriminate). cbn [obind].
    rewrite EK. cbn [obind]. unfold wanted_size in ES. rewrite ES. reflexivity.
  - intros d s Hd. destruct (GS d s Hd) as (n & Vn & En). exists n. split; [exact Vn|].
    rewrite qdiv_some in En by (intro C; rewrite C in HP; discriminate). cbn [obind] in En.
    assert (SP : (0 < s)%Q) by (apply S; exact (nth_error_In _ _ Hd)).
    assert (XP : (0 < s / wanted_size width divisions dpe / inject_Z (2 ^ Z.of_nat k))%Q).
    { rewrite pow_inject. apply Qlt_shift_div_l; [apply nQ_pow_pos|]. rewrite Qmult_0_l. apply Qlt_shift_div_l; [exact HP|]. rewrite Qmult_0_l. exact SP. }
    destruct (ceil_unsigned_spec _ (Qlt_le_weak _ _ XP)) as (n' & E & A & B). rewrite E in En. injection En as ->.
    split. { destruct n as [|n]; [|lia]. exfalso. apply (Qlt_not_le _ _ XP). exact A. }
    assert (EQ : (s == s / wanted_size width divisions dpe / inject_Z (2 ^ Z.of_nat k) * nQ (2 ^ k) * wanted_size width divisions dpe)%Q).
    { rewrite pow_inject. fold (nQ (2 ^ k)). field. pose proof (nQ_pow_pos k) as X. split; intro C; [rewrite C in HP; discriminate|rewrite C in X; discriminate]. }
    pose proof (nQ_pow_pos k) as KP. split.
    + rewrite EQ at 1. apply Qmult_le_compat_r; [|apply Qlt_le_weak, HP]. apply Qmult_le_compat_r; [exact A|apply Qlt_le_weak, KP].
    + rewrite EQ at 1. apply Qmult_lt_compat_r; [exact HP|]. apply Qmult_lt_compat_r; [exact KP|]. fold (nQ n) in B. lra.
Qed.

(** Without the decomposition into primes the cells, refined as often as planned, are
    not larger than wanted in any direction and one cell less would not suffice. *)
Theorem C26_interface_resolution : forall sizes width divisions refine level0_max dpe, (0 < width)%Q -> (0 < divisions)%Q -> (0 < level0_max)%Q -> 1 <= dpe ->
  (level0_max < 2 * divisions)%Q -> (forall s, In s sizes -> (0 < s)%Q) ->
  exists m, mesh_from_interface sizes width divisions refine 0 level0_max dpe = Some m /\ length (level0 m) = length sizes /\
    forall d s, vget sizes d = Some s -> exists n, vget (level0 m) d = Some n /\ 1 <= n /\
      (s / (nQ n * nQ (2 ^ (global_refs m + delayed_refs m))) <= wanted_size width divisions dpe)%Q /\
      ((nQ n - 1) * nQ (2 ^ (global_refs m + delayed_refs m)) * wanted_size width divisions dpe < s)%Q.
Proof.
  intros sizes width divisions refine l0 dpe W D L0 P R S.
  destruct (interface_steps sizes width divisions l0 dpe W D L0 P R S) as (k & subs & E' & L & G). pose proof (E' refine 0) as E. rewrite C26_no_primes in E. cbn [obind fst snd] in E.
  eexists. split; [exact E|]. cbn [level0 global_refs delayed_refs]. split; [exact L|]. intros d s Hd. destruct (G d s Hd) as (n & V & N1 & A & B). exists n. split; [exact V|]. split; [exact N1|].
  rewrite C26_initial_refines. cbn [Nat.add]. split; [|exact B]. apply Qle_shift_div_r; [|rewrite Qmult_comm; exact A].
  apply Qmult_lt_0_compat; [|apply nQ_pow_pos]. unfold nQ. change 0%Q with (inject_Z 0). rewrite <- Zlt_Qlt. lia.
Qed.
Print Assumptions C26_interface_resolution.

Example C26_interface_example : exists m, mesh_from_interface [100; 250]%Q 2 8 Base 0 (99 # 100) 1 = Some m /\ level0 m = [25; 63] /\ global_refs m = 0 /\ delayed_refs m = 4.
Proof. eexists. split; [vm_compute; reflexivity|]. repeat split. Qed.

(** With the decomposition the cells can be larger, by less than [max_prime] cells of
    the unrefined mesh. *)
Theorem C26_interface_primes : forall sizes width divisions refine mp level0_max dpe, (0 < width)%Q -> (0 < divisions)%Q -> (0 < level0_max)%Q -> 1 <= dpe ->
  (level0_max < 2 * divisions)%Q -> sizes <> [] -> (forall s, In s sizes -> (0 < s)%Q) -> 2 <= mp ->
  (* every direction has at least [mp] and not too many cells without the decomposition *)
  (forall m n, mesh_from_interface sizes width divisions refine 0 level0_max dpe = Some m -> In n (level0 m) -> mp <= n /\ (Z.of_nat n < 2 ^ 31)%Z) ->
  exists m k base, mesh_from_interface sizes width divisions refine mp level0_max dpe = Some m /\ global_refs m + delayed_refs m = base + k /\
    forall d s, vget sizes d = Some s -> exists n, vget (level0 m) d = Some n /\
      (s < (nQ n * nQ (2 ^ base) + nQ mp) * nQ (2 ^ k) * wanted_size width divisions dpe)%Q.
Proof.
  intros sizes width divisions refine mp l0 dpe W D L0 P R NE S Hm H.
  destruct (interface_steps sizes width divisions l0 dpe W D L0 P R S) as (k & subs & E' & L & G).
  assert (B : forall n, In n subs -> mp <= n /\ (Z.of_nat n < 2 ^ 31)%Z) by (intros n Hn; exact (H _ n (E' refine 0) Hn)).
  destruct (C26_adjust subs mp) as (base & subs' & EA & LA & GA & _); [destruct subs; [destruct sizes; [contradiction|discriminate]|discriminate]|exact Hm|exact B|].
  pose proof (E' refine mp) as E. rewrite EA in E. cbn [obind fst snd] in E. eexists. exists k, base. split; [exact E|]. cbn [level0 global_refs delayed_refs]. split; [apply C26_initial_refines|].
  intros d s Hd. destruct (G d s Hd) as (n & V & N1 & A & _). destruct (GA d n V) as (p & q & c & _ & Vc & _ & LT & _). exists c. split; [exact Vc|].
  assert (HP : (0 < wanted_size width divisions dpe)%Q).
  { unfold wanted_size. apply Qlt_shift_div_l; [|rewrite Qmult_0_l; exact W]. apply Qlt_shift_div_l; [|rewrite Qmult_0_l; exact D]. unfold nQ. change 0%Q with (inject_Z 0). rewrite <- Zlt_Qlt. lia. }
  eapply Qle_lt_trans; [exact A|]. apply Qmult_lt_compat_r; [exact HP|]. apply Qmult_lt_compat_r; [apply nQ_pow_pos|].
  rewrite <- nQ_mul. unfold nQ. rewrite <- inject_Z_plus, <- Zlt_Qlt. lia.
Qed.
Print Assumptions C26_interface_primes.

Example C26_interface_primes_example : exists m m', mesh_from_interface [100; 250]%Q 2 8 Base 0 (99 # 100) 1 = Some m /\
  (forall n, In n (level0 m) -> 7 <= n /\ (Z.of_nat n < 2 ^ 31)%Z) /\ mesh_from_interface [100; 250]%Q 2 8 Base 7 (99 # 100) 1 = Some m' /\ m' = mkMesh [3; 8] 3 4.
Proof. do 2 eexists. split; [vm_compute; reflexivity|]. split; [|split; [vm_compute; reflexivity|reflexivity]]. cbn [level0]. intros n [<-|[<-|[]]]; cbn; lia. Qed.

(** ** The mesh derived from the radius of the particles *)
(** Rounding makes the cells larger than wanted by at most one half. *)
Theorem C26_radius_resolution : forall sizes width divisions r refine dpe, (0 < width)%Q -> (0 < divisions)%Q -> (0 < r)%Q -> 1 <= dpe ->
  (wanted_size width divisions dpe < 4 * r)%Q -> (forall s, In s sizes -> (r <= s)%Q) ->
  exists m, mesh_from_radius sizes width divisions r refine 0 dpe = Some m /\ length (level0 m) = length sizes /\
    forall d s, vget sizes d = Some s -> exists n, vget (level0 m) d = Some n /\ 1 <= n /\
      (s / (nQ n * nQ (2 ^ (global_refs m + delayed_refs m))) <= (3 # 2) * wanted_size width divisions dpe)%Q.
Proof.
  intros sizes width divisions r refine dpe W D RP P R S.
  assert (DP : (0 < nQ dpe)%Q). { unfold nQ. change 0%Q with (inject_Z 0). rewrite <- Zlt_Qlt. lia. }
  assert (EP : (0 < divisions / nQ dpe)%Q) by (apply Qlt_shift_div_l; [exact DP|rewrite Qmult_0_l; exact D]).
  assert (HP : (0 < wanted_size width divisions dpe)%Q) by (unfold wanted_size; apply Qlt_shift_div_l; [exact EP|rewrite Qmult_0_l; exact W]).
  assert (R2 : (0 < 2 * r)%Q) by lra.
  assert (RA : (1 # 2 < 2 * r / wanted_size width divisions dpe)%Q) by (apply Qlt_shift_div_l; [exact HP|lra]).
  destruct (ceil_log2_spec _ RA) as (k & EK & KU & _).
  assert (GE : forall s, In s sizes -> (1 # 2 <= s / (2 * r))%Q) by (intros s Hs; apply Qle_shift_div_l; [exact R2|specialize (S s Hs); lra]).
  destruct (map_opt_spec Q nat (fun size => x <- qdiv size (2 * r) ;; round_unsigned x) sizes) as (subs & ES & LS & GS).
  { intros s Hs. rewrite qdiv_some by (intro C; rewrite C in R2; discriminate). cbn [obind].
    destruct (round_unsigned_spec (s / (2 * r))) as (n & E & _); [|eauto]. specialize (GE s Hs). lra. }
  exists (mkMesh subs (fst (make_initial_refines refine 0 k)) (snd (make_initial_refines refine 0 k))). cbn [level0 global_refs delayed_refs]. split; [|split; [exact LS|]].
  - unfold mesh_from_radius. change (inject_Z (Z.of_nat dpe)) with (nQ dpe).
    rewrite (qdiv_some divisions) by (intro C; rewrite C in DP; discriminate). cbn [obind].
    rewrite (qdiv_some width) by (intro C; rewrite C in EP; discriminate). cbn [obind]. fold (wanted_size width divisions dpe).
    rewrite (qdiv_some (2 * r)) by (intro C; rewrite C in HP; discriminate). cbn [obind].
    rewrite EK. cbn [obind]. rewrite ES. reflexivity.
  - intros d s Hd. destruct (GS d s Hd) as (n & Vn & En). exists n. split; [exact Vn|].
    assert (IS : In s sizes) by exact (nth_error_In _ _ Hd). specialize (GE s IS).
    rewrite qdiv_some in En by (intro C; rewrite C in R2; discriminate). cbn [obind] in En.
    unfold round_unsigned in En. destruct (Qle_bool (s / (2 * r)) (- (1 # 2))) eqn:EB; [discriminate|]. assert (EN : Z.to_nat (Qfloor (s / (2 * r) + (1 # 2))) = n) by congruence. clear En. rename EN into En.
    assert (FL : (1 <= Qfloor (s / (2 * r) + (1 # 2)))%Z). { assert (X : (inject_Z 1 <= s / (2 * r) + (1 # 2))%Q) by (change (inject_Z 1) with 1%Q; lra). apply Qfloor_resp_le in X. rewrite Qfloor_Z in X. exact X. }
    assert (N1 : 1 <= n) by (rewrite <- En; apply (Nat2Z.inj_le 1); rewrite Z2Nat.id by (eapply Z.le_trans; [|exact FL]; discriminate); exact FL). split; [exact N1|].
    assert (B : (s / (2 * r) - (1 # 2) < nQ n)%Q).
    { unfold nQ. rewrite <- En, Z2Nat.id by lia. pose proof (Qlt_floor (s / (2 * r) + (1 # 2))) as L. rewrite inject_Z_plus in L. change (inject_Z 1) with 1%Q in L. lra. }
    rewrite C26_initial_refines. cbn [Nat.add].
    assert (NP : (1 <= nQ n)%Q) by (change 1%Q with (nQ 1); apply inj_le, N1). pose proof (nQ_pow_pos k) as KP.
    apply Qle_shift_div_r; [apply Qmult_lt_0_compat; [lra|exact KP]|].
    assert (X : (s <= (3 # 2) * nQ n * (2 * r))%Q).
    { setoid_replace s with (s / (2 * r) * (2 * r))%Q at 1 by (field; lra). apply Qmult_le_compat_r; lra. }
    assert (Y : (2 * r <= nQ (2 ^ k) * wanted_size width divisions dpe)%Q).
    { setoid_replace (2 * r)%Q with (2 * r / wanted_size width divisions dpe * wanted_size width divisions dpe)%Q by (field; intro C; rewrite C in HP; discriminate).
      apply Qmult_le_compat_r; [rewrite pow_inject in KU; exact KU|apply Qlt_le_weak, HP]. }
    eapply Qle_trans; [exact X|]. setoid_replace ((3 # 2) * wanted_size width divisions dpe * (nQ n * nQ (2 ^ k)))%Q with ((3 # 2) * nQ n * (nQ (2 ^ k) * wanted_size width divisions dpe))%Q by ring.
    apply (Qmult_le_l _ _ ((3 # 2) * nQ n)); [lra|exact Y].
Qed.
Print Assumptions C26_radius_resolution.

Example C26_radius_example : mesh_from_radius [100; 250]%Q 2 8 10 Full 0 1 = Some (mkMesh [5; 13] 7 0).
Proof. vm_compute. reflexivity. Qed.

(** ** Where the claim fails *)
(** For a given prime the number of refinements is not the one closest to the request. *)
Theorem C26_not_closest_refuted : ~ forall n max_prime p s, (Z.of_nat n < 2 ^ 31)%Z -> 2 <= max_prime <= n -> decompose n max_prime = Some (p, s) ->
  forall q t, 2 <= q <= max_prime -> (forall d, Nat.divide d q -> d = 1 \/ d = q) ->
    (Z.abs (Z.of_nat (p * 2 ^ s) - Z.of_nat n) <= Z.abs (Z.of_nat (q * 2 ^ t) - Z.of_nat n))%Z.
Proof.
  intro H. assert (X : (Z.abs (Z.of_nat (2 * 2 ^ 3) - 11) <= Z.abs (Z.of_nat (2 * 2 ^ 2) - 11))%Z); [|vm_compute in X; apply X; reflexivity].
  apply (H 11 2 2 3); [reflexivity|lia|vm_compute; reflexivity|lia|]. intros d [k E]. destruct d as [|[|[|d]]]; [lia|auto|auto|]. destruct k as [|k]; lia.
Qed.
Print Assumptions C26_not_closest_refuted.

(** The mesh can be coarser than requested: five elements become four. *)
Theorem C26_coarser_refuted : ~ forall n max_prime p s, 2 <= max_prime <= n -> decompose n max_prime = Some (p, s) -> n <= p * 2 ^ s.
Proof. intro H. specialize (H 5 2 2 1 ltac:(lia) eq_refl). cbn in H. lia. Qed.
Print Assumptions C26_coarser_refuted.

(** Fewer elements than the largest prime (the default limit is 20): the logarithm of
    zero is converted to an integer. *)
Theorem C26_small_domain_refuted : ~ forall n max_prime, 1 <= n -> 2 <= max_prime -> exists r, decompose n max_prime = Some r.
Proof. intro H. destruct (H 10 20 ltac:(lia) ltac:(lia)) as [r E]. vm_compute in E. discriminate. Qed.
Print Assumptions C26_small_domain_refuted.

(** There is no prime up to one: all subdivisions become zero. *)
Theorem C26_limit_one_refuted : ~ forall subs base subs', subs <> [] -> (forall n, In n subs -> 1 <= n) -> adjust 1 subs = Some (base, subs') -> forall n, In n subs' -> 1 <= n.
Proof. intro H. specialize (H [8; 8] 0 [0; 0] ltac:(discriminate)). specialize (H ltac:(intros n [<-|[<-|[]]]; lia) eq_refl 0 (or_introl eq_refl)). lia. Qed.
Print Assumptions C26_limit_one_refuted.
