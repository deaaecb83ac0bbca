(** Property C116: with an assembled matrix the coupled operator treats the displacement
    entries of supported nodes and of nodes without material like constrained entries. *)
From Coq Require Import List Arith Lia ZArith.
From Verif Require Import Util VmultModel VmultProofs VmultProps CoupledMatrixModel.
Import ListNotations.

Lemma flat_zc_ops_map : forall n off dim zc, flat_zc_ops n off dim zc = map (fun p => (n * snd (fst p) + fst (fst p), snd p)) (zc_ops off dim zc).
Proof.
  intros n off dim zc. unfold flat_zc_ops, zc_ops. rewrite map_flat_map. apply flat_map_ext. intros ic. rewrite map_map. apply map_ext. intros d. cbn [fst snd]. f_equal. lia.
Qed.
Lemma flat_displ_map : forall n off displ, flat_displ n off displ = map (fun p => n * snd p + fst p) (displ_addresses off displ).
Proof.
  intros n off displ. unfold flat_displ, displ_addresses. rewrite map_flat_map. apply flat_map_ext. intros dl. rewrite map_map. apply map_ext. intros j. cbn [fst snd]. lia.
Qed.
Lemma index_unique : forall n b j b' j', b < n -> b' < n -> n * j + b = n * j' + b' -> b = b' /\ j = j'.
Proof. intros n b j b' j' H H' E. destruct (slot_unique n j j' b b' H H') as [-> ->]; [nia |]. tauto. Qed.

Section Flat.
Variables (A : Type) (zero : A) (n m off dim : nat) (zc : list nat) (displ : list (list nat)).
Hypothesis Ho : off + dim <= n.
Hypothesis Nz : NoDup zc.
Hypothesis Hz : forall j, In j zc -> j < m.
Hypothesis Ld : length displ <= dim.
Hypothesis Hl : forall l, In l displ -> NoDup l /\ forall j, In j l -> j < m.

Lemma in_flat_zc : forall b j, b < n -> (In (n * j + b) (map fst (flat_zc_ops n off dim zc)) <-> in_zc off dim zc b j).
Proof.
  intros b j Hb. rewrite flat_zc_ops_map, map_map. cbn [fst snd]. unfold in_zc. rewrite <- in_zc_addresses. rewrite !in_map_iff. split.
  - intros [[[b' j'] s] [E I]]. cbn [fst snd] in E. assert (B := in_map fst _ _ I). cbn [fst] in B. apply in_zc_addresses in B.
    destruct (index_unique n b' j' b j) as [-> ->]; [lia | exact Hb | exact E |]. exists ((b, j), s). split; [reflexivity | exact I].
  - intros [[[b' j'] s] [E I]]. cbn [fst] in E. injection E as -> ->. exists ((b, j), s). split; [reflexivity | exact I].
Qed.
Lemma support_lt : forall b j, in_support off displ b j -> b < n /\ j < m.
Proof. intros b j [H [l [E I]]]. assert (b - off < length displ) by (apply vget_lt; exists l; exact E). apply nth_error_In in E. split; [lia | apply (Hl l E); exact I]. Qed.
Lemma in_flat_displ : forall b j, b < n -> (In (n * j + b) (flat_displ n off displ) <-> in_support off displ b j).
Proof.
  intros b j Hb. rewrite flat_displ_map, in_map_iff. split.
  - intros [[b' j'] [E I]]. cbn [fst snd] in E. apply in_displ in I. fold (in_support off displ b' j') in I. assert (V := support_lt _ _ I).
    destruct (index_unique n b' j' b j) as [-> ->]; [lia | exact Hb | exact E | exact I].
  - intros I. exists (b, j). split; [reflexivity |]. apply in_displ. exact I.
Qed.
Lemma flat_zc_nodup : NoDup (map fst (flat_zc_ops n off dim zc)) /\ NoDup (map snd (flat_zc_ops n off dim zc)).
Proof.
  destruct (zc_ops_nodup off dim zc Nz) as [Z1 Z2]. rewrite flat_zc_ops_map, !map_map. cbn [fst snd]. split; [| exact Z2].
  rewrite <- (map_map fst (fun p => n * snd p + fst p)). apply nodup_map; [exact Z1 |]. intros [b j] [b' j'] I I' E. cbn [fst snd] in E.
  apply in_zc_addresses in I. apply in_zc_addresses in I'. destruct (index_unique n b j b' j') as [-> ->]; [lia | lia | exact E | reflexivity].
Qed.
Lemma index_lt : forall b j, b < n -> j < m -> n * j + b < m * n.
Proof. intros. nia. Qed.

Lemma zero_spec : forall xs (v : list A), (forall x, In x xs -> x < length v) ->
  exists v', zero_loop zero xs v = Some v' /\ length v' = length v /\ (forall x, In x xs -> vget v' x = Some zero) /\ (forall x, ~ In x xs -> vget v' x = vget v x).
Proof.
  induction xs as [| x xs IH]; intros v H; cbn [zero_loop].
  - exists v. split; [reflexivity |]. split; [reflexivity |]. split; [contradiction | reflexivity].
  - destruct (vset_some A v x zero (H x (or_introl eq_refl))) as [w [E [L G]]]. rewrite E. cbn [obind].
    destruct (IH w) as [v' [E' [L' [Z U]]]]; [intros y I; rewrite L; apply H; right; exact I |]. exists v'. split; [exact E' |]. split; [congruence |]. split.
    + intros y [<- | I]; [| apply Z; exact I]. destruct (in_dec_nat x xs) as [I | I]; [apply Z; exact I |]. rewrite U by exact I. rewrite G, Nat.eqb_refl. reflexivity.
    + intros y I. rewrite U by (intros J; apply I; right; exact J). rewrite G. destruct (Nat.eqb_spec x y) as [-> | _]; [exfalso; apply I; left; reflexivity | reflexivity].
Qed.
Lemma flat_dst_spec : forall ops (buf dst : list A), NoDup (map fst ops) ->
  (forall x s, In (x, s) ops -> s < length buf /\ x < length dst) ->
  exists dst', flat_dst_loop ops buf dst = Some dst' /\ length dst' = length dst
    /\ (forall x s, In (x, s) ops -> vget dst' x = vget buf s) /\ (forall x, ~ In x (map fst ops) -> vget dst' x = vget dst x).
Proof.
  induction ops as [| [x s] ops IH]; intros buf dst N1 H; cbn [flat_dst_loop].
  - exists dst. split; [reflexivity |]. split; [reflexivity |]. split; [contradiction | reflexivity].
  - cbn [map fst] in N1. apply NoDup_cons_iff in N1. destruct N1 as [N0 N1]. destruct (H x s (or_introl eq_refl)) as [Hs Hx].
    destruct (proj1 (vget_lt A buf s) Hs) as [v Ev]. rewrite Ev. cbn [obind]. destruct (vset_some A dst x v Hx) as [d1 [E [L G]]]. rewrite E. cbn [obind].
    destruct (IH buf d1 N1) as [d2 [E2 [L2 [R U]]]]; [intros y t I; rewrite L; apply H; right; exact I |].
    exists d2. split; [exact E2 |]. split; [congruence |]. split.
    + intros y t [J | J]; [| apply R; exact J]. injection J as <- <-. rewrite U by exact N0. rewrite G, Nat.eqb_refl. symmetry. exact Ev.
    + intros y Hy. cbn [map fst] in Hy. rewrite U by (intros J; apply Hy; right; exact J). rewrite G. destruct (Nat.eqb_spec x y) as [-> | _]; [exfalso; apply Hy; left; reflexivity | reflexivity].
Qed.

Lemma flat_spec : forall (F : list A -> list A) src zbuf, length src = m * n -> (forall x, length x = m * n -> length (F x) = m * n) ->
  exists dst src0 zbuf', vmult_coupled_flat zero n off dim zc displ F src zbuf = Some (dst, src0, zbuf')
    /\ length dst = m * n /\ length src0 = m * n /\ length zbuf' = length zc * dim
    /\ (forall b j s, In ((b, j), s) (zc_ops off dim zc) -> vget zbuf' s = vget src (n * j + b))
    /\ forall b j, b < n -> j < m ->
      (in_support off displ b j -> vget dst (n * j + b) = Some zero /\ vget src0 (n * j + b) = Some zero)
      /\ (in_zc off dim zc b j -> ~ in_support off displ b j -> vget dst (n * j + b) = vget src (n * j + b) /\ vget src0 (n * j + b) = Some zero)
      /\ (~ in_zc off dim zc b j -> ~ in_support off displ b j -> vget dst (n * j + b) = vget (F src0) (n * j + b) /\ vget src0 (n * j + b) = vget src (n * j + b)).
Proof.
  intros F src zbuf Ls HF. destruct flat_zc_nodup as [Z1 Z2].
  assert (Vz : forall x s, In (x, s) (flat_zc_ops n off dim zc) -> x < m * n /\ s < length zc * dim).
  { intros x s I. rewrite flat_zc_ops_map in I. apply in_map_iff in I. destruct I as [[[b j] t] [E I]]. cbn [fst snd] in E. injection E as <- <-.
    apply in_zc_ops in I. destruct I as [i [d [Ei [Hd [-> ->]]]]]. assert (i < length zc) by (apply vget_lt; eauto). apply nth_error_In in Ei.
    split; [apply index_lt; [lia | apply Hz; exact Ei] | nia]. }
  assert (Vd : forall x, In x (flat_displ n off displ) -> x < m * n).
  { intros x I. rewrite flat_displ_map in I. apply in_map_iff in I. destruct I as [[b j] [<- I]]. apply in_displ in I. destruct (support_lt b j I). cbn [fst snd]. apply index_lt; assumption. }
  unfold vmult_coupled_flat, pre_flat, post_flat.
  destruct (save_spec zero vget vset (@length A) vset_spec (flat_zc_ops n off dim zc) src (resize zero (length zc * dim) zbuf) Z1 Z2) as [s1 [b1 [E1 [S1 [L1 [ZZ [UZ [BZ _]]]]]]]].
  { intros x s I. destruct (Vz x s I). split; [apply vget_lt; lia | rewrite resize_length; assumption]. }
  rewrite E1. cbn [obind]. rewrite resize_length in L1.
  destruct (zero_spec (flat_displ n off displ) s1) as [s2 [E2 [S2 [ZD UD]]]]; [intros x I; rewrite S1, Ls; apply Vd; exact I |]. rewrite E2. cbn [obind].
  assert (L2 : length s2 = m * n) by congruence. assert (LF := HF s2 L2).
  destruct (flat_dst_spec (flat_zc_ops n off dim zc) b1 (F s2) Z1) as [d1 [E3 [L3 [RZ UZ2]]]]; [intros x s I; rewrite L1, LF; destruct (Vz x s I); tauto |]. rewrite E3. cbn [obind].
  destruct (zero_spec (flat_displ n off displ) d1) as [d2 [E4 [L4 [ZD2 UD2]]]]; [intros x I; rewrite L3, LF; apply Vd; exact I |]. rewrite E4. cbn [obind].
  exists d2, s2, b1. split; [reflexivity |]. split; [congruence |]. split; [exact L2 |]. split; [exact L1 |]. split.
  - intros b j s I. apply BZ. rewrite flat_zc_ops_map. apply in_map_iff. exists ((b, j), s). split; [reflexivity | exact I].
  - intros b j Hb Hj. rewrite <- (in_flat_zc b j Hb), <- (in_flat_displ b j Hb). split; [| split].
    + intros I. split; [apply ZD2; exact I | apply ZD; exact I].
    + intros I J. rewrite UD2, UD by exact J. split; [| apply ZZ; exact I]. apply in_map_iff in I. destruct I as [[x s] [Ex I]]. cbn [fst] in Ex. subst x.
      rewrite (RZ _ _ I). apply BZ. exact I.
    + intros I J. rewrite UD2, UD by exact J. rewrite UZ2, UZ by exact I. tauto.
Qed.
End Flat.

(** ** Plain vectors: the product exists for all matrices, numbers of components and lists of
    nodes; the matrix sees zeros in the displacement entries of both kinds of nodes; the
    destination has the entries of the source at the nodes without material and zero at the
    supported nodes.  The source comes back with the zeros. *)
Theorem C116_flat : forall A (zero : A) n m off dim zc displ (matrix : list A -> list A) src zbuf,
  length src = m * n -> (forall x, length x = m * n -> length (matrix x) = m * n) ->
  off + dim <= n -> NoDup zc -> (forall j, In j zc -> j < m) ->
  length displ <= dim -> (forall l, In l displ -> NoDup l /\ forall j, In j l -> j < m) ->
  exists dst src' zbuf', vmult_coupled_flat zero n off dim zc displ matrix src zbuf = Some (dst, src', zbuf')
    /\ length dst = m * n /\ length src' = m * n
    /\ forall b j, b < n -> j < m ->
      (in_support off displ b j -> nth_error dst (j * n + b) = Some zero /\ nth_error src' (j * n + b) = Some zero)
      /\ (in_zc off dim zc b j -> ~ in_support off displ b j -> nth_error dst (j * n + b) = nth_error src (j * n + b) /\ nth_error src' (j * n + b) = Some zero)
      /\ (~ in_zc off dim zc b j -> ~ in_support off displ b j ->
          nth_error dst (j * n + b) = nth_error (matrix src') (j * n + b) /\ nth_error src' (j * n + b) = nth_error src (j * n + b)).
Proof.
  intros A zero n m off dim zc displ F src zbuf Ls HF Ho Nz Hz Ld Hl.
  destruct (flat_spec A zero n m off dim zc displ Ho Nz Hz Ld Hl F src zbuf Ls HF) as [dst [src0 [zb [E [L1 [L2 [_ [_ H]]]]]]]].
  exists dst, src0, zb. split; [exact E |]. split; [exact L1 |]. split; [exact L2 |]. intros b j Hb Hj. rewrite (Nat.mul_comm j n). apply H; assumption.
Qed.
Print Assumptions C116_flat.

Example C116_flat_applies :
  vmult_coupled_flat 0%Z 3 1 2 [1] [[0]; []] (map (fun x => (x + 100)%Z)) [1; 2; 3; 4; 5; 6]%Z []
  = Some ([101; 0; 103; 104; 5; 6], [1; 0; 3; 4; 0; 0], [5; 6])%Z.
Proof. reflexivity. Qed.

(** ** Block vectors: the inner product with the plain vectors saves the zeros over the values
    saved by the outer hooks.  The supported nodes are treated like constrained ones, the nodes
    without material get zero, not the entry of the source. *)
Theorem C116_block : forall A (zero : A) n m off dim zc displ (matrix : list A -> list A) src dst zbuf,
  0 < n -> blocks n m src -> blocks n m dst -> (forall x, length x = m * n -> length (matrix x) = m * n) ->
  off + dim <= n -> NoDup zc -> (forall j, In j zc -> j < m) ->
  length displ <= dim -> (forall l, In l displ -> NoDup l /\ forall j, In j l -> j < m) ->
  exists res src' zbuf' x, vmult_coupled_matrix zero n off dim zc displ (m * n) matrix src dst zbuf = Some (res, src', zbuf')
    /\ blocks n m res /\ blocks n m src' /\ length x = m * n
    /\ forall b j, b < n -> j < m ->
      (in_zc off dim zc b j -> entry res b j = Some zero /\ entry src' b j = Some zero)
      /\ (~ in_zc off dim zc b j -> entry src' b j = entry src b j)
      /\ (~ in_zc off dim zc b j -> in_support off displ b j -> entry res b j = entry src b j)
      /\ (~ in_zc off dim zc b j -> ~ in_support off displ b j -> entry res b j = nth_error (matrix x) (j * n + b))
      /\ (in_zc off dim zc b j \/ in_support off displ b j -> nth_error x (j * n + b) = Some zero)
      /\ (~ in_zc off dim zc b j -> ~ in_support off displ b j -> nth_error x (j * n + b) = entry src b j).
Proof.
  intros A zero n m off dim zc displ F src dst zbuf Hn Hs Hd HF Ho Nz Hz Ld Hl.
  assert (Ss : shape src = repeat m n) by (apply blocks_shape; exact Hs).
  destruct (zc_ops_nodup off dim zc Nz) as [Z1 Z2].
  assert (Nda : NoDup (displ_addresses off displ)) by (apply displ_nodup; intros l I; apply (Hl l I)).
  assert (Df : map fst (displ_ops off displ) = displ_addresses off displ) by apply map_fst_combine_seq.
  assert (Ds : map snd (displ_ops off displ) = seq 0 (length (displ_addresses off displ))) by apply map_snd_combine_seq.
  assert (Vz : forall b j, In (b, j) (map fst (zc_ops off dim zc)) -> b < n /\ j < m).
  { intros b j I. apply in_zc_addresses in I. destruct I as [H I]. split; [lia | apply Hz; exact I]. }
  assert (Vd : forall b j, In (b, j) (map fst (displ_ops off displ)) -> b < n /\ j < m).
  { intros b j I. rewrite Df in I. apply in_displ in I. apply (support_lt n m off dim displ Ho Ld Hl b j). exact I. }
  unfold vmult_coupled_matrix.
  destruct (save_spec zero bget bset shape bset_spec (zc_ops off dim zc) src (resize zero (length zc * dim) zbuf) Z1 Z2) as [s1 [zb1 [E1 [S1 [L1 [ZZ [UZ _]]]]]]].
  { intros [b j] s I. split; [apply (rect_valid A src n m b j Ss); apply Vz; apply (in_map fst) in I; exact I |].
    rewrite resize_length. apply in_zc_ops in I. destruct I as [i [d [Ei [Hdd [_ ->]]]]]. assert (i < length zc) by (apply vget_lt; eauto). nia. }
  rewrite E1. cbn [obind]. assert (S1' : shape s1 = repeat m n) by congruence.
  destruct (save_spec zero bget bset shape bset_spec (displ_ops off displ) s1 (repeat zero (length (displ_addresses off displ)))) as [s2 [dbuf [E2 [S2 [L2 [ZD [UD [BD _]]]]]]]].
  { rewrite Df. exact Nda. }
  { rewrite Ds. apply seq_NoDup. }
  { intros [b j] s I. split; [apply (rect_valid A s1 n m b j S1'); apply Vd; apply (in_map fst) in I; exact I |].
    rewrite repeat_length. apply (in_map snd) in I. rewrite Ds in I. apply in_seq in I. cbn [snd] in I. lia. }
  rewrite E2. cbn [obind]. assert (S2' : shape s2 = repeat m n) by congruence.
  assert (B2 : blocks n m s2) by (apply blocks_shape; exact S2').
  destruct (C64_layout A n m s2 dst (repeat zero (m * n)) (repeat zero (m * n)) Hn B2 Hd) as [[x [Ex [Lx [Gx _]]]] _]; [apply repeat_length | apply repeat_length |].
  rewrite Ex. cbn [obind].
  destruct (flat_spec A zero n m off dim zc displ Ho Nz Hz Ld Hl F x zb1 Lx HF) as [d3 [x0 [zb2 [E3 [L3 [L0 [Lz [BZ HX]]]]]]]]. rewrite E3. cbn [obind].
  destruct (C64_layout A n m s2 dst d3 d3 Hn B2 Hd L3 L3) as [_ [u [Eu [Bu [Gu _]]]]]. rewrite Eu. cbn [obind].
  assert (Su : shape u = repeat m n) by (apply blocks_shape; exact Bu).
  destruct (restore_spec bget bset shape bset_spec (displ_ops off displ) dbuf s2 u) as [s4 [d4 [E4 [S4 [S5 [RD VD]]]]]].
  { rewrite Df. exact Nda. }
  { intros [b j] s I. rewrite (BD _ _ I). apply (in_map fst) in I. cbn [fst] in I. apply Vd in I.
    split; [| split]; [apply (rect_valid A s1 n m b j S1') | apply (rect_valid A s2 n m b j S2') | apply (rect_valid A u n m b j Su)]; exact I. }
  rewrite E4. cbn [obind].
  destruct (dst_spec A (zc_ops off dim zc) zb2 d4 Z1) as [d5 [E5 [S6 [RZ VZ]]]].
  { intros [b j] s I. split.
    - apply vget_lt. rewrite Lz. apply in_zc_ops in I. destruct I as [i [d [Ei [Hdd [_ ->]]]]]. assert (i < length zc) by (apply vget_lt; eauto). nia.
    - apply (in_map fst) in I. apply Vz in I. apply (rect_valid A d4 n m b j); [congruence | exact I]. }
  rewrite E5. cbn [obind].
  assert (Pz : forall b j, in_zc off dim zc b j <-> In (b, j) (map fst (zc_ops off dim zc))) by (intros; rewrite in_zc_addresses; reflexivity).
  assert (Pd : forall b j, in_support off displ b j <-> In (b, j) (map fst (displ_ops off displ))) by (intros; rewrite Df, in_displ; reflexivity).
  assert (Dd : forall b j, in_support off displ b j \/ ~ in_support off displ b j) by (intros b j; rewrite Pd; destruct (in_dec (fun x y : nat * nat => ltac:(decide equality; apply Nat.eq_dec)) (b, j) (map fst (displ_ops off displ))); tauto).
  assert (S2z : forall b j, in_zc off dim zc b j \/ in_support off displ b j -> bget s2 (b, j) = Some zero).
  { intros b j H. destruct (Dd b j) as [I | I]; [apply ZD; apply Pd; exact I |]. rewrite UD by (rewrite <- Pd; exact I). destruct H as [H | H]; [| contradiction]. apply ZZ. apply Pz. exact H. }
  assert (S2n : forall b j, ~ in_zc off dim zc b j -> ~ in_support off displ b j -> bget s2 (b, j) = bget src (b, j)).
  { intros b j H1 H2. rewrite UD by (rewrite <- Pd; exact H2). apply UZ. rewrite <- Pz. exact H1. }
  (* the hooks of the plain vectors leave the merged source as it is *)
  assert (X0 : x0 = x).
  { apply list_ext. intros i. destruct (Nat.lt_ge_cases i (m * n)) as [Hi | Hi].
    - assert (D := Nat.div_mod i n ltac:(lia)). assert (M := Nat.mod_upper_bound i n ltac:(lia)). assert (Q : i / n < m) by (apply Nat.div_lt_upper_bound; lia).
      rewrite D. set (j := i / n) in *. set (b := i mod n) in *. destruct (HX b j M Q) as [H1 [H2 H3]].
      assert (Gb : vget x (n * j + b) = bget s2 (b, j)) by (rewrite (Nat.mul_comm n j); apply (Gx b j M Q)).
      destruct (Dd b j) as [I | I]; [rewrite (proj2 (H1 I)), Gb; symmetry; apply S2z; tauto |].
      assert (Dz : in_zc off dim zc b j \/ ~ in_zc off dim zc b j) by (rewrite Pz; destruct (in_dec (fun x y : nat * nat => ltac:(decide equality; apply Nat.eq_dec)) (b, j) (map fst (zc_ops off dim zc))); tauto).
      destruct Dz as [J | J]; [rewrite (proj2 (H2 J I)), Gb; symmetry; apply S2z; tauto |]. apply (H3 J I).
    - unfold vget. rewrite (proj2 (nth_error_None x0 i)), (proj2 (nth_error_None x i)) by lia. reflexivity. }
  subst x0. exists d5, s4, zb2, x. split; [reflexivity |]. split; [apply blocks_shape; congruence |]. split; [apply blocks_shape; congruence |]. split; [exact Lx |].
  intros b j Hb Hj. rewrite !entry_bget. destruct (HX b j Hb Hj) as [H1 [H2 H3]].
  assert (Src : bget s4 (b, j) = bget s1 (b, j)).
  { destruct (Dd b j) as [I | I].
    - apply Pd in I. apply in_map_iff in I. destruct I as [[y s] [Ey I]]. cbn [fst] in Ey. subst y. destruct (RD _ _ I) as [-> _]. apply (BD _ _ I).
    - rewrite Pd in I. destruct (VD _ I) as [-> _]. apply UD. exact I. }
  assert (Gxx : nth_error x (j * n + b) = bget s2 (b, j)) by (apply Gx; assumption). rewrite Gxx.
  split; [| split; [| split; [| split; [| split]]]].
  - intros I. split; [| rewrite Src; apply ZZ; apply Pz; exact I]. assert (J := proj1 (Pz b j) I). apply in_map_iff in J. destruct J as [[y s] [Ey J]]. cbn [fst] in Ey. subst y.
    rewrite (RZ _ _ J), (BZ _ _ _ J). unfold vget. rewrite (Nat.mul_comm n j), Gxx. apply S2z. left. exact I.
  - intros I. rewrite Src. apply UZ. rewrite <- Pz. exact I.
  - intros I J. rewrite VZ by (rewrite <- Pz; exact I). apply Pd in J. apply in_map_iff in J. destruct J as [[y s] [Ey J]]. cbn [fst] in Ey. subst y.
    destruct (RD _ _ J) as [_ ->]. rewrite (BD _ _ J). apply UZ. rewrite <- Pz. exact I.
  - intros I J. rewrite VZ by (rewrite <- Pz; exact I). destruct (VD (b, j)) as [_ ->]; [rewrite <- Pd; exact J |].
    rewrite <- entry_bget, Gu by assumption. rewrite (Nat.mul_comm j n). apply (H3 I J).
  - apply S2z.
  - apply S2n.
Qed.
Print Assumptions C116_block.

Example C116_block_applies :
  vmult_coupled_matrix 0%Z 3 1 2 [1] [[0]; []] 6 (map (fun x => (x + 100)%Z)) [[1; 4]; [2; 5]; [3; 6]]%Z [[0; 0]; [0; 0]; [0; 0]]%Z []
  = Some ([[101; 104]; [2; 0]; [103; 0]], [[1; 4]; [2; 0]; [3; 0]], [0; 0])%Z.
Proof. reflexivity. Qed.

(** ** So the product of block vectors forgets the displacements of the nodes without material,
    whatever the matrix is: two sources that differ only there have the same product.  The
    matrix-free product keeps them (C64_coupled). *)
Theorem C116_singular : forall A (zero : A) n m off dim zc displ (matrix : list A -> list A) src1 src2 dst zbuf,
  0 < n -> blocks n m src1 -> blocks n m src2 -> blocks n m dst -> (forall x, length x = m * n -> length (matrix x) = m * n) ->
  off + dim <= n -> NoDup zc -> (forall j, In j zc -> j < m) ->
  length displ <= dim -> (forall l, In l displ -> NoDup l /\ forall j, In j l -> j < m) ->
  (forall b j, ~ in_zc off dim zc b j -> entry src1 b j = entry src2 b j) ->
  exists res src1' z1 src2' z2, vmult_coupled_matrix zero n off dim zc displ (m * n) matrix src1 dst zbuf = Some (res, src1', z1)
    /\ vmult_coupled_matrix zero n off dim zc displ (m * n) matrix src2 dst zbuf = Some (res, src2', z2).
Proof.
  intros A zero n m off dim zc displ F s1 s2 dst zbuf Hn H1 H2 Hd HF Ho Nz Hz Ld Hl E.
  destruct (C116_block A zero n m off dim zc displ F s1 dst zbuf Hn H1 Hd HF Ho Nz Hz Ld Hl) as [r1 [t1 [z1 [x1 [E1 [B1 [_ [L1 G1]]]]]]]].
  destruct (C116_block A zero n m off dim zc displ F s2 dst zbuf Hn H2 Hd HF Ho Nz Hz Ld Hl) as [r2 [t2 [z2 [x2 [E2 [B2 [_ [L2 G2]]]]]]]].
  assert (Dz : forall b j, in_zc off dim zc b j \/ ~ in_zc off dim zc b j).
  { intros b j. unfold in_zc. destruct (in_dec_nat j zc) as [I | I]; [| right; tauto]. destruct (Nat.le_gt_cases off b); [| right; lia]. destruct (Nat.lt_ge_cases b (off + dim)); [left; tauto | right; lia]. }
  assert (Dd : forall b j, in_support off displ b j \/ ~ in_support off displ b j).
  { intros b j. unfold in_support. destruct (Nat.le_gt_cases off b) as [Hb | Hb]; [| right; lia]. destruct (nth_error displ (b - off)) as [l |] eqn:El; [| right; intros [_ [l [K _]]]; discriminate].
    destruct (in_dec_nat j l) as [I | I]; [left; split; [exact Hb | exists l; tauto] | right; intros [_ [l' [K J]]]; injection K as <-; contradiction]. }
  assert (X : x1 = x2).
  { apply list_ext. intros i. destruct (Nat.lt_ge_cases i (m * n)) as [Hi | Hi].
    - assert (D := Nat.div_mod i n ltac:(lia)). assert (M := Nat.mod_upper_bound i n ltac:(lia)). assert (Q : i / n < m) by (apply Nat.div_lt_upper_bound; lia).
      replace i with (i / n * n + i mod n) by lia. set (j := i / n) in *. set (b := i mod n) in *. destruct (G1 b j M Q) as [_ [_ [_ [_ [P1 P2]]]]]. destruct (G2 b j M Q) as [_ [_ [_ [_ [Q1 Q2]]]]].
      unfold vget. destruct (Dz b j) as [I | I]; [rewrite P1, Q1 by tauto; reflexivity |]. destruct (Dd b j) as [J | J]; [rewrite P1, Q1 by tauto; reflexivity |].
      rewrite P2, Q2 by assumption. apply E. exact I.
    - unfold vget. rewrite (proj2 (nth_error_None x1 i)), (proj2 (nth_error_None x2 i)) by lia. reflexivity. }
  subst x2. assert (R : r1 = r2).
  { apply block_ext; [rewrite (proj1 (blocks_shape A n m r1) B1), (proj1 (blocks_shape A n m r2) B2); reflexivity |].
    assert (S1 := proj1 (blocks_shape A n m r1) B1). assert (S2 := proj1 (blocks_shape A n m r2) B2).
    intros [b j]. destruct (Nat.lt_ge_cases b n) as [Hb | Hb]; [destruct (Nat.lt_ge_cases j m) as [Hj | Hj] |];
      [| rewrite (rect_none A r1 n m b j S1), (rect_none A r2 n m b j S2) by lia; reflexivity | rewrite (rect_none A r1 n m b j S1), (rect_none A r2 n m b j S2) by lia; reflexivity].
    rewrite <- !entry_bget. destruct (G1 b j Hb Hj) as [P0 [_ [P1 [P2 _]]]]. destruct (G2 b j Hb Hj) as [Q0 [_ [Q1 [Q2 _]]]].
    destruct (Dz b j) as [I | I]; [rewrite (proj1 (P0 I)), (proj1 (Q0 I)); reflexivity |].
    destruct (Dd b j) as [J | J]; [rewrite P1, Q1 by assumption; apply E; exact I |]. rewrite P2, Q2 by assumption. reflexivity. }
  subst r2. exists r1, t1, z1, t2, z2. split; assumption.
Qed.
Print Assumptions C116_singular.

(** The identity matrix, one node without material: the product of a nonzero vector is zero with
    the matrix and the vector itself without. *)
Theorem C116_refuted : exists src : list (list Z),
  vmult_coupled_matrix 0%Z 2 1 1 [0] [[]] 2 (fun v => v) src [[0]; [0]]%Z [] = Some ([[0]; [0]]%Z, [[0]; [0]]%Z, [0%Z])
  /\ (exists src' c, vmult_coupled 0%Z 1 1 [0] [[]] 2 [] [] [] (fun v => v) src = Some (src, src', c)) /\ src <> [[0]; [0]]%Z.
Proof. exists [[0]; [7]]%Z. split; [reflexivity |]. split; [eexists; eexists; reflexivity | discriminate]. Qed.
Print Assumptions C116_refuted.
