(** C78: preconditioners are applied with the matrices of the last linearisation, to every
    block. *)
From Coq Require Import List Arith Bool Lia.
From Verif Require Import Util InnerModel.
Import ListNotations.

(** ** What is to come out of a run: every block of every product has the stamp of the last
    update; [size n]: number of blocks with [n] order parameters *)
Fixpoint expected (size : nat -> nat) (n s : nat) (es : list event) : list (list (option nat)) :=
  match es with
  | [] => []
  | Restart n' :: es => expected size n' s es
  | Update s' :: es => expected size n s' es
  | Apply :: es => repeat (Some s) (size n) :: expected size n s es
  end.
(** the driver applies only after an update, and clears before it changes the number *)
Fixpoint legal (fresh : bool) (es : list event) : Prop :=
  match es with
  | [] => True
  | Restart _ :: es => legal false es
  | Update _ :: es => legal true es
  | Apply :: es => fresh = true /\ legal fresh es
  end.
Fixpoint sizes (P : nat -> Prop) (es : list event) : Prop :=
  match es with [] => True | Restart n :: es => P n /\ sizes P es | _ :: es => sizes P es end.

(** types that work from the system matrix, or without a matrix, for all blocks *)
Definition simple (t : ptype) : bool := match t with Identity | InverseDiagonal | ComponentBlock | AMG | ILU | IC => true | _ => false end.

Definition op_fits (nc : nat) (o : op) : Prop := match o_system o with None => True | Some (_, k) => k = nc end.

Lemma simple_update : forall s nc o p, simple (p_type p) = true -> op_fits nc o ->
  exists o' p', update_prec s nc (initialize_system s nc o) p = Some (o', p') /\ op_fits nc o' /\ o_single o' = o_single o /\ o_blocks o' = o_blocks o /\
    p_type p' = p_type p /\ p_single p' = p_single p /\ apply_prec s p' nc = Some (repeat (Some s) nc).
Proof.
  intros s nc o p T F. unfold op_fits in *. unfold update_prec, initialize_system, apply_prec.
  destruct (o_system o) as [[s0 k]|]; [ subst k | ]; destruct (p_type p) eqn:E; try discriminate; cbn [o_system o_single o_blocks];
  eexists; eexists; (split; [ reflexivity | ]); cbn [o_system o_single o_blocks p_type p_single p_store]; rewrite ?E, ?Nat.eqb_refl; repeat split; reflexivity.
Qed.

Lemma nth_error_rep : forall {A} (x : A) n i, i < n -> nth_error (repeat x n) i = Some x.
Proof. intros A x n. induction n as [|n IH]; intros i L; [ lia | ]. destruct i; [ reflexivity | ]. cbn. apply IH. lia. Qed.
Lemma pick_repeat : forall s k n, n <= k -> pick (repeat s k) n = Some (repeat (Some s) n).
Proof.
  intros s k n. induction n as [|n IH]; intros L; [ reflexivity | ]. cbn [pick]. rewrite IH by lia. cbn [obind]. rewrite nth_error_rep by lia. cbn [obind].
  f_equal. change [Some s] with (repeat (Some s) 1). rewrite <- repeat_app. f_equal. lia.
Qed.
Lemma pick_short : forall l n, length l < n -> pick l n = None.
Proof.
  intros l n. induction n as [|n IH]; intros L; [ lia | ]. cbn [pick]. destruct (Nat.eq_dec (length l) n) as [E | N].
  - assert (X : nth_error l n = None) by (apply nth_error_None; lia). rewrite X. destruct (pick l n); reflexivity.
  - rewrite IH by lia. reflexivity.
Qed.

(** ** A preconditioner of the nonlinear operator *)
Definition outer_ok (t : ptype) (n0 n : nat) : Prop :=
  match t with
  | BlockAMG => True
  | BlockILU => n0 = 1 -> n = 1
  | _ => simple t = true
  end.
Definition outer_inv (t : ptype) (n0 : nat) (fresh : bool) (n s : nat) (o : op) (p : prec) : Prop :=
  p_type p = t /\ p_single p = Nat.eqb n0 1 /\ o_single o = None /\ op_fits n o /\ (o_blocks o = [] \/ length (o_blocks o) = n) /\
  (fresh = true -> apply_prec s p n = Some (repeat (Some s) n)).

Lemma outer_update : forall t n0 f n s s' o p, outer_ok t n0 n -> outer_inv t n0 f n s o p ->
  exists o' p', update_outer s' n o p = Some (o', p') /\ outer_inv t n0 true n s' o' p'.
Proof.
  intros t n0 f n s s' o p OK (A & B & D & E & G & _). unfold update_outer. rewrite A.
  destruct (simple t) eqn:SI.
  - destruct (simple_update s' n o p) as (o' & p' & U & F1 & F2 & F3 & F4 & F5 & F6); [ rewrite A; exact SI | exact E | ].
    assert (NB : uses_blocks t = false) by (destruct t; try discriminate; reflexivity). rewrite NB.
    destruct (uses_system t) eqn:US.
    + exists o', p'. split; [ exact U | ]. unfold outer_inv. rewrite F2, F3, F4, F5. repeat split; auto.
    + assert (U2 : exists p2, update_prec s' n o p = Some (o, p2) /\ p_type p2 = t /\ p_single p2 = p_single p /\ apply_prec s' p2 n = Some (repeat (Some s') n)).
      { unfold update_prec, apply_prec. rewrite A. destruct t; try discriminate; eexists; (split; [ reflexivity | ]); cbn [p_type p_single p_store]; rewrite ?A, ?Nat.eqb_refl; repeat split; reflexivity. }
      destruct U2 as (p2 & U2 & X & Y & W). exists o, p2. split; [ exact U2 | ]. unfold outer_inv. rewrite X, Y. repeat split; auto.
  - assert (UB : uses_blocks t = true) by (destruct t; try discriminate; cbn in OK; try discriminate; reflexivity).
    assert (US : uses_system t = false) by (destruct t; try discriminate; reflexivity). rewrite UB, US.
    assert (BL : repeat s' (match o_blocks o with [] => n | l => length l end) = repeat s' n) by (destruct G as [G | G]; [ rewrite G; reflexivity | destruct (o_blocks o); [ reflexivity | rewrite <- G; reflexivity ] ]).
    unfold update_prec, initialize_blocks, get_blocks. rewrite A. cbn [o_single o_system o_blocks]. rewrite D, BL.
    destruct t; try discriminate.
    + eexists; eexists; split; [ reflexivity | ]. unfold outer_inv, apply_prec, op_fits in *. cbn [p_type p_single p_store o_single o_system o_blocks]. rewrite repeat_length.
      rewrite pick_repeat by lia. repeat split; auto.
    + cbn in OK. rewrite B. destruct (Nat.eqb n0 1) eqn:E1.
      * apply Nat.eqb_eq in E1. assert (n = 1) by auto. subst n. cbn [repeat length Nat.eqb negb andb]. eexists; eexists; split; [ reflexivity | ].
        unfold outer_inv, apply_prec, op_fits in *. cbn [p_type p_single p_store o_single o_system o_blocks length]. rewrite E1. cbn. repeat split; auto.
      * cbn [andb]. eexists; eexists; split; [ reflexivity | ]. unfold outer_inv, apply_prec, op_fits in *. cbn [p_type p_single p_store o_single o_system o_blocks]. rewrite repeat_length, E1, pick_repeat by lia.
        repeat split; auto.
Qed.

(** C78: a preconditioner made for the nonlinear operator works on every block with the
    matrices of the last update, in every run of the driver, whatever happens to the number
    of components. *)
Theorem C78_outer : forall t n0 s0 es p,
  create t (new_op None) n0 = Some p -> outer_ok t n0 n0 -> legal false es -> sizes (outer_ok t n0) es ->
  run_outer n0 s0 (new_op None) p es = Some (expected (fun n => n) n0 s0 es).
Proof.
  intros t n0 s0 es p CR OK L SZ.
  assert (INV : outer_inv t n0 false n0 s0 (new_op None) p).
  { unfold outer_inv. unfold create in CR. assert (p = mkPrec t (Nat.eqb n0 1) Empty) as -> by (destruct t; try discriminate; injection CR as <-; reflexivity).
    cbn. repeat split; auto. discriminate. }
  clear CR. assert (GEN : forall es f n s o p, outer_inv t n0 f n s o p -> outer_ok t n0 n -> legal f es -> sizes (outer_ok t n0) es -> run_outer n s o p es = Some (expected (fun n => n) n s es)); [ | apply (GEN es false); auto ].
  clear es s0 p INV OK L SZ. intros es. induction es as [|e es IH]; intros f n s o p INV OK L SZ; [ reflexivity | ]. destruct e as [n' | s' | ]; cbn [run_outer expected legal sizes] in *.
  - destruct SZ as [OK' SZ]. apply (IH false); auto. destruct INV as (A & B & D & _). unfold outer_inv, clear_prec, clear_op, op_fits. cbn. repeat split; auto. discriminate.
  - destruct (outer_update t n0 f n s s' o p OK INV) as (o' & p' & U & INV'). rewrite U. cbn [obind fst snd]. apply (IH true); auto.
  - destruct L as [-> L]. pose proof INV as (_ & _ & _ & _ & _ & AP). rewrite AP by reflexivity. cbn [obind]. rewrite (IH true n s o p INV OK L SZ). reflexivity.
Qed.
Print Assumptions C78_outer.

(** ** The block preconditioner *)
Definition inner_ok (t : ptype) : Prop := simple t = true.
Definition block_1_ok (c : config) (n0 n : nat) : Prop :=
  match c_block_1 c with
  | AMG | ILU | IC | InverseDiagonal => True
  | BlockAMG => c_single c = false
  | BlockILU => if c_single c then n < 20 else n0 = 1 -> n = 1
  | _ => False
  end.
Definition block_inv (c : config) (n0 : nat) (fresh : bool) (n s : nat) (b : bprec) : Prop :=
  p_type (b_prec_0 b) = c_block_0 c /\ op_fits 2 (b_op_0 b) /\
  p_type (b_prec_1 b) = c_block_1 c /\ op_fits n (b_op_1 b) /\
  (uses_blocks (c_block_1 c) = true -> p_single (b_prec_1 b) = Nat.eqb (if c_single c then 1 else n0) 1 /\ o_single (b_op_1b b) = Some (c_single c) /\
     (o_blocks (b_op_1b b) = [] \/ length (o_blocks (b_op_1b b)) = if c_single c then 1 else n)) /\
  option_map p_type (b_prec_2 b) = c_block_2 c /\ op_fits (c_dim c) (b_op_2 b) /\
  (fresh = true -> apply_prec s (b_prec_0 b) 2 = Some (repeat (Some s) 2) /\ apply_prec s (b_prec_1 b) n = Some (repeat (Some s) n) /\
     forall p2, b_prec_2 b = Some p2 -> apply_prec s p2 (c_dim c) = Some (repeat (Some s) (c_dim c))).

Lemma block_update : forall c n0 f n s s' b, inner_ok (c_block_0 c) -> (forall t, c_block_2 c = Some t -> inner_ok t) -> block_1_ok c n0 n ->
  block_inv c n0 f n s b -> exists b', update_block c s' n b = Some b' /\ block_inv c n0 true n s' b'.
Proof.
  intros c n0 f n s s' b OK0 OK2 OK1 (T0 & F0 & T1 & F1 & B1 & T2 & F2 & _). unfold update_block.
  destruct (simple_update s' 2 (b_op_0 b) (b_prec_0 b)) as (o0 & p0 & U0 & A1 & A2 & A3 & A4 & A5 & A6); [ rewrite T0; exact OK0 | exact F0 | ].
  rewrite U0. cbn [obind].
  assert (R1 : exists o1 o1b p1, (if uses_blocks (p_type (b_prec_1 b))
         then (r <- update_prec s' n (b_op_1b b) (b_prec_1 b) ;; Some (initialize_system s' n (b_op_1 b), fst r, snd r))
         else (r <- update_prec s' n (initialize_system s' n (b_op_1 b)) (b_prec_1 b) ;; Some (fst r, b_op_1b b, snd r))) = Some (o1, o1b, p1) /\
       p_type p1 = c_block_1 c /\ op_fits n o1 /\ apply_prec s' p1 n = Some (repeat (Some s') n) /\
       (uses_blocks (c_block_1 c) = true -> p_single p1 = Nat.eqb (if c_single c then 1 else n0) 1 /\ o_single o1b = Some (c_single c) /\ (o_blocks o1b = [] \/ length (o_blocks o1b) = if c_single c then 1 else n))).
  { rewrite T1. destruct (uses_blocks (c_block_1 c)) eqn:UB.
    - destruct (B1 eq_refl) as (S1 & S2 & S3).
      assert (FI : op_fits n (initialize_system s' n (b_op_1 b))) by (unfold op_fits, initialize_system in *; cbn [o_system]; destruct (o_system (b_op_1 b)) as [[x k]|]; auto).
      assert (BL : repeat s' (match o_blocks (b_op_1b b) with [] => n_unique (b_op_1b b) n | l => length l end) = repeat s' (if c_single c then 1 else n)).
      { unfold n_unique. rewrite S2. destruct S3 as [S3 | S3]; [ rewrite S3; destruct (c_single c); reflexivity | ].
        destruct (o_blocks (b_op_1b b)); [ destruct (c_single c); reflexivity | rewrite S3; reflexivity ]. }
      unfold update_prec, get_blocks. rewrite T1, S2. cbn zeta. cbn [o_blocks o_single o_system]. rewrite BL, repeat_length, S1.
      unfold block_1_ok in OK1. destruct (c_block_1 c) eqn:E1; try discriminate.
      + cbn [obind fst snd]. do 3 eexists. split; [ reflexivity | ]. rewrite OK1 in *. unfold apply_prec. cbn [p_type p_single p_store o_single o_blocks]. rewrite pick_repeat by lia. rewrite repeat_length. repeat split; auto.
      + destruct (c_single c).
        * cbn [Nat.eqb negb andb obind fst snd]. do 3 eexists. split; [ reflexivity | ]. unfold apply_prec. cbn [p_type p_single p_store o_single o_blocks].
          cbn [repeat nth_error obind]. apply Nat.ltb_lt in OK1. rewrite OK1. repeat split; auto.
        * destruct (Nat.eqb n0 1) eqn:E.
          -- apply Nat.eqb_eq in E. assert (n = 1) by auto. subst n. cbn [Nat.eqb negb andb obind fst snd repeat]. do 3 eexists. split; [ reflexivity | ].
             unfold apply_prec. cbn. repeat split; auto.
          -- cbn [andb obind fst snd]. do 3 eexists. split; [ reflexivity | ]. unfold apply_prec. cbn [p_type p_single p_store o_single o_blocks]. rewrite pick_repeat by lia. rewrite repeat_length. repeat split; auto.
    - destruct (simple_update s' n (b_op_1 b) (b_prec_1 b)) as (o1 & p1 & U & C1 & C2 & C3 & C4 & C5 & C6).
      { rewrite T1. unfold block_1_ok in OK1. destruct (c_block_1 c); try contradiction; try discriminate; reflexivity. } { exact F1. }
      rewrite U. cbn [obind fst snd]. exists o1, (b_op_1b b), p1. rewrite C4. repeat split; auto; discriminate. }
  destruct R1 as (o1 & o1b & p1 & U1 & D1 & D2 & D3 & D4). rewrite U1. cbn [obind fst snd].
  destruct (b_prec_2 b) as [p2|] eqn:E2.
  - destruct (simple_update s' (c_dim c) (b_op_2 b) p2) as (o2 & p2' & U2 & G1 & G2 & G3 & G4 & G5 & G6); [ apply (OK2 (p_type p2)); rewrite <- T2; reflexivity | exact F2 | ].
    rewrite U2. cbn [obind fst snd]. eexists. split; [ reflexivity | ]. unfold block_inv. cbn [b_prec_0 b_prec_1 b_prec_2 b_op_0 b_op_1 b_op_1b b_op_2 option_map]. rewrite A4, G4.
    do 6 (split; [ solve [ auto ] | ]). split; [ auto | ]. intros _. split; [ auto | ]. split; [ auto | ]. intros p E. injection E as <-. exact G6.
  - eexists. split; [ reflexivity | ]. unfold block_inv. cbn [b_prec_0 b_prec_1 b_prec_2 b_op_0 b_op_1 b_op_1b b_op_2 option_map]. rewrite A4.
    do 6 (split; [ solve [ auto ] | ]). split; [ auto | ]. intros _. split; [ auto | ]. split; [ auto | ]. intros p E. discriminate.
Qed.

(** C78: with the types below for the three parts, the block preconditioner works on every
    block of the vector with the matrices of the last update, in every run of the driver. *)
Theorem C78_block_partial : forall c n0 s0 es b,
  create_block c n0 = Some b -> inner_ok (c_block_0 c) -> (forall t, c_block_2 c = Some t -> inner_ok t) -> block_1_ok c n0 n0 ->
  legal false es -> sizes (block_1_ok c n0) es ->
  run_block c n0 s0 b es = Some (expected (n_blocks c) n0 s0 es).
Proof.
  intros c n0 s0 es b CR OK0 OK2 OK L SZ.
  assert (INV : block_inv c n0 false n0 s0 b).
  { unfold create_block in CR. cbv zeta in CR.
    assert (K : forall t o nc p, create t o nc = Some p -> p_type p = t /\ p_single p = Nat.eqb (n_unique o nc) 1) by (intros t o nc p H; unfold create in H; destruct t; try discriminate; injection H as <-; split; reflexivity).
    destruct (create (c_block_0 c) (new_op None) 2) as [p0|] eqn:E0; [ | discriminate ]. cbn [obind] in CR.
    match type of CR with obind ?x _ = _ => destruct x as [p1|] eqn:E1; [ | discriminate ] end. cbn [obind] in CR.
    assert (P1 : p_type p1 = c_block_1 c /\ (uses_blocks (c_block_1 c) = true -> p_single p1 = Nat.eqb (if c_single c then 1 else n0) 1)).
    { destruct (c_block_1 c); try discriminate; apply K in E1; destruct E1 as [X Y]; (split; [ exact X | ]); intros UB; try discriminate; rewrite Y; unfold n_unique; cbn [o_single new_op]; destruct (c_single c); reflexivity. }
    destruct P1 as [P1 P2]. apply K in E0.
    destruct (c_block_2 c) as [t|] eqn:E2.
    - destruct (create t (new_op None) (c_dim c)) as [p2|] eqn:E3; [ | discriminate ]. apply K in E3. cbn [obind] in CR. injection CR as <-. unfold block_inv. cbn. rewrite (proj1 E0), P1, E2, (proj1 E3).
      do 4 (split; [ solve [ auto ] | ]). split; [ intros UB; split; [ auto | split; auto ] | ]. split; [ reflexivity | ]. split; [ auto | discriminate ].
    - injection CR as <-. unfold block_inv. cbn. rewrite (proj1 E0), P1, E2.
      do 4 (split; [ solve [ auto ] | ]). split; [ intros UB; split; [ auto | split; auto ] | ]. split; [ reflexivity | ]. split; [ auto | discriminate ]. }
  clear CR. assert (GEN : forall es f n s b, block_inv c n0 f n s b -> block_1_ok c n0 n -> legal f es -> sizes (block_1_ok c n0) es -> run_block c n s b es = Some (expected (n_blocks c) n s es)); [ | apply (GEN es false); auto ].
  clear es s0 b INV OK L SZ. intros es. induction es as [|e es IH]; intros f n s b INV OK L SZ; [ reflexivity | ]. destruct e as [n' | s' | ]; cbn [run_block expected legal sizes] in *.
  - destruct SZ as [OK' SZ]. apply (IH false); auto. destruct INV as (T0 & F0 & T1 & F1 & B1 & T2 & F2 & _). unfold block_inv, clear_block, clear_op, clear_prec, op_fits. cbn.
    split; [ exact T0 | ]. split; [ exact I | ]. split; [ exact T1 | ]. split; [ exact I | ]. split; [ intros UB; destruct (B1 UB) as (X & Y & _); auto | ].
    split; [ rewrite <- T2; destruct (b_prec_2 b); reflexivity | ]. split; [ exact I | discriminate ].
  - destruct (block_update c n0 f n s s' b OK0 OK2 OK INV) as (b' & U & INV'). rewrite U. cbn [obind]. apply (IH true); auto.
  - destruct L as [-> L]. pose proof INV as (T0 & F0 & T1 & F1 & B1 & T2 & F2 & AP). destruct (AP eq_refl) as (A0 & A1 & A2).
    assert (R : apply_block c s b (n_blocks c n) = Some (repeat (Some s) (n_blocks c n))).
    { unfold apply_block. rewrite A0. cbn [obind]. destruct (b_prec_2 b) as [p2|] eqn:E2.
      - assert (c_block_2 c = Some (p_type p2)) as C2 by (rewrite <- T2; reflexivity). unfold n_blocks. rewrite C2.
        replace (2 + n + c_dim c - c_dim c - 2) with n by lia. rewrite A1. cbn [obind]. replace (2 + n + c_dim c - (2 + n + c_dim c - c_dim c)) with (c_dim c) by lia.
        rewrite (A2 p2 eq_refl). cbn [obind]. rewrite <- !repeat_app. f_equal; f_equal; lia.
      - assert (c_block_2 c = None) as C2 by (rewrite <- T2; reflexivity). unfold n_blocks. rewrite C2. rewrite Nat.add_0_r. replace (2 + n - 2) with n by lia. rewrite A1. cbn [obind]. rewrite <- repeat_app. reflexivity. }
    rewrite R. cbn [obind]. rewrite (IH true n s b INV OK L SZ). reflexivity.
Qed.
Print Assumptions C78_block_partial.

(** ** What does not work although the parameters allow it *)

Definition one_step : list event := [Update 1; Apply].

(** the first or third part with a preconditioner for blocks: the block matrices of the
    operator are never assembled *)
Theorem C78_part_refuted :
  forall t, t = BlockAMG \/ t = BlockILU -> forall t1 n single,
  block_1_ok (mkConfig t t1 None single 3) n n ->
  exists b, create_block (mkConfig t t1 None single 3) n = Some b /\ run_block (mkConfig t t1 None single 3) n 0 b one_step = None.
Proof.
  intros t T t1 n single OK. unfold block_1_ok in OK. cbn in OK.
  destruct T as [-> | ->]; destruct t1; try contradiction; unfold create_block, create; cbn; eexists; (split; [ reflexivity | ]); unfold one_step; cbn [run_block]; unfold update_block; cbn;
  try reflexivity; destruct single; cbn; try reflexivity; destruct (Nat.eqb n 1) eqn:E; cbn; try reflexivity; rewrite ?repeat_length, ?E; cbn; reflexivity.
Qed.
Print Assumptions C78_part_refuted.

(** algebraic multigrid by blocks for the order parameters, one matrix for all of them: the
    second block reads beyond the end *)
Theorem C78_single_amg_refuted : forall t0 n, inner_ok t0 -> 2 <= n ->
  exists b, create_block (mkConfig t0 BlockAMG None true 3) n = Some b /\ run_block (mkConfig t0 BlockAMG None true 3) n 0 b one_step = None.
Proof.
  intros t0 n OK L. unfold create_block, create. destruct t0; try discriminate; cbn [obind c_block_0 c_block_1 c_block_2 c_single]; eexists; (split; [ reflexivity | ]); unfold one_step;
  cbn [run_block]; unfold update_block; cbn; unfold apply_block; cbn; replace (n + 0 - 0) with n by lia; rewrite pick_short by (cbn; lia); reflexivity.
Qed.
Print Assumptions C78_single_amg_refuted.

(** incomplete factorisation by blocks with one matrix: twenty order parameters are too many *)
Theorem C78_twenty_refuted : forall t0 n, inner_ok t0 -> 20 <= n ->
  exists b, create_block (mkConfig t0 BlockILU None true 3) n = Some b /\ run_block (mkConfig t0 BlockILU None true 3) n 0 b one_step = None.
Proof.
  intros t0 n OK L. unfold create_block, create. assert (X : Nat.ltb n 20 = false) by (apply Nat.ltb_ge; exact L).
  destruct t0; try discriminate; cbn [obind c_block_0 c_block_1 c_block_2 c_single]; eexists; (split; [ reflexivity | ]); unfold one_step;
  cbn [run_block]; unfold update_block; cbn -[Nat.ltb]; unfold apply_block; cbn -[Nat.ltb]; replace (n + 0 - 0) with n by lia; rewrite X; reflexivity.
Qed.
Print Assumptions C78_twenty_refuted.

(** incomplete factorisation by blocks, started with one order parameter, later two *)
Theorem C78_growth_refuted : forall t0, inner_ok t0 ->
  exists b, create_block (mkConfig t0 BlockILU None false 3) 1 = Some b /\
    run_block (mkConfig t0 BlockILU None false 3) 1 0 b [Update 1; Apply; Restart 2; Update 2; Apply] = None /\
    run_block (mkConfig t0 BlockILU None false 3) 1 0 b [Update 1; Apply] = Some [repeat (Some 1) 3].
Proof.
  intros t0 OK. destruct t0; try discriminate; eexists; (split; [ reflexivity | ]); split; reflexivity.
Qed.
Print Assumptions C78_growth_refuted.

(** the blocks of the cells: only the first block of the vector is written *)
Theorem C78_cell_blocks_refuted : forall t1 n single, t1 = AMG \/ t1 = ILU \/ t1 = IC \/ t1 = InverseDiagonal ->
  exists b, create_block (mkConfig CellBlock t1 None single 3) n = Some b /\
    run_block (mkConfig CellBlock t1 None single 3) n 0 b one_step = Some [Some 1 :: None :: repeat (Some 1) n].
Proof.
  intros t1 n single OK. destruct OK as [-> | [-> | [-> | ->]]]; unfold create_block, create; cbn; eexists; (split; [ reflexivity | ]); unfold one_step;
  cbn [run_block]; unfold update_block; cbn; unfold apply_block; cbn; replace (n + 0 - 0) with n by lia; rewrite ?Nat.eqb_refl; reflexivity.
Qed.
Print Assumptions C78_cell_blocks_refuted.

(** types that the parameters offer and that cannot be chosen: an exception at the start *)
Theorem C78_choice_refuted : forall t0 t2 n single, 
  create_block (mkConfig t0 Identity t2 single 3) n = None /\ create_block (mkConfig t0 ComponentBlock t2 single 3) n = None /\ create_block (mkConfig t0 CellBlock t2 single 3) n = None.
Proof. intros t0 t2 n single. unfold create_block. cbn. destruct (create t0 (new_op None) 2); repeat split; reflexivity. Qed.
Print Assumptions C78_choice_refuted.

(** C78_cleared: after [clear] no preconditioner but the identity can be used before its next
    update; no matrix of the old mesh is left *)
Theorem C78_cleared : forall s n p b,
  (p_type p <> Identity -> apply_prec s (clear_prec p) n = None) /\
  (p_type (b_prec_0 b) <> Identity -> apply_prec s (b_prec_0 (clear_block b)) n = None) /\
  (p_type (b_prec_1 b) <> Identity -> apply_prec s (b_prec_1 (clear_block b)) n = None) /\
  (forall p2, b_prec_2 b = Some p2 -> p_type p2 <> Identity -> exists p3, b_prec_2 (clear_block b) = Some p3 /\ apply_prec s p3 n = None).
Proof.
  intros s n p b. assert (G : forall p, p_type p <> Identity -> apply_prec s (clear_prec p) n = None).
  { intros q H. unfold apply_prec, clear_prec. cbn [p_type p_store]. destruct (p_type q); try reflexivity. contradiction. }
  split; [apply G|]. split; [apply G|]. split; [apply G|]. intros p2 E H. unfold clear_block. cbn [b_prec_2]. rewrite E. cbn [option_map].
  eexists. split; [reflexivity|]. apply G. exact H.
Qed.
Print Assumptions C78_cleared.

(** C78_missing: the preconditioners that need the matrix of the system throw if there is none,
    and no multigrid can be created without the constructor of its own *)
Theorem C78_missing : forall s nc o p t,
  (In (p_type p) [ComponentBlock; CellBlock; AMG; ILU; IC] -> o_system o = None -> update_prec s nc o p = None) /\
  (create t o nc = None <-> t = GMG \/ t = BlockGMG).
Proof.
  intros s nc o p t. split.
  - intros H E. unfold update_prec. rewrite E. cbn [In] in H. decompose [or] H; try contradiction; match goal with X : _ = p_type p |- _ => rewrite <- X end; reflexivity.
  - split; [|intros [-> | ->]; reflexivity]. unfold create. destruct t; try discriminate; intros _; tauto.
Qed.
Print Assumptions C78_missing.

(** ** Cases *)
Definition demo : list event := [Update 1; Apply; Apply; Restart 3; Update 2; Apply; Restart 1; Update 3; Update 4; Apply].
Example C78_example : forall c, c = mkConfig ILU InverseDiagonal (Some AMG) false 2 \/ c = mkConfig AMG BlockILU (Some IC) false 2 \/ c = mkConfig ILU BlockAMG None false 3 \/ c = mkConfig ILU BlockILU None true 3 ->
  exists b, create_block c 2 = Some b /\ run_block c 2 0 b demo = Some (expected (n_blocks c) 2 0 demo).
Proof. intros c H. destruct H as [-> | [-> | [-> | ->]]]; eexists; (split; [ reflexivity | reflexivity ]). Qed.
Example C78_expected_example : expected (n_blocks (mkConfig ILU InverseDiagonal None false 3)) 2 0 demo =
  [repeat (Some 1) 4; repeat (Some 1) 4; repeat (Some 2) 5; repeat (Some 4) 3].
Proof. reflexivity. Qed.
(** clearing matters: without it the matrix keeps its old size *)
Example C78_clear_example : let o := initialize_system 1 2 (new_op None) in
  exists p, create ILU (new_op None) 2 = Some p /\ (exists o' p', update_prec 2 3 (initialize_system 2 3 o) p = Some (o', p') /\ apply_prec 2 p' 3 = None).
Proof. cbv zeta. eexists. split; [ reflexivity | ]. eexists. eexists. split; reflexivity. Qed.
