(** C24, C25: transfer of values between order parameters. *)
From Coq Require Import List Arith Bool Lia Permutation Sorted.
From Verif Require Import Util MapModel RemapModel RemapProofs.
Import ListNotations.

Definition order_ok (o : nat -> list remapping -> list remapping) : Prop := forall v l, Permutation (o v l) l.

(** ** C25: the schedule *)
(** For any moves of different grains the schedule exists; a block is never cleared
    by a later step after a value has been written to it; the sequence consists of
    the plain moves, each once, and of the moves over temporary storage, one pair
    for every one of them, the first parts before and the second parts after the
    plain moves and in opposite order; only moves which close a cycle use temporary
    storage. *)
Theorem C25_schedule : forall out_order in_order l, order_ok out_order -> order_ok in_order ->
  NoDup (map m_grain l) -> (forall r, In r l -> m_from r <> m_to r) ->
  exists sq, schedule out_order in_order l = Some sq /\
    (forall i j s s' t, i < j -> vget sq i = Some s -> vget sq j = Some s' -> st_to s = Some t -> st_from s' <> Some t) /\
    exists cyc plain, Permutation l (cyc ++ plain) /\
      sq = map (fun r => mkStep (m_grain r) (Some (m_from r)) None) (rev cyc) ++
           map (fun r => mkStep (m_grain r) (Some (m_from r)) (Some (m_to r))) plain ++
           map (fun r => mkStep (m_grain r) None (Some (m_to r))) cyc /\
      forall r, In r cyc -> leads l (m_to r) (m_from r).
Proof.
  intros out_order in_order l OO IO ND NL.
  assert (ID : ids_distinct l).
  { clear - ND. induction l as [|x l IH]; intros a b Ha Hb E; [destruct Ha|]. cbn [map] in ND. inversion ND as [|? ? N1 N2]; subst.
    destruct Ha as [<-|Ha], Hb as [<-|Hb]; [reflexivity| | |apply IH; assumption]; exfalso; apply N1; [rewrite E|rewrite <- E]; apply in_map; assumption. }
  destruct (schedule_spec out_order in_order OO IO l (NoDup_map_inv _ _ ND) ID NL) as (sq & E & cyc & rest & SQ & P & OR & LC).
  exists sq. split; [exact E|].
  assert (SQ' : sq = map (fun r => mkStep (m_grain r) (Some (m_from r)) None) (rev cyc) ++ map step_of rest ++ map (fun r => mkStep (m_grain r) None (Some (m_to r))) cyc).
  { rewrite SQ. rewrite <- map_rev, !map_map. reflexivity. }
  split; [|exists cyc, rest; split; [exact P|]; split; [exact SQ'|exact LC]].
  intros i j s s' t LT Hi Hj Ht Hf. rewrite SQ' in Hi, Hj. clear SQ SQ' E.
  set (A := map (fun r => mkStep (m_grain r) (Some (m_from r)) None) (rev cyc)) in *. set (C := map (fun r => mkStep (m_grain r) None (Some (m_to r))) cyc) in *.
  rewrite vget_app in Hi, Hj. destruct (Nat.ltb_spec i (length A)).
  { unfold A, vget in Hi. rewrite nth_error_map in Hi. destruct (nth_error (rev cyc) i); [|discriminate]. cbn in Hi. injection Hi as <-. discriminate. }
  destruct (Nat.ltb_spec j (length A)); [lia|]. rewrite vget_app in Hi, Hj. destruct (Nat.ltb_spec (j - length A) (length (map step_of rest))).
  - destruct (Nat.ltb_spec (i - length A) (length (map step_of rest))); [|lia]. unfold vget in Hi, Hj. rewrite nth_error_map in Hi, Hj.
    destruct (nth_error rest (i - length A)) as [r1|] eqn:E1; [|discriminate]. destruct (nth_error rest (j - length A)) as [r2|] eqn:E2; [|discriminate].
    cbn in Hi, Hj. injection Hi as <-. injection Hj as <-. cbn in Ht, Hf. injection Ht as <-. injection Hf as Hf.
    destruct (nth_error_split _ _ E1) as (a & b & EA & LA). rewrite EA in E2. rewrite nth_error_app2 in E2 by lia. rewrite LA in E2.
    destruct (j - length A - (i - length A)) as [|k] eqn:EK; [lia|]. cbn [nth_error] in E2. destruct (nth_error_split _ _ E2) as (b1 & c & EB & _).
    apply (OR a r1 b1 r2 c); [rewrite EA, EB; reflexivity|congruence].
  - unfold C, vget in Hj. rewrite nth_error_map in Hj. destruct (nth_error cyc (j - length A - length (map step_of rest))); [|discriminate]. cbn in Hj. injection Hj as <-. discriminate.
Qed.
Print Assumptions C25_schedule.

(** Without a cycle no temporary storage is used. *)
Theorem C25_no_cycle_no_temporary : forall out_order in_order l (rk : nat -> nat), order_ok out_order -> order_ok in_order ->
  NoDup (map m_grain l) -> (forall r, In r l -> rk (m_to r) < rk (m_from r)) ->
  exists plain, Permutation l plain /\ schedule out_order in_order l = Some (map (fun r => mkStep (m_grain r) (Some (m_from r)) (Some (m_to r))) plain).
Proof.
  intros out_order in_order l rk OO IO ND H.
  destruct (C25_schedule out_order in_order l OO IO ND) as (sq & E & _ & cyc & plain & P & SQ & LC); [intros r Hr C; specialize (H r Hr); rewrite C in H; lia|].
  assert (L : forall a b, leads l a b -> rk b <= rk a).
  { intros a b HL. induction HL as [a|a e b _ IH He T]; [lia|]. specialize (H e He). subst b. lia. }
  destruct cyc as [|r cyc].
  - exists plain. split; [exact P|]. rewrite E, SQ. cbn. rewrite app_nil_r. reflexivity.
  - exfalso. assert (Hr : In r l) by (apply (Permutation_in _ (Permutation_sym P)); left; reflexivity). specialize (H r Hr). specialize (L _ _ (LC r (or_introl eq_refl))). lia.
Qed.
Print Assumptions C25_no_cycle_no_temporary.

(** A cycle of three with a chain leading into it. *)
Definition moves4 : list remapping := [mkRemap 10 0 1; mkRemap 11 1 2; mkRemap 12 2 0; mkRemap 13 3 4].
Example C25_example : order_ok (fun _ l => l) /\ order_ok (fun _ l => rev l) /\ NoDup (map m_grain moves4) /\
  schedule (fun _ l => l) (fun _ l => rev l) moves4 = Some
    [mkStep 12 (Some 2) None; mkStep 11 (Some 1) (Some 2); mkStep 10 (Some 0) (Some 1); mkStep 13 (Some 3) (Some 4); mkStep 12 None (Some 0)].
Proof.
  split; [intros v l; apply Permutation_refl|]. split; [intros v l; apply Permutation_sym, Permutation_rev|]. split; [|vm_compute; reflexivity].
  repeat constructor; cbn; intuition lia.
Qed.

(** ** C24: one cell *)
Section Values.
Variables (V : Type) (zero : V) (n_blocks offset : nat).

(** Executing the schedule of the moves [l] at a cell: all moves take place at once. *)
Theorem C24_cell : forall out_order in_order l dofs copy u, order_ok out_order -> order_ok in_order ->
  NoDup (map m_grain l) -> (forall r, In r l -> m_from r <> m_to r) -> NoDup (map m_to l) ->
  (forall r, In r l -> m_from r + offset < n_blocks /\ m_to r + offset < n_blocks) ->
  exists sq u', schedule out_order in_order l = Some sq /\ run V zero n_blocks offset dofs copy sq [] u = Some u' /\
    (forall r d, In r l -> In d dofs -> u' (m_to r + offset) d = copy (m_from r + offset) d) /\
    (forall r d, In r l -> ~ In (m_from r) (map m_to l) -> In d dofs -> u' (m_from r + offset) d = zero) /\
    (forall b d, (forall r, In r l -> b <> m_from r + offset /\ b <> m_to r + offset) \/ ~ In d dofs -> u' b d = u b d).
Proof.
  intros out_order in_order l dofs copy u OO IO ND NL NT OK.
  assert (ID : ids_distinct l).
  { clear - ND. induction l as [|x l IH]; intros a b Ha Hb E; [destruct Ha|]. cbn [map] in ND. inversion ND as [|? ? N1 N2]; subst.
    destruct Ha as [<-|Ha], Hb as [<-|Hb]; [reflexivity| | |apply IH; assumption]; exfalso; apply N1; [rewrite E|rewrite <- E]; apply in_map; assumption. }
  destruct (schedule_spec out_order in_order OO IO l (NoDup_map_inv _ _ ND) ID NL) as (sq & E & G).
  destruct (run_schedule V zero n_blocks offset l sq dofs copy u G OK NT NL) as (u' & R & EF). exists sq, u'. split; [exact E|]. split; [exact R|exact EF].
Qed.

(** ** C24: the whole mesh *)
(** Grain [m_grain r] lives at the cell and changes its order parameter by [r]. *)
Definition moved (grains : fmap (nat * nat)) (c : rcell) (r : remapping) : Prop :=
  In (m_grain r) (c_grains c) /\ mget (m_grain r) grains = Some (m_from r, m_to r) /\ m_from r <> m_to r.

Lemma grain_moves_mget : forall grains gid, msorted grains -> mget gid (grain_moves grains) =
  match mget gid grains with Some (f, t) => if f =? t then None else Some (mkRemap gid f t) | None => None end.
Proof.
  intros grains gid MS. pose proof (msorted_nodup _ _ MS) as ND. clear MS. unfold grain_moves. induction grains as [|[id [f t]] grains IH]; [reflexivity|].
  cbn [map fst] in ND. inversion ND as [|? ? N1 N2]; subst. cbn [flat_map fst snd mget]. destruct (Nat.eqb_spec id gid) as [->|NE].
  - assert (NM : mget gid grains = None). { destruct (mget gid grains) eqn:X; [|reflexivity]. exfalso. apply N1. apply mget_key. eauto. }
    destruct (f =? t); cbn [app mget]; [rewrite (IH N2), NM; reflexivity|rewrite Nat.eqb_refl; reflexivity].
  - destruct (f =? t); cbn [app mget]; [apply IH, N2|]. destruct (Nat.eqb_spec id gid); [contradiction|apply IH, N2].
Qed.

Lemma local_moves_in : forall grains gids r, msorted grains ->
  (In r (local_moves (grain_moves grains) gids) <-> In (m_grain r) gids /\ mget (m_grain r) grains = Some (m_from r, m_to r) /\ m_from r <> m_to r).
Proof.
  intros grains gids r MS. unfold local_moves. rewrite in_flat_map. split.
  - intros (gid & Hg & H). rewrite (grain_moves_mget grains gid MS) in H. destruct (mget gid grains) as [[f t]|] eqn:E; [|destruct H].
    destruct (Nat.eqb_spec f t); [destruct H|]. destruct H as [<-|[]]. cbn. auto.
  - intros (Hg & E & NE). exists (m_grain r). split; [exact Hg|]. rewrite (grain_moves_mget grains _ MS), E.
    destruct (Nat.eqb_spec (m_from r) (m_to r)); [contradiction|]. left. destruct r; reflexivity.
Qed.

Lemma local_moves_ids : forall grains gids, msorted grains -> NoDup gids -> NoDup (map m_grain (local_moves (grain_moves grains) gids)).
Proof.
  intros grains gids MS. induction gids as [|g gids IH]; intro ND; [constructor|]. inversion ND as [|? ? N1 N2]; subst.
  unfold local_moves. cbn [flat_map]. rewrite map_app. fold (local_moves (grain_moves grains) gids).
  assert (NG : forall x, In x (map m_grain (local_moves (grain_moves grains) gids)) -> In x gids).
  { intros x Hx. apply in_map_iff in Hx. destruct Hx as (r & <- & Hr). apply (local_moves_in _ _ _ MS) in Hr. apply Hr. }
  rewrite (grain_moves_mget grains g MS). destruct (mget g grains) as [[f t]|]; cbn [map app]; [|apply IH, N2].
  destruct (f =? t); cbn [map app]; [apply IH, N2|]. constructor; [|apply IH, N2]. intro C. apply N1, NG, C.
Qed.

Variables (out_order in_order : nat -> nat -> list remapping -> list remapping).
Hypothesis OO : forall i, order_ok (out_order i).
Hypothesis IO : forall i, order_ok (in_order i).

Lemma NoDup_inj_map : forall (l : list remapping), NoDup l -> (forall a b, In a l -> In b l -> m_to a = m_to b -> a = b) -> NoDup (map m_to l).
Proof.
  induction l as [|x l IH]; intros ND H; [constructor|]. inversion ND as [|? ? N1 N2]; subst. cbn [map]. constructor.
  - intro C. apply in_map_iff in C. destruct C as (y & E & Hy). assert (y = x) by (apply H; [right; exact Hy|left; reflexivity|exact E]). subst y. contradiction.
  - apply IH; [exact N2|]. intros a b Ha Hb. apply H; right; assumption.
Qed.

Definition cell_fine (grains : fmap (nat * nat)) (c : rcell) : Prop :=
  NoDup (c_grains c) /\ (forall r r', moved grains c r -> moved grains c r' -> m_to r = m_to r' -> r = r') /\
  forall r, moved grains c r -> m_from r + offset < n_blocks /\ m_to r + offset < n_blocks.

Lemma cell_loop_spec : forall grains copy, msorted grains -> forall cells i cache u,
  (forall c, In c cells -> cell_fine grains c) ->
  (forall k s, In (k, s) cache -> good_schedule (local_moves (grain_moves grains) k) s) ->
  exists u', cell_loop V zero n_blocks offset out_order in_order (grain_moves grains) copy i cells cache u = Some u' /\
    (forall r d, ((exists c, In c cells /\ moved grains c r /\ In d (c_dofs c)) \/ u (m_to r + offset) d = copy (m_from r + offset) d) ->
       (forall c r', In c cells -> In d (c_dofs c) -> moved grains c r' -> (m_to r' = m_to r -> r' = r) /\ (m_from r' = m_to r -> moved grains c r)) ->
       u' (m_to r + offset) d = copy (m_from r + offset) d) /\
    (forall f d, ((exists c r, In c cells /\ moved grains c r /\ m_from r = f /\ In d (c_dofs c)) \/ u (f + offset) d = zero) ->
       (forall c r', In c cells -> In d (c_dofs c) -> moved grains c r' -> m_to r' <> f) -> u' (f + offset) d = zero) /\
    (forall b d, (forall c r, In c cells -> In d (c_dofs c) -> moved grains c r -> b <> m_from r + offset /\ b <> m_to r + offset) -> u' b d = u b d).
Proof.
  intros grains copy MS. induction cells as [|c cells IH]; intros i cache u FINE CACHE.
  - exists u. split; [reflexivity|]. split; [|split].
    + intros r d [(c & [] & _)|H] _. exact H.
    + intros f d [(c & r & [] & _)|H] _. exact H.
    + reflexivity.
  - cbn [cell_loop].
    assert (MV : forall r, In r (local_moves (grain_moves grains) (c_grains c)) <-> moved grains c r) by (intro r; apply local_moves_in; exact MS).
    assert (FINE' : forall c', In c' cells -> cell_fine grains c') by (intros c' Hc; apply FINE; right; exact Hc).
    (* the head cell *)
    assert (HEAD : forall cache1 u1, (forall k s, In (k, s) cache1 -> good_schedule (local_moves (grain_moves grains) k) s) ->
      effect V zero offset (local_moves (grain_moves grains) (c_grains c)) (c_dofs c) copy u u1 ->
      exists u', cell_loop V zero n_blocks offset out_order in_order (grain_moves grains) copy (S i) cells cache1 u1 = Some u' /\
        (forall r d, ((exists c', In c' (c :: cells) /\ moved grains c' r /\ In d (c_dofs c')) \/ u (m_to r + offset) d = copy (m_from r + offset) d) ->
           (forall c' r', In c' (c :: cells) -> In d (c_dofs c') -> moved grains c' r' -> (m_to r' = m_to r -> r' = r) /\ (m_from r' = m_to r -> moved grains c' r)) ->
           u' (m_to r + offset) d = copy (m_from r + offset) d) /\
        (forall f d, ((exists c' r, In c' (c :: cells) /\ moved grains c' r /\ m_from r = f /\ In d (c_dofs c')) \/ u (f + offset) d = zero) ->
           (forall c' r', In c' (c :: cells) -> In d (c_dofs c') -> moved grains c' r' -> m_to r' <> f) -> u' (f + offset) d = zero) /\
        (forall b d, (forall c' r, In c' (c :: cells) -> In d (c_dofs c') -> moved grains c' r -> b <> m_from r + offset /\ b <> m_to r + offset) -> u' b d = u b d)).
    { intros cache1 u1 C1 (W & Z & U). destruct (IH (S i) cache1 u1 FINE' C1) as (u' & E & K1 & K2 & K3). exists u'. split; [exact E|]. split; [|split].
      - intros r d H COND. apply K1; [|intros c' r' Hc; apply COND; right; exact Hc].
        destruct (in_dec Nat.eq_dec d (c_dofs c)) as [Hd|Hd].
        + destruct (existsb (req r) (local_moves (grain_moves grains) (c_grains c))) eqn:X.
          * right. apply existsb_exists in X. destruct X as (y & Hy & EY). apply req_true in EY. subst y. apply W; assumption.
          * assert (NM : ~ moved grains c r).
            { intro C. apply MV in C. assert (Y : existsb (req r) (local_moves (grain_moves grains) (c_grains c)) = true); [|congruence]. apply existsb_exists. exists r. split; [exact C|apply req_true; reflexivity]. }
            destruct H as [(c' & [<-|Hc] & H1 & H2)|H]; [contradiction|left; eauto|right]. rewrite U; [exact H|]. left. intros r' Hr'. apply MV in Hr'.
            destruct (COND c r' (or_introl eq_refl) Hd Hr') as [A B]. split; intro C.
            -- apply NM, B. lia.
            -- assert (r' = r) by (apply A; lia). subst r'. contradiction.
        + destruct H as [(c' & [<-|Hc] & H1 & H2)|H]; [contradiction|left; eauto|right]. rewrite U; [exact H|right; exact Hd].
      - intros f d H COND. apply K2; [|intros c' r' Hc; apply COND; right; exact Hc].
        destruct (in_dec Nat.eq_dec d (c_dofs c)) as [Hd|Hd].
        + destruct (existsb (fun r => m_from r =? f) (local_moves (grain_moves grains) (c_grains c))) eqn:X.
          * right. apply existsb_exists in X. destruct X as (y & Hy & EY). apply Nat.eqb_eq in EY. rewrite <- EY in *. apply Z; [exact Hy| |exact Hd].
            intro C. apply in_map_iff in C. destruct C as (x & C1' & C2). apply MV in C2. apply (COND c x (or_introl eq_refl) Hd C2). exact C1'.
          * assert (NF : forall r, moved grains c r -> m_from r <> f).
            { intros r Hr C. apply MV in Hr. assert (Y : existsb (fun r => m_from r =? f) (local_moves (grain_moves grains) (c_grains c)) = true); [|congruence]. apply existsb_exists. exists r. split; [exact Hr|apply Nat.eqb_eq, C]. }
            destruct H as [(c' & r & [<-|Hc] & H1 & H2 & H3)|H]; [exfalso; exact (NF r H1 H2)|left; exists c', r; auto|right]. rewrite U; [exact H|]. left. intros r' Hr'. apply MV in Hr'.
            pose proof (NF r' Hr'). pose proof (COND c r' (or_introl eq_refl) Hd Hr'). split; lia.
        + destruct H as [(c' & r & [<-|Hc] & H1 & H2 & H3)|H]; [contradiction|left; exists c', r; auto|right]. rewrite U; [exact H|right; exact Hd].
      - intros b d COND. rewrite K3 by (intros c' r Hc; apply COND; right; exact Hc). apply U.
        destruct (in_dec Nat.eq_dec d (c_dofs c)) as [Hd|Hd]; [left|right; exact Hd]. intros r Hr. apply MV in Hr. apply (COND c r (or_introl eq_refl) Hd Hr). }
    destruct (FINE c (or_introl eq_refl)) as (F1 & F2 & F3).
    destruct (c_grains c) as [|g0 gs] eqn:EG.
    + apply HEAD; [exact CACHE|]. cbn. split; [intros r d []|]. split; [intros r d []|reflexivity].
    + rewrite <- EG in *. clear EG g0 gs.
      pose proof (local_moves_ids grains (c_grains c) MS F1) as NDI.
      assert (NL : forall r, In r (local_moves (grain_moves grains) (c_grains c)) -> m_from r <> m_to r) by (intros r Hr; apply MV in Hr; apply Hr).
      assert (NT : NoDup (map m_to (local_moves (grain_moves grains) (c_grains c)))).
      { apply NoDup_inj_map; [exact (NoDup_map_inv _ _ NDI)|]. intros a b Ha Hb. apply F2; apply MV; assumption. }
      assert (BO : blocks_ok n_blocks offset (local_moves (grain_moves grains) (c_grains c))) by (intros r Hr; apply F3, MV, Hr).
      assert (SC : exists s cache1, match cache_find (c_grains c) cache with
                | Some s => Some (s, cache)
                | None => s <- schedule (out_order i) (in_order i) (local_moves (grain_moves grains) (c_grains c)) ;; Some (s, (c_grains c, s) :: cache)
                end = Some (s, cache1) /\ good_schedule (local_moves (grain_moves grains) (c_grains c)) s /\
                (forall k s, In (k, s) cache1 -> good_schedule (local_moves (grain_moves grains) k) s)).
      { destruct (cache_find (c_grains c) cache) as [s|] eqn:CF.
        - exists s, cache. split; [reflexivity|]. split; [|exact CACHE]. clear - CF CACHE. induction cache as [|[k s'] cache IHc]; [discriminate|]. cbn [cache_find] in CF.
          unfold key_eqb in CF. destruct (list_eq_dec Nat.eq_dec (c_grains c) k) as [->|].
          + injection CF as <-. apply CACHE. left. reflexivity.
          + apply IHc; [|exact CF]. intros k' s0 H. apply CACHE. right. exact H.
        - assert (ID : ids_distinct (local_moves (grain_moves grains) (c_grains c))).
          { intros a b Ha Hb E. apply MV in Ha. apply MV in Hb. destruct Ha as (_ & A & _), Hb as (_ & B & _). rewrite E in A. rewrite A in B. injection B as B1 B2. destruct a, b; cbn in *; subst; reflexivity. }
          destruct (schedule_spec (out_order i) (in_order i) (OO i) (IO i) _ (NoDup_map_inv _ _ NDI) ID NL) as (s & E & G). rewrite E. cbn [obind].
          exists s, ((c_grains c, s) :: cache). split; [reflexivity|]. split; [exact G|]. intros k s' [H|H]; [injection H as <- <-; exact G|apply CACHE, H]. }
      destruct SC as (s & cache1 & E & G & C1). rewrite E. cbn [obind fst snd].
      destruct (run_schedule V zero n_blocks offset _ s (c_dofs c) copy u G BO NT NL) as (u1 & R & EF). rewrite R. cbn [obind]. apply HEAD; assumption.
Qed.

(** The transfer over the whole mesh, for every degree of freedom [d]:
    - a grain moved at a cell with [d] has its old value at [d] in the new order
      parameter, provided that at the cells with [d] no other grain is moved to the
      same order parameter and that the grain is known at every cell with [d] at which
      another grain leaves this order parameter;
    - an order parameter left at a cell with [d] and entered at none is zero at [d];
    - everything else is unchanged. *)
Theorem C24_remap : forall grains cells u, msorted grains -> (forall c, In c cells -> cell_fine grains c) ->
  exists u' n, remap V zero n_blocks offset out_order in_order grains cells u = Some (u', n) /\
    n = length (filter (fun p => negb (fst (snd p) =? snd (snd p))) grains) /\
    (forall c r d, In c cells -> moved grains c r -> In d (c_dofs c) ->
       (forall c' r', In c' cells -> In d (c_dofs c') -> moved grains c' r' -> m_to r' = m_to r -> r' = r) ->
       (forall c' r', In c' cells -> In d (c_dofs c') -> moved grains c' r' -> m_from r' = m_to r -> moved grains c' r) ->
       u' (m_to r + offset) d = u (m_from r + offset) d) /\
    (forall c r d, In c cells -> moved grains c r -> In d (c_dofs c) ->
       (forall c' r', In c' cells -> In d (c_dofs c') -> moved grains c' r' -> m_to r' <> m_from r) ->
       u' (m_from r + offset) d = zero) /\
    (forall b d, (forall c r, In c cells -> In d (c_dofs c) -> moved grains c r -> b <> m_from r + offset /\ b <> m_to r + offset) -> u' b d = u b d).
Proof.
  intros grains cells u MS FINE. unfold remap.
  assert (N : length (grain_moves grains) = length (filter (fun p => negb (fst (snd p) =? snd (snd p))) grains)).
  { clear. unfold grain_moves. induction grains as [|[id [f t]] grains IH]; [reflexivity|]. cbn [flat_map filter fst snd]. destruct (f =? t); cbn [app length negb]; [exact IH|rewrite IH; reflexivity]. }
  destruct (grain_moves grains) as [|m0 ms] eqn:EM.
  - exists u, 0. split; [reflexivity|]. split; [exact N|].
    assert (NM : forall c r, ~ moved grains c r).
    { intros c r (H1 & H2 & H3). pose proof (grain_moves_mget grains (m_grain r) MS) as X. rewrite EM, H2 in X. destruct (Nat.eqb_spec (m_from r) (m_to r)); [contradiction|discriminate]. }
    split; [|split]; [intros c r d _ H|intros c r d _ H|reflexivity]; exfalso; exact (NM c r H).
  - rewrite <- EM in *. clear EM m0 ms. destruct (cell_loop_spec grains u MS cells 0 [] u FINE) as (u' & E & K1 & K2 & K3); [intros k s []|].
    rewrite E. cbn [obind]. exists u', (length (grain_moves grains)). split; [reflexivity|]. split; [exact N|]. split; [|split].
    + intros c r d Hc Hm Hd A B. apply K1; [left; exists c; auto|]. intros c' r' Hc' Hd' Hm'. split; [apply (A c' r' Hc' Hd' Hm')|apply (B c' r' Hc' Hd' Hm')].
    + intros c r d Hc Hm Hd A. apply K2; [left; exists c, r; auto|exact A].
    + exact K3.
Qed.

(** In particular where all cells around a degree of freedom see the same grains. *)
Theorem C24_remap_interior : forall grains cells u d gids, msorted grains -> (forall c, In c cells -> cell_fine grains c) ->
  (forall c, In c cells -> In d (c_dofs c) -> c_grains c = gids) -> (exists c, In c cells /\ In d (c_dofs c)) ->
  exists u' n, remap V zero n_blocks offset out_order in_order grains cells u = Some (u', n) /\
    (forall g f t, In g gids -> mget g grains = Some (f, t) -> f <> t -> u' (t + offset) d = u (f + offset) d) /\
    (forall g f t, In g gids -> mget g grains = Some (f, t) -> f <> t ->
       (forall g' f' t', In g' gids -> mget g' grains = Some (f', t') -> f' <> t' -> t' <> f) -> u' (f + offset) d = zero) /\
    (forall b, (forall g f t, In g gids -> mget g grains = Some (f, t) -> f <> t -> b <> f + offset /\ b <> t + offset) -> u' b d = u b d).
Proof.
  intros grains cells u d gids MS FINE SAME (c0 & Hc0 & Hd0).
  destruct (C24_remap grains cells u MS FINE) as (u' & n & E & _ & W & Z & U). exists u', n. split; [exact E|]. split; [|split].
  - intros g f t Hg M NE. assert (MV : forall c, In c cells -> In d (c_dofs c) -> moved grains c (mkRemap g f t)).
    { intros c Hc Hd. split; [rewrite (SAME c Hc Hd); exact Hg|]. auto. }
    apply (W c0 (mkRemap g f t) d Hc0 (MV c0 Hc0 Hd0) Hd0).
    + intros c' r' Hc' Hd' Hm' T. destruct (FINE c' Hc') as (_ & F & _). apply F; [exact Hm'|apply MV; assumption|exact T].
    + intros c' r' Hc' Hd' _ _. apply MV; assumption.
  - intros g f t Hg M NE H. apply (Z c0 (mkRemap g f t) d Hc0); [split; [rewrite (SAME c0 Hc0 Hd0); exact Hg|auto]|exact Hd0|].
    intros c' r' Hc' Hd' (A & B & C). rewrite (SAME c' Hc' Hd') in A. exact (H _ _ _ A B C).
  - intros b H. apply U. intros c r Hc Hd (A & B & C). rewrite (SAME c Hc Hd) in A. exact (H _ _ _ A B C).
Qed.
End Values.
Print Assumptions C24_cell.
Print Assumptions C24_remap.
Print Assumptions C24_remap_interior.

(** ** Examples *)
(** Two cells with three degrees of freedom, grains 10 and 11 swap their order
    parameters 0 and 1, grain 12 moves from 2 to 3; block 0 is no order parameter. *)
Definition swap_grains : fmap (nat * nat) := [(10, (0, 1)); (11, (1, 0)); (12, (2, 3))].
Definition swap_cells : list rcell := [mkRCell [0; 1] [10; 11; 12]; mkRCell [1; 2] [10; 11; 12]].
Definition swap_field (b d : nat) : nat := 100 * b + d + 7.

Example C24_example : msorted swap_grains /\ (forall c, In c swap_cells -> cell_fine 5 1 swap_grains c) /\
  exists u', remap nat 0 5 1 (fun _ _ l => l) (fun _ _ l => l) swap_grains swap_cells swap_field = Some (u', 3) /\
    map (fun b => map (u' b) [0; 1; 2]) [0; 1; 2; 3; 4] = [[7; 8; 9]; [207; 208; 209]; [107; 108; 109]; [0; 0; 0]; [307; 308; 309]].
Proof.
  split; [unfold msorted; cbn; repeat constructor|]. split.
  - assert (ALL : forall c r, moved swap_grains c r -> m_grain r = 10 /\ m_from r = 0 /\ m_to r = 1 \/ m_grain r = 11 /\ m_from r = 1 /\ m_to r = 0 \/ m_grain r = 12 /\ m_from r = 2 /\ m_to r = 3).
    { intros c [g f t] (_ & H & _). cbn [m_grain m_from m_to] in *. unfold swap_grains in H. cbn [mget] in H. destruct (Nat.eqb_spec 10 g) as [<-|]; [injection H as <- <-; auto 6|]. destruct (Nat.eqb_spec 11 g) as [<-|]; [injection H as <- <-; auto 6|]. destruct (Nat.eqb_spec 12 g) as [<-|]; [injection H as <- <-; auto 6|]. discriminate. }
    intros c [<-|[<-|[]]]; (split; [cbn; repeat constructor; cbn; intuition lia|]; split).
    + intros [g f t] [g' f' t'] H H' E. apply ALL in H. apply ALL in H'. cbn in *. f_equal; lia.
    + intros r H. apply ALL in H. lia.
    + intros [g f t] [g' f' t'] H H' E. apply ALL in H. apply ALL in H'. cbn in *. f_equal; lia.
    + intros r H. apply ALL in H. lia.
  - eexists. split; [vm_compute; reflexivity|]. vm_compute. reflexivity.
Qed.

(** ** Where the claim fails *)
(** The proviso on neighbouring cells is needed: at a degree of freedom shared with a
    cell which does not know the grain (its values there are below the threshold of
    the detection) another grain leaving the new order parameter erases the moved
    value.  Grain 10 moves from 0 to 1 at the first cell, grain 11 from 1 to 2 at the
    second one; the value of grain 10 at the shared degree of freedom is lost. *)
Definition chain_grains : fmap (nat * nat) := [(10, (0, 1)); (11, (1, 2))].
Definition chain_cells : list rcell := [mkRCell [0; 1] [10]; mkRCell [1; 2] [11]].
Definition chain_field (b d : nat) : nat := match b, d with 0, 0 => 9 | 0, 1 => 3 | 1, 2 => 8 | _, _ => 0 end.

Theorem C24_shared_dofs_refuted : ~ forall grains cells u u' n c r d, msorted grains -> (forall c, In c cells -> cell_fine 3 0 grains c) ->
  remap nat 0 3 0 (fun _ _ l => l) (fun _ _ l => l) grains cells u = Some (u', n) ->
  In c cells -> moved grains c r -> In d (c_dofs c) -> u' (m_to r) d = u (m_from r) d.
Proof.
  intro H. assert (X : 0 = 3); [|discriminate].
  assert (ALL : forall c r, moved chain_grains c r -> m_grain r = 10 /\ m_from r = 0 /\ m_to r = 1 \/ m_grain r = 11 /\ m_from r = 1 /\ m_to r = 2).
  { intros c [g f t] (_ & M & _). cbn [m_grain m_from m_to] in *. unfold chain_grains in M. cbn [mget] in M. destruct (Nat.eqb_spec 10 g) as [<-|]; [injection M as <- <-; auto 6|]. destruct (Nat.eqb_spec 11 g) as [<-|]; [injection M as <- <-; auto 6|]. discriminate. }
  refine (H chain_grains chain_cells chain_field _ _ (mkRCell [0; 1] [10]) (mkRemap 10 0 1) 1 _ _ eq_refl _ _ _).
  - unfold msorted; cbn; repeat constructor.
  - intros c [<-|[<-|[]]]; (split; [cbn; repeat constructor; cbn; intuition lia|]; split).
    + intros [g f t] [g' f' t'] H1 H2 E. apply ALL in H1. apply ALL in H2. cbn in *. f_equal; lia.
    + intros r H1. apply ALL in H1. lia.
    + intros [g f t] [g' f' t'] H1 H2 E. apply ALL in H1. apply ALL in H2. cbn in *. f_equal; lia.
    + intros r H1. apply ALL in H1. lia.
  - left. reflexivity.
  - split; [left; reflexivity|]. split; [reflexivity|]. cbn. lia.
  - right. left. reflexivity.
Qed.
Print Assumptions C24_shared_dofs_refuted.
