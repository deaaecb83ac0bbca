(** Properties of the output of cell-wise data (claim C123). *)
From Coq Require Import Ascii String QArith ZArith NArith List Arith Lia.
From Verif Require Import Util MeshFlagsModel ResultsFileModel CellOutputModel.
Import ListNotations.
Open Scope nat_scope.
Open Scope list_scope.

Lemma set_nth_some : forall A (l : list A) i x, i < List.length l ->
  exists l', set_nth l i x = Some l' /\ List.length l' = List.length l /\
    nth_error l' i = Some x /\ (forall j, j <> i -> nth_error l' j = nth_error l j).
Proof.
  induction l as [|a r IH]; intros i x Hi; cbn [List.length] in Hi; [lia|].
  destruct i as [|i].
  - exists (x :: r). repeat split. intros [|j] Hj; [lia|reflexivity].
  - destruct (IH i x) as (r' & E & L & N1 & N2); [lia|].
    exists (a :: r'). cbn [set_nth]. rewrite E. cbn [obind List.length nth_error].
    split; [reflexivity|]. split; [lia|]. split; [exact N1|].
    intros [|j] Hj; [reflexivity|]. cbn [nth_error]. apply N2. lia.
Qed.

(** ** Pores *)

(** the identifier that the detection gave to a cell *)
Definition pore_of (pids : list Z) (c : xcell) : Z := nth (x_gid c) pids (-1)%Z.

(** an owned active cell in a pore *)
Definition in_pore (pids : list Z) (c : xcell) : bool :=
  x_active c && x_owned c && negb (Z.eqb (pore_of pids c) (-1)%Z).

(** What the triangulation and the detection of pores provide. *)
Record consistent (n_active : nat) (pids l2g : list Z) (offset : N) (cells : list xcell) : Prop := {
  co_nodup : NoDup (map x_index (filter x_active cells));
  co_index : forall c, In c cells -> x_active c = true -> x_index c < n_active;
  co_gid : forall c, In c cells -> x_active c = true -> x_owned c = true ->
    x_gid c < List.length pids;
  co_range : forall c, In c cells -> in_pore pids c = true ->
    (Z.of_N offset <= pore_of pids c < Z.of_N offset + Z.of_nat (List.length l2g))%Z /\
    (pore_of pids c < 2 ^ 32)%Z;
  co_unsigned : forall z, In z l2g -> (0 <= z)%Z }.

(** the global identifier of the pore of a cell *)
Definition global_id (pids l2g : list Z) (offset : N) (c : xcell) : Z :=
  nth (Z.to_nat (pore_of pids c - Z.of_N offset)) l2g 0%Z.

Lemma u32_diff : forall p (o : N), (Z.of_N o <= p < 2 ^ 32)%Z ->
  N.to_nat (u32_sub (u32 (Z.to_N p)) o) = Z.to_nat (p - Z.of_N o).
Proof.
  intros p o H. unfold u32_sub, u32.
  assert (Ho : (o < 2 ^ 32)%N) by lia.
  assert (Hp : (Z.to_N p < 2 ^ 32)%N) by lia.
  assert (Hl : (o <= Z.to_N p)%N) by lia.
  rewrite (N.mod_small o) by exact Ho. rewrite (N.mod_small (Z.to_N p)) by exact Hp.
  replace (Z.to_N p + 2 ^ 32 - o)%N with ((Z.to_N p - o) + 1 * 2 ^ 32)%N by lia.
  rewrite N.mod_add by discriminate. rewrite N.mod_small by lia. lia.
Qed.

Definition expected (pids l2g : list Z) (offset : N) (c : xcell) : Z :=
  if in_pore pids c then global_id pids l2g offset c else (-1)%Z.

Lemma porosity_id_expected : forall pids l2g offset c,
  x_active c = true -> x_owned c = true -> x_gid c < List.length pids ->
  (in_pore pids c = true ->
    (Z.of_N offset <= pore_of pids c < Z.of_N offset + Z.of_nat (List.length l2g))%Z /\
    (pore_of pids c < 2 ^ 32)%Z) ->
  porosity_id pids l2g offset c = Some (expected pids l2g offset c).
Proof.
  intros pids l2g offset c Ha Ho Hg Hr. unfold porosity_id.
  rewrite (nth_error_nth' pids (-1)%Z Hg). cbn [obind]. fold (pore_of pids c).
  unfold expected. unfold in_pore in *. rewrite Ha, Ho in *. cbn [andb] in *. unfold invalid_id.
  destruct (Z.eqb (pore_of pids c) (-1)) eqn:E; cbn [negb] in *; [reflexivity|].
  destruct (Hr eq_refl) as [H1 H2].
  rewrite u32_diff by lia. unfold global_id. apply nth_error_nth'. lia.
Qed.

Lemma fill_ids_spec : forall n_active pids l2g offset cells v,
  List.length v = n_active ->
  NoDup (map x_index (filter x_active cells)) ->
  (forall c, In c cells -> x_active c = true -> x_index c < n_active) ->
  (forall c, In c cells -> x_active c = true -> x_owned c = true ->
     porosity_id pids l2g offset c = Some (expected pids l2g offset c)) ->
  exists v', fill_ids pids l2g offset cells v = Some v' /\
    (forall c, In c cells -> x_active c = true -> x_owned c = true ->
       nth_error v' (x_index c) = Some (expected pids l2g offset c)) /\
    (forall j, ~ In j (map x_index (filter x_active cells)) -> nth_error v' j = nth_error v j).
Proof.
  intros n_active pids l2g offset cells. induction cells as [|c r IH]; intros v Hv Hn Hi Hp.
  - exists v. split; [reflexivity|]. split; [intros c []|]. reflexivity.
  - cbn [fill_ids filter] in *. destruct (x_active c) eqn:Ha.
    + cbn [map] in *. inversion Hn as [|? ? Hn1 Hn2]; subst.
      destruct (x_owned c) eqn:Ho.
      * rewrite (Hp c (or_introl eq_refl) Ha Ho). cbn [obind].
        destruct (set_nth_some Z v (x_index c) (expected pids l2g offset c)) as (v1 & E1 & L1 & N1 & N2).
        { apply Hi; [left; reflexivity|exact Ha]. }
        rewrite E1. cbn [obind].
        destruct (IH v1 L1 Hn2) as (v' & E & S1 & S2).
        { intros c' Hc'. apply Hi. right. exact Hc'. }
        { intros c' Hc'. apply Hp. right. exact Hc'. }
        exists v'. split; [exact E|]. split.
        -- intros c' [<-|Hc'] Ha' Ho'; [|apply S1; assumption].
           rewrite S2 by exact Hn1. exact N1.
        -- intros j Hj. cbn [In] in Hj. rewrite S2 by tauto. apply N2. intro; subst; tauto.
      * destruct (IH v eq_refl Hn2) as (v' & E & S1 & S2).
        { intros c' Hc'. apply Hi. right. exact Hc'. }
        { intros c' Hc'. apply Hp. right. exact Hc'. }
        exists v'. split; [exact E|]. split.
        -- intros c' [<-|Hc'] Ha' Ho'; [congruence|apply S1; assumption].
        -- intros j Hj. cbn [In] in Hj. apply S2. tauto.
    + destruct (IH v Hv Hn) as (v' & E & S1 & S2).
      { intros c' Hc'. apply Hi. right. exact Hc'. }
      { intros c' Hc'. apply Hp. right. exact Hc'. }
      exists v'. split; [exact E|]. split; [|exact S2].
      intros c' [<-|Hc'] Ha' Ho'; [congruence|apply S1; assumption].
Qed.

Lemma visit_spec : forall pids l2g offset v cells,
  (forall z, In z l2g -> (0 <= z)%Z) ->
  (forall c, In c cells -> x_active c = true -> x_owned c = true ->
       nth_error v (x_index c) = Some (expected pids l2g offset c)) ->
  forall fuel, List.length cells < fuel ->
  obind (get_valid_cell v cells) (visit fuel v) =
  Some (map (fun c => (c, global_id pids l2g offset c)) (filter (in_pore pids) cells)).
Proof.
  intros pids l2g offset v cells Hu. induction cells as [|c r IH]; intros Hv fuel Hf.
  - destruct fuel; [inversion Hf|reflexivity].
  - cbn [List.length] in Hf. destruct fuel as [|fuel]; [lia|].
    assert (Hr : forall c, In c r -> x_active c = true -> x_owned c = true ->
       nth_error v (x_index c) = Some (expected pids l2g offset c)).
    { intros c' Hc'. apply Hv. right. exact Hc'. }
    cbn [get_valid_cell filter].
    assert (Hc : cell_valid v c = Some (in_pore pids c)).
    { unfold cell_valid. destruct (x_active c) eqn:Ha; [|unfold in_pore; rewrite Ha; reflexivity].
      destruct (x_owned c) eqn:Ho; [|unfold in_pore; rewrite Ha, Ho; reflexivity].
      rewrite (Hv c (or_introl eq_refl) Ha Ho). cbn [obind]. unfold expected, invalid_id.
      destruct (in_pore pids c) eqn:E; [|reflexivity].
      assert (Hg : (0 <= global_id pids l2g offset c)%Z).
      { unfold global_id.
        destruct (nth_in_or_default (Z.to_nat (pore_of pids c - Z.of_N offset)) l2g 0%Z) as [Hi|Hi];
          [exact (Hu _ Hi)|rewrite Hi; lia]. }
      destruct (Z.eqb_spec (global_id pids l2g offset c) (-1)) as [E'|E']; [lia|reflexivity]. }
    rewrite Hc. cbn [obind]. destruct (in_pore pids c) eqn:E.
    + cbn [obind visit map].
      assert (Ha : x_active c = true /\ x_owned c = true).
      { unfold in_pore in E. destruct (x_active c), (x_owned c); cbn in E; auto; discriminate. }
      destruct Ha as [Ha Ho]. rewrite (Hv c (or_introl eq_refl) Ha Ho). cbn [obind].
      unfold expected. rewrite E.
      specialize (IH Hr fuel). destruct (get_valid_cell v r) as [nx|] eqn:En; cbn [obind] in *.
      * rewrite IH by lia. reflexivity.
      * discriminate IH. lia.
    + apply IH; [exact Hr|lia].
Qed.

(** The file of the pores holds exactly the owned active cells that the detection put into a
    pore, in the order of the mesh and every one once, with the global identifier of their
    pore. No look-up runs out of range and no coarse cell is asked for an index. *)
Theorem C123_pores : forall n_active pids l2g offset cells,
  consistent n_active pids l2g offset cells ->
  output_porosity n_active pids l2g offset cells =
  Some (map (fun c => (c, nth (Z.to_nat (nth (x_gid c) pids (-1) - Z.of_N offset)%Z) l2g 0%Z))
        (filter (fun c => x_active c && x_owned c && negb (Z.eqb (nth (x_gid c) pids (-1)%Z) (-1)%Z)) cells)).
Proof.
  intros n_active pids l2g offset cells [H1 H2 H3 H4 H5]. unfold output_porosity.
  destruct (fill_ids_spec n_active pids l2g offset cells (repeat 0%Z n_active)) as (v & E & S1 & _).
  - apply repeat_length.
  - exact H1.
  - exact H2.
  - intros c Hc Ha Ho. apply porosity_id_expected; auto.
  - rewrite E. cbn [obind].
    exact (visit_spec pids l2g offset v cells H5 S1 (S (List.length cells)) (Nat.lt_succ_diag_r _)).
Qed.

(** ** Translation velocities *)

Definition get (m : list (list Q)) (v c : nat) : option Q :=
  col <- nth_error m v ;; nth_error col c.

Definition shaped (n_vec n_cells : nat) (m : list (list Q)) : Prop :=
  List.length m = n_vec /\ forall v col, nth_error m v = Some col -> List.length col = n_cells.

Lemma write1_spec : forall nv nc m v c x, shaped nv nc m -> v < nv -> c < nc ->
  exists m', write1 (Some m) (v, c, x) = Some m' /\ shaped nv nc m' /\
    get m' v c = Some x /\
    (forall v' c', (v', c') <> (v, c) -> get m' v' c' = get m v' c').
Proof.
  intros nv nc m v c x [L C] Hv Hc. unfold write1. cbn [obind fst snd].
  destruct (nth_error m v) as [col|] eqn:E; [|apply nth_error_None in E; lia].
  cbn [obind].
  destruct (set_nth_some Q col c x) as (col' & E1 & L1 & N1 & N2); [rewrite (C _ _ E); exact Hc|].
  rewrite E1. cbn [obind].
  destruct (set_nth_some _ m v col') as (m' & E2 & L2 & M1 & M2); [lia|].
  exists m'. split; [exact E2|]. split; [|split].
  - split; [lia|]. intros w cw Hw. destruct (Nat.eq_dec w v) as [->|Hn].
    + rewrite M1 in Hw. assert (cw = col') by congruence. subst. rewrite L1. exact (C _ _ E).
    + rewrite M2 in Hw by exact Hn. exact (C _ _ Hw).
  - unfold get. rewrite M1. exact N1.
  - intros v' c' Hn. unfold get. destruct (Nat.eq_dec v' v) as [->|Hv'].
    + rewrite M1, E. cbn [obind]. apply N2. congruence.
    + rewrite M2 by exact Hv'. reflexivity.
Qed.

Lemma writes_spec : forall nv nc ws m, shaped nv nc m ->
  (forall v c x, In (v, c, x) ws -> v < nv /\ c < nc) ->
  exists m', fold_left write1 ws (Some m) = Some m' /\ shaped nv nc m' /\
    (forall v c, (forall x, ~ In (v, c, x) ws) -> get m' v c = get m v c) /\
    (forall v c x, In (v, c, x) ws -> (forall y, In (v, c, y) ws -> y = x) -> get m' v c = Some x).
Proof.
  intros nv nc ws. induction ws as [|[[v0 c0] x0] ws IH]; intros m Hm Hw.
  - exists m. split; [reflexivity|]. split; [exact Hm|]. split; [reflexivity|]. intros v c x [].
  - destruct (Hw v0 c0 x0 (or_introl eq_refl)) as [Hv Hc].
    destruct (write1_spec nv nc m v0 c0 x0 Hm Hv Hc) as (m1 & E1 & S1 & G1 & G2).
    destruct (IH m1 S1) as (m' & E & S & U & V).
    { intros v c x H. apply (Hw v c x). right. exact H. }
    exists m'. cbn [fold_left]. rewrite E1. split; [exact E|]. split; [exact S|]. split.
    + intros v c H. rewrite U by (intros x Hx; apply (H x); right; exact Hx).
      apply G2. intro He. injection He as -> ->. apply (H x0). left. reflexivity.
    + intros v c x Hin Hu.
      assert (D : (exists y, In (v, c, y) ws) \/ (forall y, ~ In (v, c, y) ws)).
      { clear -ws. induction ws as [|[[a b] y] r IHr]; [right; intros y []|].
        destruct IHr as [[z Hz]|Hz]; [left; exists z; right; exact Hz|].
        destruct (Nat.eq_dec a v) as [->|Ha].
        - destruct (Nat.eq_dec b c) as [->|Hb]; [left; exists y; left; reflexivity|].
          right. intros z [He|He]; [congruence|exact (Hz z He)].
        - right. intros z [He|He]; [congruence|exact (Hz z He)]. }
      destruct D as [[y Hy]|D].
      * assert (y = x) by (apply Hu; right; exact Hy). subst y.
        apply V; [exact Hy|]. intros z Hz. apply Hu. right. exact Hz.
      * rewrite U by exact D. destruct Hin as [He|He]; [|exfalso; exact (D x He)].
        injection He as -> -> ->. exact G1.
Qed.

Lemma zero_velocities_repeat : forall dim n nc,
  zero_velocities dim n nc = repeat (repeat 0%Q nc) (n * dim).
Proof.
  intros dim n nc. unfold zero_velocities.
  assert (M : forall A (a : A) s k, map (fun _ : nat => a) (seq s k) = repeat a k).
  { intros A a s k. revert s. induction k as [|k IH]; intros s; [reflexivity|].
    cbn [seq map repeat]. rewrite IH. reflexivity. }
  generalize 0 at 2 as s. induction n as [|n IH]; intros s; [reflexivity|].
  cbn [seq flat_map]. rewrite IH, M, <- repeat_app. reflexivity.
Qed.

Lemma nth_error_repeat_lt : forall A (a : A) n i, i < n -> nth_error (repeat a n) i = Some a.
Proof.
  intros A a n. induction n as [|n IH]; intros i H; [lia|].
  destruct i; [reflexivity|]. cbn [repeat nth_error]. apply IH. lia.
Qed.

Lemma pairs_nth : forall dim n s i d, i < n -> d < dim ->
  nth_error (flat_map (fun ig => map (fun d => (ig, d)) (seq 0 dim)) (seq s n)) (dim * i + d)
  = Some (s + i, d).
Proof.
  intros dim n. induction n as [|n IH]; intros s i d Hi Hd; [lia|].
  cbn [seq flat_map]. destruct i as [|i].
  - rewrite nth_error_app1 by (rewrite map_length, seq_length; lia).
    rewrite (map_nth_error _ (dim * 0 + d) (seq 0 dim) (d := d)).
    + f_equal. f_equal. lia.
    + rewrite (nth_error_nth' _ 0) by (rewrite seq_length; lia).
      rewrite seq_nth by lia. f_equal. lia.
  - rewrite nth_error_app2 by (rewrite map_length, seq_length; nia).
    rewrite map_length, seq_length.
    replace (dim * S i + d - dim) with (dim * i + d) by nia.
    rewrite IH by lia. f_equal. f_equal. lia.
Qed.

Lemma pairs_length : forall dim n s,
  List.length (flat_map (fun ig => map (fun d => (ig, d)) (seq 0 dim)) (seq s n)) = dim * n.
Proof.
  intros dim n. induction n as [|n IH]; intros s; [cbn; lia|].
  cbn [seq flat_map]. rewrite app_length, IH, map_length, seq_length. lia.
Qed.

Lemma pairs_in : forall dim n ig d,
  In (ig, d) (flat_map (fun ig => map (fun d => (ig, d)) (seq 0 dim)) (seq 0 n)) -> ig < n /\ d < dim.
Proof.
  intros dim n ig d H. apply in_flat_map in H. destruct H as (i & Hi & H).
  apply in_map_iff in H. destruct H as (e & He & H). injection He as -> ->.
  apply in_seq in Hi. apply in_seq in H. lia.
Qed.

Lemma named_vectors_spec : forall dim n prefix m, List.length m = dim * n ->
  named_vectors dim n prefix m =
  Some (map (fun k => ((prefix ++ to_string (fst k))%string, nth (dim * fst k + snd k) m []))
    (flat_map (fun ig => map (fun d => (ig, d)) (seq 0 dim)) (seq 0 n))).
Proof.
  intros dim n prefix m Hm. unfold named_vectors.
  assert (H : forall k, In k (flat_map (fun ig => map (fun d => (ig, d)) (seq 0 dim)) (seq 0 n)) ->
    dim * fst k + snd k < List.length m).
  { intros [ig d] Hk. apply pairs_in in Hk. cbn [fst snd]. rewrite Hm. nia. }
  revert H. generalize (flat_map (fun ig => map (fun d => (ig, d)) (seq 0 dim)) (seq 0 n)) as L.
  induction L as [|k L IH]; intros H; [reflexivity|].
  cbn [fold_right map]. rewrite IH by (intros; apply H; right; assumption). cbn [obind].
  rewrite (nth_error_nth' m []) by (apply H; left; reflexivity). reflexivity.
Qed.

Lemma in_combine_seq : forall A (l : list A) s i x,
  In (i, x) (combine (seq s (List.length l)) l) <-> s <= i /\ nth_error l (i - s) = Some x.
Proof.
  intros A l. induction l as [|a r IH]; intros s i x.
  - cbn [List.length seq combine In]. split; [intros []|]. intros [_ H].
    destruct (i - s); discriminate.
  - cbn [List.length seq combine In]. rewrite IH. split.
    + intros [H|[H1 H2]].
      * injection H as -> ->. split; [lia|]. rewrite Nat.sub_diag. reflexivity.
      * split; [lia|]. replace (i - s) with (S (i - S s)) by lia. exact H2.
    + intros [H1 H2]. destruct (Nat.eq_dec i s) as [->|Hn].
      * left. rewrite Nat.sub_diag in H2. cbn in H2. congruence.
      * right. split; [lia|]. replace (i - s) with (S (i - S s)) in H2 by lia. exact H2.
Qed.

Lemma in_writes : forall dim n batches has vt v c x,
  In (v, c, x) (velocity_writes dim n batches has vt) <->
  exists b cs ig l d, nth_error batches b = Some cs /\ nth_error cs l = Some c /\
    ig < n /\ d < dim /\ has b ig = true /\ v = dim * ig + d /\ x = vt b ig d l.
Proof.
  intros dim n batches has vt v c x. unfold velocity_writes. rewrite in_flat_map. split.
  - intros ([b cs] & Hb & H). apply in_combine_seq in Hb. rewrite Nat.sub_0_r in Hb.
    apply in_flat_map in H. destruct H as (ig & Hig & H). cbn [fst snd] in H.
    destruct (has b ig) eqn:Eh; [|destruct H].
    apply in_flat_map in H. destruct H as ([l c'] & Hl & H).
    apply in_combine_seq in Hl. rewrite Nat.sub_0_r in Hl.
    apply in_map_iff in H. destruct H as (d & Hd & Hin). cbn [fst snd] in Hd.
    assert (v = dim * ig + d /\ c = c' /\ x = vt b ig d l) as (-> & -> & ->).
    { split; [congruence|]. split; congruence. }
    apply in_seq in Hig. apply in_seq in Hin.
    exists b, cs, ig, l, d. split; [tauto|]. split; [tauto|]. split; [lia|]. split; [lia|]. auto.
  - intros (b & cs & ig & l & d & Hb & Hl & Hig & Hd & Hh & -> & ->).
    exists (b, cs). split.
    { apply in_combine_seq. rewrite Nat.sub_0_r. split; [lia|exact Hb]. }
    apply in_flat_map. exists ig. split; [apply in_seq; lia|]. cbn [fst snd]. rewrite Hh.
    apply in_flat_map. exists (l, c). split.
    { apply in_combine_seq. rewrite Nat.sub_0_r. split; [lia|exact Hl]. }
    apply in_map_iff. exists d. split; [reflexivity|apply in_seq; lia].
Qed.

Lemma nodup_app_r : forall A (a b : list A), NoDup (a ++ b) -> NoDup b.
Proof. induction a as [|x a IH]; intros b H; [exact H|]. inversion H; subst. auto. Qed.

Lemma nodup_app_l : forall A (a b : list A), NoDup (a ++ b) -> NoDup a.
Proof.
  induction a as [|x a IH]; intros b H; [constructor|]. inversion H; subst.
  constructor; [|eauto]. intro Hx. apply H2. apply in_or_app. left. exact Hx.
Qed.

Lemma nodup_app_disj : forall A (a b : list A) x, NoDup (a ++ b) -> In x a -> In x b -> False.
Proof.
  induction a as [|y a IH]; intros b x H Ha Hb; [destruct Ha|]. inversion H; subst.
  destruct Ha as [->|Ha]; [apply H2; apply in_or_app; right; exact Hb|eauto].
Qed.

Lemma in_concat_nth : forall (batches : list (list nat)) b cs l c,
  nth_error batches b = Some cs -> nth_error cs l = Some c -> In c (concat batches).
Proof.
  intros batches b cs l c Hb Hl. apply in_concat. exists cs.
  split; [eapply nth_error_In; exact Hb|eapply nth_error_In; exact Hl].
Qed.

Lemma lane_unique : forall (batches : list (list nat)), NoDup (concat batches) ->
  forall b cs l b' cs' l' c,
  nth_error batches b = Some cs -> nth_error cs l = Some c ->
  nth_error batches b' = Some cs' -> nth_error cs' l' = Some c -> b = b' /\ l = l'.
Proof.
  induction batches as [|a r IH]; intros Hn b cs l b' cs' l' c Hb Hl Hb' Hl'.
  - destruct b; discriminate.
  - cbn [concat] in Hn. destruct b as [|b], b' as [|b']; cbn [nth_error] in Hb, Hb'.
    + assert (a = cs) by congruence. assert (a = cs') by congruence. subst cs cs'.
      split; [reflexivity|].
      apply (proj1 (NoDup_nth_error a) (nodup_app_l _ _ _ Hn)).
      * apply nth_error_Some. congruence.
      * congruence.
    + exfalso. assert (a = cs) by congruence. subst cs.
      apply (nodup_app_disj _ _ _ c Hn); [eapply nth_error_In; exact Hl|].
      eapply in_concat_nth; eassumption.
    + exfalso. assert (a = cs') by congruence. subst cs'.
      apply (nodup_app_disj _ _ _ c Hn); [eapply nth_error_In; exact Hl'|].
      eapply in_concat_nth; eassumption.
    + destruct (IH (nodup_app_r _ _ _ Hn) b cs l b' cs' l' c) as [-> ->]; auto.
Qed.

(** Every order parameter has one vector per direction, at position dim * ig + d. A cell of the
    matrix-free loops gets the velocity of its batch and its lane if the batch has one for that
    order parameter, and 0 otherwise; the other cells (ghosts) get 0. *)
Theorem C123_velocities : forall dim n n_cells prefix batches has vt,
  NoDup (concat batches) -> (forall c, In c (concat batches) -> c < n_cells) ->
  exists out, translation_vectors dim n n_cells prefix batches has vt = Some out /\
    List.length out = dim * n /\
    forall ig d, ig < n -> d < dim -> exists col,
      nth_error out (dim * ig + d) = Some ((prefix ++ to_string ig)%string, col) /\
      List.length col = n_cells /\
      (forall b cs l c, nth_error batches b = Some cs -> nth_error cs l = Some c ->
         nth_error col c = Some (if has b ig then vt b ig d l else 0%Q)) /\
      (forall c, c < n_cells -> ~ In c (concat batches) -> nth_error col c = Some 0%Q).
Proof.
  intros dim n nc prefix batches has vt Hn Hc. unfold translation_vectors.
  rewrite zero_velocities_repeat.
  assert (S0 : shaped (dim * n) nc (repeat (repeat 0%Q nc) (n * dim))).
  { split; [rewrite repeat_length; lia|]. intros v col H. apply nth_error_In in H.
    apply repeat_spec in H. subst. apply repeat_length. }
  destruct (writes_spec (dim * n) nc (velocity_writes dim n batches has vt) _ S0)
    as (m & E & [L C] & U & V).
  { intros v c x H. apply in_writes in H.
    destruct H as (b & cs & ig & l & d & Hb & Hl & Hig & Hd & _ & -> & _).
    split; [nia|]. apply Hc. eapply in_concat_nth; eassumption. }
  rewrite E. cbn [obind]. rewrite named_vectors_spec by exact L.
  eexists. split; [reflexivity|]. split; [rewrite map_length; apply pairs_length|].
  intros ig d Hig Hd.
  assert (Hlt : dim * ig + d < dim * n) by nia.
  exists (nth (dim * ig + d) m []).
  assert (Em : nth_error m (dim * ig + d) = Some (nth (dim * ig + d) m [])).
  { apply nth_error_nth'. lia. }
  assert (Z0 : forall c, c < nc -> get (repeat (repeat 0%Q nc) (n * dim)) (dim * ig + d) c = Some 0%Q).
  { intros c H. unfold get. rewrite nth_error_repeat_lt by lia. cbn [obind].
    apply nth_error_repeat_lt. exact H. }
  assert (G : forall c, get m (dim * ig + d) c = nth_error (nth (dim * ig + d) m []) c).
  { intros c. unfold get. rewrite Em. reflexivity. }
  split.
  { erewrite map_nth_error by (apply (pairs_nth dim n 0 ig d Hig Hd)). reflexivity. }
  split; [exact (C _ _ Em)|]. split.
  - intros b cs l c Hb Hl. rewrite <- G. destruct (has b ig) eqn:Eh.
    + apply V.
      * apply in_writes. exists b, cs, ig, l, d. auto 10.
      * intros y Hy. apply in_writes in Hy.
        destruct Hy as (b' & cs' & ig' & l' & d' & Hb' & Hl' & Hig' & Hd' & _ & Hv & ->).
        destruct (Nat.div_mod_unique dim ig ig' d d' Hd Hd' Hv) as [<- <-].
        destruct (lane_unique batches Hn b cs l b' cs' l' c Hb Hl Hb' Hl') as [<- <-]. reflexivity.
    + rewrite U.
      * apply Z0. apply Hc. eapply in_concat_nth; eassumption.
      * intros x Hx. apply in_writes in Hx.
        destruct Hx as (b' & cs' & ig' & l' & d' & Hb' & Hl' & Hig' & Hd' & Hh & Hv & _).
        destruct (Nat.div_mod_unique dim ig ig' d d' Hd Hd' Hv) as [<- <-].
        destruct (lane_unique batches Hn b cs l b' cs' l' c Hb Hl Hb' Hl') as [<- <-]. congruence.
  - intros c Hlc Hnc. rewrite <- G, U.
    + apply Z0. exact Hlc.
    + intros x Hx. apply in_writes in Hx.
      destruct Hx as (b' & cs' & ig' & l' & d' & Hb' & Hl' & _).
      apply Hnc. eapply in_concat_nth; eassumption.
Qed.

(** The vectors of the directions of one order parameter share their name, so that the names in
    the file are never distinct in two or three dimensions: the directions cannot be told apart by
    name. *)
Theorem C123_names_refuted : forall dim n n_cells prefix batches has vt out,
  NoDup (concat batches) -> (forall c, In c (concat batches) -> c < n_cells) ->
  2 <= dim -> 1 <= n ->
  translation_vectors dim n n_cells prefix batches has vt = Some out ->
  ~ NoDup (map fst out).
Proof.
  intros dim n nc prefix batches has vt out Hn Hc Hd Hg E H.
  destruct (C123_velocities dim n nc prefix batches has vt Hn Hc) as (out' & E' & L & S).
  assert (out' = out) by congruence. subst out'.
  destruct (S 0 0) as (c0 & H0 & _); [lia|lia|].
  destruct (S 0 1) as (c1 & H1 & _); [lia|lia|].
  assert (F : dim * 0 + 0 = dim * 0 + 1).
  { apply (proj1 (NoDup_nth_error (map fst out)) H).
    - rewrite map_length, L. nia.
    - rewrite (map_nth_error fst _ _ H0), (map_nth_error fst _ _ H1). reflexivity. }
  lia.
Qed.

(** ** Cases *)

(** A coarse cell, four active cells of which one is a ghost; two pores on this rank, whose
    numbers start at 3. *)
Definition ex_cells : list xcell :=
  [XCell false false 0 0; XCell true true 0 0; XCell true true 1 1; XCell true false 2 2;
   XCell true true 3 3].

Example ex_consistent : consistent 4 [3; -1; 4; 4]%Z [0; 7]%Z 3 ex_cells.
Proof.
  split.
  - cbn. repeat constructor; cbn; intuition discriminate.
  - intros c H. cbn in H. intuition (subst; cbn in *; try discriminate; lia).
  - intros c H. cbn in H. intuition (subst; cbn in *; try discriminate; lia).
  - intros c H. cbn in H. intuition (subst; cbn in *; try discriminate; lia).
  - intros z H. cbn in H. intuition (subst; lia).
Qed.

Example ex_pores : output_porosity 4 [3; -1; 4; 4]%Z [0; 7]%Z 3 ex_cells =
  Some [(XCell true true 0 0, 0%Z); (XCell true true 3 3, 7%Z)].
Proof. reflexivity. Qed.

(** Two batches of two and one filled lanes on four cells, two order parameters in 2D; the
    first batch has a velocity for the second order parameter only. *)
Example ex_velocities :
  translation_vectors 2 2 4 "trans" [[2; 0]; [1]] (fun b ig => negb (Nat.eqb b ig))
    (fun b ig d l => inject_Z (Z.of_nat (1000 * b + 100 * ig + 10 * d + l))) =
  Some [("trans0"%string, [0; inject_Z 1000; 0; 0]%Q); ("trans0"%string, [0; inject_Z 1010; 0; 0]%Q);
        ("trans1"%string, [inject_Z 101; 0; inject_Z 100; 0]%Q);
        ("trans1"%string, [inject_Z 111; 0; inject_Z 110; 0]%Q)].
Proof. vm_compute. reflexivity. Qed.

Example ex_batches : NoDup (concat [[2; 0]; [1]]) /\ forall c, In c (concat [[2; 0]; [1]]) -> c < 4.
Proof.
  split; [cbn; repeat constructor; cbn; intuition discriminate|].
  intros c H. cbn in H. intuition (subst; lia).
Qed.

Print Assumptions C123_pores.
Print Assumptions C123_velocities.
Print Assumptions C123_names_refuted.
