(** C82: the tables with the forces of the grains. *)
From Coq Require Import QArith String List Arith Bool Lia Lqa.
From Verif Require Import Util StatsModel.
Import ListNotations.
Local Open Scope list_scope.
Local Open Scope nat_scope.

(** ** The numbers of the segments *)
Lemma key_eqb_spec : forall a b, reflect (a = b) (key_eqb a b).
Proof.
  intros [[x |] i] [[y |] j]; unfold key_eqb; cbn [fst snd];
    try (destruct (Nat.eqb_spec x y)); destruct (Nat.eqb_spec i j); cbn [andb]; constructor; congruence.
Qed.

Definition later (s : numbers * nat) (l : list key) := fold_left (fun s k => ((k, snd s) :: fst s, S (snd s))) l s.

Lemma later_spec : forall l s,
  (forall k i, number_at (fst s) k = Some i -> i < snd s) ->
  (forall k k' i, number_at (fst s) k = Some i -> number_at (fst s) k' = Some i -> k = k') ->
  (forall k i, number_at (fst (later s l)) k = Some i -> i < snd (later s l))
  /\ (forall k k' i, number_at (fst (later s l)) k = Some i -> number_at (fst (later s l)) k' = Some i -> k = k')
  /\ snd (later s l) = snd s + length l
  /\ (forall k, In k l -> exists i, number_at (fst (later s l)) k = Some i)
  /\ (forall k i, number_at (fst s) k = Some i -> exists i', number_at (fst (later s l)) k = Some i').
Proof.
  induction l as [| x l IH]; intros s B J.
  - unfold later. cbn [fold_left length]. split; [exact B |]. split; [exact J |]. split; [symmetry; apply Nat.add_0_r |]. split; [intros k [] | intros k i E; exists i; exact E].
  - change (later s (x :: l)) with (later ((x, snd s) :: fst s, S (snd s)) l).
    destruct (IH ((x, snd s) :: fst s, S (snd s))) as [A1 [A2 [A3 [A4 A5]]]].
    + cbn [fst snd number_at]. intros k i E. destruct (key_eqb_spec x k); [injection E as <-; lia | specialize (B _ _ E); lia].
    + cbn [fst snd number_at]. intros k k' i E E'. destruct (key_eqb_spec x k), (key_eqb_spec x k'); subst; try reflexivity.
      * injection E as <-. specialize (B _ _ E'). lia.
      * injection E' as <-. specialize (B _ _ E). lia.
      * exact (J _ _ _ E E').
    + split; [exact A1 |]. split; [exact A2 |]. split; [rewrite A3; cbn [snd length]; lia |]. split.
      * intros k [-> | I]; [| exact (A4 k I)]. apply (A5 k (snd s)). cbn [fst number_at]. destruct (key_eqb_spec k k); [reflexivity | contradiction].
      * intros k i E. cbn [fst number_at] in A5. specialize (A5 k). destruct (key_eqb_spec x k); [exact (A5 _ eq_refl) | exact (A5 _ E)].
Qed.

Lemma track_numbers : forall f,
  (forall k i, number_at (numbering (track f)) k = Some i -> i < n_total (track f))
  /\ (forall k k' i, number_at (numbering (track f)) k = Some i -> number_at (numbering (track f)) k' = Some i -> k = k')
  /\ n_total (track f) = length (concat (f_p2g f))
  /\ (forall k, In k (concat (f_p2g f)) -> exists i, number_at (numbering (track f)) k = Some i)
  /\ now (track f) = f.
Proof.
  intros f. unfold track, build_inverse_mapping. fold (later ([], 0) (concat (f_p2g f))).
  destruct (later_spec (concat (f_p2g f)) ([], 0)) as [A1 [A2 [A3 [A4 _]]]]; [discriminate | discriminate |].
  destruct (later ([], 0) (concat (f_p2g f))) as [m n] eqn:E. cbn [fst snd numbering n_total now] in *. auto.
Qed.

(** *** Two segments never share a number, every number is below the number of segments the
    data are sized for, and every segment has one *)
Theorem C82_numbering : forall f k k' i,
  In k (concat (f_p2g f)) -> In k' (concat (f_p2g f)) ->
  exists j, number_at (numbering (track f)) k = Some j /\ j < n_total (track f)
  /\ (number_at (numbering (track f)) k = Some i -> number_at (numbering (track f)) k' = Some i -> k = k').
Proof.
  intros f k k' i H H'. destruct (track_numbers f) as [A1 [A2 [_ [A4 _]]]]. destruct (A4 k H) as [j E].
  exists j. split; [exact E |]. split; [exact (A1 _ _ E) | exact (A2 k k' i)].
Qed.
Print Assumptions C82_numbering.

(** ** What should be in the table *)
(** the segment a particle belongs to *)
Definition belongs (f : found) (op cell : nat) (k : key) : Prop :=
  exists p l, f_particle f op cell = Some p /\ nth_error (f_p2g f) op = Some l /\ nth_error l p = Some k.
Fixpoint sum_q (l : list Q) : Q := match l with [] => 0 | x :: r => x + sum_q r end%Q.

Definition owned_by (f : found) (k : key) (op cell : nat) : bool :=
  match f_particle f op cell with
  | Some p => match nth_error (f_p2g f) op with Some l => match nth_error l p with Some k' => key_eqb k' k | None => false end | None => false end
  | None => false
  end.
Lemma owned_spec : forall f k op cell, owned_by f k op cell = true <-> belongs f op cell k.
Proof.
  intros f k op cell. unfold owned_by, belongs. split.
  - destruct (f_particle f op cell) as [p |]; [| discriminate]. destruct (nth_error (f_p2g f) op) as [l |] eqn:E; [| discriminate].
    destruct (nth_error l p) as [k' |] eqn:E'; [| discriminate]. intros H. destruct (key_eqb_spec k' k); [| discriminate]. subst. exists p, l. auto.
  - intros [p [l [-> [-> ->]]]]. destruct (key_eqb_spec k k); [reflexivity | contradiction].
Qed.

(** the sum of what the cells add where the order parameter belongs to the segment *)
Definition load (n_op : nat) (f : found) (e : evaluation) (k : key) (c : nat) : Q :=
  sum_q (flat_map (fun cell => map (fun op => if owned_by f k op cell then e_add e cell op c else 0%Q) (seq 0 n_op)) (e_cells e)).

(** particles have entries; grains have their segments *)
Definition consistent (n_op : nat) (f : found) (cells : list nat) : Prop :=
  forall cell op p, In cell cells -> op < n_op -> f_particle f op cell = Some p -> exists k, belongs f op cell k.
Definition segments_known (f : found) : Prop :=
  forall g n s, In (g, n) (f_grains f) -> s < n -> In (Some g, s) (concat (f_p2g f)).

Section Facts.
Variables (ncomp dim n_op : nat) (mt : Q).

Definition block (data : list Q) (i : nat) : nat -> option Q := fun c => vget data (ncomp * i + c).

Lemma same_place : forall i i' c c', c < ncomp -> c' < ncomp -> ncomp * i + c = ncomp * i' + c' -> i = i' /\ c = c'.
Proof. intros. assert (i = i') by nia. subst. split; [reflexivity | lia]. Qed.

Lemma add_components_spec : forall i v cs data, ncomp * S i <= length data -> (forall c, In c cs -> c < ncomp) -> NoDup cs ->
  exists data', add_components ncomp cs i v data = Some data' /\ length data' = length data
  /\ forall i' c, c < ncomp -> vget data' (ncomp * i' + c)
       = if Nat.eqb i' i && existsb (Nat.eqb c) cs then option_map (fun x => (x + v c)%Q) (vget data (ncomp * i' + c)) else vget data (ncomp * i' + c).
Proof.
  intros i v. induction cs as [| c0 cs IH]; intros data L B N.
  - exists data. cbn [add_components existsb]. split; [reflexivity |]. split; [reflexivity |]. intros. rewrite andb_false_r. reflexivity.
  - cbn [add_components]. inversion N as [| ? ? N1 N2]; subst. assert (B0 := B c0 (or_introl eq_refl)).
    destruct (vget_some _ data (ncomp * i + c0)) as [x Ex]; [nia |]. rewrite Ex. cbn [obind].
    destruct (vset_some _ data (ncomp * i + c0) (x + v c0)%Q) as [d Ed]; [nia |]. rewrite Ed. cbn [obind].
    assert (Ld := vset_length _ _ _ _ _ Ed).
    destruct (IH d) as [data' [E [L' G]]]; [rewrite Ld; exact L | intros c I; apply B; right; exact I | exact N2 |].
    exists data'. split; [exact E |]. split; [congruence |]. intros i' c Hc. rewrite G by exact Hc. rewrite !(vset_get _ _ _ _ _ _ Ed). cbn [existsb].
    destruct (Nat.eqb_spec i' i) as [-> | Ni]; cbn [andb].
    + destruct (Nat.eqb_spec c c0) as [-> | Nc]; cbn [orb].
      * rewrite Nat.eqb_refl. assert (existsb (Nat.eqb c0) cs = false).
        { destruct (existsb (Nat.eqb c0) cs) eqn:X; [| reflexivity]. apply existsb_exists in X. destruct X as [y [I Y]]. apply Nat.eqb_eq in Y. subst. contradiction. }
        rewrite H, Ex. reflexivity.
      * destruct (Nat.eqb_spec (ncomp * i + c) (ncomp * i + c0)); [lia | reflexivity].
    + destruct (Nat.eqb_spec (ncomp * i' + c) (ncomp * i + c0)) as [X | _]; [exfalso; apply Ni; exact (proj1 (same_place _ _ _ _ Hc B0 X)) | reflexivity].
Qed.

(** contribution of one order parameter of a cell to number [i] *)
Definition part (f : found) (m : numbers) (e : evaluation) (i c cell op : nat) : Q :=
  match f_particle f op cell with
  | Some p => match nth_error (f_p2g f) op with
              | Some l => match nth_error l p with
                          | Some (Some g, s) => match number_at m (Some g, s) with Some j => if Nat.eqb j i then e_add e cell op c else 0%Q | None => 0%Q end
                          | _ => 0%Q end
              | None => 0%Q end
  | None => 0%Q
  end.

Definition close (a b : option Q) : Prop := match a, b with Some x, Some y => (x == y)%Q | None, None => True | _, _ => False end.
Lemma close_refl : forall a, close a a.
Proof. destruct a; [apply Qeq_refl | exact I]. Qed.

Lemma add_ops_spec : forall f e cell ops data,
  let t := track f in
  ncomp * n_total t <= length data -> consistent n_op f [cell] -> (forall op, In op ops -> op < n_op) ->
  exists data', add_ops ncomp t e cell ops data = Some data' /\ length data' = length data
  /\ forall i c, c < ncomp -> close (vget data' (ncomp * i + c)) (option_map (fun x => (x + sum_q (map (part f (numbering t) e i c cell) ops))%Q) (vget data (ncomp * i + c))).
Proof.
  intros f e cell ops. induction ops as [| op ops IH]; intros data t L C B.
  - exists data. split; [reflexivity |]. split; [reflexivity |]. intros i c _. cbn [map sum_q]. destruct (vget data (ncomp * i + c)); cbn; [ring | exact I].
  - destruct (track_numbers f) as [A1 [A2 [_ [A4 A5]]]]. fold t in A1, A2, A4, A5.
    assert (STEP : exists d, (o <- owner t op cell ;;
       match o with None => Some data | Some k => i <- number_at (numbering t) k ;; add_components ncomp (seq 0 ncomp) i (e_add e cell op) data end) = Some d
       /\ length d = length data
       /\ forall i c, c < ncomp -> close (vget d (ncomp * i + c)) (option_map (fun x => (x + part f (numbering t) e i c cell op)%Q) (vget data (ncomp * i + c)))).
    { unfold owner, part. rewrite A5. destruct (f_particle f op cell) as [p |] eqn:Ep.
      - destruct (C cell op p (or_introl eq_refl) (B op (or_introl eq_refl)) Ep) as [k [p' [l [E1 [E2 E3]]]]]. rewrite Ep in E1. injection E1 as <-.
        unfold vget at 1. rewrite E2. cbn [obind]. unfold vget at 1. rewrite E3. cbn [obind]. destruct k as [[g |] s]; cbn [fst].
        + assert (I : In (Some g, s) (concat (f_p2g f))) by (apply in_concat; exists l; split; [exact (nth_error_In _ _ E2) | exact (nth_error_In _ _ E3)]).
          destruct (A4 _ I) as [j Ej]. rewrite Ej. cbn [obind].
          destruct (add_components_spec j (e_add e cell op) (seq 0 ncomp) data) as [d [Ed [Ld G]]].
          * specialize (A1 _ _ Ej). nia.
          * intros c Hc. apply in_seq in Hc. lia.
          * apply seq_NoDup.
          * exists d. split; [exact Ed |]. split; [exact Ld |]. intros i c Hc. rewrite G by exact Hc.
            assert (X : existsb (Nat.eqb c) (seq 0 ncomp) = true) by (apply existsb_exists; exists c; split; [apply in_seq; lia | apply Nat.eqb_refl]).
            rewrite X, andb_true_r, (Nat.eqb_sym i j). destruct (Nat.eqb j i); [apply close_refl |]. destruct (vget data (ncomp * i + c)); cbn; [ring | exact Logic.I].
        + exists data. split; [reflexivity |]. split; [reflexivity |]. intros i c Hc. destruct (vget data (ncomp * i + c)); cbn; [ring | exact I].
      - cbn [obind]. exists data. split; [reflexivity |]. split; [reflexivity |]. intros i c Hc. destruct (vget data (ncomp * i + c)); cbn; [ring | exact I]. }
    destruct STEP as [d [Ed [Ld G]]]. cbn [add_ops]. destruct (owner t op cell) as [o |]; [| discriminate]. cbn [obind] in *. rewrite Ed. cbn [obind].
    destruct (IH d) as [d' [Ed' [Ld' G']]]; [rewrite Ld; exact L | exact C | intros o' I'; apply B; right; exact I' |]. fold t in Ed', G'.
    exists d'. split; [exact Ed' |]. split; [congruence |]. intros i c Hc. specialize (G i c Hc). specialize (G' i c Hc).
    destruct (vget data (ncomp * i + c)), (vget d (ncomp * i + c)), (vget d' (ncomp * i + c)); cbn [close option_map map sum_q] in *; try contradiction; try exact I.
    rewrite G', G. ring.
Qed.

Lemma sum_app : forall a b, (sum_q (a ++ b) == sum_q a + sum_q b)%Q.
Proof. induction a as [| x a IH]; intros b; cbn [app sum_q]; [ring | rewrite IH; ring]. Qed.

Lemma add_cells_spec : forall f e cells data,
  let t := track f in
  ncomp * n_total t <= length data -> consistent n_op f cells ->
  exists data', add_cells ncomp n_op t e cells data = Some data' /\ length data' = length data
  /\ forall i c, c < ncomp -> close (vget data' (ncomp * i + c))
       (option_map (fun x => (x + sum_q (flat_map (fun cell => map (part f (numbering t) e i c cell) (seq 0 n_op)) cells))%Q) (vget data (ncomp * i + c))).
Proof.
  intros f e cells. induction cells as [| cell cells IH]; intros data t L C.
  - exists data. split; [reflexivity |]. split; [reflexivity |]. intros i c Hc. cbn [flat_map sum_q]. destruct (vget data (ncomp * i + c)); cbn; [ring | exact I].
  - destruct (add_ops_spec f e cell (seq 0 n_op) data L) as [d [Ed [Ld G]]].
    + intros c' op p [-> | []]. apply C. left; reflexivity.
    + intros op H. apply in_seq in H. lia.
    + fold t in Ed, G. cbn [add_cells]. rewrite Ed. cbn [obind].
      destruct (IH d) as [d' [Ed' [Ld' G']]]; [rewrite Ld; exact L | intros c' op p I'; apply C; right; exact I' |]. fold t in Ed', G'.
      exists d'. split; [exact Ed' |]. split; [congruence |]. intros i c Hc. specialize (G i c Hc). specialize (G' i c Hc). cbn [flat_map].
      destruct (vget data (ncomp * i + c)), (vget d (ncomp * i + c)), (vget d' (ncomp * i + c)); cbn [close option_map] in *; try contradiction; try exact I.
      rewrite G', G, sum_app. ring.
Qed.

Lemma sum_ext : forall A (f g : A -> Q) l, (forall x, In x l -> (f x == g x)%Q) -> (sum_q (map f l) == sum_q (map g l))%Q.
Proof. induction l as [| x l IH]; intros H; cbn [map sum_q]; [reflexivity | rewrite H by (left; reflexivity); rewrite IH by (intros; apply H; right; assumption); reflexivity]. Qed.
Lemma sum_flat_ext : forall (f g : nat -> nat -> Q) ops cells, (forall c o, In c cells -> In o ops -> (f c o == g c o)%Q) ->
  (sum_q (flat_map (fun c => map (f c) ops) cells) == sum_q (flat_map (fun c => map (g c) ops) cells))%Q.
Proof.
  induction cells as [| c cells IH]; intros H; cbn [flat_map]; [reflexivity |]. rewrite !sum_app, IH by (intros; apply H; [right; assumption | assumption]).
  rewrite (sum_ext _ (f c) (g c)) by (intros; apply H; [left; reflexivity | assumption]). reflexivity.
Qed.

(** after an evaluation the data of a segment are its loads *)
Lemma evaluate_spec : forall f e, consistent n_op f (e_cells e) ->
  exists data, evaluate ncomp n_op (track f) e = Some data /\ length data = ncomp * n_total (track f)
  /\ forall g s i c, number_at (numbering (track f)) (Some g, s) = Some i -> c < ncomp ->
       exists x, vget data (ncomp * i + c) = Some x /\ (x == load n_op f e (Some g, s) c)%Q.
Proof.
  intros f e C. destruct (add_cells_spec f e (e_cells e) (repeat 0%Q (ncomp * n_total (track f)))) as [d [Ed [Ld G]]]; [rewrite repeat_length; lia | exact C |].
  exists d. split; [exact Ed |]. rewrite repeat_length in Ld. split; [exact Ld |]. intros g s i c Ei Hc. specialize (G i c Hc).
  destruct (track_numbers f) as [A1 [A2 [_ [A4 A5]]]].
  assert (R : vget (repeat 0%Q (ncomp * n_total (track f))) (ncomp * i + c) = Some 0%Q).
  { unfold vget. apply nth_error_repeat. specialize (A1 _ _ Ei). nia. }
  rewrite R in G. destruct (vget d (ncomp * i + c)) as [x |]; cbn [close option_map] in G; [| contradiction]. exists x. split; [reflexivity |]. rewrite G. unfold load.
  rewrite Qplus_0_l. apply sum_flat_ext. intros cell op Ic Io. apply in_seq in Io. unfold part, owned_by.
  destruct (f_particle f op cell) as [p |] eqn:Ep; [| reflexivity].
  destruct (C cell op p Ic ltac:(lia) Ep) as [k [p' [l [E1 [E2 E3]]]]]. rewrite Ep in E1. injection E1 as <-. rewrite E2, E3.
  destruct k as [[g' |] s'].
  - assert (I : In (Some g', s') (concat (f_p2g f))) by (apply in_concat; exists l; split; [exact (nth_error_In _ _ E2) | exact (nth_error_In _ _ E3)]).
    destruct (A4 _ I) as [j Ej]. rewrite Ej. destruct (key_eqb_spec (Some g', s') (Some g, s)) as [K | K].
    + rewrite K in Ej. rewrite Ei in Ej. injection Ej as ->. rewrite Nat.eqb_refl. reflexivity.
    + destruct (Nat.eqb_spec j i); [subst; exfalso; apply K; exact (A2 _ _ _ Ej Ei) | reflexivity].
  - destruct (key_eqb_spec (None, s') (Some g, s)); [discriminate | reflexivity].
Qed.

Lemma collect_spec : forall data i (v : nat -> Q) cs, (forall c, In c cs -> exists x, vget data (ncomp * i + c) = Some x /\ (x == v c)%Q) ->
  exists l, collect ncomp data i cs = Some l /\ Forall2 Qeq l (map v cs).
Proof.
  intros data i v. induction cs as [| c cs IH]; intros H; [exists []; split; [reflexivity | constructor] |].
  destruct (H c (or_introl eq_refl)) as [x [Ex Qx]]. destruct (IH (fun c' I => H c' (or_intror I))) as [l [El Fl]].
  exists (x :: l). cbn [collect]. rewrite Ex. cbn [obind]. rewrite El. cbn [obind]. split; [reflexivity | constructor; assumption].
Qed.
End Facts.

(** ** A right table *)
Definition same_entry (a b : entry) : Prop := match a, b with NaN, NaN => True | Val x, Val y => (x == y)%Q | _, _ => False end.

(** a grain with one segment: volume, forces, torques of its segment, then the mobility times
    force over volume; other grains: not a number *)
Definition right_row (ncomp dim n_op : nat) (mt : Q) (f : found) (e : evaluation) (g : nat * nat) (row : nat * list entry) : Prop :=
  fst row = fst g /\
  (snd g <> 1 -> Forall (same_entry NaN) (snd row)) /\
  (snd g = 1 -> exists values velocities, snd row = values ++ velocities
     /\ Forall2 same_entry values (map (fun c => Val (load n_op f e (Some (fst g), 0) c)) (seq 0 ncomp))
     /\ Forall2 same_entry velocities (map (fun d => if Qeq_bool (load n_op f e (Some (fst g), 0) 0) 0 then NaN
           else Val (mt * load n_op f e (Some (fst g), 0%nat) (S d) / load n_op f e (Some (fst g), 0%nat) 0%nat)%Q) (seq 0 dim))).
Definition right_table (ncomp dim n_op : nat) (mt : Q) (f : found) (e : evaluation) (rows : list (nat * list entry)) : Prop :=
  Forall2 (right_row ncomp dim n_op mt f e) (f_grains f) rows.

Section Tables.
Variables (ncomp dim n_op : nat) (mt : Q).
Hypothesis components : dim < ncomp.

Lemma velocity_spec : forall (v : nat -> Q) l, Forall2 Qeq l (map v (seq 0 ncomp)) ->
  Forall2 same_entry (velocity dim mt l) (map (fun d => if Qeq_bool (v 0) 0 then NaN else Val (mt * v (S d) / v 0%nat)%Q) (seq 0 dim)).
Proof.
  intros v l F. destruct ncomp as [| n]; [lia |]. cbn [seq map] in F. inversion F as [| vol w r ? Ev Fr]; subst. cbn [velocity].
  assert (GEN : forall k a r, k <= n -> Forall2 Qeq r (map v (seq (S a) (n))) -> Forall2 same_entry
     (map (fun f => match qdiv (mt * f) vol with Some x => Val x | None => NaN end) (firstn k r))
     (map (fun d => if Qeq_bool (v 0) 0 then NaN else Val (mt * v (S d) / v 0%nat)%Q) (seq a k))).
  { clear Fr F r components. revert n. intros n k. revert n. induction k as [| k IH]; intros n a r Hk Fr; [constructor |]. destruct n as [| n]; [lia |]. cbn [seq map] in Fr. inversion Fr as [| x y r' ? Ex Fr']; subst.
    cbn [firstn map seq]. constructor; [| apply (IH n); [lia | exact Fr']].
    unfold qdiv. assert (B : Qeq_bool vol 0 = Qeq_bool (v 0) 0).
    { destruct (Qeq_bool vol 0) eqn:E1, (Qeq_bool (v 0) 0) eqn:E2; try reflexivity.
      - apply Qeq_bool_iff in E1. apply Qeq_bool_neq in E2. exfalso. apply E2. rewrite <- Ev. exact E1.
      - apply Qeq_bool_iff in E2. apply Qeq_bool_neq in E1. exfalso. apply E1. rewrite Ev. exact E2. }
    rewrite B. destruct (Qeq_bool (v 0) 0) eqn:E; cbn [same_entry]; [exact I |]. rewrite Ex, Ev. reflexivity. }
  apply GEN; [lia | exact Fr].
Qed.

Lemma row_spec : forall f e data g, segments_known f -> consistent n_op f (e_cells e) -> evaluate ncomp n_op (track f) e = Some data ->
  In g (f_grains f) -> snd g >= 1 -> exists row, stats_row ncomp dim mt (track f) data g = Some row /\ right_row ncomp dim n_op mt f e g row.
Proof.
  intros f e data [g n] K C E I P. cbn [snd] in P. destruct (evaluate_spec ncomp n_op f e C) as [d [Ed [Ld G]]]. rewrite E in Ed. injection Ed as <-.
  destruct (track_numbers f) as [A1 [_ [_ [A4 _]]]].
  assert (NE : data <> []). { intros ->. cbn in Ld. destruct (A4 _ (K g n 0 I ltac:(lia))) as [i Ei]. specialize (A1 _ _ Ei). nia. }
  unfold stats_row. destruct data as [| q data]; [contradiction |]. cbn [snd fst]. set (D := q :: data) in *. clearbody D.
  destruct (Nat.eqb_spec n 1) as [-> | Nn].
  - destruct (A4 _ (K g 1 0 I ltac:(lia))) as [i Ei]. rewrite Ei. cbn [obind].
    destruct (collect_spec ncomp D i (load n_op f e (Some g, 0)) (seq 0 ncomp)) as [l [El Fl]]; [intros c Hc; apply in_seq in Hc; apply (G g 0 i c Ei); lia |].
    rewrite El. cbn [obind]. eexists; split; [reflexivity |]. split; [reflexivity |]. cbn [snd fst]. split; [congruence |]. intros _.
    exists (map Val l), (velocity dim mt l). split; [reflexivity |]. split; [| apply velocity_spec; exact Fl].
    clear - Fl. revert l Fl. induction (seq 0 ncomp) as [| c cs IH]; intros l Fl; inversion Fl; subst; constructor; [assumption | apply IH; assumption].
  - eexists; split; [reflexivity |]. split; [reflexivity |]. cbn [snd fst]. split; [| congruence]. intros _.
    clear. induction (ncomp + dim) as [| m IH]; cbn [repeat]; constructor; [exact I | exact IH].
Qed.

(** *** Right after an evaluation the table is right, whatever was tracked and evaluated before *)
Theorem C82_after_evaluation : forall f e, segments_known f -> consistent n_op f (e_cells e) -> (forall g, In g (f_grains f) -> snd g >= 1) ->
  exists data rows, evaluate ncomp n_op (track f) e = Some data /\ grains_stats ncomp dim mt (track f) data = Some rows /\ right_table ncomp dim n_op mt f e rows.
Proof.
  intros f e K C P. destruct (evaluate_spec ncomp n_op f e C) as [data [E _]]. exists data.
  assert (GEN : forall gs, incl gs (f_grains f) -> exists rows, stats_rows ncomp dim mt (track f) data gs = Some rows /\ Forall2 (right_row ncomp dim n_op mt f e) gs rows).
  { induction gs as [| g gs IH]; intros H; [exists []; split; [reflexivity | constructor] |].
    destruct (row_spec f e data g K C E (H g (or_introl eq_refl)) (P g (H g (or_introl eq_refl)))) as [row [Er Rr]].
    destruct (IH (fun x I => H x (or_intror I))) as [rows [Es Rs]]. exists (row :: rows). cbn [stats_rows]. rewrite Er. cbn [obind]. rewrite Es. cbn [obind]. split; [reflexivity | constructor; assumption]. }
  destruct (GEN (f_grains f) (incl_refl _)) as [rows [Er Rr]]. exists rows. split; [exact E |]. split; [| exact Rr].
  unfold grains_stats. destruct (track_numbers f) as [_ [_ [_ [_ ->]]]]. exact Er.
Qed.

(** *** The printed forces, segment by segment, are right after an evaluation *)
Theorem C82_printed : forall f e, segments_known f -> consistent n_op f (e_cells e) ->
  exists data lines, evaluate ncomp n_op (track f) e = Some data /\ print_forces ncomp (track f) data (f_grains f) = Some lines
  /\ map fst lines = flat_map (fun g => map (fun s => (fst g, s)) (seq 0 (snd g))) (f_grains f)
  /\ forall g s x, In (g, s, x) lines -> Forall2 Qeq x (map (load n_op f e (Some g, s)) (seq 0 ncomp)).
Proof.
  intros f e K C. destruct (evaluate_spec ncomp n_op f e C) as [data [E [_ G]]]. exists data. destruct (track_numbers f) as [_ [_ [_ [A4 _]]]].
  assert (SEG : forall g n ss, In (g, n) (f_grains f) -> (forall s, In s ss -> s < n) ->
     exists lines, force_lines ncomp (track f) data g ss = Some lines /\ map fst lines = map (fun s => (g, s)) ss
     /\ forall g' s x, In (g', s, x) lines -> Forall2 Qeq x (map (load n_op f e (Some g', s)) (seq 0 ncomp))).
  { intros g n. induction ss as [| s ss IH]; intros I B; [exists []; split; [reflexivity |]; split; [reflexivity | intros ? ? ? []] |].
    destruct (A4 _ (K g n s I (B s (or_introl eq_refl)))) as [i Ei].
    destruct (collect_spec ncomp data i (load n_op f e (Some g, s)) (seq 0 ncomp)) as [l [El Fl]]; [intros c Hc; apply in_seq in Hc; apply (G g s i c Ei); lia |].
    destruct (IH I (fun s' I' => B s' (or_intror I'))) as [ls [Els [M Fls]]].
    exists ((g, s, l) :: ls). cbn [force_lines]. rewrite Ei. cbn [obind]. rewrite El. cbn [obind]. rewrite Els. cbn [obind]. split; [reflexivity |]. split; [cbn [map fst]; rewrite M; reflexivity |].
    intros g' s' x [H | H]; [injection H as <- <- <-; exact Fl | exact (Fls _ _ _ H)]. }
  assert (GEN : forall gs, incl gs (f_grains f) -> exists lines, print_forces ncomp (track f) data gs = Some lines
     /\ map fst lines = flat_map (fun g => map (fun s => (fst g, s)) (seq 0 (snd g))) gs
     /\ forall g s x, In (g, s, x) lines -> Forall2 Qeq x (map (load n_op f e (Some g, s)) (seq 0 ncomp))).
  { induction gs as [| [g n] gs IH]; intros H; [exists []; split; [reflexivity |]; split; [reflexivity | intros ? ? ? []] |].
    destruct (SEG g n (seq 0 n) (H _ (or_introl eq_refl))) as [l1 [E1 [M1 F1]]]; [intros s Hs; apply in_seq in Hs; lia |].
    destruct (IH (fun x I => H x (or_intror I))) as [l2 [E2 [M2 F2]]]. exists (l1 ++ l2). cbn [print_forces fst snd]. rewrite E1. cbn [obind]. rewrite E2. cbn [obind].
    split; [reflexivity |]. split; [rewrite map_app, M1, M2; reflexivity |]. intros g' s x I. apply in_app_or in I. destruct I as [I | I]; [exact (F1 _ _ _ I) | exact (F2 _ _ _ I)]. }
  destruct (GEN (f_grains f) (incl_refl _)) as [lines [El [M F]]]. exists lines. auto.
Qed.

(** ** The driver *)
Definition usable (f : found) : Prop := segments_known f /\ forall g, In g (f_grains f) -> snd g >= 1.
Definition usable_tracking (k : tracking) : Prop := usable (first_run k) /\ match second_run k with Some f => usable f | None => True end.
Definition final_run (k : tracking) : found := match second_run k with Some f => f | None => first_run k end.

(** what the grain tracker has found last, when a step is done *)
Definition after_step (f : found) (x : step) : found :=
  let f := match s_begin x with Some k => final_run k | None => f end in
  if s_converged x then match s_check x with Some k => final_run k | None => f end else f.
(** every evaluation sees particles the tracker in force knows *)
Definition sound_step (f : found) (x : step) : Prop :=
  let f := match s_begin x with Some k => final_run k | None => f end in
  match s_begin x with Some k => usable_tracking k | None => True end
  /\ Forall (fun e => consistent n_op f (e_cells e)) (match s_courant x with Some e => [e] | None => [] end ++ s_first x :: s_residuals x)
  /\ match s_check x with Some k => usable_tracking k | None => True end.
Fixpoint sound_steps (f : found) (xs : list step) : Prop :=
  match xs with [] => True | x :: r => sound_step f x /\ sound_steps (after_step f x) r end.

Definition right_sight (o : sight) : Prop := label_of o = "solution"%string ->
  exists f e rows, at_tracker o = track f /\ last_evaluation o = Some e /\ table o = Some rows /\ right_table ncomp dim n_op mt f e rows.

Notation go := (run ncomp dim n_op mt).

(** evaluations one after the other *)
Lemma go_evaluations : forall es f data last rest, Forall (fun e => consistent n_op f (e_cells e)) es ->
  exists data', go (mkSim (track f) data) last (map Evaluate es ++ rest) = go (mkSim (track f) data') (match rev es with e :: _ => Some e | [] => last end) rest
    /\ (match rev es with e :: _ => evaluate ncomp n_op (track f) e = Some data' | [] => data' = data end).
Proof.
  induction es as [| e es IH]; intros f data last rest H; [exists data; split; reflexivity |].
  inversion H as [| ? ? He Hes]; subst. destruct (evaluate_spec ncomp n_op f e He) as [d [Ed _]].
  cbn [map app run]. cbn [s_tracker]. rewrite Ed. cbn [obind]. destruct (IH f d (Some e) rest Hes) as [d' [E' L']].
  exists d'. rewrite E'. cbn [rev]. destruct (rev es) as [| x r] eqn:R; cbn [app].
  - subst d'. split; [reflexivity | exact Ed].
  - split; [reflexivity | exact L'].
Qed.

Lemma obind_sights : forall (o : sight) (x : option (list sight)), (exists l, x = Some l /\ Forall right_sight l) -> right_sight o ->
  exists l, (y <- x ;; Some (o :: y)) = Some l /\ Forall right_sight l.
Proof. intros o x [l [-> F]] R. exists (o :: l). split; [reflexivity | constructor; assumption]. Qed.

Lemma go_tracking : forall k s last rest,
  (exists o, go (mkSim (track (final_run k)) (s_data s)) last rest = Some o /\ Forall right_sight o) ->
  exists o, go s last (tracking_events k ++ rest) = Some o /\ Forall right_sight o.
Proof.
  intros [f1 [f2 |]] s last rest H; unfold tracking_events, final_run in *; cbn [first_run second_run app run] in *.
  - apply obind_sights; [| intros X; discriminate]. apply obind_sights; [exact H | intros X; discriminate].
  - apply obind_sights; [exact H | intros X; discriminate].
Qed.

(** one step, without the second tracking *)
Lemma go_step : forall x f s last rest, usable f -> s_tracker s = track f -> sound_step f x -> s_check x = None ->
  (forall data last', exists o, go (mkSim (track (after_step f x)) data) last' rest = Some o /\ Forall right_sight o) ->
  exists o, go s last (step_events x ++ rest) = Some o /\ Forall right_sight o.
Proof.
  intros [b c e0 es conv ck out] f [t data] last rest U Et Sd Ck H. cbn [s_check] in Ck. subst ck. cbn [s_tracker] in Et. subst t.
  unfold sound_step, after_step, step_events in *. cbn [s_begin s_courant s_first s_residuals s_converged s_check s_output] in *.
  destruct Sd as [Ub [Ev _]].
  set (f' := match b with Some k => final_run k | None => f end) in *.
  assert (U' : usable f'). { unfold f'. destruct b as [k |]; [| exact U]. destruct Ub as [U1 U2]. unfold final_run. destruct (second_run k); assumption. }
  assert (H' : forall data last', exists o, go (mkSim (track f') data) last' rest = Some o /\ Forall right_sight o) by (destruct conv; exact H). clear H.
  set (tail := (if conv then (if out then [Output "solution"] else []) else []) ++ rest).
  assert (MAIN : forall data last, exists o, go (mkSim (track f') data) last (map Evaluate (match c with Some e => [e] | None => [] end ++ e0 :: es) ++ tail) = Some o /\ Forall right_sight o).
  { intros dt la. set (all := match c with Some e => [e] | None => [] end ++ e0 :: es) in *.
    destruct (go_evaluations all f' dt la tail Ev) as [d' [E' L']]. rewrite E'. clear E'.
    destruct (rev all) as [| e r] eqn:R.
    { exfalso. assert (length (rev all) = 0) by (rewrite R; reflexivity). rewrite rev_length in H. unfold all in H. rewrite app_length in H. cbn [length] in H. lia. }
    assert (Ce : consistent n_op f' (e_cells e)).
    { apply (proj1 (Forall_forall _ _) Ev). apply in_rev. rewrite R. left; reflexivity. }
    unfold tail. destruct conv; [| apply H']. destruct out; [| apply H']. cbn [app run]. apply obind_sights; [apply H' |].
    intros _. destruct U' as [K P]. destruct (C82_after_evaluation f' e K Ce P) as [d2 [rows [E2 [Er Rt]]]]. rewrite L' in E2. injection E2 as <-.
    exists f', e, rows. cbn [at_tracker last_evaluation table s_tracker s_data]. auto. }
  assert (SH : forall A, match c with Some e => [Evaluate e] | None => [] end ++ Evaluate e0 :: map Evaluate es ++ A = map Evaluate (match c with Some e => [e] | None => [] end ++ e0 :: es) ++ A).
  { intros A. rewrite map_app. destruct c; cbn [map app]; reflexivity. }
  cbn [app]. rewrite <- !app_assoc. cbn [app]. rewrite <- !app_assoc. rewrite SH. fold tail. unfold f' in *. destruct b as [k |]; [| apply MAIN].
  apply go_tracking. cbn [s_data]. apply MAIN.
Qed.

(** *** Every output of a run that does not check for inconsistencies after the step is right:
    for every run, every grain, with the forces of the last evaluation *)
Theorem C82_solution_partial : forall k first steps,
  usable_tracking k -> match first with Some e => consistent n_op (final_run k) (e_cells e) | None => True end ->
  sound_steps (final_run k) steps -> (forall x, In x steps -> s_check x = None) ->
  exists o, go nothing None (driver_events k first steps) = Some o /\ Forall right_sight o.
Proof.
  intros k first steps Uk Cf Ss Nc.
  assert (U : usable (final_run k)) by (destruct Uk as [U1 U2]; unfold final_run; destruct (second_run k); assumption).
  assert (GEN : forall steps f data last, usable f -> sound_steps f steps -> (forall x, In x steps -> s_check x = None) ->
     exists o, go (mkSim (track f) data) last (concat (map step_events steps)) = Some o /\ Forall right_sight o).
  { clear - components. induction steps as [| x r IH]; intros f data last U Sr N; [exists []; split; [reflexivity | constructor] |]. destruct Sr as [Sx Sr].
    cbn [map concat]. apply (go_step x f (mkSim (track f) data) last); [exact U | reflexivity | exact Sx | apply N; left; reflexivity |].
    intros d la. apply IH; [| exact Sr | intros y I; apply N; right; exact I].
    unfold after_step. rewrite (N x (or_introl eq_refl)). unfold sound_step in Sx. destruct Sx as [Ub _].
    assert (U' : usable (match s_begin x with Some k => final_run k | None => f end)).
    { destruct (s_begin x) as [k |]; [| exact U]. destruct Ub as [U1 U2]. unfold final_run. destruct (second_run k); assumption. }
    destruct (s_converged x); exact U'. }
  unfold driver_events, start_events. rewrite <- app_assoc. apply go_tracking. cbn [s_data].
  destruct first as [e |]; cbn [app].
  - cbn [run s_tracker]. destruct U as [K P]. destruct (C82_after_evaluation (final_run k) e K Cf P) as [d [rows [E [Er Rt]]]]. rewrite E. cbn [obind s_tracker s_data].
    apply obind_sights; [apply GEN; [split; assumption | exact Ss | exact Nc] |].
    intros _. exists (final_run k), e, rows. cbn [at_tracker last_evaluation table]. auto.
  - apply GEN; assumption.
Qed.
End Tables.
Print Assumptions C82_after_evaluation.
Print Assumptions C82_printed.
Print Assumptions C82_solution_partial.

(** *** Before the first evaluation there are no numbers in the table *)
Theorem C82_before_evaluation : forall ncomp dim mt f,
  grains_stats ncomp dim mt (track f) [] = Some (map (fun g => (fst g, repeat NaN (ncomp + dim))) (f_grains f)).
Proof.
  intros. unfold grains_stats. destruct (track_numbers f) as [_ [_ [_ [_ ->]]]]. induction (f_grains f) as [| g gs IH]; [reflexivity |]. cbn [stats_rows map]. cbn [stats_row obind]. rewrite IH. reflexivity.
Qed.
Print Assumptions C82_before_evaluation.

(** *** Tracking once more after the evaluation keeps the row of a grain whose segment keeps
    its number *)
Theorem C82_tracked_again_partial : forall ncomp dim n_op mt f1 f2 e data g i, dim < ncomp ->
  consistent n_op f1 (e_cells e) -> evaluate ncomp n_op (track f1) e = Some data ->
  number_at (numbering (track f1)) (Some g, 0) = Some i -> number_at (numbering (track f2)) (Some g, 0) = Some i ->
  exists row, stats_row ncomp dim mt (track f2) data (g, 1) = Some row /\ right_row ncomp dim n_op mt f1 e (g, 1) row.
Proof.
  intros ncomp dim n_op mt f1 f2 e data g i Hc C E E1 E2. destruct (evaluate_spec ncomp n_op f1 e C) as [d [Ed [Ld G]]]. rewrite E in Ed. injection Ed as <-.
  assert (NE : data <> []). { intros ->. destruct (track_numbers f1) as [A1 _]. specialize (A1 _ _ E1). cbn in Ld. nia. }
  unfold stats_row. destruct data as [| q data]; [contradiction |]. cbn [snd fst Nat.eqb]. set (D := q :: data) in *. clearbody D. rewrite E2. cbn [obind].
  destruct (collect_spec ncomp D i (load n_op f1 e (Some g, 0)) (seq 0 ncomp)) as [l [El Fl]]; [intros c Hcc; apply in_seq in Hcc; apply (G g 0 i c E1); lia |].
  rewrite El. cbn [obind]. eexists; split; [reflexivity |]. split; [reflexivity |]. cbn [snd fst]. split; [congruence |]. intros _.
  exists (map Val l), (velocity dim mt l). split; [reflexivity |]. split; [| exact (velocity_spec ncomp dim mt Hc _ _ Fl)].
  clear - Fl. revert l Fl. induction (seq 0 ncomp) as [| c cs IH]; intros l Fl; inversion Fl; subst; constructor; [assumption | apply IH; assumption].
Qed.
Print Assumptions C82_tracked_again_partial.

(** *** A tracking that failed does not change the numbers: the row of a grain that is still
    there is the one of the last evaluation *)
Theorem C82_failed : forall ncomp dim n_op mt f1 f2 e data g i, dim < ncomp ->
  consistent n_op f1 (e_cells e) -> evaluate ncomp n_op (track f1) e = Some data -> number_at (numbering (track f1)) (Some g, 0) = Some i ->
  exists row, stats_row ncomp dim mt (track_failed f2 (track f1)) data (g, 1) = Some row /\ right_row ncomp dim n_op mt f1 e (g, 1) row.
Proof.
  intros ncomp dim n_op mt f1 f2 e data g i Hc C E E1.
  destruct (C82_tracked_again_partial ncomp dim n_op mt f1 f1 e data g i Hc C E E1 E1) as (row & R1 & R2). exists row. split; [|exact R2].
  rewrite <- R1. unfold stats_row, track_failed. cbn [numbering]. reflexivity.
Qed.
Print Assumptions C82_failed.

(** ** Wrong tables.  Two dimensions: volume, two forces, a torque *)
(** cell 0 belongs to grain 0, cell 1 to grain 1, cell 2 to grain 2 if there is one *)
Definition both : found := mkFound [(0, 1); (1, 1)] [[(Some 0, 0); (Some 1, 0)]] (fun op cell => if Nat.eqb op 0 && Nat.ltb cell 2 then Some cell else None).
Definition only_second : found := mkFound [(1, 1)] [[(Some 1, 0)]] (fun op cell => if Nat.eqb op 0 && Nat.eqb cell 1 then Some 0 else None).
Definition moved : found := mkFound [(0, 1); (1, 1)] [[(Some 1, 0)]; [(Some 0, 0)]]
  (fun op cell => match op, cell with 0, 1 => Some 0 | 1, 0 => Some 0 | _, _ => None end).
Definition three : found := mkFound [(0, 1); (1, 1); (2, 1)] [[(Some 0, 0); (Some 1, 0); (Some 2, 0)]] (fun op cell => if Nat.eqb op 0 && Nat.ltb cell 3 then Some cell else None).

(** volume 1 in cell 0 and 4 in cell 1, a force in the direction of x of 1 and -1 *)
Definition some_forces : evaluation := mkEval [0; 1; 2] (fun cell op c =>
  match op, c, cell with 0, 0, 0 => 1%Q | 0, 0, 1 => 4%Q | 0, 1, 0 => 1%Q | 0, 1, 1 => (-1)%Q | _, _, _ => 0%Q end).
Definition plain_step (check : option tracking) : step := mkStep None None some_forces [] true check true.
Definition start := mkTracking both None.

Definition sights (evs : list event) : list (string * option (list (nat * list entry))) :=
  match run 4 2 2 1 nothing None evs with Some l => map (fun o => (label_of o, table o)) l | None => [] end.

Lemma both_usable : usable both /\ consistent 2 both [0; 1; 2].
Proof.
  split; [split |].
  - intros g n s [H | [H | []]] Hs; injection H as <- <-; assert (s = 0) by lia; subst; cbn; auto.
  - intros g [<- | [<- | []]]; cbn; lia.
  - intros cell op p I Ho. cbn [both f_particle]. destruct op as [| op]; [| discriminate]. destruct I as [<- | [<- | [<- | []]]]; cbn; try discriminate; intros _.
    + exists (Some 0, 0), 0, [(Some 0, 0); (Some 1, 0)]. repeat split.
    + exists (Some 1, 0), 1, [(Some 0, 0); (Some 1, 0)]. repeat split.
Qed.

(** a run without the check: both grains have their own numbers *)
Example C82_applies :
  usable_tracking start /\ sound_steps 2 (final_run start) [plain_step None]
  /\ sights (driver_events start None [plain_step None])
     = [("track"%string, Some []);
        ("solution"%string, Some [(0, [Val 1; Val 1; Val 0; Val 0; Val (1 / 1); Val (0 / 1)]%Q);
                                  (1, [Val 4; Val (-1); Val 0; Val 0; Val (-1 / 4); Val (0 / 4)]%Q)])].
Proof.
  split; [split; [apply both_usable | exact I] |]. split; [| vm_compute; reflexivity].
  split; [| exact I]. split; [exact I |]. split; [| exact I]. cbn. constructor; [apply both_usable | constructor].
Qed.

(** *** With [check_inconsistency] the grain tracker runs between the last evaluation and the
    output: grain 0 has vanished, and the volume and force of grain 0 are listed for grain 1 *)
Theorem C82_check_refuted :
  usable_tracking (mkTracking only_second None) /\ sound_steps 2 (final_run start) [plain_step (Some (mkTracking only_second None))]
  /\ (load 2 both some_forces (Some 1%nat, 0%nat) 0%nat == 4)%Q /\ (load 2 both some_forces (Some 0%nat, 0%nat) 0%nat == 1)%Q
  /\ exists before, sights (driver_events start None [plain_step (Some (mkTracking only_second None))])
     = before ++ [("solution"%string, Some [(1, [Val 1; Val 1; Val 0; Val 0; Val (1 / 1); Val (0 / 1)]%Q)])].
Proof.
  assert (U : usable_tracking (mkTracking only_second None)).
  { split; [split |]; [| | exact I].
    - intros g n s [H | []] Hs; injection H as <- <-; assert (s = 0) by lia; subst; cbn; auto.
    - intros g [<- | []]; cbn; lia. }
  split; [exact U |]. split.
  { split; [| exact I]. split; [exact I |]. split; [| exact U]. cbn. constructor; [apply both_usable | constructor]. }
  split; [vm_compute; reflexivity |]. split; [vm_compute; reflexivity |].
  eexists [_; _]. vm_compute. reflexivity.
Qed.
Print Assumptions C82_check_refuted.

(** *** The output after a remapping lists the grains with each other's data *)
Theorem C82_remap_refuted :
  exists before after, sights (driver_events start (Some some_forces) [mkStep (Some (mkTracking both (Some moved))) None some_forces [] true None false])
     = before ++ ("remap"%string, Some [(0, [Val 4; Val (-1); Val 0; Val 0; Val (-1 / 4); Val (0 / 4)]%Q);
                                        (1, [Val 1; Val 1; Val 0; Val 0; Val (1 / 1); Val (0 / 1)]%Q)]) :: after.
Proof. eexists [_; _; _], []. vm_compute. reflexivity. Qed.
Print Assumptions C82_remap_refuted.

(** *** A grain found by the check is read beyond the end of the data; a failed tracking leaves
    a grain without a number, the output of the failure throws *)
Theorem C82_beyond_refuted :
  (exists before, sights (driver_events start None [plain_step (Some (mkTracking three None))]) = before ++ [("solution"%string, None)])
  /\ exists before, sights (driver_events start None [plain_step None] ++ [Failed three; Output "grains_inconsistency"]) = before ++ [("grains_inconsistency"%string, None)].
Proof. split; [eexists [_; _] | eexists [_; _]]; vm_compute; reflexivity. Qed.
Print Assumptions C82_beyond_refuted.

(** *** Coupled operator: the velocity of a grain is the displacement at its own center over
    the step *)
Theorem C82_coupled : forall dim (place : Type) (u : place -> nat -> Q) dt (gs : list (nat * nat * place)) g n p,
  NoDup (map (fun x => fst (fst x)) gs) -> In (g, n, p) gs ->
  coupled_velocity dim place u dt gs (g, n, p)
  = Some (if Nat.eqb n 1 && negb (Qeq_bool dt 0) then map (fun d => Val (u p d / dt)%Q) (seq 0 dim) else repeat NaN dim).
Proof.
  intros dim place u dt gs g n p ND I. unfold coupled_velocity. cbn [fst snd]. destruct (Nat.eqb n 1 && negb (Qeq_bool dt 0)); [| reflexivity].
  assert (GEN : forall gs k, NoDup (map (fun x : nat * nat * place => fst (fst x)) gs) -> In (g, n, p) gs ->
     exists i, evaluation_id place gs k g = Some (k + i) /\ nth_error (evaluation_points place gs) i = Some p).
  { clear. induction gs as [| x gs IH]; intros k ND I; [destruct I |]. cbn [map] in ND. inversion ND as [| ? ? N1 N2]; subst. cbn [evaluation_id evaluation_points map].
    destruct I as [-> | I].
    - cbn [fst snd]. assert (X : forall k, evaluation_id place gs k g = None).
      { clear - N1. cbn [fst] in N1. induction gs as [| y gs IH]; intros k; [reflexivity |]. cbn [evaluation_id]. rewrite IH by (intros H; apply N1; right; exact H).
        destruct (Nat.eqb_spec (fst (fst y)) g); [exfalso; apply N1; left; assumption | reflexivity]. }
      rewrite X, Nat.eqb_refl. exists 0. rewrite Nat.add_0_r. split; reflexivity.
    - destruct (IH (S k) N2 I) as [i [E1 E2]]. rewrite E1. exists (S i). split; [f_equal; lia | exact E2]. }
  destruct (GEN gs 0 ND I) as [i [E1 E2]]. rewrite E1. cbn [obind Nat.add]. unfold vget. rewrite E2. reflexivity.
Qed.
Print Assumptions C82_coupled.
