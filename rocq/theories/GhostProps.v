(** C83: values changed on several processes. *)
From Coq Require Import List QArith Qabs Qminmax Arith Bool Permutation Lia Lqa.
From Verif Require Import Util GhostModel.
Import ListNotations.
Local Open Scope nat_scope.

(** ** Folds *)
Lemma add_spec : forall l v, (import_add v l == v + fold_right Qplus 0 l)%Q.
Proof. unfold import_add. induction l as [| x l IH]; intros v; cbn [fold_left fold_right]; [ring | rewrite IH; ring]. Qed.

Lemma max_comp : forall l v w, (v == w)%Q -> (import_max v l == import_max w l)%Q.
Proof. unfold import_max. induction l as [| x l IH]; intros v w H; cbn [fold_left]; [exact H | apply IH; rewrite H; reflexivity]. Qed.
Lemma min_comp : forall l v w, (v == w)%Q -> (import_min v l == import_min w l)%Q.
Proof. unfold import_min. induction l as [| x l IH]; intros v w H; cbn [fold_left]; [exact H | apply IH; rewrite H; reflexivity]. Qed.

Lemma max_spec : forall l v, (v <= import_max v l)%Q /\ (forall x, In x l -> (x <= import_max v l)%Q) /\ ((import_max v l == v)%Q \/ exists x, In x l /\ (import_max v l == x)%Q).
Proof.
  unfold import_max. induction l as [| x l IH]; intros v; cbn [fold_left].
  - split; [apply Qle_refl |]. split; [intros x [] | left; reflexivity].
  - destruct (IH (Qmax v x)) as [A [B C]]. assert (L1 := Q.le_max_l v x). assert (L2 := Q.le_max_r v x). split; [lra |]. split.
    + intros y [<- | I]; [lra | exact (B y I)].
    + destruct C as [C | [y [I E]]]; [| right; exists y; split; [right; exact I | exact E]].
      destruct (Q.max_spec_le v x) as [[_ E] | [_ E]]; [right; exists x; split; [left; reflexivity | lra] | left; lra].
Qed.
Lemma min_spec : forall l v, (import_min v l <= v)%Q /\ (forall x, In x l -> (import_min v l <= x)%Q) /\ ((import_min v l == v)%Q \/ exists x, In x l /\ (import_min v l == x)%Q).
Proof.
  unfold import_min. induction l as [| x l IH]; intros v; cbn [fold_left].
  - split; [apply Qle_refl |]. split; [intros x [] | left; reflexivity].
  - destruct (IH (Qmin v x)) as [A [B C]]. assert (L1 := Q.le_min_l v x). assert (L2 := Q.le_min_r v x). split; [lra |]. split.
    + intros y [<- | I]; [lra | exact (B y I)].
    + destruct C as [C | [y [I E]]]; [| right; exists y; split; [right; exact I | exact E]].
      destruct (Q.min_spec_le v x) as [[_ E] | [_ E]]; [left; lra | right; exists x; split; [left; reflexivity | lra]].
Qed.

Definition negatives (ps : list (Q * Q)) := map snd (filter (fun p => qltb (snd p) 0) ps).
Definition positives (ps : list (Q * Q)) := map snd (filter (fun p => qltb 0 (snd p)) ps).
Lemma in_negatives : forall ps x, In x (negatives ps) <-> In x (map snd ps) /\ (x < 0)%Q.
Proof.
  intros ps x. unfold negatives. rewrite !in_map_iff. split.
  - intros [p [<- I]]. apply filter_In in I. destruct I as [I H]. apply qltb_true in H. split; [exists p; auto | exact H].
  - intros [[p [<- I]] H]. exists p. split; [reflexivity |]. apply filter_In. split; [exact I |]. apply qltb_true. exact H.
Qed.
Lemma in_positives : forall ps x, In x (positives ps) <-> In x (map snd ps) /\ (0 < x)%Q.
Proof.
  intros ps x. unfold positives. rewrite !in_map_iff. split.
  - intros [p [<- I]]. apply filter_In in I. destruct I as [I H]. apply qltb_true in H. split; [exists p; auto | exact H].
  - intros [[p [<- I]] H]. exists p. split; [reflexivity |]. apply filter_In. split; [exact I |]. apply qltb_true. exact H.
Qed.

(** the last two steps, starting from the value [z] *)
Definition last_steps (z : Q) (ps : list (Q * Q)) : Q := import_max (import_min z (negatives ps)) (positives ps).

(** the value before them *)
Definition cleared (v : Q) (ps : list (Q * Q)) : Q :=
  let v := import_add v (map (fun p => (- fst p)%Q) ps) in
  import_max v (if qltb v (- eps_tol) then map (fun _ => 0%Q) ps else []).
Lemma exchange_steps : forall v ps, exchange v ps = last_steps (cleared v (kept v ps)) (kept v ps).
Proof. reflexivity. Qed.

Definition unchanged (v : Q) (ps : list (Q * Q)) : Prop := forall p, In p ps -> (fst p == v)%Q.
Lemma kept_all : forall v ps, unchanged v ps -> kept v ps = ps.
Proof.
  intros v. unfold kept. induction ps as [| p ps IH]; intros U; [reflexivity |]. cbn [filter].
  assert (E := U p (or_introl eq_refl)). assert (T : qltb (Qabs (v - fst p)) eps_tol = true).
  { apply qltb_true. setoid_replace (v - fst p)%Q with 0%Q by lra. reflexivity. }
  rewrite T, IH by (intros q I; apply U; right; exact I). reflexivity.
Qed.

Definition count (ps : list (Q * Q)) : Q := inject_Z (Z.of_nat (length ps)).
Lemma count_cons : forall p ps, (count (p :: ps) == 1 + count ps)%Q.
Proof. intros. unfold count. cbn [length]. rewrite Nat2Z.inj_succ. unfold Z.succ. rewrite inject_Z_plus. ring. Qed.
Lemma count_nonneg : forall ps, (0 <= count ps)%Q.
Proof. intros. unfold count. change 0%Q with (inject_Z 0). rewrite <- Zle_Qle. lia. Qed.

Lemma cleared_sum : forall v ps, unchanged v ps -> (import_add v (map (fun p => (- fst p)%Q) ps) == v * (1 - count ps))%Q.
Proof.
  intros v ps U. rewrite add_spec. enough (F : (fold_right Qplus 0 (map (fun p => - fst p) ps) == - (count ps * v))%Q) by (rewrite F; ring).
  induction ps as [| p ps IH]; [reflexivity |]. cbn [map fold_right]. rewrite IH by (intros q I; apply U; right; exact I). rewrite (U p (or_introl eq_refl)), count_cons. ring.
Qed.

Lemma zeros_max : forall (ps : list (Q * Q)) v, ps <> [] -> (v <= 0)%Q -> (import_max v (map (fun _ => 0%Q) ps) == 0)%Q.
Proof.
  intros ps v N L. destruct (max_spec (map (fun _ => 0%Q) ps) v) as [A [B C]]. assert (H : In 0%Q (map (fun _ : Q * Q => 0%Q) ps)) by (destruct ps as [| p ps]; [contradiction | left; reflexivity]).
  assert (H0 := B _ H). destruct C as [C | [x [I C]]]; [lra |]. apply in_map_iff in I. destruct I as [_ [<- _]]. exact C.
Qed.

(** the owner has not changed the entry, somebody else has: what the first two steps leave *)
Lemma cleared_spec : forall v ps, unchanged v ps -> ps <> [] -> (0 <= v)%Q \/ length ps = 1 ->
  (- eps_tol <= cleared v ps /\ cleared v ps <= 0)%Q /\ ((v == 0)%Q \/ length ps = 1 \/ (eps_tol < v)%Q -> (cleared v ps == 0)%Q).
Proof.
  intros v ps U N V. assert (S1 := cleared_sum v ps U). unfold cleared. set (z := import_add v (map (fun p => (- fst p)%Q) ps)) in *.
  assert (C1 : (1 <= count ps)%Q). { destruct ps as [| p ps]; [contradiction |]. rewrite count_cons. assert (K := count_nonneg ps). lra. }
  assert (Z0 : (z <= 0)%Q).
  { rewrite S1. destruct V as [V | V]; [nra |]. unfold count. rewrite V. change (inject_Z (Z.of_nat 1)) with 1%Q. nra. }
  assert (E0 : (0 < eps_tol)%Q) by reflexivity.
  destruct (qltb z (- eps_tol)) eqn:T.
  - assert (M := zeros_max ps z N Z0). rewrite M. split; [split; lra | intros _; reflexivity].
  - apply qltb_false in T. cbn [import_max fold_left]. unfold import_max. cbn [fold_left]. split; [split; assumption |].
    intros [H | [H | H]].
    + rewrite S1, H. ring.
    + rewrite S1. unfold count. rewrite H. change (inject_Z (Z.of_nat 1)) with 1%Q. ring.
    + destruct ps as [| p [| p' ps]]; [contradiction | |].
      * rewrite S1, count_cons. unfold count. cbn [length Z.of_nat]. ring.
      * exfalso. rewrite !count_cons in S1. assert (K := count_nonneg ps). assert (X : (z <= - v)%Q) by (rewrite S1; nra). lra.
Qed.

(** ** The exchange *)

(** *** The owner has changed the entry: its value stays *)
Theorem C83_owner : forall v ps, (forall p, In p ps -> (eps_tol <= Qabs (v - fst p))%Q) -> exchange v ps = v.
Proof.
  intros v ps H. assert (K : kept v ps = []).
  { unfold kept. induction ps as [| p ps IH]; [reflexivity |]. cbn [filter]. assert (T : qltb (Qabs (v - fst p)) eps_tol = false) by (apply qltb_false; apply H; left; reflexivity).
    rewrite T. apply IH. intros q I. apply H. right. exact I. }
  rewrite exchange_steps, K. unfold last_steps, cleared. cbn. destruct (qltb v _); reflexivity.
Qed.
Print Assumptions C83_owner.

(** the last two steps from zero *)
Lemma last_steps_zero : forall z ps, (z == 0)%Q -> ps <> [] ->
  (exists w, In w (map snd ps) /\ (last_steps z ps == w)%Q) /\ (forall w, In w (map snd ps) -> (0 < w)%Q -> (w <= last_steps z ps)%Q)
  /\ ((forall w, In w (map snd ps) -> (w <= 0)%Q) -> forall w, In w (map snd ps) -> (last_steps z ps <= w)%Q).
Proof.
  intros z ps Z0 N. unfold last_steps. destruct (min_spec (negatives ps) z) as [M1 [M2 M3]]. set (m := import_min z (negatives ps)) in *. destruct (max_spec (positives ps) m) as [P1 [P2 P3]].
  set (r := import_max m (positives ps)) in *.
  assert (POS : forall w, In w (map snd ps) -> (0 < w)%Q -> (w <= r)%Q) by (intros w I H; apply P2; apply in_positives; auto).
  assert (NP : (forall w, In w (map snd ps) -> (w <= 0)%Q) -> (r == m)%Q).
  { intros A. destruct P3 as [E | [x [I E]]]; [exact E |]. apply in_positives in I. destruct I as [I H]. specialize (A x I). lra. }
  assert (MIN : (forall w, In w (map snd ps) -> (w <= 0)%Q) -> forall w, In w (map snd ps) -> (r <= w)%Q).
  { intros A w I. rewrite (NP A). destruct (Qlt_le_dec w 0) as [H | H]; [apply M2; apply in_negatives; auto |]. lra. }
  split; [| split; [exact POS | exact MIN]].
  destruct P3 as [E | [x [I E]]]; [| exists x; apply in_positives in I; split; [apply I | exact E]].
  destruct M3 as [E' | [x [I E']]]; [| exists x; apply in_negatives in I; split; [apply I | lra]].
  destruct ps as [| [o w] ps]; [contradiction |]. exists w. split; [left; reflexivity |].
  assert (I : In w (map snd ((o, w) :: ps))) by (left; reflexivity).
  destruct (Qlt_le_dec 0 w) as [H | H]; [specialize (POS w I H); lra |]. destruct (Qlt_le_dec w 0) as [H' | H']; [| lra].
  assert (X := M2 w (proj2 (in_negatives _ w) (conj I H'))). lra.
Qed.

(** *** The entry was zero or positive and the owner has not changed it: the result is a value
    that one of the processes has set, the largest if one is positive, the smallest if none is *)
Theorem C83_result_partial : forall v ps, unchanged v ps -> ps <> [] -> (v == 0)%Q \/ (eps_tol < v)%Q \/ length ps = 1 ->
  (exists w, In w (map snd ps) /\ (exchange v ps == w)%Q)
  /\ (forall w, In w (map snd ps) -> (0 < w)%Q -> (w <= exchange v ps)%Q)
  /\ ((forall w, In w (map snd ps) -> (w <= 0)%Q) -> forall w, In w (map snd ps) -> (exchange v ps <= w)%Q).
Proof.
  intros v ps U N V. rewrite exchange_steps, (kept_all v ps U). apply last_steps_zero; [| exact N].
  assert (E0 : (0 < eps_tol)%Q) by reflexivity. apply (cleared_spec v ps U N).
  - destruct V as [V | [V | V]]; [left; lra | left; lra | right; exact V].
  - tauto.
Qed.
Print Assumptions C83_result_partial.

(** *** Only one process has changed the entry: its value, of whatever sign, is the result *)
Theorem C83_single : forall v old w, (old == v)%Q -> (exchange v [(old, w)] == w)%Q.
Proof.
  intros v old w E. destruct (C83_result_partial v [(old, w)]) as [[x [[<- | []] R]] _]; [intros p [<- | []]; exact E | discriminate | right; right; reflexivity | exact R].
Qed.
Print Assumptions C83_single.

(** *** All processes have set the same value: the result is that value up to the tolerance *)
Theorem C83_agreement_partial : forall v ps w, unchanged v ps -> ps <> [] -> (0 <= v)%Q -> (forall p, In p ps -> (snd p == w)%Q) ->
  (Qabs (exchange v ps - w) <= eps_tol)%Q.
Proof.
  intros v ps w U N V A. rewrite exchange_steps, (kept_all v ps U). destruct (cleared_spec v ps U N (or_introl V)) as [[L1 L2] _]. set (z := cleared v ps) in *.
  assert (E0 : (0 < eps_tol)%Q) by reflexivity. unfold last_steps.
  destruct (min_spec (negatives ps) z) as [M1 [M2 M3]]. set (m := import_min z (negatives ps)) in *. destruct (max_spec (positives ps) m) as [P1 [P2 P3]]. set (r := import_max m (positives ps)) in *.
  assert (W : forall x, In x (map snd ps) -> (x == w)%Q) by (intros x I; apply in_map_iff in I; destruct I as [p [<- I]]; exact (A p I)).
  assert (In0 : exists x, In x (map snd ps) /\ (x == w)%Q).
  { destruct ps as [| p ps]; [contradiction |]. exists (snd p). split; [left; reflexivity | apply A; left; reflexivity]. }
  destruct In0 as [x [I E]].
  assert (B : (- eps_tol <= r - w)%Q /\ (r - w <= eps_tol)%Q).
  { destruct (Qlt_le_dec 0 w) as [Hp | Hp].
    - assert (x0 : (0 < x)%Q) by lra. assert (X : (x <= r)%Q) by (apply P2, in_positives; auto).
      destruct P3 as [E' | [y [Iy E']]]; [split; lra |]. apply in_positives in Iy. assert (Y := W y (proj1 Iy)). split; lra.
    - assert (R : (r == m)%Q). { destruct P3 as [E' | [y [Iy E']]]; [exact E' |]. apply in_positives in Iy. assert (Y := W y (proj1 Iy)). destruct Iy. lra. }
      destruct (Qlt_le_dec w 0) as [Hn | Hn].
      + assert (x0 : (x < 0)%Q) by lra. assert (X : (m <= x)%Q) by (apply M2, in_negatives; auto).
        destruct M3 as [E' | [y [Iy E']]]; [split; lra |]. apply in_negatives in Iy. assert (Y := W y (proj1 Iy)). split; lra.
      + destruct M3 as [E' | [y [Iy E']]]; [split; lra |]. apply in_negatives in Iy. assert (Y := W y (proj1 Iy)). split; lra. }
  apply Qabs_Qle_condition. exact B.
Qed.
Print Assumptions C83_agreement_partial.

(** *** The numbering of the processes does not matter *)
Lemma max_perm : forall l l' v, Permutation l l' -> (import_max v l == import_max v l')%Q.
Proof.
  intros l l' v P. destruct (max_spec l v) as [A [B C]]. destruct (max_spec l' v) as [A' [B' C']].
  apply Qle_antisym.
  - destruct C as [C | [x [I C]]]; rewrite C; [exact A' | apply B'; exact (Permutation_in _ P I)].
  - destruct C' as [C' | [x [I C']]]; rewrite C'; [exact A | apply B; exact (Permutation_in _ (Permutation_sym P) I)].
Qed.
Lemma min_perm : forall l l' v, Permutation l l' -> (import_min v l == import_min v l')%Q.
Proof.
  intros l l' v P. destruct (min_spec l v) as [A [B C]]. destruct (min_spec l' v) as [A' [B' C']].
  apply Qle_antisym.
  - destruct C' as [C' | [x [I C']]]; rewrite C'; [exact A | apply B; exact (Permutation_in _ (Permutation_sym P) I)].
  - destruct C as [C | [x [I C]]]; rewrite C; [exact A' | apply B'; exact (Permutation_in _ P I)].
Qed.
Lemma perm_filter : forall A (f : A -> bool) l l', Permutation l l' -> Permutation (filter f l) (filter f l').
Proof.
  intros A f l l' P. induction P; cbn [filter]; [constructor | destruct (f x); [constructor; exact IHP | exact IHP] | destruct (f x), (f y); try apply Permutation_refl; apply perm_swap | exact (Permutation_trans IHP1 IHP2)].
Qed.
Theorem C83_order : forall v ps ps', Permutation ps ps' -> (exchange v ps == exchange v ps')%Q.
Proof.
  intros v ps ps' P. rewrite !exchange_steps. assert (K : Permutation (kept v ps) (kept v ps')) by exact (perm_filter _ _ _ _ P).
  set (k := kept v ps) in *. set (k' := kept v ps') in *. clearbody k k'. clear P ps ps'.
  assert (S1 : (import_add v (map (fun p => - fst p) k) == import_add v (map (fun p => - fst p) k'))%Q).
  { rewrite !add_spec. enough (F : (fold_right Qplus 0 (map (fun p : Q * Q => - fst p) k) == fold_right Qplus 0 (map (fun p : Q * Q => - fst p) k'))%Q) by (rewrite F; reflexivity).
    induction K; cbn [map fold_right]; [reflexivity | rewrite IHK; reflexivity | ring | rewrite IHK1; exact IHK2]. }
  assert (C : (cleared v k == cleared v k')%Q).
  { unfold cleared. set (a := import_add v (map (fun p => - fst p)%Q k)) in *. set (b := import_add v (map (fun p => - fst p)%Q k')) in *.
    assert (T : qltb a (- eps_tol) = qltb b (- eps_tol)).
    { destruct (qltb a (- eps_tol)) eqn:E1, (qltb b (- eps_tol)) eqn:E2; try reflexivity.
      - apply qltb_true in E1. apply qltb_false in E2. lra.
      - apply qltb_true in E2. apply qltb_false in E1. lra. }
    rewrite T. destruct (qltb b (- eps_tol)).
    - rewrite (max_comp _ _ _ S1). apply max_perm. apply Permutation_map. exact K.
    - exact (max_comp _ _ _ S1). }
  unfold last_steps, negatives, positives.
  transitivity (import_max (import_min (cleared v k') (map snd (filter (fun p => qltb (snd p) 0) k'))) (map snd (filter (fun p => qltb 0 (snd p)) k))).
  - apply max_comp. transitivity (import_min (cleared v k') (map snd (filter (fun p => qltb (snd p) 0) k))); [apply min_comp; exact C | apply min_perm; apply Permutation_map; apply perm_filter; exact K].
  - apply max_perm. apply Permutation_map. apply perm_filter. exact K.
Qed.
Print Assumptions C83_order.

(** *** An entry that is negative before (cut on a level before): if two processes set it to the
    same positive value, the result is the number of the other processes times the old value
    with the sign changed, if that is larger *)
Theorem C83_negative_refuted : forall v w, (0 < w)%Q -> (w < - v)%Q -> (exchange v [(v, w); (v, w)] == - v)%Q.
Proof.
  intros v w Hw Hv. rewrite exchange_steps, kept_all by (intros p [<- | [<- | []]]; reflexivity).
  assert (E0 : (0 < eps_tol)%Q) by reflexivity.
  assert (C : (cleared v [(v, w); (v, w)] == - v)%Q).
  { unfold cleared. cbn [map fst]. unfold import_add. cbn [fold_left]. assert (T : qltb (v + - v + - v) (- eps_tol) = false) by (apply qltb_false; lra). rewrite T. unfold import_max. cbn [fold_left]. ring. }
  unfold last_steps, negatives, positives. cbn [filter snd]. assert (T1 : qltb w 0 = false) by (apply qltb_false; lra). assert (T2 : qltb 0 w = true) by (apply qltb_true; exact Hw).
  rewrite T1, T2. cbn [map snd]. unfold import_min. cbn [fold_left]. unfold import_max. cbn [fold_left]. rewrite C.
  rewrite (Q.max_l (- v) w) by lra. rewrite Q.max_l by lra. reflexivity.
Qed.
Print Assumptions C83_negative_refuted.

(** ** A level on several processes *)
(** what a process notes: the value it found and the value it leaves *)
Lemma apply_notes : forall ghost os x m i,
  let s := apply_operations ghost os (x, m) in
  (ghost i = false -> snd s i = m i)
  /\ (ghost i = true -> forall o w, m i = Some (o, w) -> w = x i -> snd s i = Some (o, fst s i))
  /\ (ghost i = true -> m i = None -> snd s i = Some (x i, fst s i) \/ snd s i = None /\ fst s i = x i).
Proof.
  intros ghost. induction os as [| o os IH]; intros x m i; cbn [apply_operations fold_left].
  - cbn [fst snd]. split; [intros _; reflexivity |]. split; [intros _ o w E ->; exact E | intros _ E; right; auto].
  - unfold apply_operation at 2 4 6 8 10 12. fold (apply_operations ghost).
    change (let s := apply_operations ghost os (apply_operation ghost o (x, m)) in
      (ghost i = false -> snd s i = m i)
      /\ (ghost i = true -> forall o0 w, m i = Some (o0, w) -> w = x i -> snd s i = Some (o0, fst s i))
      /\ (ghost i = true -> m i = None -> snd s i = Some (x i, fst s i) \/ snd s i = None /\ fst s i = x i)).
    cbn [apply_operation]. destruct (o x) as [[j w] |]; [| exact (IH x m i)].
    specialize (IH (put x j w) (if ghost j then note m j (match m j with None => (x j, w) | Some (old, _) => (old, w) end) else m) i).
    cbv zeta in *. destruct IH as [I1 [I2 I3]]. set (s := apply_operations ghost os _) in *.
    destruct (Nat.eqb_spec i j) as [-> | Nj].
    + split; [intros G; rewrite I1 by exact G; rewrite G; reflexivity |]. split.
      * intros G o0 w0 E _. apply (I2 G o0 w); [rewrite G; unfold note; rewrite Nat.eqb_refl, E; reflexivity | unfold put; rewrite Nat.eqb_refl; reflexivity].
      * intros G E. left. apply (I2 G (x j) w); [rewrite G; unfold note; rewrite Nat.eqb_refl, E; reflexivity | unfold put; rewrite Nat.eqb_refl; reflexivity].
    + assert (M : (if ghost j then note m j (match m j with None => (x j, w) | Some (old, _) => (old, w) end) else m) i = m i).
      { destruct (ghost j); [| reflexivity]. unfold note. destruct (Nat.eqb_spec i j); [contradiction | reflexivity]. }
      assert (X : put x j w i = x i) by (unfold put; destruct (Nat.eqb_spec i j); [contradiction | reflexivity]).
      rewrite M, X in *. split; [exact I1 |]. split; [exact I2 | exact I3].
Qed.

Definition never_sets (os : list operation) (i : nat) : Prop := forall o x w, In o os -> o x <> Some (i, w).

Lemma never_spec : forall ghost os x m i, never_sets os i -> fst (apply_operations ghost os (x, m)) i = x i /\ snd (apply_operations ghost os (x, m)) i = m i.
Proof.
  intros ghost. induction os as [| o os IH]; intros x m i N; [split; reflexivity |].
  change (apply_operations ghost (o :: os) (x, m)) with (apply_operations ghost os (apply_operation ghost o (x, m))).
  assert (N' : never_sets os i) by (intros o' y w I; apply N; right; exact I). cbn [apply_operation]. destruct (o x) as [[j w] |] eqn:E; [| exact (IH x m i N')].
  assert (Nj : i <> j) by (intros ->; exact (N o x w (or_introl eq_refl) E)).
  destruct (IH (put x j w) (if ghost j then note m j (match m j with None => (x j, w) | Some (old, _) => (old, w) end) else m) i N') as [A B]. rewrite A, B. split.
  - unfold put. destruct (Nat.eqb_spec i j); [contradiction | reflexivity].
  - destruct (ghost j); [| reflexivity]. unfold note. destruct (Nat.eqb_spec i j); [contradiction | reflexivity].
Qed.

Lemma flat_map_none : forall A (f : nat -> list A) l, (forall r, In r l -> f r = []) -> flat_map f l = [].
Proof. induction l as [| r l IH]; intros H; [reflexivity |]. cbn [flat_map]. rewrite H by (left; reflexivity). apply IH. intros s I. apply H. right. exact I. Qed.
Lemma flat_map_one : forall A (f : nat -> list A) l r, NoDup l -> In r l -> (forall s, In s l -> s <> r -> f s = []) -> flat_map f l = f r.
Proof.
  induction l as [| s l IH]; intros r ND I H; [destruct I |]. inversion ND as [| ? ? N1 N2]; subst. cbn [flat_map]. destruct I as [-> | I].
  - rewrite (flat_map_none _ f l); [apply app_nil_r |]. intros s Is. apply H; [right; exact Is | intros ->; contradiction].
  - rewrite (H s) by (try (left; reflexivity); intros ->; contradiction). cbn [app]. apply IH; [exact N2 | exact I | intros t It; apply H; right; exact It].
Qed.

(** *** Only one process sets an entry, its owner or another one: afterwards all processes have
    what that process has left there *)
Theorem C83_level_single : forall n_ranks owner os x g i r0 r,
  (forall r, r < n_ranks -> x r i = g i) -> r0 < n_ranks -> owner i < n_ranks ->
  (forall s, s < n_ranks -> s <> r0 -> never_sets (os s) i) ->
  (level n_ranks owner os x r i == fst (local_result owner os x r0) i)%Q.
Proof.
  intros n_ranks owner os x g i r0 r Sy H0 Ho N. unfold level.
  assert (Others : forall s, s < n_ranks -> s <> r0 -> fst (local_result owner os x s) i = x s i /\ snd (local_result owner os x s) i = None).
  { intros s Hs Ns. unfold local_result. destruct (never_spec (ghost_on owner s) (os s) (x s) (fun _ => None) i (N s Hs Ns)) as [A B]. auto. }
  assert (L : noted n_ranks owner os x i = match snd (local_result owner os x r0) i with Some p => [p] | None => [] end).
  { unfold noted. apply (flat_map_one _ (fun s => match snd (local_result owner os x s) i with Some p => [p] | None => [] end) (seq 0 n_ranks) r0); [apply seq_NoDup | apply in_seq; lia |].
    intros s I Ns. apply in_seq in I. destruct (Others s ltac:(lia) Ns) as [_ ->]. reflexivity. }
  rewrite L. destruct (apply_notes (ghost_on owner r0) (os r0) (x r0) (fun _ => None) i) as [A1 [_ A3]].
  change (apply_operations (ghost_on owner r0) (os r0) (x r0, fun _ => None)) with (local_result owner os x r0) in A1, A3.
  unfold ghost_on in A1 at 1, A3 at 1. destruct (Nat.eqb_spec (owner i) r0) as [<- | No]; cbn [negb] in A1, A3.
  - rewrite A1 by reflexivity. rewrite C83_owner by (intros p []). reflexivity.
  - destruct (Others (owner i) Ho No) as [-> _]. destruct (A3 eq_refl eq_refl) as [E | [E1 E2]].
    + rewrite E. apply C83_single. rewrite (Sy r0 H0), (Sy (owner i) Ho). reflexivity.
    + rewrite E1, E2. rewrite C83_owner by (intros p []). rewrite (Sy r0 H0), (Sy (owner i) Ho). reflexivity.
Qed.
Print Assumptions C83_level_single.

(** ** Comparison with one process *)
Lemma ghost_irrelevant : forall ghost ghost' os x m m', fst (apply_operations ghost os (x, m)) = fst (apply_operations ghost' os (x, m')).
Proof.
  intros ghost ghost'. induction os as [| o os IH]; intros x m m'; [reflexivity |].
  change (fst (apply_operations ghost os (apply_operation ghost o (x, m))) = fst (apply_operations ghost' os (apply_operation ghost' o (x, m')))).
  cbn [apply_operation]. destruct (o x) as [[j w] |]; apply IH.
Qed.
Lemma serial_app : forall a b x, serial (a ++ b) x = serial b (serial a x).
Proof.
  intros a b x. unfold serial, apply_operations. rewrite fold_left_app. set (s := fold_left _ a (x, _)). destruct s as [y m]. cbn [fst]. apply ghost_irrelevant.
Qed.

(** an operation sees only the entries in [F] *)
Definition sees (F : nat -> Prop) (o : operation) : Prop := forall x y, (forall i, F i -> x i = y i) -> o x = o y.

Lemma serial_agree : forall F os x y, (forall o, In o os -> sees F o) -> (forall i, F i -> x i = y i) -> forall i, F i -> serial os x i = serial os y i.
Proof.
  intros F. induction os as [| o os IH]; intros x y Se H i Fi; [exact (H i Fi) |].
  change (o :: os) with ([o] ++ os). rewrite !serial_app. apply IH; [intros o' I; apply Se; right; exact I | | exact Fi].
  intros j Fj. unfold serial, apply_operations. cbn [fold_left apply_operation]. rewrite (Se o (or_introl eq_refl) x y H). destruct (o y) as [[k w] |]; cbn [fst]; [| exact (H j Fj)].
  unfold put. destruct (Nat.eqb j k); [reflexivity | exact (H j Fj)].
Qed.
Lemma serial_never : forall os x i, never_sets os i -> serial os x i = x i.
Proof. intros os x i N. exact (proj1 (never_spec _ os x _ i N)). Qed.

(** *** If no process looks at or sets an entry another one sets, the vectors of all processes
    are those of a run on one process, for every order of the processes there *)
Theorem C83_serial_partial : forall n_ranks owner os g (F W : nat -> nat -> Prop) order,
  (forall i, owner i < n_ranks) -> Permutation order (seq 0 n_ranks) ->
  (forall r o, r < n_ranks -> In o (os r) -> sees (F r) o) ->
  (forall r i, r < n_ranks -> W r i \/ never_sets (os r) i) -> (forall r i, W r i -> F r i) ->
  (forall r s i, r < n_ranks -> s < n_ranks -> r <> s -> F r i -> ~ W s i) ->
  forall r i, (level n_ranks owner os (fun _ => g) r i == serial (concat (map os order)) g i)%Q.
Proof.
  intros n_ranks owner os g F W order Ho P Se Wr WF Dis r i.
  assert (GEN : forall l y, NoDup l -> (forall s, In s l -> s < n_ranks) -> (forall s j, In s l -> F s j -> y j = g j) ->
     (forall s j, In s l -> W s j -> serial (concat (map os l)) y j = serial (os s) g j)
     /\ (forall j, (forall s, In s l -> ~ W s j) -> serial (concat (map os l)) y j = y j)).
  { induction l as [| s l IH]; intros y ND Hl Hy; [split; [intros s j [] | reflexivity] |]. inversion ND as [| ? ? N1 N2]; subst.
    assert (Hs : s < n_ranks) by (apply Hl; left; reflexivity).
    assert (Off : forall j, ~ W s j -> serial (os s) y j = y j) by (intros j Nw; apply serial_never; destruct (Wr s j Hs); [contradiction | assumption]).
    assert (On : forall j, F s j -> serial (os s) y j = serial (os s) g j).
    { apply serial_agree; [intros o I; exact (Se s o Hs I) | intros j Fj; exact (Hy s j (or_introl eq_refl) Fj)]. }
    destruct (IH (serial (os s) y) N2 (fun t I => Hl t (or_intror I))) as [A B].
    { intros t j I Ft. rewrite Off; [exact (Hy t j (or_intror I) Ft) |]. apply (Dis t s j); [apply Hl; right; exact I | exact Hs | intros ->; contradiction | exact Ft]. }
    cbn [map concat]. assert (SA : forall j, serial (os s ++ concat (map os l)) y j = serial (concat (map os l)) (serial (os s) y) j) by (intros; rewrite serial_app; reflexivity). split.
    - intros t j [<- | I] Wt; rewrite SA; [| exact (A t j I Wt)]. rewrite B; [exact (On j (WF s j Wt)) |].
      intros u Iu. apply (Dis s u j); [exact Hs | apply Hl; right; exact Iu | intros ->; contradiction | exact (WF s j Wt)].
    - intros j Nw. rewrite SA, B by (intros u Iu; apply Nw; right; exact Iu). apply Off. apply Nw. left. reflexivity. }
  assert (ND : NoDup order) by (exact (Permutation_NoDup (Permutation_sym P) (seq_NoDup n_ranks 0))).
  assert (Lo : forall s, In s order <-> s < n_ranks).
  { intros s. split; intros H; [assert (X := Permutation_in _ P H); apply in_seq in X; lia | apply (Permutation_in _ (Permutation_sym P)); apply in_seq; lia]. }
  destruct (GEN order g ND (fun s I => proj1 (Lo s) I) (fun _ _ _ _ => eq_refl)) as [A B].
  assert (LS : forall s, fst (local_result owner os (fun _ => g) s) i = serial (os s) g i) by (intros s; unfold local_result, serial; rewrite (ghost_irrelevant _ (fun _ => false) (os s) g _ (fun _ => None)); reflexivity).
  assert (ONE : forall s, s < n_ranks -> W s i -> forall t, t < n_ranks -> t <> s -> never_sets (os t) i).
  { intros s Hs Ws t Ht Nt. destruct (Wr t i Ht) as [Wt | N]; [| exact N]. exfalso. apply (Dis t s i Ht Hs Nt); [exact (WF t i Wt) | exact Ws]. }
  assert (FIND : (exists s, s < n_ranks /\ W s i) \/ (forall s, s < n_ranks -> never_sets (os s) i)).
  { clear - Wr. assert (X : forall k, k <= n_ranks -> (exists s, s < n_ranks /\ W s i) \/ (forall s, s < k -> never_sets (os s) i)).
    { induction k as [| k IH]; intros Hk; [right; intros s Hs; lia |]. destruct (IH ltac:(lia)) as [E | N]; [left; exact E |].
      destruct (Wr k i ltac:(lia)) as [Wk | Nk]; [left; exists k; split; [lia | exact Wk] |]. right. intros s Hs. destruct (Nat.eq_dec s k) as [-> | ]; [exact Nk | apply N; lia]. }
    exact (X n_ranks (le_n _)). }
  destruct FIND as [[s [Hs Ws]] | N].
  - rewrite (C83_level_single n_ranks owner os (fun _ => g) g i s r (fun _ _ => eq_refl) Hs (Ho i) (ONE s Hs Ws)). rewrite LS, (A s i (proj2 (Lo s) Hs) Ws). reflexivity.
  - rewrite (C83_level_single n_ranks owner os (fun _ => g) g i (owner i) r (fun _ _ => eq_refl) (Ho i) (Ho i) (fun s Hs _ => N s Hs)). rewrite LS.
    rewrite (serial_never (os (owner i)) g i (N _ (Ho i))).
    rewrite serial_never; [reflexivity |]. intros o x w I. apply in_concat in I. destruct I as [l [Il Io]]. apply in_map_iff in Il. destruct Il as [s [<- Is]]. exact (N s (proj1 (Lo s) Is) o x w Io).
Qed.
Print Assumptions C83_serial_partial.

(** ** Results that depend on the processes.  A line from a vertex with value 1 cut, for the iso
    level 1/2, after a fraction [q] of its length sets the other vertex to [1 - 1/2/q] *)
Definition set_to (i : nat) (w : Q) : operation := fun x => if qltb eps_tol (Qabs (x i - w)) then Some (i, w) else None.
Definition cut_at (q : Q) : Q := (1 - (1 # 2) / q)%Q.
Example cut_values : (cut_at (1 # 4) == -1)%Q /\ (cut_at (2 # 3) == 1 # 4)%Q.
Proof. split; reflexivity. Qed.

(** *** Two lines cut at different places end in the same vertex: on one process the last one
    counts, on two processes the one with the larger value if it is positive *)
Theorem C83_partition_refuted : forall g, (g == 1)%Q ->
  let os := fun r => match r with 1 => [set_to 0 (cut_at (2 # 3))] | 2 => [set_to 0 (cut_at (1 # 4))] | _ => [] end in
  (serial (concat (map os (seq 0 3))) (fun _ => g) 0%nat == -1)%Q
  /\ forall r, (level 3 (fun _ => 0%nat) os (fun _ _ => g) r 0%nat == 1 # 4)%Q.
Proof.
  intros g Hg os.
  assert (T1 : qltb eps_tol (Qabs (g - cut_at (2 # 3))) = true).
  { apply qltb_true. setoid_replace (g - cut_at (2 # 3))%Q with (3 # 4)%Q by (rewrite Hg; reflexivity). reflexivity. }
  assert (T2 : qltb eps_tol (Qabs (g - cut_at (1 # 4))) = true).
  { apply qltb_true. setoid_replace (g - cut_at (1 # 4))%Q with 2%Q by (rewrite Hg; reflexivity). reflexivity. }
  split.
  - unfold serial, os, apply_operations. cbn [seq map concat app fold_left]. unfold apply_operation, set_to. rewrite T1. cbn [put]. unfold put at 1. cbn [Nat.eqb].
    replace (qltb eps_tol (Qabs (cut_at (2 # 3) - cut_at (1 # 4)))) with true by reflexivity. reflexivity.
  - intros r. unfold level.
    assert (L : noted 3 (fun _ => 0) os (fun _ _ => g) 0 = [(g, cut_at (2 # 3)); (g, cut_at (1 # 4))]).
    { unfold noted, local_result, apply_operations, os. cbn [seq flat_map fold_left]. unfold apply_operation, set_to. rewrite T1, T2. reflexivity. }
    rewrite L. assert (E : fst (local_result (fun _ => 0) os (fun _ _ => g) 0) 0 = g) by reflexivity. rewrite E.
    destruct (C83_result_partial g [(g, cut_at (2 # 3)); (g, cut_at (1 # 4))]) as [[w [I R]] [P _]].
    + intros p [<- | [<- | []]]; reflexivity.
    + discriminate.
    + right. left. rewrite Hg. reflexivity.
    + assert (X := P (cut_at (2 # 3)) (or_introl eq_refl) eq_refl). assert (Y : (cut_at (2 # 3) == 1 # 4)%Q) by reflexivity.
      destruct I as [<- | [<- | []]]; [rewrite R; exact Y |]. exfalso. rewrite R in X. revert X. vm_compute. intros X. apply X. reflexivity.
Qed.
Print Assumptions C83_partition_refuted.

(** *** A vertex cut to -1 on one level and, by two processes that agree, to 1/4 on the next: it
    ends with 1, above the iso level again *)
Theorem C83_levels_refuted :
  let first := fun r => match r with 1 => [set_to 0 (cut_at (1 # 4))] | _ => [] end in
  let second := fun r => match r with 1 | 2 => [set_to 0 (cut_at (2 # 3))] | _ => [] end in
  (forall r, (level 3 (fun _ => 0%nat) second (level 3 (fun _ => 0%nat) first (fun _ _ => 1%Q)) r 0%nat == 1)%Q)
  /\ (serial (concat (map second (seq 0 3))) (serial (concat (map first (seq 0 3))) (fun _ => 1%Q)) 0%nat == 1 # 4)%Q.
Proof. cbv zeta. split; [intros r |]; vm_compute; reflexivity. Qed.
Print Assumptions C83_levels_refuted.

(** *** A case of the comparison with one process: entries 0 and 1 are set by processes 0 and 1,
    entry 1 belongs to process 0 *)
Example C83_applies :
  let os := fun r => match r with 0 => [set_to 0 (1 # 4)] | 1 => [set_to 1 (-1)%Q] | _ => [] end in
  (forall i, (level 2 (fun _ => 0%nat) os (fun _ _ => 1%Q) 1%nat i == serial (concat (map os [1; 0]%nat)) (fun _ => 1%Q) i)%Q)
  /\ (level 2 (fun _ => 0%nat) os (fun _ _ => 1%Q) 0%nat 1%nat == -1)%Q.
Proof.
  intros os. split; [| vm_compute; reflexivity]. intros i.
  apply (C83_serial_partial 2 (fun _ => 0) os (fun _ => 1%Q) (fun r i => i = r) (fun r i => i = r) [1; 0]).
  - intros; lia.
  - apply perm_swap.
  - intros r o Hr I x y H. destruct r as [| [| r]]; [| | lia]; destruct I as [<- | []]; unfold set_to; rewrite (H _ eq_refl); reflexivity.
  - intros r j Hr. destruct (Nat.eq_dec j r) as [E | E]; [left; exact E | right]. intros o x w I. destruct r as [| [| r]]; [| | lia]; destruct I as [<- | []]; unfold set_to; destruct (qltb _ _); congruence.
  - auto.
  - intros r s j _ _ N -> E. congruence.
Qed.
