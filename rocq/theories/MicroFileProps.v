(** C84: the two readers of microstructures. *)
From Coq Require Import String Ascii.
From Coq Require Import List QArith Qminmax Arith Bool ZArith Permutation Sorted Lia Lqa.
From Verif Require Import Util CutoffProofs CsvModel CsvProps MicroFileModel.
Import ListNotations.
Local Open Scope list_scope.
Local Open Scope nat_scope.

(** ** The map from order parameters to grains *)
Lemma push_at : forall m k i x, map_at (push m k i) x =
  if Nat.eqb k x then Some (match map_at m x with Some l => l ++ [i] | None => [i] end) else map_at m x.
Proof.
  intros m k i x. induction m as [|(y, l) m IH]; cbn [push map_at].
  - destruct (Nat.eqb_spec k x); reflexivity.
  - destruct (Nat.eqb_spec y k) as [->|Hyk]; cbn [map_at].
    + destruct (Nat.eqb_spec k x); reflexivity.
    + rewrite IH. destruct (Nat.eqb_spec y x) as [->|Hyx]; [|reflexivity].
      destruct (Nat.eqb_spec k x); [congruence|reflexivity].
Qed.

Lemma push_keys : forall m k i, map fst (push m k i) = if in_dec Nat.eq_dec k (map fst m) then map fst m else map fst m ++ [k].
Proof.
  intros m k i. induction m as [|(y, l) m IH]; [reflexivity|]. cbn [push map fst].
  destruct (Nat.eqb_spec y k) as [->|Hyk]; cbn [map fst].
  - destruct (in_dec Nat.eq_dec k (k :: map fst m)) as [_|N]; [reflexivity|]. destruct N. left. reflexivity.
  - rewrite IH. destruct (in_dec Nat.eq_dec k (map fst m)) as [H|H];
      destruct (in_dec Nat.eq_dec k (y :: map fst m)) as [H'|H']; try reflexivity.
    + destruct H'. right. exact H.
    + destruct H' as [E|E]; [congruence|contradiction].
Qed.

(** the grains [i], [i+1], ... with the order parameters [ks] *)
Fixpoint pushes (ks : list nat) (i : nat) (m : op_map) : op_map :=
  match ks with [] => m | k :: r => pushes r (S i) (push m k i) end.
Fixpoint members (ks : list nat) (i k : nat) : list nat :=
  match ks with [] => [] | x :: r => (if Nat.eqb x k then [i] else []) ++ members r (S i) k end.

Lemma pushes_at : forall ks i m k, map_at (pushes ks i m) k =
  match map_at m k, members ks i k with Some a, l => Some (a ++ l) | None, [] => None | None, l => Some l end.
Proof.
  induction ks as [|x ks IH]; intros i m k; cbn [pushes members].
  - destruct (map_at m k) as [a|]; [rewrite app_nil_r|]; reflexivity.
  - rewrite IH, push_at. destruct (Nat.eqb x k); cbn [app]; [|reflexivity].
    destruct (map_at m k) as [a|]; [rewrite <- app_assoc|]; reflexivity.
Qed.

Lemma members_in : forall ks i k j, In j (members ks i k) <-> exists d, j = i + d /\ vget ks d = Some k.
Proof.
  induction ks as [|x ks IH]; intros i k j; cbn [members].
  - split; [intros []|]. intros (d & _ & H). destruct d; discriminate.
  - rewrite in_app_iff, IH. split.
    + intros [H|(d & -> & H)].
      * destruct (Nat.eqb_spec x k) as [->|]; [|destruct H]. destruct H as [<-|[]]. exists 0. split; [lia|reflexivity].
      * exists (S d). split; [lia|exact H].
    + intros ([|d] & -> & H).
      * left. cbn in H. injection H as ->. rewrite Nat.eqb_refl. left. lia.
      * right. exists d. split; [lia|exact H].
Qed.

Lemma members_sorted : forall ks i k, StronglySorted lt (members ks i k).
Proof.
  induction ks as [|x ks IH]; intros i k; cbn [members]; [constructor|].
  destruct (Nat.eqb x k); cbn [app]; [|apply IH]. constructor; [apply IH|].
  apply Forall_forall. intros j H. apply members_in in H. destruct H as (d & -> & _). lia.
Qed.

Lemma pushes_keys : forall ks i m, NoDup (map fst m) ->
  NoDup (map fst (pushes ks i m)) /\ (forall k, In k (map fst (pushes ks i m)) <-> In k (map fst m) \/ In k ks).
Proof.
  induction ks as [|x ks IH]; intros i m Hn; cbn [pushes].
  - split; [exact Hn|]. intro k. cbn. tauto.
  - assert (N : NoDup (map fst (push m x i)) /\ forall k, In k (map fst (push m x i)) <-> In k (map fst m) \/ x = k).
    { rewrite push_keys. destruct (in_dec Nat.eq_dec x (map fst m)) as [H|H].
      - split; [exact Hn|]. intro k. split; [tauto|]. intros [?|<-]; assumption.
      - split.
        + apply (Permutation_NoDup (Permutation_cons_append (map fst m) x)). constructor; assumption.
        + intro k. rewrite in_app_iff. cbn. tauto. }
    destruct N as (N1 & N2). destruct (IH (S i) _ N1) as (A & B). split; [exact A|].
    intro k. rewrite B, N2. cbn. tauto.
Qed.

Lemma list_ext : forall {A} (l l' : list A), (forall i, nth_error l i = nth_error l' i) -> l = l'.
Proof.
  intros A l. induction l as [|x l IH]; intros l' H.
  - specialize (H 0). destruct l'; [reflexivity|discriminate].
  - assert (H0 := H 0). destruct l' as [|y l']; [discriminate|]. injection H0 as <-. f_equal. apply IH. intro i. exact (H (S i)).
Qed.

(** what the map is for a list of order parameters, grain by grain *)
Definition maps (ks : list nat) (m : op_map) : Prop :=
  (forall op l, map_at m op = Some l -> StronglySorted lt l /\ forall i, In i l <-> vget ks i = Some op) /\
  (forall op, map_at m op = None <-> ~ In op ks) /\
  n_order_parameters m = length (nodup Nat.eq_dec ks).

Lemma vget_in : forall {A} (l : list A) x, In x l <-> exists i, vget l i = Some x.
Proof.
  intros A l x. split.
  - intro H. destruct (In_nth_error l x H) as (i & E). exists i. exact E.
  - intros (i & E). exact (nth_error_In l i E).
Qed.

Lemma pushes_maps : forall ks, maps ks (pushes ks 0 []).
Proof.
  intro ks. split; [|split].
  - intros op l. rewrite pushes_at. cbn [map_at]. intro H.
    assert (E : l = members ks 0 op). { destruct (members ks 0 op); [discriminate|]. injection H as <-. reflexivity. }
    subst l. split; [apply members_sorted|]. intro i. rewrite members_in. split.
    + intros (d & -> & X). exact X.
    + intro X. exists i. split; [reflexivity|exact X].
  - intro op. rewrite pushes_at. cbn [map_at]. rewrite vget_in. destruct (members ks 0 op) as [|j l] eqn:E.
    + split; [|reflexivity]. intros _ (i & H).
      assert (X : In (0 + i) (members ks 0 op)) by (apply members_in; exists i; auto). rewrite E in X. destruct X.
    + split; [discriminate|]. intro H. destruct H.
      assert (X : In j (members ks 0 op)) by (rewrite E; left; reflexivity).
      apply members_in in X. destruct X as (d & _ & X). exists d. exact X.
  - unfold n_order_parameters. rewrite <- (map_length fst).
    destruct (pushes_keys ks 0 []) as (A & B); [constructor|].
    apply Nat.le_antisymm; apply NoDup_incl_length; try exact A; try apply NoDup_nodup.
    + intros k H. apply B in H. destruct H as [[]|H]. apply nodup_In. exact H.
    + intros k H. apply nodup_In in H. apply B. right. exact H.
Qed.

(** every order parameter below their number has grains exactly if no number is too large *)
Lemma maps_contiguous : forall ks m, maps ks m ->
  ((forall op, op < n_order_parameters m -> exists l, map_at m op = Some l) <-> (forall k, In k ks -> k < n_order_parameters m)).
Proof.
  intros ks m (_ & B & C). rewrite C.
  assert (ND : NoDup (nodup Nat.eq_dec ks)) by apply NoDup_nodup.
  assert (K : forall op, (exists l, map_at m op = Some l) <-> In op (nodup Nat.eq_dec ks)).
  { intro op. rewrite nodup_In. destruct (map_at m op) as [l|] eqn:E.
    - split; [|eauto]. intros _. destruct (in_dec Nat.eq_dec op ks) as [H|H]; [exact H|].
      apply B in H. congruence.
    - split; [intros (l & X); discriminate|]. intro H. apply B in E. contradiction. }
  set (n := length (nodup Nat.eq_dec ks)) in *. split.
  - intros H k Hk. assert (I : incl (seq 0 n) (nodup Nat.eq_dec ks)).
    { intros x Hx. apply in_seq in Hx. apply K. apply H. lia. }
    assert (I' : incl (nodup Nat.eq_dec ks) (seq 0 n)).
    { apply NoDup_length_incl; [apply seq_NoDup|rewrite seq_length; lia|exact I]. }
    apply (nodup_In Nat.eq_dec) in Hk. apply I' in Hk. apply in_seq in Hk. lia.
  - intros H op Hop. apply K. assert (I : incl (nodup Nat.eq_dec ks) (seq 0 n)).
    { intros x Hx. apply nodup_In in Hx. apply in_seq. specialize (H x Hx). lia. }
    assert (I' : incl (seq 0 n) (nodup Nat.eq_dec ks)).
    { apply NoDup_length_incl; [exact ND|rewrite seq_length; lia|exact I]. }
    apply I'. apply in_seq. lia.
Qed.

(** ** Images *)
Section Imaging.
Variable D : Type.
Variable stoi : text -> option nat.
Variable stod : text -> option D.
Notation read := (read_imaging D stoi stod).

(** the fields of a line are the pieces between the commas *)
Definition fields_of (l : text) (fs : list text) : Prop := fs <> [] /\ Forall (fun f => ~ In comma f) fs /\ join comma fs = l.
Definition describes_count (l : text) : Prop := exists f fs, fields_of l (f :: fs) /\ stoi f <> None.
Definition describes_ops (l : text) (colors : list nat) : Prop :=
  exists fs, fields_of l fs /\ Forall2 (fun f c => stoi f = Some c) fs colors.
Fixpoint pairs_of (fs : list text) (c : list (D * D)) : Prop :=
  match fs, c with
  | [], [] => True
  | f :: g :: fs, (x, y) :: c => stod f = Some x /\ stod g = Some y /\ pairs_of fs c
  | _, _ => False
  end.
Definition describes_contour (l : text) (c : list (D * D)) : Prop := exists fs, fields_of l fs /\ pairs_of fs c.

Lemma row_fields : forall l fs, fields_of l fs -> size (make_row l) = length fs /\ forall i, field (make_row l) i = vget fs i.
Proof.
  intros l fs (N & F & J). destruct (C40_fields l) as (fs' & _ & Sz & _ & _ & G & U).
  assert (E := U fs N F J). subst fs'. split; assumption.
Qed.

Lemma some_fields : forall l, exists fs, fields_of l fs.
Proof.
  intro l. exists (split comma l). destruct (split_ok comma l) as (N & _ & J & F). split; [exact N|]. split; assumption.
Qed.

Lemma fields_unique : forall l fs fs', fields_of l fs -> fields_of l fs' -> fs = fs'.
Proof. intros l a b (Na & Fa & Ja) (Nb & Fb & Jb). apply (join_unique comma); try assumption. congruence. Qed.

Lemma read_ops_spec : forall r fs k s,
  (forall i, field r (k + i) = vget fs i) ->
  forall s', read_ops D stoi r (seq k (length fs)) s = Some s' <->
  exists colors, Forall2 (fun f c => stoi f = Some c) fs colors /\
    s' = mkMicro D (grains D s ++ map (fun c => mkGrain D (Some c) []) colors) (pushes colors k (ops D s)).
Proof.
  intros r fs. induction fs as [|f fs IH]; intros k s H s'; cbn [length seq read_ops].
  - split.
    + intro E. injection E as <-. exists []. split; [constructor|]. cbn. rewrite app_nil_r. destruct s; reflexivity.
    + intros (cs & F & ->). inversion F; subst. cbn. rewrite app_nil_r. destruct s; reflexivity.
  - assert (H0 := H 0). rewrite Nat.add_0_r in H0. rewrite H0. cbn [vget nth_error obind].
    destruct (stoi f) as [c|] eqn:Ef; cbn [obind].
    + rewrite (IH (S k)).
      * split.
        -- intros (cs & F & ->). exists (c :: cs). split; [constructor; assumption|]. cbn. rewrite <- app_assoc. reflexivity.
        -- intros (cs & F & ->). inversion F as [|? c' ? cs' E1 F']; subst. rewrite Ef in E1. injection E1 as <-.
           exists cs'. split; [exact F'|]. cbn. rewrite <- app_assoc. reflexivity.
      * intro i. specialize (H (S i)). rewrite Nat.add_succ_r in H. exact H.
    + split; [discriminate|]. intros (cs & F & _). inversion F; subst. congruence.
Qed.

Lemma every_second_spec : forall n, every_second (S (S n)) = 0 :: map (fun i => S (S i)) (every_second n).
Proof.
  intro n. unfold every_second. replace (S (S (S n)) / 2) with (S (S n / 2)).
  - cbn [seq map]. f_equal. rewrite <- seq_shift, !map_map. apply map_ext. intro a. lia.
  - change (S (S (S n))) with (2 + S n). replace (2 + S n) with (S n + 1 * 2) by lia. rewrite Nat.div_add by lia. lia.
Qed.

Fixpoint collect (f : nat -> option text) (is : list nat) : option (list (D * D)) :=
  match is with
  | [] => Some []
  | i :: is => x <- (a <- f i ;; stod a) ;; y <- (a <- f (S i) ;; stod a) ;; l <- collect f is ;; Some ((x, y) :: l)
  end.
Lemma read_vertices_collect : forall r is, read_vertices D stod r is = collect (field r) is.
Proof. intros r is. induction is as [|i is IH]; [reflexivity|]. cbn [read_vertices collect]. rewrite IH. reflexivity. Qed.
Lemma collect_ext : forall f g is, (forall i, f i = g i) -> collect f is = collect g is.
Proof. intros f g is H. induction is as [|i is IH]; [reflexivity|]. cbn [collect]. rewrite !H, IH. reflexivity. Qed.
Lemma collect_shift : forall f is, collect f (map (fun i => S (S i)) is) = collect (fun i => f (S (S i))) is.
Proof. intros f is. induction is as [|i is IH]; [reflexivity|]. cbn [collect map]. rewrite IH. reflexivity. Qed.

Lemma collect_pairs : forall n fs, length fs <= n -> forall c,
  collect (vget fs) (every_second (length fs)) = Some c <-> pairs_of fs c.
Proof.
  induction n as [|n IH]; intros fs Hn c.
  - destruct fs; [|cbn in Hn; lia]. cbn. destruct c; split; intro H; try discriminate; try reflexivity; try contradiction; exact I.
  - destruct fs as [|f [|g fs]].
    + cbn. destruct c; split; intro H; try discriminate; try reflexivity; try contradiction; exact I.
    + cbn. destruct (stod f); cbn; split; try discriminate; intros [].
    + cbn [length]. rewrite every_second_spec. cbn [collect]. rewrite collect_shift.
      change (vget (f :: g :: fs) 0) with (Some f). change (vget (f :: g :: fs) 1) with (Some g). cbn [obind].
      rewrite (collect_ext _ (vget fs)) by reflexivity.
      assert (K : length fs <= n) by (cbn in Hn; lia). specialize (IH fs K).
      destruct (stod f) as [x|] eqn:Ef; cbn [obind].
      * destruct (stod g) as [y|] eqn:Eg; cbn [obind].
        -- destruct (collect (vget fs) (every_second (length fs))) as [l|] eqn:E; cbn [obind].
           ++ split.
              ** intro X. injection X as <-. cbn [pairs_of]. split; [exact Ef|]. split; [exact Eg|]. apply IH. reflexivity.
              ** destruct c as [|(x', y') c]; [intros []|]. cbn [pairs_of]. intros (E1 & E2 & E3).
                 apply IH in E3. congruence.
           ++ split; [discriminate|]. destruct c as [|(x', y') c]; [intros []|]. cbn [pairs_of]. intros (_ & _ & E3).
              apply IH in E3. discriminate.
        -- split; [discriminate|]. destruct c as [|(x', y') c]; [intros []|]. cbn [pairs_of]. intros (_ & E2 & _). congruence.
      * split; [discriminate|]. destruct c as [|(x', y') c]; [intros []|]. cbn [pairs_of]. intros (E1 & _). congruence.
Qed.

Lemma contour_spec : forall l c, read_vertices D stod (make_row l) (every_second (size (make_row l))) = Some c <-> describes_contour l c.
Proof.
  intros l c. destruct (some_fields l) as (fs & F). destruct (row_fields l fs F) as (Z1 & Z2).
  rewrite read_vertices_collect, Z1, (collect_ext _ (vget fs)) by exact Z2.
  rewrite (collect_pairs (length fs) fs) by lia. split.
  - intro H. exists fs. split; assumption.
  - intros (fs' & F' & H). rewrite (fields_unique _ _ _ F F'). exact H.
Qed.

Lemma contour_not_empty : forall l c, describes_contour l c -> c <> [].
Proof. intros l c (fs & (N & _) & P) ->. destruct fs as [|f [|g fs]]; [congruence|destruct P|destruct P]. Qed.

(** the grains after the rows [k], [k+1], ... *)
Lemma rows_spec : forall cs k s s', read_grain_rows D stoi stod (map make_row cs) (S (S k)) s = Some s' <->
  exists contours, Forall2 describes_contour cs contours /\ k + length contours <= Nat.max k (length (grains D s)) /\
    ops D s' = ops D s /\ length (grains D s') = length (grains D s) /\
    (forall i g, vget (grains D s) i = Some g -> vget (grains D s') i =
       Some (if i <? k then g else match vget contours (i - k) with Some c => add_segment D g c | None => g end)).
Proof.
  induction cs as [|l cs IH]; intros k s s'; cbn [map read_grain_rows].
  - split.
    + intro E. injection E as <-. exists []. split; [constructor|]. split; [cbn; lia|]. split; [reflexivity|]. split; [reflexivity|].
      intros i g H. rewrite H. destruct (i <? k); [reflexivity|]. destruct (i - k); reflexivity.
    + intros (contours & F & _ & Ho & Hl & Hg). inversion F; subst. f_equal.
      assert (Eg : grains D s' = grains D s).
      { apply list_ext. intro i. destruct (nth_error (grains D s) i) as [g|] eqn:E.
        - specialize (Hg i g E). unfold vget in Hg. rewrite Hg. destruct (i <? k); [reflexivity|]. destruct (i - k); reflexivity.
        - apply nth_error_None. apply nth_error_None in E. lia. }
      destruct s, s'. cbn in *. congruence.
  - destruct (read_vertices D stod (make_row l) (every_second (size (make_row l)))) as [c|] eqn:Ec; cbn [obind].
    2:{ split; [discriminate|]. intros (contours & F & _). inversion F as [|? c ? ? Hc _]; subst.
        apply contour_spec in Hc. congruence. }
    apply contour_spec in Ec. assert (N := contour_not_empty _ _ Ec).
    replace (new_segment D c) with (Some c) by (destruct c; [congruence|reflexivity]). cbn [obind].
    destruct (vget (grains D s) k) as [g|] eqn:Eg; cbn [obind].
    2:{ split; [discriminate|]. intros (contours & F & L & _). inversion F; subst. cbn [length] in L.
        apply nth_error_None in Eg. lia. }
    assert (Hk : k < length (grains D s)) by (apply nth_error_Some; unfold vget in Eg; congruence).
    destruct (vset (grains D s) k (add_segment D g c)) as [gs|] eqn:Es; cbn [obind].
    2:{ destruct (vset_some _ (grains D s) k (add_segment D g c) Hk) as (gs & X). congruence. }
    rewrite IH. cbn [grains ops].
    assert (Ls : length gs = length (grains D s)) by (apply vset_length in Es; exact Es).
    split.
    + intros (contours & F & L & Ho & Hl & Hg). exists (c :: contours). split; [constructor; assumption|].
      split; [cbn [length]; lia|]. split; [exact Ho|]. split; [lia|].
      intros i g' Hi. destruct (Nat.eq_dec i k) as [->|Hik].
      * assert (X : vget gs k = Some (add_segment D g c)) by (rewrite (vset_get _ _ _ _ _ k Es), Nat.eqb_refl; reflexivity).
        rewrite (Hg k _ X). replace (k <? S k) with true by (symmetry; apply Nat.ltb_lt; lia).
        rewrite Nat.ltb_irrefl, Nat.sub_diag. cbn. congruence.
      * assert (X : vget gs i = Some g').
        { rewrite (vset_get _ _ _ _ _ i Es). destruct (Nat.eqb_spec i k); [contradiction|exact Hi]. }
        rewrite (Hg i _ X). destruct (Nat.ltb_spec i (S k)); destruct (Nat.ltb_spec i k); try lia; [reflexivity|].
        replace (i - k) with (S (i - S k)) by lia. reflexivity.
    + intros (contours & F & L & Ho & Hl & Hg). inversion F as [|? c' ? cont Hc F']; subst.
      assert (c' = c). { apply contour_spec in Hc. apply contour_spec in Ec. congruence. } subst c'.
      exists cont. split; [exact F'|]. cbn [length] in L. split; [lia|]. split; [exact Ho|]. split; [lia|].
      intros i g' Hi. rewrite (vset_get _ _ _ _ _ i Es) in Hi. destruct (Nat.eqb_spec i k) as [->|Hik].
      * injection Hi as <-. rewrite (Hg k _ Eg). rewrite Nat.ltb_irrefl, Nat.sub_diag.
        replace (k <? S k) with true by (symmetry; apply Nat.ltb_lt; lia). reflexivity.
      * rewrite (Hg i _ Hi). destruct (Nat.ltb_spec i (S k)); destruct (Nat.ltb_spec i k); try lia; [reflexivity|].
        replace (i - k) with (S (i - S k)) by lia. reflexivity.
Qed.


(** C84_imaging: exactly the files with a number in the first line, an order parameter for
    every grain in the second one and a contour, as pairs of numbers, in each of the further
    lines, not more than grains, are read; grain number [i] has the order parameter and the
    contour number [i]; the map holds for every order parameter its grains in ascending order. *)
Theorem C84_imaging : forall t h o cs, lines_of (h :: o :: cs) t ->
  ((exists s, read t = Some s) <->
   describes_count h /\ exists colors contours, describes_ops o colors /\ Forall2 describes_contour cs contours /\ length contours <= length colors) /\
  (forall s colors contours, read t = Some s -> describes_ops o colors -> Forall2 describes_contour cs contours ->
   maps colors (ops D s) /\ length (grains D s) = length colors /\
   forall i c, vget colors i = Some c ->
     vget (grains D s) i = Some (mkGrain D (Some c) (match vget contours i with Some x => [x] | None => [] end))).
Proof.
  intros t h o cs H. destruct (C40_lines t) as (ls & E & _ & U). rewrite <- (U _ H) in E.
  destruct (some_fields h) as (fh & Fh). destruct (row_fields h fh Fh) as (_ & Zh).
  destruct (some_fields o) as (fo & Fo). destruct (row_fields o fo Fo) as (So & Zo).
  assert (OPS : forall s s', read_ops D stoi (make_row o) (seq 0 (size (make_row o))) s = Some s' <->
    exists colors, Forall2 (fun f c => stoi f = Some c) fo colors /\
    s' = mkMicro D (grains D s ++ map (fun c => mkGrain D (Some c) []) colors) (pushes colors 0 (ops D s))).
  { intros s s'. rewrite So. apply read_ops_spec. exact Zo. }
  assert (CU : forall a b, Forall2 (fun f c => stoi f = Some c) fo a -> Forall2 (fun f c => stoi f = Some c) fo b -> a = b).
  { clear. intros a b A. revert b. induction A; intros b B; inversion B; subst; [reflexivity|]. f_equal; [congruence|auto]. }
  assert (TU : forall a b, Forall2 describes_contour cs a -> Forall2 describes_contour cs b -> a = b).
  { clear. intros a b A. revert b. induction A; intros b B; inversion B as [|? c' ? ? X ?]; subst; [reflexivity|]. f_equal; [|auto].
    apply contour_spec in H. apply contour_spec in X. congruence. }
  assert (R : forall s, read t = Some s <-> describes_count h /\ exists colors, Forall2 (fun f c => stoi f = Some c) fo colors /\
    read_grain_rows D stoi stod (map make_row cs) 2 (mkMicro D (map (fun c => mkGrain D (Some c) []) colors) (pushes colors 0 [])) = Some s).
  { intro s. unfold read_imaging. rewrite E. cbn [map read_grain_rows]. rewrite Zh.
    destruct Fh as (Nh & Ch & Jh). destruct fh as [|f fh]; [congruence|]. change (vget (f :: fh) 0) with (Some f). cbn [obind].
    destruct (stoi f) as [n|] eqn:Ef; cbn [obind].
    - assert (DC : describes_count h). { exists f, fh. split; [split; [exact Nh|split; assumption]|congruence]. }
      destruct (read_ops D stoi (make_row o) (seq 0 (size (make_row o))) (mkMicro D [] [])) as [s1|] eqn:E1; cbn [obind].
      + apply OPS in E1. destruct E1 as (colors & F & ->). cbn [grains ops app]. split.
        * intro X. split; [exact DC|]. exists colors. split; [exact F|exact X].
        * intros (_ & colors' & F' & X). rewrite (CU _ _ F F'). exact X.
      + split; [discriminate|]. intros (_ & colors' & F' & X).
        assert (Y := proj2 (OPS (mkMicro D [] []) _) (ex_intro _ colors' (conj F' eq_refl))). congruence.
    - split; [discriminate|]. intros ((f' & fs' & F' & X) & _).
      assert (Z := fields_unique _ _ _ (conj Nh (conj Ch Jh)) F'). injection Z as <- <-. congruence. }
  assert (G0 : forall colors i g, vget (map (fun c => mkGrain D (Some c) []) colors) i = Some g ->
    exists c, vget colors i = Some c /\ g = mkGrain D (Some c) []).
  { intros colors i g X. unfold vget in X. rewrite nth_error_map in X. destruct (nth_error colors i) as [c|] eqn:Y; [|discriminate].
    injection X as <-. exists c. auto. }
  split.
  - split.
    + intros (s & X). apply R in X. destruct X as (DC & colors & F & X). split; [exact DC|].
      apply (rows_spec cs 0) in X. destruct X as (contours & Fc & L & _). cbn [grains] in L. rewrite map_length in L.
      exists colors, contours. split; [exists fo; split; assumption|]. split; [exact Fc|]. lia.
    + intros (DC & colors & contours & (fs & Ffs & F) & Fc & L). rewrite (fields_unique _ _ _ Ffs Fo) in F.
      assert (X : exists s, read_grain_rows D stoi stod (map make_row cs) 2
        (mkMicro D (map (fun c => mkGrain D (Some c) []) colors) (pushes colors 0 [])) = Some s).
      { assert (GEN : forall cs contours k s, Forall2 describes_contour cs contours -> k + length contours <= length (grains D s) ->
          exists s', read_grain_rows D stoi stod (map make_row cs) (S (S k)) s = Some s').
        { clear. induction cs as [|l cs IH]; intros contours k s Fc L; cbn [map read_grain_rows]; [eauto|].
          inversion Fc as [|? c ? r Hc Fc']; subst. assert (N := contour_not_empty _ _ Hc). apply contour_spec in Hc. rewrite Hc. cbn [obind].
          replace (new_segment D c) with (Some c) by (destruct c; [congruence|reflexivity]). cbn [obind]. cbn [length] in L.
          assert (Hk : k < length (grains D s)) by lia.
          destruct (vget (grains D s) k) as [g|] eqn:Eg; [|apply nth_error_None in Eg; lia]. cbn [obind].
          destruct (vset_some _ (grains D s) k (add_segment D g c) Hk) as (gs & Es). rewrite Es. cbn [obind].
          apply (IH r); [exact Fc'|]. cbn [grains]. rewrite (vset_length _ _ _ _ _ Es). lia. }
        apply (GEN cs contours 0); [exact Fc|]. cbn [grains]. rewrite map_length. lia. }
      destruct X as (s & X). exists s. apply R. split; [exact DC|]. exists colors. split; assumption.
  - intros s colors contours X (fs & Ffs & F) Fc. rewrite (fields_unique _ _ _ Ffs Fo) in F.
    apply R in X. destruct X as (_ & colors' & F' & X). rewrite (CU _ _ F' F) in X. clear colors' F'.
    apply (rows_spec cs 0) in X. destruct X as (contours' & Fc' & _ & Ho & Hl & Hg). rewrite (TU _ _ Fc' Fc) in Hg. cbn [grains ops] in *.
    rewrite map_length in Hl. split; [rewrite Ho; apply pushes_maps|]. split; [exact Hl|].
    intros i c Hc. assert (Y : vget (map (fun c => mkGrain D (Some c) []) colors) i = Some (mkGrain D (Some c) [])).
    { unfold vget in *. rewrite nth_error_map, Hc. reflexivity. }
    rewrite (Hg i _ Y), Nat.sub_0_r. cbn [Nat.ltb Nat.leb]. destruct (vget contours i); reflexivity.
Qed.

(** C84_order_parameters: all order parameters below their number have grains exactly if the
    numbers in the file leave no gap; otherwise [at] throws for one of them *)
Theorem C84_order_parameters : forall t h o cs s colors, lines_of (h :: o :: cs) t -> read t = Some s -> describes_ops o colors ->
  ((forall op, op < n_order_parameters (ops D s) -> exists l, map_at (ops D s) op = Some l) <->
   (forall c, In c colors -> c < length (nodup Nat.eq_dec colors))).
Proof.
  intros t h o cs s colors H E Ho. destruct (C84_imaging t h o cs H) as (A & B).
  destruct (proj1 A (ex_intro _ s E)) as (_ & _ & contours & _ & Fc & _).
  destruct (B s colors contours E Ho Fc) as (M & _). rewrite (maps_contiguous _ _ M). destruct M as (_ & _ & ->). reflexivity.
Qed.

(** C84_blanks_refuted: the format described in the comment, with blanks between the numbers,
    is not read: every file without commas and with a contour fails *)
Theorem C84_blanks_refuted : forall t h o c cs, lines_of (h :: o :: c :: cs) t -> ~ In comma t -> read t = None.
Proof.
  intros t h o c cs H N. destruct (read t) as [s|] eqn:E; [|reflexivity]. exfalso.
  destruct (C84_imaging t h o (c :: cs) H) as (A & _).
  destruct (proj1 A (ex_intro _ s E)) as (_ & _ & contours & _ & Fc & _).
  inversion Fc as [|? c' ? ? (fs & (N0 & F & J) & P) _ Ex Ey].
  assert (K : ~ In comma c).
  { intro X. apply N. destruct H as (_ & [-> | (ls & l1 & El & _ & ->) ]).
    - apply in_concat. exists (c ++ [newline]). split; [|apply in_or_app; left; exact X]. cbn [map In]. tauto.
    - assert (Y : In c (ls ++ [l1])) by (rewrite <- El; cbn [In]; tauto).
      apply in_app_iff in Y. apply in_app_iff. destruct Y as [Y|[<-|[]]]; [left|right; exact X].
      apply in_concat. exists (c ++ [newline]). split; [|apply in_or_app; left; exact X].
      apply in_map_iff. exists c. split; [reflexivity|exact Y]. }
  destruct fs as [|f [|g fs]]; [congruence|destruct P|].
  apply K. rewrite <- J. cbn [join]. apply in_or_app. right. left. reflexivity.
Qed.

End Imaging.
Print Assumptions C84_imaging.
Print Assumptions C84_order_parameters.
Print Assumptions C84_blanks_refuted.

(** ** Voronoi cells *)
Section Voronoi.
Variable D : Type.
Variable of_nat : nat -> D.

(** the content of a file: points with their numbers; number, entries for the points and grain
    of every segment *)
Notation fpoint := (nat * (D * D))%type.
Record fsegment := mkFsegment { s_id : nat; s_slots : list nat; s_grain : nat }.
Definition point_tokens (p : fpoint) : list (token D) := [Id D (fst p); Coord D (fst (snd p)); Coord D (snd (snd p))].
Definition segment_tokens (s : fsegment) : list (token D) := Id D (s_id s) :: map (Id D) (s_slots s) ++ [Id D (s_grain s)].
Definition file (n_max : nat) (pts : list fpoint) (segs : list fsegment) : list (token D) :=
  Id D (length pts) :: Id D n_max :: Id D (length segs) :: flat_map point_tokens pts ++ flat_map segment_tokens segs.
(** the numbers of the points of a segment, without the zeros it is filled up with *)
Definition s_points (s : fsegment) : list nat := filter (fun v => 0 <? v) (s_slots s).
Definition well_formed (n_max : nat) (pts : list fpoint) (s : fsegment) : Prop :=
  length (s_slots s) = n_max /\ s_points s <> [] /\ forall v, In v (s_points s) -> In v (map fst pts).
Definition contour_of (pts : list fpoint) (s : fsegment) (c : list (D * D)) : Prop := Forall2 (fun v p => In (v, p) pts) (s_points s) c.

(** what [color_sparsity_pattern] is for: numbers from one on without a gap, different for the
    row and the column of an entry *)
Definition valid_coloring (n : nat) (pat : list (nat * nat)) (c : list nat) : Prop :=
  length c = n /\ (forall x, In x c -> 1 <= x /\ forall y, 1 <= y < x -> In y c) /\
  forall i j a b, In (i, j) pat -> i <> j -> vget c i = Some a -> vget c j = Some b -> a <> b.

Lemma read_points_file : forall pts rest, read_points D of_nat (length pts) (flat_map point_tokens pts ++ rest) = Some (pts, rest).
Proof.
  induction pts as [|(i, (x, y)) pts IH]; intro rest; [reflexivity|]. cbn [length flat_map]. rewrite <- app_assoc.
  cbn [point_tokens fst snd app read_points read_id obind read_coord]. rewrite IH. reflexivity.
Qed.

Lemma point_at_in : forall pts v, In v (map fst pts) -> exists p, point_at D pts v = Some p /\ In (v, p) pts.
Proof.
  induction pts as [|(i, p) pts IH]; intros v H; [destruct H|]. cbn [point_at].
  destruct (Nat.eqb_spec i v) as [->|Hne].
  - exists p. split; [reflexivity|left; reflexivity].
  - destruct H as [E|H]; [cbn in E; congruence|]. destruct (IH v H) as (q & A & B). exists q. split; [exact A|right; exact B].
Qed.

Lemma read_slots_file : forall pts slots id rest,
  (forall v, In v (filter (fun v => 0 <? v) slots) -> In v (map fst pts)) ->
  exists c, read_slots D pts (length slots) id (map (Id D) slots ++ rest) = Some (c, filter (fun v => 0 <? v) slots, rest) /\
    Forall2 (fun v p => In (v, p) pts) (filter (fun v => 0 <? v) slots) c.
Proof.
  intros pts. induction slots as [|v slots IH]; intros id rest H.
  - exists []. split; [reflexivity|constructor].
  - cbn [length map app read_slots read_id obind fst snd filter].
    destruct (0 <? v) eqn:Ev.
    + destruct (point_at_in pts v) as (p & A & B).
      { apply H. cbn [filter]. rewrite Ev. left. reflexivity. }
      rewrite A. cbn [obind]. destruct (IH v rest) as (c & E & F).
      { intros w Hw. apply H. cbn [filter]. rewrite Ev. right. exact Hw. }
      rewrite E. cbn [obind fst snd]. exists (p :: c). split; [reflexivity|]. constructor; assumption.
    + apply IH. intros w Hw. apply H. cbn [filter]. rewrite Ev. exact Hw.
Qed.

Definition as_piece (pts : list fpoint) (s : fsegment) (p : list (D * D) * list nat * nat) : Prop :=
  piece_grain D p = s_grain s /\ piece_points D p = s_points s /\ contour_of pts s (piece_contour D p).

Lemma read_segments_file : forall pts n_max segs rest, Forall (well_formed n_max pts) segs ->
  exists ps, read_segments D pts n_max (length segs) (flat_map segment_tokens segs ++ rest) = Some ps /\ Forall2 (as_piece pts) segs ps.
Proof.
  intros pts n_max. induction segs as [|s segs IH]; intros rest H.
  - exists []. split; [reflexivity|constructor].
  - inversion H as [|? ? (L & N & P) H']; subst. cbn [length flat_map]. rewrite <- app_assoc.
    cbn [read_segments segment_tokens app read_id obind fst snd]. rewrite <- app_assoc.
    destruct (read_slots_file pts (s_slots s) 0 ([Id D (s_grain s)] ++ flat_map segment_tokens segs ++ rest) P) as (c & E & F).
    rewrite E. cbn [obind fst snd app]. fold (s_points s) in F.
    assert (Nc : c <> []). { intro X. subst c. inversion F. congruence. }
    replace (new_segment D c) with (Some c) by (destruct c; [congruence|reflexivity]). cbn [obind read_id fst snd].
    destruct (IH rest H') as (ps & Ep & Fp). rewrite Ep. cbn [obind].
    eexists. split; [reflexivity|]. constructor; [|exact Fp]. split; [reflexivity|]. split; [reflexivity|exact F].
Qed.

Lemma position_spec : forall ids i g, NoDup ids -> vget ids i = Some g -> position ids g = i.
Proof.
  induction ids as [|x ids IH]; intros i g N H; [destruct i; discriminate|]. inversion N as [|? ? Nx N']; subst.
  destruct i as [|i]; cbn [vget nth_error position] in *.
  - injection H as ->. rewrite Nat.eqb_refl. reflexivity.
  - destruct (Nat.eqb_spec x g) as [->|]; [destruct Nx; exact (nth_error_In ids i H)|]. f_equal. apply IH; assumption.
Qed.

Lemma by_color_pushes : forall cs i m, by_color cs i m = pushes (map (fun c => c - 1) cs) i m.
Proof. induction cs as [|c cs IH]; intros i m; [reflexivity|]. cbn [by_color map pushes]. apply IH. Qed.

Lemma at_point_in : forall ps v g, In (v, g) (at_point D ps) <-> exists p, In p ps /\ In v (piece_points D p) /\ piece_grain D p = g.
Proof.
  intros ps v g. unfold at_point. rewrite in_flat_map. split.
  - intros (p & Hp & H). apply in_map_iff in H. destruct H as (w & E & Hw). injection E as <- <-. exists p. auto.
  - intros (p & Hp & Hv & <-). exists p. split; [exact Hp|]. apply in_map_iff. exists v. auto.
Qed.

Lemma forall2_in : forall {A B} (R : A -> B -> Prop) l l', Forall2 R l l' ->
  (forall a, In a l -> exists b, In b l' /\ R a b) /\ (forall b, In b l' -> exists a, In a l /\ R a b).
Proof.
  intros A B R l l' F. induction F as [|a b l l' H F (I1 & I2)]; split; intros z Hz; [destruct Hz|destruct Hz| |].
  - destruct Hz as [<-|Hz]; [exists b; split; [left; reflexivity|exact H]|]. destruct (I1 z Hz) as (w & W & X). exists w. split; [right; exact W|exact X].
  - destruct Hz as [<-|Hz]; [exists a; split; [left; reflexivity|exact H]|]. destruct (I2 z Hz) as (w & W & X). exists w. split; [right; exact W|exact X].
Qed.

Lemma add_segments : forall cs g, segments D (fold_left (add_segment D) cs g) = segments D g ++ cs.
Proof.
  induction cs as [|c cs IH]; intro g; cbn [fold_left]; [rewrite app_nil_r; reflexivity|].
  rewrite IH. cbn [add_segment segments]. rewrite <- app_assoc. reflexivity.
Qed.

(** C84_voronoi: the grains of a file are the ones named in it, each with the segments that
    name it in the order of the file and each segment with the coordinates of its points;
    grains that share a point never have the same order parameter, every grain has one, and
    all order parameters below their number are used.  [order] is any order of the hash map,
    the coloring is any valid one. *)
Theorem C84_voronoi : forall n_max pts segs rest order coloring,
  Forall (well_formed n_max pts) segs ->
  (forall l, NoDup l -> Permutation (order l) l) ->
  (forall n pat, valid_coloring n pat (coloring n pat)) ->
  exists s ids, read_voronoi D of_nat order coloring (file n_max pts segs ++ rest) = Some s /\
  NoDup ids /\ (forall g, In g ids <-> exists x, In x segs /\ s_grain x = g) /\ length (grains D s) = length ids /\
  (forall k g, vget ids k = Some g -> exists gr, vget (grains D s) k = Some gr /\
     Forall2 (contour_of pts) (filter (fun x => Nat.eqb (s_grain x) g) segs) (segments D gr)) /\
  (forall k, k < length ids -> exists op l, map_at (ops D s) op = Some l /\ In k l /\
     forall op' l', map_at (ops D s) op' = Some l' -> In k l' -> op' = op) /\
  (forall k g k' g' x x' v, vget ids k = Some g -> vget ids k' = Some g' -> k <> k' ->
     In x segs -> In x' segs -> s_grain x = g -> s_grain x' = g' -> In v (s_points x) -> In v (s_points x') ->
     forall op l, map_at (ops D s) op = Some l -> ~ (In k l /\ In k' l)) /\
  (forall op, op < n_order_parameters (ops D s) <-> exists l, map_at (ops D s) op = Some l).
Proof.
  intros n_max pts segs rest order coloring W HO HC.
  destruct (read_segments_file pts n_max segs rest W) as (ps & Ep & Fp).
  set (ids := order (grain_ids D ps)).
  assert (ND0 : NoDup (grain_ids D ps)) by apply NoDup_nodup.
  assert (PE : Permutation ids (grain_ids D ps)) by (apply HO; exact ND0).
  assert (ND : NoDup ids) by (apply (Permutation_NoDup (Permutation_sym PE)); exact ND0).
  set (cs := coloring (length ids) (pattern D ids ps)).
  destruct (HC (length ids) (pattern D ids ps)) as (CL & CP & CD). fold cs in CL, CP, CD.
  exists (mkMicro D (map (grain_of D ps) ids) (by_color cs 0 [])), ids.
  assert (M : maps (map (fun c => c - 1) cs) (by_color cs 0 [])) by (rewrite by_color_pushes; apply pushes_maps).
  destruct (forall2_in _ _ _ Fp) as (I1 & I2).
  split.
  { unfold read_voronoi, file. cbn [app read_id obind fst snd]. rewrite <- app_assoc, read_points_file. cbn [obind fst snd].
    rewrite Ep. reflexivity. }
  split; [exact ND|]. split.
  { intro g. transitivity (In g (grain_ids D ps)).
    - split; apply Permutation_in; [exact PE|apply Permutation_sym; exact PE].
    - unfold grain_ids. rewrite nodup_In, in_map_iff. split.
      + intros (p & <- & Hp). destruct (I2 p Hp) as (x & Hx & (E & _)). exists x. auto.
      + intros (x & Hx & <-). destruct (I1 x Hx) as (p & Hp & (E & _)). exists p. auto. }
  cbn [grains ops]. split; [apply map_length|]. split.
  { intros k g Hk. exists (grain_of D ps g). split.
    - unfold vget in *. rewrite nth_error_map, Hk. reflexivity.
    - unfold grain_of. rewrite add_segments. cbn [segments app]. clear - Fp. induction Fp as [|x p segs ps (E1 & E2 & E3) F IH]; [constructor|].
      cbn [filter]. rewrite E1. destruct (Nat.eqb (s_grain x) g); cbn [map]; [constructor|]; assumption. }
  destruct M as (M1 & M2 & M3). split.
  { intros k Hk. rewrite <- CL in Hk.
    destruct (vget (map (fun c => c - 1) cs) k) as [op|] eqn:E.
    2:{ apply nth_error_None in E. rewrite map_length in E. lia. }
    destruct (map_at (by_color cs 0 []) op) as [l|] eqn:El.
    2:{ apply M2 in El. destruct El. apply vget_in. exists k. exact E. }
    exists op, l. split; [exact El|]. split; [apply (M1 op l El); exact E|].
    intros op' l' El' Hl'. apply (M1 op' l' El') in Hl'. congruence. }
  split.
  { intros k g k' g' x x' v Hk Hk' Hne Hx Hx' Eg Eg' Hv Hv' op l El (A & B).
    apply (proj2 (M1 op l El)) in A. apply (proj2 (M1 op l El)) in B.
    unfold vget in A, B. rewrite nth_error_map in A, B.
    destruct (nth_error cs k) as [a|] eqn:Ea; [|discriminate]. destruct (nth_error cs k') as [b|] eqn:Eb; [|discriminate].
    cbn in A, B. injection A as A. injection B as B.
    destruct (CP a (nth_error_In _ _ Ea)) as (a1 & _). destruct (CP b (nth_error_In _ _ Eb)) as (b1 & _).
    assert (Gne : g <> g'). { intro X. subst g'. rewrite X in Hk. apply Hne. apply (position_spec _ _ _ ND) in Hk. apply (position_spec _ _ _ ND) in Hk'. congruence. }
    assert (IP : In (k, k') (pattern D ids ps)).
    { destruct (I1 x Hx) as (p & Hp & (E1 & E2 & _)). destruct (I1 x' Hx') as (p' & Hp' & (E1' & E2' & _)).
      unfold pattern. apply in_flat_map. exists (v, g). split.
      - apply at_point_in. exists p. rewrite E2, E1. auto.
      - apply in_flat_map. exists (v, g'). split.
        + apply at_point_in. exists p'. rewrite E2', E1'. auto.
        + cbn [fst snd]. rewrite Nat.eqb_refl. destruct (Nat.eqb_spec g g'); [contradiction|]. cbn [negb andb].
          rewrite (position_spec _ _ _ ND Hk), (position_spec _ _ _ ND Hk'). left. reflexivity. }
    apply (CD k k' a b IP Hne Ea Eb). lia. }
  assert (MM : maps (map (fun c => c - 1) cs) (by_color cs 0 [])) by (split; [exact M1|split; assumption]).
  assert (UP : forall k, In k (map (fun c => c - 1) cs) -> k < n_order_parameters (by_color cs 0 [])).
  { intros k Hk. rewrite M3. apply in_map_iff in Hk. destruct Hk as (c & <- & Hc).
    assert (I : incl (seq 0 c) (nodup Nat.eq_dec (map (fun c => c - 1) cs))).
    { intros y Hy. apply in_seq in Hy. apply nodup_In. apply in_map_iff. exists (S y). split; [lia|].
      destruct (CP c Hc) as (c1 & c2). destruct (Nat.eq_dec (S y) c) as [->|]; [exact Hc|]. apply c2. lia. }
    apply NoDup_incl_length in I; [|apply seq_NoDup]. rewrite seq_length in I. destruct (CP c Hc) as (c1 & _). lia. }
  intro op. split.
  - apply (proj2 (maps_contiguous _ _ MM)). exact UP.
  - intros (l & El). destruct (in_dec Nat.eq_dec op (map (fun c => c - 1) cs)) as [H|H]; [apply UP; exact H|].
    apply M2 in H. congruence.
Qed.

(** C84_empty: a segment without points is not read: its box is taken from a first point that
    is not there *)
Theorem C84_empty : forall n_max pts segs x more rest order coloring,
  Forall (well_formed n_max pts) segs -> length (s_slots x) = n_max -> s_points x = [] ->
  read_voronoi D of_nat order coloring (file n_max pts (segs ++ x :: more) ++ rest) = None.
Proof.
  intros n_max pts segs x more rest order coloring W L P. unfold read_voronoi, file. cbn [app read_id obind fst snd].
  rewrite <- app_assoc, read_points_file. cbn [obind fst snd].
  assert (K : read_segments D pts n_max (length (segs ++ x :: more)) (flat_map segment_tokens (segs ++ x :: more) ++ rest) = None).
  { induction W as [|s segs (Ls & N & Ps) W IH].
    - cbn [app length flat_map read_segments segment_tokens read_id obind fst snd]. rewrite <- !app_assoc. subst n_max.
      destruct (read_slots_file pts (s_slots x) 0 ([Id D (s_grain x)] ++ flat_map segment_tokens more ++ rest)) as (c & E & F).
      { unfold s_points in P. rewrite P. intros v []. }
      rewrite E. cbn [obind fst snd]. unfold s_points in P. rewrite P in F. inversion F; subst. reflexivity.
    - cbn [app length flat_map]. rewrite <- app_assoc. cbn [read_segments segment_tokens app read_id obind fst snd].
      rewrite <- app_assoc. rewrite <- Ls at 1.
      destruct (read_slots_file pts (s_slots s) 0 ([Id D (s_grain s)] ++ flat_map segment_tokens (segs ++ x :: more) ++ rest) Ps) as (c & E & F).
      rewrite E. cbn [obind fst snd app]. fold (s_points s) in F.
      assert (Nc : c <> []). { intro X. subst c. inversion F. congruence. }
      replace (new_segment D c) with (Some c) by (destruct c; [congruence|reflexivity]). cbn [obind read_id fst snd].
      rewrite IH. reflexivity. }
  rewrite K. reflexivity.
Qed.

(** C84_stops: a file that stops within its points is not read, if it announces a segment:
    every number that is missing is taken as zero *)
Theorem C84_stops : forall n_max n_segs pts k order coloring, 0 < n_segs ->
  read_voronoi D of_nat order coloring (Id D (length pts) :: Id D n_max :: Id D n_segs :: firstn k (flat_map point_tokens pts)) = None.
Proof.
  intros n_max n_segs pts k order coloring N. unfold read_voronoi. cbn [read_id obind fst snd].
  assert (K : forall pts k, exists ps, read_points D of_nat (length pts) (firstn k (flat_map point_tokens pts)) = Some (ps, [])).
  { induction pts0 as [|(i, (x, y)) l IH]; intro k0.
    - exists []. cbn. rewrite firstn_nil. reflexivity.
    - assert (Z : exists ps, read_points D of_nat (length l) [] = Some (ps, [])) by (destruct (IH 0) as (ps & E); exists ps; exact E).
      destruct Z as (ps & Z). cbn [flat_map point_tokens app fst snd length].
      destruct k0 as [|[|[|k0]]]; cbn [firstn read_points read_id obind fst snd read_coord].
      1-3: rewrite Z; eexists; reflexivity.
      destruct (IH k0) as (qs & E). rewrite E. eexists. reflexivity. }
  destruct (K pts k) as (ps & ->). cbn [obind fst snd]. destruct n_segs as [|m]; [lia|].
  cbn [read_segments read_id obind fst snd].
  assert (S0 : forall n, read_slots D ps n 0 [] = Some ([], [], [])) by (induction n as [|n IH]; [reflexivity|cbn [read_slots read_id obind fst snd]; exact IH]).
  rewrite S0. reflexivity.
Qed.

End Voronoi.
Print Assumptions C84_voronoi.
Print Assumptions C84_empty.
Print Assumptions C84_stops.

(** ** The domain *)
Section Domain.
Local Open Scope Q_scope.

(** [b] is the smallest box that holds the points with the distance [e] to its faces *)
Definition hull (e : Q) (b : (Q * Q) * (Q * Q)) (L : list (Q * Q)) : Prop :=
  (forall v, In v L -> fst (fst b) <= fst v - e /\ snd (fst b) <= snd v - e /\ fst v + e <= fst (snd b) /\ snd v + e <= snd (snd b)) /\
  (exists v, In v L /\ fst (fst b) == fst v - e) /\ (exists v, In v L /\ snd (fst b) == snd v - e) /\
  (exists v, In v L /\ fst (snd b) == fst v + e) /\ (exists v, In v L /\ snd (snd b) == snd v + e).

Lemma min_cases : forall a b, Qmin a b <= a /\ Qmin a b <= b /\ (Qmin a b == a \/ Qmin a b == b).
Proof. intros a b. split; [apply Q.le_min_l|]. split; [apply Q.le_min_r|]. destruct (Q.min_dec a b) as [H|H]; [left|right]; exact H. Qed.
Lemma max_cases : forall a b, a <= Qmax a b /\ b <= Qmax a b /\ (Qmax a b == a \/ Qmax a b == b).
Proof. intros a b. split; [apply Q.le_max_l|]. split; [apply Q.le_max_r|]. destruct (Q.max_dec a b) as [H|H]; [left|right]; exact H. Qed.

Lemma hull_merge : forall e a b L M, hull e a L -> hull e b M -> hull e (merge a b) (L ++ M).
Proof.
  intros e a b L M (A & A1 & A2 & A3 & A4) (B & B1 & B2 & B3 & B4). unfold merge, hull. cbn [fst snd].
  destruct (min_cases (fst (fst a)) (fst (fst b))) as (x1 & y1 & z1). destruct (min_cases (snd (fst a)) (snd (fst b))) as (x2 & y2 & z2).
  destruct (max_cases (fst (snd a)) (fst (snd b))) as (x3 & y3 & z3). destruct (max_cases (snd (snd a)) (snd (snd b))) as (x4 & y4 & z4).
  split.
  { intros v Hv. apply in_app_iff in Hv. destruct Hv as [Hv|Hv]; [destruct (A v Hv) as (? & ? & ? & ?)|destruct (B v Hv) as (? & ? & ? & ?)]; repeat split; lra. }
  split; [destruct z1 as [z|z]; [destruct A1 as (v & I & E)|destruct B1 as (v & I & E)]; exists v; (split; [apply in_app_iff; tauto|lra])|].
  split; [destruct z2 as [z|z]; [destruct A2 as (v & I & E)|destruct B2 as (v & I & E)]; exists v; (split; [apply in_app_iff; tauto|lra])|].
  split; [destruct z3 as [z|z]; [destruct A3 as (v & I & E)|destruct B3 as (v & I & E)]; exists v; (split; [apply in_app_iff; tauto|lra])|].
  destruct z4 as [z|z]; [destruct A4 as (v & I & E)|destruct B4 as (v & I & E)]; exists v; (split; [apply in_app_iff; tauto|lra]).
Qed.

Lemma hull_point : forall v, hull 0 (v, v) [v].
Proof.
  intro v. unfold hull. cbn [fst snd]. split; [intros w [<-|[]]; repeat split; lra|].
  repeat split; exists v; (split; [left; reflexivity|lra]).
Qed.

Lemma hull_points : forall vs v, hull 0 (box_of_points v vs) (v :: vs).
Proof.
  intros vs v. unfold box_of_points.
  assert (GEN : forall vs b L, hull 0 b L -> hull 0 (fold_left (fun b p => merge b (p, p)) vs b) (L ++ vs)).
  { clear. induction vs as [|p vs IH]; intros b L H; cbn [fold_left]; [rewrite app_nil_r; exact H|].
    replace (L ++ p :: vs) with ((L ++ [p]) ++ vs) by (rewrite <- app_assoc; reflexivity). apply IH.
    apply hull_merge; [exact H|apply hull_point]. }
  exact (GEN vs (v, v) [v] (hull_point v)).
Qed.

Lemma hull_segment : forall e c b, segment_box e c = Some b -> hull e b c.
Proof.
  intros e [|v vs] b H; [discriminate|]. cbn [segment_box] in H. injection H as <-.
  destruct (hull_points vs v) as (A & (v1 & I1 & E1) & (v2 & I2 & E2) & (v3 & I3 & E3) & (v4 & I4 & E4)).
  unfold hull, extend. cbn [fst snd]. split.
  { intros w Hw. destruct (A w Hw) as (? & ? & ? & ?). repeat split; lra. }
  split; [exists v1|split; [exists v2|split; [exists v3|exists v4]]]; (split; [assumption|lra]).
Qed.

Lemma hull_segments : forall e cs b b' L, hull e b L -> merge_segments e b cs = Some b' -> hull e b' (L ++ concat cs).
Proof.
  intros e. induction cs as [|c cs IH]; intros b b' L H E; cbn [merge_segments concat] in *.
  - injection E as <-. rewrite app_nil_r. exact H.
  - destruct (segment_box e c) as [x|] eqn:Ex; [|discriminate]. cbn [obind] in E. rewrite app_assoc.
    apply (IH _ _ _ (hull_merge _ _ _ _ _ H (hull_segment _ _ _ Ex)) E).
Qed.

Lemma hull_grain : forall e g b, grain_box e g = Some b -> hull e b (concat (segments Q g)).
Proof.
  intros e g b H. unfold grain_box in H. destruct (segments Q g) as [|c cs]; [discriminate|].
  destruct (segment_box e c) as [x|] eqn:Ex; [|discriminate]. cbn [obind concat] in *.
  exact (hull_segments _ _ _ _ _ (hull_segment _ _ _ Ex) H).
Qed.

Lemma hull_same : forall e b b' L, hull e b L -> fst (fst b) == fst (fst b') -> snd (fst b) == snd (fst b') ->
  fst (snd b) == fst (snd b') -> snd (snd b) == snd (snd b') -> hull e b' L.
Proof.
  intros e b b' L (A & (v1 & I1 & F1) & (v2 & I2 & F2) & (v3 & I3 & F3) & (v4 & I4 & F4)) E1 E2 E3 E4. unfold hull.
  split.
  { intros w Hw. destruct (A w Hw) as (? & ? & ? & ?). repeat split; lra. }
  split; [exists v1|split; [exists v2|split; [exists v3|exists v4]]]; (split; [assumption|lra]).
Qed.

(** all points of the grains *)
Definition all_points (gs : list (grain Q)) : list (Q * Q) := flat_map (fun g => concat (segments Q g)) gs.

(** C84_domain: the domain is the smallest box that holds all contours with the interface *)
Theorem C84_domain : forall ext huge gs b, gs <> [] ->
  (forall v, In v (all_points gs) -> - huge <= fst v + ext /\ - huge <= snd v + ext /\ fst v - ext <= huge /\ snd v - ext <= huge) ->
  get_domain_boundaries ext huge gs = Some b -> hull ext b (all_points gs).
Proof.
  intros ext huge gs b N B E. destruct gs as [|g gs]; [congruence|]. unfold get_domain_boundaries in E. cbn [merge_grains] in E.
  destruct (grain_box ext g) as [x|] eqn:Ex; [|discriminate]. cbn [obind] in E. apply hull_grain in Ex.
  assert (H0 : hull ext (merge ((huge, huge), (- huge, - huge)) x) (concat (segments Q g))).
  { apply (hull_same _ x); [exact Ex| | | |]; unfold merge; cbn [fst snd].
    - symmetry. apply Q.min_r. destruct Ex as (_ & (v & I & F) & _). destruct (B v) as (? & ? & ? & ?); [apply in_flat_map; exists g; split; [left; reflexivity|exact I]|lra].
    - symmetry. apply Q.min_r. destruct Ex as (_ & _ & (v & I & F) & _). destruct (B v) as (? & ? & ? & ?); [apply in_flat_map; exists g; split; [left; reflexivity|exact I]|lra].
    - symmetry. apply Q.max_r. destruct Ex as (_ & _ & _ & (v & I & F) & _). destruct (B v) as (? & ? & ? & ?); [apply in_flat_map; exists g; split; [left; reflexivity|exact I]|lra].
    - symmetry. apply Q.max_r. destruct Ex as (_ & _ & _ & _ & (v & I & F)). destruct (B v) as (? & ? & ? & ?); [apply in_flat_map; exists g; split; [left; reflexivity|exact I]|lra]. }
  cbn [all_points flat_map]. fold (all_points gs).
  assert (GEN : forall gs b b' L, hull ext b L -> merge_grains ext b gs = Some b' -> hull ext b' (L ++ all_points gs)).
  { clear. induction gs as [|g gs IH]; intros b b' L H E; cbn [merge_grains all_points flat_map] in *.
    - injection E as <-. rewrite app_nil_r. exact H.
    - destruct (grain_box ext g) as [x|] eqn:Ex; [|discriminate]. cbn [obind] in E. fold (all_points gs). rewrite app_assoc.
      apply (IH _ _ _ (hull_merge _ _ _ _ _ H (hull_grain _ _ _ Ex)) E). }
  exact (GEN gs _ _ _ H0 E).
Qed.

(** C84_radius: the largest radius covers the box of every segment *)
Theorem C84_radius : forall ext gs r, r_max2 ext gs 0 = Some r ->
  forall g c b, In g gs -> In c (segments Q g) -> segment_box ext c = Some b -> diameter2 b <= 4 * r.
Proof.
  intros ext.
  assert (A : forall cs m d, max_diameter2 ext cs m = Some d -> m <= d /\ forall c b, In c cs -> segment_box ext c = Some b -> diameter2 b <= d).
  { induction cs as [|c cs IH]; intros m d E; cbn [max_diameter2] in E.
    - injection E as <-. split; [lra|intros ? ? []].
    - destruct (segment_box ext c) as [x|] eqn:Ex; [|discriminate]. cbn [obind] in E. destruct (IH _ _ E) as (L & K).
      destruct (max_cases m (diameter2 x)) as (p & q & _). split; [lra|].
      intros c' b [<-|H] Eb; [|exact (K c' b H Eb)]. rewrite Ex in Eb. injection Eb as <-. lra. }
  assert (GEN : forall gs m r, r_max2 ext gs m = Some r -> m <= r /\ forall g c b, In g gs -> In c (segments Q g) -> segment_box ext c = Some b -> diameter2 b <= 4 * r).
  { induction gs as [|g gs IH]; intros m r E; cbn [r_max2] in E.
    - injection E as <-. split; [lra|intros ? ? ? []].
    - destruct (max_diameter2 ext (segments Q g) 0) as [d|] eqn:Ed; [|discriminate]. cbn [obind] in E. destruct (IH _ _ E) as (L & K).
      destruct (A _ _ _ Ed) as (_ & Ad). destruct (max_cases m (d / 4)) as (p & q & _).
      assert (d / 4 == d * (1#4)) by (field). split; [lra|].
      intros g' c b [<-|H'] Hc Eb; [|exact (K g' c b H' Hc Eb)]. specialize (Ad c b Hc Eb). lra. }
  intros gs r E. exact (proj2 (GEN gs 0 r E)).
Qed.

(** C84_radius_refuted: it does not cover a grain of several segments *)
Theorem C84_radius_refuted : exists g b r, grain_box 0 g = Some b /\ r_max2 0 [g] 0 = Some r /\ 4 * r < diameter2 b.
Proof.
  exists (mkGrain Q None [[(0, 0); (1, 0); (1, 1); (0, 1)]; [(1, 0); (2, 0); (2, 1); (1, 1)]]).
  eexists. eexists. split; [vm_compute; reflexivity|]. split; [vm_compute; reflexivity|]. vm_compute. reflexivity.
Qed.
End Domain.
Print Assumptions C84_domain.
Print Assumptions C84_radius.
Print Assumptions C84_radius_refuted.

(** ** Files *)
Fixpoint parse_digits (t : text) (n : nat) : option nat :=
  match t with
  | [] => Some n
  | c :: t => let k := nat_of_ascii c in if (48 <=? k) && (k <=? 57) then parse_digits t (10 * n + (k - 48)) else None
  end.
Definition parse (t : text) : option nat := match t with [] => None | _ => parse_digits t 0 end.
Definition lines (l : list string) : text := concat (map (fun s => list_ascii_of_string s ++ [newline]) l).

(** two triangles of different order parameters *)
Example imaging_example :
  read_imaging nat parse parse (lines ["2"; "0,1"; "0,0,1,0,1,1"; "0,0,1,1,0,1"]%string) =
  Some (mkMicro nat [mkGrain nat (Some 0) [[(0, 0); (1, 0); (1, 1)]]; mkGrain nat (Some 1) [[(0, 0); (1, 1); (0, 1)]]] [(0, [0]); (1, [1])]).
Proof. vm_compute. reflexivity. Qed.

(** C84_gap_refuted: with a gap in the numbers of the file the reader accepts it, there are two
    order parameters, and the second one throws *)
Theorem C84_gap_refuted : exists t s, read_imaging nat parse parse t = Some s /\ n_order_parameters (ops nat s) = 2 /\ map_at (ops nat s) 1 = None.
Proof.
  exists (lines ["2"; "0,2"; "0,0,1,0,1,1"; "0,0,1,1,0,1"]%string). eexists. split; [vm_compute; reflexivity|]. split; reflexivity.
Qed.
Print Assumptions C84_gap_refuted.

(** C84_count_refuted: the number of grains in the file is not compared with anything: a file
    that announces three grains, has order parameters for two and a contour for one is read,
    and the grain without contour has no box *)
Theorem C84_count_refuted : exists t s, read_imaging Q parse (fun x => option_map (fun n => inject_Z (Z.of_nat n)) (parse x)) t = Some s /\
  parse (list_ascii_of_string "3") = Some 3 /\ (exists r, t = list_ascii_of_string "3" ++ newline :: r) /\
  length (grains Q s) = 2 /\ get_domain_boundaries 0%Q 100%Q (grains Q s) = None.
Proof.
  exists (lines ["3"; "0,1"; "0,0,1,0,1,1"]%string). eexists. split; [vm_compute; reflexivity|]. split; [reflexivity|].
  split; [eexists; vm_compute; reflexivity|]. split; reflexivity.
Qed.
Print Assumptions C84_count_refuted.

(** every grain a color of its own; one color if nothing is in the pattern *)
Definition own_colors (n : nat) (pat : list (nat * nat)) : list nat := match pat with [] => repeat 1 n | _ => seq 1 n end.
Lemma own_colors_valid : forall n pat, valid_coloring n pat (own_colors n pat).
Proof.
  intros n pat. unfold own_colors. destruct pat as [|p pat]; split.
  - apply repeat_length.
  - split; [|intros ? ? ? ? []]. intros x Hx. apply repeat_spec in Hx. subst x. split; [lia|]. intros y Hy. lia.
  - apply seq_length.
  - split.
    + intros x Hx. apply in_seq in Hx. split; [lia|]. intros y Hy. apply in_seq. lia.
    + intros i j a b _ Hij Ea Eb E. apply Hij. subst b.
      assert (Li : i < n). { assert (X : i < length (seq 1 n)) by (apply nth_error_Some; unfold vget in Ea; congruence). rewrite seq_length in X. exact X. }
      assert (Lj : j < n). { assert (X : j < length (seq 1 n)) by (apply nth_error_Some; unfold vget in Eb; congruence). rewrite seq_length in X. exact X. }
      apply (nth_error_nth _ _ 0) in Ea. apply (nth_error_nth _ _ 0) in Eb. rewrite seq_nth in Ea by exact Li. rewrite seq_nth in Eb by exact Lj. lia.
Qed.

Definition as_nat (n : nat) : nat := n.
Definition same (l : list nat) : list nat := l.
(** two squares with a common edge and a third one apart; grain 7 has two of them *)
Definition squares_points : list (nat * (nat * nat)) := [(1, (0, 0)); (2, (1, 0)); (3, (2, 0)); (4, (0, 1)); (5, (1, 1)); (6, (2, 1)); (7, (3, 0)); (8, (4, 0)); (9, (3, 1))].
Definition squares : list fsegment := [mkFsegment 1 [1; 2; 5; 4; 0] 7; mkFsegment 2 [2; 3; 6; 5; 0] 9; mkFsegment 3 [7; 8; 9; 0; 0] 7].
Example squares_ok : Forall (well_formed nat 5 squares_points) squares /\
  read_voronoi nat as_nat same own_colors (file nat 5 squares_points squares) =
  Some (mkMicro nat [mkGrain nat None [[(1, 0); (2, 0); (2, 1); (1, 1)]]; mkGrain nat None [[(0, 0); (1, 0); (1, 1); (0, 1)]; [(3, 0); (4, 0); (3, 1)]]] [(0, [0]); (1, [1])]).
Proof.
  split; [|vm_compute; reflexivity].
  repeat (constructor; [split; [reflexivity|]; split; [discriminate|]; cbn; intros v Hv; repeat (destruct Hv as [<-|Hv]; [tauto|]); destruct Hv|]). constructor.
Qed.

(** C84_touch_refuted: only common numbers of points count.  If the common corners of two
    squares are listed twice, the grains touch and get the same order parameter *)
Theorem C84_touch_refuted : exists pts segs coloring s, Forall (well_formed nat 4 pts) segs /\
  (forall n pat, valid_coloring n pat (coloring n pat)) /\
  read_voronoi nat as_nat same coloring (file nat 4 pts segs) = Some s /\
  map_at (ops nat s) 0 = Some [0; 1] /\
  exists a b p q, vget (grains nat s) 0 = Some a /\ vget (grains nat s) 1 = Some b /\ p <> q /\
    In p (concat (segments nat a)) /\ In p (concat (segments nat b)) /\ In q (concat (segments nat a)) /\ In q (concat (segments nat b)).
Proof.
  exists [(1, (0, 0)); (2, (1, 0)); (3, (1, 1)); (4, (0, 1)); (5, (1, 0)); (6, (2, 0)); (7, (2, 1)); (8, (1, 1))].
  exists [mkFsegment 1 [1; 2; 3; 4] 1; mkFsegment 2 [5; 6; 7; 8] 2]. exists own_colors. eexists. split.
  { repeat (constructor; [split; [reflexivity|]; split; [discriminate|]; cbn; intros v Hv; repeat (destruct Hv as [<-|Hv]; [tauto|]); destruct Hv|]). constructor. }
  split; [exact own_colors_valid|]. split; [vm_compute; reflexivity|]. split; [reflexivity|].
  eexists. eexists. exists (1, 0), (1, 1). split; [reflexivity|]. split; [reflexivity|]. split; [discriminate|]. cbn. tauto.
Qed.
Print Assumptions C84_touch_refuted.

(** C84_truncated_refuted: a file that breaks off in the last segment is read without an error;
    the last point is repeated and the segment belongs to a grain with number zero *)
Theorem C84_truncated_refuted : exists ts rest s, ts ++ rest = file nat 5 squares_points squares /\ rest <> [] /\
  read_voronoi nat as_nat same own_colors ts = Some s /\ length (grains nat s) = 3 /\
  exists g, vget (grains nat s) 2 = Some g /\ segments nat g = [[(3, 0); (4, 0); (4, 0); (4, 0); (4, 0)]].
Proof.
  exists (firstn 47 (file nat 5 squares_points squares)), (skipn 47 (file nat 5 squares_points squares)). eexists.
  split; [apply firstn_skipn|]. split; [discriminate|]. split; [vm_compute; reflexivity|]. split; [reflexivity|]. eexists. split; reflexivity.
Qed.
Print Assumptions C84_truncated_refuted.

(** C84_zero_refuted: if the points are numbered from zero, the corner with number zero is lost *)
Theorem C84_zero_refuted : exists pts x s, In 0 (s_slots x) /\ In 0 (map fst pts) /\
  read_voronoi nat as_nat same own_colors (file nat 4 pts [x]) = Some s /\
  exists g, vget (grains nat s) 0 = Some g /\ segments nat g = [[(1, 0); (1, 1); (0, 1)]].
Proof.
  exists [(0, (0, 0)); (1, (1, 0)); (2, (1, 1)); (3, (0, 1))], (mkFsegment 1 [0; 1; 2; 3] 1). eexists.
  split; [cbn; tauto|]. split; [cbn; tauto|]. split; [vm_compute; reflexivity|]. eexists. split; reflexivity.
Qed.
Print Assumptions C84_zero_refuted.

(** C84_empty and C84_stops for the squares *)
Example C84_empty_example :
  read_voronoi nat as_nat same own_colors (file nat 5 squares_points (squares ++ [mkFsegment 9 [0; 0; 0; 0; 0] 1])) = None /\
  read_voronoi nat as_nat same own_colors (Id nat (length squares_points) :: Id nat 5 :: Id nat 1 :: firstn 8 (flat_map (point_tokens nat) squares_points)) = None.
Proof. split; vm_compute; reflexivity. Qed.
