(** C113: shrinkage from tables (postproc_shrinkage.py). *)
From Coq Require Import QArith List Arith Bool Lia Lqa.
From Verif Require Import Util ShrinkScriptModel.
Import ListNotations.
Local Open Scope nat_scope.

Lemma some_ne : forall x : item, Some x <> None.
Proof. discriminate. Qed.
Lemma first_min_spec : forall l best, (best <> None \/ l <> []) -> exists lo, first_min best l = Some lo /\ (In lo l \/ best = Some lo) /\
  (forall p, In p l -> fst lo <= fst p)%Q /\ (forall b, best = Some b -> fst lo <= fst b)%Q.
Proof.
  induction l as [|p l IH]; intros best H; cbn [first_min].
  - destruct best as [b|]; [|destruct H as [H|H]; contradiction]. exists b. split; [reflexivity|]. split; [right; reflexivity|]. split; [intros p []|intros c E; injection E as <-; apply Qle_refl].
  - destruct best as [b|].
    + destruct (qltb (fst p) (fst b)) eqn:E.
      * destruct (IH (Some p) (or_introl (some_ne p))) as (lo & A & B & C & D). exists lo. split; [exact A|]. split; [left; destruct B as [B|B]; [right; exact B|left; congruence]|]. specialize (D p eq_refl). apply qltb_true in E.
        split; [intros q [<-|Hq]; [exact D|apply C, Hq]|]. intros c X. injection X as <-. lra.
      * destruct (IH (Some b) (or_introl (some_ne b))) as (lo & A & B & C & D). exists lo. split; [exact A|]. split; [destruct B as [B|B]; [left; right; exact B|right; exact B]|]. pose proof (D b eq_refl) as D'. apply qltb_false in E.
        split; [intros q [<-|Hq]; [lra|apply C, Hq]|exact D].
    + destruct (IH (Some p) (or_introl (some_ne p))) as (lo & A & B & C & D). exists lo. split; [exact A|]. split; [left; destruct B as [B|B]; [right; exact B|left; congruence]|]. split; [intros q [<-|Hq]; [apply D; reflexivity|apply C, Hq]|discriminate].
Qed.
Lemma first_max_spec : forall l best, (best <> None \/ l <> []) -> exists hi, first_max best l = Some hi /\ (In hi l \/ best = Some hi) /\
  (forall p, In p l -> fst p <= fst hi)%Q /\ (forall b, best = Some b -> fst b <= fst hi)%Q.
Proof.
  induction l as [|p l IH]; intros best H; cbn [first_max].
  - destruct best as [b|]; [|destruct H as [H|H]; contradiction]. exists b. split; [reflexivity|]. split; [right; reflexivity|]. split; [intros p []|intros c E; injection E as <-; apply Qle_refl].
  - destruct best as [b|].
    + destruct (qltb (fst b) (fst p)) eqn:E.
      * destruct (IH (Some p) (or_introl (some_ne p))) as (lo & A & B & C & D). exists lo. split; [exact A|]. split; [left; destruct B as [B|B]; [right; exact B|left; congruence]|]. specialize (D p eq_refl). apply qltb_true in E.
        split; [intros q [<-|Hq]; [exact D|apply C, Hq]|]. intros c X. injection X as <-. lra.
      * destruct (IH (Some b) (or_introl (some_ne b))) as (lo & A & B & C & D). exists lo. split; [exact A|]. split; [destruct B as [B|B]; [left; right; exact B|right; exact B]|]. pose proof (D b eq_refl) as D'. apply qltb_false in E.
        split; [intros q [<-|Hq]; [lra|apply C, Hq]|exact D].
    + destruct (IH (Some p) (or_introl (some_ne p))) as (lo & A & B & C & D). exists lo. split; [exact A|]. split; [left; destruct B as [B|B]; [right; exact B|left; congruence]|]. split; [intros q [<-|Hq]; [apply D; reflexivity|apply C, Hq]|discriminate].
Qed.

(** Sum of [f 1] to [f k] *)
Fixpoint sum_to (f : nat -> Q) (k : nat) : Q := match k with O => 0%Q | S m => (sum_to f m + f k)%Q end.
Lemma sum_to_shift : forall f k, (sum_to f (S k) == f 1%nat + sum_to (fun j => f (S j)) k)%Q.
Proof. intros f. induction k as [|k IH]; cbn [sum_to] in *; [lra|]. rewrite IH. cbn [sum_to]. lra. Qed.
Lemma sum_to_ext : forall f g k, (forall j, (1 <= j <= k)%nat -> (f j == g j)%Q) -> (sum_to f k == sum_to g k)%Q.
Proof. intros f g. induction k as [|k IH]; intro H; cbn [sum_to]; [reflexivity|]. rewrite IH by (intros; apply H; lia). rewrite (H (S k)) by lia. reflexivity. Qed.

Lemma accumulate_length : forall d p, length (accumulate p d) = length d.
Proof. induction d as [|x d IH]; intro p; cbn; auto. Qed.
Lemma accumulate_nth : forall d p k, k < length d -> (nth k (accumulate p d) 0 == p + sum_to (fun j => nth (j - 1)%nat d 0) (S k))%Q.
Proof.
  induction d as [|x d IH]; intros p k H; cbn [length] in H; [lia|]. destruct k as [|k]; cbn [accumulate nth]; [cbn; lra|]. rewrite IH by lia. rewrite (sum_to_shift _ (S k)). cbn [Nat.sub nth].
  rewrite (sum_to_ext (fun j => nth (j - 0) (x :: d) 0%Q) (fun j => nth (j - 1) d 0%Q) (S k)); [lra|]. intros j Hj. replace (j - 0)%nat with (S (j - 1)) by lia. reflexivity.
Qed.
Lemma positions_length : forall p d, length (positions p d) = length d.
Proof. intros p [|x d]; cbn; [reflexivity|rewrite accumulate_length; reflexivity]. Qed.
Lemma positions_nth : forall p d k, k < length d -> (nth k (positions p d) 0 == p + sum_to (fun j => nth j d 0) k)%Q.
Proof.
  intros p [|x d] k H; cbn [length] in H; [lia|]. destruct k as [|k]; cbn [positions nth]; [cbn; lra|]. rewrite accumulate_nth by lia.
  rewrite (sum_to_ext (fun j => nth (j - 1) d 0%Q) (fun j => nth j (x :: d) 0%Q) (S k)); [reflexivity|]. intros j Hj. destruct j; [lia|]. cbn. rewrite Nat.sub_0_r. reflexivity.
Qed.
Lemma nth_combine : forall A B (l : list A) (m : list B) k a b, length l = length m -> nth k (combine l m) (a, b) = (nth k l a, nth k m b).
Proof. intros. apply combine_nth. assumption. Qed.
Lemma displ_length : forall dt v, length v = length dt -> length (displ dt v) = length dt.
Proof. intros dt v H. unfold displ. rewrite map_length, combine_length. lia. Qed.
Lemma displ_nth : forall dt v k, length v = length dt -> (nth k (displ dt v) 0 == num (nth k dt None) * num (nth k v None))%Q.
Proof.
  intros dt v k H. unfold displ. destruct (lt_dec k (length dt)) as [L|L].
  - rewrite (nth_indep _ 0%Q ((fun p => num (fst p) * num (snd p))%Q (None, None))) by (rewrite map_length, combine_length; lia). rewrite (map_nth (fun p => (num (fst p) * num (snd p))%Q)). rewrite nth_combine by congruence. reflexivity.
  - rewrite nth_overflow by (rewrite map_length, combine_length; lia). rewrite !nth_overflow by lia. cbn. lra.
Qed.

(** The length starts as the distance of the outermost particles and changes by the
    difference of their displacements; a nan counts as 0. *)
Theorem C113_length : forall dt items, items <> [] -> (forall p, In p items -> length (snd p) = length dt) ->
  exists lo hi len, In lo items /\ In hi items /\ (forall p, In p items -> fst lo <= fst p /\ fst p <= fst hi)%Q /\ length_of dt items = Some len /\ length len = length dt /\
  forall k, k < length dt -> (nth k len 0 == (fst hi - fst lo) + sum_to (fun j => num (nth j dt None) * (num (nth j (snd hi) None) - num (nth j (snd lo) None))) k)%Q.
Proof.
  intros dt items NE L. destruct (first_min_spec items None (or_intror NE)) as (lo & A1 & B1 & C1 & _). destruct (first_max_spec items None (or_intror NE)) as (hi & A2 & B2 & C2 & _).
  destruct B1 as [B1|B1]; [|discriminate]. destruct B2 as [B2|B2]; [|discriminate]. unfold length_of. rewrite A1, A2. cbn [obind].
  assert (L1 : length (displ dt (snd lo)) = length dt) by (apply displ_length, L, B1). assert (L2 : length (displ dt (snd hi)) = length dt) by (apply displ_length, L, B2).
  eexists lo, hi, _. split; [exact B1|]. split; [exact B2|]. split; [intros p Hp; split; [apply C1, Hp|apply C2, Hp]|]. split; [reflexivity|]. split; [rewrite map_length, combine_length, !positions_length; lia|].
  intros k K. rewrite (nth_indep _ 0%Q ((fun p => snd p - fst p)%Q (0%Q, 0%Q))) by (rewrite map_length, combine_length, !positions_length; lia). rewrite (map_nth (fun p => (snd p - fst p)%Q)).
  rewrite nth_combine by (rewrite !positions_length; congruence). cbn [fst snd]. rewrite !positions_nth by lia.
  assert (E : forall m, (sum_to (fun j => num (nth j dt None) * (num (nth j (snd hi) None) - num (nth j (snd lo) None))) m ==
    sum_to (fun j => nth j (displ dt (snd hi)) 0) m - sum_to (fun j => nth j (displ dt (snd lo)) 0) m)%Q).
  { induction m as [|m IH]; cbn [sum_to]; [lra|]. rewrite IH. rewrite !displ_nth by (apply L; assumption). ring. }
  rewrite E. lra.
Qed.
Print Assumptions C113_length.
Example C113_length_case : let items := [((3)%Q, [Some 0%Q; Some (-1)%Q; None]); ((1)%Q, [Some 5%Q; Some 1%Q; Some 1%Q]); ((2)%Q, [None; None; None])] in
  exists len, length_of [Some 0%Q; Some (1#2)%Q; Some (1#2)%Q] items = Some len /\ map Qred len = [2; 1; 1#2]%Q.
Proof. eexists. split; vm_compute; reflexivity. Qed.

(** * The saved table *)
(** The rows within the limits *)
Definition rows_within (lo hi : Q) (time col : list Q) : list Q := map snd (filter (fun p => Qle_bool lo (fst p) && Qle_bool (fst p) hi) (combine time col)).

Lemma select_rows : forall lo hi time col, select (limits_mask lo hi time) col = rows_within lo hi time col.
Proof.
  intros lo hi. unfold select, rows_within, limits_mask. induction time as [|t time IH]; intros [|c col]; try reflexivity. cbn [map combine filter fst]. destruct (Qle_bool lo t && Qle_bool t hi); cbn [map snd]; [f_equal; apply IH|apply IH].
Qed.
Fixpoint trues (mask : list bool) : nat := match mask with [] => 0 | b :: r => (if b then 1 else 0) + trues r end.
Lemma select_length : forall A (mask : list bool) (l : list A), length l = length mask -> length (select mask l) = trues mask.
Proof.
  intros A. induction mask as [|b mask IH]; intros [|x l] H; try discriminate; [reflexivity|]. injection H as H. unfold select in *. cbn [combine filter fst trues]. destruct b; cbn [map length]; rewrite IH by exact H; reflexivity.
Qed.
Lemma limits_mask_length : forall lo hi time, length (limits_mask lo hi time) = length time.
Proof. intros. apply map_length. Qed.

Definition good (time : list Q) (q : nat * list Q) : Prop := fst q < 4 /\ length (snd q) = length time /\ exists x r, snd q = x :: r /\ ~ (x == 0)%Q.
Definition first_of (col : list Q) : Q := nth 0 col 0%Q.
Definition shrinkage (col : list Q) : list Q := map (fun x => (first_of col - x) / first_of col)%Q col.

Lemma quantities_good : forall time lo hi qs, (forall q, In q qs -> good time q) ->
  quantities (length (select (limits_mask lo hi time) time)) qs (limits_mask lo hi time) =
  Some (map (fun q => (rows_within lo hi time (snd q), rows_within lo hi time (shrinkage (snd q)))) qs, map fst qs).
Proof.
  intros time lo hi. induction qs as [|[i col] qs IH]; intro H; [reflexivity|]. destruct (H (i, col) (or_introl eq_refl)) as (I & L & x & r & E & NZ). cbn [fst snd] in *. cbn [quantities].
  assert (ZX : Qeq_bool x 0 = false) by (apply not_true_iff_false; intro X; apply NZ, Qeq_bool_iff, X).
  assert (R : ref_row col = 0) by (rewrite E; cbn [ref_row]; rewrite ZX; reflexivity). rewrite R. cbn [clear_first].
  replace (Qeq_bool (nth 0 col 0%Q) 0) with false by (rewrite E; cbn; congruence). replace (4 <=? i) with false by (symmetry; apply Nat.leb_gt; lia).
  assert (LS : forall c, length c = length time -> assign_column (length (select (limits_mask lo hi time) time)) (select (limits_mask lo hi time) c) = Some (rows_within lo hi time c)).
  { intros c Hc. unfold assign_column. rewrite !select_length by (rewrite limits_mask_length; auto). rewrite Nat.eqb_refl. rewrite select_rows. reflexivity. }
  rewrite LS by exact L. cbn [obind]. rewrite LS by (rewrite map_length; exact L). cbn [obind]. rewrite IH by (intros; apply H; right; assumption). reflexivity.
Qed.

(** If every column starts with a nonzero number, the table has for each quantity the
    rows within the limits and the change relative to the first row. *)
Theorem C113_table : forall time lo hi qs, (forall q, In q qs -> good time q) ->
  exists t, save time lo hi qs = Some t /\ c_time t = rows_within lo hi time time /\ c_header t = map fst qs ++ map (fun q => fst q + 4) qs /\ length (c_columns t) = length (c_header t) /\
  forall k q, nth_error qs k = Some q -> nth_error (c_columns t) k = Some (rows_within lo hi time (snd q)) /\ nth_error (c_columns t) (length qs + k) = Some (rows_within lo hi time (shrinkage (snd q))) /\
    nth_error (c_header t) k = Some (fst q) /\ nth_error (c_header t) (length qs + k) = Some (fst q + 4).
Proof.
  intros time lo hi qs H. unfold save. cbv zeta. rewrite quantities_good by exact H. cbn [obind fst]. eexists. split; [reflexivity|]. cbn [c_time c_header c_columns]. rewrite map_length, Nat.sub_diag. cbn [repeat]. rewrite !app_nil_r, !map_map. cbn [fst snd].
  split; [apply select_rows|]. split; [reflexivity|]. split; [rewrite !app_length, !map_length; reflexivity|].
  intros k q E. assert (K : k < length qs) by (apply nth_error_Some; congruence).
  repeat split; first [rewrite nth_error_app1 by (rewrite map_length; exact K)|rewrite nth_error_app2 by (rewrite map_length; lia); rewrite map_length; replace (length qs + k - length qs) with k by lia];
    rewrite nth_error_map, E; reflexivity.
Qed.
Print Assumptions C113_table.
Example C113_table_case : let t := save [0; 1; 2; 3]%Q 1 3 [(0, [4; 2; 1; 1]%Q); (3, [8; 4; 2; 2]%Q)] in
  option_map (fun t => (c_header t, map (map Qred) (c_columns t))) t = Some ([0; 3; 4; 7], [[2; 1; 1]; [4; 2; 2]; [1#2; 3#4; 3#4]; [1#2; 3#4; 3#4]]%Q).
Proof. vm_compute. reflexivity. Qed.

(** The shrinkage is 0 in the first row, and 1 where nothing is left. *)
Theorem C113_shrinkage : forall col, ~ (first_of col == 0)%Q -> forall k, k < length col ->
  ((nth k (shrinkage col) 0 == 0 <-> nth k col 0 == first_of col) /\ (nth k (shrinkage col) 0 == 1 <-> nth k col 0 == 0) /\
   (0 < first_of col -> (0 <= nth k (shrinkage col) 0 <-> nth k col 0 <= first_of col)))%Q.
Proof.
  intros col NZ k K. unfold shrinkage. set (x0 := first_of col) in *. rewrite (nth_indep _ 0%Q ((fun x => (x0 - x) / x0)%Q 0%Q)) by (rewrite map_length; exact K). rewrite (map_nth (fun x => ((x0 - x) / x0)%Q)). set (y := nth k col 0%Q).
  split; [|split].
  - split; intro H.
    + assert (E : (x0 - y == ((x0 - y) / x0) * x0)%Q) by (field; exact NZ). rewrite H in E. lra.
    + rewrite H. field. exact NZ.
  - split; intro H.
    + assert (E : (x0 - y == ((x0 - y) / x0) * x0)%Q) by (field; exact NZ). rewrite H in E. lra.
    + rewrite H. field. exact NZ.
  - intro P. split; intro H.
    + assert (E : (x0 - y == ((x0 - y) / x0) * x0)%Q) by (field; exact NZ). nra.
    + apply Qle_shift_div_l; lra.
Qed.
Print Assumptions C113_shrinkage.

(** A column of zeros is left out but keeps its header: what follows is saved under
    the wrong names. *)
Theorem C113_zero_refuted : forall time lo hi i j col, good time (j, col) ->
  save time lo hi [(i, repeat 0%Q (length time)); (j, col)] = Some (mkCsv (rows_within lo hi time time) [i; j; i + 4; j + 4]
    (let z := repeat 0%Q (length (rows_within lo hi time time)) in [rows_within lo hi time col; z; rows_within lo hi time (shrinkage col); z])).
Proof.
  intros time lo hi i j col G. unfold save. cbv zeta. cbn [quantities].
  assert (Z : forall n, Qeq_bool (nth (ref_row (repeat 0%Q n)) (repeat 0%Q n) 0%Q) 0 = true).
  { intro n. generalize (ref_row (repeat 0%Q n)) as k. induction n as [|n IH]; intros [|k]; cbn; auto. }
  rewrite Z. pose proof (quantities_good time lo hi [(j, col)]) as Q1. cbn [quantities] in Q1. rewrite Q1 by (intros q [<-|[]]; exact G). cbn [obind fst map length Nat.sub repeat app]. rewrite select_rows. reflexivity.
Qed.
Print Assumptions C113_zero_refuted.

(** A leading zero within the limits changes the mask of the rows, and the columns
    do not fit any more: an exception. *)
Lemma clear_trues : forall k mask, k <= length mask -> trues (clear_first k mask) + trues (firstn k mask) = trues mask.
Proof. induction k as [|k IH]; intros [|b mask] H; cbn [length] in H; try lia; cbn [clear_first firstn trues]; try lia. specialize (IH mask ltac:(lia)). lia. Qed.
Lemma clear_length : forall k mask, length (clear_first k mask) = length mask.
Proof. induction k as [|k IH]; intros [|b mask]; cbn; auto. Qed.

Theorem C113_leading_refuted : forall time lo hi i x y r qs, length (x :: y :: r) = length time -> (x == 0)%Q -> ~ (y == 0)%Q ->
  Qle_bool lo (nth 0 time 0%Q) && Qle_bool (nth 0 time 0%Q) hi = true -> 3 <= length (rows_within lo hi time time) ->
  save time lo hi ((i, x :: y :: r) :: qs) = None.
Proof.
  intros time lo hi i x y r qs L X Y IN N. unfold save. cbv zeta. cbn [quantities]. apply Qeq_bool_iff in X.
  assert (R : ref_row (x :: y :: r) = 1). { cbn [ref_row]. rewrite X. replace (Qeq_bool y 0) with false; [reflexivity|]. symmetry. apply not_true_iff_false. intro H. apply Y, Qeq_bool_iff, H. }
  rewrite R. cbn [nth]. replace (Qeq_bool y 0) with false by (symmetry; apply not_true_iff_false; intro H; apply Y, Qeq_bool_iff, H). cbn [Nat.leb].
  destruct time as [|t time]; [discriminate|]. cbn [nth] in IN. set (mask := limits_mask lo hi (t :: time)) in *.
  assert (M : mask = true :: limits_mask lo hi time) by (unfold mask, limits_mask; cbn [map]; rewrite IN; reflexivity).
  assert (LM : length mask = length (t :: time)) by apply limits_mask_length.
  rewrite <- select_rows in N. fold mask in N. rewrite select_length in N by auto.
  assert (F : forall c, length c = length (t :: time) -> assign_column (length (select mask (t :: time))) (select (clear_first 1 mask) c) = None).
  { intros c Hc. unfold assign_column. rewrite (select_length _ mask) by auto. assert (LS : length (select (clear_first 1 mask) c) = trues (clear_first 1 mask)) by (apply select_length; rewrite clear_length; congruence).
    rewrite M in N |- *. cbn [clear_first trues] in *. rewrite M in LS. cbn [clear_first trues] in LS. rewrite LS. replace (0 + trues (limits_mask lo hi time) =? 1 + trues (limits_mask lo hi time)) with false by (symmetry; apply Nat.eqb_neq; lia).
    destruct (select _ c) as [|a [|b l]]; [reflexivity|cbn [length] in LS; lia|reflexivity]. }
  rewrite F by exact L. reflexivity.
Qed.
Print Assumptions C113_leading_refuted.
Example C113_leading_case : save [0; 1; 2]%Q 0 2 [(0, [0; 5; 4]%Q)] = None.
Proof. reflexivity. Qed.

(** The inner loop overwrites the number of the quantity: with leading zeros the
    label of another quantity is used, and with five or more there is none. *)
(** the reference is the first value that is not zero, or the last one *)
Theorem C113_reference : forall zeros y r, (forall z, In z zeros -> z == 0)%Q -> (~ y == 0)%Q \/ r = [] ->
  ref_row (zeros ++ y :: r) = length zeros.
Proof.
  induction zeros as [|z zeros IH]; intros y r Z Y; cbn [app ref_row length].
  - destruct (Qeq_bool y 0) eqn:E; [|reflexivity]. destruct Y as [Y| ->]; [|reflexivity]. exfalso. apply Y, Qeq_bool_iff, E.
  - replace (Qeq_bool z 0) with true by (symmetry; apply Qeq_bool_iff, Z; left; reflexivity).
    rewrite (IH y r) by (auto using in_cons). destruct zeros; reflexivity.
Qed.
Print Assumptions C113_reference.

Theorem C113_label_refuted : (forall n i zeros y r qs mask, 5 <= length zeros -> (forall z, In z zeros -> z == 0)%Q -> (~ y == 0)%Q -> quantities n ((i, zeros ++ y :: r) :: qs) mask = None) /\
  exists a b, quantities 2 [(3, [0; 5; 4]%Q)] [false; true; true] = Some ([(a, b)], [0]).
Proof.
  split.
  - intros n i zeros y r qs mask H Z Y. cbn [quantities]. rewrite (C113_reference zeros y r Z (or_introl Y)).
    rewrite app_nth2, Nat.sub_diag by lia. cbn [nth].
    replace (Qeq_bool y 0) with false by (symmetry; apply not_true_iff_false; intro X; apply Y, Qeq_bool_iff, X). destruct (length zeros) as [|k]; [lia|]. replace (4 <=? k) with true by (symmetry; apply Nat.leb_le; lia). reflexivity.
  - eexists _, _. reflexivity.
Qed.
Print Assumptions C113_label_refuted.
