(** C107: finding overlapping spheres (contacts.py). *)
From Coq Require Import QArith Qabs List Arith Bool Lia Permutation Sorted Lqa.
From Verif Require Import Util ContactsModel.
Import ListNotations.
Local Open Scope nat_scope.

(** What numpy's [argsort] and sklearn's [query_radius] promise. *)
Definition argsort_ok (argsort : list Q -> list nat) : Prop := forall l,
  Permutation (argsort l) (seq 0 (length l)) /\
  forall a b, a <= b -> b < length l -> Qle (nth (nth a (argsort l) 0) l 0%Q) (nth (nth b (argsort l) 0) l 0%Q).
Definition query_ok (dist : nat -> nat -> Q) (query : nat -> list nat -> Q -> list nat) : Prop := forall p ref r,
  NoDup (query p ref r) /\ forall k, In k (query p ref r) <-> k < length ref /\ (dist p (nth k ref 0%nat) <= r)%Q.
Definition symmetric (dist : nat -> nat -> Q) : Prop := forall i j, (dist i j == dist j i)%Q.

(** ** Segmented arrays *)
Lemma hstack_flatten : forall A B off, length B = length A ->
  hstack (flatten A) (flatten B) off = flatten (map (fun p => fst p ++ map (fun v => v + off) (snd p)) (combine A B)).
Proof.
  intros A B off. unfold hstack, flatten. cbn [fst snd].
  revert B. induction A as [|a A IH]; intros [|b B] L; try discriminate; [reflexivity|]. cbn [map combine concat hstack_loop hd tl length] in *.
  rewrite map_app, skipn_app, skipn_all, Nat.sub_diag. cbn [app skipn]. rewrite skipn_app, map_length.
  rewrite (skipn_all2 (map _ b)) by (rewrite map_length; lia). rewrite Nat.sub_diag. cbn [app skipn fst snd]. rewrite IH by lia.
  f_equal; [rewrite app_length, map_length; reflexivity|]. rewrite !firstn_app, firstn_all, Nat.sub_diag, map_length, Nat.sub_diag. cbn [firstn].
  rewrite (firstn_all2 (map _ b)) by (rewrite map_length; lia). rewrite !app_nil_r, <- app_assoc. reflexivity.
Qed.

Lemma vstack_flatten : forall A B, vstack (flatten A) (flatten B) = flatten (A ++ B).
Proof. intros A B. unfold vstack, flatten. cbn [fst snd]. rewrite map_app, concat_app. reflexivity. Qed.

Lemma segment_spec : forall A r s, r < length A ->
  nth r (map (@length nat) A) 0 = length (nth r A []) /\
  forall pre, length pre = s -> firstn (nth r (map (@length nat) A) 0) (skipn (nth r (offsets s (map (@length nat) A)) 0) (pre ++ concat A)) = nth r A [].
Proof.
  induction A as [|a A IH]; intros r s H; cbn [length] in H; [lia|]. destruct r as [|r]; cbn [map nth offsets concat].
  - split; [reflexivity|]. intros pre <-. rewrite skipn_app, skipn_all, Nat.sub_diag. cbn [app skipn]. rewrite firstn_app, firstn_all, Nat.sub_diag. cbn [firstn]. apply app_nil_r.
  - destruct (IH r (s + length a) ltac:(lia)) as [I1 I2]. split; [exact I1|]. intros pre <-. rewrite app_assoc. apply I2. apply app_length.
Qed.

Lemma reorder_flatten : forall A index rv, (forall r, In r rv -> r < length A) ->
  reorder (flatten A) index rv = flatten (map (fun r => map (fun v => nth v index 0) (nth r A [])) rv).
Proof.
  intros A index rv H. unfold reorder, flatten. cbn [fst snd]. f_equal.
  - rewrite map_map. apply map_ext_in. intros r Hr. rewrite map_length. apply (segment_spec A r 0), H, Hr.
  - rewrite flat_map_concat_map. f_equal. apply map_ext_in. intros r Hr. rewrite <- (proj2 (segment_spec A r 0 (H r Hr)) [] eq_refl). reflexivity.
Qed.

(** ** Sorting *)
Lemma sift_perm : forall x l, Permutation (sift x l) (x :: l).
Proof. intro x. induction l as [|y l IH]; cbn [sift]; [reflexivity|]. destruct (x <? y); [|reflexivity]. rewrite IH. constructor. Qed.
Lemma small_sort_perm : forall l, Permutation (small_sort l) l.
Proof.
  intro l. unfold small_sort. rewrite <- Permutation_rev.
  assert (G : forall acc, Permutation (fold_left (fun acc x => sift x acc) l acc) (acc ++ l)).
  { induction l as [|x l IH]; intro acc; cbn [fold_left]; [rewrite app_nil_r; reflexivity|]. rewrite IH, sift_perm. cbn [app]. apply Permutation_middle. }
  apply (G []).
Qed.
Definition desc (l : list nat) : Prop := StronglySorted (fun a b => b <= a) l.
Lemma sift_desc : forall x l, desc l -> desc (sift x l).
Proof.
  intros x l H. induction H as [|y l H IH F]; cbn [sift]; [constructor; constructor|]. destruct (Nat.ltb_spec x y) as [L|L].
  - constructor; [exact IH|]. apply Forall_forall. intros z Hz. apply (Permutation_in z (sift_perm x l)) in Hz. destruct Hz as [<-|Hz]; [lia|]. rewrite Forall_forall in F. apply F, Hz.
  - constructor; [constructor; assumption|]. constructor; [exact L|]. eapply Forall_impl; [|exact F]. cbn. intros; lia.
Qed.
Lemma sorted_snoc : forall (l : list nat) x, StronglySorted le l -> (forall y, In y l -> y <= x) -> StronglySorted le (l ++ [x]).
Proof.
  intros l x H. induction H as [|y l H IH F]; intro B; cbn [app]; [constructor; constructor|]. constructor; [apply IH; intros; apply B; right; assumption|].
  apply Forall_app. split; [exact F|]. constructor; [apply B; left; reflexivity|constructor].
Qed.
Lemma small_sort_sorted : forall l, StronglySorted le (small_sort l).
Proof.
  intro l. unfold small_sort. assert (G : forall acc, desc acc -> desc (fold_left (fun acc x => sift x acc) l acc)).
  { induction l as [|x l IH]; intros acc H; cbn [fold_left]; [exact H|]. apply IH, sift_desc, H. }
  specialize (G [] (SSorted_nil _)). induction G as [|x m H IH F]; [constructor|]. cbn [rev]. apply sorted_snoc; [exact IH|].
  intros y Hy. apply in_rev in Hy. rewrite Forall_forall in F. apply F, Hy.
Qed.

Lemma sorted_unique : forall l m : list nat, StronglySorted le l -> StronglySorted le m -> Permutation l m -> l = m.
Proof.
  intros l m H. revert m. induction H as [|x l H IH F]; intros m G P; [apply Permutation_nil in P; congruence|].
  destruct m as [|y m]; [symmetry in P; apply Permutation_nil in P; discriminate|]. inversion G as [|? ? G1 G2]; subst.
  assert (E : x = y).
  { rewrite Forall_forall in F, G2. assert (X : In x (y :: m)) by (apply (Permutation_in x P); left; reflexivity). assert (Y : In y (x :: l)) by (apply (Permutation_in y (Permutation_sym P)); left; reflexivity).
    destruct X as [X|X]; [congruence|]. destruct Y as [Y|Y]; [congruence|]. apply F in Y. apply G2 in X. lia. }
  subst y. f_equal. apply IH; [exact G1|]. apply (Permutation_cons_inv P).
Qed.
Lemma sorted_filter : forall f (l : list nat), StronglySorted le l -> StronglySorted le (filter f l).
Proof.
  intros f l H. induction H as [|x l H IH F]; cbn [filter]; [constructor|]. destruct (f x); [|exact IH]. constructor; [exact IH|].
  apply Forall_forall. intros y Hy. apply filter_In in Hy. rewrite Forall_forall in F. apply F, Hy.
Qed.
Lemma sorted_seq : forall n s, StronglySorted le (seq s n).
Proof. induction n as [|n IH]; intro s; cbn [seq]; constructor; [apply IH|]. apply Forall_forall. intros x H. apply in_seq in H. lia. Qed.

Lemma sort_to_filter : forall l n f, NoDup l -> (forall k, In k l <-> k < n /\ f k = true) -> small_sort l = filter f (seq 0 n).
Proof.
  intros l n f ND H. apply sorted_unique; [apply small_sort_sorted|apply sorted_filter, sorted_seq|]. rewrite small_sort_perm.
  apply NoDup_Permutation; [exact ND|apply NoDup_filter, seq_NoDup|]. intro k. rewrite H, filter_In, in_seq. intuition lia.
Qed.

Lemma NoDup_app : forall A (l m : list A), NoDup l -> NoDup m -> (forall x, In x l -> In x m -> False) -> NoDup (l ++ m).
Proof.
  intros A l m H. induction H as [|x l H ND IH]; intros M D; cbn [app]; [exact M|]. constructor.
  - intro X. apply in_app_or in X. destruct X as [X|X]; [contradiction|]. apply (D x); [left; reflexivity|exact X].
  - apply IH; [exact M|]. intros y Hy. apply D. right. exact Hy.
Qed.

(** ** Computing the contacts *)
Section Contacts.
Variables (dist : nat -> nat -> Q) (radii : list Q).
Let n := length radii.
Let gap i j := contact_check dist radii i j.
Definition hit (i j : nat) : bool := negb (j =? i) && Qle_bool (contact_check dist radii i j) 0.

Lemma contacts_from_spec : forall A idx, (forall k, k < length A -> NoDup (nth k A []) /\ (forall j, In j (nth k A []) -> j < n) /\
    (forall j, j < n -> j <> idx + k -> (gap (idx + k) j <= 0)%Q -> In j (nth k A []))) ->
  contacts_from dist radii idx (map (@length nat) A) (concat A) =
  flat_map (fun i => map (fun j => (gap i j, (i, j))) (filter (hit i) (seq 0 n))) (seq idx (length A)).
Proof.
  induction A as [|a A IH]; intros idx H; [reflexivity|]. cbn [map contacts_from concat length seq flat_map].
  rewrite firstn_app, firstn_all, Nat.sub_diag, skipn_app, skipn_all, Nat.sub_diag. cbn [firstn skipn app]. rewrite app_nil_r, IH.
  2: { intros k Hk. specialize (H (S k) ltac:(cbn [length]; lia)). cbn [nth] in H. replace (S idx + k) with (idx + S k) by lia. exact H. }
  f_equal. destruct (H 0 ltac:(cbn; lia)) as (ND & RA & AL). cbn [nth] in ND, RA, AL. rewrite Nat.add_0_r in AL.
  set (nears := small_sort (filter (fun v => negb (v =? idx)) a)).
  set (hits := filter (fun j => Qle_bool (contact_check dist radii idx j) 0) nears).
  assert (HE : hits = filter (hit idx) (seq 0 n)).
  { apply sorted_unique; [apply sorted_filter, small_sort_sorted|apply sorted_filter, sorted_seq|].
    apply NoDup_Permutation; [apply NoDup_filter; apply (Permutation_NoDup (Permutation_sym (small_sort_perm _))), NoDup_filter, ND|apply NoDup_filter, seq_NoDup|].
    intro j. unfold hits. rewrite !filter_In, in_seq. unfold hit. rewrite andb_true_iff. split.
    - intros [Hj Q0]. apply (Permutation_in j (small_sort_perm _)) in Hj. apply filter_In in Hj. destruct Hj as [Hj N0]. specialize (RA j Hj). split; [lia|auto].
    - intros [Hj [N0 Q0]]. split; [|exact Q0]. apply (Permutation_in j (Permutation_sym (small_sort_perm _))), filter_In. split; [|exact N0].
      apply negb_true_iff, Nat.eqb_neq in N0. apply AL; [lia|exact N0|]. apply Qle_bool_iff, Q0. }
  assert (HS : small_sort hits = hits).
  { apply sorted_unique; [apply small_sort_sorted|unfold hits; apply sorted_filter, small_sort_sorted|apply small_sort_perm]. }
  rewrite HS, HE. clear. induction (filter (hit idx) (seq 0 n)) as [|j l IH]; [reflexivity|]. cbn [map combine]. rewrite IH. reflexivity.
Qed.

Definition rows := flat_map (fun i => map (fun j => (gap i j, (i, j))) (filter (hit i) (seq 0 n))) (seq 0 n).
Definition expected : list (nat * nat) :=
  filter (fun p => (fst p <? snd p) && Qle_bool (dist (fst p) (snd p)) (nth (fst p) radii 0 + nth (snd p) radii 0)%Q) (list_prod (seq 0 n) (seq 0 n)).

Lemma hit_le : forall i j, i <> j -> hit i j = Qle_bool (dist i j) (nth i radii 0 + nth j radii 0)%Q.
Proof.
  intros i j N. unfold hit, contact_check, radius. replace (j =? i) with false by (symmetry; apply Nat.eqb_neq; auto). cbn [negb andb].
  apply eq_true_iff_eq. rewrite !Qle_bool_iff. split; intro; lra.
Qed.

Lemma rows_lt : filter (fun row : Q * (nat * nat) => fst (snd row) <? snd (snd row)) rows = map (fun p => (gap (fst p) (snd p), p)) expected.
Proof.
  unfold rows, expected. generalize (seq 0 n) at 2 3. intro l. induction l as [|i l IH]; [reflexivity|]. cbn [flat_map list_prod].
  rewrite !filter_app, map_app, IH. f_equal. clear IH. induction (seq 0 n) as [|j m IH]; [reflexivity|]. cbn [filter map].
  destruct (Nat.ltb_spec i j) as [L|L]; cbn [fst snd].
  - replace (i <? j) with true by (symmetry; apply Nat.ltb_lt; exact L). cbn [andb]. rewrite <- (hit_le i j) by lia. destruct (hit i j); [|exact IH].
    cbn [map filter fst snd]. replace (i <? j) with true by (symmetry; apply Nat.ltb_lt; exact L). f_equal. exact IH.
  - replace (i <? j) with false by (symmetry; apply Nat.ltb_ge; exact L). cbn [andb]. destruct (hit i j); [|exact IH].
    cbn [map filter fst snd]. replace (i <? j) with false by (symmetry; apply Nat.ltb_ge; exact L). exact IH.
Qed.

Hypothesis SY : symmetric dist.
Lemma rows_even : length rows = 2 * length expected.
Proof.
  assert (R : map snd rows = filter (fun p => hit (fst p) (snd p)) (list_prod (seq 0 n) (seq 0 n))).
  { unfold rows. generalize (seq 0 n) at 2 3. intro l. induction l as [|i l IH]; [reflexivity|]. cbn [flat_map list_prod]. rewrite map_app, filter_app, IH. f_equal.
    clear. induction (seq 0 n) as [|j m IH]; [reflexivity|]. cbn [filter map fst snd]. destruct (hit i j); [cbn [map snd]; f_equal; exact IH|exact IH]. }
  rewrite <- (map_length snd rows), R. set (all := list_prod (seq 0 n) (seq 0 n)).
  assert (NA : NoDup all).
  { unfold all. clear. generalize (seq_NoDup n 0). generalize (seq 0 n) at 1 2 as l. intros l H. induction H as [|x l H ND IH]; [constructor|]. cbn [list_prod]. apply NoDup_app; [apply FinFun.Injective_map_NoDup; [intros a b E; congruence|apply seq_NoDup]|exact IH|].
    intros [a b] Ha Hb. apply in_map_iff in Ha. destruct Ha as (y & E & _). inversion E; subst. apply in_prod_iff in Hb. tauto. }
  assert (P : Permutation (filter (fun p => hit (fst p) (snd p)) all) (expected ++ map (fun p => (snd p, fst p)) expected)).
  { apply NoDup_Permutation; [apply NoDup_filter, NA| |].
    - apply NoDup_app; [apply NoDup_filter, NA|apply FinFun.Injective_map_NoDup; [intros [a b] [c d] E; cbn in E; congruence|apply NoDup_filter, NA]|].
      intros [a b] Ha Hb. apply filter_In in Ha. apply in_map_iff in Hb. destruct Hb as ([c d] & E & Hb). apply filter_In in Hb. cbn [fst snd] in *. inversion E; subst.
      destruct Ha as [_ Ha]. destruct Hb as [_ Hb]. apply andb_true_iff in Ha. apply andb_true_iff in Hb. destruct Ha as [Ha _]. destruct Hb as [Hb _]. apply Nat.ltb_lt in Ha. apply Nat.ltb_lt in Hb. lia.
    - intros [i j]. rewrite in_app_iff, in_map_iff. unfold expected. fold all. rewrite !filter_In. cbn [fst snd].
      assert (SW : forall i j, In (i, j) all -> In (j, i) all) by (unfold all; intros a b X; apply in_prod_iff in X; apply in_prod_iff; tauto).
      assert (HS : forall i j, i <> j -> Qle_bool (dist i j) (nth i radii 0 + nth j radii 0)%Q = Qle_bool (dist j i) (nth j radii 0 + nth i radii 0)%Q).
      { intros a b _. apply eq_true_iff_eq. rewrite !Qle_bool_iff. specialize (SY a b). split; intro; lra. }
      split.
      + intros [A H]. assert (NE : i <> j) by (intros ->; unfold hit in H; rewrite Nat.eqb_refl in H; discriminate). rewrite hit_le in H by exact NE.
        destruct (Nat.ltb_spec i j) as [L|L]; [left; split; [exact A|exact H]|]. right. exists (j, i). cbn [fst snd]. split; [reflexivity|]. apply filter_In. cbn [fst snd]. split; [apply SW, A|].
        rewrite HS in H by exact NE. rewrite H. rewrite andb_true_r. apply Nat.ltb_lt. lia.
      + intros [[A H]|([c d] & E & A)].
        * apply andb_true_iff in H. destruct H as [L H]. apply Nat.ltb_lt in L. split; [exact A|]. rewrite hit_le by lia. exact H.
        * cbn [fst snd] in E. inversion E; subst. apply filter_In in A. cbn [fst snd] in A. destruct A as [A H]. apply andb_true_iff in H. destruct H as [L H]. apply Nat.ltb_lt in L.
          split; [apply SW, A|]. rewrite hit_le by lia. rewrite HS by lia. exact H. }
  rewrite (Permutation_length P), app_length, map_length. lia.
Qed.

Lemma compute_spec : forall A, length A = n -> (forall k, k < n -> NoDup (nth k A []) /\ (forall j, In j (nth k A []) -> j < n) /\
    (forall j, j < n -> j <> k -> (dist k j <= nth k radii 0 + nth j radii 0)%Q -> In j (nth k A []))) ->
  compute dist radii (flatten A) = Some (map (fun p => (gap (fst p) (snd p), p)) expected).
Proof.
  intros A L H. unfold compute, flatten. cbn [fst snd]. rewrite contacts_from_spec.
  - rewrite L. fold rows. rewrite rows_lt, map_length, rows_even. rewrite (Nat.mul_comm 2), Nat.mod_mul, Nat.div_mul by lia. rewrite !Nat.eqb_refl. reflexivity.
  - rewrite L. intros k Hk. destruct (H k Hk) as (X & Y & Z). split; [exact X|]. split; [exact Y|]. cbn [Nat.add]. intros j Hj N G. apply Z; [exact Hj|exact N|].
    unfold gap, contact_check, radius in G. lra.
Qed.
End Contacts.

Lemma index_of_spec : forall l x, In x l -> index_of x l < length l /\ nth (index_of x l) l 0 = x.
Proof.
  induction l as [|y l IH]; intros x H; [destruct H|]. cbn [index_of length]. destruct (Nat.eqb_spec x y) as [->|NE]; [split; [lia|reflexivity]|].
  destruct H as [H|H]; [congruence|]. destruct (IH x H). split; [lia|assumption].
Qed.
Lemma combine_map : forall A B C (f : A -> B) (g : A -> C) l, combine (map f l) (map g l) = map (fun x => (f x, g x)) l.
Proof. intros A B C f g. induction l as [|x l IH]; [reflexivity|]. cbn [map combine]. rewrite IH. reflexivity. Qed.
Lemma nth_firstn_lt : forall (l : list nat) m k, k < m -> nth k (firstn m l) 0 = nth k l 0.
Proof. induction l as [|x l IH]; intros [|m] [|k] H; try lia; try reflexivity. cbn [firstn nth]. apply IH. lia. Qed.
Lemma nth_skipn_add : forall (l : list nat) m k, nth k (skipn m l) 0 = nth (m + k) l 0.
Proof. induction l as [|x l IH]; intros [|m] k; try reflexivity; [destruct k; reflexivity|]. cbn [skipn Nat.add nth]. apply IH. Qed.
Lemma NoDup_map_in : forall (f : nat -> nat) l, NoDup l -> (forall a b, In a l -> In b l -> f a = f b -> a = b) -> NoDup (map f l).
Proof.
  intros f l H. induction H as [|x l H ND IH]; intro I; cbn [map]; constructor.
  - intro X. apply in_map_iff in X. destruct X as (y & E & Hy). apply H. rewrite (I x y); [exact Hy|left; reflexivity|right; exact Hy|congruence].
  - apply IH. intros a b Ha Hb. apply I; right; assumption.
Qed.

(** From two spheres on, the result lists each pair of overlapping spheres once,
    in lexicographic order, with the distance of the surfaces; the assertion and
    the preallocated arrays are right. *)
Theorem C107_pairs : forall dist radii query argsort, symmetric dist -> query_ok dist query -> argsort_ok argsort -> 2 <= length radii ->
  exists res, ends_gap dist radii query argsort = Some res /\
    map snd res = filter (fun p => (fst p <? snd p) && Qle_bool (dist (fst p) (snd p)) (nth (fst p) radii 0 + nth (snd p) radii 0)%Q)
                    (list_prod (seq 0 (length radii)) (seq 0 (length radii))) /\
    forall row, In row res -> (fst row == dist (fst (snd row)) (snd (snd row)) - nth (fst (snd row)) radii 0 - nth (snd (snd row)) radii 0)%Q.
Proof.
  intros dist radii query argsort SY QO AO N2. exists (map (fun p => (contact_check dist radii (fst p) (snd p), p)) (expected dist radii)). split.
  2: { split; [rewrite map_map; cbn [snd]; apply map_id|]. intros row H. apply in_map_iff in H. destruct H as ([i j] & <- & _). cbn [fst snd]. unfold contact_check, radius. ring. }
  unfold ends_gap. cbv zeta. set (n := length radii) in *. destruct (Nat.eqb_spec n 0) as [C|_]; [lia|].
  destruct (AO radii) as [PI MO]. fold n in PI, MO. set (index := argsort radii) in *.
  assert (LI : length index = n) by (rewrite (Permutation_length PI), seq_length; reflexivity).
  assert (II : forall i, In i index <-> i < n) by (intro i; split; intro H; [apply (Permutation_in i PI), in_seq in H; lia|apply (Permutation_in i (Permutation_sym PI)), in_seq; lia]).
  assert (NI : NoDup index) by (apply (Permutation_NoDup (Permutation_sym PI)), seq_NoDup).
  set (split := n * 3 / 4). assert (S1 : 1 <= split) by (unfold split; apply Nat.div_le_lower_bound; lia). assert (S2 : split < n) by (unfold split; apply Nat.div_lt_upper_bound; lia).
  set (small := firstn split index). set (big := skipn split index). set (ms := radius radii (nth split index 0)). set (mb := radius radii (nth (n - 1) index 0)).
  assert (LS : length small = split) by (unfold small; rewrite firstn_length; lia). assert (LB : length big = n - split) by (unfold big; rewrite skipn_length; lia).
  assert (FN : forall a b f, a <> [] -> b <> [] -> find_neighbours query a b f = Some (flatten (map (fun p => query p b (f p)) a))) by (intros [|a0 a] [|b0 b] f X Y; try contradiction; reflexivity).
  assert (NS : small <> []) by (intro X; rewrite X in LS; cbn [length] in LS; lia). assert (NB : big <> []) by (intro X; rewrite X in LB; cbn [length] in LB; lia).
  rewrite !FN by assumption. cbn [obind]. rewrite !hstack_flatten by (rewrite !map_length; reflexivity). rewrite !combine_map, !map_map. cbn [fst snd].
  rewrite vstack_flatten, <- map_app. set (F := fun x => query x small (radius radii x + ms)%Q ++ map (fun v => v + split) (query x big (radius radii x + mb)%Q)).
  replace (small ++ big) with index by (symmetry; apply firstn_skipn).
  rewrite reorder_flatten. 2: { intros r Hr. apply in_map_iff in Hr. destruct Hr as (i & <- & Hi). apply in_seq in Hi. rewrite map_length. apply index_of_spec, II. lia. }
  rewrite map_map. apply compute_spec; [exact SY|rewrite map_length, seq_length; reflexivity|].
  intros k Hk. assert (NE : nth k (map (fun x => map (fun v => nth v index 0) (nth (index_of x index) (map F index) [])) (seq 0 n)) [] = map (fun v => nth v index 0) (F k)).
  { rewrite (nth_indep _ [] ((fun x => map (fun v => nth v index 0) (nth (index_of x index) (map F index) [])) 0)) by (rewrite map_length, seq_length; exact Hk).
    rewrite (map_nth (fun x => map (fun v => nth v index 0) (nth (index_of x index) (map F index) []))), seq_nth by exact Hk. cbn [Nat.add]. f_equal.
    destruct (index_of_spec index k (proj2 (II k) Hk)) as [P1 P2]. rewrite (nth_indep _ [] (F 0)) by (rewrite map_length; exact P1). rewrite map_nth, P2. reflexivity. }
  rewrite NE. destruct (QO k small (radius radii k + ms)%Q) as [D1 I1]. destruct (QO k big (radius radii k + mb)%Q) as [D2 I2].
  assert (RF : forall v, In v (F k) -> v < n).
  { intros v Hv. unfold F in Hv. apply in_app_or in Hv. destruct Hv as [Hv|Hv]; [apply I1 in Hv; lia|]. apply in_map_iff in Hv. destruct Hv as (w & <- & Hw). apply I2 in Hw. lia. }
  split; [|split].
  - apply NoDup_map_in.
    + unfold F. apply NoDup_app; [exact D1|apply NoDup_map_in; [exact D2|intros; lia]|]. intros x X Y. apply I1 in X. apply in_map_iff in Y. destruct Y as (w & <- & Hw). lia.
    + intros a b Ha Hb E. apply (proj1 (NoDup_nth index 0) NI); [rewrite LI; apply RF, Ha|rewrite LI; apply RF, Hb|exact E].
  - intros j Hj. apply in_map_iff in Hj. destruct Hj as (v & <- & Hv). apply II, nth_In. rewrite LI. apply RF, Hv.
  - intros j Hj _ T. destruct (index_of_spec index j (proj2 (II j) Hj)) as [P1 P2]. rewrite LI in P1. set (p := index_of j index) in *. apply in_map_iff. exists p. split; [exact P2|].
    unfold F. apply in_or_app. destruct (lt_dec p split) as [L|L].
    + left. apply I1. split; [lia|]. unfold small. rewrite nth_firstn_lt, P2 by exact L. pose proof (MO p split ltac:(lia) S2) as M. rewrite P2 in M. unfold ms, radius. lra.
    + right. apply in_map_iff. exists (p - split). split; [lia|]. apply I2. split; [lia|]. unfold big. rewrite nth_skipn_add. replace (split + (p - split)) with p by lia. rewrite P2.
      pose proof (MO p (n - 1) ltac:(lia) ltac:(lia)) as M. rewrite P2 in M. unfold mb, radius. lra.
Qed.
Print Assumptions C107_pairs.

(** For a single sphere there is no tree for the small group: the call fails
    although the assertion at the beginning lets it pass. *)
Theorem C107_single_refuted : forall dist r query argsort, ends_gap dist [r] query argsort = None.
Proof.
  intros dist r query argsort. unfold ends_gap. cbv zeta. change (length [r] * 3 / 4) with 0. cbn [firstn length Nat.eqb find_neighbours obind]. reflexivity.
Qed.
Print Assumptions C107_single_refuted.

(** Functions meeting the assumptions, and a case. *)
Definition query_ex (dist : nat -> nat -> Q) (p : nat) (ref : list nat) (r : Q) : list nat := rev (filter (fun k => Qle_bool (dist p (nth k ref 0)) r) (seq 0 (length ref))).
Lemma query_ex_ok : forall dist, query_ok dist (query_ex dist).
Proof.
  intros dist p ref r. unfold query_ex. split; [apply NoDup_rev, NoDup_filter, seq_NoDup|]. intro k. rewrite <- in_rev, filter_In, in_seq, Qle_bool_iff. intuition lia.
Qed.
Fixpoint place (l : list Q) (i : nat) (s : list nat) : list nat :=
  match s with [] => [i] | k :: r => if Qle_bool (nth k l 0%Q) (nth i l 0%Q) then k :: place l i r else i :: s end.
Definition argsort_ex (l : list Q) : list nat := fold_right (place l) [] (seq 0 (length l)).
Lemma place_perm : forall l i s, Permutation (place l i s) (i :: s).
Proof. intros l i. induction s as [|k s IH]; cbn [place]; [reflexivity|]. destruct (Qle_bool _ _); [|reflexivity]. rewrite IH. constructor. Qed.
Lemma argsort_ex_ok : argsort_ok argsort_ex.
Proof.
  intro l. unfold argsort_ex. generalize (length l) as n. intro n. set (R := fun a b => (nth a l 0 <= nth b l 0)%Q). split.
  - induction (seq 0 n) as [|i s IH]; [reflexivity|]. cbn [fold_right]. rewrite place_perm. constructor. exact IH.
  - assert (P : Permutation (fold_right (place l) [] (seq 0 n)) (seq 0 n)) by (induction (seq 0 n) as [|i s IH]; [reflexivity|]; cbn [fold_right]; rewrite place_perm; constructor; exact IH).
    assert (SS : StronglySorted R (fold_right (place l) [] (seq 0 n))).
    { clear P. induction (seq 0 n) as [|i s IH]; [constructor|]. cbn [fold_right]. induction IH as [|k t H IH2 F]; cbn [place]; [constructor; constructor|].
      destruct (Qle_bool (nth k l 0%Q) (nth i l 0%Q)) eqn:E.
      - constructor; [exact IH2|]. apply Forall_forall. intros x Hx. apply (Permutation_in x (place_perm l i t)) in Hx. apply Qle_bool_iff in E. destruct Hx as [<-|Hx]; [exact E|]. rewrite Forall_forall in F. apply F, Hx.
      - assert (L : R i k). { unfold R. apply Qlt_le_weak, Qnot_le_lt. intro C. apply Qle_bool_iff in C. congruence. }
        constructor; [constructor; assumption|]. constructor; [exact L|]. eapply Forall_impl; [|exact F]. intros x Hx. unfold R in *. eapply Qle_trans; [exact L|exact Hx]. }
    apply Permutation_length in P. rewrite seq_length in P. intros a b AB BN. rewrite <- P in BN. clear P. revert a b AB BN. induction SS as [|k t H IH F]; intros a b AB BN; cbn [length] in BN; [lia|].
    destruct a as [|a], b as [|b]; try lia; cbn [nth]; [apply Qle_refl| |apply IH; lia]. rewrite Forall_forall in F. apply (F (nth b t 0)), nth_In. lia.
Qed.

Example C107_case : let dist i j := Qabs (nth i [0; 9; 2; 5; 20]%Q 0 - nth j [0; 9; 2; 5; 20]%Q 0)%Q in
  symmetric dist /\ option_map (map (fun r => (Qred (fst r), snd r))) (ends_gap dist [1; 2; 3; 2; 1]%Q (query_ex dist) argsort_ex) =
  Some [((-2)%Q, (0, 2)); (0%Q, (1, 3)); ((-2)%Q, (2, 3))].
Proof. split; [intros i j; rewrite Qabs_Qminus; reflexivity|vm_compute; reflexivity]. Qed.
