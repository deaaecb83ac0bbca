(** C73: average coordination number and the file with the contours. *)
From Coq Require Import List QArith Arith Bool Lia Permutation Lqa.
From Verif Require Import Util CoordModel.
Import ListNotations.
Local Open Scope nat_scope.

(** ** Sets and maps *)
Fixpoint sordered (l : list nat) : Prop :=
  match l with [] => True | x :: r => (forall y, In y r -> x < y) /\ sordered r end.

Lemma sinsert_in : forall x l y, In y (sinsert x l) <-> y = x \/ In y l.
Proof.
  intros x l y. induction l as [|z r IH]; cbn [sinsert]; [cbn; intuition auto|].
  destruct (Nat.ltb_spec x z); [cbn; intuition auto|].
  destruct (Nat.eqb_spec x z); [subst; cbn; intuition auto|]. cbn [In]. rewrite IH. tauto.
Qed.

Lemma sinsert_ordered : forall x l, sordered l -> sordered (sinsert x l).
Proof.
  induction l as [|z r IH]; intro H; cbn [sinsert]; [cbn; intuition auto|]. destruct H as [H1 H2].
  destruct (Nat.ltb_spec x z).
  - cbn. split; [|split; assumption]. intros y [<-|Hy]; [assumption|]. specialize (H1 y Hy). lia.
  - destruct (Nat.eqb_spec x z); [split; assumption|]. split; [|apply IH, H2].
    intros y Hy. apply sinsert_in in Hy. destruct Hy as [->|Hy]; [lia|apply H1, Hy].
Qed.

Lemma sordered_nodup : forall l, sordered l -> NoDup l.
Proof.
  induction l as [|x l IH]; intros H; constructor; destruct H as [H1 H2]; [|apply IH, H2].
  intro K. specialize (H1 x K). lia.
Qed.

Lemma sinsert_all_in : forall xs s y, In y (fold_left (fun s x => sinsert x s) xs s) <-> In y xs \/ In y s.
Proof.
  induction xs as [|x xs IH]; intros s y; cbn [fold_left]; [cbn; tauto|].
  rewrite IH, sinsert_in. cbn. intuition auto.
Qed.

Lemma sinsert_all_ordered : forall xs s, sordered s -> sordered (fold_left (fun s x => sinsert x s) xs s).
Proof. induction xs as [|x xs IH]; intros s H; [exact H|]. apply IH, sinsert_ordered, H. Qed.

Fixpoint mget (m : nmap) (g : nat) : list nat :=
  match m with [] => [] | (k, s) :: r => if g =? k then s else mget r g end.

Lemma mget_missing : forall m g, ~ In g (map fst m) -> mget m g = [].
Proof.
  induction m as [|[k s] r IH]; intros g H; [reflexivity|]. cbn in *. destruct (Nat.eqb_spec g k); [subst; tauto|]. apply IH. tauto.
Qed.

Definition ordered (m : nmap) : Prop := sordered (map fst m).

Lemma mget_update : forall m g f a, ordered m -> mget (mupdate g f m) a = if a =? g then f (mget m g) else mget m a.
Proof.
  induction m as [|[k s] r IH]; intros g f a H; cbn [mupdate mget]; [reflexivity|]. destruct H as [H1 H2].
  destruct (Nat.ltb_spec g k).
  - cbn [mget]. destruct (Nat.eqb_spec a g); [|reflexivity]. destruct (Nat.eqb_spec g k); [lia|].
    rewrite mget_missing; [reflexivity|]. intro K. specialize (H1 g K). cbn in H1. lia.
  - destruct (Nat.eqb_spec g k); cbn [mget].
    + subst. destruct (a =? k); reflexivity.
    + rewrite (IH g f a H2). destruct (Nat.eqb_spec a g), (Nat.eqb_spec a k), (Nat.eqb_spec g k); try reflexivity; lia.
Qed.

Lemma keys_update : forall m g f a, In a (map fst (mupdate g f m)) <-> a = g \/ In a (map fst m).
Proof.
  induction m as [|[k s] r IH]; intros g f a; cbn [mupdate]; [cbn; intuition auto|].
  destruct (Nat.ltb_spec g k); [cbn; intuition auto|].
  destruct (Nat.eqb_spec g k); [subst; cbn; intuition auto|]. cbn [map fst In]. rewrite IH. cbn. tauto.
Qed.

Lemma ordered_update : forall m g f, ordered m -> ordered (mupdate g f m).
Proof.
  induction m as [|[k s] r IH]; intros g f H; cbn [mupdate]; [cbn; intuition auto|]. destruct H as [H1 H2].
  destruct (Nat.ltb_spec g k).
  - split; [|split; assumption]. intros y [<-|Hy]; [cbn; assumption|]. specialize (H1 y Hy). cbn in *. lia.
  - destruct (Nat.eqb_spec g k); [split; assumption|]. split; [|apply IH, H2].
    intros y Hy. apply keys_update in Hy. destruct Hy as [->|Hy]; [cbn; lia|apply H1, Hy].
Qed.

Lemma mget_in : forall m a s, ordered m -> In (a, s) m -> mget m a = s.
Proof.
  induction m as [|[k t] r IH]; intros a s H I; [destruct I|]. destruct H as [H1 H2]. cbn [mget].
  destruct I as [E|I].
  - injection E as -> ->. rewrite Nat.eqb_refl. reflexivity.
  - destruct (Nat.eqb_spec a k); [|apply IH; assumption]. subst.
    specialize (H1 k (in_map fst _ _ I)). cbn in H1. lia.
Qed.

(** What holds of the map at all times: ordered, all sets ordered and not empty. *)
Record wf (m : nmap) : Prop := {
  w_ord : ordered m;
  w_set : forall a, sordered (mget m a);
  w_key : forall a, In a (map fst m) -> mget m a <> [] }.

Lemma wf_nil : wf [].
Proof. constructor; cbn; tauto. Qed.

Lemma wf_insert : forall m xs g, wf m -> xs <> [] \/ mget m g <> [] ->
  wf (mupdate g (fun s => fold_left (fun s x => sinsert x s) xs s) m).
Proof.
  intros m xs g [W1 W2 W3] N. constructor.
  - apply ordered_update, W1.
  - intro a. rewrite mget_update by exact W1. destruct (a =? g); [|apply W2]. apply sinsert_all_ordered, W2.
  - intros a Ha. rewrite mget_update by exact W1. destruct (Nat.eqb_spec a g).
    + subst. intro E.
      assert (X : forall y, ~ (In y xs \/ In y (mget m g))) by (intros y; rewrite <- sinsert_all_in, E; tauto).
      destruct N as [N|N].
      * destruct xs as [|x xs]; [congruence|]. apply (X x). left. left. reflexivity.
      * destruct (mget m g) as [|x l]; [congruence|]. apply (X x). right. left. reflexivity.
    + apply W3. apply keys_update in Ha. destruct Ha as [Ha|Ha]; [congruence|exact Ha].
Qed.

Lemma insert_pair_eq : forall m e, insert_pair m e = mupdate (fst e) (fun s => fold_left (fun s x => sinsert x s) [snd e] s) m.
Proof. reflexivity. Qed.

Lemma fold_pairs : forall ps m, wf m -> wf (fold_left insert_pair ps m) /\
  forall a b, In b (mget (fold_left insert_pair ps m) a) <-> In b (mget m a) \/ In (a, b) ps.
Proof.
  induction ps as [|[g h] ps IH]; intros m W; cbn [fold_left]; [split; [exact W|cbn; tauto]|].
  rewrite insert_pair_eq. cbn [fst snd].
  destruct (IH (mupdate g (fun s => fold_left (fun s x => sinsert x s) [h] s) m)) as [I1 I2].
  { apply wf_insert; [exact W|left; discriminate]. }
  split; [exact I1|]. intros a b. rewrite I2, mget_update by apply W. cbn [In fold_left].
  destruct (Nat.eqb_spec a g).
  - subst. rewrite sinsert_in. split.
    + intros [[->|H]|H]; auto.
    + intros [H|[H|H]]; auto. injection H as ->. auto.
  - split; [tauto|]. intros [H|[H|H]]; auto. injection H as -> ->. congruence.
Qed.

(** ** The pairs *)
Lemma cell_pairs_in : forall inside gs a b, In (a, b) (cell_pairs inside gs) <->
  inside a = true /\ exists i j, i <> j /\ vget gs i = Some a /\ vget gs j = Some b.
Proof.
  intros inside gs a b. unfold cell_pairs. rewrite in_flat_map. split.
  - intros (i & Hi & H). destruct (vget gs i) as [g|] eqn:Ei; [|destruct H].
    destruct (inside g) eqn:Eg; [|destruct H]. apply in_flat_map in H. destruct H as (j & Hj & H).
    destruct (vget gs j) as [h|] eqn:Ej; [|destruct H]. destruct (Nat.eqb_spec i j); [destruct H|].
    destruct H as [H|[]]. injection H as -> ->. split; [exact Eg|]. exists i, j. auto.
  - intros (E & i & j & N & Ei & Ej).
    assert (LT : forall k x, vget gs k = Some x -> In k (seq 0 (length gs))).
    { intros k x H. apply in_seq. split; [lia|]. cbn. apply nth_error_Some. unfold vget in H. congruence. }
    exists i. split; [apply (LT i a Ei)|]. rewrite Ei, E. apply in_flat_map. exists j. split; [apply (LT j b Ej)|].
    rewrite Ej. destruct (Nat.eqb_spec i j); [contradiction|]. left. reflexivity.
Qed.

(** Two grains meet in a cell: both are among the grains of the cell, at different
    order parameters. *)
Definition meet (cells : list ccell) (a b : nat) : Prop :=
  exists c i j, In c cells /\ i <> j /\ vget (c_grains c) i = Some a /\ vget (c_grains c) j = Some b.

Definition meet_on (inside : nat -> bool) (cells : list ccell) (r a b : nat) : Prop :=
  inside a = true /\ exists c i j, In c cells /\ c_rank c = r /\ i <> j /\ vget (c_grains c) i = Some a /\ vget (c_grains c) j = Some b.

Lemma local_spec : forall inside cells me, wf (local_neighbors inside cells me) /\
  forall a b, In b (mget (local_neighbors inside cells me) a) <-> meet_on inside cells me a b.
Proof.
  intros inside cells me. unfold local_neighbors.
  assert (G : forall l m, wf m ->
    let m' := fold_left (fun m c => if c_rank c =? me then fold_left insert_pair (cell_pairs inside (c_grains c)) m else m) l m in
    wf m' /\ forall a b, In b (mget m' a) <-> In b (mget m a) \/ meet_on inside l me a b).
  { induction l as [|c l IH]; intros m W; cbn [fold_left].
    - split; [exact W|]. intros a b. split; [auto|]. intros [H|(_ & c & _ & _ & [] & _)]. exact H.
    - destruct (Nat.eqb_spec (c_rank c) me) as [E|E].
      + destruct (fold_pairs (cell_pairs inside (c_grains c)) m W) as [P1 P2]. destruct (IH _ P1) as [I1 I2].
        split; [exact I1|]. intros a b. rewrite I2, P2, cell_pairs_in. unfold meet_on. split.
        * intros [[H|(H & i & j & H1 & H2 & H3)]|(H & c' & i & j & H1)]; [auto| |].
          -- right. split; [exact H|]. exists c, i, j. cbn. auto.
          -- right. split; [exact H|]. exists c', i, j. cbn. tauto.
        * intros [H|(H & c' & i & j & [<-|H1] & H2 & H3 & H4 & H5)]; [auto| |].
          -- left. right. split; [exact H|]. exists i, j. auto.
          -- right. split; [exact H|]. exists c', i, j. auto.
      + destruct (IH m W) as [I1 I2]. split; [exact I1|]. intros a b. rewrite I2. unfold meet_on. split.
        * intros [H|(H & c' & i & j & H1)]; [auto|]. right. split; [exact H|]. exists c', i, j. cbn. tauto.
        * intros [H|(H & c' & i & j & [<-|H1] & H2 & H3)]; [auto|congruence|]. right. split; [exact H|]. exists c', i, j. auto. }
  destruct (G cells [] wf_nil) as [G1 G2]. split; [exact G1|]. intros a b. rewrite G2. cbn. tauto.
Qed.

(** ** The exchange *)
Definition merge (m : nmap) (e : nat * list nat) : nmap :=
  mupdate (fst e) (fun s => fold_left (fun s x => sinsert x s) (snd e) s) m.

Lemma unpack_flatten : forall m' fuel m, length m' <= fuel -> unpack fuel (flatten m') m = Some (fold_left merge m' m).
Proof.
  induction m' as [|[g s] r IH]; intros fuel m H; cbn [flatten flat_map fst snd app fold_left].
  - destruct fuel; reflexivity.
  - cbn [length] in H. destruct fuel as [|fuel]; [lia|]. cbn [unpack].
    fold (flatten r). rewrite app_length.
    destruct (Nat.leb_spec (length s) (length s + length (flatten r))); [|lia].
    rewrite skipn_app, Nat.sub_diag, skipn_all, firstn_app, Nat.sub_diag, firstn_all. cbn [app skipn firstn].
    rewrite app_nil_r. apply IH. lia.
Qed.

Lemma merge_spec : forall m' m, wf m -> ordered m' -> (forall e, In e m' -> snd e <> []) ->
  wf (fold_left merge m' m) /\ forall a b, In b (mget (fold_left merge m' m) a) <-> In b (mget m a) \/ In b (mget m' a).
Proof.
  induction m' as [|[g s] r IH]; intros m W O N; cbn [fold_left]; [split; [exact W|cbn; tauto]|].
  destruct O as [O1 O2].
  assert (W' : wf (merge m (g, s))).
  { unfold merge. cbn [fst snd]. apply wf_insert; [exact W|]. left. apply (N (g, s)). left. reflexivity. }
  destruct (IH _ W' O2 (fun e H => N e (or_intror H))) as [I1 I2]. split; [exact I1|]. intros a b. rewrite I2.
  unfold merge. cbn [fst snd]. rewrite mget_update by apply W. cbn [mget]. destruct (Nat.eqb_spec a g); [|tauto].
  subst. rewrite sinsert_all_in. rewrite (mget_missing r g); [cbn; tauto|]. intro K. specialize (O1 g K). cbn in O1. lia.
Qed.

Lemma flatten_length : forall m, length m <= length (flatten m).
Proof.
  induction m as [|[g s] r IH]; [cbn; lia|]. cbn [flatten flat_map app length fst snd]. fold (flatten r). rewrite app_length. lia.
Qed.

Lemma unpack_all_spec : forall (f : nat -> nmap) rs m, wf m -> (forall r, wf (f r)) ->
  exists M, unpack_all (map (fun r => flatten (f r)) rs) m = Some M /\ wf M /\
    forall a b, In b (mget M a) <-> In b (mget m a) \/ exists r, In r rs /\ In b (mget (f r) a).
Proof.
  intros f. induction rs as [|r rs IH]; intros m W F; cbn [map unpack_all].
  - exists m. split; [reflexivity|]. split; [exact W|]. intros a b. split; [auto|]. intros [H|(r & [] & _)]. exact H.
  - rewrite unpack_flatten by apply flatten_length. cbn [obind].
    destruct (merge_spec (f r) m W) as [M1 M2]; [apply (F r)| |].
    { intros [a s] H. pose proof (mget_in (f r) a s (w_ord _ (F r)) H) as E. cbn. rewrite <- E.
      apply (w_key _ (F r)). apply (in_map fst _ _ H). }
    destruct (IH _ M1 F) as (M & E & WM & HM). exists M. split; [exact E|]. split; [exact WM|].
    intros a b. rewrite HM, M2. split.
    + intros [[H|H]|(r' & H1 & H2)]; [auto| |].
      * right. exists r. cbn. auto.
      * right. exists r'. cbn. auto.
    + intros [H|(r' & [<-|H1] & H2)]; [auto|auto|]. right. exists r'. auto.
Qed.

(** The map at the end, the same on all ranks. *)
Lemma final_map : forall inside cells n_ranks me, (forall c, In c cells -> c_rank c < n_ranks) ->
  exists M, unpack_all (map (fun r => flatten (local_neighbors inside cells r)) (seq 0 n_ranks)) (local_neighbors inside cells me) = Some M /\
    wf M /\ forall a b, In b (mget M a) <-> inside a = true /\ meet cells a b.
Proof.
  intros inside cells n_ranks me RK.
  destruct (unpack_all_spec (local_neighbors inside cells) (seq 0 n_ranks) (local_neighbors inside cells me)) as (M & E & W & H);
    [apply local_spec|intro r; apply local_spec|].
  exists M. split; [exact E|]. split; [exact W|]. intros a b. rewrite H. rewrite (proj2 (local_spec inside cells me)).
  unfold meet, meet_on. split.
  - intros [(I & c & i & j & H1 & _ & H2)|(r & _ & K)].
    + split; [exact I|]. exists c, i, j. auto.
    + apply local_spec in K. destruct K as (I & c & i & j & H1 & _ & H2). split; [exact I|]. exists c, i, j. auto.
  - intros (I & c & i & j & H1 & H2). right. exists (c_rank c). split; [apply in_seq; split; [lia|apply RK, H1]|].
    apply local_spec. split; [exact I|]. exists c, i, j. tauto.
Qed.

Lemma list_sum_perm : forall (f : nat -> nat) l l', Permutation l l' -> list_sum (map f l) = list_sum (map f l').
Proof. intros f l l' P. apply Permutation_list_sum, Permutation_map, P. Qed.

Lemma average_spec : forall M L N, wf M -> NoDup L -> (forall g, In g L <-> mget M g <> []) ->
  (forall g, NoDup (N g) /\ forall h, In h (N g) <-> In h (mget M g)) ->
  (L = [] -> average M = 0%Q) /\
  (L <> [] -> (average M == inject_Z (Z.of_nat (list_sum (map (fun g => length (N g)) L))) / inject_Z (Z.of_nat (length L)))%Q).
Proof.
  intros M L N W NL HL HN.
  assert (P : Permutation (map fst M) L).
  { apply NoDup_Permutation; [apply sordered_nodup, W|exact NL|]. intro g. rewrite HL. split; [apply W|].
    intro K. destruct (in_dec Nat.eq_dec g (map fst M)) as [I|I]; [exact I|]. rewrite mget_missing in K by exact I. congruence. }
  assert (SZ : forall g, length (N g) = length (mget M g)).
  { intro g. apply Permutation_length, NoDup_Permutation; [apply HN|apply sordered_nodup, W|apply HN]. }
  assert (S1 : list_sum (map (fun e => length (snd e)) M) = list_sum (map (fun g => length (N g)) L)).
  { rewrite <- (list_sum_perm (fun g => length (N g)) _ _ P), map_map. f_equal. apply map_ext_in.
    intros [a s] H. cbn. rewrite SZ, (mget_in M a s (w_ord _ W) H). reflexivity. }
  assert (S2 : length M = length L) by (rewrite <- (Permutation_length P), map_length; reflexivity).
  split.
  - intros ->. destruct M; [reflexivity|discriminate].
  - intro NE. unfold average. rewrite S1, S2. destruct M as [|e M]; [|reflexivity]. destruct L; [congruence|discriminate].
Qed.

(** The result of every rank is the average number of neighbours over the grains
    inside the box that meet another grain: for every list [L] of these grains and
    every enumeration [N g] of the grains that a grain meets, wherever they are. *)
Theorem C73_coordination : forall inside cells n_ranks me L N,
  (forall c, In c cells -> c_rank c < n_ranks) ->
  NoDup L -> (forall g, In g L <-> inside g = true /\ exists h, meet cells g h) ->
  (forall g, NoDup (N g)) -> (forall g h, In g L -> (In h (N g) <-> meet cells g h)) ->
  exists q, coordination inside cells n_ranks me = Some q /\
    (L = [] -> (q == 0)%Q) /\
    (L <> [] -> (q * inject_Z (Z.of_nat (length L)) == inject_Z (Z.of_nat (list_sum (map (fun g => length (N g)) L))))%Q).
Proof.
  intros inside cells n_ranks me L N RK NL HL NN HN.
  destruct (final_map inside cells n_ranks me RK) as (M & E & W & H).
  unfold coordination. rewrite E. cbn [obind]. eexists. split; [reflexivity|].
  set (N' := fun g => if in_dec Nat.eq_dec g L then N g else []).
  assert (KEY : forall g, In g L <-> mget M g <> []).
  { intro g. rewrite HL. split.
    - intros (I & h & K) Z. pose proof (proj2 (H g h) (conj I K)) as X. rewrite Z in X. exact X.
    - intro K. destruct (mget M g) as [|h r] eqn:Eg; [congruence|].
      assert (X : In h (mget M g)) by (rewrite Eg; left; reflexivity). apply H in X. destruct X as [X1 X2].
      split; [exact X1|]. exists h. exact X2. }
  destruct (average_spec M L N' W NL KEY) as [A1 A2].
  { intro g. unfold N'. destruct (in_dec Nat.eq_dec g L) as [I|I].
    - split; [apply NN|]. intro h. rewrite (HN g h I), H. split; [|tauto]. intro K. split; [apply HL, I|exact K].
    - split; [constructor|]. intro h. split; [intros []|]. intro K. apply I. apply KEY. intro Z. rewrite Z in K. exact K. }
  split; [intro Z; rewrite (A1 Z); reflexivity|]. intro NE. rewrite (A2 NE).
  assert (S : list_sum (map (fun g => length (N' g)) L) = list_sum (map (fun g => length (N g)) L)).
  { f_equal. apply map_ext_in. intros g I. unfold N'. destruct (in_dec Nat.eq_dec g L); [reflexivity|contradiction]. }
  rewrite S. field. intro Z.
  assert (P : 0 < length L) by (destruct L; [congruence|cbn; lia]).
  unfold Qeq in Z. cbn in Z. lia.
Qed.
Print Assumptions C73_coordination.

(** It depends on the rank and on the distribution of the cells in no way. *)
Theorem C73_partition : forall inside cells cells' n n' me me',
  (forall c, In c cells -> c_rank c < n) -> (forall c, In c cells' -> c_rank c < n') ->
  (forall gs, In gs (map c_grains cells) <-> In gs (map c_grains cells')) ->
  exists q q', coordination inside cells n me = Some q /\ coordination inside cells' n' me' = Some q' /\ (q == q')%Q.
Proof.
  intros inside cells cells' n n' me me' RK RK' G.
  destruct (final_map inside cells n me RK) as (M & E & W & H).
  destruct (final_map inside cells' n' me' RK') as (M' & E' & W' & H').
  unfold coordination. rewrite E, E'. cbn [obind]. eexists _, _. split; [reflexivity|]. split; [reflexivity|].
  assert (MM : forall a b, meet cells a b <-> meet cells' a b).
  { intros a b. unfold meet. split; intros (c & i & j & I & K).
    - assert (X : In (c_grains c) (map c_grains cells')) by (apply G, in_map, I).
      apply in_map_iff in X. destruct X as (c' & X1 & X2). exists c', i, j. rewrite X1. auto.
    - assert (X : In (c_grains c) (map c_grains cells)) by (apply G, in_map, I).
      apply in_map_iff in X. destruct X as (c' & X1 & X2). exists c', i, j. rewrite X1. auto. }
  assert (NE : forall (l : list nat), l <> [] <-> exists x, In x l).
  { intros [|x l]; split; [congruence|intros (x & [])|intros _; exists x; left; reflexivity|discriminate]. }
  assert (K1 : forall g, In g (map fst M) <-> mget M g <> []).
  { intro g. split; [apply W|]. intro K. destruct (in_dec Nat.eq_dec g (map fst M)) as [I|I]; [exact I|].
    rewrite mget_missing in K by exact I. congruence. }
  destruct (average_spec M (map fst M) (mget M) W (sordered_nodup _ (w_ord _ W)) K1) as [A1 A2].
  { intro g. split; [apply sordered_nodup, W|tauto]. }
  destruct (average_spec M' (map fst M) (mget M) W' (sordered_nodup _ (w_ord _ W))) as [B1 B2].
  { intro g. rewrite K1, !NE. split; intros (x & X); exists x.
    - apply H'. apply H in X. rewrite <- MM. exact X.
    - apply H. apply H' in X. rewrite MM. exact X. }
  { intro g. split; [apply sordered_nodup, W|]. intro h. rewrite H, H', MM. reflexivity. }
  destruct (map fst M) as [|x l]; [rewrite A1, B1 by reflexivity; reflexivity|].
  rewrite A2, B2 by discriminate. reflexivity.
Qed.
Print Assumptions C73_partition.

(** The result is zero or at least one, since grains without neighbour do not count. *)
Theorem C73_at_least_one : forall inside cells n_ranks me q, (forall c, In c cells -> c_rank c < n_ranks) ->
  coordination inside cells n_ranks me = Some q -> (q == 0)%Q \/ (1 <= q)%Q.
Proof.
  intros inside cells n_ranks me q RK E.
  destruct (final_map inside cells n_ranks me RK) as (M & EM & W & H).
  unfold coordination in E. rewrite EM in E. cbn [obind] in E. injection E as <-.
  destruct M as [|e M0] eqn:EMM; [left; reflexivity|]. right. rewrite <- EMM in *.
  assert (S : length M <= list_sum (map (fun e => length (snd e)) M)).
  { assert (NEs : forall x, In x M -> 1 <= length (snd x)).
    { intros [a s] I. cbn. pose proof (w_key _ W a (in_map fst _ _ I)) as K.
      rewrite (mget_in M a s (w_ord _ W) I) in K. destruct s; [congruence|cbn; lia]. }
    clear -NEs. induction M as [|x M IH]; [cbn; lia|]. cbn [length map].
    change (list_sum (length (snd x) :: map (fun e => length (snd e)) M)) with (length (snd x) + list_sum (map (fun e => length (snd e)) M)).
    pose proof (NEs x (or_introl eq_refl)). specialize (IH (fun y Hy => NEs y (or_intror Hy))). lia. }
  assert (P : 0 < length M) by (rewrite EMM; cbn; lia).
  unfold average. rewrite EMM. rewrite <- EMM. apply Qle_shift_div_l.
  - unfold Qlt. cbn. lia.
  - rewrite Qmult_1_l. unfold Qle. cbn. lia.
Qed.
Print Assumptions C73_at_least_one.

(** Grains 0 and 1 touch, grain 2 is alone: the average over the three grains is
    2/3, the code returns one. *)
Definition lone_cells : list ccell := [mkCC 0 [0; 1]; mkCC 1 [0]; mkCC 1 [2]].

Theorem C73_isolated_refuted : exists inside cells n_ranks,
  (forall c, In c cells -> c_rank c < n_ranks) /\ (forall g, inside g = true) /\
  (exists c, In c cells /\ In 2 (c_grains c)) /\ (forall h, ~ meet cells 2 h) /\
  (forall g h, meet cells g h -> (g = 0 /\ h = 1) \/ (g = 1 /\ h = 0)) /\
  (exists q, coordination inside cells n_ranks 0 = Some q /\ (q == 1)%Q).
Proof.
  exists (fun _ => true), lone_cells, 2. split; [intros c H; cbn in H; intuition subst; cbn; lia|].
  split; [reflexivity|]. split; [exists (mkCC 1 [2]); cbn; auto|].
  assert (M : forall g h, meet lone_cells g h -> g = 0 /\ h = 1 \/ g = 1 /\ h = 0).
  { intros g h (c & i & j & H & N & E1 & E2). cbn in H.
    destruct H as [<-|[<-|[<-|[]]]]; cbn [c_grains] in *;
      destruct i as [|[|[|i]]]; destruct j as [|[|[|j]]]; cbn in E1, E2; try discriminate; try congruence;
      injection E1 as <-; injection E2 as <-; auto; lia. }
  split; [|split; [exact M|exists (2 # 2)%Q; split; reflexivity]]. intros h K. apply M in K. lia.
Qed.
Print Assumptions C73_isolated_refuted.

Example C73_case : coordination (fun g => negb (g =? 3)) [mkCC 0 [0; 1]; mkCC 1 [1; 2; 3]; mkCC 1 [0; 1]; mkCC 0 [4]] 2 1 = Some (6 # 3)%Q.
Proof. reflexivity. Qed.

Example C73_applies : let cells := [mkCC 0 [0; 1]; mkCC 1 [1; 2; 3]] in
  meet cells 1 0 /\ meet cells 1 3 /\ ~ meet cells 0 3 /\ forall c, In c cells -> c_rank c < 2.
Proof.
  cbv zeta. split; [exists (mkCC 0 [0; 1]), 1, 0; cbn; auto|]. split; [exists (mkCC 1 [1; 2; 3]), 0, 2; cbn; auto|].
  split; [|intros c [<-|[<-|[]]]; cbn; lia].
  intros (c & i & j & [<-|[<-|[]]] & N & E1 & E2); cbn [c_grains] in *;
    destruct i as [|[|[|i]]]; destruct j as [|[|[|j]]]; cbn in E1, E2; try discriminate; try (destruct i; discriminate); destruct j; discriminate.
Qed.

(** ** The file *)
(** Where the file agrees with the text to be written. *)
Definition right_at {B : Type} (text file : list B) (i : nat) : Prop :=
  i < length file /\ nth_error file i = nth_error text i.

Lemma nth_error_repeat_gap : forall B (zero : B) (f : list B) n i, i < length f -> nth_error (f ++ repeat zero n) i = nth_error f i.
Proof. intros. apply nth_error_app1. assumption. Qed.

Lemma firstn_nth : forall B (l : list B) n i, i < n -> nth_error (firstn n l) i = nth_error l i.
Proof.
  induction l as [|x l IH]; intros n i H; [rewrite firstn_nil; destruct i; reflexivity|].
  destruct n as [|n]; [lia|]. destruct i as [|i]; [reflexivity|]. cbn. apply IH. lia.
Qed.

Lemma skipn_nth : forall B (l : list B) n i, nth_error (skipn n l) i = nth_error l (n + i).
Proof.
  induction l as [|x l IH]; intros n i; [rewrite skipn_nil; destruct (n + i), i; reflexivity|].
  destruct n as [|n]; [reflexivity|]. cbn [skipn Nat.add nth_error]. apply IH.
Qed.

Lemma write_at_get : forall B (zero : B) off data file i, data <> [] ->
  nth_error (write_at zero off data file) i =
    if i <? off then (if i <? length file then nth_error file i else Some zero)
    else if i <? off + length data then nth_error data (i - off) else nth_error file i.
Proof.
  intros B zero off data file i N. unfold write_at. destruct data as [|x data]; [congruence|].
  set (d := x :: data). set (pre := firstn off (file ++ repeat zero (off - length file))).
  assert (LP : length pre = off) by (unfold pre; rewrite firstn_length, app_length, repeat_length; lia).
  destruct (Nat.ltb_spec i off).
  - rewrite nth_error_app1 by lia. unfold pre. rewrite firstn_nth by lia.
    destruct (Nat.ltb_spec i (length file)).
    + apply nth_error_app1. assumption.
    + rewrite nth_error_app2 by lia. apply nth_error_repeat. lia.
  - rewrite nth_error_app2 by lia. rewrite LP. destruct (Nat.ltb_spec i (off + length d)).
    + apply nth_error_app1. lia.
    + rewrite nth_error_app2 by lia. rewrite skipn_nth. f_equal. lia.
Qed.

Lemma write_at_length : forall B (zero : B) off data file, data <> [] ->
  length (write_at zero off data file) = Nat.max (length file) (off + length data).
Proof.
  intros B zero off data file N. unfold write_at. destruct data as [|x data]; [congruence|]. set (d := x :: data).
  rewrite !app_length, firstn_length, app_length, repeat_length, skipn_length. lia.
Qed.

(** Writing a piece of the text at its place spoils nothing and settles the piece. *)
Lemma write_right : forall B (zero : B) text off data file,
  (forall j, j < length data -> nth_error data j = nth_error text (off + j)) ->
  (forall i, right_at text file i -> right_at text (write_at zero off data file) i) /\
  (forall j, j < length data -> right_at text (write_at zero off data file) (off + j)).
Proof.
  intros B zero text off data file H. destruct data as [|x data].
  - split; [auto|]. intros j Hj. cbn in Hj. lia.
  - set (d := x :: data) in *. assert (N : d <> []) by discriminate. split.
    + intros i (L & E). split; [rewrite write_at_length by exact N; lia|]. rewrite write_at_get by exact N.
      destruct (Nat.ltb_spec i off).
      * destruct (Nat.ltb_spec i (length file)); [exact E|lia].
      * destruct (Nat.ltb_spec i (off + length d)); [|exact E]. rewrite H by lia. f_equal. lia.
    + intros j Hj. split; [rewrite write_at_length by exact N; lia|]. rewrite write_at_get by exact N.
      destruct (Nat.ltb_spec (off + j) off); [lia|]. destruct (Nat.ltb_spec (off + j) (off + length d)); [|lia].
      rewrite <- H by exact Hj. f_equal. lia.
Qed.

Lemma concat_at : forall B (streams : list (list B)) k s j, vget streams k = Some s -> j < length s ->
  nth_error (concat streams) (prefix_sum streams k + j) = nth_error s j.
Proof.
  induction streams as [|t r IH]; intros k s j H L; [destruct k; discriminate|]. destruct k as [|k].
  - cbn in H. injection H as ->. cbn. apply nth_error_app1. exact L.
  - cbn in H. cbn [concat]. unfold prefix_sum. cbn [firstn map].
    change (list_sum (length t :: map (@length B) (firstn k r))) with (length t + prefix_sum r k).
    rewrite nth_error_app2 by lia. rewrite <- (IH k s j H L). f_equal. lia.
Qed.

Lemma concat_cover : forall B (streams : list (list B)) i, i < length (concat streams) ->
  exists k s j, vget streams k = Some s /\ j < length s /\ i = prefix_sum streams k + j.
Proof.
  induction streams as [|t r IH]; intros i H; [cbn in H; lia|]. cbn [concat] in H. rewrite app_length in H.
  destruct (Nat.lt_ge_cases i (length t)).
  - exists 0, t, i. auto.
  - destruct (IH (i - length t)) as (k & s & j & E & L & P); [lia|]. exists (S k), s, j. split; [exact E|]. split; [exact L|].
    unfold prefix_sum in *. cbn [firstn map].
    change (list_sum (length t :: map (@length B) (firstn k r))) with (length t + list_sum (map (@length B) (firstn k r))). lia.
Qed.

Lemma prefix_bound : forall B (streams : list (list B)) k s, vget streams k = Some s ->
  prefix_sum streams k + length s <= length (concat streams).
Proof.
  induction streams as [|t r IH]; intros k s H; [destruct k; discriminate|]. cbn [concat]. rewrite app_length. destruct k as [|k].
  - cbn in H. injection H as ->. cbn. lia.
  - cbn in H. specialize (IH k s H). unfold prefix_sum in *. cbn [firstn map].
    change (list_sum (length t :: map (@length B) (firstn k r))) with (length t + list_sum (map (@length B) (firstn k r))). lia.
Qed.

Lemma nth_error_same : forall B (l l' : list B), (forall i, nth_error l i = nth_error l' i) -> l = l'.
Proof.
  induction l as [|x l IH]; intros [|y l'] H; [reflexivity|discriminate (H 0)|discriminate (H 0)|].
  pose proof (H 0) as H0. cbn in H0. injection H0 as ->. f_equal. apply IH. intro i. exact (H (S i)).
Qed.

(** Whatever the order in which the writes of the ranks arrive, the file is the
    header followed by the streams of the ranks in their order, without gap. *)
Theorem C73_file : forall B (zero : B) header streams order,
  Permutation order (seq 0 (S (length streams))) ->
  contour_file zero header streams order = header ++ concat streams.
Proof.
  intros B zero header streams order PM. set (text := header ++ concat streams).
  assert (LT : length text = length header + length (concat streams)) by apply app_length.
  assert (G : forall l file, length file <= length text ->
    length (fold_left (write_number zero header streams) l file) <= length text /\
    (forall i, right_at text file i -> right_at text (fold_left (write_number zero header streams) l file) i) /\
    (forall k s j, In k l -> vget streams k = Some s -> j < length s ->
       right_at text (fold_left (write_number zero header streams) l file) (length header + prefix_sum streams k + j)) /\
    (forall k j, In k l -> vget streams k = None -> j < length header ->
       right_at text (fold_left (write_number zero header streams) l file) j)).
  { induction l as [|k l IH]; intros file L; cbn [fold_left].
    - split; [exact L|]. split; [auto|]. split; [intros ? ? ? []|intros ? ? []].
    - set (file' := write_number zero header streams file k).
      assert (ST : length file' <= length text /\ (forall i, right_at text file i -> right_at text file' i) /\
        (forall s j, vget streams k = Some s -> j < length s -> right_at text file' (length header + prefix_sum streams k + j)) /\
        (forall j, vget streams k = None -> j < length header -> right_at text file' j)).
      { unfold file', write_number. destruct (vget streams k) as [s|] eqn:Ek.
        - destruct (write_right B zero text (length header + prefix_sum streams k) s file) as [R1 R2].
          { intros j Hj. unfold text. rewrite nth_error_app2 by lia. rewrite <- (concat_at B streams k s j Ek Hj). f_equal. lia. }
          split; [|split; [exact R1|split; [|discriminate]]].
          + destruct s as [|x s]; [exact L|]. rewrite write_at_length by discriminate.
            pose proof (prefix_bound B streams k _ Ek). lia.
          + intros s0 j E Hj. injection E as <-. apply R2, Hj.
        - destruct (write_right B zero text 0 header file) as [R1 R2].
          { intros j Hj. unfold text. cbn [Nat.add]. symmetry. apply nth_error_app1. exact Hj. }
          split; [|split; [exact R1|split; [discriminate|]]].
          + destruct header as [|x h]; [exact L|]. rewrite write_at_length by discriminate.
            cbn [Nat.add]. lia.
          + intros j _ Hj. apply (R2 j Hj). }
      destruct ST as (S1 & S2 & S3 & S4). destruct (IH file' S1) as (I1 & I2 & I3 & I4).
      split; [exact I1|]. split; [intros i Hi; apply I2, S2, Hi|]. split.
      + intros k' s j [<-|Hk] E Hj; [apply I2; apply (S3 s j E Hj)|apply (I3 k' s j Hk E Hj)].
      + intros k' j [<-|Hk] E Hj; [apply I2; apply (S4 j E Hj)|apply (I4 k' j Hk E Hj)]. }
  destruct (G order [] ltac:(cbn; lia)) as (G1 & _ & G3 & G4). unfold contour_file.
  set (file := fold_left (write_number zero header streams) order []) in *.
  assert (ALL : forall i, i < length text -> right_at text file i).
  { intros i Hi. unfold text in Hi. rewrite app_length in Hi. destruct (Nat.lt_ge_cases i (length header)) as [C|C].
    - apply (G4 (length streams)); [|apply nth_error_None; lia|exact C].
      apply (Permutation_in _ (Permutation_sym PM)). apply in_seq. lia.
    - destruct (concat_cover B streams (i - length header)) as (k & s & j & E & Lj & P); [lia|].
      replace i with (length header + prefix_sum streams k + j) by lia. apply (G3 k s j); [|exact E|exact Lj].
      apply (Permutation_in _ (Permutation_sym PM)). apply in_seq.
      pose proof (proj1 (nth_error_Some streams k)) as X. unfold vget in E. rewrite E in X.
      specialize (X ltac:(discriminate)). lia. }
  assert (LL : length file = length text).
  { destruct (length text) as [|n] eqn:En; [lia|]. destruct (ALL n ltac:(lia)) as [X _]. lia. }
  apply nth_error_same. intro i. destruct (Nat.lt_ge_cases i (length text)) as [C|C].
  - apply ALL, C.
  - transitivity (@None B); [apply nth_error_None; lia|symmetry; apply nth_error_None; lia].
Qed.
Print Assumptions C73_file.

(** The segments in the header and the entries of the points are numbered alike:
    segment [s] of a grain has the number of the segments before it. *)
Theorem C73_segments : forall grains g n s before after, grains = before ++ (g, n) :: after -> s < n ->
  nth_error (segment_list grains) (list_sum (map snd before) + s) = Some (g, s).
Proof.
  intros grains g n s before after -> H. unfold segment_list. rewrite flat_map_app.
  assert (L : length (flat_map (fun e : nat * nat => map (fun s => (fst e, s)) (seq 0 (snd e))) before) = list_sum (map snd before)).
  { induction before as [|[a b] l IH]; [reflexivity|]. cbn [flat_map map]. rewrite app_length, map_length, seq_length, IH. reflexivity. }
  rewrite nth_error_app2 by lia. rewrite L. replace (list_sum (map snd before) + s - list_sum (map snd before)) with s by lia.
  cbn [flat_map fst snd]. rewrite nth_error_app1 by (rewrite map_length, seq_length; exact H).
  rewrite nth_error_map. replace (nth_error (seq 0 n) s) with (Some s); [reflexivity|]. symmetry.
  rewrite (nth_error_nth' _ 0) by (rewrite seq_length; exact H). rewrite seq_nth by exact H. reflexivity.
Qed.
Print Assumptions C73_segments.

(** Every segment with points on a rank is in the stream of that rank; the format
    documented in the code has every segment once, but a segment whose surface
    passes through the cells of two ranks has two entries in the file, and a segment
    without points has none. *)
Definition show_label (i : nat) : list (nat + nat) := [inl i].
Definition show_text (l : list nat) : list (nat + nat) := map inr l.

Theorem C73_format_refuted : exists points0 points1 : list (list nat),
  length points0 = 2 /\ length points1 = 2 /\
  contour_file (inl 9) [] [stream show_label show_text points0; stream show_label show_text points1] [2; 0; 1]
    = [inl 0; inr 5; inl 0; inr 6].
Proof. exists [[5]; []], [[6]; []]. repeat split. Qed.
Print Assumptions C73_format_refuted.

Example C73_file_case : contour_file 0 [1; 2] [[3]; []; [4; 5]] [2; 3; 0; 1] = [1; 2; 3; 4; 5].
Proof. reflexivity. Qed.
