(** C111, C112: batch runs. *)
From Coq Require Import Ascii List Arith Bool Lia.
From Verif Require Import Util BatchModel.
Import ListNotations.
Local Open Scope char_scope.
Local Open Scope nat_scope.
Local Open Scope list_scope.

Lemma dir_eqb_eq : forall a b, dir_eqb a b = true <-> a = b.
Proof.
  intros [[a1 a2] a3] [[b1 b2] b3]. unfold dir_eqb. rewrite !andb_true_iff, !Nat.eqb_eq. split; [intros [[-> -> ] -> ]; reflexivity|intro H; inversion H; auto].
Qed.
Lemma locked_in : forall d l, existsb (dir_eqb d) l = true <-> In d l.
Proof. intros d l. rewrite existsb_exists. split; [intros (x & H & E); apply dir_eqb_eq in E; subst; exact H|intro H; exists d; split; [exact H|apply dir_eqb_eq; reflexivity]]. Qed.
Lemma unlocked_in : forall d l, existsb (dir_eqb d) l = false <-> ~ In d l.
Proof. intros d l. rewrite <- locked_in. destruct (existsb (dir_eqb d) l); split; congruence. Qed.

Definition valid (l : list job) : Prop := forall j, In j l -> known (j_phys j) = true.

Lemma run_valid : forall fl l k b, valid l -> snd (run_jobs fl k l b) = false.
Proof. intros fl. induction l as [|j l IH]; intros k b V; cbn [run_jobs]; [reflexivity|]. rewrite (V j (or_introl eq_refl)). apply IH. intros x Hx. apply V. right. exact Hx. Qed.

(** Without cleaning and with locks respected. *)
Lemma run_locked : forall fl l k b, ignore_locks fl = false -> do_clean fl = false -> debug fl = false -> valid l ->
  let r := fst (run_jobs fl k l b) in
  (forall d, In d (locks r) <-> In d (locks b) \/ exists j, In j l /\ job_dir j = d) /\ files r = files b /\
  (forall n, In n (submitted r) <-> In n (submitted b) \/ exists i j, n = k + i /\ nth_error l i = Some j /\ ~ In (job_dir j) (locks b) /\
     forall m x, m < i -> nth_error l m = Some x -> job_dir x <> job_dir j).
Proof.
  intros fl l. induction l as [|j l IH]; intros k b I C D V; cbn [run_jobs].
  - cbn [fst]. split; [intro d; split; [auto|intros [H|(x & [] & _)]; exact H]|]. split; [reflexivity|]. intro n. split; [auto|]. intros [H|(i & x & _ & H & _)]; [exact H|destruct i; discriminate].
  - rewrite (V j (or_introl eq_refl)). assert (V' : valid l) by (intros x Hx; apply V; right; exact Hx).
    destruct (IH (S k) (process fl k j b) I C D V') as (A1 & A2 & A3). cbv zeta in *. set (r := fst (run_jobs fl (S k) l (process fl k j b))) in *.
    assert (P : process fl k j b = if existsb (dir_eqb (job_dir j)) (locks b) then b else mkBatch (job_dir j :: locks b) (files b) (submitted b ++ [k])).
    { unfold process. rewrite I, C, D. cbn [negb]. rewrite andb_true_r. reflexivity. }
    rewrite P in A1, A2, A3. destruct (existsb (dir_eqb (job_dir j)) (locks b)) eqn:E.
    + apply locked_in in E. split; [|split; [exact A2|]].
      * intro d. rewrite A1. split; [intros [H|(x & Hx & H)]; [auto|right; exists x; split; [right; exact Hx|exact H]]|]. intros [H|(x & [<-|Hx] & H)]; [auto|left; congruence|right; exists x; auto].
      * intro n. rewrite A3. split.
        -- intros [H|(i & x & N & Hi & NL & F)]; [auto|]. right. exists (S i), x. split; [lia|]. split; [exact Hi|]. split; [exact NL|]. intros [|m] y Hm Hy; [injection Hy as <-; intro X; apply NL; rewrite <- X; exact E|apply (F m); [lia|exact Hy]].
        -- intros [H|(i & x & N & Hi & NL & F)]; [auto|]. destruct i as [|i]; [injection Hi as <-; contradiction|]. right. exists i, x. split; [lia|]. split; [exact Hi|]. split; [exact NL|]. intros m y Hm Hy. apply (F (S m)); [lia|exact Hy].
    + apply unlocked_in in E. cbn [locks files submitted] in *. split; [|split; [exact A2|]].
      * intro d. rewrite A1. cbn [In]. split.
        -- intros [[H|H]|(x & Hx & H)]; [right; exists j; split; [left; reflexivity|exact H]|auto|right; exists x; split; [right; exact Hx|exact H]].
        -- intros [H|(x & [<-|Hx] & H)]; [auto|auto|right; exists x; auto].
      * intro n. rewrite A3, in_app_iff. cbn [In]. split.
        -- intros [[H|[<-|[]]]|(i & x & N & Hi & NL & F)]; [auto| |].
           ++ right. exists 0, j. split; [lia|]. split; [reflexivity|]. split; [exact E|]. intros; lia.
           ++ right. exists (S i), x. split; [lia|]. split; [exact Hi|]. split; [intro X; apply NL; right; exact X|].
              intros [|m] y Hm Hy; [injection Hy as <-; intro X; apply NL; left; exact X|apply (F m); [lia|exact Hy]].
        -- intros [H|(i & x & N & Hi & NL & F)]; [auto|]. destruct i as [|i]; [left; right; left; lia|]. right. exists i, x. split; [lia|]. split; [exact Hi|]. split.
           ++ intros [X|X]; [apply (F 0 j); [lia|reflexivity|exact X]|contradiction].
           ++ intros m y Hm Hy. apply (F (S m)); [lia|exact Hy].
Qed.

Lemma no_clean : forall fl, clean_output fl = false \/ restart fl = true -> do_clean fl = false.
Proof. intros fl [H|H]; unfold do_clean; rewrite H; [reflexivity|]. cbn. rewrite andb_false_r. reflexivity. Qed.

(** With locks respected and no cleaning exactly the first job of each folder that
    was not locked is submitted; no two jobs share a folder, no file is removed, and
    all folders are locked afterwards. *)
Theorem C111_locked : forall fl l b, ignore_locks fl = false -> (clean_output fl = false \/ restart fl = true) -> debug fl = false -> valid l -> submitted b = [] ->
  let r := fst (run_jobs fl 0 l b) in
  (forall i, In i (submitted r) <-> exists j, nth_error l i = Some j /\ ~ In (job_dir j) (locks b) /\ forall m x, m < i -> nth_error l m = Some x -> job_dir x <> job_dir j) /\
  (forall i k j x, In i (submitted r) -> In k (submitted r) -> nth_error l i = Some j -> nth_error l k = Some x -> job_dir j = job_dir x -> i = k) /\
  files r = files b /\ (forall j, In j l -> In (job_dir j) (locks r)).
Proof.
  intros fl l b I C D V SB. destruct (run_locked fl l 0 b I (no_clean fl C) D V) as (A1 & A2 & A3). cbv zeta in *.
  assert (S1 : forall i, In i (submitted (fst (run_jobs fl 0 l b))) <-> exists j, nth_error l i = Some j /\ ~ In (job_dir j) (locks b) /\ forall m x, m < i -> nth_error l m = Some x -> job_dir x <> job_dir j).
  { intro i. rewrite A3, SB. split; [intros [[]|(n & j & -> & H)]; exists j; exact H|]. intros (j & H). right. exists i, j. split; [reflexivity|exact H]. }
  split; [exact S1|]. split; [|split; [exact A2|]].
  - intros i k j x Hi Hk Ji Jk E. apply S1 in Hi. apply S1 in Hk. destruct Hi as (j' & J1 & _ & F1). destruct Hk as (x' & J2 & _ & F2). rewrite Ji in J1. rewrite Jk in J2. injection J1 as <-. injection J2 as <-.
    destruct (lt_eq_lt_dec i k) as [[L|L]|L]; [exfalso; apply (F2 i j L Ji E)|exact L|exfalso; apply (F1 k x L Jk); auto].
  - intros j Hj. apply A1. right. exists j. auto.
Qed.
Print Assumptions C111_locked.

Lemma jobs_in : forall fs ds ps ms j, In j (all_jobs fs ds ps ms) <-> In (j_folder j) fs /\ In (j_dim j) ds /\ In (j_phys j) ps /\ In (j_mob j) ms.
Proof.
  intros fs ds ps ms j. unfold all_jobs. rewrite in_flat_map. split.
  - intros (f & Hf & H). apply in_flat_map in H. destruct H as (d & Hd & H). apply in_flat_map in H. destruct H as (p & Hp & H). apply in_map_iff in H. destruct H as (m & <- & Hm). auto.
  - intros (A & B & C & D). exists (j_folder j). split; [exact A|]. apply in_flat_map. exists (j_dim j). split; [exact B|]. apply in_flat_map. exists (j_phys j). split; [exact C|]. apply in_map_iff. exists (j_mob j). destruct j. auto.
Qed.

Lemma NoDup_app : forall A (l m : list A), NoDup l -> NoDup m -> (forall x, In x l -> In x m -> False) -> NoDup (l ++ m).
Proof.
  intros A l m H. induction H as [|x l H ND IH]; intros M D; cbn [app]; [exact M|]. constructor.
  - intro X. apply in_app_or in X. destruct X as [X|X]; [contradiction|]. apply (D x); [left; reflexivity|exact X].
  - apply IH; [exact M|]. intros y Hy. apply D. right. exact Hy.
Qed.
Lemma NoDup_flat_map : forall A B (f : A -> list B) l, NoDup l -> (forall x, In x l -> NoDup (f x)) -> (forall x y z, In x l -> In y l -> In z (f x) -> In z (f y) -> x = y) -> NoDup (flat_map f l).
Proof.
  intros A B f l H. induction H as [|x l H ND IH]; intros N D; cbn [flat_map]; [constructor|]. apply NoDup_app; [apply N; left; reflexivity|apply IH; [intros; apply N; right; assumption|intros a b c Ha Hb; apply D; right; assumption]|].
  intros z Hz Hz'. apply in_flat_map in Hz'. destruct Hz' as (y & Hy & Hz'). assert (x = y) by (apply (D x y z); [left; reflexivity|right; exact Hy|exact Hz|exact Hz']). subst. contradiction.
Qed.

(** With a single mobility every job is submitted, if no folder was locked and the
    folders of the cases are different. *)
Theorem C111_single_mobility : forall fl fs ds ps m b, ignore_locks fl = false -> (clean_output fl = false \/ restart fl = true) -> debug fl = false ->
  NoDup fs -> NoDup ds -> NoDup ps -> (forall p, In p ps -> known p = true) -> submitted b = [] -> locks b = [] ->
  forall i, In i (submitted (fst (run_jobs fl 0 (all_jobs fs ds ps [m]) b))) <-> i < length (all_jobs fs ds ps [m]).
Proof.
  intros fl fs ds ps m b I C D NF ND NP V SB LB i. set (l := all_jobs fs ds ps [m]).
  assert (VL : valid l) by (intros j Hj; apply jobs_in in Hj; apply V, Hj). rewrite (proj1 (C111_locked fl l b I C D VL SB) i). split; [intros (j & H & _); apply nth_error_Some; congruence|].
  intro Hi. destruct (nth_error l i) as [j|] eqn:E; [|apply nth_error_None in E; lia]. exists j. split; [reflexivity|]. split; [rewrite LB; auto|].
  assert (NL : NoDup l).
  { unfold l, all_jobs. apply NoDup_flat_map; [exact NF| |].
    - intros f _. apply NoDup_flat_map; [exact ND| |].
      + intros d _. apply NoDup_flat_map; [exact NP|intros; repeat constructor; auto|]. intros x y z _ _ [<-|[]] [H|[]]. congruence.
      + intros x y z _ _ H1 H2. apply in_flat_map in H1. apply in_flat_map in H2. destruct H1 as (p & _ & [<-|[]]). destruct H2 as (q & _ & [H|[]]). congruence.
    - intros x y z _ _ H1 H2. apply in_flat_map in H1. apply in_flat_map in H2. destruct H1 as (d & _ & H1). destruct H2 as (e & _ & H2). apply in_flat_map in H1. apply in_flat_map in H2. destruct H1 as (p & _ & [<-|[]]). destruct H2 as (q & _ & [H|[]]). congruence. }
  intros k x K X EQ. assert (x = j).
  { assert (IX : In x l) by (eapply nth_error_In; exact X). assert (IJ : In j l) by (eapply nth_error_In; exact E). apply jobs_in in IX. apply jobs_in in IJ. destruct IX as (_ & _ & _ & [MX|[]]). destruct IJ as (_ & _ & _ & [MJ|[]]).
    unfold job_dir in EQ. inversion EQ. destruct x, j; cbn in *. congruence. }
  subst x. assert (i = k); [|lia]. apply (proj1 (NoDup_nth_error l) NL); [exact Hi|congruence].
Qed.
Print Assumptions C111_single_mobility.

(** The folder does not depend on the mobility: of jobs that differ in it only, all
    but the first are ignored. *)
Theorem C111_mobility_refuted : forall fl fs ds ps ms b i k x y, ignore_locks fl = false -> (clean_output fl = false \/ restart fl = true) -> debug fl = false ->
  (forall p, In p ps -> known p = true) -> submitted b = [] -> nth_error (all_jobs fs ds ps ms) i = Some x -> nth_error (all_jobs fs ds ps ms) k = Some y -> i < k ->
  j_folder x = j_folder y -> j_dim x = j_dim y -> j_phys x = j_phys y -> ~ In k (submitted (fst (run_jobs fl 0 (all_jobs fs ds ps ms) b))).
Proof.
  intros fl fs ds ps ms b i k x y I C D V SB X Y L E1 E2 E3 H. assert (VL : valid (all_jobs fs ds ps ms)) by (intros j Hj; apply jobs_in in Hj; apply V, Hj).
  apply (proj1 (C111_locked fl _ b I C D VL SB) k) in H. destruct H as (j & J & _ & F). rewrite Y in J. injection J as <-. apply (F i x L X). unfold job_dir. congruence.
Qed.
Print Assumptions C111_mobility_refuted.
Example C111_mobility_case : let fl := mkFlags false false false false false in
  submitted (fst (run_jobs fl 0 (all_jobs [7; 8] [2] [0; 1] [5; 6]) (mkBatch [] [] []))) = [0; 2; 4; 6].
Proof. reflexivity. Qed.

(** With cleaning the lock just written is removed again: all jobs for one folder
    are submitted, each removing the files of the one before. *)
Lemma run_clean : forall fl l k b, ignore_locks fl = false -> do_clean fl = true -> debug fl = false -> valid l ->
  let r := fst (run_jobs fl k l b) in locks r = locks b /\
  (forall n, In n (submitted r) <-> In n (submitted b) \/ exists i j, n = k + i /\ nth_error l i = Some j /\ ~ In (job_dir j) (locks b)) /\
  (forall d f, In (d, f) (files r) <-> In (d, f) (files b) /\ (In d (locks b) \/ forall j, In j l -> job_dir j <> d)).
Proof.
  intros fl l. induction l as [|j l IH]; intros k b I C D V; cbn [run_jobs].
  - cbn [fst]. split; [reflexivity|]. split; [|intros d f; split; [intro H; split; [exact H|right; intros j []]|tauto]]. intro n. split; [auto|]. intros [H|(i & x & _ & H & _)]; [exact H|destruct i; discriminate].
  - rewrite (V j (or_introl eq_refl)). assert (V' : valid l) by (intros x Hx; apply V; right; exact Hx).
    destruct (IH (S k) (process fl k j b) I C D V') as (A1 & A2 & A3). cbv zeta in *. set (r := fst (run_jobs fl (S k) l (process fl k j b))) in *.
    destruct (existsb (dir_eqb (job_dir j)) (locks b)) eqn:E.
    + assert (P : process fl k j b = b) by (unfold process; rewrite E, I; reflexivity). rewrite P in A1, A2, A3. apply locked_in in E. split; [exact A1|]. split.
      * intro n. rewrite A2. split.
        -- intros [H|(i & x & N & Hi & NL)]; [auto|]. right. exists (S i), x. split; [lia|]. auto.
        -- intros [H|(i & x & N & Hi & NL)]; [auto|]. destruct i as [|i]; [injection Hi as <-; contradiction|]. right. exists i, x. split; [lia|]. auto.
      * intros d f. rewrite A3. split; intros [H1 [H2|H2]]; (split; [exact H1|]); auto.
        -- destruct (existsb (dir_eqb d) (locks b)) eqn:X; [apply locked_in in X; auto|]. apply unlocked_in in X. right. intros x [<-|Hx]; [intro Q0; apply X; congruence|apply H2, Hx].
        -- right. intros x Hx. apply H2. right. exact Hx.
    + assert (P : process fl k j b = mkBatch (locks b) (filter (fun x => negb (dir_eqb (job_dir j) (fst x))) (files b)) (submitted b ++ [k])).
      { unfold process. rewrite E, C, D. cbn [andb]. f_equal. cbn [filter]. replace (dir_eqb (job_dir j) (job_dir j)) with true by (symmetry; apply dir_eqb_eq; reflexivity). cbn [negb].
        apply unlocked_in in E. clear - E. induction (locks b) as [|x m IHm]; [reflexivity|]. cbn [filter]. destruct (dir_eqb (job_dir j) x) eqn:Q0; [apply dir_eqb_eq in Q0; exfalso; apply E; left; congruence|]. cbn [negb]. f_equal. apply IHm. intro H. apply E. right. exact H. }
      rewrite P in A1, A2, A3. cbn [locks submitted files] in *. apply unlocked_in in E. split; [exact A1|]. split.
      * intro n. rewrite A2, in_app_iff. cbn [In]. split.
        -- intros [[H|[<-|[]]]|(i & x & N & Hi & NL)]; [auto|right; exists 0, j; split; [lia|auto]|]. right. exists (S i), x. split; [lia|]. auto.
        -- intros [H|(i & x & N & Hi & NL)]; [auto|]. destruct i as [|i]; [left; right; left; lia|]. right. exists i, x. split; [lia|]. auto.
      * intros d f. rewrite A3, filter_In. cbn [fst]. split.
        -- intros [[H1 H2] H3]. split; [exact H1|]. apply negb_true_iff in H2. destruct H3 as [H3|H3]; [auto|]. right. intros x [<-|Hx]; [intro Q0; apply dir_eqb_eq in Q0; congruence|apply H3, Hx].
        -- intros [H1 H2]. assert (NE : dir_eqb (job_dir j) d = false). { apply not_true_iff_false. intro Q0. apply dir_eqb_eq in Q0. destruct H2 as [H2|H2]; [congruence|apply (H2 j); [left; reflexivity|exact Q0]]. }
           rewrite NE. split; [split; [exact H1|reflexivity]|]. destruct H2 as [H2|H2]; [auto|right; intros x Hx; apply H2; right; exact Hx].
Qed.

Theorem C111_clean_refuted : forall fl l b, ignore_locks fl = false -> clean_output fl = true -> restart fl = false -> debug fl = false -> valid l -> submitted b = [] ->
  let r := fst (run_jobs fl 0 l b) in
  (forall i, In i (submitted r) <-> exists j, nth_error l i = Some j /\ ~ In (job_dir j) (locks b)) /\ locks r = locks b /\
  (forall d f, In (d, f) (files r) <-> In (d, f) (files b) /\ (In d (locks b) \/ forall j, In j l -> job_dir j <> d)).
Proof.
  intros fl l b I C0 R0 D V SB. assert (C : do_clean fl = true) by (unfold do_clean; rewrite C0, R0, D; reflexivity). destruct (run_clean fl l 0 b I C D V) as (A1 & A2 & A3). cbv zeta in *. split; [|split; [exact A1|exact A3]].
  intro i. rewrite A2, SB. split; [intros [[]|(n & j & -> & H)]; exists j; exact H|]. intros (j & H). right. exists i, j. auto.
Qed.
Print Assumptions C111_clean_refuted.
Example C111_clean_case : let fl := mkFlags false true false false false in
  run_jobs fl 0 (all_jobs [7] [2] [0] [5; 6]) (mkBatch [] [((7, 2, 0), 9)] []) = (mkBatch [] [] [0; 1], false).
Proof. reflexivity. Qed.

(** A debug run submits nothing, but it locks the folders, so that the real run
    after it submits nothing either. *)
Lemma run_debug : forall fl l k b, do_clean fl = false -> debug fl = true -> valid l ->
  let r := fst (run_jobs fl k l b) in submitted r = submitted b /\ files r = files b /\ (forall d, In d (locks b) -> In d (locks r)) /\ forall j, In j l -> In (job_dir j) (locks r).
Proof.
  intros fl l. induction l as [|j l IH]; intros k b C D V; cbn [run_jobs]; [cbn [fst]; repeat split; auto; intros j []|].
  rewrite (V j (or_introl eq_refl)). assert (V' : valid l) by (intros x Hx; apply V; right; exact Hx).
  destruct (IH (S k) (process fl k j b) C D V') as (A1 & A2 & A3 & A4). cbv zeta in *. set (r := fst (run_jobs fl (S k) l (process fl k j b))) in *.
  assert (P : submitted (process fl k j b) = submitted b /\ files (process fl k j b) = files b /\ (forall d, In d (locks b) -> In d (locks (process fl k j b))) /\ In (job_dir j) (locks (process fl k j b))).
  { unfold process. rewrite C, D. destruct (existsb (dir_eqb (job_dir j)) (locks b) && negb (ignore_locks fl)) eqn:E; cbn [submitted files locks].
    - apply andb_true_iff in E. destruct E as [E _]. apply locked_in in E. auto.
    - repeat split; auto; [intros d H; right; exact H|left; reflexivity]. }
  destruct P as (P1 & P2 & P3 & P4). split; [congruence|]. split; [congruence|]. split; [intros d H; apply A3, P3, H|]. intros x [<-|Hx]; [apply A3, P4|apply A4, Hx].
Qed.

Theorem C111_debug_refuted : forall fl fl' l b, (clear fl = false \/ clean_output fl = false \/ restart fl = true) -> debug fl = true -> valid l -> ignore_locks fl' = false -> (clean_output fl' = false \/ restart fl' = true) -> debug fl' = false -> submitted b = [] ->
  let r := fst (run_jobs fl 0 l b) in submitted r = [] /\ files r = files b /\ submitted (fst (run_jobs fl' 0 l r)) = [].
Proof.
  intros fl fl' l b C0 D V I' C' D' SB. assert (C : do_clean fl = false) by (unfold do_clean; rewrite D; destruct C0 as [-> |[-> | -> ]]; cbn; rewrite ?andb_false_r; reflexivity). destruct (run_debug fl l 0 b C D V) as (A1 & A2 & A3 & A4). cbv zeta in *. set (r := fst (run_jobs fl 0 l b)) in *. split; [congruence|]. split; [exact A2|].
  assert (SR : submitted r = []) by congruence. pose proof (proj1 (C111_locked fl' l r I' C' D' V SR)) as S1. destruct (submitted (fst (run_jobs fl' 0 l r))) as [|i t] eqn:E; [reflexivity|]. exfalso.
  destruct (proj1 (S1 i)) as (j & J & NL & _); [left; reflexivity|]. apply NL, A4. eapply nth_error_In. exact J.
Qed.
Print Assumptions C111_debug_refuted.

(** Files are only removed if cleaning is asked for, the run is no restart and, in a
    debug run, clearing is asked for; then those of the folder are removed. *)
Theorem C111_kept : (forall fl l k b, clean_output fl = false \/ restart fl = true \/ (debug fl = true /\ clear fl = false) -> files (fst (run_jobs fl k l b)) = files b) /\
  (forall fl j k b, clean_output fl = true -> restart fl = false -> (debug fl = false \/ clear fl = true) -> known (j_phys j) = true -> (ignore_locks fl = true \/ ~ In (job_dir j) (locks b)) ->
     forall d f, In (d, f) (files (fst (run_jobs fl k [j] b))) <-> In (d, f) (files b) /\ d <> job_dir j).
Proof.
  split.
  - intros fl l k b H. assert (C : do_clean fl = false). { unfold do_clean. destruct H as [-> |[-> |[-> -> ]]]; cbn; rewrite ?andb_false_r; reflexivity. }
    revert k b. induction l as [|j l IH]; intros k b; cbn [run_jobs]; [reflexivity|]. destruct (known (j_phys j)); [|reflexivity]. rewrite IH. unfold process. rewrite C. destruct (existsb _ _ && _); reflexivity.
  - intros fl j k b C R D K U d f. cbn [run_jobs]. rewrite K. cbn [fst]. assert (DC : do_clean fl = true) by (unfold do_clean; rewrite C, R; destruct D as [-> | -> ]; cbn; rewrite ?orb_true_r; reflexivity).
    unfold process. rewrite DC. replace (existsb (dir_eqb (job_dir j)) (locks b) && negb (ignore_locks fl)) with false.
    + cbn [files]. rewrite filter_In. cbn [fst]. rewrite negb_true_iff. split; intros [H1 H2]; (split; [exact H1|]); [intro X; subst d; assert (dir_eqb (job_dir j) (job_dir j) = true) by (apply dir_eqb_eq; reflexivity); congruence|apply not_true_iff_false; intro X; apply dir_eqb_eq in X; congruence].
    + symmetry. destruct U as [-> |U]; [apply andb_false_r|]. apply unlocked_in in U. rewrite U. reflexivity.
Qed.
Print Assumptions C111_kept.

(** Unknown physics ends the script; what came before stays submitted. *)
Theorem C111_unknown : forall fl a j r k b, valid a -> known (j_phys j) = false -> run_jobs fl k (a ++ j :: r) b = (fst (run_jobs fl k a b), true).
Proof.
  intros fl. induction a as [|x a IH]; intros j r k b V U; cbn [app run_jobs]; [rewrite U; reflexivity|]. rewrite (V x (or_introl eq_refl)). apply IH; [intros y Hy; apply V; right; exact Hy|exact U].
Qed.
Print Assumptions C111_unknown.

(** ** Options *)
(** An option is found if the command line, or else the file, gives it; what a case
    says replaces both. *)
Theorem C111_options : forall cmd file case, 
  (case_option cmd file case = None <-> (cmd = None \/ cmd = Some []) /\ file = None) /\
  (forall x, cmd = Some x -> x <> [] -> case = None -> case_option cmd file case = Some x) /\
  (forall y, (cmd = None \/ cmd = Some []) -> file = Some y -> case = None -> case_option cmd file case = Some y) /\
  (forall z, case = Some z -> case_option cmd file case = None \/ case_option cmd file case = Some z).
Proof.
  intros cmd file case. unfold case_option, required, given. split; [|split; [|split]].
  - destruct cmd as [[|c x]|], file as [y|]; cbn; split; intro H; try discriminate; auto; destruct H as [[H|H] H2]; discriminate.
  - intros x -> NE ->. destruct x; [contradiction|]. reflexivity.
  - intros y [-> | -> ] -> ->; reflexivity.
  - intros z ->. destruct cmd as [[|c x]|], file as [y|]; cbn; auto.
Qed.
Print Assumptions C111_options.

(** So the command line does not win over a case, an address in the file is not used
    if the account comes from the command line only, and without an address an
    account in the file leads to an exception. *)
Theorem C111_options_refuted : (exists cmd file case x y, cmd = Some x /\ x <> [] /\ case = Some y /\ x <> y /\ case_option cmd file case = Some y) /\
  (forall email, mail None None (Some email) = Some None) /\ (forall account, mail None (Some account) None = None).
Proof.
  split; [|split; reflexivity]. exists (Some ["a"]), None, (Some ["b"]), ["a"], ["b"]. repeat split; discriminate.
Qed.
Print Assumptions C111_options_refuted.

(** * C112: submitting jobs *)
Lemma str_eqb_eq : forall a b, str_eqb a b = true <-> a = b.
Proof.
  induction a as [|x a IH]; intros [|y b]; cbn [str_eqb]; try (split; [discriminate|discriminate]); [split; reflexivity|]. rewrite andb_true_iff, Ascii.eqb_eq, IH. split; [intros [-> -> ]; reflexivity|intro H; inversion H; auto].
Qed.
Fixpoint total (l : list nat) : nat := match l with [] => 0 | x :: r => x + total r end.

(** For names made of letters, digits and underscores the active jobs of the
    partition are counted, and all jobs if no partition is given. *)
Theorem C112_active : forall partition queue, (forall line, In line queue -> snd line <> [] /\ forall c, In c (snd line) -> word_char c = true) ->
  (partition <> [] -> active_jobs partition queue = total (map fst (filter (fun line => str_eqb (snd line) partition) queue))) /\
  (partition = [] -> active_jobs partition queue = total (map fst queue)).
Proof.
  intros partition queue W.
  assert (WD : forall s, (forall c, In c s -> word_char c = true) -> word s = s).
  { induction s as [|c s IH]; intro H; [reflexivity|]. cbn [word]. rewrite (H c) by (left; reflexivity). rewrite IH; [reflexivity|intros; apply H; right; assumption]. }
  unfold active_jobs.
  assert (G : forall q n, (forall line, In line q -> snd line <> [] /\ forall c, In c (snd line) -> word_char c = true) ->
    fold_left (fun n line => match word (snd line) with [] => n | w => if str_eqb w partition || str_eqb partition [] then n + fst line else n end) q n =
    n + total (map fst (filter (fun line => str_eqb (snd line) partition || str_eqb partition []) q))).
  { induction q as [|line q IH]; intros n H; cbn [fold_left filter]; [cbn; lia|]. destruct (H line (or_introl eq_refl)) as [NE WC]. destruct line as [u w]. cbn [fst snd] in *. rewrite WD by exact WC.
    rewrite IH by (intros; apply H; right; assumption). destruct w as [|c s]; [contradiction|]. destruct (str_eqb (c :: s) partition || str_eqb partition []); [cbn [map total fst]; lia|reflexivity]. }
  rewrite (G queue 0 W). cbn [Nat.add]. split.
  - intro NE. f_equal. f_equal. apply filter_ext. intro line. replace (str_eqb partition []) with false; [apply orb_false_r|]. symmetry. apply not_true_iff_false. intro H. apply str_eqb_eq in H. contradiction.
  - intros ->. f_equal. f_equal. cbn [str_eqb]. clear. induction queue as [|x q IH]; [reflexivity|]. cbn [filter]. rewrite orb_true_r, IH. reflexivity.
Qed.
Print Assumptions C112_active.

(** For a name with another character, such as a hyphen, no job is ever counted. *)
Theorem C112_hyphen_refuted : word_char "-" = false /\ forall partition queue, partition <> [] -> (exists c, In c partition /\ word_char c = false) -> active_jobs partition queue = 0.
Proof.
  split; [reflexivity|]. intros partition queue NE (c & IC & WC). unfold active_jobs.
  assert (N : forall s, str_eqb (word s) partition = false).
  { intro s. apply not_true_iff_false. intro H. apply str_eqb_eq in H. rewrite <- H in IC. clear - IC WC. induction s as [|x s IH]; [destruct IC|]. cbn [word] in IC. destruct (word_char x) eqn:E; [|destruct IC]. destruct IC as [<-|IC]; [congruence|apply IH, IC]. }
  assert (N2 : str_eqb partition [] = false) by (apply not_true_iff_false; intro H; apply str_eqb_eq in H; contradiction).
  induction queue as [|line q IH]; [reflexivity|]. cbn [fold_left]. rewrite N2. specialize (N (snd line)). destruct (word (snd line)) as [|x w]; [rewrite N2 in IH; exact IH|]. rewrite N. cbn [orb]. rewrite N2 in IH. exact IH.
Qed.
Print Assumptions C112_hyphen_refuted.

(** The jobs are submitted once each in their order; a pass submits no more than
    the limit leaves and everything it leaves. *)
Theorem C112_submit : forall limit active passes i jobs, let r := submit_loop limit active i passes jobs in
  concat (fst r) ++ snd r = jobs /\
  (forall p now, nth_error (fst r) p = Some now -> length now <= limit - active (i + p) /\ (S p < length (fst r) \/ snd r <> [] -> length now = limit - active (i + p))) /\
  (passes <> 0 -> (snd r = [] <-> length jobs <= total (map (fun p => limit - active p) (seq i passes)))) .
Proof.
  intros limit active. induction passes as [|p IH]; intros i jobs; cbn [submit_loop].
  - cbn [fst snd concat app]. split; [reflexivity|]. split; [intros [|q] now H; discriminate|]. intro H. contradiction.
  - set (n := limit - active i). cbn [seq map total]. fold n. destruct (skipn n jobs) as [|x rest] eqn:E.
    + assert (LE : length jobs <= n) by (rewrite <- (firstn_skipn n jobs), E, app_nil_r, firstn_length; lia). cbv zeta. cbn [fst snd concat length]. split; [rewrite !app_nil_r; apply firstn_all2, LE|]. split.
      * intros [|[|q]] now H; try discriminate. injection H as <-. rewrite Nat.add_0_r. fold n. split; [rewrite firstn_length; lia|]. intros [X|X]; [lia|contradiction].
      * intros _. split; [intros _; lia|reflexivity].
    + assert (LT : n < length jobs) by (destruct (lt_dec n (length jobs)) as [L|L]; [exact L|rewrite skipn_all2 in E by lia; discriminate]).
      assert (LR : length (x :: rest) = length jobs - n) by (rewrite <- E; apply skipn_length).
      destruct (IH (S i) (x :: rest)) as (A & B & C). cbv zeta in *. destruct (submit_loop limit active (S i) p (x :: rest)) as [l r] eqn:EL. cbn [fst snd] in *. split; [cbn [concat]; rewrite <- app_assoc, A, <- E; apply firstn_skipn|]. split.
      * intros [|q] now H; cbn [nth_error] in H.
        -- injection H as <-. rewrite Nat.add_0_r. fold n. rewrite firstn_length. split; [lia|intros _; lia].
        -- replace (i + S q) with (S i + q) by lia. destruct (B q now H) as [B1 B2]. split; [exact B1|]. intros [X|X]; apply B2; [left; cbn [length] in X; lia|right; exact X].
      * intros _. destruct p as [|p].
        -- cbn [submit_loop] in EL. injection EL as <- <-. cbn [seq map total]. split; [discriminate|lia].
        -- rewrite (C ltac:(discriminate)). lia.
Qed.
Print Assumptions C112_submit.

Example C112_case : submit_loop 3 (fun i => nth i [1; 3; 0] 0) 0 5 [11; 12; 13; 14; 15] = ([[11; 12]; []; [13; 14; 15]], []) /\
  submit_loop 3 (fun i => 3) 0 100 [11] = (repeat [] 100, [11]).
Proof. split; reflexivity. Qed.

(** If the queue stays full, or the limit is zero, the loop never ends. *)
Theorem C112_stuck : forall limit active passes i jobs, (forall p, limit <= active p) -> jobs <> [] -> snd (submit_loop limit active i passes jobs) = jobs.
Proof.
  intros limit active. induction passes as [|p IH]; intros i jobs H NE; cbn [submit_loop]; [reflexivity|]. replace (limit - active i) with 0 by (specialize (H i); lia). cbn [skipn firstn].
  destruct jobs as [|x r]; [contradiction|]. specialize (IH (S i) (x :: r) H NE). destruct (submit_loop limit active (S i) p (x :: r)). exact IH.
Qed.
Print Assumptions C112_stuck.
