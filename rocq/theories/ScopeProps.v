(** C98: timed sections.

    The names of nested sections never get mixed up whatever the functions do and however
    they end, the totals of the sections are the times spent inside them, and the
    collection prints every live timer once. *)
From Coq Require Import Arith Lia Bool.
From Coq Require Import Ascii String.
From Coq Require Import List.
From Verif Require Import ScopeModel.
Import ListNotations.
Local Open Scope list_scope.

(** * Independent descriptions *)

(** The pieces of work a program does, each with the names of the blocks it is done in, and
    whether the program ends by an exception. *)
Fixpoint trace (p : prog) (q : list string) : list (list string * nat) * bool :=
  match p with
  | Skip => ([], false)
  | Work d => ([(q, d)], false)
  | Throw => ([], true)
  | Seq a b =>
      let (l, t) := trace a q in
      if t then (l, true) else let (m, u) := trace b q in (l ++ m, u)
  | Try a b =>
      let (l, t) := trace a q in
      if t then let (m, u) := trace b q in (l ++ m, u) else (l, false)
  | Scoped n a => trace a (q ++ [n])
  | Named _ _ a => trace a q
  end.

(** Only names made from the chain of callers are used. *)
Fixpoint scoped_only (p : prog) : Prop :=
  match p with
  | Seq a b | Try a b => scoped_only a /\ scoped_only b
  | Scoped _ a => scoped_only a
  | Named t _ a => if (t : bool) then False else scoped_only a
  | _ => True
  end.

(** The chain q of blocks passes through a section called s, below the first k blocks. *)
Definition inside (k : nat) (q : list string) (s : string) : bool :=
  existsb (fun i => String.eqb (join (firstn i q)) s) (seq (S k) (length q - k)).

Definition time_in (k : nat) (l : list (list string * nat)) (s : string) : nat :=
  list_sum (map (fun w => if inside k (fst w) s then snd w else 0) l).

Definition start : state := {| path := []; active := []; clock := 0; laps := [] |}.

(** * Lengths of names *)

Lemma length_append : forall a b : string, String.length (a ++ b) = String.length a + String.length b.
Proof. induction a as [|c a IH]; intro b; [reflexivity|]. cbn. now rewrite IH. Qed.

Lemma join_cons : forall x y r, join (x :: y :: r) = (x ++ "::" ++ join (y :: r))%string.
Proof. reflexivity. Qed.

Lemma join_longer : forall l n, l <> [] -> String.length (join l) < String.length (join (l ++ [n])).
Proof.
  induction l as [|x l IH]; intros n H; [congruence|].
  destruct l as [|y l].
  - cbn [app]. rewrite join_cons, !length_append. cbn. lia.
  - cbn [app]. rewrite !join_cons, !length_append. cbn [String.length].
    assert (y :: l <> []) as N by discriminate. specialize (IH n N).
    cbn [app] in IH. lia.
Qed.

(** * The active sections *)

Lemma take_last : forall a n t, is_active a n = false -> take n (a ++ [(n, t)]) = Some (t, a).
Proof.
  induction a as [|[m u] a IH]; intros n t H; cbn.
  - now rewrite String.eqb_refl.
  - cbn in H. apply orb_false_iff in H. destruct H as [H1 H2]. rewrite H1.
    now rewrite (IH n t H2).
Qed.

Lemma pop_last : forall s n q, path s = q ++ [n] ->
  pop n s = Some {| path := q; active := active s; clock := clock s; laps := laps s |}.
Proof.
  intros s n q H. unfold pop. rewrite H, rev_app_distr. cbn. rewrite String.eqb_refl.
  now rewrite rev_involutive.
Qed.

(** Whatever a program does, if it does not stop at a section that is active already it gives
    back the names and the active sections it found. *)
Lemma run_balanced : forall p s b s', run p s = Ended b s' -> path s' = path s /\ active s' = active s.
Proof.
  induction p as [|d| |p1 IH1 p2 IH2|p1 IH1 p2 IH2|n p IH|t n p IH]; intros s b s' H; cbn [run] in H.
  - injection H as <- <-. auto.
  - injection H as <- <-. auto.
  - injection H as <- <-. auto.
  - destruct (run p1 s) as [[|] s1|] eqn:E; try discriminate.
    + injection H as <- <-. eapply IH1; eauto.
    + destruct (IH1 _ _ _ E) as [P A]. destruct (IH2 _ _ _ H) as [P' A'].
      split; congruence.
  - destruct (run p1 s) as [[|] s1|] eqn:E; try discriminate.
    + destruct (IH1 _ _ _ E) as [P A]. destruct (IH2 _ _ _ H) as [P' A'].
      split; congruence.
    + injection H as <- <-. eapply IH1; eauto.
  - unfold enter in H. cbn [push path active clock laps] in H.
    destruct (is_active (active s) (join (path s ++ [n]))) eqn:A0; [discriminate|].
    match type of H with context [run p ?x] => destruct (run p x) as [b2 s2|] eqn:E end; [|discriminate].
    destruct (IH _ _ _ E) as [P A]. cbn [path active] in P, A.
    unfold leave in H. rewrite A, (take_last _ _ _ A0) in H.
    rewrite (pop_last _ n (path s)) in H by (cbn [path]; exact P).
    injection H as <- <-. auto.
  - destruct t; [|now apply (IH _ _ _ H)].
    unfold enter in H.
    destruct (is_active (active s) n) eqn:A0; [discriminate|].
    match type of H with context [run p ?x] => destruct (run p x) as [b2 s2|] eqn:E end; [|discriminate].
    destruct (IH _ _ _ E) as [P A]. cbn [path active] in P, A.
    unfold leave in H. rewrite A, (take_last _ _ _ A0) in H.
    injection H as <- <-. auto.
Qed.

(** * No section is entered twice *)

Definition shorter (s : state) : Prop :=
  (path s = [] -> active s = []) /\
  forall e, In e (active s) -> String.length (fst e) <= String.length (join (path s)).

Lemma shorter_enter : forall s n, shorter s -> is_active (active s) (join (path s ++ [n])) = false.
Proof.
  intros s n [H0 H]. apply not_true_is_false. intro E. unfold is_active in E.
  apply existsb_exists in E. destruct E as (e & I & E). apply String.eqb_eq in E.
  destruct (path s) as [|x r] eqn:P.
  - rewrite (H0 eq_refl) in I. contradiction.
  - specialize (H e I). rewrite E in H.
    assert (x :: r <> []) as N by discriminate. pose proof (join_longer _ n N). lia.
Qed.

Lemma shorter_push : forall s n t c l, shorter s ->
  shorter {| path := path s ++ [n]; active := active s ++ [(join (path s ++ [n]), t)]; clock := c; laps := l |}.
Proof.
  intros s n t c l [H0 H]. split; cbn [path active].
  - intro E. destruct (path s); discriminate.
  - intros e I. apply in_app_iff in I. destruct I as [I|[<-|[]]]; [|cbn; lia].
    destruct (path s) as [|x r] eqn:P.
    + rewrite (H0 eq_refl) in I. contradiction.
    + specialize (H e I). assert (x :: r <> []) as N by discriminate.
      pose proof (join_longer _ n N). lia.
Qed.

Lemma shorter_same : forall s s', shorter s -> path s' = path s -> active s' = active s -> shorter s'.
Proof. intros s s' [H0 H] P A. split; rewrite P, A; auto. Qed.

(** * Times *)

Lemma total_app : forall a b n, total (a ++ b) n = total a n + total b n.
Proof. induction a as [|e a IH]; intros b n; [reflexivity|].
  change (total ((e :: a) ++ b) n) with ((if String.eqb (fst e) n then snd e else 0) + total (a ++ b) n).
  change (total (e :: a) n) with ((if String.eqb (fst e) n then snd e else 0) + total a n).
  rewrite IH. lia.
Qed.

Lemma time_in_app : forall k a b s, time_in k (a ++ b) s = time_in k a s + time_in k b s.
Proof. intros. unfold time_in. now rewrite map_app, list_sum_app. Qed.

Lemma trace_below : forall p q w, In w (fst (trace p q)) -> exists r, fst w = q ++ r.
Proof.
  induction p as [|d| |p1 IH1 p2 IH2|p1 IH1 p2 IH2|n p IH|t n p IH]; intros q w H; cbn [trace] in H.
  - destruct H.
  - destruct H as [<-|[]]. exists []. cbn. now rewrite app_nil_r.
  - destruct H.
  - specialize (IH1 q w). specialize (IH2 q w).
    destruct (trace p1 q) as [l t]. destruct (trace p2 q) as [m u]. cbn [fst] in *.
    destruct t; cbn [fst] in H; [now apply IH1|].
    apply in_app_iff in H. destruct H; [now apply IH1|now apply IH2].
  - specialize (IH1 q w). specialize (IH2 q w).
    destruct (trace p1 q) as [l t]. destruct (trace p2 q) as [m u]. cbn [fst] in *.
    destruct t; cbn [fst] in H; [|now apply IH1].
    apply in_app_iff in H. destruct H; [now apply IH1|now apply IH2].
  - destruct (IH _ _ H) as [r E]. exists (n :: r). rewrite E, <- app_assoc. reflexivity.
  - now apply IH.
Qed.

Lemma join_firstn_longer : forall q i j, 0 < i -> i < j -> j <= length q ->
  String.length (join (firstn i q)) < String.length (join (firstn j q)).
Proof.
  intros q i j H0 H1 H2. induction j as [|j IH]; [lia|].
  assert (firstn (S j) q = firstn j q ++ [nth j q ""%string]) as E.
  { clear - H2. revert j H2. induction q as [|x q IH]; intros j H; [cbn in H; lia|].
    destruct j as [|j]; [destruct q; reflexivity|].
    change (x :: firstn (S j) q = x :: (firstn j q ++ [nth j q ""%string])). f_equal. apply IH. cbn in H. lia. }
  assert (firstn j q <> []) as N.
  { intro F. assert (length (firstn j q) = 0) as L by (rewrite F; reflexivity). rewrite firstn_length in L. lia. }
  rewrite E. pose proof (join_longer _ (nth j q ""%string) N).
  destruct (Nat.eq_dec i j) as [->|D]; [assumption|]. assert (i < j) by lia. specialize (IH ltac:(lia) ltac:(lia)). lia.
Qed.

(** Entering one more block changes the count of exactly the section it opens. *)
Lemma inside_step : forall k q s, k < length q ->
  (if inside k q s then 1 else 0)
  = (if inside (S k) q s then 1 else 0) + (if String.eqb (join (firstn (S k) q)) s then 1 else 0).
Proof.
  intros k q s H. unfold inside.
  assert (length q - k = S (length q - S k)) as -> by lia. cbn [seq existsb].
  destruct (String.eqb (join (firstn (S k) q)) s) eqn:E; cbn [orb]; [|lia].
  destruct (existsb _ (seq (S (S k)) (length q - S k))) eqn:F; [|lia].
  apply existsb_exists in F. destruct F as (i & I & F). apply in_seq in I.
  apply String.eqb_eq in E. apply String.eqb_eq in F.
  assert (String.length (join (firstn (S k) q)) < String.length (join (firstn i q)))
    by (apply join_firstn_longer; lia).
  rewrite E, F in H0. lia.
Qed.

Lemma time_in_step : forall l q n s,
  (forall w, In w l -> exists r, fst w = (q ++ [n]) ++ r) ->
  time_in (length q) l s
  = time_in (S (length q)) l s + (if String.eqb (join (q ++ [n])) s then list_sum (map snd l) else 0).
Proof.
  induction l as [|w l IH]; intros q n s H.
  - unfold time_in. cbn. destruct (String.eqb _ _); reflexivity.
  - unfold time_in in *. cbn [map].
    assert (forall m l', list_sum (m :: l') = m + list_sum l') as L by reflexivity.
    rewrite !L, (IH q n s) by (intros; apply H; right; assumption).
    destruct (H w (or_introl eq_refl)) as [r E].
    assert (length q < length (fst w)) as B by (rewrite E, !app_length; cbn; lia).
    pose proof (inside_step (length q) (fst w) s B) as I.
    assert (firstn (S (length q)) (fst w) = q ++ [n]) as F.
    { rewrite E. replace (S (length q)) with (length (q ++ [n]) + 0) by (rewrite app_length; cbn; lia).
      rewrite firstn_app_2. cbn. now rewrite app_nil_r. }
    rewrite F in I.
    destruct (String.eqb (join (q ++ [n])) s), (inside (length q) (fst w) s), (inside (S (length q)) (fst w) s); try lia.
Qed.

(** A run of a program with scoped names only. *)
Lemma run_scoped : forall p s, scoped_only p -> shorter s ->
  exists s', run p s = Ended (snd (trace p (path s))) s'
    /\ path s' = path s /\ active s' = active s
    /\ clock s' = clock s + list_sum (map snd (fst (trace p (path s))))
    /\ forall n, total (laps s') n = total (laps s) n + time_in (length (path s)) (fst (trace p (path s))) n.
Proof.
  induction p as [|d| |p1 IH1 p2 IH2|p1 IH1 p2 IH2|n p IH|t n p IH]; intros s O I; cbn [run trace].
  - exists s. cbn. unfold time_in. cbn. repeat (split; [auto|]). intro; lia.
  - eexists. split; [reflexivity|]. cbn [path active clock laps fst snd map]. unfold time_in, inside.
    cbn [map fst]. rewrite Nat.sub_diag. cbn. repeat (split; [auto; try lia|]). intro; lia.
  - exists s. cbn. unfold time_in. cbn. repeat (split; [auto|]). intro; lia.
  - destruct O as [O1 O2]. destruct (IH1 s O1 I) as (s1 & R & P & A & C & T). rewrite R.
    destruct (trace p1 (path s)) as [l t]. cbn [fst snd] in *. destruct t.
    + exists s1. cbn [fst snd]. auto.
    + destruct (IH2 s1 O2 (shorter_same _ _ I P A)) as (s2 & R2 & P2 & A2 & C2 & T2).
      rewrite P in R2, P2, C2, T2. rewrite A in A2.
      destruct (trace p2 (path s)) as [m u]. cbn [fst snd] in *.
      exists s2. rewrite map_app, list_sum_app. repeat (split; [auto; try lia|]).
      intro x. rewrite T2, T, time_in_app. lia.
  - destruct O as [O1 O2]. destruct (IH1 s O1 I) as (s1 & R & P & A & C & T). rewrite R.
    destruct (trace p1 (path s)) as [l t]. cbn [fst snd] in *. destruct t.
    + destruct (IH2 s1 O2 (shorter_same _ _ I P A)) as (s2 & R2 & P2 & A2 & C2 & T2).
      rewrite P in R2, P2, C2, T2. rewrite A in A2.
      destruct (trace p2 (path s)) as [m u]. cbn [fst snd] in *.
      exists s2. rewrite map_app, list_sum_app. repeat (split; [auto; try lia|]).
      intro x. rewrite T2, T, time_in_app. lia.
    + exists s1. cbn [fst snd]. auto.
  - cbn [scoped_only] in O. unfold enter. cbn [push path active clock laps].
    pose proof (shorter_enter s n I) as E. rewrite E.
    pose proof (shorter_push s n (clock s) (clock s) (laps s) I) as I'.
    destruct (IH _ O I') as (s2 & R & P & A & C & T). cbn [path active clock laps] in R, P, A, C, T.
    rewrite R. unfold leave. rewrite A, (take_last _ _ _ E).
    rewrite (pop_last _ n (path s)) by (cbn [path]; exact P).
    eexists. split; [reflexivity|]. cbn [path active clock laps].
    repeat (split; [auto|]). intro x. rewrite total_app, T.
    rewrite (time_in_step _ (path s) n x) by (intros w W; eapply trace_below; exact W).
    rewrite app_length, Nat.add_1_r. cbn [total fold_right fst snd].
    replace (clock s2 - clock s) with (list_sum (map snd (fst (trace p (path s ++ [n]))))) by lia. lia.
  - destruct t; [destruct O|]. now apply IH.
Qed.

(** C98: whatever the functions do, through whatever exceptions they are left and wherever
    these are caught, a run that uses only names made from the chain of callers never fails an
    assertion of the sections, leaves no name behind, and the clock has advanced by the work
    done. *)
Theorem C98_names : forall p, scoped_only p ->
  exists s, run p start = Ended (snd (trace p [])) s /\ path s = [] /\ active s = []
    /\ clock s = list_sum (map snd (fst (trace p []))).
Proof.
  intros p O. assert (shorter start) as I by (split; [reflexivity|intros e []]).
  destruct (run_scoped p start O I) as (s & R & P & A & C & _). exists s. auto.
Qed.

(** C98: blocks of any kind, timed under a name of their own or under a fixed text, give back
    the names and the active sections they found unless a section is entered twice. *)
Theorem C98_restored : forall p s b s', run p s = Ended b s' -> path s' = path s /\ active s' = active s.
Proof. exact run_balanced. Qed.

(** C98: the total of a section is the time of the work done inside it, each piece of work
    counted once, also when blocks are left by exceptions. *)
Theorem C98_totals : forall p, scoped_only p ->
  exists s, run p start = Ended (snd (trace p [])) s /\
  forall n, total (laps s) n
    = list_sum (map (fun w => if existsb (fun i => String.eqb (join (firstn (S i) (fst w))) n) (seq 0 (length (fst w)))
                              then snd w else 0) (fst (trace p []))).
Proof.
  intros p O. assert (shorter start) as I by (split; [reflexivity|intros e []]).
  destruct (run_scoped p start O I) as (s & R & _ & _ & _ & T). exists s. split; [exact R|].
  intro n. rewrite T. cbn [start laps total fold_right path length]. unfold time_in.
  cbn [Nat.add]. f_equal. apply map_ext. intro w. unfold inside. rewrite Nat.sub_0_r.
  rewrite <- seq_shift. 
  assert (forall l, existsb (fun i => String.eqb (join (firstn i (fst w))) n) (map S l)
          = existsb (fun i => String.eqb (join (firstn (S i) (fst w))) n) l) as M.
  { induction l as [|i l IH]; [reflexivity|]. cbn [map existsb]. now rewrite IH. }
  now rewrite M.
Qed.

(** C98: the same function called again from within itself is timed under a different name at
    every depth; a fixed text would fail. *)
Fixpoint recursion (d : nat) (n : string) : prog :=
  match d with O => Work 1 | S d => Scoped n (recursion d n) end.

Theorem C98_recursion : forall d n, exists s, run (recursion d n) start = Ended false s /\ clock s = 1.
Proof.
  intros d n. assert (forall d, scoped_only (recursion d n)) as O by (induction d0; cbn; auto).
  assert (forall d q, exists q', trace (recursion d n) q = ([(q', 1)], false)) as T.
  { induction d0 as [|e IH]; intro q; [now exists q|]. cbn [recursion trace]. apply IH. }
  destruct (C98_names _ (O d)) as (s & R & _ & _ & C). destruct (T d []) as [q' E].
  rewrite E in R, C. exists s. auto.
Qed.

Theorem C98_fixed_refuted : forall n p, run (Named true n (Named true n p)) start = Aborted.
Proof.
  intros n p. cbn [run]. unfold enter, is_active. cbn [start active existsb app fst path clock laps].
  rewrite String.eqb_refl. reflexivity.
Qed.

(** * Names without colons *)

Fixpoint colonless (s : string) : Prop :=
  match s with
  | EmptyString => True
  | String c r => c <> ":"%char /\ colonless r
  end.

Lemma append_colon : forall a b x y, colonless a -> colonless b ->
  (a ++ String ":" x)%string = (b ++ String ":" y)%string -> a = b /\ x = y.
Proof.
  induction a as [|c a IH]; intros b x y Ha Hb E.
  - destruct b as [|d b]; cbn in E.
    + injection E as ->. auto.
    + injection E as E1 E2. cbn in Hb. exfalso. apply (proj1 Hb). now symmetry.
  - destruct b as [|d b]; cbn in E.
    + injection E as E1 E2. cbn in Ha. exfalso. now apply (proj1 Ha).
    + injection E as -> E. cbn in Ha, Hb. destruct (IH b x y (proj2 Ha) (proj2 Hb) E) as [-> ->]. auto.
Qed.

Lemma colon_in : forall a x, colonless (a ++ String ":" x)%string -> False.
Proof. induction a as [|c a IH]; intros x H; cbn in H; [now apply (proj1 H)|]. eapply IH. exact (proj2 H). Qed.

Lemma join_inj : forall l m, Forall colonless l -> Forall colonless m -> l <> [] -> m <> [] ->
  join l = join m -> l = m.
Proof.
  induction l as [|x l IH]; intros m Hl Hm Nl Nm E; [congruence|].
  destruct m as [|y m]; [congruence|].
  inversion Hl as [|? ? Hx Hl']; subst. inversion Hm as [|? ? Hy Hm']; subst.
  destruct l as [|x' l], m as [|y' m].
  - cbn in E. now subst.
  - rewrite join_cons in E. change (join [x]) with x in E. subst x. exfalso. eapply colon_in. exact Hx.
  - rewrite join_cons in E. change (join [y]) with y in E. subst y. exfalso. eapply colon_in. exact Hy.
  - rewrite !join_cons in E. cbn [String.append] in E.
    destruct (append_colon x y _ _ Hx Hy E) as [-> F]. injection F as F. f_equal.
    apply IH; try assumption; discriminate.
Qed.

(** C98: when no name contains a colon, different chains of callers have different sections. *)
Theorem C98_distinct : forall l m, Forall colonless l -> Forall colonless m -> l <> [] -> m <> [] ->
  (join l = join m <-> l = m).
Proof. intros. split; [now apply join_inj|congruence]. Qed.

(** C98: names with colons, like "tracker::track" (tracker.h 153), can make two chains share a
    section; its total then exceeds the one of the section that seems to contain it. *)
Theorem C98_distinct_refuted : forall d e,
  exists p s, scoped_only p /\ run p start = Ended false s
    /\ total (laps s) "tracker"%string = d
    /\ total (laps s) "tracker::track"%string = d + e.
Proof.
  intros d e.
  set (p := Seq (Scoped "tracker" (Scoped "track" (Work d))) (Scoped "tracker::track" (Work e))).
  assert (scoped_only p) as O by (cbn; auto).
  destruct (C98_totals p O) as (s & R & T).
  exists p, s. split; [exact O|]. split; [exact R|]. rewrite !T. cbn. split; lia.
Qed.

(** C98 fails for the stages of building a problem: MyScope without a variable
    (driver.h 179, 304, 505, 615, 622, 651, 679) is gone at the end of its statement, so that
    the work behind it is in no section; even with a timer its section would last no time. *)
Theorem C98_stages_refuted : forall timed n d, exists s,
  run (Seq (temporary timed n) (Work d)) start = Ended false s
  /\ clock s = d /\ forall m, total (laps s) m = 0.
Proof.
  intros timed n d. unfold temporary. destruct timed; cbn [run]; unfold enter, is_active, leave;
    cbn [start active existsb app fst snd path clock laps take Nat.sub].
  - rewrite String.eqb_refl. eexists. split; [reflexivity|]. cbn [clock laps total app fold_right fst snd]. split; [reflexivity|].
    intro m. destruct (String.eqb n m); reflexivity.
  - eexists. split; [reflexivity|]. cbn. auto.
Qed.

(** With a variable the same stage is timed. *)
Theorem C98_stage_variable : forall n d, exists s,
  run (Named true n (Work d)) start = Ended false s /\ total (laps s) n = d.
Proof.
  intros n d. cbn [run]. unfold enter, is_active, leave.
  cbn [start active existsb app fst snd path clock laps take].
  rewrite String.eqb_refl. eexists. split; [reflexivity|].
  cbn [clock laps total app fold_right fst snd]. rewrite String.eqb_refl. lia.
Qed.

(** * The collection of the timers *)

(** The enabled timers that live after some events, in the order of their construction. A
    timer is constructed at an address where none lives and destructed only when it lives. *)
Inductive living : list event -> list nat -> Prop :=
| LivingStart : living [] []
| LivingNew : forall l a x, living l a -> ~ In x a -> living (l ++ [Construct x true]) (a ++ [x])
| LivingGone : forall l a x b, living l (a ++ x :: b) -> living (l ++ [Destruct x true]) (a ++ b)
| LivingQuietNew : forall l a x, living l a -> living (l ++ [Construct x false]) a
| LivingQuietGone : forall l a x, living l a -> living (l ++ [Destruct x false]) a.

Lemma steps_app : forall l c e, steps c (l ++ [e]) = match steps c l with None => None | Some c' => step c' e end.
Proof.
  induction l as [|f l IH]; intros c e; cbn.
  - destruct (step c e); reflexivity.
  - destruct (step c f); [apply IH|reflexivity].
Qed.

Lemma insert_last : forall l n x, (forall f, In f l -> fst f < n) -> insert (n, x) l = l ++ [(n, x)].
Proof.
  induction l as [|f l IH]; intros n x H; [reflexivity|]. cbn [insert fst snd app].
  assert (fst f < n) as B by (apply H; now left).
  assert (Nat.ltb n (fst f) = false) as -> by (apply Nat.ltb_ge; lia).
  assert (Nat.eqb n (fst f) = false) as -> by (apply Nat.eqb_neq; lia). cbn [andb orb].
  rewrite IH; [reflexivity|]. intros; apply H; now right.
Qed.

Lemma erase_at : forall l x a b, map snd l = a ++ x :: b -> ~ In x a ->
  exists l', erase x l = Some l' /\ map snd l' = a ++ b /\ incl l' l.
Proof.
  induction l as [|f l IH]; intros x a b E N; [destruct a; discriminate|].
  destruct a as [|y a]; cbn in E; injection E as E1 E2; cbn [erase].
  - rewrite E1, Nat.eqb_refl. exists l. split; [reflexivity|]. split; [exact E2|]. intros z; now right.
  - assert (Nat.eqb (snd f) x = false) as ->. { apply Nat.eqb_neq. intro F. apply N. left. congruence. }
    destruct (IH x a b E2) as (l' & R & M & I). { intro F. apply N. now right. }
    rewrite R. exists (f :: l'). split; [reflexivity|]. split; [cbn; congruence|].
    intros z [<-|Z]; [now left|right; now apply I].
Qed.

(** C98: at any time the collection holds exactly the enabled timers that live, each once and
    in the order of their construction, also when addresses are used again; no destructor
    misses its timer. *)
Theorem C98_collection : forall l a, living l a ->
  exists c, steps {| timers := []; counter := 0 |} l = Some c /\ printed c = a /\ NoDup a.
Proof.
  intros l a H.
  enough (exists c, steps {| timers := []; counter := 0 |} l = Some c /\ printed c = a /\ NoDup a
    /\ forall f, In f (timers c) -> fst f < counter c) as (c & R & P & N & _) by eauto.
  induction H as [|l a x H (c & R & P & N & B) X|l a x b H (c & R & P & N & B)|l a x H (c & R & P & N & B)|l a x H (c & R & P & N & B)].
  - eexists. split; [reflexivity|]. split; [reflexivity|]. split; [constructor|intros f []].
  - rewrite steps_app, R. cbn [step]. eexists. split; [reflexivity|]. unfold printed, attach in *. cbn [timers counter].
    rewrite (insert_last _ _ _ B), map_app, P. split; [reflexivity|]. split.
    + clear - N X. induction N as [|y a Y N IH]; cbn; [repeat constructor; auto|].
      constructor.
      * intro F. apply in_app_iff in F. destruct F as [F|[F|[]]]; [now apply Y|]. apply X. now left.
      * apply IH. intro F. apply X. now right.
    + intros f F. apply in_app_iff in F. destruct F as [F|[<-|[]]]; [specialize (B f F); lia|cbn; lia].
  - rewrite steps_app, R. cbn [step]. unfold printed, detach in *.
    pose proof (NoDup_remove_1 _ _ _ N) as N1. pose proof (NoDup_remove_2 _ _ _ N) as N2.
    destruct (erase_at (timers c) x a b P) as (l' & E & M & I).
    { intro F. apply N2. apply in_app_iff. now left. }
    rewrite E. eexists. split; [reflexivity|]. cbn [timers counter]. split; [exact M|]. split; [exact N1|].
    intros f F. apply B. now apply I.
  - rewrite steps_app, R. exists c. cbn [step]. auto.
  - rewrite steps_app, R. exists c. cbn [step]. auto.
Qed.

(** * Concrete cases *)

(** A step of the time loop whose solver fails inside two sections, the handler of the failure
    and a repetition. *)
Definition attempt : prog :=
  Scoped "time_loop" (Seq (Try (Scoped "newton" (Seq (Work 3) (Scoped "linear" (Seq (Work 2) Throw)))) (Work 1))
    (Scoped "newton" (Scoped "linear" (Work 5)))).

Example C98_applies :
  scoped_only attempt
  /\ (exists s, run attempt start = Ended false s
        /\ total (laps s) "time_loop" = 11 /\ total (laps s) "time_loop::newton" = 10
        /\ total (laps s) "time_loop::newton::linear" = 7 /\ path s = [])
  /\ living [Construct 7 true; Construct 8 false; Construct 9 true; Destruct 7 true; Construct 7 true] [9; 7].
Proof.
  split; [cbn; auto|]. split.
  - destruct (run attempt start) as [b s|] eqn:E; vm_compute in E; [|discriminate].
    injection E as <- <-. eexists. split; [reflexivity|]. vm_compute. auto.
  - apply (LivingNew [Construct 7 true; Construct 8 false; Construct 9 true; Destruct 7 true] [9]).
    2: { intros [F|[]]; lia. }
    apply (LivingGone [Construct 7 true; Construct 8 false; Construct 9 true] [] 7 [9]).
    apply (LivingNew [Construct 7 true; Construct 8 false] [7]).
    2: { intros [F|[]]; lia. }
    apply (LivingQuietNew [Construct 7 true]).
    apply (LivingNew [] []); [constructor|intros []].
Qed.

Print Assumptions C98_names.
Print Assumptions C98_restored.
Print Assumptions C98_totals.
Print Assumptions C98_recursion.
Print Assumptions C98_fixed_refuted.
Print Assumptions C98_distinct.
Print Assumptions C98_distinct_refuted.
Print Assumptions C98_stages_refuted.
Print Assumptions C98_stage_variable.
Print Assumptions C98_collection.
