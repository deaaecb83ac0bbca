(** C121: history and histograms of a quantity of grains. *)
From Coq Require Import QArith Qround ZArith.
From Coq Require Import List Arith Bool Lia Lqa.
From Verif Require Import Util DistributionModel.
Import ListNotations.
Local Open Scope nat_scope.

(** One table: its time, the values in it and the values used *)
Notation entry := (Q * list Q * list Q)%type.
Definition e_time (e : entry) : Q := fst (fst e).
Definition e_all (e : entry) : list Q := snd (fst e).
Definition e_used (e : entry) : list Q := snd e.

(** What the tables hold, from the start on: [None] for a table without values *)
Definition used (o : options) (q : list Q) : option (list Q) := if o_delete o then delete_largest q else Some q.
Definition stream (o : options) (l : list (list Q * Q)) : list (option entry) :=
  flat_map (fun qt => if qltb (snd qt) (o_start o) then [] else
                      match used o (fst qt) with
                      | Some [] => [None]
                      | Some d => [Some (snd qt, fst qt, d)]
                      | None => []
                      end) l.
Definition somes (l : list (option entry)) : list entry := flat_map (fun x => match x with Some e => [e] | None => [] end) l.
Lemma somes_app : forall a b, somes (a ++ b) = somes a ++ somes b.
Proof. intros; unfold somes; now rewrite flat_map_app. Qed.

(** Runs of tables with values, each followed by one table without or more, and the last run *)
Fixpoint runs (segs : list (list entry)) (gaps : list nat) : list (option entry) :=
  match segs, gaps with
  | s :: segs, g :: gaps => map Some s ++ repeat None (S g) ++ runs segs gaps
  | _, _ => []
  end.
Definition split_at_gaps (l : list (option entry)) (segs : list (list entry)) (lst : list entry) : Prop :=
  exists lead gaps, length gaps = length segs /\ Forall (fun s => s <> []) segs /\
    l = repeat None lead ++ runs segs gaps ++ map Some lst.

(** The curve of a run; a closed one has its last point twice *)
Definition opened (o : options) (s : list entry) : curve :=
  mkCurve (map (fun e => mean (e_used e)) s) (map (fun e => variance (e_used e)) s) (map (fun e => length (e_all e)) s)
          (map e_time s) (if o_save o then map e_used s else []).
Definition twice {A} (d : A) (l : list A) : list A := l ++ [last l d].
Definition closed (o : options) (s : list entry) : curve :=
  mkCurve (twice 0%Q (map (fun e => mean (e_used e)) s)) (twice 0%Q (map (fun e => variance (e_used e)) s))
          (twice 0 (map (fun e => length (e_all e)) s)) (twice 0%Q (map e_time s)) (if o_save o then map e_used s else []).

Lemma runs_app : forall segs gaps segs' gaps', length gaps = length segs ->
  runs (segs ++ segs') (gaps ++ gaps') = runs segs gaps ++ runs segs' gaps'.
Proof.
  induction segs as [|s segs IH]; intros [|g gaps] segs' gaps' H; cbn in H; try discriminate; [reflexivity|].
  cbn [app runs]. rewrite IH by lia. now rewrite !app_assoc.
Qed.
Lemma repeat_snoc : forall A (x : A) n, repeat x n ++ [x] = repeat x (S n).
Proof. induction n; cbn; [reflexivity|]. now rewrite IHn. Qed.

Lemma split_some : forall l segs lst e, split_at_gaps l segs lst -> split_at_gaps (l ++ [Some e]) segs (lst ++ [e]).
Proof.
  intros l segs lst e (lead & gaps & L & F & ->). exists lead, gaps. split; [exact L|]. split; [exact F|].
  rewrite map_app. cbn [map]. now rewrite !app_assoc.
Qed.
Lemma split_none_empty : forall l segs, split_at_gaps l segs [] -> split_at_gaps (l ++ [None]) segs [].
Proof.
  intros l segs (lead & gaps & L & F & ->). cbn [map]. rewrite app_nil_r.
  destruct segs as [|s0 segs0] eqn:E.
  - destruct gaps; [|discriminate L]. exists (S lead), []. split; [reflexivity|]. split; [constructor|].
    cbn [runs map]. rewrite !app_nil_r. apply repeat_snoc.
  - destruct (exists_last (l := s0 :: segs0)) as (sa & sb & Es); [discriminate|].
    destruct (exists_last (l := gaps)) as (ga & gb & Eg); [intros ->; discriminate L|].
    subst gaps. rewrite Es in *. rewrite !app_length in L. cbn in L.
    exists lead, (ga ++ [S gb]). split; [rewrite !app_length; cbn; lia|]. split; [exact F|].
    rewrite !runs_app by lia. cbn [runs map]. rewrite !app_nil_r. rewrite <- !app_assoc. do 3 f_equal.
    apply (repeat_snoc _ None (S gb)).
Qed.
Lemma split_none_full : forall l segs lst, lst <> [] -> split_at_gaps l segs lst -> split_at_gaps (l ++ [None]) (segs ++ [lst]) [].
Proof.
  intros l segs lst N (lead & gaps & L & F & ->). exists lead, (gaps ++ [0]).
  split; [rewrite !app_length; cbn; lia|]. split; [apply Forall_app; split; [exact F|repeat constructor; exact N]|].
  rewrite runs_app by lia. cbn [runs map repeat]. rewrite !app_nil_r. now rewrite <- !app_assoc.
Qed.

Definition past (o : options) (e : entry) : Prop := ~ (o_end o == 0)%Q /\ (o_end o <= e_time e)%Q.

Definition shape (o : options) (l : list (option entry)) (s : state) : Prop :=
  (exists segs lst, split_at_gaps l segs lst /\ s_done s = map (closed o) segs /\ s_last s = opened o lst) /\
  s_init s = match somes l with [] => None | e :: _ => Some (e_used e, e_time e) end.

Lemma shape_gap : forall o l s, shape o l s -> shape o (l ++ [None]) (gap s).
Proof.
  intros o l s ((segs & lst & Sp & D & La) & I). split.
  - unfold gap. rewrite La. destruct lst as [|e lst].
    + cbn [opened c_means map]. exists segs, []. split; [now apply split_none_empty|]. now split.
    + cbn [opened c_means map]. exists (segs ++ [e :: lst]), []. split; [apply split_none_full; [discriminate|exact Sp]|].
      cbn [s_done s_last]. split.
      * rewrite map_app, D. reflexivity.
      * unfold opened, new_curve. cbn [map]. now destruct (o_save o).
  - rewrite somes_app. cbn [somes flat_map]. rewrite app_nil_r. rewrite <- I. unfold gap. now destruct (c_means (s_last s)).
Qed.
Lemma shape_point : forall o l s t q d b, shape o l s -> shape o (l ++ [Some (t, q, d)]) (point o s t q d b).
Proof.
  intros o l s t q d b ((segs & lst & Sp & D & La) & I). unfold shape, point. rewrite somes_app. cbn [somes flat_map app].
  change (flat_map _ l) with (somes l).
  assert (G : forall ini fin, (exists segs lst, split_at_gaps (l ++ [Some (t, q, d)]) segs lst /\
      s_done (mkState (s_done s) (mkCurve (c_means (s_last s) ++ [mean d]) (c_stds (s_last s) ++ [variance d]) (c_total (s_last s) ++ [length q])
        (c_time (s_last s) ++ [t]) (if o_save o then c_data (s_last s) ++ [d] else c_data (s_last s))) ini fin) = map (closed o) segs /\
      s_last (mkState (s_done s) (mkCurve (c_means (s_last s) ++ [mean d]) (c_stds (s_last s) ++ [variance d]) (c_total (s_last s) ++ [length q])
        (c_time (s_last s) ++ [t]) (if o_save o then c_data (s_last s) ++ [d] else c_data (s_last s))) ini fin) = opened o lst)).
  { intros ini fin. exists segs, (lst ++ [(t, q, d)]). split; [now apply split_some|]. cbn [s_done s_last]. split; [exact D|].
    rewrite La. unfold opened. cbn [c_means c_stds c_total c_time c_data]. rewrite !map_app. now destruct (o_save o). }
  destruct (somes l) as [|e0 l0] eqn:El.
  - rewrite I. split; [apply G|]. reflexivity.
  - rewrite I. destruct ((_ && _) || _); [destruct (s_final s)|]; (split; [apply G|]; cbn [s_init]; reflexivity).
Qed.

Lemma past_true : forall o t q d, past o (t, q, d) -> negb (Qeq_bool (o_end o) 0) && Qle_bool (o_end o) t = true.
Proof.
  intros o t q d [A B]. apply andb_true_intro. split; [|now apply Qle_bool_iff].
  apply negb_true_iff. destruct (Qeq_bool (o_end o) 0) eqn:E; [|reflexivity]. apply Qeq_bool_iff in E. now elim A.
Qed.
Lemma past_of : forall o t q d, negb (Qeq_bool (o_end o) 0) && Qle_bool (o_end o) t = true -> past o (t, q, d).
Proof.
  intros o t q d H. apply andb_prop in H as [A B]. split; [|now apply Qle_bool_iff].
  intros K. apply Qeq_bool_iff in K. now rewrite K in A.
Qed.

Lemma loop_spec : forall o files times s s' pre, s_final s = None -> shape o pre s -> loop o files times s = Some s' ->
  exists n, n <= length files /\ n <= length times /\
    let st := stream o (firstn n (combine files times)) in
    shape o (pre ++ st) s' /\
    (s_final s' = None -> n = length files) /\
    (forall d t, s_final s' = Some (d, t) -> exists q st0, st = st0 ++ [Some (t, q, d)] /\ somes (pre ++ st0) <> [] /\
       (past o (t, q, d) \/ n = length files)) /\
    (forall st0 e rest, st = st0 ++ Some e :: rest -> somes (pre ++ st0) <> [] -> past o e ->
       rest = [] /\ s_final s' = Some (e_used e, e_time e)).
Proof.
  intros o. induction files as [|q files IH]; intros times s s' pre F Sh H.
  - cbn in H. injection H as <-. exists 0. split; [lia|]. split; [lia|]. cbn. rewrite app_nil_r. split; [exact Sh|]. split; [reflexivity|].
    split; [intros d t K; congruence|]. intros st0 e rest K. now destruct st0.
  - cbn [loop] in H. destruct times as [|t times]; [discriminate|].
    destruct (qltb t (o_start o)) eqn:Et.
    { destruct (IH _ _ _ _ F Sh H) as (n & A & B & C). exists (S n). split; [cbn; lia|]. split; [cbn; lia|].
      cbn [combine firstn stream flat_map fst snd]. rewrite Et. cbn [app]. destruct C as (C1 & C2 & C3 & C4).
      split; [exact C1|]. split; [intros K; cbn; now rewrite C2|]. split; [|exact C4].
      intros d t' K. destruct (C3 _ _ K) as (q' & st0 & U & V & W). exists q', st0. split; [exact U|]. split; [exact V|].
      destruct W; [now left|right; cbn; lia]. }
    change (if o_delete o then delete_largest q else Some q) with (used o q) in H.
    destruct (used o q) as [data|] eqn:Eu; cbn [obind] in H; [|discriminate].
    destruct data as [|x data].
    { assert (F' : s_final (gap s) = None) by (unfold gap; now destruct (c_means (s_last s))).
      destruct (IH _ _ _ _ F' (shape_gap _ _ _ Sh) H) as (n & A & B & C). exists (S n). split; [cbn; lia|]. split; [cbn; lia|].
      cbn [combine firstn stream flat_map fst snd]. rewrite Et, Eu. cbn [app].
      change (flat_map _ (firstn n (combine files times))) with (stream o (firstn n (combine files times))).
      destruct C as (C1 & C2 & C3 & C4). rewrite <- app_assoc in C1. cbn [app] in C1.
      split; [exact C1|]. split; [intros K; cbn; now rewrite C2|]. split.
      - intros d t' K. destruct (C3 _ _ K) as (q' & st0 & U & V & W). exists q', (None :: st0). rewrite U. split; [reflexivity|].
        rewrite <- app_assoc in V. split; [exact V|]. destruct W; [now left|right; cbn; lia].
      - intros [|y st0] e rest K V W; [discriminate|]. injection K as <- K. apply (C4 st0 e rest K); [|exact W].
        rewrite <- app_assoc. exact V. }
    set (b := match files with [] => true | _ => false end) in H.
    pose proof (shape_point o pre s t q (x :: data) b Sh) as Sh'.
    destruct Sh as (Sh0 & I).
    assert (Fi : s_final (point o s t q (x :: data) b) =
      match somes pre with [] => None | _ => if (negb (Qeq_bool (o_end o) 0) && Qle_bool (o_end o) t) || b then Some (x :: data, t) else None end).
    { unfold point. rewrite I, F. destruct (somes pre); [reflexivity|]. now destruct (_ || b). }
    destruct (s_final (point o s t q (x :: data) b)) as [[d0 t0]|] eqn:Ef.
    + injection H as <-. exists 1. split; [cbn; lia|]. split; [cbn; lia|].
      cbn [combine firstn stream flat_map fst snd]. rewrite Et, Eu. cbn [app]. split; [exact Sh'|].
      split; [intros K; congruence|]. rewrite Ef.
      destruct (somes pre) as [|e0 l0] eqn:Ep; [discriminate|].
      destruct (_ || b) eqn:Eb; [|discriminate]. injection Fi as -> ->. split.
      * intros d t' K. injection K as <- <-. exists q, []. split; [reflexivity|]. rewrite app_nil_r, Ep. split; [discriminate|].
        apply orb_prop in Eb as [Eb | Eb]; [left; now apply past_of|right]. unfold b in Eb. destruct files; [reflexivity|discriminate].
      * intros [|y st0] e rest K V W.
        -- injection K as <- <-. now split.
        -- injection K as _ K. now destruct st0.
    + destruct (IH _ _ _ _ Ef Sh' H) as (n & A & B & C). exists (S n). split; [cbn; lia|]. split; [cbn; lia|].
      cbn [combine firstn stream flat_map fst snd]. rewrite Et, Eu. cbn [app].
      change (flat_map _ (firstn n (combine files times))) with (stream o (firstn n (combine files times))).
      destruct C as (C1 & C2 & C3 & C4). rewrite <- app_assoc in C1. cbn [app] in C1.
      split; [exact C1|]. split; [intros K; cbn; now rewrite C2|]. split.
      * intros d t' K. destruct (C3 _ _ K) as (q' & st0 & U & V & W). exists q', (Some (t, q, x :: data) :: st0). rewrite U. split; [reflexivity|].
        rewrite <- app_assoc in V. split; [exact V|]. destruct W; [now left|right; cbn; lia].
      * intros [|y st0] e rest K V W.
        -- exfalso. injection K as <- K. rewrite app_nil_r in V. destruct (somes pre); [now elim V|].
           apply past_true in W. rewrite W in Fi. discriminate.
        -- injection K as <- K. apply (C4 st0 e rest K); [|exact W]. rewrite <- app_assoc. exact V.
Qed.

Lemma shape_initial : forall o, shape o [] initial.
Proof.
  intros o. split; [|reflexivity]. exists [], []. split.
  - exists 0, []. repeat split; constructor.
  - split; [reflexivity|]. unfold opened, initial, new_curve. cbn. now destruct (o_save o).
Qed.

(** The curves are the runs of tables with values; every run but the last is closed by
    repeating its last point.  [n] tables are looked at: all of them, unless a final histogram
    is found before. *)
Theorem C121_curves : forall o files times s, analyse o files times = Some s ->
  exists n segs lst, n <= length files /\ n <= length times /\
    split_at_gaps (stream o (firstn n (combine files times))) segs lst /\
    curves s = map (closed o) segs ++ [opened o lst] /\
    (s_final s = None -> n = length files).
Proof.
  intros o files times s H. unfold analyse in H. destruct files as [|q0 f0] eqn:Ef; [discriminate|]. rewrite <- Ef in *.
  destruct (loop_spec o files times initial s [] eq_refl (shape_initial o) H) as (n & A & B & ((segs & lst & Sp & D & La) & _) & C & _).
  exists n, segs, lst. split; [exact A|]. split; [exact B|]. split; [exact Sp|]. split; [|exact C].
  unfold curves. now rewrite D, La.
Qed.

(** The first histogram is of the first table with values from the start on.  The second one is
    of the last table looked at: it is not the first one with values, and it is the first such
    from the end time on or the last file. *)
Theorem C121_histograms : forall o files times s, analyse o files times = Some s ->
  exists n, n <= length files /\ n <= length times /\
    let st := stream o (firstn n (combine files times)) in
    s_init s = match somes st with [] => None | e :: _ => Some (e_used e, e_time e) end /\
    (forall d t, s_final s = Some (d, t) -> exists q st0, st = st0 ++ [Some (t, q, d)] /\ somes st0 <> [] /\
       (past o (t, q, d) \/ n = length files)) /\
    (s_final s = None -> n = length files) /\
    (forall st0 e rest, st = st0 ++ Some e :: rest -> somes st0 <> [] -> past o e ->
       rest = [] /\ s_final s = Some (e_used e, e_time e)).
Proof.
  intros o files times s H. unfold analyse in H. destruct files as [|q0 f0] eqn:Ef; [discriminate|]. rewrite <- Ef in *.
  destruct (loop_spec o files times initial s [] eq_refl (shape_initial o) H) as (n & A & B & (_ & I) & C & D & E).
  exists n. split; [exact A|]. split; [exact B|]. split; [exact I|]. split; [exact D|]. split; [exact C|exact E].
Qed.

Definition row_of (e : entry) : Q * Q * Q * nat := (e_time e, mean (e_used e), variance (e_used e), length (e_all e)).
Lemma zip4_map : forall s, zip4 (map e_time s) (map (fun e => mean (e_used e)) s) (map (fun e => variance (e_used e)) s)
                                (map (fun e => length (e_all e)) s) = map row_of s.
Proof. induction s; cbn; [reflexivity|]. now rewrite IHs. Qed.
Lemma last_map_snoc : forall A B (f : A -> B) d s e, last (map f (s ++ [e])) d = f e.
Proof. intros. rewrite map_app. cbn [map]. now rewrite last_last. Qed.
Lemma combine_map_snoc : forall (s : list entry) x, combine (map e_time s ++ x) (map e_used s) = map (fun e => (e_time e, e_used e)) s.
Proof. induction s as [|e s IH]; intros x; cbn; [now destruct x|]. now rewrite IH. Qed.
Lemma combine_nil_r : forall A B (l : list A), combine l (@nil B) = [].
Proof. now destruct l. Qed.

Definition saved_of (o : options) (twice_last : bool) (s : list entry) : saved :=
  mkSaved (map row_of (match rev s with e :: _ => if twice_last then s ++ [e] else s | [] => s end))
          (if o_save o then map (fun e => (e_time e, e_used e)) s else []).
Lemma save_closed : forall o s, s <> [] ->
  mkSaved (zip4 (c_time (closed o s)) (c_means (closed o s)) (c_stds (closed o s)) (c_total (closed o s)))
          (combine (c_time (closed o s)) (c_data (closed o s))) = saved_of o true s.
Proof.
  intros o s N. destruct (exists_last N) as (a & e & ->). unfold saved_of. rewrite rev_unit.
  unfold closed, twice. cbn [c_time c_means c_stds c_total c_data]. rewrite !last_map_snoc. f_equal.
  - rewrite <- (zip4_map ((a ++ [e]) ++ [e])). now rewrite !(map_app _ (a ++ [e]) [e]).
  - destruct (o_save o); [apply combine_map_snoc|apply combine_nil_r].
Qed.
Lemma save_opened : forall o s,
  mkSaved (zip4 (c_time (opened o s)) (c_means (opened o s)) (c_stds (opened o s)) (c_total (opened o s)))
          (combine (c_time (opened o s)) (c_data (opened o s))) = saved_of o false s.
Proof.
  intros o s. unfold saved_of, opened. cbn [c_time c_means c_stds c_total c_data]. rewrite zip4_map. f_equal.
  - now destruct (rev s).
  - destruct (o_save o); [|apply combine_nil_r]. rewrite <- (app_nil_r (map e_time s)). apply combine_map_snoc.
Qed.

Lemma time_closed : forall o s, exists x l, c_time (closed o s) = x :: l.
Proof. intros o s. unfold closed, twice. cbn [c_time]. destruct (map e_time s); cbn; eauto. Qed.

(** Saving: one file for every run, with one row for every table; the rows of every run but the
    last end with the last row again, the histograms are one for every table. *)
Theorem C121_saved : forall o segs lst, Forall (fun s => s <> []) segs -> segs = [] \/ lst <> [] ->
  save_curves (map (closed o) segs ++ [opened o lst]) = (map (saved_of o true) segs ++ [saved_of o false lst], true).
Proof.
  intros o segs lst F H. induction F as [|s segs N F IH].
  - cbn [map app save_curves]. now rewrite save_opened.
  - destruct H as [H | H]; [discriminate|]. specialize (IH (or_intror H)). cbn [map app].
    cbn [save_curves]. fold save_curves. rewrite IH.
    rewrite save_closed by exact N.
    destruct (time_closed o s) as (x & l & ->).
    destruct segs as [|s1 segs1]; cbn [map app].
    + unfold opened at 1. cbn [c_time]. destruct lst; [now elim H|]. reflexivity.
    + destruct (time_closed o s1) as (x1 & l1 & ->). reflexivity.
Qed.

(** A run ended by tables without values, with none after: the script stops with an exception
    before the last run with values is saved. *)
Theorem C121_trailing_refuted : forall o segs s, Forall (fun s => s <> []) (segs ++ [s]) ->
  save_curves (map (closed o) (segs ++ [s]) ++ [opened o []]) = (map (saved_of o true) segs, false).
Proof.
  intros o segs s. induction segs as [|s0 segs IH]; intros F; cbn [map app] in *.
  - cbn [save_curves]. destruct (time_closed o s) as (x & l & ->). reflexivity.
  - inversion F as [|? ? N F']; subst. specialize (IH F'). cbn [save_curves]. fold save_curves. rewrite IH.
    rewrite save_closed by exact N. destruct (time_closed o s0) as (x & l & ->).
    destruct segs as [|s1 segs1]; cbn [map app];
      [destruct (time_closed o s) as (x1 & l1 & ->)|destruct (time_closed o s1) as (x1 & l1 & ->)]; reflexivity.
Qed.

(** Without the largest: the first of the largest values is left out, the others stay in order. *)
Lemma max_spec : forall l m, max_list l = Some m -> (exists x, In x l /\ (x == m)%Q) /\ (forall x, In x l -> (x <= m)%Q).
Proof.
  induction l as [|a l IH]; intros m H; [discriminate|]. cbn [max_list] in H. destruct (max_list l) as [m0|] eqn:E.
  - destruct (IH m0 eq_refl) as [(x & Ix & Ex) B]. injection H as <-. destruct (Qle_bool m0 a) eqn:C.
    + apply Qle_bool_iff in C. split; [exists a; split; [now left|reflexivity]|].
      intros y [<- | Iy]; [apply Qle_refl|]. specialize (B y Iy). lra.
    + assert (C' : ~ (m0 <= a)%Q) by (intros K; apply Qle_bool_iff in K; congruence).
      split; [exists x; split; [now right|exact Ex]|]. intros y [<- | Iy]; [lra|now apply B].
  - injection H as <-. destruct l; [|cbn in E; destruct (max_list l); discriminate].
    split; [exists a; split; [now left|reflexivity]|]. intros y [<- | []]. apply Qle_refl.
Qed.
Lemma delete_spec : forall m l, (exists x, In x l /\ (x == m)%Q) ->
  exists a x b, l = a ++ x :: b /\ (x == m)%Q /\ delete_equal m l = a ++ b /\ (forall y, In y a -> ~ (y == m)%Q).
Proof.
  intros m. induction l as [|y l IH]; intros (x & I & E); [destruct I|]. cbn [delete_equal]. destruct (Qeq_bool y m) eqn:C.
  - apply Qeq_bool_iff in C. exists [], y, l. split; [reflexivity|]. split; [exact C|]. split; [reflexivity|]. intros z [].
  - assert (C' : ~ (y == m)%Q) by (intros K; apply Qeq_bool_iff in K; congruence).
    destruct I as [-> | I]; [now elim C'|]. destruct IH as (a & z & b & -> & Ez & -> & L); [now exists x|].
    exists (y :: a), z, b. split; [reflexivity|]. split; [exact Ez|]. split; [reflexivity|].
    intros w [<- | Iw]; [exact C'|now apply L].
Qed.
Theorem C121_delete : forall l d, delete_largest l = Some d ->
  exists a x b, l = a ++ x :: b /\ d = a ++ b /\ (forall y, In y l -> (y <= x)%Q) /\ (forall y, In y a -> (y < x)%Q).
Proof.
  intros l d H. unfold delete_largest in H. destruct (max_list l) as [m|] eqn:E; [|discriminate]. cbn [obind] in H. injection H as <-.
  destruct (max_spec l m E) as [X B]. destruct (delete_spec m l X) as (a & x & b & -> & Ex & -> & L).
  exists a, x, b. split; [reflexivity|]. split; [reflexivity|]. split.
  - intros y Iy. rewrite Ex. now apply B.
  - intros y Iy. assert (Y : (y <= m)%Q) by (apply B, in_or_app; now left). specialize (L y Iy). rewrite Ex.
    apply Qle_lteq in Y as [Y | Y]; [exact Y|contradiction].
Qed.
(** With it, a table without values is an exception, and the saved total counts one value that
    is not in the average. *)
Theorem C121_delete_refuted : (forall o files times t, o_delete o = true -> qltb t (o_start o) = false -> analyse o ([] :: files) (t :: times) = None) /\
  (forall l d, delete_largest l = Some d -> length l = S (length d)).
Proof.
  split.
  - intros o files times t D T. cbn [analyse loop]. now rewrite T, D.
  - intros l d H. destruct (C121_delete l d H) as (a & x & b & -> & -> & _). rewrite !app_length. cbn. lia.
Qed.

(** Bins: a value in the range is in one bin, between the edges of it. *)
Definition edge (n : nat) (lo hi : Q) (i : nat) : Q := (lo + inject_Z (Z.of_nat i) * (hi - lo) / inject_Z (Z.of_nat n))%Q.
Lemma bin_spec : forall n lo hi x i, 0 < n -> (lo < hi)%Q -> bin_of n lo hi x = Some i ->
  i < n /\ (edge n lo hi i <= x)%Q /\ ((x < edge n lo hi (S i))%Q \/ (S i = n /\ (x == hi)%Q)).
Proof.
  intros n lo hi x i Hn Hl H. unfold bin_of in H.
  assert (Np : (0 < inject_Z (Z.of_nat n))%Q) by (change 0%Q with (inject_Z 0); rewrite <- Zlt_Qlt; lia).
  assert (Hp : (0 < hi - lo)%Q) by lra.
  destruct (qltb x lo) eqn:E1; [discriminate|]. destruct (qltb hi x) eqn:E2; [discriminate|]. cbn [orb] in H.
  apply qltb_false in E1, E2.
  destruct (Qeq_bool x hi) eqn:E3.
  - injection H as <-. apply Qeq_bool_iff in E3. split; [lia|]. split; [|right; split; [lia|exact E3]].
    unfold edge. rewrite E3. replace (Z.of_nat (n - 1)) with (Z.of_nat n - 1)%Z by lia.
    unfold Zminus. rewrite inject_Z_plus. change (inject_Z (- (1))) with (- (1))%Q.
    set (N := inject_Z (Z.of_nat n)) in *.
    assert (E : (lo + (N + - (1)) * (hi - lo) / N == hi - (hi - lo) / N)%Q) by (field; lra).
    rewrite E. assert ((0 <= (hi - lo) / N)%Q) by (apply Qlt_le_weak, Qlt_shift_div_l; lra). lra.
  - assert (E3' : ~ (x == hi)%Q) by (intros K; apply Qeq_bool_iff in K; congruence).
    assert (Hx : (x < hi)%Q) by (apply Qle_lteq in E2 as [K | K]; [exact K|contradiction]).
    assert (Hi : i = Z.to_nat (Qfloor ((x - lo) * inject_Z (Z.of_nat n) / (hi - lo))%Q)) by congruence. clear H. subst i.
    set (N := inject_Z (Z.of_nat n)) in *. set (y := ((x - lo) * N / (hi - lo))%Q).
    assert (Y0 : (0 <= y)%Q) by (unfold y; apply Qle_shift_div_l; [exact Hp|]; rewrite Qmult_0_l; apply Qmult_le_0_compat; lra).
    assert (Y1 : (y < N)%Q).
    { unfold y. apply Qlt_shift_div_r; [exact Hp|]. rewrite (Qmult_comm N). apply Qmult_lt_compat_r; [exact Np|lra]. }
    assert (Ey : (lo + y * (hi - lo) / N == x)%Q) by (unfold y; field; split; lra).
    pose proof (Qfloor_le y) as F1. pose proof (Qlt_floor y) as F2.
    assert (P : (0 <= Qfloor y)%Z) by (change 0%Z with (Qfloor 0); now apply Qfloor_resp_le).
    assert (R : (Qfloor y < Z.of_nat n)%Z).
    { rewrite Zlt_Qlt. fold N. eapply Qle_lt_trans; [exact F1|exact Y1]. }
    split; [lia|].
    assert (Mono : forall a b : Q, (a <= b)%Q -> (lo + a * (hi - lo) / N <= lo + b * (hi - lo) / N)%Q).
    { intros a b Hab. apply Qplus_le_r. unfold Qdiv. apply Qmult_le_compat_r; [apply Qmult_le_compat_r; lra|].
      apply Qlt_le_weak, Qinv_lt_0_compat, Np. }
    assert (Monos : forall a b : Q, (a < b)%Q -> (lo + a * (hi - lo) / N < lo + b * (hi - lo) / N)%Q).
    { intros a b Hab. apply Qplus_lt_r. unfold Qdiv. apply Qmult_lt_compat_r; [apply Qinv_lt_0_compat, Np|].
      apply Qmult_lt_compat_r; [exact Hp|exact Hab]. }
    unfold edge. fold N. split.
    + rewrite Z2Nat.id by exact P. rewrite <- Ey. now apply Mono.
    + left. rewrite Nat2Z.inj_succ, Z2Nat.id by exact P. rewrite <- Ey at 1. now apply Monos.
Qed.
Lemma bin_total : forall n lo hi x, (lo <= x)%Q -> (x <= hi)%Q -> exists i, bin_of n lo hi x = Some i.
Proof.
  intros n lo hi x A B. unfold bin_of. destruct (qltb x lo) eqn:E1; [apply qltb_true in E1; lra|].
  destruct (qltb hi x) eqn:E2; [apply qltb_true in E2; lra|]. cbn [orb]. destruct (Qeq_bool x hi); eauto.
Qed.
Definition in_bin (n : nat) (lo hi : Q) (i : nat) (x : Q) : Prop :=
  (edge n lo hi i <= x)%Q /\ ((x < edge n lo hi (S i))%Q \/ (S i = n /\ (x == hi)%Q)).

Lemma edge_mono : forall n lo hi i j, 0 < n -> (lo < hi)%Q -> i <= j -> (edge n lo hi i <= edge n lo hi j)%Q.
Proof.
  intros n lo hi i j Hn Hl H. unfold edge. apply Qplus_le_r. unfold Qdiv.
  assert (Np : (0 < inject_Z (Z.of_nat n))%Q) by (change 0%Q with (inject_Z 0); rewrite <- Zlt_Qlt; lia).
  apply Qmult_le_compat_r; [|apply Qlt_le_weak, Qinv_lt_0_compat, Np]. apply Qmult_le_compat_r; [|lra].
  rewrite <- Zle_Qle. lia.
Qed.
Lemma edge_last : forall n lo hi, 0 < n -> (edge n lo hi n == hi)%Q.
Proof.
  intros n lo hi Hn. unfold edge.
  assert (Np : (0 < inject_Z (Z.of_nat n))%Q) by (change 0%Q with (inject_Z 0); rewrite <- Zlt_Qlt; lia).
  field. lra.
Qed.
Lemma in_bin_unique : forall n lo hi i j x, 0 < n -> (lo < hi)%Q -> i < n -> j < n -> in_bin n lo hi i x -> in_bin n lo hi j x -> i = j.
Proof.
  intros n lo hi i j x Hn Hl.
  assert (G : forall i j, i < n -> j < n -> i < j -> in_bin n lo hi i x -> in_bin n lo hi j x -> False).
  { intros a b Ha Hb Hab [A1 A2] [B1 B2]. destruct A2 as [A2 | [A2 _]]; [|lia].
    pose proof (edge_mono n lo hi (S a) b Hn Hl ltac:(lia)). lra. }
  intros Hi Hj A B. destruct (lt_eq_lt_dec i j) as [[C | C] | C]; [elim (G i j Hi Hj C A B)|exact C|elim (G j i Hj Hi C B A)].
Qed.

Lemma sum_indicator : forall n j, list_sum (map (fun i => if j =? i then 1 else 0) (seq 0 n)) = if j <? n then 1 else 0.
Proof.
  induction n as [|n IH]; intros j; [reflexivity|]. rewrite seq_S, map_app, list_sum_app, IH. cbn [map Nat.add list_sum fold_right].
  destruct (Nat.eqb_spec j n), (Nat.ltb_spec j n), (Nat.ltb_spec j (S n)); lia.
Qed.
Lemma sum_count : forall (f : Q -> option nat) n l, (forall x j, In x l -> f x = Some j -> j < n) ->
  list_sum (map (fun i => length (filter (fun x => match f x with Some j => j =? i | None => false end) l)) (seq 0 n)) =
  length (filter (fun x => match f x with Some _ => true | None => false end) l).
Proof.
  intros f n. induction l as [|x l IH]; intros H.
  - cbn [filter length]. induction (seq 0 n); cbn; auto.
  - cbn [filter]. specialize (IH (fun y j Iy => H y j (or_intror Iy))).
    assert (G : forall s, list_sum (map (fun i => length (if match f x with Some j => j =? i | None => false end
         then x :: filter (fun x => match f x with Some j => j =? i | None => false end) l
         else filter (fun x => match f x with Some j => j =? i | None => false end) l)) s) =
       list_sum (map (fun i => match f x with Some j => if j =? i then 1 else 0 | None => 0 end) s) +
       list_sum (map (fun i => length (filter (fun x => match f x with Some j => j =? i | None => false end) l)) s)).
    { induction s as [|i s IHs]; [reflexivity|]. cbn [map list_sum fold_right]. change (fold_right Nat.add 0) with list_sum. rewrite IHs.
      destruct (f x) as [j|]; [destruct (j =? i)|]; cbn [length]; lia. }
    rewrite G, IH. destruct (f x) as [j|] eqn:E.
    + rewrite sum_indicator. assert (j < n) by (apply (H x); [now left|exact E]).
      destruct (Nat.ltb_spec j n); [|lia]. reflexivity.
    + assert (Z0 : forall s : list nat, list_sum (map (fun _ => 0) s) = 0) by (induction s; cbn; auto). now rewrite Z0.
Qed.

(** The count of bin [i] is the number of values between its edges (the last bin has both its
    edges), and with a range around all the values every value is in one bin. *)
Theorem C121_counts : forall n lo hi data, 0 < n -> (lo < hi)%Q -> (forall x, In x data -> (lo <= x <= hi)%Q) ->
  length (counts n lo hi data) = n /\ list_sum (counts n lo hi data) = length data /\
  (forall i p, i < n -> (forall x, p x = true <-> in_bin n lo hi i x) -> nth i (counts n lo hi data) 0 = length (filter p data)) /\
  (forall x, In x data -> exists i, i < n /\ in_bin n lo hi i x) /\
  (forall x i j, i < n -> j < n -> in_bin n lo hi i x -> in_bin n lo hi j x -> i = j).
Proof.
  intros n lo hi data Hn Hl Hr.
  assert (B : forall x, In x data -> exists i, bin_of n lo hi x = Some i /\ i < n /\ in_bin n lo hi i x).
  { intros x Ix. destruct (Hr x Ix) as [A C]. destruct (bin_total n lo hi x A C) as (i & E). exists i. split; [exact E|].
    destruct (bin_spec _ _ _ _ _ Hn Hl E) as (U & V). now split. }
  split; [unfold counts; now rewrite map_length, seq_length|]. split; [|split; [|split]].
  - unfold counts. rewrite (sum_count (bin_of n lo hi)).
    + f_equal. clear -B. induction data as [|x l IH]; [reflexivity|]. cbn [filter]. destruct (B x (or_introl eq_refl)) as (i & -> & _).
      f_equal. apply IH. intros y Iy. apply B. now right.
    + intros x j Ix E. now destruct (bin_spec _ _ _ _ _ Hn Hl E) as (U & _).
  - intros i p Hi Hp. unfold counts.
    rewrite (nth_indep _ 0 ((fun i => length (filter (fun x => match bin_of n lo hi x with Some j => j =? i | None => false end) data)) 0))
      by (now rewrite map_length, seq_length).
    rewrite (map_nth (fun i => length (filter (fun x => match bin_of n lo hi x with Some j => j =? i | None => false end) data))).
    rewrite seq_nth by exact Hi. cbn [Nat.add]. f_equal. apply filter_ext_in. intros x Ix.
    destruct (B x Ix) as (j & E & Hj & Ij). rewrite E. destruct (Nat.eqb_spec j i) as [-> | Ne].
    + symmetry. now apply Hp.
    + destruct (p x) eqn:Epx; [|reflexivity]. apply Hp in Epx. elim Ne. now apply (in_bin_unique n lo hi j i x).
  - intros x Ix. destruct (B x Ix) as (i & _ & U). now exists i.
  - intros x i j Hi Hj. now apply in_bin_unique.
Qed.

Lemma sum_percents : forall L l, (sum_q (map (fun c => inject_Z (Z.of_nat c) / L * 100)%Q l) == inject_Z (Z.of_nat (list_sum l)) / L * 100)%Q.
Proof.
  intros L. induction l as [|c l IH]; cbn [map sum_q fold_right list_sum].
  - change (inject_Z (Z.of_nat 0)) with 0%Q. unfold Qdiv. ring.
  - change (fold_right Qplus 0%Q) with sum_q. change (fold_right Nat.add 0 l) with (list_sum l). rewrite IH, Nat2Z.inj_add, inject_Z_plus.
    unfold Qdiv. ring.
Qed.
(** The saved percents add up to 100. *)
Theorem C121_percents : forall n lo hi data, 0 < n -> (lo < hi)%Q -> data <> [] -> (forall x, In x data -> (lo <= x <= hi)%Q) ->
  length (percents n lo hi data) = S n /\ (sum_q (percents n lo hi data) == 100)%Q.
Proof.
  intros n lo hi data Hn Hl Hd Hr. destruct (C121_counts n lo hi data Hn Hl Hr) as (A & B & _).
  unfold percents. split; [rewrite map_length, app_length, A; cbn; lia|].
  rewrite sum_percents, list_sum_app, B. cbn [list_sum fold_right]. rewrite !Nat.add_0_r.
  field. destruct data; [now elim Hd|]. cbn [length]. intros K.
  assert (0 < inject_Z (Z.of_nat (S (length data))))%Q by (change 0%Q with (inject_Z 0); rewrite <- Zlt_Qlt; lia). rewrite K in H. now apply Qlt_irrefl in H.
Qed.

(** An example: values, a gap, values, a table that is not looked at. *)
Definition o1 : options := mkOptions 1 5 false true.
Example C121_applies :
  match analyse o1 [[9]; [1; 3]; []; [2; 4; 6]; [5]; [7]]%Q [0; 1; 2; 3; 5; 6]%Q with
  | Some s => length (curves s) = 2 /\ map c_time (curves s) = [[1; 1]; [3; 5]]%Q /\ map c_total (curves s) = [[2; 2]; [3; 1]] /\
  s_init s = Some ([1; 3], 1)%Q /\ s_final s = Some ([5], 5)%Q /\ snd (save_curves (curves s)) = true
  | None => False end.
Proof. vm_compute. repeat split; reflexivity. Qed.
(** Values only before a gap: an exception, and no file. *)
Example C121_trailing_applies :
  match analyse o1 [[1; 3]; [2; 4]; []]%Q [1; 2; 3]%Q with
  | Some s => save_curves (curves s) = ([], false) /\ s_final s = None
  | None => False end.
Proof. vm_compute. now split. Qed.
Example C121_counts_applies : counts 2 0 4 [0; 1; 2; 4]%Q = [2; 2] /\ delete_largest [1; 5; 2; 5]%Q = Some [1; 2; 5]%Q.
Proof. vm_compute. now split. Qed.

(** The mean and the squared spread of a table with values are those of the fit: about any value
    [a], the squares of the deviations add up to [n] times the squared spread and the square of
    the distance of [a] from the mean. So the mean is the value with the least sum of squares. *)
Lemma squares_about : forall l a b, (fold_right Qplus 0 (map (fun x => (x - a) * (x - a)) l) ==
  fold_right Qplus 0 (map (fun x => (x - b) * (x - b)) l)
  + (b - a) * (2 * fold_right Qplus 0 l - inject_Z (Z.of_nat (length l)) * (a + b)))%Q.
Proof.
  induction l as [|x l IH]; intros a b.
  - cbn [map fold_right length]. change (inject_Z (Z.of_nat 0)) with 0%Q. ring.
  - cbn [map fold_right length]. rewrite (IH a b). rewrite Nat2Z.inj_succ. unfold Z.succ.
    rewrite inject_Z_plus. change (inject_Z 1) with 1%Q. ring.
Qed.
Theorem C121_moments : forall l a, l <> [] ->
  (fold_right Qplus 0 (map (fun x => (x - a) * (x - a)) l) ==
   inject_Z (Z.of_nat (length l)) * (variance l + (mean l - a) * (mean l - a)))%Q.
Proof.
  intros l a H.
  assert (N : ~ inject_Z (Z.of_nat (length l)) == 0%Q).
  { destruct l as [|x l]; [congruence|]. unfold Qeq. cbn [inject_Z Qnum Qden length]. lia. }
  rewrite (squares_about l a (mean l)). unfold variance.
  set (m := mean l). unfold mean at 1. rewrite map_length. unfold sum_q at 1.
  assert (M : (fold_right Qplus 0 l == inject_Z (Z.of_nat (length l)) * m)%Q).
  { unfold m, mean, sum_q. field. exact N. }
  rewrite M. field. exact N.
Qed.
Example C121_moments_applies : (mean [1; 2; 6] == 3 /\ variance [1; 2; 6] == 14 # 3)%Q.
Proof. split; reflexivity. Qed.

Print Assumptions C121_curves.
Print Assumptions C121_histograms.
Print Assumptions C121_saved.
Print Assumptions C121_trailing_refuted.
Print Assumptions C121_delete.
Print Assumptions C121_delete_refuted.
Print Assumptions C121_counts.
Print Assumptions C121_percents.
Print Assumptions C121_moments.
