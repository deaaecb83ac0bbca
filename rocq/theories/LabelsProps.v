(** C110: labels, escaping and progress (library.py). *)
From Coq Require Import ZArith Ascii String List Arith Bool Lia.
From Verif Require Import Util LabelsModel.
Import ListNotations.
Local Open Scope string_scope.
Local Open Scope char_scope.
Local Open Scope nat_scope.
Local Open Scope list_scope.

(** ** Labels *)
Lemma count_spec : forall same fuel i, count same i fuel <= fuel /\ (forall j, j < count same i fuel -> same (i + j) = true) /\ (count same i fuel < fuel -> same (i + count same i fuel) = false).
Proof.
  intros same. induction fuel as [|k IH]; intro i; cbn [count]; [split; [lia|split; [intros; lia|lia]]|]. destruct (same i) eqn:E.
  - destruct (IH (S i)) as (A & B & C). split; [lia|]. split.
    + intros [|j] H; [rewrite Nat.add_0_r; exact E|]. replace (i + S j) with (S i + j) by lia. apply B. lia.
    + intro H. replace (i + S (count same (S i) k)) with (S i + count same (S i) k) by lia. apply C. lia.
  - split; [lia|]. split; [intros; lia|]. intros _. rewrite Nat.add_0_r. exact E.
Qed.
Lemma min_len_le : forall files f, In f files -> min_len files <= length f.
Proof.
  intros files f H. unfold min_len. generalize (length (hd [] files)) as m. revert f H.
  assert (M : forall l m, fold_left (fun m (f : str) => Nat.min m (length f)) l m <= m) by (induction l as [|x l IH]; intro m; cbn [fold_left]; [lia|]; specialize (IH (Nat.min m (length x))); lia).
  induction files as [|x l IH]; intros f H m; [destruct H|]. cbn [fold_left]. destruct H as [<-|H]; [etransitivity; [apply M|lia]|apply IH, H].
Qed.

Lemma list_split : forall (f : str) a e, a + e <= length f -> f = firstn a f ++ firstn (length f - e - a) (skipn a f) ++ skipn (length f - e) f.
Proof.
  intros f a e H. rewrite <- (firstn_skipn a f) at 1. f_equal. rewrite <- (firstn_skipn (length f - e - a) (skipn a f)) at 1. f_equal.
  replace (length f - e) with (a + (length f - e - a)) at 2 by lia. generalize (length f - e - a) as n. clear. revert a.
  induction f as [|x f IH]; intros [|a] n; try reflexivity; [destruct n; reflexivity|]. cbn [skipn Nat.add]. apply IH.
Qed.
Lemma chr_ext : forall (f g : str), length f = length g -> (forall i, i < length f -> chr f i = chr g i) -> f = g.
Proof. intros f g L H. apply (nth_ext _ _ "000" "000" L H). Qed.
Lemma chr_firstn : forall (f : str) a i, i < a -> chr (firstn a f) i = chr f i.
Proof. unfold chr. induction f as [|x f IH]; intros [|a] [|i] H; try lia; try reflexivity. cbn [firstn nth]. apply IH. lia. Qed.
Lemma chr_skipn : forall (f : str) a i, chr (skipn a f) i = chr f (a + i).
Proof. unfold chr. induction f as [|x f IH]; intros [|a] i; try reflexivity; [destruct i; reflexivity|]. cbn [skipn Nat.add nth]. apply IH. Qed.

(** If no label is empty after cutting the common beginning and end, each file is
    its label between these, the common parts are the longest possible, and so
    different files have different labels. *)
Theorem C110_labels : forall files, files <> [] ->
  let s_start := count (same_start files) 0 (min_len files) in let s_end := count (same_end files) 0 (min_len files) in
  (forall f, In f files -> slice f (Z.of_nat s_start) s_end <> []) ->
  exists labels pre suf, short_labels files = Some labels /\ length labels = length files /\
    (forall k f l, nth_error files k = Some f -> nth_error labels k = Some l -> f = pre ++ l ++ suf) /\
    (~ exists c, forall f, In f files -> exists r, f = pre ++ c :: r) /\ (~ exists c, forall f, In f files -> exists r, f = r ++ c :: suf) /\
    (forall i j f g, nth_error files i = Some f -> nth_error files j = Some g -> f <> g -> nth_error labels i <> nth_error labels j).
Proof.
  intros files NE s_start s_end NL. destruct files as [|f0 files']; [contradiction|]. set (files := f0 :: files') in *.
  assert (I0 : In f0 files) by (left; reflexivity).
  destruct (count_spec (same_start files) (min_len files) 0) as (A1 & A2 & A3). destruct (count_spec (same_end files) (min_len files) 0) as (B1 & B2 & B3). fold s_start in A1, A2, A3. fold s_end in B1, B2, B3. cbn [Nat.add] in *.
  assert (LEN : forall f, In f files -> 0 < s_end /\ s_start + s_end < length f /\ slice f (Z.of_nat s_start) s_end = firstn (length f - s_end - s_start) (skipn s_start f)).
  { intros f Hf. specialize (NL f Hf). unfold slice in *. replace (Z.of_nat s_start <? 0)%Z with false in * by (symmetry; apply Z.ltb_ge; lia). rewrite Nat2Z.id in *.
    destruct (Nat.eqb_spec s_end 0) as [E|E]; [exfalso; apply NL; reflexivity|]. split; [lia|]. split; [|reflexivity].
    destruct (lt_dec (s_start + s_end) (length f)) as [H|H]; [exact H|]. exfalso. apply NL. replace (length f - s_end - s_start) with 0 by lia. reflexivity. }
  assert (EQS : forall f, In f files -> firstn s_start f = firstn s_start f0).
  { intros f Hf. pose proof (LEN f Hf). pose proof (LEN f0 I0). apply chr_ext; [rewrite !firstn_length; lia|]. intros i Hi. rewrite firstn_length in Hi. rewrite !chr_firstn by lia.
    specialize (A2 i ltac:(lia)). unfold same_start in A2. rewrite forallb_forall in A2. specialize (A2 f Hf). apply Ascii.eqb_eq in A2. exact A2. }
  assert (EQE : forall f, In f files -> skipn (length f - s_end) f = skipn (length f0 - s_end) f0).
  { intros f Hf. pose proof (LEN f Hf). pose proof (LEN f0 I0). apply chr_ext; [rewrite !skipn_length; lia|]. intros i Hi. rewrite skipn_length in Hi. rewrite !chr_skipn.
    specialize (B2 (s_end - 1 - i) ltac:(lia)). unfold same_end in B2. rewrite forallb_forall in B2. specialize (B2 f Hf). apply Ascii.eqb_eq in B2. cbn [hd files] in B2. fold files in B2.
    replace (length f - 1 - (s_end - 1 - i)) with (length f - s_end + i) in B2 by lia. rewrite B2. f_equal. change (hd [] files) with f0. lia. }
  set (pre := firstn s_start f0). set (suf := skipn (length f0 - s_end) f0). set (lab := fun f => slice f (Z.of_nat s_start) s_end).
  assert (DEC : forall f, In f files -> f = pre ++ lab f ++ suf).
  { intros f Hf. destruct (LEN f Hf) as (L1 & L2 & L3). unfold lab, pre, suf. rewrite L3, <- (EQS f Hf), <- (EQE f Hf). apply list_split. lia. }
  assert (SL : short_labels files = Some (map lab files)).
  { unfold short_labels. cbv zeta. fold s_start s_end. fold lab. replace (existsb is_empty (map lab files)) with false; [reflexivity|]. symmetry. apply not_true_iff_false. intro H. apply existsb_exists in H. destruct H as (l & Hl & E).
    apply in_map_iff in Hl. destruct Hl as (f & <- & Hf). specialize (NL f Hf). fold (lab f) in NL. destruct (lab f); [contradiction|discriminate]. }
  exists (map lab files), pre, suf. split; [exact SL|]. split; [apply map_length|].
  assert (LP : length pre = s_start) by (unfold pre; rewrite firstn_length; pose proof (LEN f0 I0); lia).
  assert (LSF : length suf = s_end) by (unfold suf; rewrite skipn_length; pose proof (LEN f0 I0); lia).
  assert (MIN : exists f, In f files /\ length f = min_len files).
  { unfold min_len. assert (G : forall l m, fold_left (fun m (f : str) => Nat.min m (length f)) l m = m \/ exists f, In f l /\ length f = fold_left (fun m (f : str) => Nat.min m (length f)) l m).
    { induction l as [|x l IH]; intro m; cbn [fold_left]; [left; reflexivity|]. destruct (IH (Nat.min m (length x))) as [E|(f & Hf & E)]; [|right; exists f; split; [right; exact Hf|exact E]].
      rewrite E. destruct (Nat.min_spec m (length x)) as [[_ -> ]|[_ -> ]]; [left; reflexivity|right; exists x; split; [left; reflexivity|reflexivity]]. }
    destruct (G files (length (hd [] files))) as [E|E]; [exists f0; split; [exact I0|symmetry; exact E]|exact E]. }
  destruct MIN as (fm & Hm & Lm). pose proof (LEN fm Hm) as (_ & Lm2 & _).
  split; [|split; [|split]].
  - intros k f l Hf Hl. rewrite nth_error_map, Hf in Hl. injection Hl as <-. apply DEC. apply nth_error_In in Hf. exact Hf.
  - intros (c & H). specialize (A3 ltac:(lia)). apply not_true_iff_false in A3. apply A3. unfold same_start. apply forallb_forall. intros f Hf. apply Ascii.eqb_eq.
    assert (C : forall f, In f files -> chr f s_start = c) by (intros g Hg; destruct (H g Hg) as (r & -> ); unfold chr; rewrite app_nth2, LP, Nat.sub_diag by lia; reflexivity). rewrite (C f Hf). symmetry. apply C, I0.
  - intros (c & H). specialize (B3 ltac:(lia)). apply not_true_iff_false in B3. apply B3. unfold same_end. apply forallb_forall. intros f Hf. apply Ascii.eqb_eq.
    assert (C : forall f, In f files -> chr f (length f - 1 - s_end) = c).
    { intros g Hg. destruct (H g Hg) as (r & -> ). unfold chr. rewrite app_length. cbn [length]. rewrite LSF. replace (length r + S s_end - 1 - s_end) with (length r) by lia. rewrite app_nth2, Nat.sub_diag by lia. reflexivity. }
    rewrite (C f Hf). symmetry. apply C, I0.
  - intros i j f g Hf Hg N E. rewrite !nth_error_map, Hf, Hg in E. cbn [option_map] in E. injection E as E. apply N. rewrite (DEC f) by (apply nth_error_In in Hf; exact Hf). rewrite (DEC g) by (apply nth_error_In in Hg; exact Hg). rewrite E. reflexivity.
Qed.
Print Assumptions C110_labels.

Example C110_case : short_labels [of_string "runs/a1/solution.log"; of_string "runs/b/solution.log"; of_string "runs/c/solution.log"] = Some [of_string "a1"; of_string "b"; of_string "c"].
Proof. reflexivity. Qed.

(** Files that differ in the last character get the same label. *)
Theorem C110_distinct_refuted : exists files labels i j, short_labels files = Some labels /\ i <> j /\ NoDup files /\ i < length files /\ j < length files /\ nth_error labels i = nth_error labels j.
Proof.
  exists [of_string "a.x"; of_string "a.y"], [of_string "a."; of_string "a."], 0, 1. split; [reflexivity|]. split; [lia|].
  split; [constructor; [intros [H|[]]; discriminate|constructor; [intros []|constructor]]|]. cbn. auto.
Qed.
Print Assumptions C110_distinct_refuted.

(** An empty label can remain, and the call can fail. *)
Theorem C110_empty_refuted : (exists files labels, short_labels files = Some labels /\ NoDup files /\ In [] labels) /\
  (exists files, NoDup files /\ (forall f, In f files -> f <> []) /\ short_labels files = None).
Proof.
  split.
  - exists [of_string "./s.log"; of_string "./a/s.log"]. eexists. split; [reflexivity|]. split; [constructor; [intros [H|[]]; discriminate|constructor; [intros []|constructor]]|left; reflexivity].
  - exists [of_string "s.log"; of_string "a/s.log"]. split; [constructor; [intros [H|[]]; discriminate|constructor; [intros []|constructor]]|]. split; [intros f [<-|[<-|[]]]; discriminate|reflexivity].
Qed.
Print Assumptions C110_empty_refuted.

(** ** Escaping *)
Fixpoint prefixb (a b : str) : bool := match a, b with [], _ => true | x :: a, y :: b => Ascii.eqb x y && prefixb a b | _ :: _, [] => false end.
Definition all_chars : list ascii := map ascii_of_nat (seq 0 256).
Lemma all_chars_in : forall c, In c all_chars.
Proof. intro c. unfold all_chars. apply in_map_iff. exists (nat_of_ascii c). split; [apply ascii_nat_embedding|]. apply in_seq. pose proof (nat_ascii_bounded c). lia. Qed.
Lemma conv_prefix_free : forall c d, prefixb (conv c) (conv d) = true -> c = d.
Proof.
  assert (G : forallb (fun c => forallb (fun d => negb (prefixb (conv c) (conv d)) || Ascii.eqb c d) all_chars) all_chars = true) by (vm_compute; reflexivity).
  intros c d H. rewrite forallb_forall in G. specialize (G c (all_chars_in c)). rewrite forallb_forall in G. specialize (G d (all_chars_in d)). rewrite H in G. cbn in G. apply Ascii.eqb_eq, G.
Qed.
Lemma prefixb_app : forall a b r s : str, a ++ r = b ++ s -> prefixb a b = true \/ prefixb b a = true.
Proof.
  induction a as [|x a IH]; intros [|y b] r s H; cbn [prefixb]; auto. cbn [app] in H. injection H as -> H. rewrite Ascii.eqb_refl. cbn [andb]. eapply IH. exact H.
Qed.

(** Escaping loses nothing: different texts stay different. *)
Theorem C110_escape_injective : forall s t, tex_escape s = tex_escape t -> s = t.
Proof.
  assert (NE : forall c, conv c <> []).
  { intros c. assert (G : forallb (fun c => negb (is_empty (conv c))) all_chars = true) by (vm_compute; reflexivity). rewrite forallb_forall in G. specialize (G c (all_chars_in c)). intro E. rewrite E in G. discriminate. }
  unfold tex_escape. induction s as [|c s IH]; intros [|d t] H; cbn [flat_map] in H; [reflexivity| | |].
  - symmetry in H. apply app_eq_nil in H. destruct H as [H _]. exfalso. apply (NE d), H.
  - apply app_eq_nil in H. destruct H as [H _]. exfalso. apply (NE c), H.
  - assert (c = d) by (destruct (prefixb_app _ _ _ _ H) as [P|P]; apply conv_prefix_free in P; auto). subst d. f_equal. apply IH. apply app_inv_head in H. exact H.
Qed.
Print Assumptions C110_escape_injective.

Definition special (c : ascii) : Prop := In c ["&"; "%"; "$"; "#"; "_"; "{"; "}"; "~"; "^"; "\"; "<"; ">"].
Definition hot (c : ascii) : bool := existsb (Ascii.eqb c) ["&"; "%"; "$"; "#"; "_"].
Fixpoint guarded (prev : ascii) (l : str) : bool := match l with [] => true | c :: r => (negb (hot c) || Ascii.eqb prev "\") && guarded c r end.

(** Text without special characters is unchanged; in the result each of & % $ # _
    stands behind a backslash, and ~ < > do not occur. *)
Theorem C110_escape : forall text,
  ((forall c, In c text -> ~ special c) -> tex_escape text = text) /\
  (forall a c b, tex_escape text = a ++ c :: b -> In c ["&"; "%"; "$"; "#"; "_"] -> exists a', a = a' ++ ["\"]) /\
  (forall c, In c (tex_escape text) -> c <> "~" /\ c <> "<" /\ c <> ">").
Proof.
  intro text. split; [|split].
  - unfold tex_escape. induction text as [|c r IH]; intro H; [reflexivity|]. cbn [flat_map]. rewrite IH by (intros; apply H; right; assumption).
    assert (N : ~ special c) by (apply H; left; reflexivity). assert (E : conv c = [c]); [|rewrite E; reflexivity]. clear - N. unfold special in N. cbn [In] in N.
    unfold conv. repeat match goal with |- context [Ascii.eqb c ?d] => destruct (Ascii.eqb_spec c d); [exfalso; apply N; subst; tauto|] end. reflexivity.
  - assert (G : forall prev, guarded prev (tex_escape text) = true).
    { unfold tex_escape. induction text as [|c r IH]; intro prev; [reflexivity|]. cbn [flat_map].
      assert (A : forall l p, l <> [] -> guarded p l = true -> guarded p (l ++ flat_map conv r) = true).
      { induction l as [|x l IHl]; intros p NE G; [contradiction|]. cbn [app guarded] in *. apply andb_true_iff in G. destruct G as [G1 G2]. rewrite G1. cbn [andb]. destruct l as [|y l]; [apply IH|apply IHl; [discriminate|exact G2]]. }
      assert (F : forallb (fun c => forallb (fun p => negb (is_empty (conv c)) && guarded p (conv c)) all_chars) all_chars = true) by (vm_compute; reflexivity).
      rewrite forallb_forall in F. specialize (F c (all_chars_in c)). rewrite forallb_forall in F. specialize (F prev (all_chars_in prev)). apply andb_true_iff in F. destruct F as [F1 F2]. apply A; [intro E; rewrite E in F1; discriminate|exact F2]. }
    intros a c b E H. specialize (G "000"). rewrite E in G. clear E. assert (HC : hot c = true) by (apply existsb_exists; exists c; split; [exact H|apply Ascii.eqb_refl]).
    assert (K : forall a p, guarded p (a ++ c :: b) = true -> (a = [] /\ p = "\") \/ exists a', a = a' ++ ["\"]).
    { induction a0 as [|x a0 IHa]; intros p Gp; cbn [app guarded] in Gp; apply andb_true_iff in Gp; destruct Gp as [G1 G2].
      - rewrite HC in G1. cbn in G1. apply Ascii.eqb_eq in G1. auto.
      - right. destruct (IHa x G2) as [[-> -> ]|(a' & -> )]; [exists []; reflexivity|exists (x :: a'); reflexivity]. }
    destruct (K a "000" G) as [[_ C]|X]; [discriminate|exact X].
  - intros c H. apply in_flat_map in H. destruct H as (d & _ & H).
    assert (F : forallb (fun d => forallb (fun c => negb (Ascii.eqb c "~" || Ascii.eqb c "<" || Ascii.eqb c ">")) (conv d)) all_chars = true) by (vm_compute; reflexivity).
    rewrite forallb_forall in F. specialize (F d (all_chars_in d)). rewrite forallb_forall in F. specialize (F c H). apply negb_true_iff in F. apply orb_false_iff in F. destruct F as [F F3]. apply orb_false_iff in F. destruct F as [F1 F2].
    split; [|split]; intros ->; discriminate.
Qed.
Print Assumptions C110_escape.

(** ** Progress *)
(** The bar has always the same length, the arrow never shrinks, and it fills the
    bar exactly at the end. *)
Theorem C110_progress : forall current total bar, (0 < total)%Z -> (0 <= current <= total)%Z -> (0 < bar)%Z ->
  Z.of_nat (dashes current total bar + 1 + padding current total bar) = bar /\
  (forall later, (current <= later)%Z -> dashes current total bar <= dashes later total bar) /\
  (current = total -> padding current total bar = 0) .
Proof.
  intros current total bar T C B.
  assert (U : (Z.quot (current * bar - total) total <= bar - 1)%Z).
  { rewrite <- (Z.quot_mul (bar - 1) total) by lia. apply Z.quot_le_mono; nia. }
  split; [unfold padding, dashes; lia|]. split.
  - intros later L. unfold dashes. assert (Q1 : (Z.quot (current * bar - total) total <= Z.quot (later * bar - total) total)%Z) by (apply Z.quot_le_mono; nia). lia.
  - intros ->. unfold padding, dashes. replace (total * bar - total)%Z with ((bar - 1) * total)%Z by ring. rewrite Z.quot_mul by lia. lia.
Qed.
Print Assumptions C110_progress.

Example C110_progress_case : map (fun c => (dashes c 10 20, padding c 10 20)) [0; 1; 5; 10]%Z = [(0, 19); (1, 18); (9, 10); (19, 0)].
Proof. reflexivity. Qed.
