(** C90: the command line. *)
From Coq Require Import String Ascii List NArith ZArith Arith Bool Lia.
From Verif Require Import Util MeshFlagsModel CommandLineModel.
Import ListNotations.
Local Open Scope list_scope.

Lemma text_eqb_spec : forall a b, reflect (a = b) (text_eqb a b).
Proof. intros a b. unfold text_eqb. destruct (list_eq_dec ascii_dec a b); constructor; assumption. Qed.
Lemma span_app : forall p a c b, (forall x, In x a -> p x = true) -> p c = false -> span p (a ++ c :: b) = (a, c :: b).
Proof.
  intros p a c b. induction a as [| x a IH]; intros H Hc; cbn; [rewrite Hc; reflexivity |].
  rewrite (H x) by (left; reflexivity). rewrite IH by (try assumption; intros; apply H; right; assumption). reflexivity.
Qed.
Lemma span_all : forall p a, (forall x, In x a -> p x = true) -> span p a = (a, []).
Proof.
  intros p a. induction a as [| x a IH]; intros H; cbn; [reflexivity |].
  rewrite (H x) by (left; reflexivity). rewrite IH by (intros; apply H; right; assumption). reflexivity.
Qed.

(** An option as documented: two dashes, a name of word characters and dots, an equals sign and a
    value of one line *)
Definition dashes : text := t "--".
Definition equals : text := t "=".
Definition valid_name (n : text) : Prop := forall c, In c n -> is_word c = true \/ c = "."%char.
Definition one_line (v : text) : Prop := forall c, In c v -> nat_of_ascii c <> 10 /\ nat_of_ascii c <> 13.
Definition option_text (o : text * text) : text := dashes ++ fst o ++ equals ++ snd o.
Lemma valid_class : forall n, valid_name n -> forall c, In c n -> in_class c = true.
Proof. intros n H c I. unfold in_class. destruct (H c I) as [-> | ->]; reflexivity. Qed.
Lemma line_span : forall v, one_line v -> fst (span (fun c => negb (is_newline c)) v) = v.
Proof.
  intros v H. rewrite span_all; [reflexivity |]. intros c I. destruct (H c I) as [A B]. unfold is_newline.
  destruct (Nat.eqb_spec (nat_of_ascii c) 10); [contradiction |]. destruct (Nat.eqb_spec (nat_of_ascii c) 13); [contradiction |]. reflexivity.
Qed.
Lemma search_match : forall l m, match_here l = Some m -> regex_search l = Some m.
Proof. intros [| c l] m H; cbn [regex_search]; rewrite H; reflexivity. Qed.
Lemma match_option : forall n w, valid_name n -> match_here (dashes ++ n ++ equals ++ w) =
  Some (n, fst (span (fun c => negb (is_newline c)) match w with c :: w' => if Ascii.eqb c quote then w' else w | [] => [] end)).
Proof.
  intros n w Hn. cbn [dashes t list_ascii_of_string app match_here]. change (equals ++ w) with ("="%char :: w). rewrite span_app; [reflexivity | apply valid_class; exact Hn | reflexivity].
Qed.
Lemma search_option : forall n v, valid_name n -> one_line v -> hd_error v <> Some quote -> regex_search (option_text (n, v)) = Some (n, v).
Proof.
  intros n v Hn Hv Hq. apply search_match. unfold option_text. cbn [fst snd]. rewrite match_option by exact Hn. f_equal. f_equal.
  destruct v as [| c v]; [reflexivity |]. destruct (Ascii.eqb_spec c quote) as [-> | _]; [exfalso; apply Hq; reflexivity |]. apply line_span. exact Hv.
Qed.
Lemma option_is_option : forall o, is_option (option_text o) = true.
Proof. intros o. reflexivity. Qed.

(** Effect on the parameters: a table from names to values; [load] is what the file does *)
Definition apply (load : text -> (text -> text) -> text -> text) (p : text -> text) (a : action) : text -> text :=
  match a with File f => load f p | Set_ n v => fun m => if text_eqb m n then v else p m end.
Lemma parse_options : forall opts, (forall n v, In (n, v) opts -> valid_name n /\ one_line v /\ hd_error v <> Some quote) ->
  parse_rest (map option_text opts) = Some (map (fun o => Set_ (fst o) (snd o)) opts).
Proof.
  induction opts as [| [n v] opts IH]; intros H; [reflexivity |]. cbn [map parse_rest]. rewrite option_is_option.
  destruct (H n v (or_introl eq_refl)) as [A [B C]]. rewrite search_option by assumption. cbn [obind]. rewrite IH by (intros; apply H; right; assumption). reflexivity.
Qed.
Lemma last_wins : forall load opts p name, fold_left (apply load) (map (fun o => Set_ (fst o) (snd o)) opts) p name
  = match find (fun o => text_eqb name (fst o)) (rev opts) with Some o => snd o | None => p name end.
Proof.
  intros load opts. induction opts as [| [n v] opts IH] using rev_ind; intros p name; [reflexivity |].
  rewrite map_app, fold_left_app, rev_app_distr. cbn. destruct (text_eqb name n); [reflexivity |]. apply IH.
Qed.
(** ** Options are read as documented: whatever the arguments of the mode ([pre]), an optional file
    and any list of options, the file is parsed first and each option then overrides it; the last
    option for a name counts. *)
Theorem C90_options : forall load p pre (file : option text) opts,
  (forall f, file = Some f -> firstn 2 f <> dashes) ->
  (forall n v, In (n, v) opts -> valid_name n /\ one_line v /\ hd_error v <> Some quote) ->
  exists acts, parse_params (length pre) (pre ++ match file with Some f => [f] | None => [] end ++ map option_text opts) = Some acts
  /\ forall name, fold_left (apply load) acts p name
     = match find (fun o => text_eqb name (fst o)) (rev opts) with
       | Some o => snd o | None => match file with Some f => load f p name | None => p name end end.
Proof.
  intros load p pre file opts Hf Ho. unfold parse_params. rewrite skipn_app, skipn_all, Nat.sub_diag. cbn [skipn app].
  destruct file as [f |].
  - exists (File f :: map (fun o => Set_ (fst o) (snd o)) opts). cbn [app].
    unfold is_option at 1. destruct (text_eqb_spec (firstn 2 f) (t "--")) as [E | _]; [exfalso; exact (Hf f eq_refl E) |].
    rewrite parse_options by exact Ho. cbn [obind]. split; [reflexivity |]. intros name. cbn [fold_left]. rewrite last_wins. reflexivity.
  - exists (map (fun o => Set_ (fst o) (snd o)) opts). cbn [app]. split; [| intros; apply last_wins].
    destruct opts as [| o opts]; [reflexivity |]. change (map option_text (o :: opts)) with (option_text o :: map option_text opts) at 1.
    cbn [map]. rewrite option_is_option. change (option_text o :: map option_text opts) with (map option_text (o :: opts)). rewrite parse_options by exact Ho. reflexivity.
Qed.
Print Assumptions C90_options.
Example C90_options_applies : parse_params 3 (map t ["sintering"; "--cloud"; "49.cloud"; "job.prm"; "--TimeIntegration.TimeEnd=500"; "--MatrixBased=true"]%string)
  = Some [File (t "job.prm"); Set_ (t "TimeIntegration.TimeEnd") (t "500"); Set_ (t "MatrixBased") (t "true")].
Proof. vm_compute. reflexivity. Qed.

(** ** Paths: the parts of a name between dots are the subsections and the entry *)
Fixpoint join (parts : list text) : text :=
  match parts with [] => [] | [w] => w | w :: ws => w ++ "."%char :: join ws end.
Lemma split_word : forall w r, (forall c, In c w -> c <> "."%char) -> split_dots (w ++ "."%char :: r) = w :: split_dots r.
Proof.
  induction w as [| c w IH]; intros r H; [reflexivity |]. cbn [app split_dots]. destruct (Ascii.eqb_spec c "."%char) as [E | _]; [exfalso; exact (H c (or_introl eq_refl) E) |].
  rewrite IH by (intros; apply H; right; assumption). reflexivity.
Qed.
Lemma split_last : forall w, (forall c, In c w -> c <> "."%char) -> split_dots w = [w].
Proof.
  induction w as [| c w IH]; intros H; [reflexivity |]. cbn [split_dots]. destruct (Ascii.eqb_spec c "."%char) as [E | _]; [exfalso; exact (H c (or_introl eq_refl) E) |].
  rewrite IH by (intros; apply H; right; assumption). reflexivity.
Qed.
Theorem C90_path : forall sections entry, (forall w c, In w (sections ++ [entry]) -> In c w -> c <> "."%char) ->
  path (join (sections ++ [entry])) = (sections, entry).
Proof.
  intros sections entry H. assert (E : split_dots (join (sections ++ [entry])) = sections ++ [entry]).
  { induction sections as [| w ws IH]; [apply split_last; intros c I; exact (H entry c (or_introl eq_refl) I) |].
    cbn [app]. assert (J : join (w :: ws ++ [entry]) = w ++ "."%char :: join (ws ++ [entry])) by (destruct ws; reflexivity). rewrite J, split_word.
    - rewrite IH; [reflexivity |]. intros; apply (H w0); [right |]; assumption.
    - intros c I. exact (H w c (or_introl eq_refl) I). }
  unfold path. rewrite E, removelast_last, last_last. reflexivity.
Qed.
Print Assumptions C90_path.

(** ** Malformed options are rejected: no argument with two dashes and without an equals sign gets
    through, wherever it stands *)
Lemma match_equals : forall l m, match_here l = Some m -> In "="%char l.
Proof.
  intros l m H. unfold match_here in H. destruct l as [| a [| b r]]; try discriminate; [destruct (ascii_dec a "-"%char) as [-> | N]; [discriminate | destruct a as [[] [] [] [] [] [] [] []]; try discriminate] |].
  assert (S : forall p l, fst (span p l) ++ snd (span p l) = l).
  { clear. intros p l. induction l as [| c l IH]; [reflexivity |]. cbn. destruct (p c); [| reflexivity]. destruct (span p l). cbn in *. congruence. }
  destruct (ascii_dec a "-"%char) as [-> | N]; [| destruct a as [[] [] [] [] [] [] [] []]; try discriminate; exfalso; apply N; reflexivity].
  destruct (ascii_dec b "-"%char) as [-> | N]; [| destruct b as [[] [] [] [] [] [] [] []]; try discriminate; exfalso; apply N; reflexivity].
  specialize (S in_class r). destruct (span in_class r) as [n rest]. cbn [fst snd] in S. destruct rest as [| c v]; [discriminate |].
  destruct (ascii_dec c "="%char) as [-> | N]; [| destruct c as [[] [] [] [] [] [] [] []]; try discriminate; exfalso; apply N; reflexivity].
  rewrite <- S. right. right. apply in_or_app. right. left. reflexivity.
Qed.
Lemma search_equals : forall l m, regex_search l = Some m -> In "="%char l.
Proof.
  induction l as [| c l IH]; intros m H; [discriminate |]. cbn [regex_search] in H. destruct (match_here (c :: l)) eqn:E; [exact (match_equals _ _ E) | right; exact (IH _ H)].
Qed.
Theorem C90_rejected : forall offset (argv : list text) (flag : text), In flag (skipn offset argv) -> firstn 2 flag = dashes -> ~ In "="%char flag -> parse_params offset argv = None.
Proof.
  intros offset argv flag I F NE. unfold parse_params. assert (P : forall l : list text, In flag l -> parse_rest l = None).
  { induction l as [| x l IH]; intros J; [destruct J |]. cbn [parse_rest]. destruct J as [-> | J].
    - unfold is_option. rewrite F. destruct (text_eqb_spec dashes (t "--")) as [_ | N]; [| exfalso; apply N; reflexivity].
      destruct (regex_search flag) as [m |] eqn:E; [exfalso; exact (NE (search_equals _ _ E)) | reflexivity].
    - destruct (is_option x); [| exact (IH J)]. destruct (regex_search x) as [[n v] |]; [| reflexivity]. cbn [obind]. rewrite (IH J). reflexivity. }
  destruct (skipn offset argv) as [| x l]; [destruct I |]. destruct (is_option x) eqn:E; [apply P; exact I |].
  destruct I as [-> | I]; [| rewrite (P l I); reflexivity]. unfold is_option in E. rewrite F in E. discriminate.
Qed.
Print Assumptions C90_rejected.

(** ** Refuted: the documented form with a quoted value.  The closing quote becomes part of it. *)
Theorem C90_quoted_refuted : forall n v, valid_name n -> one_line v ->
  regex_search (dashes ++ n ++ equals ++ quote :: v ++ [quote]) = Some (n, v ++ [quote]) /\ v ++ [quote] <> v.
Proof.
  intros n v Hn Hv. split.
  - apply search_match. rewrite match_option by exact Hn. rewrite Ascii.eqb_refl. f_equal. f_equal. apply line_span.
    intros c I. apply in_app_or in I. destruct I as [I | [<- | []]]; [exact (Hv c I) | split; discriminate].
  - intros E. apply (f_equal (@length ascii)) in E. rewrite app_length in E. cbn in E. lia.
Qed.
Print Assumptions C90_quoted_refuted.
(** ** Refuted: arguments that are no options are reported.  After the first one they are dropped
    without a message, wherever they stand; a misspelt option with one dash has no effect *)
Theorem C90_ignored_refuted : forall pre first a x b, firstn 2 x <> dashes ->
  parse_params (length pre) (pre ++ first :: a ++ x :: b) = parse_params (length pre) (pre ++ first :: a ++ b).
Proof.
  intros pre first a x b H. unfold parse_params. rewrite !skipn_app, skipn_all, Nat.sub_diag. cbn [skipn app].
  assert (P : parse_rest (a ++ x :: b) = parse_rest (a ++ b)).
  { induction a as [| y a IH]; [| cbn [app parse_rest]; rewrite IH; reflexivity]. cbn [app parse_rest]. unfold is_option.
    destruct (text_eqb_spec (firstn 2 x) (t "--")) as [E | _]; [exfalso; exact (H E) | reflexivity]. }
  destruct (is_option first) eqn:E; cbn [parse_rest]; [rewrite E |]; rewrite P; reflexivity.
Qed.
Print Assumptions C90_ignored_refuted.
Example C90_ignored : parse_params 2 (map t ["sintering"; "--debug"; "job.prm"; "-MatrixBased=true"]%string) = Some [File (t "job.prm")].
Proof. vm_compute. reflexivity. Qed.
(** ** Refuted: an option either has the documented form or is rejected.  The expression is searched,
    not matched, so that the tail of a malformed option sets another parameter *)
Theorem C90_search_refuted : exists flag n v, regex_search flag = Some (n, v) /\ flag <> option_text (n, v) /\ flag <> dashes ++ n ++ equals ++ quote :: v
  /\ In flag (map t ["--Output--MatrixBased=true"]%string).
Proof.
  exists (t "--Output--MatrixBased=true"), (t "MatrixBased"), (t "true"). split; [vm_compute; reflexivity |]. split; [discriminate |]. split; [discriminate | left; reflexivity].
Qed.
Print Assumptions C90_search_refuted.

(** ** The modes: a problem is started only for a known mode with all of its arguments; the options
    begin right behind them; order parameters are within the compiled range unless the state comes
    from a restart or is the one for debugging. *)
Theorem C90_start : forall dim max_grains positive atoi is_open n_ops argv m offset n,
  runner dim max_grains positive atoi is_open n_ops argv = Start m offset n ->
  let arg i := nth i argv [] in
  (offset <= length argv)%nat /\
  match m with
  | Circle k => arg 1%nat = t "--circle" /\ offset = 4%nat /\ positive (arg 2%nat) = true /\ k = to_unsigned (atoi (arg 3%nat)) /\ (0 < k)%N
  | Hypercube ns _ => arg 1%nat = t "--hypercube" /\ offset = (3 + dim)%nat /\ positive (arg 2%nat) = true /\ length ns = dim
      /\ (forall d k, nth_error ns d = Some k -> k = to_unsigned (atoi (arg (3 + d)%nat)) /\ (0 < k)%N)
  | Cloud => arg 1%nat = t "--cloud" /\ offset = 3%nat /\ is_open (arg 2%nat) = true
  | Voronoi => arg 1%nat = t "--voronoi" /\ offset = 3%nat /\ is_open (arg 2%nat) = true /\ dim = 2%nat
  | Imaging => arg 1%nat = t "--imaging" /\ offset = 3%nat /\ is_open (arg 2%nat) = true /\ dim = 2%nat
  | Restart => arg 1%nat = t "--restart" /\ offset = 3%nat
  | Debug => arg 1%nat = t "--debug" /\ offset = 2%nat
  end /\ (m <> Debug -> n = n_ops m) /\ (m <> Restart -> m <> Debug -> (n <= max_grains)%N).
Proof.
  intros dim mg pos ai op nops argv m offset n H. cbv zeta. unfold runner in H.
  destruct (Nat.leb_spec (length argv) 1) as [_ | L1]; [discriminate |].
  assert (C : forall m' o' m o n, checked mg nops m' o' = Start m o n -> m = m' /\ o = o' /\ n = nops m' /\ (n <= mg)%N).
  { clear. intros m' o' m o n H. unfold checked in H. destruct (N.leb_spec (nops m') mg); [| discriminate]. injection H as <- <- <-. auto. }
  destruct (text_eqb_spec (nth 1 argv []) (t "--help")); [discriminate |].
  destruct (text_eqb_spec (nth 1 argv []) (t "--circle")) as [E |].
  { destruct (Nat.leb_spec 4 (length argv)); [| discriminate]. destruct (pos (nth 2 argv [])) eqn:P; [| discriminate]. cbn [andb] in H.
    destruct (N.ltb_spec 0 (to_unsigned (ai (nth 3 argv [])))); [| discriminate]. apply C in H. destruct H as [-> [-> [-> Hn]]]. auto 10. }
  destruct (text_eqb_spec (nth 1 argv []) (t "--hypercube")) as [E |].
  { destruct (Nat.leb_spec (3 + dim) (length argv)); [| discriminate]. destruct (pos (nth 2 argv [])) eqn:P; [| discriminate]. cbn [andb] in H.
    destruct (forallb _ _) eqn:F; [| discriminate]. apply C in H. destruct H as [-> [-> [-> Hn]]]. split; [assumption |]. split; [| auto].
    split; [exact E |]. split; [reflexivity |]. split; [reflexivity |]. split; [rewrite map_length, seq_length; reflexivity |]. intros d k Hd. split.
    - rewrite nth_error_map in Hd. destruct (nth_error (seq 0 dim) d) as [x |] eqn:Ex; [| discriminate]. cbn in Hd. injection Hd as <-.
      assert (D : (d < dim)%nat) by (rewrite <- (seq_length dim 0); apply nth_error_Some; congruence).
      rewrite (nth_error_nth' _ 0%nat) in Ex by (rewrite seq_length; exact D). rewrite seq_nth in Ex by exact D. injection Ex as <-. reflexivity.
    - rewrite forallb_forall in F. specialize (F k (nth_error_In _ _ Hd)). apply N.ltb_lt. exact F. }
  destruct (text_eqb_spec (nth 1 argv []) (t "--cloud")) as [E |].
  { destruct (Nat.leb_spec 3 (length argv)); [| discriminate]. destruct (op (nth 2 argv [])) eqn:P; [| discriminate]. apply C in H. destruct H as [-> [-> [-> Hn]]]. auto 10. }
  destruct (text_eqb_spec (nth 1 argv []) (t "--voronoi")) as [E |]; cbn [orb] in H.
  { destruct (Nat.eqb_spec dim 2); [| discriminate]. destruct (Nat.leb_spec 3 (length argv)); [| discriminate]. destruct (op (nth 2 argv [])) eqn:P; [| discriminate].
    apply C in H. destruct H as [-> [-> [-> Hn]]]. auto 10. }
  destruct (text_eqb_spec (nth 1 argv []) (t "--imaging")) as [E |].
  { destruct (Nat.eqb_spec dim 2); [| discriminate]. destruct (Nat.leb_spec 3 (length argv)); [| discriminate]. destruct (op (nth 2 argv [])) eqn:P; [| discriminate].
    apply C in H. destruct H as [-> [-> [-> Hn]]]. auto 10. }
  destruct (text_eqb_spec (nth 1 argv []) (t "--restart")) as [E |].
  { destruct (Nat.leb_spec 3 (length argv)); [| discriminate]. injection H as <- <- <-. split; [assumption |]. split; [auto |]. split; [auto | congruence]. }
  destruct (text_eqb_spec (nth 1 argv []) (t "--debug")) as [E |]; [| discriminate].
  injection H as <- <- <-. split; [lia |]. split; [auto |]. split; congruence.
Qed.
Print Assumptions C90_start.
Definition digits (s : text) : Z := if text_eqb s (t "3") then 3%Z else if text_eqb s (t "-1") then (-1)%Z else if text_eqb s (t "65536") then 65536%Z else 0%Z.
Example C90_start_applies : runner 3 4 (fun _ => true) digits (fun _ => true) (fun _ => 2%N) (map t ["sintering"; "--hypercube"; "7.5"; "3"; "3"; "3"; "job.prm"]%string)
  = Start (Hypercube [3; 3; 3]%N 27) 6 2.
Proof. vm_compute. reflexivity. Qed.

(** ** Refuted: without arguments the help is printed.  The mode is made from [argv[1]] before the
    number of arguments is looked at *)
Theorem C90_noargs_refuted : forall dim max_grains positive atoi is_open n_ops program, runner dim max_grains positive atoi is_open n_ops [program] = Undefined.
Proof. reflexivity. Qed.
Print Assumptions C90_noargs_refuted.
(** ** Refuted: only positive numbers of particles are accepted.  Every negative number passes the
    check as a number of more than two thousand million particles, if the order parameters of the
    initial values are within the range *)
Theorem C90_negative_refuted : forall dim max_grains positive atoi is_open n_ops (argv : list text), length argv = 4%nat -> nth 1 argv [] = t "--circle" ->
  positive (nth 2 argv []) = true -> (- 2 ^ 31 <= atoi (nth 3 argv []) < 0)%Z -> (forall m, (n_ops m <= max_grains)%N) ->
  exists k, runner dim max_grains positive atoi is_open n_ops argv = Start (Circle k) 4 (n_ops (Circle k)) /\ (2 ^ 31 <= k)%N.
Proof.
  intros dim mg pos ai op nops argv L E P Z0 NO. exists (to_unsigned (ai (nth 3 argv []))).
  assert (U : (2 ^ 31 <= to_unsigned (ai (nth 3 argv [])))%N).
  { unfold to_unsigned. replace (ai (nth 3 argv []) mod 2 ^ 32)%Z with (ai (nth 3 argv []) + 2 ^ 32)%Z; [lia |].
    apply Z.mod_unique with (-1)%Z; lia. }
  split; [| exact U]. unfold runner. rewrite L, E, P. cbn [Nat.leb text_eqb andb]. change (text_eqb (t "--circle") (t "--help")) with false. change (text_eqb (t "--circle") (t "--circle")) with true.
  cbn [Nat.leb]. destruct (N.ltb_spec 0 (to_unsigned (ai (nth 3 argv [])))); [| lia]. unfold checked. destruct (N.leb_spec (nops (Circle (to_unsigned (ai (nth 3 argv []))))) mg) as [_ | X]; [reflexivity |].
  specialize (NO (Circle (to_unsigned (ai (nth 3 argv []))))). lia.
Qed.
Print Assumptions C90_negative_refuted.
Example C90_negative : runner 2 4 (fun _ => true) digits (fun _ => true) (fun _ => 2%N) (map t ["sintering"; "--circle"; "7.5"; "-1"]%string) = Start (Circle 4294967295) 4 2.
Proof. vm_compute. reflexivity. Qed.
(** ** The number of particles printed for a packing is the product of the directions if that fits
    into 32 bits.  Refuted beyond: 65536 x 65536 particles are announced as none *)
Theorem C90_total_refuted :
  (forall ns, (fold_right N.mul 1 ns < 2 ^ 32)%N -> (forall k, In k ns -> 0 < k)%N -> total ns = fold_right N.mul 1%N ns)
  /\ total [65536; 65536]%N = 0%N.
Proof.
  split; [| reflexivity]. assert (P : forall ns a, (0 < a)%N -> (a * fold_right N.mul 1 ns < 2 ^ 32)%N -> (forall k, In k ns -> 0 < k)%N -> fold_left (fun a n => u32 (a * n)) ns a = (a * fold_right N.mul 1 ns)%N).
  { induction ns as [| k ns IH]; intros a Ha H Hp; [cbn; lia |]. cbn [fold_left fold_right] in *.
    assert (K : (0 < k)%N) by (apply Hp; left; reflexivity).
    assert (F : (1 <= fold_right N.mul 1 ns)%N). { clear - Hp. induction ns as [| j ns IH]; [cbn; lia |]. cbn [fold_right]. specialize (IH ltac:(intros k0 [<- | I]; apply Hp; [left; reflexivity | right; right; exact I])). assert (0 < j)%N by (apply Hp; right; left; reflexivity). nia. }
    assert (U : u32 (a * k) = (a * k)%N) by (unfold u32; apply N.mod_small; nia). rewrite U. rewrite IH; [lia | nia | nia | intros; apply Hp; right; assumption]. }
  intros ns H Hp. unfold total. rewrite P; [lia | lia | lia | exact Hp].
Qed.
Print Assumptions C90_total_refuted.
(** ** Refuted: no run starts with more order parameters than compiled.  The mode for debugging has
    two and is not checked *)
Theorem C90_debug_refuted : forall dim positive atoi is_open n_ops program rest, exists n,
  runner dim 1 positive atoi is_open n_ops (program :: t "--debug" :: rest) = Start Debug 2 n /\ (1 < n)%N.
Proof. intros. exists 2%N. split; [reflexivity | lia]. Qed.
Print Assumptions C90_debug_refuted.

(** The word characters of the names are the letters, the digits and the underscore, and no
    others. *)
Theorem C90_word : forall c, is_word c = true <->
  In c (list_ascii_of_string "ABCDEFGHIJKLMNOPQRSTUVWXYZabcdefghijklmnopqrstuvwxyz0123456789_").
Proof.
  intro c.
  assert (H : is_word c = if in_dec ascii_dec c (list_ascii_of_string "ABCDEFGHIJKLMNOPQRSTUVWXYZabcdefghijklmnopqrstuvwxyz0123456789_") then true else false).
  { destruct c as [[|] [|] [|] [|] [|] [|] [|] [|]]; vm_compute; reflexivity. }
  rewrite H. destruct (in_dec _ _ _); split; intro; try assumption; try reflexivity; [discriminate|contradiction].
Qed.
Print Assumptions C90_word.
