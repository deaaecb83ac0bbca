(** C97: what the files with results contain.  See ResultsFileModel.v. *)
From Coq Require Import String Ascii DecimalString DecimalNat DecimalFacts.
From Coq Require Import List Arith Bool Lia FinFun.
From Verif Require Import ResultsFileModel.
Import ListNotations.
Local Open Scope nat_scope.
Local Open Scope list_scope.

Lemma to_string_inj : forall a b, to_string a = to_string b -> a = b.
Proof.
  intros a b H. unfold to_string in H. apply DecimalNat.Unsigned.to_uint_inj.
  assert (E : NilEmpty.uint_of_string (NilEmpty.string_of_uint (Nat.to_uint a)) = NilEmpty.uint_of_string (NilEmpty.string_of_uint (Nat.to_uint b))) by (rewrite H; reflexivity).
  rewrite !NilEmpty.usu in E. congruence.
Qed.
Lemma append_inj : forall p a b, (p ++ a)%string = (p ++ b)%string -> a = b.
Proof. induction p as [| c p IH]; intros a b H; [exact H |]. cbn in H. injection H as H. apply IH. exact H. Qed.
Lemma append_length : forall a b, String.length (a ++ b) = String.length a + String.length b.
Proof. induction a as [| c a IH]; intros b; [reflexivity |]. cbn. rewrite IH. reflexivity. Qed.

(** ** Names of the blocks *)
Lemma set_name_nth : forall names i x j, nth_error (set_name names i x) j = if Nat.eqb j i then match nth_error names i with Some _ => Some x | None => None end else nth_error names j.
Proof.
  induction names as [| y names IH]; intros i x j; cbn [set_name].
  - destruct i, j; cbn [nth_error]; try reflexivity; destruct (Nat.eqb _ _); reflexivity.
  - destruct i as [| i], j as [| j]; cbn [set_name nth_error Nat.eqb]; try reflexivity. apply IH.
Qed.
Lemma set_name_length : forall names i x, length (set_name names i x) = length names.
Proof. induction names as [| y names IH]; intros [| i] x; cbn [set_name length]; try reflexivity. rewrite IH. reflexivity. Qed.

Lemma set_names : forall (f : nat -> nat) (x : nat -> string) n a names j, (forall i k, f i = f k -> i = k) ->
  nth_error (fold_left (fun names i => set_name names (f i) (x i)) (seq a n) names) j =
    match nth_error names j with
    | None => None
    | Some y => match find (fun i => Nat.eqb (f i) j) (seq a n) with Some i => Some (x i) | None => Some y end
    end.
Proof.
  intros f x. induction n as [| n IH]; intros a names j Inj; cbn [seq fold_left find]; [destruct (nth_error names j); reflexivity |].
  rewrite IH by exact Inj. rewrite set_name_nth. destruct (Nat.eqb_spec j (f a)) as [-> | Hne].
  - rewrite Nat.eqb_refl. destruct (nth_error names (f a)); [| reflexivity].
    destruct (find _ (seq (S a) n)) as [i |] eqn:E; [| reflexivity]. apply find_some in E. destruct E as [I E]. apply Nat.eqb_eq in E. apply Inj in E.
    apply in_seq in I. lia.
  - destruct (Nat.eqb_spec (f a) j) as [X | _]; [congruence |]. reflexivity.
Qed.

Lemma find_shift : forall c n a j, find (fun i => Nat.eqb (c + i) j) (seq a n) = if Nat.leb (c + a) j && Nat.ltb j (c + a + n) then Some (j - c) else None.
Proof.
  intros c. induction n as [| n IH]; intros a j; cbn [seq find].
  - destruct (Nat.leb_spec (c + a) j), (Nat.ltb_spec j (c + a + 0)); cbn [andb]; try reflexivity; lia.
  - destruct (Nat.eqb_spec (c + a) j) as [<- | Hne].
    + rewrite Nat.leb_refl. destruct (Nat.ltb_spec (c + a) (c + a + S n)); [cbn [andb]; f_equal; lia | lia].
    + rewrite IH. destruct (Nat.leb_spec (c + S a) j), (Nat.leb_spec (c + a) j), (Nat.ltb_spec j (c + S a + n)), (Nat.ltb_spec j (c + a + S n)); cbn [andb]; try reflexivity; lia.
Qed.

Lemma nth_repeat_empty : forall n j, nth_error (repeat ""%string n) j = if Nat.ltb j n then Some ""%string else None.
Proof.
  induction n as [| n IH]; intros j; [destruct j; reflexivity |]. destruct j as [| j]; [reflexivity |]. cbn [repeat nth_error]. rewrite IH.
  destruct (Nat.ltb_spec j n), (Nat.ltb_spec (S j) (S n)); try reflexivity; lia.
Qed.

Definition layout (dim blocks n_non_grains n_grains : nat) (coupled : bool) : Prop :=
  (n_non_grains = 0 \/ n_non_grains = 2) /\ blocks = n_non_grains + n_grains + (if coupled then dim else 0).

Lemma block_names_nth : forall dim blocks nn ng coupled r j, layout dim blocks nn ng coupled -> j < blocks ->
  nth_error (block_names dim blocks nn ng coupled r) j = Some
    (if Nat.ltb j nn then if want_ch r then if Nat.eqb j 0 then "c" else "mu" else ""
     else if Nat.ltb j (nn + ng) then if want_ac r then "eta" ++ to_string (j - nn) else ""
     else if want_displ r then "u" else "")%string.
Proof.
  intros dim blocks nn ng coupled r j [Hnn Hb] Hj. unfold block_names.
  set (n1 := if want_ch r && Nat.ltb 0 nn then _ else _).
  assert (N1 : nth_error n1 j = Some (if Nat.ltb j nn then if want_ch r then if Nat.eqb j 0 then "c" else "mu" else "" else "")%string).
  { unfold n1. destruct (want_ch r); cbn [andb].
    - destruct (Nat.ltb_spec 0 nn) as [P | P].
      + rewrite !set_name_nth, !nth_repeat_empty. destruct Hnn as [-> | ->]; [lia |].
        destruct (Nat.ltb_spec j blocks); [| lia]. destruct (Nat.ltb_spec 0 blocks); [| lia]. destruct (Nat.ltb_spec 1 blocks); [| lia].
        destruct j as [| [| j]]; cbn [Nat.eqb]; try reflexivity.
      + rewrite nth_repeat_empty. destruct (Nat.ltb_spec j blocks); [| lia]. destruct (Nat.ltb_spec j nn); [lia | reflexivity].
    - rewrite nth_repeat_empty. destruct (Nat.ltb_spec j blocks); [| lia]. destruct (Nat.ltb j nn); reflexivity. }
  clearbody n1. set (n2 := if want_ac r then _ else _).
  assert (N2 : nth_error n2 j = Some (if Nat.ltb j nn then if want_ch r then if Nat.eqb j 0 then "c" else "mu" else ""
     else if Nat.ltb j (nn + ng) then if want_ac r then "eta" ++ to_string (j - nn) else "" else "")%string).
  { unfold n2. destruct (want_ac r).
    - rewrite (set_names (fun ig => nn + ig) (fun ig => ("eta" ++ to_string ig)%string)) by (intros; lia). rewrite N1, find_shift, Nat.add_0_r.
      destruct (Nat.leb_spec nn j), (Nat.ltb_spec j nn), (Nat.ltb_spec j (nn + ng)); cbn [andb]; try reflexivity; lia.
    - rewrite N1. destruct (Nat.ltb j nn); [reflexivity |]. destruct (Nat.ltb j (nn + ng)); reflexivity. }
  clearbody n2. clear N1. destruct (want_displ r); cbn [andb].
  - destruct coupled.
    + rewrite (set_names (fun b => b) (fun _ => "u"%string)) by (intros; assumption). rewrite N2.
      assert (F := find_shift 0 dim (blocks - dim) j). cbn [Nat.add] in F. rewrite F. rewrite Nat.sub_0_r.
      replace (blocks - dim) with (nn + ng) by lia.
      destruct (Nat.leb_spec (nn + ng) j), (Nat.ltb_spec j (nn + ng + dim)), (Nat.ltb_spec j nn), (Nat.ltb_spec j (nn + ng)); cbn [andb]; try reflexivity; lia.
    + rewrite N2. destruct (Nat.ltb_spec j nn); [reflexivity |]. destruct (Nat.ltb_spec j (nn + ng)); [reflexivity | lia].
  - rewrite N2. destruct (Nat.ltb j nn); [reflexivity |]. destruct (Nat.ltb j (nn + ng)); reflexivity.
Qed.

(** ** The file of the domain: all requested blocks, in order, with their names, and
    nothing else *)
Theorem C97_domain : forall (A : Type) dim blocks n_non_grains n_grains coupled r (solution : nat -> A),
  layout dim blocks n_non_grains n_grains coupled ->
  domain_file dim blocks n_non_grains n_grains coupled r solution =
    (if want_ch r && Nat.ltb 0 n_non_grains then [("c"%string, inl (solution 0)); ("mu"%string, inl (solution 1))] else [])
    ++ (if want_ac r then map (fun ig => (("eta" ++ to_string ig)%string, inl (solution (n_non_grains + ig)))) (seq 0 n_grains) else [])
    ++ (if want_displ r && coupled then map (fun d => ("u"%string, inl (solution (n_non_grains + n_grains + d)))) (seq 0 dim) else [])
    ++ (if want_subdomain r then [("subdomain"%string, inr tt)] else []).
Proof.
  intros A dim blocks nn ng coupled r sol L. unfold domain_file, build_default_output. rewrite !app_assoc. f_equal.
  assert (E : forall j, j < blocks -> (match nth_error (block_names dim blocks nn ng coupled r) j with
      | Some name => if String.eqb name "" then [] else [(name, inl (sol j))] | None => [] end : list (string * (A + unit))) =
      if Nat.ltb j nn then if want_ch r then [((if Nat.eqb j 0 then "c" else "mu")%string, inl (sol j))] else []
      else if Nat.ltb j (nn + ng) then if want_ac r then [(("eta" ++ to_string (j - nn))%string, inl (sol j))] else []
      else if want_displ r then [("u"%string, inl (sol j))] else []).
  { intros j Hj. rewrite (block_names_nth dim blocks nn ng coupled r j L Hj). destruct (Nat.ltb j nn).
    - destruct (want_ch r); [destruct (Nat.eqb j 0); reflexivity | reflexivity].
    - destruct (Nat.ltb j (nn + ng)); [destruct (want_ac r); reflexivity | destruct (want_displ r); reflexivity]. }
  assert (FM : forall (f g : nat -> list (string * (A + unit))) a n, (forall j, a <= j < a + n -> f j = g j) -> flat_map f (seq a n) = flat_map g (seq a n)).
  { intros f g a n H. rewrite !flat_map_concat_map. f_equal. apply map_ext_in. intros j Hj. apply in_seq in Hj. apply H. lia. }
  assert (Sg : forall (g : nat -> string * (A + unit)) a n, flat_map (fun j => [g j]) (seq a n) = map g (seq a n)).
  { intros g a n. revert a. induction n as [| n IH]; intros a; [reflexivity |]. cbn [seq flat_map map app]. rewrite IH. reflexivity. }
  assert (Nl : forall a n, flat_map (fun _ => [] : list (string * (A + unit))) (seq a n) = []).
  { intros a n. revert a. induction n as [| n IH]; intros a; [reflexivity |]. cbn [seq flat_map app]. apply IH. }
  assert (Sh : forall (g : nat -> string * (A + unit)) a n, map g (seq a n) = map (fun k => g (a + k)) (seq 0 n)).
  { intros g a n. rewrite <- (Nat.add_0_r a) at 1. generalize 0 as b. induction n as [| n IH]; intros b; [reflexivity |]. cbn [seq map]. f_equal. rewrite plus_n_Sm. apply IH. }
  rewrite (FM _ _ 0 blocks (fun j Hj => E j ltac:(lia))). destruct L as [Hnn Hb]. rewrite Hb. rewrite <- Nat.add_assoc, !seq_app, !flat_map_app, Nat.add_0_l.
  rewrite <- app_assoc. f_equal; [| f_equal].
  - rewrite (FM _ (fun j => if want_ch r then [((if Nat.eqb j 0 then "c" else "mu")%string, inl (sol j))] else []) 0 nn).
    + destruct Hnn as [-> | ->]; destruct (want_ch r); reflexivity.
    + intros j Hj. destruct (Nat.ltb_spec j nn); [reflexivity | lia].
  - rewrite (FM _ (fun j => if want_ac r then [(("eta" ++ to_string (j - nn))%string, inl (sol j))] else []) nn ng).
    + destruct (want_ac r); [| apply Nl]. rewrite Sg, Sh. apply map_ext. intros k. replace (nn + k - nn) with k by lia. reflexivity.
    + intros j Hj. destruct (Nat.ltb_spec j nn); [lia |]. destruct (Nat.ltb_spec j (nn + ng)); [reflexivity | lia].
  - rewrite (FM _ (fun j => if want_displ r then [("u"%string, inl (sol j))] else []) (nn + ng) (if coupled then dim else 0)).
    + destruct (want_displ r); cbn [andb]; [| apply Nl]. rewrite Sg, Sh. destruct coupled; reflexivity.
    + intros j Hj. destruct (Nat.ltb_spec j nn); [lia |]. destruct (Nat.ltb_spec j (nn + ng)); [lia | reflexivity].
Qed.
Print Assumptions C97_domain.

(** ** Files of sections: the wrapped solution has no blocks, so no field is written and no
    contour drawn, whatever was requested *)
Theorem C97_section_refuted : forall (A : Type) (section : list A),
  n_blocks (wrap section) = 0
  /\ (forall i x, nth_error section i = Some x -> memory (wrap section) i = Some x /\ size (wrap section) <= i)
  /\ (forall dim blocks n_non_grains n_grains coupled r default,
        section_file dim blocks n_non_grains n_grains coupled r default section = if want_subdomain r then [("subdomain"%string, inr tt)] else [])
  /\ (forall offset_op n_op, section_contours offset_op n_op section = []).
Proof.
  intros A section. split; [reflexivity |]. split.
  - intros i x E. cbn. rewrite E. split; [reflexivity | lia].
  - split; reflexivity.
Qed.
Print Assumptions C97_section_refuted.

(** ** Vectors and tensors *)
Lemma run_split : forall x rest, exists post, rest = repeat x (run_length x rest) ++ post /\ (forall q, post <> x :: q) /\ skipn (run_length x rest) rest = post.
Proof.
  intros x. induction rest as [| y rest IH]; [exists []; split; [reflexivity |]; split; [discriminate | reflexivity] |]. cbn [run_length].
  destruct (String.eqb_spec y x) as [-> | Hne].
  - destruct IH as [post [A [B C]]]. exists post. cbn [repeat app skipn]. split; [rewrite <- A; reflexivity |]. split; assumption.
  - exists (y :: rest). split; [reflexivity |]. split; [intros q E; congruence | reflexivity].
Qed.

(** the run of [n] times [name] from component [a] on, as long as possible *)
Definition is_run (names : list string) (a n : nat) (name : string) : Prop :=
  exists pre post, names = pre ++ repeat name n ++ post /\ length pre = a /\ 1 <= n
    /\ (forall p, pre <> p ++ [name]) /\ (forall q, post <> name :: q).

Lemma is_run_head : forall x m rest a n name, 1 <= m -> (forall q, rest <> x :: q) ->
  is_run (repeat x m ++ rest) a n name <-> (a = 0 /\ n = m /\ name = x) \/ (exists b, a = m + b /\ is_run rest b n name).
Proof.
  intros x m rest a n name Hm Hr. split.
  - intros [pre [post [E [La [Hn [Hp Hq]]]]]]. destruct pre as [| y pre].
    + left. cbn [length] in La. cbn [app] in E. destruct m as [| m]; [lia |]. destruct n as [| n]; [lia |].
      assert (name = x) by (cbn in E; congruence). subst name. split; [congruence |]. split; [| reflexivity].
      clear La Hp Hm Hn. remember (S m) as m' eqn:Em. remember (S n) as n' eqn:En. clear m Em n En.
      revert n' E. induction m' as [| m IH]; intros n E.
      * destruct n as [| n]; [reflexivity |]. cbn in E. exfalso. apply (Hr (repeat x n ++ post)). exact E.
      * destruct n as [| n]; [cbn in E; exfalso; apply (Hq (repeat x m ++ rest)); congruence |]. f_equal. apply IH. cbn in E. congruence.
    + right. destruct (le_lt_dec m (length (y :: pre))) as [Hl | Hl].
      * exists (a - m). split; [lia |].
        assert (S1 : exists pre', y :: pre = repeat x m ++ pre' /\ rest = pre' ++ repeat name n ++ post).
        { clear - E Hl. revert E Hl. generalize (y :: pre) as w. induction m as [| m IH]; intros w E Hl; [exists w; split; [reflexivity | exact E] |].
          destruct w as [| z w]; [cbn [length] in Hl; lia |]. cbn in E. injection E as <- E. destruct (IH w E ltac:(cbn [length] in Hl; lia)) as [p' [A B]].
          exists p'. cbn [repeat app]. rewrite <- A. split; [reflexivity | exact B]. }
        destruct S1 as [pre' [A B]]. exists pre', post. split; [exact B |]. split; [rewrite <- La, A, app_length, repeat_length; lia |]. split; [exact Hn |]. split; [| exact Hq].
        intros p Ep. apply (Hp (repeat x m ++ p)). rewrite A, Ep, app_assoc. reflexivity.
      * exfalso.
        assert (S2 : exists k, y :: pre = repeat x (S k) /\ name = x).
        { assert (G : forall w, length w < m -> repeat x m ++ rest = w ++ repeat name n ++ post -> w = repeat x (length w) /\ name = x).
          { clear - Hn. induction m as [| m IH]; intros w Hl E; [lia |]. destruct w as [| z w].
            - destruct n as [| n]; [lia |]. cbn in E. split; [reflexivity | congruence].
            - cbn in E. injection E as <- E. cbn [length] in *. destruct (IH w ltac:(lia) E) as [A B]. split; [cbn [repeat]; rewrite <- A; reflexivity | exact B]. }
          destruct (G (y :: pre) Hl E) as [A B]. exists (length pre). split; [exact A | exact B]. }
        destruct S2 as [k [A B]]. apply (Hp (repeat x k)). rewrite A, B. apply repeat_cons.
  - intros [[-> [-> ->]] | [b [-> [pre [post [E [Lb [Hn [Hp Hq]]]]]]]]].
    + exists [], rest. split; [reflexivity |]. split; [reflexivity |]. split; [exact Hm |]. split; [intros p; destruct p; discriminate | exact Hr].
    + exists (repeat x m ++ pre), post. split; [rewrite E, app_assoc; reflexivity |]. split; [rewrite app_length, repeat_length; lia |]. split; [exact Hn |]. split; [| exact Hq].
      intros p Ep. destruct (rev pre) as [| z rp] eqn:Er.
      * assert (pre = []) by (apply (f_equal (@rev string)) in Er; rewrite rev_involutive in Er; exact Er). subst pre. rewrite app_nil_r in Ep.
        destruct m as [| m]; [lia |]. cbn [repeat] in Ep. rewrite repeat_cons in Ep. apply app_inj_tail in Ep. destruct Ep as [_ Ep]. subst name.
        cbn [app] in E. destruct n as [| n]; [lia |]. apply (Hr (repeat x n ++ post)). exact E.
      * assert (P : pre = rev rp ++ [z]) by (apply (f_equal (@rev string)) in Er; rewrite rev_involutive in Er; exact Er).
        rewrite P, app_assoc in Ep. apply app_inj_tail in Ep. destruct Ep as [_ ->]. apply (Hp (rev rp)). exact P.
Qed.

(** The ranges are exactly the longest runs of one name with as many components as a vector
    or a tensor has. *)
Theorem C97_ranges : forall dim names a b name tensor, In (a, b, name, tensor) (ranges dim names) <->
  exists n, is_run names a n name /\ b = a + n - 1 /\ (if tensor then n <> dim /\ n = dim * dim else n = dim).
Proof.
  intros dim names a b name tensor. unfold ranges.
  assert (G : forall fuel i l, length l <= fuel -> In (a, b, name, tensor) (ranges_from fuel dim i l) <->
    exists c n, a = i + c /\ is_run l c n name /\ b = a + n - 1 /\ (if tensor then n <> dim /\ n = dim * dim else n = dim)).
  { induction fuel as [| fuel IH]; intros i l Hl.
    - destruct l; [| cbn [length] in Hl; lia]. cbn [ranges_from In]. split; [tauto |]. intros [c [n [_ [[pre [post [E [_ [Hn _]]]]] _]]]].
      destruct pre; [destruct n; [lia | discriminate] | discriminate].
    - destruct l as [| x rest].
      + cbn [ranges_from In]. split; [tauto |]. intros [c [n [_ [[pre [post [E [_ [Hn _]]]]] _]]]]. destruct pre; [destruct n; [lia | discriminate] | discriminate].
      + cbn [ranges_from]. set (m := S (run_length x rest)). destruct (run_split x rest) as [post [R1 [R2 R3]]].
        assert (El : x :: rest = repeat x m ++ post) by (unfold m; cbn [repeat app]; rewrite <- R1; reflexivity).
        assert (Sk : skipn m (x :: rest) = post) by exact R3. rewrite Sk. rewrite in_app_iff, IH.
        * rewrite El. split.
          -- intros [H | [c [n [Ha [Hr Hb]]]]].
             ++ exists 0, m. rewrite is_run_head by (assumption || (unfold m; lia)).
                destruct (Nat.eqb_spec m dim) as [Em | Em]; [| destruct (Nat.eqb_spec m (dim * dim)) as [Em' | Em']]; cbn [In] in H; destruct H as [H | []] || destruct H;
                  injection H as <- <- <- <-; (split; [lia |]); (split; [left; auto |]); (split; [lia |]); [exact Em | split; assumption].
             ++ exists (m + c), n. split; [lia |]. rewrite is_run_head by (assumption || (unfold m; lia)). split; [right; exists c; auto | exact Hb].
          -- intros [c [n [Ha [Hr Hb]]]]. rewrite is_run_head in Hr by (assumption || (unfold m; lia)). destruct Hr as [[-> [-> ->]] | [d [-> Hr]]].
             ++ left. rewrite Nat.add_0_r in Ha. subst a. destruct Hb as [-> Hb]. destruct tensor.
                ** destruct Hb as [H1 H2]. destruct (Nat.eqb_spec m dim); [contradiction |]. destruct (Nat.eqb_spec m (dim * dim)); [left; reflexivity | contradiction].
                ** destruct (Nat.eqb_spec m dim); [left; reflexivity | contradiction].
             ++ right. exists d, n. split; [lia |]. split; [exact Hr | exact Hb].
        * assert (length (x :: rest) = m + length post) by (rewrite El, app_length, repeat_length; reflexivity). unfold m in *. lia. }
  rewrite (G (length names) 0 names (le_n _)). split.
  - intros [c [n [-> H]]]. exists n. exact H.
  - intros [n H]. exists a, n. split; [reflexivity | exact H].
Qed.
Print Assumptions C97_ranges.

Lemma split_first : forall (x : string) A B X Y, ~ In x A -> ~ In x B -> A ++ x :: X = B ++ x :: Y -> A = B.
Proof.
  intros x. induction A as [| a A IH]; intros [| b B] X Y HA HB E; [reflexivity | | |]; cbn in E; injection E as E1 E2.
  - subst b. exfalso. apply HB. left. reflexivity.
  - subst a. exfalso. apply HA. left. reflexivity.
  - subst b. f_equal. apply (IH B X Y); [intros H; apply HA; right; exact H | intros H; apply HB; right; exact H | exact E2].
Qed.
Lemma count_repeat : forall x y n, count_occ string_dec (repeat x n) y = if string_dec x y then n else 0.
Proof.
  intros x y. induction n as [| n IH]; [destruct (string_dec x y); reflexivity |]. cbn [repeat count_occ]. rewrite IH.
  destruct (string_dec x y); reflexivity.
Qed.

(** [A], [T]: the other names *)
Lemma only_run : forall (A T : list string) x m dim, 2 <= dim -> NoDup (A ++ T) -> ~ In x (A ++ T) -> m = dim \/ m = 0 ->
  forall a b name tensor, In (a, b, name, tensor) (ranges dim (A ++ repeat x m ++ T)) <-> m = dim /\ (a, b, name, tensor) = (length A, length A + dim - 1, x, false).
Proof.
  intros A T x m dim Hd ND NI Hm a b name tensor. rewrite C97_ranges.
  assert (NA : ~ In x A) by (intros H; apply NI; apply in_or_app; left; exact H).
  assert (NT : ~ In x T) by (intros H; apply NI; apply in_or_app; right; exact H).
  assert (Cx : count_occ string_dec (A ++ repeat x m ++ T) x = m).
  { rewrite !count_occ_app, count_repeat. destruct (string_dec x x) as [_ | F]; [| congruence].
    rewrite (proj1 (count_occ_not_In string_dec A x) NA), (proj1 (count_occ_not_In string_dec T x) NT). lia. }
  split.
  - intros [n [[pre [post [E [La [Hn [Hp Hq]]]]]] [Hb Ht]]].
    assert (Hn2 : n = dim \/ n = dim * dim) by (destruct tensor; tauto).
    assert (n2 : 2 <= n) by (destruct Hn2; nia).
    assert (Cn : n <= count_occ string_dec (A ++ repeat x m ++ T) name).
    { rewrite E, !count_occ_app, count_repeat. destruct (string_dec name name); [lia | congruence]. }
    destruct (string_dec name x) as [-> | Hne].
    + rewrite Cx in Cn. destruct Hm as [-> | ->]; [| lia]. assert (n = dim) by (destruct Hn2; nia). subst n.
      assert (tensor = false) by (destruct tensor; [lia | reflexivity]). subst tensor.
      assert (Cp : ~ In x pre).
      { rewrite E, !count_occ_app, count_repeat in Cx. destruct (string_dec x x) as [_ | F]; [| congruence]. apply (count_occ_not_In string_dec). lia. }
      destruct dim as [| dim]; [lia |]. cbn [repeat app] in E. apply split_first in E; [| assumption | assumption]. subst A.
      split; [reflexivity |]. subst a b. reflexivity.
    + exfalso. assert (count_occ string_dec (A ++ repeat x m ++ T) name <= 1).
      { rewrite !count_occ_app, count_repeat. destruct (string_dec x name) as [F | _]; [congruence |].
        assert (X := proj1 (NoDup_count_occ string_dec (A ++ T)) ND name). rewrite count_occ_app in X. lia. }
      lia.
  - intros [-> H]. injection H as -> -> -> ->. exists dim. split; [| split; [reflexivity | reflexivity]].
    exists A, T. split; [reflexivity |]. split; [reflexivity |]. split; [lia |]. split.
    + intros p E. apply NA. rewrite E. apply in_or_app. right. left. reflexivity.
    + intros q E. apply NT. rewrite E. left. reflexivity.
Qed.

Lemma NoDup_app' : forall (A : Type) (l m : list A), NoDup l -> NoDup m -> (forall x, In x l -> In x m -> False) -> NoDup (l ++ m).
Proof.
  intros A. induction l as [| x l IH]; intros m Hl Hm D; [exact Hm |]. inversion Hl as [| ? ? Nx Nl]; subst. cbn [app]. constructor.
  - intros H. apply in_app_or in H. destruct H as [H | H]; [contradiction | apply (D x); [left; reflexivity | exact H]].
  - apply IH; [exact Nl | exact Hm |]. intros y Hy Hy'. apply (D y); [right; exact Hy | exact Hy'].
Qed.
Lemma unique_value : forall (A B : Type) (l : list (A * B)) k x y, NoDup (map fst l) -> In (k, x) l -> In (k, y) l -> x = y.
Proof.
  intros A B. induction l as [| [k' z] l IH]; intros k x y ND Hx Hy; [destruct Hx |]. cbn [map fst] in ND. inversion ND as [| ? ? N1 N2]; subst.
  destruct Hx as [Hx | Hx], Hy as [Hy | Hy].
  - congruence.
  - injection Hx as -> ->. exfalso. apply N1. apply in_map_iff. exists (k, y). split; [reflexivity | exact Hy].
  - injection Hy as -> ->. exfalso. apply N1. apply in_map_iff. exists (k, x). split; [reflexivity | exact Hx].
  - apply (IH k x y N2 Hx Hy).
Qed.

(** In the file of the domain the displacements are one vector and all else are scalars, in
    two and more dimensions. *)
Theorem C97_vectors : forall dim blocks n_non_grains n_grains coupled r (solution : nat -> nat),
  2 <= dim -> layout dim blocks n_non_grains n_grains coupled ->
  let file := domain_file dim blocks n_non_grains n_grains coupled r solution in
  (forall name x y, In (name, x) file -> In (name, y) file -> name <> "u"%string -> x = y)
  /\ forall a b name tensor, In (a, b, name, tensor) (ranges dim (map fst file)) <->
       want_displ r = true /\ coupled = true /\ name = "u"%string /\ tensor = false /\ b = a + dim - 1
       /\ forall d, d < dim -> nth_error file (a + d) = Some ("u"%string, inl (solution (n_non_grains + n_grains + d))).
Proof.
  intros dim blocks nn ng coupled r sol Hd L file. assert (E := C97_domain nat dim blocks nn ng coupled r sol L). fold file in E.
  set (F1 := (if want_ch r && Nat.ltb 0 nn then _ else _) : list (string * (nat + unit))) in E.
  set (F2 := (if want_ac r then _ else _) : list (string * (nat + unit))) in E.
  set (F3 := (if want_displ r && coupled then _ else _) : list (string * (nat + unit))) in E.
  set (F4 := (if want_subdomain r then _ else _) : list (string * (nat + unit))) in E.
  assert (I1 : forall n, In n (map fst F1) -> n = "c"%string \/ n = "mu"%string).
  { intros n H. unfold F1 in H. destruct (_ && _); cbn in H; intuition. }
  assert (I2 : forall n, In n (map fst F2) -> exists ig, n = ("eta" ++ to_string ig)%string).
  { intros n H. unfold F2 in H. destruct (want_ac r); [| destruct H]. rewrite map_map in H. cbn [fst] in H. apply in_map_iff in H. destruct H as [ig [<- _]]. exists ig. reflexivity. }
  assert (I4 : forall n, In n (map fst F4) -> n = "subdomain"%string).
  { intros n H. unfold F4 in H. destruct (want_subdomain r); cbn in H; intuition. }
  assert (ND : NoDup (map fst (F1 ++ F2) ++ map fst F4)).
  { rewrite map_app, <- app_assoc. apply NoDup_app'; [unfold F1; destruct (_ && _); cbn; repeat constructor; cbn; intuition discriminate | apply NoDup_app' |].
    - unfold F2. destruct (want_ac r); [| constructor]. rewrite map_map. cbn [fst]. apply Injective_map_NoDup; [| apply seq_NoDup].
      intros x y H. apply append_inj in H. apply to_string_inj. exact H.
    - unfold F4. destruct (want_subdomain r); cbn; repeat constructor; cbn; tauto.
    - intros n H2 H4. destruct (I2 n H2) as [ig ->]. specialize (I4 _ H4). discriminate.
    - intros n H1 H. apply in_app_or in H. destruct H as [H2 | H4].
      + destruct (I2 n H2) as [ig ->]. destruct (I1 _ H1); discriminate.
      + rewrite (I4 _ H4) in H1. destruct (I1 _ H1); discriminate. }
  set (m := if want_displ r && coupled then dim else 0).
  assert (E3 : map fst F3 = repeat "u"%string m).
  { unfold F3, m. destruct (want_displ r && coupled); [| reflexivity]. rewrite map_map. cbn [fst]. generalize 0 as k. clear. induction dim as [| n IH]; intros k; [reflexivity |]. cbn [seq map repeat]. rewrite IH. reflexivity. }
  assert (L3 : length F3 = m) by (rewrite <- (map_length fst), E3, repeat_length; reflexivity).
  split.
  - intros name x y Hx Hy Hu. rewrite E in Hx, Hy. apply (unique_value _ _ ((F1 ++ F2) ++ F4) name); [rewrite map_app; exact ND | |].
    + rewrite !in_app_iff in *. destruct Hx as [H | [H | [H | H]]]; try tauto. exfalso. apply Hu. apply (in_map fst) in H. rewrite E3 in H. apply repeat_spec in H. exact H.
    + rewrite !in_app_iff in *. destruct Hy as [H | [H | [H | H]]]; try tauto. exfalso. apply Hu. apply (in_map fst) in H. rewrite E3 in H. apply repeat_spec in H. exact H.
  - intros a b name tensor.
    assert (Em : map fst file = map fst (F1 ++ F2) ++ repeat "u"%string m ++ map fst F4) by (rewrite E, app_assoc, !map_app, E3; reflexivity).
    assert (NU : ~ In "u"%string (map fst (F1 ++ F2) ++ map fst F4)).
    { rewrite map_app, !in_app_iff. intros [[H | H] | H]; [destruct (I1 _ H); discriminate | destruct (I2 _ H); discriminate | apply I4 in H; discriminate]. }
    rewrite Em, (only_run (map fst (F1 ++ F2)) (map fst F4) "u" m dim Hd ND NU) by (unfold m; destruct (want_displ r && coupled); auto).
    assert (Nth : forall d, d < m -> nth_error file (length (F1 ++ F2) + d) = Some ("u"%string, inl (sol (nn + ng + d)))).
    { intros d Hdm. rewrite E, app_assoc, nth_error_app2 by lia. replace (length (F1 ++ F2) + d - length (F1 ++ F2)) with d by lia.
      rewrite nth_error_app1 by lia. unfold F3, m in *. destruct (want_displ r && coupled); [| lia].
      rewrite nth_error_map, (nth_error_nth' _ 0) by (rewrite seq_length; lia). rewrite seq_nth by lia. reflexivity. }
    rewrite map_length. unfold m in *. split.
    + intros [M H]. injection H as -> -> -> ->. destruct (want_displ r), coupled; cbn [andb] in *; try lia. repeat split. exact Nth.
    + intros [W [C [-> [-> [-> H]]]]]. assert (L3' : length F3 = dim) by (rewrite L3, W, C; reflexivity). rewrite W, C. cbn [andb]. split; [reflexivity |].
      assert (a = length (F1 ++ F2)).
      { assert (H0 := H 0 ltac:(lia)). assert (H1 := H (dim - 1) ltac:(lia)). rewrite Nat.add_0_r in H0. rewrite E, app_assoc in H0, H1.
        destruct (lt_eq_lt_dec a (length (F1 ++ F2))) as [[Hl | Hl] | Hl]; [exfalso | exact Hl | exfalso].
        - rewrite nth_error_app1 in H0 by lia. apply nth_error_In in H0. apply (in_map fst) in H0. apply NU. apply in_or_app. left. exact H0.
        - rewrite nth_error_app2 in H1 by lia. rewrite nth_error_app2 in H1 by lia. apply nth_error_In in H1. apply (in_map fst) in H1. apply I4 in H1. discriminate. }
      subst a. reflexivity.
Qed.
Print Assumptions C97_vectors.

(** In one dimension every scalar would be a vector; two neighbouring vectors of one name
    are a tensor in two dimensions. *)
Theorem C97_ranges_refuted : forall name other, name <> other ->
  In (0, 0, name, false) (ranges 1 [name; other]) /\ ranges 2 [name; name; name; name] = [(0, 3, name, true)].
Proof.
  intros name other H. split.
  - apply C97_ranges. exists 1. split; [| split; reflexivity]. exists [], [other]. repeat split; [lia | intros p; destruct p; discriminate | intros q E; congruence].
  - unfold ranges. cbn [length ranges_from run_length]. rewrite !String.eqb_refl. reflexivity.
Qed.
Print Assumptions C97_ranges_refuted.

(** ** Control boxes: every accepted box has its own name, the same with and without output
    for the whole domain, which keeps the plain name *)
Theorem C97_boxes : forall (B : Type) (accepted : list B) only name,
  (forall k box, nth_error accepted k = Some box -> exists index, nth_error (box_filters accepted only) index = Some (Some box)
     /\ generate_name accepted only name index = (name ++ "_" ++ to_string k)%string)
  /\ (forall index, nth_error (box_filters accepted only) index = Some None <-> index = 0 /\ (accepted = [] \/ only = false))
  /\ (forall index, nth_error (box_filters accepted only) index = Some None -> generate_name accepted only name index = name)
  /\ (forall i j, i < length (box_filters accepted only) -> j < length (box_filters accepted only) ->
        generate_name accepted only name i = generate_name accepted only name j -> i = j).
Proof.
  intros B accepted only name.
  assert (NoNone : forall (l : list B) i, nth_error (map Some l) i <> Some None).
  { intros l i E. rewrite nth_error_map in E. destruct (nth_error l i); discriminate. }
  assert (Diff : forall k, (name ++ "_" ++ to_string k)%string <> name).
  { intros k E. apply (f_equal String.length) in E. rewrite append_length in E. cbn in E. lia. }
  assert (Inj : forall i j, (name ++ "_" ++ to_string i)%string = (name ++ "_" ++ to_string j)%string -> i = j).
  { intros i j E. apply append_inj in E. cbn in E. injection E as E. apply to_string_inj. exact E. }
  destruct accepted as [| b0 accepted].
  - unfold box_filters, generate_name. cbn [length Nat.eqb negb orb map]. split; [| split; [| split]].
    + intros k box E. destruct k; discriminate.
    + intros index. split.
      * intros H. split; [| left; reflexivity]. destruct index as [| index]; [reflexivity | destruct index; discriminate].
      * intros [-> _]. reflexivity.
    + reflexivity.
    + intros i j Hi Hj _. cbn [length] in *. lia.
  - set (acc := b0 :: accepted) in *. unfold box_filters, generate_name. replace (Nat.eqb (length acc) 0) with false by reflexivity. cbn [negb orb]. destruct only; cbn [negb].
    + split; [| split; [| split]].
      * intros k box E. exists k. split; [rewrite nth_error_map, E; reflexivity | reflexivity].
      * intros index. split; [intros H; exfalso; apply (NoNone acc index H) | intros [_ [H | H]]; discriminate].
      * intros index H. exfalso. apply (NoNone acc index H).
      * intros i j _ _ E. apply Inj. exact E.
    + split; [| split; [| split]].
      * intros k box E. exists (S k). cbn [nth_error Nat.eqb]. split; [rewrite nth_error_map, E; reflexivity |]. replace (S k - 1) with k by lia. reflexivity.
      * intros index. split; [| intros [-> _]; reflexivity]. intros H. split; [| right; reflexivity].
        destruct index as [| index]; [reflexivity |]. exfalso. apply (NoNone acc index). exact H.
      * intros index H. destruct index as [| index]; [reflexivity |]. exfalso. apply (NoNone acc index). exact H.
      * intros i j _ _ E. destruct i as [| i], j as [| j]; cbn [Nat.eqb] in E; [reflexivity | exfalso; symmetry in E; apply Diff in E; exact E | exfalso; apply Diff in E; exact E |].
        apply Inj in E. lia.
Qed.
Print Assumptions C97_boxes.

Example C97_applies :
  layout 3 7 2 2 true
  /\ map fst (domain_file 3 7 2 2 true (mkRequest true true true true) (fun b => b)) = ["c"; "mu"; "eta0"; "eta1"; "u"; "u"; "u"; "subdomain"]%string
  /\ ranges 3 ["c"; "mu"; "eta0"; "eta1"; "u"; "u"; "u"; "subdomain"]%string = [(4, 6, "u"%string, false)]
  /\ section_file 3 7 2 2 true (mkRequest true true true false) 0 [10; 11; 12; 13; 14; 15; 16] = []
  /\ map (generate_name [1; 2] false "contour"%string) [0; 1; 2] = ["contour"; "contour_0"; "contour_1"]%string.
Proof. split; [split; [right; reflexivity | reflexivity] |]. repeat split. Qed.
