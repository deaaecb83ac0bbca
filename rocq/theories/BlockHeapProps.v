(** C103: block vectors with shared blocks compute what one long vector would,
    copies are independent, views share, and where the recorded sizes go
    wrong. *)
From Coq Require Import List QArith Qabs Arith Bool Lia Permutation Lqa.
From Verif Require Import Util BlockVectorModel BlockVectorProps BlockHeapModel BlockHeapProofs.
Import ListNotations.
Local Open Scope nat_scope.

Lemma NoDup_app_remove_r : forall (l m : list nat), NoDup (l ++ m) -> NoDup l.
Proof.
  induction l as [|a l IH]; intros m D; [constructor|]. cbn [app] in D. inversion D as [|? ? N1 D1]; subst.
  constructor; [|exact (IH m D1)]. intro I. apply N1. apply in_app_iff. now left.
Qed.
Lemma NoDup_app_remove_l : forall (l m : list nat), NoDup (l ++ m) -> NoDup m.
Proof. induction l as [|a l IH]; intros m D; [exact D|]. inversion D; subst. apply IH. assumption. Qed.

Lemma nth_app_old : forall (h k : heap) a, a < length h -> nth a (h ++ k) [] = nth a h [].
Proof. intros. apply app_nth1. assumption. Qed.

Lemma nth_snoc : forall (h : heap) x, nth (length h) (h ++ [x]) [] = x.
Proof. intros. rewrite app_nth2 by lia. rewrite Nat.sub_diag. reflexivity. Qed.

Lemma assign_blocks_ok : forall ws vs h,
  (forall a, In a ws -> a < length h) -> (forall a, In a vs -> a < length h) ->
  NoDup vs -> safe vs ws ->
  exists k, assign_blocks h vs ws =
      Some (k, firstn (length ws) vs ++ seq (length h) (length ws - length vs)) /\
    contents k (firstn (length ws) vs ++ seq (length h) (length ws - length vs)) = contents h ws /\
    length k = length h + (length ws - length vs) /\
    (forall a, a < length h -> ~ In a (firstn (length ws) vs) -> nth a k [] = nth a h []).
Proof.
  intros ws. induction ws as [|w wr IH]; intros vs h W V D SF.
  - exists h. cbn. repeat split. lia.
  - cbn [assign_blocks]. pose proof (W w (or_introl eq_refl)) as Lw. rewrite (vget_nth h w Lw). cbn [obind].
    destruct vs as [|a vr].
    + destruct (IH [] (h ++ [nth w h []])) as [k [E [C [L F]]]].
      { intros c I. rewrite app_length. specialize (W c (or_intror I)). lia. }
      { intros c []. } { constructor. }
      { intros b c a LT H1. destruct b; discriminate. }
      rewrite E. cbn [obind fst snd]. exists k.
      rewrite app_length in *. cbn [length] in *. rewrite firstn_nil in *. rewrite Nat.sub_0_r in *. cbn [app seq] in *.
      rewrite Nat.add_1_r in *. cbn [firstn app seq length Nat.sub].
      split; [reflexivity|]. split; [|split].
      * unfold contents in *. cbn [map]. f_equal.
        -- rewrite F by (try lia; intros []). apply nth_snoc.
        -- rewrite C. apply map_ext_in. intros c I. apply nth_app_old. apply W. now right.
      * rewrite L. lia.
      * intros c LT _. rewrite F by (try lia; intros []). apply nth_app_old. exact LT.
    + pose proof (V a (or_introl eq_refl)) as La.
      destruct (vset_some _ h a (nth w h []) La) as [h1 E1]. rewrite E1. cbn [obind].
      destruct (vset_nth _ _ _ _ E1) as [L1 N1]. inversion D as [|? ? Na Dr]; subst.
      destruct (safe_tail _ _ _ _ SF) as [SF' Ns].
      destruct (IH vr h1) as [k [E [C [L F]]]]; [intros c I; rewrite L1; apply W; now right
        | intros c I; rewrite L1; apply V; now right | exact Dr | exact SF' |].
      rewrite E. cbn [obind fst snd]. rewrite L1 in *. exists k. cbn [length firstn app Nat.sub].
      split; [reflexivity|]. split; [|split].
      * unfold contents in *. cbn [map]. f_equal.
        -- rewrite F; [rewrite N1, Nat.eqb_refl; reflexivity | exact La |].
           intro I. apply Na. rewrite <- (firstn_skipn (length wr) vr). apply in_app_iff. now left.
        -- rewrite C. apply map_ext_in. intros c I. rewrite N1.
           destruct (c =? a) eqn:Ea; [|reflexivity]. apply Nat.eqb_eq in Ea. subst. contradiction.
      * exact L.
      * intros c LT I. rewrite F; [|exact LT | intro; apply I; now right]. rewrite N1.
        destruct (c =? a) eqn:Ea; [|reflexivity]. apply Nat.eqb_eq in Ea. subst. exfalso. apply I. now left.
Qed.

Lemma reinit_blocks_ok : forall ws vs h,
  (forall a, In a ws -> a < length h) -> (forall a, In a vs -> a < length h) ->
  NoDup vs -> safe vs ws ->
  exists k, reinit_blocks h vs ws =
      Some (k, firstn (length ws) vs ++ seq (length h) (length ws - length vs)) /\
    contents k (firstn (length ws) vs ++ seq (length h) (length ws - length vs)) =
      map (map (fun _ => 0%Q)) (contents h ws) /\
    length k = length h + (length ws - length vs) /\
    (forall a, a < length h -> ~ In a (firstn (length ws) vs) -> nth a k [] = nth a h []).
Proof.
  intros ws. induction ws as [|w wr IH]; intros vs h W V D SF.
  - exists h. cbn. repeat split. lia.
  - cbn [reinit_blocks]. pose proof (W w (or_introl eq_refl)) as Lw. rewrite (vget_nth h w Lw). cbn [obind].
    destruct vs as [|a vr].
    + destruct (IH [] (h ++ [map (fun _ => 0%Q) (nth w h [])])) as [k [E [C [L F]]]].
      { intros c I. rewrite app_length. specialize (W c (or_intror I)). lia. }
      { intros c []. } { constructor. }
      { intros b c a LT H1. destruct b; discriminate. }
      rewrite E. cbn [obind fst snd]. exists k.
      rewrite app_length in *. cbn [length] in *. rewrite firstn_nil in *. rewrite Nat.sub_0_r in *. cbn [app seq] in *.
      rewrite Nat.add_1_r in *. cbn [firstn app seq length Nat.sub].
      split; [reflexivity|]. split; [|split].
      * unfold contents in *. cbn [map]. f_equal.
        -- rewrite F by (try lia; intros []). apply nth_snoc.
        -- rewrite C. f_equal. apply map_ext_in. intros c I. apply nth_app_old. apply W. now right.
      * rewrite L. lia.
      * intros c LT _. rewrite F by (try lia; intros []). apply nth_app_old. exact LT.
    + pose proof (V a (or_introl eq_refl)) as La.
      destruct (vset_some _ h a (map (fun _ => 0%Q) (nth w h [])) La) as [h1 E1]. rewrite E1. cbn [obind].
      destruct (vset_nth _ _ _ _ E1) as [L1 N1]. inversion D as [|? ? Na Dr]; subst.
      destruct (safe_tail _ _ _ _ SF) as [SF' Ns].
      destruct (IH vr h1) as [k [E [C [L F]]]]; [intros c I; rewrite L1; apply W; now right
        | intros c I; rewrite L1; apply V; now right | exact Dr | exact SF' |].
      rewrite E. cbn [obind fst snd]. rewrite L1 in *. exists k. cbn [length firstn app Nat.sub].
      split; [reflexivity|]. split; [|split].
      * unfold contents in *. cbn [map]. f_equal.
        -- rewrite F; [rewrite N1, Nat.eqb_refl; reflexivity | exact La |].
           intro I. apply Na. rewrite <- (firstn_skipn (length wr) vr). apply in_app_iff. now left.
        -- rewrite C. f_equal. apply map_ext_in. intros c I. rewrite N1.
           destruct (c =? a) eqn:Ea; [|reflexivity]. apply Nat.eqb_eq in Ea. subst. contradiction.
      * exact L.
      * intros c LT I. rewrite F; [|exact LT | intro; apply I; now right]. rewrite N1.
        destruct (c =? a) eqn:Ea; [|reflexivity]. apply Nat.eqb_eq in Ea. subst. exfalso. apply I. now left.
Qed.

Lemma new_valid : forall vs n m h, (forall a, In a vs -> a < h) ->
  forall a, In a (firstn n vs ++ seq h m) -> a < h + m.
Proof.
  intros vs n m h V a I. apply in_app_iff in I. destruct I as [I | I].
  - assert (In a vs) by (rewrite <- (firstn_skipn n vs); apply in_app_iff; now left).
    specialize (V a H). lia.
  - apply in_seq in I. lia.
Qed.

(** ** Norms, mean value and dot product are those of the long vector *)
Theorem C103_norms : forall h v, valid h v ->
  (exists n, l1_norm h v = Some n /\ (n == fold_right (fun a s => Qabs a + s) 0 (flat h v))%Q) /\
  (exists n, l2_square h v = Some n /\ (n == fold_right (fun a s => a * a + s) 0 (flat h v))%Q) /\
  (exists n, linfty_norm h v = Some n /\ (0 <= n)%Q /\
     (forall x, In x (flat h v) -> Qabs x <= n)%Q /\
     (n = 0%Q \/ exists x, In x (flat h v) /\ n = Qabs x)).
Proof.
  intros h v V. split; [|split].
  - destruct (fold_sum_ok block_l1 block_l1 h (ptrs v) 0%Q) as [n [E Q1]];
      [reflexivity | | exact V | exists n; split; [exact E | rewrite Q1; unfold block_l1, flat; lra]].
    intros x y. unfold block_l1. induction x as [|a x IH]; cbn [app fold_right]; [lra|]. rewrite IH. lra.
  - destruct (fold_sum_ok block_l2sq block_l2sq h (ptrs v) 0%Q) as [n [E Q1]];
      [reflexivity | | exact V | exists n; split; [exact E | rewrite Q1; unfold block_l2sq, flat; lra]].
    intros x y. unfold block_l2sq. induction x as [|a x IH]; cbn [app fold_right]; [lra|]. rewrite IH. lra.
  - destruct (linf_ok h (ptrs v) 0%Q) as [n [E [N1 [N2 N3]]]]; [lra | exact V |].
    exists n. split; [exact E|]. split; [exact N1|]. split; [exact N2|].
    destruct N3 as [-> | [-> | N3]]; [now left | now left | now right].
Qed.
Print Assumptions C103_norms.

Theorem C103_all_zero : forall h v, valid h v ->
  exists r, all_zero h v = Some r /\ (r = true <-> forall x, In x (flat h v) -> (x == 0)%Q).
Proof.
  intros h v V. destruct (C103_norms h v V) as [_ [_ [n [E [N0 [N1 N2]]]]]].
  unfold all_zero. rewrite E. cbn [obind]. eexists. split; [reflexivity|].
  rewrite Qeq_bool_iff. split.
  - intros Z x I. specialize (N1 x I). rewrite Z in N1. pose proof (Qabs_nonneg x).
    pose proof (Qle_Qabs x). pose proof (Qle_Qabs (- x)). rewrite Qabs_opp in H1. lra.
  - intro Z. destruct N2 as [-> | [x [I ->]]]; [lra|]. rewrite (Z x I). reflexivity.
Qed.
Print Assumptions C103_all_zero.

Lemma mean_blocks : forall h ps acc, (forall a, In a ps -> a < length h /\ nth a h [] <> []) ->
  exists n, fold_blocks Qplus
         (fun x => m <- block_mean x ;; Some (m * inject_Z (Z.of_nat (length x)))%Q) h ps acc = Some n /\
     (n == acc + block_sum (concat (contents h ps)))%Q.
Proof.
  intros h ps. induction ps as [|a r IH]; intros acc V.
  - exists acc. split; [reflexivity|]. cbn. lra.
  - cbn [fold_blocks]. destruct (V a (or_introl eq_refl)) as [La Ne]. rewrite (vget_nth h a La). cbn [obind].
    unfold block_mean at 1.
    assert (NZ : ~ (inject_Z (Z.of_nat (length (nth a h []))) == 0)%Q).
    { unfold inject_Z, Qeq. cbn [Qnum Qden]. destruct (nth a h []); [congruence|]. cbn [length]. lia. }
    rewrite qdiv_some by exact NZ. cbn [obind].
    destruct (IH (acc + block_sum (nth a h []) / inject_Z (Z.of_nat (length (nth a h []))) *
       inject_Z (Z.of_nat (length (nth a h []))))%Q) as [n [E Q1]]; [intros c I; apply V; now right|].
    exists n. split; [exact E|]. rewrite Q1. cbn [contents map concat]. rewrite block_sum_app.
    unfold contents.
    assert (X : (block_sum (nth a h []) / inject_Z (Z.of_nat (length (nth a h []))) *
                 inject_Z (Z.of_nat (length (nth a h []))) == block_sum (nth a h []))%Q) by (field; exact NZ).
    unfold block in *. rewrite X. lra.
Qed.

Theorem C103_mean : forall h v, valid h v -> current h v -> ptrs v <> [] ->
  (forall a, In a (ptrs v) -> nth a h [] <> []) ->
  exists m, mean_value h v = Some m /\
    (m * inject_Z (Z.of_nat (length (flat h v))) == fold_right Qplus 0 (flat h v))%Q /\
    0 < length (flat h v).
Proof.
  intros h v V C P Ne. unfold mean_value.
  destruct (mean_blocks h (ptrs v) 0%Q) as [n [E Q1]]; [intros a I; split; [apply V | apply Ne]; exact I|].
  rewrite E. cbn [obind]. unfold size. rewrite C, <- flat_length. fold (flat h v).
  assert (LP : 0 < length (flat h v)).
  { unfold flat. destruct (ptrs v) as [|a r]; [congruence|]. cbn [contents map concat]. rewrite app_length.
    specialize (Ne a (or_introl eq_refl)). destruct (nth a h []); [congruence|]. cbn [length]. lia. }
  assert (NZ : ~ (inject_Z (Z.of_nat (length (flat h v))) == 0)%Q).
  { unfold inject_Z, Qeq. cbn [Qnum Qden]. lia. }
  rewrite qdiv_some by exact NZ. eexists. split; [reflexivity|]. split; [|exact LP].
  rewrite Q1. unfold block_sum. fold (flat h v). field. exact NZ.
Qed.
Print Assumptions C103_mean.

Theorem C103_dot : forall h v w, valid h v -> valid h w -> shape h (ptrs v) = shape h (ptrs w) ->
  exists d, dot h v w = Some d /\
    (d == fold_right Qplus 0 (map (fun p => fst p * snd p) (combine (flat h v) (flat h w))))%Q.
Proof.
  intros h v w V W SH. destruct (dot_ok (ptrs v) (ptrs w) h 0%Q V W SH) as [d [E Q1]].
  exists d. split; [exact E|]. rewrite Q1. unfold block_sum, map2, flat. lra.
Qed.
Print Assumptions C103_dot.

(** Blocks of different sizes cannot be multiplied *)
Lemma zip_length : forall g x y z, zip g x y = Some z -> length x = length y.
Proof.
  intros g. induction x as [| a x IH]; intros [| b y] z E; cbn [zip] in E; try discriminate; [reflexivity |].
  destruct (zip g x y) eqn:Z1; [| discriminate]. cbn [length]. f_equal. apply (IH _ _ Z1).
Qed.
Theorem C103_dot_shape : forall h v w d i a b x y, dot h v w = Some d ->
  nth_error (ptrs v) i = Some a -> nth_error (ptrs w) i = Some b -> nth_error h a = Some x -> nth_error h b = Some y -> length x = length y.
Proof.
  intros h v w d. unfold dot. generalize 0%Q as acc. generalize (ptrs w) as qs. generalize (ptrs v) as ps.
  induction ps as [| p ps IH]; intros qs acc i a b x y E Ha Hb Hx Hy; [destruct i; discriminate |].
  destruct qs as [| q qs]; [destruct i; discriminate |]. cbn [dot_blocks] in E.
  destruct (vget h p) as [xp |] eqn:P1; [| discriminate]. destruct (vget h q) as [yq |] eqn:P2; [| discriminate]. cbn [obind] in E.
  unfold block_dot in E. destruct (zip Qmult xp yq) as [z |] eqn:Z1; [| discriminate]. cbn [obind] in E.
  destruct i as [| i]; cbn [nth_error] in Ha, Hb.
  - injection Ha as ->. injection Hb as ->. unfold vget in P1, P2. rewrite Hx in P1. rewrite Hy in P2. injection P1 as ->. injection P2 as ->. apply (zip_length _ _ _ _ Z1).
  - apply (IH qs _ i a b x y E Ha Hb Hx Hy).
Qed.
Print Assumptions C103_dot_shape.

(** ** Updates act entry by entry on the long vector and on nothing else *)
Definition only (h k : heap) (v : dvec) : Prop :=
  length k = length h /\ shape k (ptrs v) = shape h (ptrs v) /\
  forall a, ~ In a (ptrs v) -> nth a k [] = nth a h [].

Theorem C103_scalar : forall h v a, valid h v -> NoDup (ptrs v) ->
  (exists k, add_const h v a = Some k /\ flat k v = map (fun x => x + a)%Q (flat h v) /\ only h k v) /\
  (exists k, times h v a = Some k /\ flat k v = map (fun x => x * a)%Q (flat h v) /\ only h k v) /\
  (exists k, set_all h v a = Some k /\ flat k v = map (fun _ => a) (flat h v) /\ only h k v) /\
  (~ (a == 0)%Q -> exists k, divide h v a = Some k /\
      Forall2 Qeq (flat k v) (map (fun x => x / a)%Q (flat h v)) /\ only h k v) /\
  ((a == 0)%Q -> divide h v a = None).
Proof.
  intros h v a V D.
  assert (G : forall f, exists k, upd1 f h (ptrs v) = Some k /\ flat k v = map f (flat h v) /\ only h k v).
  { intro f. destruct (upd1_ok f (ptrs v) h V D) as [k [E [L [C F]]]]. exists k. split; [exact E|]. split.
    - unfold flat. rewrite C. apply concat_map_map.
    - split; [exact L|]. split; [exact (upd1_shape _ _ _ _ C) | exact F]. }
  split; [apply G|]. split; [apply G|]. split; [apply G|]. split.
  - intro NZ. unfold divide. rewrite qdiv_some by exact NZ. cbn [obind].
    destruct (G (fun x => x * (1 / a))%Q) as [k [E [Fl O]]]. exists k. split; [exact E|]. split; [|exact O].
    rewrite Fl. clear - NZ. induction (flat h v) as [|x l IH]; [constructor|]. cbn [map]. constructor; [|exact IH].
    field. exact NZ.
  - intro Z. unfold divide, qdiv. apply Qeq_bool_iff in Z. rewrite Z. reflexivity.
Qed.
Print Assumptions C103_scalar.

Theorem C103_updates : forall h v w a s, valid h v -> valid h w -> NoDup (ptrs v) ->
  safe (ptrs v) (ptrs w) -> shape h (ptrs v) = shape h (ptrs w) ->
  let on op g := exists k, op = Some k /\
    flat k v = map (fun p => g (fst p) (snd p)) (combine (flat h v) (flat h w)) /\ only h k v in
  on (add h v a w) (fun x y => x + a * y)%Q /\
  on (sadd1 h v s w) (fun x y => s * x + y)%Q /\
  on (sadd h v s a w) (fun x y => s * x + a * y)%Q /\
  on (scale h v w) (fun x y => x * y)%Q /\
  on (plus h v w) (fun x y => x + y)%Q /\
  on (minus h v w) (fun x y => x - y)%Q.
Proof.
  intros h v w a s V W D SF SH on.
  assert (G : forall g, on (upd2 g h (ptrs v) (ptrs w)) g).
  { intro g. destruct (upd2_ok g (ptrs v) (ptrs w) h V W D SF SH) as [k [E [L [C [S1 F]]]]].
    exists k. split; [exact E|]. split; [exact C|]. split; [exact L|]. split; [exact S1 | exact F]. }
  repeat (split; [apply G|]). apply G.
Qed.
Print Assumptions C103_updates.

Theorem C103_add_two : forall h v w u a b, valid h v -> valid h w -> valid h u -> NoDup (ptrs v) ->
  safe (ptrs v) (ptrs w) -> safe (ptrs v) (ptrs u) ->
  shape h (ptrs v) = shape h (ptrs w) -> shape h (ptrs v) = shape h (ptrs u) ->
  exists k, add2 h v a w b u = Some k /\
    flat k v = map (fun p => fst p + (a * fst (snd p) + b * snd (snd p)))%Q
                 (combine (flat h v) (combine (flat h w) (flat h u))) /\ only h k v.
Proof.
  intros h v w u a b V W U D SW SU HW HU.
  destruct (add2_ok a b (ptrs v) (ptrs w) (ptrs u) h V W U D SW SU HW HU) as [k [E [L [C [S1 F]]]]].
  exists k. split; [exact E|]. split; [|split; [exact L|]; split; [exact S1 | exact F]].
  unfold flat. rewrite C. unfold map2. generalize (concat (contents h (ptrs v))) as x.
  generalize (combine (concat (contents h (ptrs w))) (concat (contents h (ptrs u)))) as y.
  intros y x. revert y. induction x as [|p x IH]; intros [|q y]; try reflexivity.
  cbn [map combine fst snd]. f_equal. apply IH.
Qed.
Print Assumptions C103_add_two.

(** The dot product is taken with the updated vector; the third operand must
    not share blocks with the updated one, or be the updated one itself. *)
Lemma add_and_dot_split : forall c ps qs rs h acc,
  (forall a, In a ps -> a < length h) -> (forall a, In a qs -> a < length h) -> (forall a, In a rs -> a < length h) ->
  NoDup ps -> safe ps qs -> safe rs ps -> safe ps rs -> shape h ps = shape h qs -> shape h ps = shape h rs ->
  exists k d, add_and_dot_blocks c h ps qs rs acc = Some (k, d) /\
    upd2 (fun x y => (x + c * y)%Q) h ps qs = Some k /\ dot_blocks k ps rs acc = Some d.
Proof.
  intros c ps. induction ps as [|p pr IH]; intros qs rs h acc V W U D SQ SR SR2 HQ HR.
  - exists h, acc. repeat split.
  - destruct qs as [|q qr]; [discriminate|]. destruct rs as [|r rr]; [discriminate|].
    destruct (upd2_ok (fun x y => (x + c * y)%Q) (p :: pr) (q :: qr) h V W D SQ HQ) as [k0 [Ek0 [Lk0 [_ [Sk0 Fk0]]]]].
    pose proof Ek0 as EK.
    cbn [add_and_dot_blocks]. cbn [upd2] in EK.
    pose proof (V p (or_introl eq_refl)) as Lp. pose proof (W q (or_introl eq_refl)) as Lq.
    pose proof (U r (or_introl eq_refl)) as Lr.
    rewrite (vget_nth h p Lp), (vget_nth h q Lq) in *. cbn [obind] in *.
    unfold shape in HQ, HR. cbn [map] in HQ, HR. injection HQ as HQ1 HQ2. injection HR as HR1 HR2.
    rewrite zip_ok in * by exact HQ1. cbn [obind] in *.
    set (n := map2 (fun s t => (s + c * t)%Q) (nth p h []) (nth q h [])) in *.
    destruct (vset_some _ h p n Lp) as [h1 E]. rewrite E in *. cbn [obind] in *.
    destruct (vset_nth _ _ _ _ E) as [L1 N1]. inversion D as [|? ? Np Dr]; subst.
    destruct (safe_tail _ _ _ _ SQ) as [SQ' Nq]. destruct (safe_tail _ _ _ _ SR) as [SR' Nr].
    destruct (safe_tail _ _ _ _ SR2) as [SR2' Nr2].
    assert (Ln : length n = length (nth p h [])) by (unfold n; apply map2_length; exact HQ1).
    assert (LEN : forall a, length (nth a h1 []) = length (nth a h [])).
    { intro a. rewrite N1. destruct (a =? p) eqn:Ea; [|reflexivity]. apply Nat.eqb_eq in Ea. subst. exact Ln. }
    rewrite (vget_nth h1 r) by lia. cbn [obind]. unfold block_dot at 1.
    assert (Lnr : length n = length (nth r h1 [])) by (rewrite LEN; congruence).
    rewrite zip_ok by exact Lnr. cbn [obind].
    destruct (IH qr rr h1 (acc + block_sum (map2 Qmult n (nth r h1 [])))%Q) as [k [d [E1 [E2 E3]]]];
      [intros a I; rewrite L1; apply V; now right | intros a I; rewrite L1; apply W; now right
      | intros a I; rewrite L1; apply U; now right | exact Dr | exact SQ' | exact SR' | exact SR2'
      | unfold shape; rewrite !(map_ext _ _ LEN); exact HQ2 | unfold shape; rewrite !(map_ext _ _ LEN); exact HR2 |].
    assert (k0 = k) by congruence. subst k0.
    exists k, d. split; [exact E1|]. split; [exact Ek0|].
    cbn [dot_blocks].
    destruct (upd2_ok (fun x y => (x + c * y)%Q) pr qr h1) as [k1 [Ek1 [_ [_ [_ Fk]]]]];
      [intros a I; rewrite L1; apply V; now right | intros a I; rewrite L1; apply W; now right | exact Dr | exact SQ'
      | unfold shape; rewrite !(map_ext _ _ LEN); exact HQ2 |].
    assert (k1 = k) by congruence. subst k1.
    rewrite (vget_nth k p), (vget_nth k r) by lia. cbn [obind].
    rewrite (Fk p Np), (N1 p), Nat.eqb_refl. rewrite (Fk r Nr). unfold block_dot. rewrite zip_ok by exact Lnr.
    cbn [obind]. exact E3.
Qed.

Theorem C103_add_and_dot : forall h v w u a, valid h v -> valid h w -> valid h u -> NoDup (ptrs v) ->
  safe (ptrs v) (ptrs w) -> safe (ptrs v) (ptrs u) -> safe (ptrs u) (ptrs v) ->
  shape h (ptrs v) = shape h (ptrs w) -> shape h (ptrs v) = shape h (ptrs u) ->
  exists k d, add_and_dot h v a w u = Some (k, d) /\
    flat k v = map (fun p => fst p + a * snd p)%Q (combine (flat h v) (flat h w)) /\ only h k v /\
    (d == fold_right Qplus 0 (map (fun p => fst p * snd p) (combine (flat k v) (flat k u))))%Q.
Proof.
  intros h v w u a V W U D SW SU US HW HU.
  destruct (add_and_dot_split a (ptrs v) (ptrs w) (ptrs u) h 0%Q V W U D SW US SU HW HU) as [k [d [E [E1 E2]]]].
  destruct (upd2_ok (fun x y => (x + a * y)%Q) (ptrs v) (ptrs w) h V W D SW HW) as [k1 [E3 [L [C [S1 F]]]]].
  assert (k1 = k) by congruence. subst k1.
  exists k, d. split; [exact E|]. split; [exact C|]. split; [split; [exact L|]; split; [exact S1 | exact F]|].
  assert (SU' : shape k (ptrs v) = shape k (ptrs u)).
  { rewrite S1, HU. symmetry. apply shape_ext. intros c I.
    destruct (in_dec Nat.eq_dec c (ptrs v)) as [J | J]; [|rewrite F by exact J; reflexivity].
    apply In_nth_error in J. destruct J as [i Ei].
    assert (X : nth_error (shape k (ptrs v)) i = nth_error (shape h (ptrs v)) i) by (rewrite S1; reflexivity).
    unfold shape in X. rewrite !nth_error_map, Ei in X. cbn [option_map] in X. injection X as X. exact X. }
  destruct (C103_dot k v u) as [d1 [E4 Q1]]; [intros c I; rewrite L; apply V; exact I
    | intros c I; rewrite L; apply U; exact I | exact SU' |].
  unfold dot in E4. assert (d1 = d) by congruence. subst d1. exact Q1.
Qed.
Print Assumptions C103_add_and_dot.

(** ** Copies and assignment *)
Theorem C103_copy : forall h w, valid h w ->
  exists k c, copy h w = Some (k, c) /\
    contents k (ptrs c) = contents h (ptrs w) /\ contents k (ptrs w) = contents h (ptrs w) /\
    (forall a, a < length h -> nth a k [] = nth a h []) /\
    length k = length h + length (ptrs w) /\
    (forall a, In a (ptrs c) -> length h <= a) /\ valid k c /\ NoDup (ptrs c) /\ current k c.
Proof.
  intros h w W. unfold copy, assign. cbn [ptrs].
  destruct (assign_blocks_ok (ptrs w) [] h W) as [k [E [C [L F]]]];
    [intros a [] | constructor | intros b c a LT H1; destruct b; discriminate |].
  rewrite E. cbn [obind fst snd]. rewrite firstn_nil in *. cbn [app length] in *. rewrite Nat.sub_0_r in *.
  rewrite collect_ok by (intros a I; apply in_seq in I; lia). cbn [obind].
  eexists k, _. split; [reflexivity|]. cbn [ptrs sizes]. split; [exact C|].
  assert (F' : forall a, a < length h -> nth a k [] = nth a h []) by (intros a LT; apply F; [exact LT | intros []]).
  split; [apply contents_ext; intros a I; apply F', W, I|]. split; [exact F'|]. split; [exact L|].
  split; [intros a I; cbn [ptrs] in I; apply in_seq in I; lia|].
  split; [intros a I; cbn [ptrs] in I; apply in_seq in I; lia|].
  split; [apply seq_NoDup | reflexivity].
Qed.
Print Assumptions C103_copy.

Theorem C103_assign : forall h v w, valid h v -> valid h w -> NoDup (ptrs v) -> safe (ptrs v) (ptrs w) ->
  exists k v1, assign h v w = Some (k, v1) /\
    contents k (ptrs v1) = contents h (ptrs w) /\ current k v1 /\ valid k v1 /\
    length (ptrs v1) = length (ptrs w) /\
    (forall i, i < length (ptrs v) -> i < length (ptrs w) -> nth_error (ptrs v1) i = nth_error (ptrs v) i) /\
    (forall i a, length (ptrs v) <= i -> nth_error (ptrs v1) i = Some a -> length h <= a) /\
    (forall a, a < length h -> ~ In a (firstn (length (ptrs w)) (ptrs v)) -> nth a k [] = nth a h []).
Proof.
  intros h v w V W D SF. unfold assign.
  destruct (assign_blocks_ok (ptrs w) (ptrs v) h W V D SF) as [k [E [C [L F]]]].
  rewrite E. cbn [obind fst snd].
  assert (VN := new_valid (ptrs v) (length (ptrs w)) (length (ptrs w) - length (ptrs v)) (length h) V).
  rewrite collect_ok by (intros a I; rewrite L; apply VN; exact I). cbn [obind].
  eexists k, _. split; [reflexivity|]. cbn [ptrs sizes]. split; [exact C|]. split; [reflexivity|].
  split; [intros a I; rewrite L; apply VN; exact I|].
  split; [rewrite app_length, firstn_length, seq_length; lia|]. split; [|split; [|exact F]].
  - intros i L1 L2. rewrite nth_error_app1 by (rewrite firstn_length; lia).
    rewrite <- (firstn_skipn (length (ptrs w)) (ptrs v)) at 2. rewrite nth_error_app1 by (rewrite firstn_length; lia).
    reflexivity.
  - intros i a L1 E1. destruct (Nat.lt_ge_cases i (length (firstn (length (ptrs w)) (ptrs v)))) as [L2 | L2].
    { rewrite firstn_length in L2. lia. }
    rewrite nth_error_app2 in E1 by exact L2. apply nth_error_In in E1. apply in_seq in E1. lia.
Qed.
Print Assumptions C103_assign.

Theorem C103_equ : forall h v w a, valid h v -> valid h w -> NoDup (ptrs v) -> safe (ptrs v) (ptrs w) ->
  exists k v1, equ h v a w = Some (k, v1) /\
    flat k v1 = map (fun x => x * a)%Q (flat h w) /\ current k v1.
Proof.
  intros h v w a V W D SF. unfold equ, assign.
  destruct (assign_blocks_ok (ptrs w) (ptrs v) h W V D SF) as [k [E [C [L F]]]].
  rewrite E. cbn [obind fst snd].
  set (ps := firstn _ _ ++ _) in *.
  assert (VN : forall x, In x ps -> x < length k).
  { intros x I. rewrite L. apply (new_valid (ptrs v) (length (ptrs w)) _ (length h) V). exact I. }
  rewrite collect_ok by exact VN. cbn [obind fst snd]. unfold times. cbn [ptrs].
  destruct (upd1_ok (fun x => (x * a)%Q) ps k VN) as [k2 [E2 [L2 [C2 F2]]]].
  { unfold ps. rewrite <- (firstn_skipn (length (ptrs w)) (ptrs v)) in D.
    clear -D V. apply NoDup_app_remove_r in D.
    assert (Fh : forall x, In x (firstn (length (ptrs w)) (ptrs v)) -> x < length h).
    { intros x I. apply V. rewrite <- (firstn_skipn (length (ptrs w)) (ptrs v)). apply in_app_iff. now left. }
    revert D Fh. generalize (firstn (length (ptrs w)) (ptrs v)) as l. intro l.
    induction l as [|x l IH]; intros D Fh; [apply seq_NoDup|].
    inversion D as [|? ? Nx Dl]; subst. cbn [app]. constructor.
    - intro I. apply in_app_iff in I. destruct I as [I | I]; [contradiction|].
      apply in_seq in I. specialize (Fh x (or_introl eq_refl)). lia.
    - apply IH; [exact Dl | intros y I; apply Fh; now right]. }
  rewrite E2. cbn [obind]. eexists k2, _. split; [reflexivity|]. split.
  - unfold flat. cbn [ptrs]. rewrite C2, concat_map_map, C. reflexivity.
  - unfold current. cbn [ptrs sizes]. symmetry. exact (upd1_shape _ _ _ _ C2).
Qed.
Print Assumptions C103_equ.

(** ** Changing the number of blocks *)
Theorem C103_reinit : forall h v n, valid h v ->
  exists k v1, reinit_n h v n = Some (k, v1) /\ current k v1 /\ valid k v1 /\ length (ptrs v1) = n /\
    (forall a, a < length h -> nth a k [] = nth a h []) /\
    (forall i, i < n -> i < length (ptrs v) -> nth_error (ptrs v1) i = nth_error (ptrs v) i) /\
    (forall i, length (ptrs v) <= i -> i < n ->
       exists a, nth_error (ptrs v1) i = Some a /\ length h <= a /\
         nth a k [] = match ptrs v with [] => [] | c :: _ => repeat 0%Q (length (nth c h [])) end) /\
    (NoDup (ptrs v) -> NoDup (ptrs v1)).
Proof.
  intros h v n V. unfold reinit_n.
  destruct (n <=? length (ptrs v)) eqn:LE.
  - apply Nat.leb_le in LE.
    assert (Sub : forall a, In a (firstn n (ptrs v)) -> a < length h).
    { intros a I. apply V. rewrite <- (firstn_skipn n (ptrs v)). apply in_app_iff. now left. }
    rewrite collect_ok by exact Sub. cbn [obind]. eexists h, _. split; [reflexivity|]. cbn [ptrs sizes].
    split; [reflexivity|]. split; [exact Sub|]. split; [rewrite firstn_length; lia|]. split; [reflexivity|].
    split; [|split; [intros; lia|]].
    + intros i L1 L2. rewrite <- (firstn_skipn n (ptrs v)) at 2. rewrite nth_error_app1 by (rewrite firstn_length; lia).
      reflexivity.
    + intro D. rewrite <- (firstn_skipn n (ptrs v)) in D. apply NoDup_app_remove_r in D. exact D.
  - apply Nat.leb_gt in LE.
    set (z := match ptrs v with [] => [] | c :: _ => repeat 0%Q (length (nth c h [])) end).
    assert (Ez : match ptrs v with [] => Some [] | a :: _ => y <- vget h a ;; Some (map (fun _ => 0%Q) y) end = Some z).
    { unfold z. clear z. unfold valid in V. destruct (ptrs v) as [|c r]; [reflexivity|].
      rewrite (vget_nth h c) by (apply V; now left). cbn [obind]. f_equal.
      induction (nth c h []) as [|x l IH]; [reflexivity|]. cbn [map length repeat]. f_equal. exact IH. }
    rewrite Ez. cbn [obind alloc fst snd].
    assert (VN : forall a, In a (ptrs v ++ seq (length h) (n - length (ptrs v))) ->
                 a < length (h ++ repeat z (n - length (ptrs v)))).
    { intros a I. rewrite app_length, repeat_length. apply in_app_iff in I. destruct I as [I | I].
      - specialize (V a I). lia. - apply in_seq in I. lia. }
    rewrite collect_ok by exact VN. cbn [obind]. eexists _, _. split; [reflexivity|]. cbn [ptrs sizes].
    split; [reflexivity|]. split; [exact VN|]. split; [rewrite app_length, seq_length; lia|].
    split; [intros a L; apply nth_app_old; exact L|]. split; [|split].
    + intros i _ L. apply nth_error_app1. exact L.
    + intros i L1 L2. exists (length h + (i - length (ptrs v))). split; [|split; [lia|]].
      * rewrite nth_error_app2 by exact L1. rewrite nth_error_nth' with (d := 0) by (rewrite seq_length; lia).
        rewrite seq_nth by lia. reflexivity.
      * rewrite app_nth2 by lia. replace (length h + (i - length (ptrs v)) - length h) with (i - length (ptrs v)) by lia.
        assert (LT : i - length (ptrs v) < n - length (ptrs v)) by lia. revert LT.
        generalize (n - length (ptrs v)) as m, (i - length (ptrs v)) as j. intro m.
        induction m as [|m IH]; intros j LT; [lia|]. cbn [repeat]. destruct j; [reflexivity|].
        cbn [nth]. apply IH. lia.
    + intro D. unfold valid in V. revert D V. generalize (seq_NoDup (n - length (ptrs v)) (length h)).
      generalize (n - length (ptrs v)) as m. intros m SD D V. clear -SD D V.
      induction (ptrs v) as [|x l IH]; [exact SD|]. inversion D as [|? ? Nx Dl]; subst. cbn [app].
      constructor; [|apply IH; [exact Dl | intros y I; apply V; now right]].
      intro I. apply in_app_iff in I. destruct I as [I | I]; [contradiction|].
      apply in_seq in I. specialize (V x (or_introl eq_refl)). lia.
Qed.
Print Assumptions C103_reinit.

Theorem C103_reinit_like : forall h v w, valid h v -> valid h w -> NoDup (ptrs v) -> safe (ptrs v) (ptrs w) ->
  exists k v1, reinit_v h v w = Some (k, v1) /\ current k v1 /\ valid k v1 /\
    shape k (ptrs v1) = shape h (ptrs w) /\ (forall x, In x (flat k v1) -> x = 0%Q) /\
    (forall a, a < length h -> ~ In a (ptrs v) -> nth a k [] = nth a h []).
Proof.
  intros h v w V W D SF. unfold reinit_v.
  destruct (reinit_blocks_ok (ptrs w) (ptrs v) h W V D SF) as [k [E [C [L F]]]].
  rewrite E. cbn [obind fst snd].
  assert (VN := new_valid (ptrs v) (length (ptrs w)) (length (ptrs w) - length (ptrs v)) (length h) V).
  rewrite collect_ok by (intros a I; rewrite L; apply VN; exact I). cbn [obind].
  eexists k, _. split; [reflexivity|]. cbn [ptrs sizes]. split; [reflexivity|].
  split; [intros a I; rewrite L; apply VN; exact I|]. split; [|split].
  - rewrite !shape_contents, C, map_map. apply map_ext. intro. apply map_length.
  - unfold flat. cbn [ptrs]. rewrite C, concat_map_map. intros x I. apply in_map_iff in I.
    destruct I as [y [<- _]]. reflexivity.
  - intros a LT NI. apply F; [exact LT|]. intro I. apply NI. rewrite <- (firstn_skipn (length (ptrs w)) (ptrs v)).
    apply in_app_iff. now left.
Qed.
Print Assumptions C103_reinit_like.

(** Inserting and taking out blocks keeps the recorded sizes right, moving a
    block does if all blocks are of one size. *)
Theorem C103_sizes : forall h v, valid h v ->
  (forall b to, b < length h -> to <= length (ptrs v) -> exists v1, insert_block h v b to = Some v1 /\
     current h v1 /\ ptrs v1 = firstn to (ptrs v) ++ b :: skipn to (ptrs v)) /\
  (forall from, from < length (ptrs v) -> exists b v1, remove_block h v from = Some (b, v1) /\
     current h v1 /\ nth_error (ptrs v) from = Some b /\
     ptrs v1 = firstn from (ptrs v) ++ skipn (S from) (ptrs v)) /\
  (forall from to n, from < length (ptrs v) -> to < length (ptrs v) -> current h v ->
     (forall a, In a (ptrs v) -> length (nth a h []) = n) ->
     exists v1, move_block v from to = Some v1 /\ current h v1 /\ Permutation (ptrs v1) (ptrs v)).
Proof.
  intros h v V. split; [|split].
  - intros b to Lb Lt. unfold insert_block. rewrite insert_block_spec by exact Lt. cbn [obind]. unfold insert_at.
    rewrite collect_ok.
    + eexists. split; [reflexivity|]. split; reflexivity.
    + intros a I. apply in_app_iff in I.
      destruct I as [I | [<- | I]]; [| exact Lb |];
      apply V; rewrite <- (firstn_skipn to (ptrs v)); apply in_app_iff; tauto.
  - intros from L. destruct (vget_some _ (ptrs v) from L) as [b E]. unfold remove_block.
    rewrite (remove_block_spec _ _ _ _ E). cbn [obind fst snd]. unfold delete_at. rewrite collect_ok.
    + cbn [obind]. eexists b, _. split; [reflexivity|]. split; [reflexivity|]. split; [exact E | reflexivity].
    + intros a I. apply V. apply in_app_iff in I. destruct I as [I | I].
      * rewrite <- (firstn_skipn from (ptrs v)). apply in_app_iff. now left.
      * rewrite <- (firstn_skipn (S from) (ptrs v)). apply in_app_iff. now right.
  - intros from to n L1 L2 C A. destruct (vget_some _ (ptrs v) from L1) as [x E]. unfold move_block.
    rewrite (move_block_spec _ from to _ x L1 L2 E). cbn [obind].
    assert (P : Permutation (insert_at to x (delete_at from (ptrs v))) (ptrs v)).
    { rewrite <- (insert_delete nat from (ptrs v) x E) at 2. unfold insert_at.
      rewrite <- !Permutation_middle. constructor. rewrite !firstn_skipn. reflexivity. }
    eexists. split; [reflexivity|]. split; [|exact P].
    unfold current in *. cbn [ptrs sizes]. rewrite C.
    assert (R : forall l, (forall a, In a l -> length (nth a h []) = n) -> shape h l = repeat n (length l)).
    { induction l as [|y l IH]; intro Al; [reflexivity|]. unfold shape in *. cbn [map length repeat].
      f_equal; [apply Al; now left | apply IH; intros c I; apply Al; now right]. }
    rewrite (R (ptrs v) A), (R (insert_at to x (delete_at from (ptrs v)))).
    + f_equal. symmetry. apply Permutation_length. exact P.
    + intros a I. apply A. apply (Permutation_in _ P). exact I.
Qed.
Print Assumptions C103_sizes.

(** ** Single entries *)
Lemma get_ok : forall h ps i, (forall a, In a ps -> a < length h) ->
  (p <- global_to_local (shape h ps) i ;; a <- vget ps (fst p) ;; x <- vget h a ;; vget x (snd p)) =
  nth_error (concat (contents h ps)) i.
Proof.
  intros h ps. induction ps as [|a r IH]; intros i V.
  - cbn. destruct i; reflexivity.
  - cbn [shape map global_to_local contents concat]. fold (shape h r). fold (contents h r).
    destruct (i <? length (nth a h [])) eqn:E.
    + apply Nat.ltb_lt in E. cbn [obind fst snd]. unfold vget at 1. cbn [nth_error obind].
      rewrite (vget_nth h a) by (apply V; now left). cbn [obind]. rewrite nth_error_app1 by exact E. reflexivity.
    + apply Nat.ltb_ge in E. rewrite nth_error_app2 by exact E. rewrite <- IH by (intros c I; apply V; now right).
      destruct (global_to_local (shape h r) (i - length (nth a h []))) as [[b j]|]; reflexivity.
Qed.

Theorem C103_entry : forall h v i, valid h v -> current h v ->
  get h v i = nth_error (flat h v) i /\ size v = length (flat h v).
Proof.
  intros h v i V C. unfold get, size. rewrite C. split.
  - apply get_ok. exact V.
  - unfold flat. rewrite flat_length. reflexivity.
Qed.
Print Assumptions C103_entry.

Lemma put_ok : forall h ps i y, (forall a, In a ps -> a < length h) -> NoDup ps ->
  i < length (concat (contents h ps)) ->
  exists k, (p <- global_to_local (shape h ps) i ;; a <- vget ps (fst p) ;; x <- vget h a ;;
             x1 <- vset x (snd p) y ;; vset h a x1) = Some k /\ length k = length h /\
    (forall j, nth_error (concat (contents k ps)) j = if j =? i then Some y else nth_error (concat (contents h ps)) j) /\
    shape k ps = shape h ps /\
    (forall a, ~ In a ps -> nth a k [] = nth a h []).
Proof.
  intros h ps. induction ps as [|a r IH]; intros i y V D L; [cbn in L; lia|].
  inversion D as [|? ? Na Dr]; subst. pose proof (V a (or_introl eq_refl)) as La.
  cbn [shape map global_to_local contents concat] in *. fold (shape h r) in *. fold (contents h r) in *.
  destruct (i <? length (nth a h [])) eqn:E.
  - apply Nat.ltb_lt in E. cbn [obind fst snd]. unfold vget at 1. cbn [nth_error obind].
    rewrite (vget_nth h a La). cbn [obind].
    destruct (vset_some _ (nth a h []) i y E) as [x1 E1]. rewrite E1. cbn [obind].
    destruct (vset_some _ h a x1 La) as [k Ek]. destruct (vset_nth _ _ _ _ Ek) as [Lk Nk].
    pose proof (vset_length _ _ _ _ _ E1) as L1.
    exists k. split; [exact Ek|]. split; [exact Lk|].
    assert (Kr : forall c, In c r -> nth c k [] = nth c h []).
    { intros c I. rewrite Nk. destruct (c =? a) eqn:Ea; [|reflexivity]. apply Nat.eqb_eq in Ea. subst. contradiction. }
    split; [|split].
    + intro j. fold (contents k r). rewrite (contents_ext h k r Kr), Nk, Nat.eqb_refl.
      destruct (Nat.lt_ge_cases j (length (nth a h []))) as [Lj | Lj].
      * rewrite !nth_error_app1 by lia. exact (vset_get _ _ _ _ _ j E1).
      * rewrite !nth_error_app2 by lia. rewrite L1. destruct (j =? i) eqn:Ej; [|reflexivity].
        apply Nat.eqb_eq in Ej. lia.
    + fold (shape k r). rewrite Nk, Nat.eqb_refl, L1. f_equal. apply shape_ext. intros c I. rewrite Kr by exact I. reflexivity.
    + intros c I. rewrite Nk. destruct (c =? a) eqn:Ea; [|reflexivity]. apply Nat.eqb_eq in Ea. subst. exfalso. apply I. now left.
  - apply Nat.ltb_ge in E. rewrite app_length in L.
    destruct (IH (i - length (nth a h [])) y) as [k [Ek [Lk [Gk [Sk Fk]]]]];
      [intros c I; apply V; now right | exact Dr | lia |].
    exists k. split; [|split; [exact Lk|split; [|split]]].
    + rewrite <- Ek. destruct (global_to_local (shape h r) (i - length (nth a h []))) as [[b j]|]; reflexivity.
    + intro j. rewrite (Fk a Na). fold (contents k r).
      destruct (Nat.lt_ge_cases j (length (nth a h []))) as [Lj | Lj].
      * rewrite !nth_error_app1 by lia. destruct (j =? i) eqn:Ej; [|reflexivity]. apply Nat.eqb_eq in Ej. lia.
      * rewrite !nth_error_app2 by lia. rewrite Gk.
        replace (j - length (nth a h []) =? i - length (nth a h [])) with (j =? i); [reflexivity|].
        destruct (j =? i) eqn:Ej; symmetry; [apply Nat.eqb_eq in Ej; subst; apply Nat.eqb_refl|].
        apply Nat.eqb_neq in Ej. apply Nat.eqb_neq. lia.
    + fold (shape k r). rewrite Sk, (Fk a Na). reflexivity.
    + intros c I. apply Fk. intro. apply I. now right.
Qed.

Theorem C103_write : forall h v i y, valid h v -> current h v -> NoDup (ptrs v) -> i < length (flat h v) ->
  exists k, put h v i y = Some k /\ current k v /\ only h k v /\
    forall j, nth_error (flat k v) j = if j =? i then Some y else nth_error (flat h v) j.
Proof.
  intros h v i y V C D L. unfold put. rewrite C.
  destruct (put_ok h (ptrs v) i y V D L) as [k [E [Lk [G [Sk F]]]]].
  exists k. split; [exact E|]. split; [unfold current; rewrite C, Sk; reflexivity|].
  split; [split; [exact Lk|]; split; [exact Sk | exact F] | exact G].
Qed.
Print Assumptions C103_write.

(** With the recorded sizes right the owned indices of the blocks follow one
    another without gap. *)
Theorem C103_owned : forall h v, valid h v -> current h v ->
  exists l, owned h v = Some l /\ length l = length (ptrs v) /\
    forall b, b < length (ptrs v) ->
      nth_error l b = Some (length (concat (contents h (firstn b (ptrs v)))), length (nth b (contents h (ptrs v)) [])).
Proof.
  intros h v V C. unfold owned. rewrite C.
  assert (G : forall ps start, (forall a, In a ps -> a < length h) ->
    exists l, owned_ranges h start ps (shape h ps) = Some l /\ length l = length ps /\
    forall b, b < length ps ->
      nth_error l b = Some (start + length (concat (contents h (firstn b ps))), length (nth b (contents h ps) []))).
  { intro ps. induction ps as [|a r IH]; intros start W.
    - exists []. split; [reflexivity|]. split; [reflexivity|]. cbn. intros; lia.
    - destruct (IH (start + length (nth a h []))) as [l [E [L G]]]; [intros c I; apply W; now right|].
      cbn [shape map owned_ranges]. fold (shape h r). rewrite (vget_nth h a) by (apply W; now left). cbn [obind].
      rewrite E. cbn [obind]. eexists. split; [reflexivity|]. split; [cbn [length]; lia|].
      intros [|b] Lb.
      + cbn. do 2 f_equal. lia.
      + cbn [nth_error firstn contents map concat nth]. cbn [length] in Lb. rewrite G by lia.
        rewrite app_length. unfold contents. do 2 f_equal. lia. }
  destruct (G (ptrs v) 0 V) as [l [E [L H]]]. exists l. split; [exact E|]. split; [exact L|]. exact H.
Qed.
Print Assumptions C103_owned.

(** ** A copy and its original do not see each other's changes, a view sees
    them all *)
Theorem C103_independent : forall h w i y k c, valid h w -> current h w -> NoDup (ptrs w) ->
  i < length (flat h w) -> copy h w = Some (k, c) ->
  (exists k1, put k c i y = Some k1 /\ flat k1 w = flat h w /\
     nth_error (flat k1 c) i = Some y) /\
  (exists k1, put k w i y = Some k1 /\ flat k1 c = flat h w /\
     nth_error (flat k1 w) i = Some y).
Proof.
  intros h w i y k c W C D L E.
  destruct (C103_copy h w W) as [k' [c' [E' [C1 [C2 [F [Lk [Fr [Vc [Dc Cc]]]]]]]]]].
  rewrite E in E'. injection E' as <- <-.
  assert (DJ : forall a, In a (ptrs c) -> ~ In a (ptrs w)).
  { intros a I J. specialize (Fr a I). specialize (W a J). lia. }
  split.
  - destruct (C103_write k c i y Vc Cc Dc) as [k1 [E1 [_ [[_ [_ O]] G]]]].
    { unfold flat. rewrite C1. exact L. }
    exists k1. split; [exact E1|]. split; [|rewrite G, Nat.eqb_refl; reflexivity].
    unfold flat. rewrite <- C2. f_equal. apply contents_ext. intros a J. apply O. intro I. exact (DJ a I J).
  - destruct (C103_write k w i y) as [k1 [E1 [_ [[_ [_ O]] G]]]].
    + intros a J. specialize (W a J). lia.
    + unfold current. rewrite C, !shape_contents, C2. reflexivity.
    + exact D.
    + unfold flat. rewrite C2. exact L.
    + exists k1. split; [exact E1|]. split; [|rewrite G, Nat.eqb_refl; reflexivity].
      unfold flat. rewrite <- C1. f_equal. apply contents_ext. intros a J. apply O. intro I. exact (DJ a J I).
Qed.
Print Assumptions C103_independent.

Theorem C103_view : forall h v start stop u, valid h v -> start <= stop -> stop <= length (ptrs v) ->
  view v start stop = Some u ->
  contents h (ptrs u) = firstn (stop - start) (skipn start (contents h (ptrs v))) /\
  (forall k b, b < stop - start -> nth b (contents k (ptrs u)) [] = nth (start + b) (contents k (ptrs v)) []) /\
  (forall a, NoDup (ptrs v) -> exists k, set_all h u a = Some k /\
     (forall i, i < length (ptrs v) ->
        nth i (contents k (ptrs v)) [] =
        if (start <=? i) && (i <? stop) then repeat a (length (nth i (contents h (ptrs v)) []))
        else nth i (contents h (ptrs v)) [])).
Proof.
  intros h v start stop u V L1 L2 E. unfold view in E.
  rewrite C12_view in E by lia. cbn [obind] in E. injection E as <-. cbn [ptrs].
  assert (CM : forall k, contents k (firstn (stop - start) (skipn start (ptrs v))) =
               firstn (stop - start) (skipn start (contents k (ptrs v)))).
  { intro k. unfold contents. rewrite <- firstn_map, <- skipn_map. reflexivity. }
  assert (NV : forall (T : Type) (d : T) (l : list T) b, b < stop - start -> stop <= length l ->
               nth b (firstn (stop - start) (skipn start l)) d = nth (start + b) l d).
  { intros T d l b Lb Ll. rewrite <- (firstn_skipn start l) at 2. rewrite app_nth2; rewrite firstn_length; [|lia].
    replace (start + b - Nat.min start (length l)) with b by lia.
    rewrite <- (firstn_skipn (stop - start) (skipn start l)) at 2. rewrite app_nth1; [reflexivity|].
    rewrite firstn_length, skipn_length. lia. }
  split; [apply CM|]. split.
  - intros k b Lb. rewrite CM. apply NV; [exact Lb|]. unfold contents. rewrite map_length. exact L2.
  - intros a D. unfold set_all. cbn [ptrs].
    set (ps := firstn (stop - start) (skipn start (ptrs v))).
    assert (Sub : forall x, In x ps -> In x (ptrs v)).
    { intros x I. rewrite <- (firstn_skipn start (ptrs v)). apply in_app_iff. right.
      rewrite <- (firstn_skipn (stop - start) (skipn start (ptrs v))). apply in_app_iff. now left. }
    assert (Dp : NoDup ps).
    { unfold ps. rewrite <- (firstn_skipn start (ptrs v)) in D. apply NoDup_app_remove_l in D.
      rewrite <- (firstn_skipn (stop - start) (skipn start (ptrs v))) in D. apply NoDup_app_remove_r in D. exact D. }
    destruct (upd1_ok (fun _ => a) ps h) as [k [Ek [Lk [Ck Fk]]]]; [intros x I; apply V, Sub, I | exact Dp |].
    exists k. split; [exact Ek|]. intros i Li.
    assert (NC : forall g, nth i (contents g (ptrs v)) [] = nth (nth i (ptrs v) 0) g []).
    { intro g. unfold contents. rewrite (nth_indep _ [] (nth 0 g [])) by (rewrite map_length; exact Li).
      apply (map_nth (fun c => nth c g [])). }
    destruct ((start <=? i) && (i <? stop)) eqn:R.
    + apply andb_true_iff in R. destruct R as [R1 R2]. apply Nat.leb_le in R1. apply Nat.ltb_lt in R2.
      assert (X : nth (i - start) (contents k ps) [] = nth i (contents k (ptrs v)) []).
      { unfold ps. rewrite CM. etransitivity; [apply NV; [lia | unfold contents; rewrite map_length; exact L2]|].
        f_equal. lia. }
      assert (Y : nth (i - start) (contents h ps) [] = nth i (contents h (ptrs v)) []).
      { unfold ps. rewrite CM. etransitivity; [apply NV; [lia | unfold contents; rewrite map_length; exact L2]|].
        f_equal. lia. }
      rewrite <- X, <- Y, Ck.
      transitivity (map (fun _ : Q => a) (nth (i - start) (contents h ps) [])).
      * apply (map_nth (map (fun _ : Q => a)) (contents h ps) []).
      * clear. induction (nth (i - start) (contents h ps) []) as [|x l IH]; [reflexivity|].
        cbn [map length repeat]. f_equal. exact IH.
    + rewrite !NC. apply Fk. intro I. unfold ps in I. apply In_nth with (d := 0) in I. destruct I as [j [Lj Ej]].
      rewrite firstn_length, skipn_length in Lj. rewrite NV in Ej by lia.
      assert (i = start + j).
      { apply (proj1 (NoDup_nth (ptrs v) 0) D); [exact Li | lia | symmetry; exact Ej]. }
      subst i. apply andb_false_iff in R. destruct R as [R | R]; [apply Nat.leb_gt in R | apply Nat.ltb_ge in R]; lia.
Qed.
Print Assumptions C103_view.

(** ** Where it goes wrong *)
(** The sizes of a view are never recorded: it claims to be empty, its entries
    cannot be addressed, it has no mean value and no index set. *)
Theorem C103_view_size_refuted : forall h v start stop u, view v start stop = Some u ->
  size u = 0 /\ (forall i, get h u i = None) /\ (forall i y, put h u i y = None) /\
  mean_value h u = None /\ (start < stop -> owned h u = None).
Proof.
  intros h v start stop u E. unfold view in E.
  destruct (BlockVectorModel.create_view (stop - start) start (ptrs v)) as [ps|] eqn:EV; [|discriminate].
  cbn [obind] in E. injection E as <-.
  split; [reflexivity|]. split; [reflexivity|]. split; [reflexivity|]. split.
  - unfold mean_value. cbn [ptrs]. destruct (fold_blocks _ _ h ps 0%Q); reflexivity.
  - intro L. destruct (stop - start) as [|m] eqn:Em; [lia|]. cbn [BlockVectorModel.create_view] in EV.
    destruct (vget (ptrs v) start) as [x|]; [|discriminate]. cbn [obind] in EV.
    destruct (BlockVectorModel.create_view m (S start) (ptrs v)) as [q|]; [|discriminate]. cbn [obind] in EV.
    injection EV as <-. reflexivity.
Qed.
Print Assumptions C103_view_size_refuted.

(** Two vectors of two blocks; the blocks have different sizes. *)
Definition ex_h : heap := [[1; 2]; [3]; [4; 5]; [6]]%Q.
Definition ex_v : dvec := mkV [0; 1] [2; 1].
Definition ex_w : dvec := mkV [2; 3] [2; 1].

(** Moving a block does not record the new sizes: entry 1 of the moved vector
    3, 1, 2 is looked for beyond the end of its first block, entry 2 is
    answered by entry 1. *)
Theorem C103_move_refuted :
  valid ex_h ex_v /\ current ex_h ex_v /\ NoDup (ptrs ex_v) /\
  exists v1, move_block ex_v 0 1 = Some v1 /\ flat ex_h v1 = [3; 1; 2]%Q /\
    get ex_h v1 0 = Some 3%Q /\ get ex_h v1 1 = None /\ get ex_h v1 2 = Some 1%Q /\
    owned ex_h v1 = Some [(0, 1); (2, 2)].
Proof.
  split; [intros a [<- | [<- | []]]; cbn; lia|]. split; [reflexivity|].
  split; [repeat constructor; cbn; intuition discriminate|].
  eexists. split; [reflexivity|]. repeat split.
Qed.
Print Assumptions C103_move_refuted.

(** A block given a new size from outside leaves the recorded sizes behind;
    the same happens to a vector when a view of it is assigned to. *)
Theorem C103_stale_refuted :
  (exists k, reinit_outside ex_h ex_v 0 3 = Some k /\ length (flat k ex_v) = 4 /\ size ex_v = 3 /\
     get k ex_v 3 = None) /\
  (exists u k u1, view ex_v 1 2 = Some u /\ assign ex_h u (mkV [2] [2]) = Some (k, u1) /\
     current k u1 /\ length (flat k ex_v) = 4 /\ size ex_v = 3).
Proof.
  split; [eexists | eexists _, _, _]; repeat split.
Qed.
Print Assumptions C103_stale_refuted.

(** Assigning to a vector overwrites the blocks it has, also where another
    vector holds them; if the two operands overlap the wrong way the result is
    not even the operand. *)
Theorem C103_assign_refuted :
  (exists u k u1, view ex_v 0 1 = Some u /\ assign ex_h u (mkV [2] [2]) = Some (k, u1) /\
     flat ex_h ex_v = [1; 2; 3]%Q /\ flat k ex_v = [4; 5; 3]%Q) /\
  (exists k v1, assign ex_h (mkV [0; 2] [2; 2]) (mkV [2; 0] [2; 2]) = Some (k, v1) /\
     flat ex_h (mkV [2; 0] [2; 2]) = [4; 5; 1; 2]%Q /\ flat k v1 = [4; 5; 4; 5]%Q).
Proof.
  split; [eexists _, _, _ | eexists _, _]; repeat split.
Qed.
Print Assumptions C103_assign_refuted.

(** Operands with more blocks are cut off without notice. *)
Theorem C103_more_blocks_refuted : forall h v w a qs g acc,
  valid h v -> valid h w -> NoDup (ptrs v) -> safe (ptrs v) (ptrs w) -> shape h (ptrs v) = shape h (ptrs w) ->
  add h v a (mkV (ptrs w ++ qs) g) = add h v a w /\
  dot_blocks h (ptrs v) (ptrs w ++ qs) acc = dot_blocks h (ptrs v) (ptrs w) acc /\
  dot h v (mkV (ptrs w ++ qs) g) = dot h v w.
Proof.
  intros h v w a qs g acc V W D SF SH.
  assert (L : length (ptrs v) = length (ptrs w)).
  { assert (X : length (shape h (ptrs v)) = length (shape h (ptrs w))) by (rewrite SH; reflexivity).
    unfold shape in X. rewrite !map_length in X. exact X. }
  assert (A : forall f ps ws h0, length ps = length ws -> upd2 f h0 ps (ws ++ qs) = upd2 f h0 ps ws).
  { intros f ps. induction ps as [|p ps IH]; intros [|x ws] h0 LL; cbn in LL; try discriminate; [reflexivity|].
    cbn [app upd2]. destruct (vget h0 p); [|reflexivity]. cbn [obind]. destruct (vget h0 x); [|reflexivity]. cbn [obind].
    destruct (zip f b b0); [|reflexivity]. cbn [obind]. destruct (vset h0 p b1); [|reflexivity]. cbn [obind].
    apply IH. lia. }
  assert (B : forall ps ws c, length ps = length ws -> dot_blocks h ps (ws ++ qs) c = dot_blocks h ps ws c).
  { intros ps. induction ps as [|p ps IH]; intros [|x ws] c LL; cbn in LL; try discriminate; [reflexivity|].
    cbn [app dot_blocks]. destruct (vget h p); [|reflexivity]. cbn [obind]. destruct (vget h x); [|reflexivity]. cbn [obind].
    destruct (block_dot b b0); [|reflexivity]. cbn [obind]. apply IH. lia. }
  split; [apply A; exact L|]. split; [apply B; exact L | apply B; exact L].
Qed.
Print Assumptions C103_more_blocks_refuted.

(** A vector that meets the hypotheses of the theorems above, together with a
    second one; some of the results. *)
Example C103_applies :
  valid ex_h ex_v /\ valid ex_h ex_w /\ current ex_h ex_v /\ NoDup (ptrs ex_v) /\
  safe (ptrs ex_v) (ptrs ex_w) /\ safe (ptrs ex_v) (ptrs ex_v) /\ safe (ptrs ex_w) (ptrs ex_v) /\
  shape ex_h (ptrs ex_v) = shape ex_h (ptrs ex_w) /\
  flat ex_h ex_v = [1; 2; 3]%Q /\ size ex_v = 3 /\
  l1_norm ex_h ex_v = Some 6%Q /\ l2_square ex_h ex_v = Some 14%Q /\ linfty_norm ex_h ex_v = Some 3%Q /\
  dot ex_h ex_v ex_w = Some 32%Q /\ all_zero ex_h ex_v = Some false /\
  option_map (fun k => flat k ex_v) (add ex_h ex_v 10 ex_w) = Some [41; 52; 63]%Q /\
  option_map (fun k => flat k ex_v) (plus ex_h ex_v ex_v) = Some [2; 4; 6]%Q /\
  option_map (fun r => (flat (fst r) ex_v, snd r)) (add_and_dot ex_h ex_v 10 ex_w ex_v) =
    Some ([41; 52; 63], 8354)%Q /\
  (exists m, mean_value ex_h ex_v = Some m /\ (m == 2)%Q).
Proof.
  assert (SD : safe (ptrs ex_v) (ptrs ex_v)).
  { intros b c a L H1 H2. destruct b as [|[|b]]; destruct c as [|[|c]]; cbn in *; try lia; try congruence;
    try (destruct c; discriminate). }
  assert (S1 : safe (ptrs ex_v) (ptrs ex_w)).
  { intros b c a L H1 H2. destruct b as [|[|b]]; destruct c as [|[|c]]; cbn in *; try lia; try congruence;
    try (destruct c; discriminate). }
  assert (S2 : safe (ptrs ex_w) (ptrs ex_v)).
  { intros b c a L H1 H2. destruct b as [|[|b]]; destruct c as [|[|c]]; cbn in *; try lia; try congruence;
    try (destruct c; discriminate). }
  split; [intros a [<- | [<- | []]]; cbn; lia|]. split; [intros a [<- | [<- | []]]; cbn; lia|].
  split; [reflexivity|]. split; [repeat constructor; cbn; intuition discriminate|].
  split; [exact S1|]. split; [exact SD|]. split; [exact S2|].
  repeat (split; [reflexivity|]). eexists. split; [reflexivity|]. vm_compute. reflexivity.
Qed.
