(** C101: taking packed vectors apart and putting them together *)
From Coq Require Import List QArith Arith Bool Lia.
From Verif Require Import Util PackModel.
Import ListNotations.
Open Scope nat_scope.

(** *** [check_identity] *)
Lemma same_loop_spec : forall n i u v, i + n <= length u -> i + n <= length v ->
  exists b, same_loop n i u v = Some b /\
    (b = true <-> forall j x y, i <= j -> j < i + n -> vget u j = Some x -> vget v j = Some y -> (x == y)%Q).
Proof.
  induction n; intros i u v Hu Hv; cbn [same_loop].
  - exists true. split; [reflexivity | split; [intros; lia | reflexivity]].
  - destruct (vget u i) as [x | ] eqn:Ex; [ | apply nth_error_None in Ex; lia].
    destruct (vget v i) as [y | ] eqn:Ey; [ | apply nth_error_None in Ey; lia].
    cbn [obind]. destruct (Qeq_bool x y) eqn:E; cbn [negb].
    + destruct (IHn (S i) u v ltac:(lia) ltac:(lia)) as [b [-> Hb]]. exists b. split; [reflexivity | ].
      rewrite Hb. split; intros H j x' y' H1 H2 Hx Hy.
      * destruct (Nat.eq_dec j i) as [-> | n0].
        -- rewrite Ex in Hx; rewrite Ey in Hy. injection Hx as <-; injection Hy as <-. apply Qeq_bool_iff; exact E.
        -- apply (H j); auto; lia.
      * apply (H j); auto; lia.
    + exists false. split; [reflexivity | split; [discriminate | ]]. intros H. exfalso.
      assert (Qeq_bool x y = true) by (apply Qeq_bool_iff, (H i); auto; lia). congruence.
Qed.

Theorem C101_identity : forall u v, exists b, check_identity u v = Some b /\
  (b = true <-> length u = length v /\ forall j x y, vget u j = Some x -> vget v j = Some y -> (x == y)%Q).
Proof.
  intros u v. unfold check_identity. destruct (length u =? length v) eqn:E; cbn [negb].
  - apply Nat.eqb_eq in E. destruct (same_loop_spec (length u) 0 u v ltac:(lia) ltac:(lia)) as [b [-> Hb]].
    exists b. split; [reflexivity | ]. rewrite Hb. split.
    + intros H. split; [exact E | ]. intros j x y Hx Hy. apply (H j); auto; [lia | ].
      apply nth_error_Some. unfold vget in Hx. congruence.
    + intros [_ H] j x y _ _ Hx Hy. exact (H j x y Hx Hy).
  - apply Nat.eqb_neq in E. exists false. split; [reflexivity | ]. split; [discriminate | intros [H _]; contradiction].
Qed.
Print Assumptions C101_identity.

(** *** The quick versions *)
Section Fast.
Context {A : Type}.
Implicit Types a b c s d x e : list A.

Lemma vset_app : forall d y x z, vset (d ++ y :: x) (length d) z = Some (d ++ z :: x).
Proof. induction d as [ | h d IH]; intros; [reflexivity | ]. cbn [length app vset]. now rewrite IH. Qed.
Lemma vget_app : forall d y x, vget (d ++ y :: x) (length d) = Some y.
Proof. intros. unfold vget. rewrite nth_error_app2 by lia. now rewrite Nat.sub_diag. Qed.

Lemma copy_app : forall a s1 s2 d1 x d2, length x = length a ->
  copy (length a) (length s1) (length d1) (s1 ++ a ++ s2) (d1 ++ x ++ d2) = Some (d1 ++ a ++ d2).
Proof.
  induction a as [ | y a IH]; intros s1 s2 d1 x d2 Hx.
  - destruct x; [reflexivity | discriminate].
  - destruct x as [ | x0 x]; [discriminate | ]. cbn [length copy app]. rewrite vget_app. cbn [obind]. rewrite vset_app. cbn [obind].
    specialize (IH (s1 ++ [y]) s2 (d1 ++ [y]) x d2 ltac:(cbn in Hx; lia)).
    rewrite !app_length in IH. cbn [length] in IH. rewrite !Nat.add_1_r in IH. rewrite <- !app_assoc in IH. exact IH.
Qed.

Lemma split_at : forall n x, n <= length x -> exists x1 x2, x = x1 ++ x2 /\ length x1 = n.
Proof. intros n x H. exists (firstn n x), (skipn n x). split; [now rewrite firstn_skipn | ]. apply firstn_length_le, H. Qed.

(** copying with the source written as one list *)
Lemma copy_at : forall m i k src dst s1 a s2 d1 x d2, src = s1 ++ a ++ s2 -> dst = d1 ++ x ++ d2 ->
  length a = m -> length x = m -> i = length s1 -> k = length d1 -> copy m i k src dst = Some (d1 ++ a ++ d2).
Proof. intros. subst. apply copy_app. congruence. Qed.

(** The values at one point: two values and those of the grains, or one, one and those of the
    grains. *)
Definition row2 (r : list A * list A) : list A := fst r ++ snd r.
Definition row3 (r : A * A * list A) : list A := fst (fst r) :: snd (fst r) :: snd r.

Lemma concat_length_const : forall (ll : list (list A)) n, Forall (fun l => length l = n) ll -> length (concat ll) = length ll * n.
Proof. induction 1 as [ | l ll H _ IH]; [reflexivity | ]. cbn [concat length Nat.mul]. rewrite app_length. lia. Qed.

Ltac len := repeat rewrite app_length in *; cbn [length] in *; lia.

Lemma split2_loop : forall n rows fuel s1 e0 x0 e1 x1, length rows <= fuel ->
  Forall (fun r => length (fst r) = 2 /\ length (snd r) = n) rows ->
  length x0 = 2 * length rows -> length x1 = n * length rows ->
  option_map vectors (split_loop fuel (length s1) [(2, length e0, e0 ++ x0); (n, length e1, e1 ++ x1)] (s1 ++ concat (map row2 rows))) =
  Some [e0 ++ concat (map fst rows); e1 ++ concat (map snd rows)].
Proof.
  intros n. induction rows as [ | [a b] rows IH]; intros fuel s1 e0 x0 e1 x1 Hf Hr H0 H1.
  - cbn [map concat]. rewrite app_nil_r.
    destruct x0 as [ | ? ?]; [ | cbn in H0; lia]. destruct x1 as [ | ? ?]; [ | cbn in H1; lia].
    destruct fuel; cbn [split_loop]; rewrite Nat.ltb_irrefl; reflexivity.
  - inversion Hr as [ | r rr [Ha Hb] Hr']; subst r rr. cbn [fst snd] in Ha, Hb. cbn [length] in *.
    destruct fuel as [ | fuel]; [lia | ]. cbn [map concat split_loop fst snd]. change (row2 (a, b)) with (a ++ b).
    replace (length s1 <? length (s1 ++ (a ++ b) ++ concat (map row2 rows))) with true
      by (symmetry; apply Nat.ltb_lt; rewrite !app_length; lia).
    destruct (split_at 2 x0 ltac:(lia)) as [y0 [z0 [-> Hy0]]]. destruct (split_at n x1 ltac:(lia)) as [y1 [z1 [-> Hy1]]].
    unfold split_step.
    rewrite (copy_at 2 _ _ _ _ s1 a (b ++ concat (map row2 rows)) e0 y0 z0) by (try reflexivity; try assumption; now rewrite <- ?app_assoc).
    cbn [obind].
    rewrite (copy_at n _ _ _ _ (s1 ++ a) b (concat (map row2 rows)) e1 y1 z1) by (try reflexivity; try assumption; try (now rewrite <- ?app_assoc); len).
    cbn [obind].
    replace (length s1 + 2 + n) with (length (s1 ++ a ++ b)) by len.
    replace (length e0 + 2) with (length (e0 ++ a)) by len. replace (length e1 + n) with (length (e1 ++ b)) by len.
    specialize (IH fuel (s1 ++ a ++ b) (e0 ++ a) z0 (e1 ++ b) z1 ltac:(lia) Hr' ltac:(len) ltac:(len)).
    rewrite <- ?app_assoc in IH. rewrite <- ?app_assoc. exact IH.
Qed.

Lemma split3_loop : forall n rows fuel s1 e0 x0 e1 x1 e2 x2, length rows <= fuel ->
  Forall (fun r => length (snd r) = n) rows ->
  length x0 = length rows -> length x1 = length rows -> length x2 = n * length rows ->
  option_map vectors (split_loop fuel (length s1) [(1, length e0, e0 ++ x0); (1, length e1, e1 ++ x1); (n, length e2, e2 ++ x2)] (s1 ++ concat (map row3 rows))) =
  Some [e0 ++ map (fun r => fst (fst r)) rows; e1 ++ map (fun r => snd (fst r)) rows; e2 ++ concat (map snd rows)].
Proof.
  intros n. induction rows as [ | [[a b] c] rows IH]; intros fuel s1 e0 x0 e1 x1 e2 x2 Hf Hr H0 H1 H2.
  - cbn [map concat]. rewrite app_nil_r.
    destruct x0 as [ | ? ?]; [ | cbn in H0; lia]. destruct x1 as [ | ? ?]; [ | cbn in H1; lia]. destruct x2 as [ | ? ?]; [ | cbn in H2; lia].
    destruct fuel; cbn [split_loop]; rewrite Nat.ltb_irrefl; reflexivity.
  - inversion Hr as [ | r rr Hc Hr']; subst r rr. cbn [fst snd] in Hc. cbn [length] in *.
    destruct fuel as [ | fuel]; [lia | ]. cbn [map concat split_loop fst snd]. change (row3 (a, b, c)) with (a :: b :: c).
    replace (length s1 <? length (s1 ++ (a :: b :: c) ++ concat (map row3 rows))) with true
      by (symmetry; apply Nat.ltb_lt; rewrite !app_length; cbn [length]; lia).
    destruct (split_at 1 x0 ltac:(lia)) as [y0 [z0 [-> Hy0]]]. destruct (split_at 1 x1 ltac:(lia)) as [y1 [z1 [-> Hy1]]].
    destruct (split_at n x2 ltac:(lia)) as [y2 [z2 [-> Hy2]]].
    unfold split_step.
    rewrite (copy_at 1 _ _ _ _ s1 [a] (b :: c ++ concat (map row3 rows)) e0 y0 z0) by (try reflexivity; try assumption).
    cbn [obind].
    rewrite (copy_at 1 _ _ _ _ (s1 ++ [a]) [b] (c ++ concat (map row3 rows)) e1 y1 z1) by (try reflexivity; try assumption; try (now rewrite <- ?app_assoc); len).
    cbn [obind].
    rewrite (copy_at n _ _ _ _ (s1 ++ [a; b]) c (concat (map row3 rows)) e2 y2 z2) by (try reflexivity; try assumption; try (now rewrite <- ?app_assoc); len).
    cbn [obind].
    replace (length s1 + 1 + 1 + n) with (length (s1 ++ a :: b :: c)) by len.
    replace (length e0 + 1) with (length (e0 ++ [a])) by len. replace (length e1 + 1) with (length (e1 ++ [b])) by len.
    replace (length e2 + n) with (length (e2 ++ c)) by len.
    specialize (IH fuel (s1 ++ a :: b :: c) (e0 ++ [a]) z0 (e1 ++ [b]) z1 (e2 ++ c) z2 ltac:(lia) Hr' ltac:(len) ltac:(len) ltac:(len)).
    rewrite <- ?app_assoc in IH. rewrite <- ?app_assoc. exact IH.
Qed.

Lemma merge2_loop : forall n rows fuel e0 e1 s1 x, length rows <= fuel ->
  Forall (fun r => length (fst r) = 2 /\ length (snd r) = n) rows -> length x = (2 + n) * length rows ->
  merge_loop fuel (length s1) [(2, length e0, e0 ++ concat (map fst rows)); (n, length e1, e1 ++ concat (map snd rows))] (s1 ++ x) =
  Some (s1 ++ concat (map row2 rows)).
Proof.
  intros n. induction rows as [ | [a b] rows IH]; intros fuel e0 e1 s1 x Hf Hr Hx.
  - destruct x; [ | cbn in Hx; lia]. cbn [map concat]. rewrite !app_nil_r.
    destruct fuel; cbn [merge_loop]; rewrite Nat.ltb_irrefl; reflexivity.
  - inversion Hr as [ | r rr [Ha Hb] Hr']; subst r rr. cbn [fst snd] in Ha, Hb. cbn [length] in *.
    destruct fuel as [ | fuel]; [lia | ]. cbn [map concat merge_loop fst snd]. change (row2 (a, b)) with (a ++ b).
    replace (length s1 <? length (s1 ++ x)) with true by (symmetry; apply Nat.ltb_lt; rewrite !app_length; lia).
    destruct (split_at 2 x ltac:(lia)) as [y0 [z0 [-> Hy0]]]. rewrite app_length in Hx. destruct (split_at n z0 ltac:(lia)) as [y1 [z1 [-> Hy1]]].
    unfold merge_step.
    rewrite (copy_at 2 _ _ _ _ e0 a (concat (map fst rows)) s1 y0 (y1 ++ z1)) by (try reflexivity; try assumption).
    cbn [obind].
    rewrite (copy_at n _ _ _ _ e1 b (concat (map snd rows)) (s1 ++ a) y1 z1) by (try reflexivity; try assumption; try (now rewrite <- ?app_assoc); len).
    cbn [obind].
    replace (length s1 + 2 + n) with (length (s1 ++ a ++ b)) by len.
    replace (length e0 + 2) with (length (e0 ++ a)) by len. replace (length e1 + n) with (length (e1 ++ b)) by len.
    specialize (IH fuel (e0 ++ a) (e1 ++ b) (s1 ++ a ++ b) z1 ltac:(lia) Hr' ltac:(len)).
    rewrite <- ?app_assoc in IH. rewrite <- ?app_assoc. exact IH.
Qed.

Lemma merge3_loop : forall n rows fuel e0 e1 e2 s1 x, length rows <= fuel ->
  Forall (fun r => length (snd r) = n) rows -> length x = (2 + n) * length rows ->
  merge_loop fuel (length s1) [(1, length e0, e0 ++ map (fun r => fst (fst r)) rows); (1, length e1, e1 ++ map (fun r => snd (fst r)) rows); (n, length e2, e2 ++ concat (map snd rows))] (s1 ++ x) =
  Some (s1 ++ concat (map row3 rows)).
Proof.
  intros n. induction rows as [ | [[a b] c] rows IH]; intros fuel e0 e1 e2 s1 x Hf Hr Hx.
  - destruct x; [ | cbn in Hx; lia]. cbn [map concat]. rewrite !app_nil_r.
    destruct fuel; cbn [merge_loop]; rewrite Nat.ltb_irrefl; reflexivity.
  - inversion Hr as [ | r rr Hc Hr']; subst r rr. cbn [fst snd] in Hc. cbn [length] in *.
    destruct fuel as [ | fuel]; [lia | ]. cbn [map concat merge_loop fst snd]. change (row3 (a, b, c)) with (a :: b :: c).
    replace (length s1 <? length (s1 ++ x)) with true by (symmetry; apply Nat.ltb_lt; rewrite !app_length; lia).
    destruct x as [ | x0 [ | x1 x]]; [cbn in Hx; lia | cbn in Hx; lia | ]. cbn [length] in Hx.
    destruct (split_at n x ltac:(lia)) as [y [z [-> Hy]]].
    unfold merge_step.
    rewrite (copy_at 1 _ _ _ _ e0 [a] (map (fun r => fst (fst r)) rows) s1 [x0] (x1 :: y ++ z)) by (try reflexivity).
    cbn [obind].
    rewrite (copy_at 1 _ _ _ _ e1 [b] (map (fun r => snd (fst r)) rows) (s1 ++ [a]) [x1] (y ++ z)) by (try reflexivity; try (now rewrite <- ?app_assoc); len).
    cbn [obind].
    rewrite (copy_at n _ _ _ _ e2 c (concat (map snd rows)) (s1 ++ [a; b]) y z) by (try reflexivity; try assumption; try (now rewrite <- ?app_assoc); len).
    cbn [obind].
    replace (length s1 + 1 + 1 + n) with (length (s1 ++ a :: b :: c)) by len.
    replace (length e0 + 1) with (length (e0 ++ [a])) by len. replace (length e1 + 1) with (length (e1 ++ [b])) by len.
    replace (length e2 + n) with (length (e2 ++ c)) by len.
    specialize (IH fuel (e0 ++ [a]) (e1 ++ [b]) (e2 ++ c) (s1 ++ a :: b :: c) z ltac:(lia) Hr' ltac:(len)).
    rewrite <- ?app_assoc in IH. rewrite <- ?app_assoc. exact IH.
Qed.
End Fast.

Lemma row2_total : forall {A} n (rows : list (list A * list A)), Forall (fun r => length (fst r) = 2 /\ length (snd r) = n) rows ->
  length (concat (map row2 rows)) = (2 + n) * length rows.
Proof.
  intros A n rows H. induction H as [ | [a b] rows [Ha Hb] _ IH]; [cbn; lia | ]. cbn [map concat length fst snd] in *.
  rewrite app_length, IH. unfold row2. cbn [fst snd]. rewrite app_length. lia.
Qed.
Lemma row3_total : forall {A} n (rows : list (A * A * list A)), Forall (fun r => length (snd r) = n) rows ->
  length (concat (map row3 rows)) = (2 + n) * length rows.
Proof.
  intros A n rows H. induction H as [ | [[a b] c] rows Hc _ IH]; [cbn; lia | ]. cbn [map concat length fst snd] in *.
  rewrite app_length, IH. unfold row3. cbn [fst snd length]. lia.
Qed.

(** The packed vector is the list of the rows of the points: two values and [n] values at
    every point.  Taking it apart gives the first two values of all points and the others of
    all points, whatever the target vectors held; putting the parts together gives it back. *)
Theorem C101_two : forall (A : Type) n (rows : list (list A * list A)) v0 v1 w,
  Forall (fun r => length (fst r) = 2 /\ length (snd r) = n) rows ->
  length v0 = 2 * length rows -> length v1 = n * length rows -> length w = (2 + n) * length rows ->
  split_up_fast2 (concat (map (fun r => fst r ++ snd r) rows)) v0 v1 n = Some [concat (map fst rows); concat (map snd rows)] /\
  merge_fast2 (concat (map fst rows)) (concat (map snd rows)) w n = Some (concat (map (fun r => fst r ++ snd r) rows)).
Proof.
  intros A n rows v0 v1 w H H0 H1 Hw. split.
  - apply (split2_loop n rows _ [] [] v0 [] v1); auto. change (fun r => fst r ++ snd r) with (@row2 A).
    rewrite (row2_total n rows H). nia.
  - apply (merge2_loop n rows _ [] [] [] w); auto. rewrite Hw. nia.
Qed.
Print Assumptions C101_two.

(** the same with three parts *)
Theorem C101_three : forall (A : Type) n (rows : list (A * A * list A)) v0 v1 v2 w,
  Forall (fun r => length (snd r) = n) rows ->
  length v0 = length rows -> length v1 = length rows -> length v2 = n * length rows -> length w = (2 + n) * length rows ->
  let packed := concat (map (fun r => [fst (fst r); snd (fst r)] ++ snd r) rows) in
  split_up_fast3 packed v0 v1 v2 n = Some [map (fun r => fst (fst r)) rows; map (fun r => snd (fst r)) rows; concat (map snd rows)] /\
  merge_fast3 (map (fun r => fst (fst r)) rows) (map (fun r => snd (fst r)) rows) (concat (map snd rows)) w n = Some packed.
Proof.
  intros A n rows v0 v1 v2 w H H0 H1 H2 Hw packed. split.
  - apply (split3_loop n rows _ [] [] v0 [] v1 [] v2); auto. unfold packed. change (fun r => [fst (fst r); snd (fst r)] ++ snd r) with (@row3 A).
    rewrite (row3_total n rows H). nia.
  - apply (merge3_loop n rows _ [] [] [] [] w); auto. rewrite Hw. nia.
Qed.
Print Assumptions C101_three.

Lemma rows2_of : forall (A : Type) n p (v : list A), length v = p * (2 + n) ->
  exists rows, length rows = p /\ Forall (fun r => length (fst r) = 2 /\ length (snd r) = n) rows /\ v = concat (map (fun r => fst r ++ snd r) rows).
Proof.
  intros A n. induction p as [ | p IH]; intros v Hv.
  - destruct v; [ | discriminate]. exists []. repeat split; constructor.
  - destruct (split_at 2 v ltac:(nia)) as [a [v' [-> Ha]]]. rewrite app_length in Hv.
    destruct (split_at n v' ltac:(nia)) as [b [v'' [-> Hb]]]. rewrite app_length in Hv.
    destruct (IH v'' ltac:(nia)) as [rows [Hl [Hf ->]]]. exists ((a, b) :: rows). cbn [length map concat fst snd].
    split; [lia | split; [constructor; auto | now rewrite <- app_assoc]].
Qed.
Lemma pieces_of : forall (A : Type) n p (v : list A), length v = p * n ->
  exists rows, length rows = p /\ Forall (fun r => length r = n) rows /\ v = concat rows.
Proof.
  intros A n. induction p as [ | p IH]; intros v Hv.
  - destruct v; [ | discriminate]. exists []. repeat split; constructor.
  - destruct (split_at n v ltac:(nia)) as [a [v' [-> Ha]]]. rewrite app_length in Hv.
    destruct (IH v' ltac:(nia)) as [rows [Hl [Hf ->]]]. exists (a :: rows). cbn [length concat].
    split; [lia | split; [constructor; auto | reflexivity]].
Qed.
Lemma pair_up : forall (A B : Type) (l : list A) (r : list B) P R, length l = length r -> Forall P l -> Forall R r ->
  exists rows, map fst rows = l /\ map snd rows = r /\ length rows = length l /\ Forall (fun x => P (fst x) /\ R (snd x)) rows.
Proof.
  induction l as [ | x l IH]; intros [ | y r] P R Hl HP HR; try discriminate.
  - exists []. repeat split; constructor.
  - inversion HP; inversion HR; subst. destruct (IH r P R ltac:(cbn in Hl; lia)) as [rows [<- [<- [Hn Hf]]]]; auto.
    exists ((x, y) :: rows). cbn [map fst snd length]. repeat split; try (constructor; auto); lia.
Qed.

(** Both directions undo each other, for every vector with whole points. *)
Theorem C101_round : forall (A : Type) n p (vec v0 v1 : list A) w w0 w1,
  length vec = p * (2 + n) -> length v0 = 2 * p -> length v1 = n * p ->
  length w = p * (2 + n) -> length w0 = 2 * p -> length w1 = n * p ->
  (exists x0 x1, split_up_fast2 vec w0 w1 n = Some [x0; x1] /\ merge_fast2 x0 x1 w n = Some vec) /\
  (exists x, merge_fast2 v0 v1 w n = Some x /\ split_up_fast2 x w0 w1 n = Some [v0; v1]).
Proof.
  intros A n p vec v0 v1 w w0 w1 Hv Hv0 Hv1 Hw Hw0 Hw1. split.
  - destruct (rows2_of A n p vec Hv) as [rows [Hl [Hf ->]]].
    destruct (C101_two A n rows w0 w1 w Hf ltac:(nia) ltac:(nia) ltac:(nia)) as [H1 H2]. eauto.
  - destruct (pieces_of A 2 p v0 ltac:(nia)) as [r0 [Hl0 [Hf0 ->]]]. destruct (pieces_of A n p v1 ltac:(nia)) as [r1 [Hl1 [Hf1 ->]]].
    destruct (pair_up _ _ r0 r1 _ _ ltac:(congruence) Hf0 Hf1) as [rows [<- [<- [Hl Hf]]]].
    destruct (C101_two A n rows w0 w1 w Hf ltac:(nia) ltac:(nia) ltac:(nia)) as [H1 H2]. eauto.
Qed.
Print Assumptions C101_round.

(** *** Vectors that do not hold whole points *)
Section Rest.
Context {A : Type}.
Lemma vset_range : forall (l : list A) i x l', vset l i x = Some l' -> i < length l /\ length l' = length l.
Proof.
  induction l as [ | y l IH]; intros [ | i] x l' H; cbn [vset] in H; try discriminate.
  - injection H as <-. cbn; lia.
  - destruct (vset l i x) eqn:E; [ | discriminate]. injection H as <-. destruct (IH _ _ _ E). cbn; lia.
Qed.
Lemma copy_range : forall m i k (src dst d : list A), copy m i k src dst = Some d ->
  length d = length dst /\ (m = 0 \/ (i + m <= length src /\ k + m <= length dst)).
Proof.
  induction m; intros i k src dst d H; cbn [copy] in H; [injection H as <-; auto | ].
  destruct (vget src i) as [v | ] eqn:E; [ | discriminate]. cbn [obind] in H.
  destruct (vset dst k v) as [d1 | ] eqn:E1; [ | discriminate]. cbn [obind] in H.
  assert (i < length src) by (apply nth_error_Some; unfold vget in E; congruence).
  destruct (vset_range _ _ _ _ E1) as [Hk Hl]. destruct (IHm _ _ _ _ _ H) as [H1 H2]. split; [congruence | right].
  destruct H2 as [-> | H2]; lia.
Qed.
Definition total (ps : list part) : nat := fold_right (fun (p : @part A) t => fst (fst p) + t) 0 ps.
Lemma split_step_range : forall (ps : list part) i vec j ps', split_step ps i vec = Some (j, ps') -> i <= length vec ->
  j = i + total ps /\ j <= length vec /\ total ps' = total ps.
Proof.
  induction ps as [ | [[m k] d] ps IH]; intros i vec j ps' H Hi; cbn [split_step] in H.
  - injection H as <- <-. unfold total; cbn; lia.
  - destruct (copy m i k vec d) as [d1 | ] eqn:E; [ | discriminate]. cbn [obind] in H.
    destruct (copy_range _ _ _ _ _ _ E) as [_ E1].
    destruct (split_step ps (i + m) vec) as [[j1 ps1] | ] eqn:E2; [ | discriminate]. cbn [obind] in H. injection H as <- <-.
    destruct (IH _ _ _ _ E2 ltac:(lia)) as [H1 [H2 H3]]. unfold total in *. cbn [fold_right fst] in *. lia.
Qed.
Lemma split_loop_range : forall fuel (ps : list part) i vec r, split_loop fuel i ps vec = Some r -> i <= length vec ->
  exists q, length vec = i + q * total ps.
Proof.
  induction fuel; intros ps i vec r H Hi; cbn [split_loop] in H; destruct (i <? length vec) eqn:E; try discriminate;
    try (apply Nat.ltb_ge in E; exists 0; lia).
  destruct (split_step ps i vec) as [[j ps'] | ] eqn:E1; [ | discriminate]. cbn [obind] in H.
  destruct (split_step_range _ _ _ _ _ E1 Hi) as [-> [H2 H3]]. destruct (IHfuel _ _ _ _ H H2) as [q Hq]. exists (S q). rewrite H3 in Hq. lia.
Qed.
Lemma merge_step_range : forall (ps : list part) i vec j ps' vec', merge_step ps i vec = Some (j, ps', vec') -> i <= length vec ->
  j = i + total ps /\ j <= length vec /\ total ps' = total ps /\ length vec' = length vec.
Proof.
  induction ps as [ | [[m k] d] ps IH]; intros i vec j ps' vec' H Hi; cbn [merge_step] in H.
  - injection H as <- <- <-. unfold total; cbn; lia.
  - destruct (copy m k i d vec) as [d1 | ] eqn:E; [ | discriminate]. cbn [obind] in H.
    destruct (copy_range _ _ _ _ _ _ E) as [E0 E1].
    destruct (merge_step ps (i + m) d1) as [[[j1 ps1] w1] | ] eqn:E2; [ | discriminate]. cbn [obind] in H. injection H as <- <- <-.
    destruct (IH _ _ _ _ _ E2 ltac:(lia)) as [H1 [H2 [H3 H4]]]. unfold total in *. cbn [fold_right fst] in *. lia.
Qed.
Lemma merge_loop_range : forall fuel (ps : list part) i vec r, merge_loop fuel i ps vec = Some r -> i <= length vec ->
  exists q, length vec = i + q * total ps.
Proof.
  induction fuel; intros ps i vec r H Hi; cbn [merge_loop] in H; destruct (i <? length vec) eqn:E; try discriminate;
    try (apply Nat.ltb_ge in E; exists 0; lia).
  destruct (merge_step ps i vec) as [[[j ps'] w] | ] eqn:E1; [ | discriminate]. cbn [obind] in H.
  destruct (merge_step_range _ _ _ _ _ _ E1 Hi) as [-> [H2 [H3 H4]]]. destruct (IHfuel _ _ _ _ H ltac:(lia)) as [q Hq]. exists (S q). rewrite H3 in Hq. lia.
Qed.
End Rest.

(** A vector that does not hold whole points, say because the number of grains changed since
    it was set up, is read or written out of range, whatever the lengths of the others. *)
Theorem C101_rest : forall (A : Type) n p r (vec v0 v1 v2 : list A), length vec = p * (2 + n) + r -> 0 < r -> r < 2 + n ->
  split_up_fast2 vec v0 v1 n = None /\ split_up_fast3 vec v0 v1 v2 n = None /\
  merge_fast2 v0 v1 vec n = None /\ merge_fast3 v0 v1 v2 vec n = None.
Proof.
  intros A n p r vec v0 v1 v2 Hv H0 Hr.
  assert (Hno : forall q, length vec <> 0 + q * (2 + n)).
  { intros q Hq. rewrite Hq in Hv. cbn [Nat.add] in Hv.
    assert (q <= p \/ p + 1 <= q) as [Hc | Hc] by lia; nia. }
  unfold split_up_fast2, split_up_fast3, merge_fast2, merge_fast3.
  repeat apply conj;
    match goal with
    | |- option_map _ (split_loop ?f ?i ?ps ?v) = None => destruct (split_loop f i ps v) eqn:E; [exfalso; apply split_loop_range in E; [ | lia] | reflexivity]
    | |- merge_loop ?f ?i ?ps ?v = None => destruct (merge_loop f i ps v) eqn:E; [exfalso; apply merge_loop_range in E; [ | lia] | reflexivity]
    end; destruct E as [q Hq]; apply (Hno q); rewrite Hq; f_equal; f_equal; unfold total; cbn [fold_right fst]; lia.
Qed.
Print Assumptions C101_rest.

(** *** Through the cells *)
(** An element with [k] unknowns for every component: the two changes of the index undo each
    other. *)
Definition wf_fe (k : nat) (f : fe) : Prop :=
  n_dofs f = n_comp f * k /\
  (forall i, i < n_dofs f -> fst (s2c f i) < n_comp f /\ snd (s2c f i) < k /\ c2s f (fst (s2c f i)) (snd (s2c f i)) = i) /\
  (forall c j, c < n_comp f -> j < k -> c2s f c j < n_dofs f /\ s2c f (c2s f c j) = (c, j)).

(** The unknowns of a cell with the points [pts], if [N c s] is the number of the unknown of
    component [c] at point [s]. *)
Definition unknowns (f : fe) (N : nat -> nat -> nat) (pts : list nat) : list nat :=
  map (fun i => N (fst (s2c f i)) (nth (snd (s2c f i)) pts 0)) (seq 0 (n_dofs f)).

Section Cells.
Context {A : Type}.
Implicit Types v w l : list A.

Lemma gather_ok : forall ix v, (forall i, In i ix -> i < length v) ->
  exists l, gather ix v = Some l /\ length l = length ix /\ forall p i, nth_error ix p = Some i -> vget l p = vget v i.
Proof.
  induction ix as [ | i ix IH]; intros v H.
  - exists []. repeat split. intros [ | p] j Hp; discriminate.
  - destruct (IH v) as [l [E [Hl Hp]]]; [intros; apply H; now right | ].
    destruct (vget v i) as [x | ] eqn:Ex; [ | apply nth_error_None in Ex; specialize (H i (or_introl eq_refl)); lia].
    exists (x :: l). cbn [gather]. rewrite Ex, E. cbn [obind]. split; [reflexivity | split; [cbn; lia | ]].
    intros [ | p] j Hj; [injection Hj as <-; cbn; congruence | apply Hp; exact Hj].
Qed.

Lemma vset_ok : forall v i (x : A), i < length v -> exists w, vset v i x = Some w /\ length w = length v /\ vget w i = Some x /\ forall q, q <> i -> vget w q = vget v q.
Proof.
  induction v as [ | y v IH]; intros i x Hi; [cbn in Hi; lia | ]. destruct i as [ | i]; cbn [vset].
  - exists (x :: v). repeat split. intros [ | q] Hq; [contradiction | reflexivity].
  - destruct (IH i x ltac:(cbn in Hi; lia)) as [w [-> [Hl [Hx Hq]]]]. exists (y :: w). repeat split; [cbn; lia | exact Hx | ].
    intros [ | q] Hne; [reflexivity | apply (Hq q); lia].
Qed.

Lemma scatter_ok : forall ix l v, length l = length ix -> (forall i, In i ix -> i < length v) ->
  exists w, scatter ix l v = Some w /\ length w = length v /\ (forall q, ~ In q ix -> vget w q = vget v q) /\
    (forall q, In q ix -> exists p, nth_error ix p = Some q /\ vget w q = vget l p).
Proof.
  induction ix as [ | i ix IH]; intros [ | x l] v Hl H; try discriminate.
  - exists v. repeat split. intros q [].
  - destruct (vset_ok v i x (H i (or_introl eq_refl))) as [v1 [E1 [Hl1 [Hx Hq]]]].
    destruct (IH l v1 ltac:(cbn in Hl; lia)) as [w [E [Hw [Hn Hy]]]]; [intros; rewrite Hl1; apply H; now right | ].
    exists w. cbn [scatter]. rewrite E1. cbn [obind]. split; [exact E | split; [lia | split]].
    + intros q Hne. rewrite Hn by (intro; apply Hne; now right). apply Hq. intros ->. apply Hne; now left.
    + intros q Hin. destruct (in_dec Nat.eq_dec q ix) as [Hi | Hi].
      * destruct (Hy q Hi) as [p [Hp Hw']]. exists (S p). auto.
      * destruct Hin as [<- | Hin]; [ | contradiction]. exists 0. split; [reflexivity | ]. rewrite (Hn i Hi). exact Hx.
Qed.

Lemma in_unknowns : forall k f N pts q, wf_fe k f -> length pts = k -> In q (unknowns f N pts) <-> exists c s, c < n_comp f /\ In s pts /\ q = N c s.
Proof.
  intros k f N pts q [Hd [H1 H2]] Hk. unfold unknowns. rewrite in_map_iff. split.
  - intros [i [<- Hi]]. apply in_seq in Hi. destruct (H1 i ltac:(lia)) as [Hc [Hj _]].
    exists (fst (s2c f i)), (nth (snd (s2c f i)) pts 0). repeat split; auto. apply nth_In. lia.
  - intros [c [s [Hc [Hs ->]]]]. apply (In_nth _ _ 0) in Hs. destruct Hs as [j [Hj <-]].
    destruct (H2 c j Hc ltac:(lia)) as [Hi E]. exists (c2s f c j). rewrite E. split; [reflexivity | ]. apply in_seq. lia.
Qed.
Lemma nth_unknowns : forall f N pts i, i < n_dofs f -> nth_error (unknowns f N pts) i = Some (N (fst (s2c f i)) (nth (snd (s2c f i)) pts 0)).
Proof.
  intros f N pts i Hi. unfold unknowns. apply (map_nth_error (fun i => N (fst (s2c f i)) (nth (snd (s2c f i)) pts 0))).
  rewrite (nth_error_nth' _ 0) by (now rewrite seq_length). now rewrite seq_nth.
Qed.
Lemma unknowns_length : forall f N pts, length (unknowns f N pts) = n_dofs f.
Proof. intros. unfold unknowns. now rewrite map_length, seq_length. Qed.

(** the indices of the unknowns of a part within the cell of the packed vector *)
Lemma inner_index : forall fa f off, map (fun i => let '(c, j) := s2c f i in c2s fa (c + off) j) (seq 0 (n_dofs f)) =
  map (fun i => c2s fa (fst (s2c f i) + off) (snd (s2c f i))) (seq 0 (n_dofs f)).
Proof. intros. apply map_ext. intros i. now destruct (s2c f i). Qed.
Lemma nth_inner : forall fa f off i, i < n_dofs f ->
  nth_error (map (fun i => c2s fa (fst (s2c f i) + off) (snd (s2c f i))) (seq 0 (n_dofs f))) i = Some (c2s fa (fst (s2c f i) + off) (snd (s2c f i))).
Proof.
  intros. apply (map_nth_error (fun i => c2s fa (fst (s2c f i) + off) (snd (s2c f i)))).
  rewrite (nth_error_nth' _ 0) by (now rewrite seq_length). now rewrite seq_nth.
Qed.

Section Part.
Context (k : nat) (fa f : fe) (off : nat) (Na N : nat -> nat -> nat).
Context (Wa : wf_fe k fa) (W : wf_fe k f) (Hoff : off + n_comp f <= n_comp fa).

Lemma split_part_ok : forall pts (vec dst : list A), length pts = k ->
  (forall c s, c < n_comp fa -> In s pts -> Na c s < length vec) ->
  (forall c s, c < n_comp f -> In s pts -> N c s < length dst) ->
  exists w, split_part fa f off (unknowns fa Na pts) (unknowns f N pts) vec dst = Some w /\ length w = length dst /\
    (forall q, (forall c s, c < n_comp f -> In s pts -> q <> N c s) -> vget w q = vget dst q) /\
    (forall c s, c < n_comp f -> In s pts -> exists c' s', c' < n_comp f /\ In s' pts /\ N c s = N c' s' /\ vget w (N c s) = vget vec (Na (c' + off) s')).
Proof.
  intros pts vec dst Hk Ra Rd. unfold split_part.
  destruct (gather_ok (unknowns fa Na pts) vec) as [loc [E [Hl Hloc]]].
  { intros i Hi. apply (in_unknowns k) in Hi; auto. destruct Hi as [c [s [Hc [Hs ->]]]]. auto. }
  rewrite E. cbn [obind]. rewrite inner_index. rewrite unknowns_length in Hl.
  destruct Wa as [Da [Wa1 Wa2]]. destruct W as [D [W1 W2]].
  set (ix := map (fun i => c2s fa (fst (s2c f i) + off) (snd (s2c f i))) (seq 0 (n_dofs f))).
  destruct (gather_ok ix loc) as [lc [E1 [Hl1 Hlc]]].
  { intros i Hi. unfold ix in Hi. apply in_map_iff in Hi. destruct Hi as [j [<- Hj]]. apply in_seq in Hj.
    destruct (W1 j ltac:(lia)) as [Hc [Hj' _]]. rewrite Hl. apply Wa2; lia. }
  rewrite E1. cbn [obind].
  destruct (scatter_ok (unknowns f N pts) lc dst) as [w [E2 [Hw [Hn Hy]]]].
  { rewrite Hl1, unknowns_length. unfold ix. now rewrite map_length, seq_length. }
  { intros i Hi. apply (in_unknowns k) in Hi; auto. destruct Hi as [c [s [Hc [Hs ->]]]]. auto. }
  exists w. split; [exact E2 | split; [exact Hw | split]].
  - intros q Hq. apply Hn. intros Hi. apply (in_unknowns k) in Hi; auto. destruct Hi as [c [s [Hc [Hs ->]]]]. exact (Hq c s Hc Hs eq_refl).
  - intros c s Hc Hs. destruct (Hy (N c s)) as [p [Hp Hv]]; [apply (in_unknowns k); eauto | ].
    assert (Hlt : p < n_dofs f) by (rewrite <- (unknowns_length f N pts); apply nth_error_Some; congruence).
    rewrite nth_unknowns in Hp by exact Hlt. injection Hp as Hp.
    destruct (W1 p Hlt) as [Hc' [Hj' _]].
    exists (fst (s2c f p)), (nth (snd (s2c f p)) pts 0). split; [exact Hc' | split; [apply nth_In; lia | split; [congruence | ]]].
    rewrite Hv, (Hlc p _ (nth_inner fa f off p Hlt)).
    destruct (Wa2 (fst (s2c f p) + off) (snd (s2c f p)) ltac:(lia) Hj') as [Hr Es].
    rewrite (Hloc _ _ (nth_unknowns fa Na pts _ Hr)). rewrite Es. reflexivity.
Qed.

(** one part, all cells *)
Fixpoint split_one (ptss : list (list nat)) (vec dst : list A) : option (list A) :=
  match ptss with
  | [] => Some dst
  | pts :: ptss => obind (split_part fa f off (unknowns fa Na pts) (unknowns f N pts) vec dst) (fun dst => split_one ptss vec dst)
  end.

Context (inj : forall c s c' s', c < n_comp f -> c' < n_comp f -> N c s = N c' s' -> c = c' /\ s = s').

Lemma split_one_ok : forall ptss (vec dst : list A), (forall pts, In pts ptss -> length pts = k) ->
  (forall c s, c < n_comp fa -> In s (concat ptss) -> Na c s < length vec) ->
  (forall c s, c < n_comp f -> In s (concat ptss) -> N c s < length dst) ->
  exists w, split_one ptss vec dst = Some w /\ length w = length dst /\
    (forall q, (forall c s, c < n_comp f -> In s (concat ptss) -> q <> N c s) -> vget w q = vget dst q) /\
    (forall c s, c < n_comp f -> In s (concat ptss) -> vget w (N c s) = vget vec (Na (c + off) s)).
Proof.
  induction ptss as [ | pts ptss IH]; intros vec dst Hk Ra Rd.
  - exists dst. repeat split. intros c s _ [].
  - cbn [concat] in *. destruct (split_part_ok pts vec dst (Hk _ (or_introl eq_refl))) as [w1 [E1 [L1 [N1 Y1]]]].
    { intros; apply Ra; auto. apply in_app_iff; auto. } { intros; apply Rd; auto. apply in_app_iff; auto. }
    destruct (IH vec w1) as [w [E [L [Nn Y]]]].
    { intros; apply Hk; now right. } { intros; apply Ra; auto. apply in_app_iff; auto. } { intros; rewrite L1; apply Rd; auto. apply in_app_iff; auto. }
    exists w. cbn [split_one]. rewrite E1. cbn [obind]. split; [exact E | split; [lia | split]].
    + intros q Hq. rewrite Nn, N1; auto; intros; apply Hq; auto; apply in_app_iff; auto.
    + intros c s Hc Hs. destruct (in_dec Nat.eq_dec s (concat ptss)) as [Hi | Hi]; [now apply Y | ].
      apply in_app_iff in Hs. destruct Hs as [Hs | Hs]; [ | contradiction].
      rewrite Nn.
      * destruct (Y1 c s Hc Hs) as [c' [s' [Hc' [Hs' [En Ev]]]]]. destruct (inj _ _ _ _ Hc Hc' En) as [<- <-]. exact Ev.
      * intros c' s' Hc' Hs' En. destruct (inj _ _ _ _ Hc Hc' En) as [<- <-]. contradiction.
Qed.

Lemma merge_part_ok : forall pts (src loc : list A), length pts = k -> length loc = n_dofs fa ->
  (forall c s, c < n_comp f -> In s pts -> N c s < length src) ->
  exists l', merge_part fa f off (unknowns f N pts) src loc = Some l' /\ length l' = n_dofs fa /\
    (forall c j, c < n_comp f -> j < k -> vget l' (c2s fa (c + off) j) = vget src (N c (nth j pts 0))) /\
    (forall c j, c < n_comp fa -> j < k -> c < off \/ off + n_comp f <= c -> vget l' (c2s fa c j) = vget loc (c2s fa c j)).
Proof.
  intros pts src loc Hk Hloc Rs. unfold merge_part.
  destruct (gather_ok (unknowns f N pts) src) as [lc [E [Hl Hlc]]].
  { intros i Hi. apply (in_unknowns k) in Hi; auto. destruct Hi as [c [s [Hc [Hs ->]]]]. auto. }
  rewrite E. cbn [obind]. rewrite inner_index.
  destruct Wa as [Da [Wa1 Wa2]]. destruct W as [D [W1 W2]].
  set (ix := map (fun i => c2s fa (fst (s2c f i) + off) (snd (s2c f i))) (seq 0 (n_dofs f))).
  assert (Hix : length ix = n_dofs f) by (unfold ix; now rewrite map_length, seq_length).
  destruct (scatter_ok ix lc loc) as [l' [E1 [Hl' [Hn Hy]]]].
  { rewrite Hl, unknowns_length. auto. }
  { intros i Hi. unfold ix in Hi. apply in_map_iff in Hi. destruct Hi as [j [<- Hj]]. apply in_seq in Hj.
    destruct (W1 j ltac:(lia)) as [Hc [Hj' _]]. rewrite Hloc. apply Wa2; lia. }
  exists l'. split; [exact E1 | split; [lia | split]].
  - intros c j Hc Hj. destruct (W2 c j Hc Hj) as [Hr Es].
    destruct (Hy (c2s fa (c + off) j)) as [p [Hp Hv]].
    { unfold ix. apply in_map_iff. exists (c2s f c j). rewrite Es. split; [reflexivity | apply in_seq; lia]. }
    assert (Hlt : p < n_dofs f) by (rewrite <- Hix; apply nth_error_Some; congruence).
    unfold ix in Hp. rewrite nth_inner in Hp by exact Hlt. injection Hp as Hp.
    destruct (W1 p Hlt) as [Hc' [Hj' Hback]].
    assert (Eq : (fst (s2c f p) + off, snd (s2c f p)) = (c + off, j)).
    { rewrite <- (proj2 (Wa2 (fst (s2c f p) + off) (snd (s2c f p)) ltac:(lia) Hj')).
      rewrite <- (proj2 (Wa2 (c + off) j ltac:(lia) Hj)). now rewrite Hp. }
    injection Eq as Ec Ej. assert (Ec' : fst (s2c f p) = c) by lia.
    rewrite Hv, (Hlc p _ (nth_unknowns f N pts p Hlt)). now rewrite Ec', Ej.
  - intros c j Hc Hj Hout. apply Hn. intros Hi. unfold ix in Hi. apply in_map_iff in Hi. destruct Hi as [p [Hp Hpp]]. apply in_seq in Hpp.
    destruct (W1 p ltac:(lia)) as [Hc' [Hj' _]].
    assert (Eq : (fst (s2c f p) + off, snd (s2c f p)) = (c, j)).
    { rewrite <- (proj2 (Wa2 (fst (s2c f p) + off) (snd (s2c f p)) ltac:(lia) Hj')).
      rewrite <- (proj2 (Wa2 c j ltac:(lia) Hj)). now rewrite Hp. }
    injection Eq as Ec Ej. lia.
Qed.
End Part.
End Cells.

Section Whole.
Context {A : Type} (k : nat) (fa : fe) (Na : nat -> nat -> nat) (Wa : wf_fe k fa).
Context (inja : forall c s c' s', c < n_comp fa -> c' < n_comp fa -> Na c s = Na c' s' -> c = c' /\ s = s').

Lemma split_two : forall f0 o0 N0 f1 o1 N1 ptss (vec d0 d1 w0 w1 : list A),
  split_one fa f0 o0 Na N0 ptss vec d0 = Some w0 -> split_one fa f1 o1 Na N1 ptss vec d1 = Some w1 ->
  split_up fa [(f0, o0); (f1, o1)] (map (fun pts => (unknowns fa Na pts, [unknowns f0 N0 pts; unknowns f1 N1 pts])) ptss) vec [d0; d1] = Some [w0; w1].
Proof.
  intros f0 o0 N0 f1 o1 N1. induction ptss as [ | pts ptss IH]; intros vec d0 d1 w0 w1 H0 H1; cbn [split_one map split_up split_parts] in *.
  - congruence.
  - destruct (split_part fa f0 o0 _ _ vec d0) as [e0 | ]; [ | discriminate]. destruct (split_part fa f1 o1 _ _ vec d1) as [e1 | ]; [ | discriminate].
    cbn [obind] in *. apply IH; assumption.
Qed.
Lemma split_three : forall f0 o0 N0 f1 o1 N1 f2 o2 N2 ptss (vec d0 d1 d2 w0 w1 w2 : list A),
  split_one fa f0 o0 Na N0 ptss vec d0 = Some w0 -> split_one fa f1 o1 Na N1 ptss vec d1 = Some w1 -> split_one fa f2 o2 Na N2 ptss vec d2 = Some w2 ->
  split_up fa [(f0, o0); (f1, o1); (f2, o2)] (map (fun pts => (unknowns fa Na pts, [unknowns f0 N0 pts; unknowns f1 N1 pts; unknowns f2 N2 pts])) ptss) vec [d0; d1; d2] = Some [w0; w1; w2].
Proof.
  intros f0 o0 N0 f1 o1 N1 f2 o2 N2. induction ptss as [ | pts ptss IH]; intros vec d0 d1 d2 w0 w1 w2 H0 H1 H2; cbn [split_one map split_up split_parts] in *.
  - congruence.
  - destruct (split_part fa f0 o0 _ _ vec d0) as [e0 | ]; [ | discriminate]. destruct (split_part fa f1 o1 _ _ vec d1) as [e1 | ]; [ | discriminate].
    destruct (split_part fa f2 o2 _ _ vec d2) as [e2 | ]; [ | discriminate].
    cbn [obind] in *. apply IH; assumption.
Qed.

(** if the cell values put together are those of the field [F], so is the packed vector *)
Lemma merge_ok : forall zero ps (mk : list nat -> list (list nat)) srcs (F : nat -> nat -> option A) ptss vec,
  (forall pts, In pts ptss -> length pts = k) ->
  (forall c s, c < n_comp fa -> In s (concat ptss) -> Na c s < length vec) ->
  (forall pts, In pts ptss -> exists l, merge_parts ps fa (mk pts) srcs (repeat zero (n_dofs fa)) = Some l /\ length l = n_dofs fa /\
     forall c j, c < n_comp fa -> j < k -> vget l (c2s fa c j) = F c (nth j pts 0)) ->
  exists w, merge zero fa ps (map (fun pts => (unknowns fa Na pts, mk pts)) ptss) srcs vec = Some w /\ length w = length vec /\
    (forall q, (forall c s, c < n_comp fa -> In s (concat ptss) -> q <> Na c s) -> vget w q = vget vec q) /\
    (forall c s, c < n_comp fa -> In s (concat ptss) -> vget w (Na c s) = F c s).
Proof.
  intros zero ps mk srcs F. induction ptss as [ | pts ptss IH]; intros vec Hk Ra HF.
  - exists vec. repeat split. intros c s _ [].
  - cbn [concat map merge] in *. destruct (HF pts (or_introl eq_refl)) as [l [E [Hl HFl]]]. rewrite E. cbn [obind].
    pose proof (Hk _ (or_introl eq_refl)) as Hpts.
    destruct (scatter_ok (unknowns fa Na pts) l vec) as [w1 [E1 [L1 [N1 Y1]]]].
    { now rewrite unknowns_length. }
    { intros i Hi. apply (in_unknowns k) in Hi; auto. destruct Hi as [c [s [Hc [Hs ->]]]]. apply Ra; auto. apply in_app_iff; auto. }
    rewrite E1. cbn [obind]. destruct (IH w1) as [w [Ew [Lw [Nw Yw]]]].
    { intros; apply Hk; now right. } { intros; rewrite L1; apply Ra; auto. apply in_app_iff; auto. } { intros; apply HF; now right. }
    exists w. split; [exact Ew | split; [lia | split]].
    + intros q Hq. rewrite Nw by (intros; apply Hq; auto; apply in_app_iff; auto). apply N1. intros Hi. apply (in_unknowns k) in Hi; auto.
      destruct Hi as [c [s [Hc [Hs ->]]]]. apply (Hq c s Hc); auto. apply in_app_iff; auto.
    + intros c s Hc Hs. destruct (in_dec Nat.eq_dec s (concat ptss)) as [Hi | Hi]; [now apply Yw | ].
      apply in_app_iff in Hs. destruct Hs as [Hs | Hs]; [ | contradiction]. rewrite Nw.
      * destruct (Y1 (Na c s)) as [p [Hp Hv]]; [apply (in_unknowns k); eauto | ].
        assert (Hlt : p < n_dofs fa) by (rewrite <- (unknowns_length fa Na pts); apply nth_error_Some; congruence).
        rewrite nth_unknowns in Hp by exact Hlt. injection Hp as Hp.
        destruct (proj1 (proj2 Wa) p Hlt) as [Hc' [Hj' Hb]].
        destruct (inja _ _ _ _ Hc' Hc Hp) as [Ec Es].
        rewrite Hv, <- Hb, HFl by assumption. now rewrite Ec, Es.
      * intros c' s' Hc' Hs' En. destruct (inja _ _ _ _ Hc Hc' En) as [<- <-]. contradiction.
Qed.
End Whole.

(** [N] numbers the unknowns of an element without giving a number twice. *)
Definition numbering (f : fe) (N : nat -> nat -> nat) : Prop :=
  forall c s c' s', c < n_comp f -> c' < n_comp f -> N c s = N c' s' -> c = c' /\ s = s'.

(** Taking apart through the cells: for any numberings of the unknowns, component [c] of the
    first part at every point of the cells has the value of component [c] of the packed
    vector, component [c] of the second part that of component [c + 2]; all other entries of
    the targets are kept.  Putting the parts together again gives back the packed vector at
    the points of the cells. *)
Theorem C101_cells : forall (A : Type) (zero : A) k n fa ch ac Na N0 N1 ptss vec v0 v1 x,
  wf_fe k fa -> wf_fe k ch -> wf_fe k ac -> n_comp fa = 2 + n -> n_comp ch = 2 -> n_comp ac = n ->
  numbering fa Na -> numbering ch N0 -> numbering ac N1 -> (forall pts, In pts ptss -> length pts = k) ->
  (forall c s, c < 2 + n -> In s (concat ptss) -> Na c s < length vec) -> length x = length vec ->
  (forall c s, c < 2 -> In s (concat ptss) -> N0 c s < length v0) -> (forall c s, c < n -> In s (concat ptss) -> N1 c s < length v1) ->
  let cells := map (fun pts => (unknowns fa Na pts, [unknowns ch N0 pts; unknowns ac N1 pts])) ptss in
  exists w0 w1 w, split_up2 fa ch ac cells vec [v0; v1] = Some [w0; w1] /\ length w0 = length v0 /\ length w1 = length v1 /\
    (forall c s, c < 2 -> In s (concat ptss) -> vget w0 (N0 c s) = vget vec (Na c s)) /\
    (forall c s, c < n -> In s (concat ptss) -> vget w1 (N1 c s) = vget vec (Na (c + 2) s)) /\
    (forall q, (forall c s, c < 2 -> In s (concat ptss) -> q <> N0 c s) -> vget w0 q = vget v0 q) /\
    (forall q, (forall c s, c < n -> In s (concat ptss) -> q <> N1 c s) -> vget w1 q = vget v1 q) /\
    merge2 zero fa ch ac cells [w0; w1] x = Some w /\ length w = length x /\
    (forall c s, c < 2 + n -> In s (concat ptss) -> vget w (Na c s) = vget vec (Na c s)) /\
    (forall q, (forall c s, c < 2 + n -> In s (concat ptss) -> q <> Na c s) -> vget w q = vget x q).
Proof.
  intros A zero k n fa ch ac Na N0 N1 ptss vec v0 v1 x Wa W0 W1 Ca C0 C1 Ia I0 I1 Hk Ra Hx R0 R1 cells.
  destruct (split_one_ok k fa ch 0 Na N0 Wa W0 ltac:(lia) I0 ptss vec v0 Hk ltac:(rewrite Ca; exact Ra) ltac:(rewrite C0; exact R0)) as [w0 [E0 [L0 [K0 Y0]]]].
  destruct (split_one_ok k fa ac 2 Na N1 Wa W1 ltac:(lia) I1 ptss vec v1 Hk ltac:(rewrite Ca; exact Ra) ltac:(rewrite C1; exact R1)) as [w1 [E1 [L1 [K1 Y1]]]].
  rewrite C0 in K0, Y0. rewrite C1 in K1, Y1.
  assert (Y0' : forall c s, c < 2 -> In s (concat ptss) -> vget w0 (N0 c s) = vget vec (Na c s)) by (intros; rewrite Y0 by assumption; now rewrite Nat.add_0_r).
  destruct (merge_ok k fa Na Wa Ia zero [(ch, 0); (ac, 2)] (fun pts => [unknowns ch N0 pts; unknowns ac N1 pts]) [w0; w1] (fun c s => vget vec (Na c s)) ptss x Hk
    ltac:(rewrite Ca, Hx; exact Ra)) as [w [E [L [K Y]]]].
  { intros pts Hp. cbn [merge_parts]. pose proof (Hk pts Hp) as Hlen.
    assert (Hin : forall s, In s pts -> In s (concat ptss)) by (intros s Hs; apply in_concat; eauto).
    destruct (merge_part_ok k fa ch 0 N0 Wa W0 ltac:(lia) pts w0 (repeat zero (n_dofs fa)) Hlen (repeat_length _ _)) as [l0 [F0 [M0 [P0 Q0]]]].
    { rewrite C0, L0. intros; apply R0; auto. }
    rewrite F0. cbn [obind].
    destruct (merge_part_ok k fa ac 2 N1 Wa W1 ltac:(lia) pts w1 l0 Hlen M0) as [l1 [F1 [M1 [P1 Q1]]]].
    { rewrite C1, L1. intros; apply R1; auto. }
    rewrite F1. cbn [obind]. exists l1. split; [reflexivity | split; [exact M1 | ]]. intros c j Hc Hj. rewrite C0 in P0. rewrite C1 in P1.
    assert (Hs : In (nth j pts 0) (concat ptss)) by (apply Hin, nth_In; lia).
    destruct (lt_dec c 2) as [Hlt | Hge].
    - rewrite Q1 by (auto; lia). rewrite <- (Nat.add_0_r c) at 1. rewrite P0 by assumption. now apply Y0'.
    - replace c with (c - 2 + 2) at 1 by lia. rewrite P1 by (auto; lia). rewrite Y1 by (auto; lia). f_equal. f_equal. lia. }
  rewrite Ca in Y, K. exists w0, w1, w.
  split; [exact (split_two fa Na ch 0 N0 ac 2 N1 ptss vec v0 v1 w0 w1 E0 E1) | ]. repeat (split; [assumption | ]). assumption.
Qed.
Print Assumptions C101_cells.

(** the same with three parts; the first two parts use the same numbering *)
Theorem C101_cells_three : forall (A : Type) k n fa one ac Na N0 N2 ptss (vec v0 v1 v2 : list A),
  wf_fe k fa -> wf_fe k one -> wf_fe k ac -> n_comp fa = 2 + n -> n_comp one = 1 -> n_comp ac = n ->
  numbering one N0 -> numbering ac N2 -> (forall pts, In pts ptss -> length pts = k) ->
  (forall c s, c < 2 + n -> In s (concat ptss) -> Na c s < length vec) ->
  (forall s, In s (concat ptss) -> N0 0 s < length v0 /\ N0 0 s < length v1) -> (forall c s, c < n -> In s (concat ptss) -> N2 c s < length v2) ->
  let cells := map (fun pts => (unknowns fa Na pts, [unknowns one N0 pts; unknowns one N0 pts; unknowns ac N2 pts])) ptss in
  exists w0 w1 w2, split_up3 fa one ac cells vec [v0; v1; v2] = Some [w0; w1; w2] /\
    (forall s, In s (concat ptss) -> vget w0 (N0 0 s) = vget vec (Na 0 s) /\ vget w1 (N0 0 s) = vget vec (Na 1 s)) /\
    (forall c s, c < n -> In s (concat ptss) -> vget w2 (N2 c s) = vget vec (Na (c + 2) s)).
Proof.
  intros A k n fa one ac Na N0 N2 ptss vec v0 v1 v2 Wa W0 W2 Ca C0 C2 I0 I2 Hk Ra R0 R2 cells.
  assert (lt1 : forall c, c < 1 -> c = 0) by (intros; lia).
  destruct (split_one_ok k fa one 0 Na N0 Wa W0 ltac:(lia) I0 ptss vec v0 Hk ltac:(rewrite Ca; exact Ra)) as [w0 [E0 [_ [_ Y0]]]].
  { rewrite C0. intros c s Hc Hs. rewrite (lt1 c Hc). now apply R0. }
  destruct (split_one_ok k fa one 1 Na N0 Wa W0 ltac:(lia) I0 ptss vec v1 Hk ltac:(rewrite Ca; exact Ra)) as [w1 [E1 [_ [_ Y1]]]].
  { rewrite C0. intros c s Hc Hs. rewrite (lt1 c Hc). now apply R0. }
  destruct (split_one_ok k fa ac 2 Na N2 Wa W2 ltac:(lia) I2 ptss vec v2 Hk ltac:(rewrite Ca; exact Ra) ltac:(rewrite C2; exact R2)) as [w2 [E2 [_ [_ Y2]]]].
  rewrite C0 in Y0, Y1. rewrite C2 in Y2. exists w0, w1, w2.
  split; [exact (split_three fa Na one 0 N0 one 1 N0 ac 2 N2 ptss vec v0 v1 v2 w0 w1 w2 E0 E1 E2) | split; [ | exact Y2]].
  intros s Hs. split; [exact (Y0 0 s ltac:(lia) Hs) | exact (Y1 0 s ltac:(lia) Hs)].
Qed.
Print Assumptions C101_cells_three.

(** ... and putting three parts together: the packed vector has the values of the parts at the
    points of the cells and is kept elsewhere. *)
Theorem C101_cells_three_back : forall (A : Type) (zero : A) k n fa one ac Na N0 N2 ptss (v0 v1 v2 x : list A),
  wf_fe k fa -> wf_fe k one -> wf_fe k ac -> n_comp fa = 2 + n -> n_comp one = 1 -> n_comp ac = n ->
  numbering fa Na -> (forall pts, In pts ptss -> length pts = k) ->
  (forall c s, c < 2 + n -> In s (concat ptss) -> Na c s < length x) ->
  (forall s, In s (concat ptss) -> N0 0 s < length v0 /\ N0 0 s < length v1) -> (forall c s, c < n -> In s (concat ptss) -> N2 c s < length v2) ->
  let cells := map (fun pts => (unknowns fa Na pts, [unknowns one N0 pts; unknowns one N0 pts; unknowns ac N2 pts])) ptss in
  exists w, merge3 zero fa one ac cells [v0; v1; v2] x = Some w /\ length w = length x /\
    (forall s, In s (concat ptss) -> vget w (Na 0 s) = vget v0 (N0 0 s) /\ vget w (Na 1 s) = vget v1 (N0 0 s)) /\
    (forall c s, c < n -> In s (concat ptss) -> vget w (Na (c + 2) s) = vget v2 (N2 c s)) /\
    (forall q, (forall c s, c < 2 + n -> In s (concat ptss) -> q <> Na c s) -> vget w q = vget x q).
Proof.
  intros A zero k n fa one ac Na N0 N2 ptss v0 v1 v2 x Wa W0 W2 Ca C0 C2 Ia Hk Ra R0 R2 cells.
  assert (lt1 : forall c, c < 1 -> c = 0) by (intros; lia).
  destruct (merge_ok k fa Na Wa Ia zero [(one, 0); (one, 1); (ac, 2)] (fun pts => [unknowns one N0 pts; unknowns one N0 pts; unknowns ac N2 pts]) [v0; v1; v2]
    (fun c s => match c with 0 => vget v0 (N0 0 s) | 1 => vget v1 (N0 0 s) | S (S c) => vget v2 (N2 c s) end) ptss x Hk
    ltac:(rewrite Ca; exact Ra)) as [w [E [L [K Y]]]].
  { intros pts Hp. cbn [merge_parts]. pose proof (Hk pts Hp) as Hlen.
    assert (Hin : forall s, In s pts -> In s (concat ptss)) by (intros s Hs; apply in_concat; eauto).
    destruct (merge_part_ok k fa one 0 N0 Wa W0 ltac:(lia) pts v0 (repeat zero (n_dofs fa)) Hlen (repeat_length _ _)) as [l0 [F0 [M0 [P0 Q0]]]].
    { rewrite C0. intros c s Hc Hs; rewrite (lt1 c Hc); apply R0; auto. }
    rewrite F0. cbn [obind].
    destruct (merge_part_ok k fa one 1 N0 Wa W0 ltac:(lia) pts v1 l0 Hlen M0) as [l1 [F1 [M1 [P1 Q1]]]].
    { rewrite C0. intros c s Hc Hs; rewrite (lt1 c Hc); apply R0; auto. }
    rewrite F1. cbn [obind].
    destruct (merge_part_ok k fa ac 2 N2 Wa W2 ltac:(lia) pts v2 l1 Hlen M1) as [l2 [F2 [M2 [P2 Q2]]]].
    { rewrite C2. intros; apply R2; auto. }
    rewrite F2. cbn [obind]. exists l2. split; [reflexivity | split; [exact M2 | ]]. intros c j Hc Hj. rewrite C0 in P0, P1. rewrite C2 in P2.
    destruct c as [ | [ | c]].
    - rewrite Q2 by (auto; lia). rewrite Q1 by (auto; lia). exact (P0 0 j ltac:(lia) Hj).
    - rewrite Q2 by (auto; lia). exact (P1 0 j ltac:(lia) Hj).
    - replace (S (S c)) with (c + 2) by lia. apply P2; lia. }
  rewrite Ca in Y, K. exists w. split; [exact E | split; [exact L | split; [ | split; [ | exact K]]]].
  - intros s Hs. split; [exact (Y 0 s ltac:(lia) Hs) | exact (Y 1 s ltac:(lia) Hs)].
  - intros c s Hc Hs. rewrite (Nat.add_comm c 2). exact (Y (2 + c) s ltac:(lia) Hs).
Qed.
Print Assumptions C101_cells_three_back.

Lemma list_ext : forall (A : Type) (a b : list A), (forall q, vget a q = vget b q) -> a = b.
Proof.
  induction a as [ | x a IH]; intros [ | y b] H; auto; try (specialize (H 0); discriminate).
  f_equal; [specialize (H 0); injection H as ->; reflexivity | ]. apply IH. intros q. exact (H (S q)).
Qed.

Lemma concat_get : forall (A : Type) (ll : list (list A)) m s c l, (forall x, In x ll -> length x = m) -> c < m -> nth_error ll s = Some l ->
  vget (concat ll) (s * m + c) = vget l c.
Proof.
  induction ll as [ | x ll IH]; intros m s c l H Hc Hs; [destruct s; discriminate | ].
  pose proof (H x (or_introl eq_refl)) as Hx. cbn [concat]. unfold vget in *. destruct s as [ | s]; cbn [nth_error] in Hs.
  - injection Hs as <-. cbn [Nat.mul Nat.add]. now rewrite nth_error_app1 by lia.
  - rewrite nth_error_app2 by (cbn; lia). rewrite <- (IH m s c l); auto; [f_equal; cbn; lia | intros; apply H; now right].
Qed.

(** the numbering point by point, all components of a point one after another *)
Definition by_points (m c s : nat) : nat := s * m + c.
Lemma by_points_numbering : forall m f, n_comp f = m -> numbering f (by_points m).
Proof.
  intros m f E c s c' s' Hc Hc' H. rewrite E in Hc, Hc'. unfold by_points in H.
  assert (s = s') by (assert (s < s' \/ s = s' \/ s' < s) as [X | [X | X]] by lia; nia). subst s'. lia.
Qed.
Lemma points_cover : forall m p q, q < p * m -> exists s c, s < p /\ c < m /\ q = s * m + c.
Proof.
  intros m p q H. assert (m <> 0) by nia. exists (q / m), (q mod m).
  pose proof (Nat.div_mod q m ltac:(assumption)). pose proof (Nat.mod_upper_bound q m ltac:(assumption)).
  repeat split; [ | assumption | nia]. apply Nat.div_lt_upper_bound; nia.
Qed.

(** The quick and the slow versions agree if all three numberings go point by point and the
    cells reach all points. *)
Theorem C101_agree : forall (A : Type) (zero : A) k n p fa ch ac ptss vec v0 v1,
  wf_fe k fa -> wf_fe k ch -> wf_fe k ac -> n_comp fa = 2 + n -> n_comp ch = 2 -> n_comp ac = n ->
  (forall pts, In pts ptss -> length pts = k) -> (forall s, In s (concat ptss) <-> s < p) ->
  length vec = p * (2 + n) -> length v0 = 2 * p -> length v1 = n * p ->
  let cells := map (fun pts => (unknowns fa (by_points (2 + n)) pts, [unknowns ch (by_points 2) pts; unknowns ac (by_points n) pts])) ptss in
  split_up2 fa ch ac cells vec [v0; v1] = split_up_fast2 vec v0 v1 n /\
  merge2 zero fa ch ac cells [v0; v1] vec = merge_fast2 v0 v1 vec n.
Proof.
  intros A zero k n p fa ch ac ptss vec v0 v1 Wa W0 W1 Ca C0 C1 Hk Hp Lv L0 L1 cells.
  assert (Hsplit : forall vec', length vec' = p * (2 + n) -> forall v0' v1', length v0' = 2 * p -> length v1' = n * p ->
     exists w0 w1, split_up2 fa ch ac cells vec' [v0'; v1'] = Some [w0; w1] /\ split_up_fast2 vec' v0' v1' n = Some [w0; w1] /\
       merge2 zero fa ch ac cells [w0; w1] vec = Some vec').
  { intros vec' Lv' v0' v1' L0' L1'.
    destruct (C101_cells A zero k n fa ch ac (by_points (2 + n)) (by_points 2) (by_points n) ptss vec' v0' v1' vec Wa W0 W1 Ca C0 C1
      (by_points_numbering _ _ Ca) (by_points_numbering _ _ C0) (by_points_numbering _ _ C1) Hk) as
      [w0 [w1 [w [E [M0 [M1 [Y0 [Y1 [_ [_ [Em [Lm [Ym _]]]]]]]]]]]]].
    { intros c s Hc Hs. apply Hp in Hs. unfold by_points. nia. } { congruence. }
    { intros c s Hc Hs. apply Hp in Hs. unfold by_points. nia. } { intros c s Hc Hs. apply Hp in Hs. unfold by_points. nia. }
    destruct (rows2_of A n p vec' Lv') as [rows [Hl [Hf Hvec]]].
    destruct (C101_two A n rows v0' v1' vec Hf ltac:(nia) ltac:(nia) ltac:(nia)) as [F _]. rewrite <- Hvec in F.
    assert (Hr : forall s, s < p -> exists r, nth_error rows s = Some r /\ length (fst r) = 2 /\ length (snd r) = n).
    { intros s Hs. destruct (nth_error rows s) as [r | ] eqn:Er; [ | apply nth_error_None in Er; lia]. exists r. split; [reflexivity | ].
      rewrite Forall_forall in Hf. apply Hf. eapply nth_error_In; eauto. }
    assert (Hg : forall s c r, nth_error rows s = Some r -> c < 2 + n -> vget vec' (s * (2 + n) + c) = vget (fst r ++ snd r) c).
    { intros s c r Er Hc. rewrite Hvec. apply concat_get; auto; [ | exact (map_nth_error (fun r => fst r ++ snd r) s rows Er)].
      intros l Hin. apply in_map_iff in Hin. destruct Hin as [r' [<- Hr']]. rewrite Forall_forall in Hf. destruct (Hf r' Hr'). rewrite app_length. lia. }
    assert (X0 : w0 = concat (map fst rows)).
    { apply list_ext. intros q. destruct (lt_dec q (p * 2)) as [Hq | Hq].
      - destruct (points_cover 2 p q Hq) as [s [c [Hs [Hc ->]]]]. destruct (Hr s Hs) as [r [Er [Lr0 Lr1]]].
        change (s * 2 + c) with (by_points 2 c s). rewrite Y0 by (auto; apply Hp; auto). unfold by_points. rewrite (Hg s c r Er ltac:(lia)).
        rewrite (concat_get A (map fst rows) 2 s c (fst r)); auto; [ | | exact (map_nth_error fst s rows Er)].
        + unfold vget. now rewrite nth_error_app1 by lia.
        + intros l Hin. apply in_map_iff in Hin. destruct Hin as [r' [<- Hr']]. rewrite Forall_forall in Hf. apply (Hf r' Hr').
      - transitivity (@None A); [ | symmetry]; apply nth_error_None; [lia | ].
        rewrite (concat_length_const _ 2); [rewrite map_length; lia | ]. apply Forall_map. eapply Forall_impl; [ | exact Hf]. intros r [H _]; exact H. }
    assert (X1 : w1 = concat (map snd rows)).
    { apply list_ext. intros q. destruct (lt_dec q (p * n)) as [Hq | Hq].
      - destruct (points_cover n p q Hq) as [s [c [Hs [Hc ->]]]]. destruct (Hr s Hs) as [r [Er [Lr0 Lr1]]].
        change (s * n + c) with (by_points n c s). rewrite Y1 by (auto; apply Hp; auto). unfold by_points. rewrite (Hg s (c + 2) r Er ltac:(lia)).
        rewrite (concat_get A (map snd rows) n s c (snd r)); auto; [ | | exact (map_nth_error snd s rows Er)].
        + unfold vget. rewrite nth_error_app2 by lia. f_equal. lia.
        + intros l Hin. apply in_map_iff in Hin. destruct Hin as [r' [<- Hr']]. rewrite Forall_forall in Hf. apply (Hf r' Hr').
      - transitivity (@None A); [ | symmetry]; apply nth_error_None; [nia | ].
        rewrite (concat_length_const _ n); [rewrite map_length; nia | ]. apply Forall_map. eapply Forall_impl; [ | exact Hf]. intros r [_ H]; exact H. }
    exists w0, w1. split; [exact E | split; [now rewrite X0, X1 | ]]. unfold cells; rewrite Em. f_equal. apply list_ext. intros q.
    destruct (lt_dec q (p * (2 + n))) as [Hq | Hq].
    - destruct (points_cover (2 + n) p q Hq) as [s [c [Hs [Hc ->]]]]. apply (Ym c s Hc). now apply Hp.
    - transitivity (@None A); [ | symmetry]; apply nth_error_None; lia. }
  split.
  - destruct (Hsplit vec Lv v0 v1 L0 L1) as [w0 [w1 [-> [-> _]]]]. reflexivity.
  - destruct (C101_round A n p vec v0 v1 vec v0 v1 Lv L0 L1 Lv L0 L1) as [_ [x [Ex Es]]].
    assert (Lx : length x = p * (2 + n)).
    { destruct (pieces_of A 2 p v0 ltac:(nia)) as [r0 [Hl0 [Hf0 H0]]]. destruct (pieces_of A n p v1 ltac:(nia)) as [r1 [Hl1 [Hf1 H1]]].
      destruct (pair_up _ _ r0 r1 _ _ ltac:(congruence) Hf0 Hf1) as [rows [Hm0 [Hm1 [Hl Hf]]]]. subst r0 r1.
      destruct (C101_two A n rows v0 v1 vec Hf ltac:(nia) ltac:(nia) ltac:(nia)) as [_ H2]. rewrite <- H0, <- H1, Ex in H2. injection H2 as ->.
      pose proof (row2_total n rows Hf) as Ht. unfold row2 in Ht. rewrite Ht. nia. }
    destruct (Hsplit x Lx v0 v1 L0 L1) as [w0 [w1 [_ [F M]]]]. rewrite Es in F. injection F as <- <-. now rewrite M, Ex.
Qed.
Print Assumptions C101_agree.

(** A cell with two points, elements with three components (one grain), two and one. *)
Definition simple_fe (m k : nat) : fe := {| n_comp := m; n_dofs := m * k; s2c := fun i => (i mod m, i / m); c2s := fun c j => j * m + c |}.
Lemma simple_fe_wf : forall m k, wf_fe k (simple_fe m k).
Proof.
  intros m k. unfold wf_fe, simple_fe. cbn [n_comp n_dofs s2c c2s fst snd]. split; [reflexivity | split].
  - intros i Hi. assert (m <> 0) by nia. pose proof (Nat.mod_upper_bound i m ltac:(assumption)). pose proof (Nat.div_mod i m ltac:(assumption)).
    repeat split; [assumption | apply Nat.div_lt_upper_bound; nia | nia].
  - intros c j Hc Hj. split; [nia | ]. rewrite Nat.add_comm, Nat.mod_add, Nat.div_add by lia. rewrite Nat.mod_small, Nat.div_small by assumption. reflexivity.
Qed.

(** With another numbering, say all first components before all second ones, the quick version
    gives something else: two points with the values (1, 2 | 3) and (4, 5 | 6), numbered
    component by component. *)
Theorem C101_numbering_refuted : exists k n p fa ch ac Na N0 N1 ptss (vec v0 v1 : list nat),
  wf_fe k fa /\ wf_fe k ch /\ wf_fe k ac /\ n_comp fa = 2 + n /\ n_comp ch = 2 /\ n_comp ac = n /\
  numbering fa Na /\ numbering ch N0 /\ numbering ac N1 /\ (forall pts, In pts ptss -> length pts = k) /\
  (forall s, In s (concat ptss) <-> s < p) /\ length vec = p * (2 + n) /\ length v0 = 2 * p /\ length v1 = n * p /\
  (forall c s, c < 2 + n -> s < p -> Na c s < length vec) /\
  split_up2 fa ch ac (map (fun pts => (unknowns fa Na pts, [unknowns ch N0 pts; unknowns ac N1 pts])) ptss) vec [v0; v1] = Some [[1; 2; 4; 5]; [3; 6]] /\
  split_up_fast2 vec v0 v1 n = Some [[1; 4; 5; 3]; [2; 6]].
Proof.
  exists 2, 1, 2, (simple_fe 3 2), (simple_fe 2 2), (simple_fe 1 2), (fun c s => if s <? 2 then 2 * c + s else 3 * s + c), (by_points 2), (by_points 1), [[0; 1]], [1; 4; 2; 5; 3; 6], [0; 0; 0; 0], [0; 0].
  do 3 (split; [apply simple_fe_wf | ]). do 3 (split; [reflexivity | ]).
  split; [ | do 2 (split; [apply by_points_numbering; reflexivity | ])].
  - intros c s c' s' Hc Hc' H. cbn [n_comp simple_fe] in Hc, Hc'.
    destruct (Nat.ltb_spec s 2); destruct (Nat.ltb_spec s' 2); lia.
  - split; [intros pts [<- | []]; reflexivity | ]. split; [intros s; cbn; lia | ]. do 3 (split; [reflexivity | ]).
    split; [ | split; vm_compute; reflexivity]. intros c s Hc Hs. destruct (Nat.ltb_spec s 2); cbn [length]; lia.
Qed.
Print Assumptions C101_numbering_refuted.

(** Two cells with three points in a row, one grain: the hypotheses of the theorems hold and
    the parts are as expected. *)
Example C101_applies :
  wf_fe 2 (simple_fe 3 2) /\ numbering (simple_fe 3 2) (by_points 3) /\
  split_up2 (simple_fe 3 2) (simple_fe 2 2) (simple_fe 1 2)
    (map (fun pts => (unknowns (simple_fe 3 2) (by_points 3) pts, [unknowns (simple_fe 2 2) (by_points 2) pts; unknowns (simple_fe 1 2) (by_points 1) pts])) [[0; 1]; [1; 2]])
    [1; 2; 3; 4; 5; 6; 7; 8; 9] [[0; 0; 0; 0; 0; 0]; [0; 0; 0]] = Some [[1; 2; 4; 5; 7; 8]; [3; 6; 9]] /\
  split_up_fast2 [1; 2; 3; 4; 5; 6; 7; 8; 9] [0; 0; 0; 0; 0; 0] [0; 0; 0] 1 = Some [[1; 2; 4; 5; 7; 8]; [3; 6; 9]] /\
  split_up_fast3 [1; 2; 3; 4; 5; 6; 7; 8; 9] [0; 0; 0] [0; 0; 0] [0; 0; 0] 1 = Some [[1; 4; 7]; [2; 5; 8]; [3; 6; 9]] /\
  split_up_fast2 [1; 2; 3; 4; 5; 6; 7; 8] [0; 0; 0; 0] [0; 0; 0; 0] 1 = None /\
  check_identity [1%Q; (2 # 4)%Q] [1%Q; (1 # 2)%Q] = Some true /\ check_identity [1%Q] [1%Q; 1%Q] = Some false.
Proof.
  split; [apply simple_fe_wf | split; [now apply by_points_numbering | ]]. repeat apply conj; vm_compute; reflexivity.
Qed.
