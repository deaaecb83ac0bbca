(** Property C50: origin for clamping. *)
From Coq Require Import QArith ZArith Qfield List Bool Arith Lia Lqa.
From Verif Require Import Util OriginModel.
Import ListNotations.
Local Open Scope nat_scope.

Definition segments (grains : list grain) : list (Z * segment) := flat_map (fun g => map (fun s => (fst g, s)) (snd g)) grains.

Lemma flatten : forall dist pg grains c,
  fold_left (visit_grain dist pg) grains c = fold_left (fun c p => visit dist pg (fst p) c (snd p)) (segments grains) c.
Proof.
  intros dist pg. induction grains as [| [z l] grains IH]; intros c; cbn [fold_left segments flat_map]; [reflexivity |].
  rewrite fold_left_app, <- IH. f_equal. unfold visit_grain. cbn [fst snd]. clear IH. revert c. induction l as [| s l IH]; intros c; [reflexivity |].
  cbn [map fold_left fst snd]. apply IH.
Qed.

(** the invariant of the loop: the origin is the center of a visited segment, with its distance
    and dynamics stored *)
Lemma visited : forall dist pg l c done,
  (forall d, c_dist c = Some d -> exists z s, In (z, s) done /\ c_origin c = snd s /\ d = dist (snd s) /\ c_dyn c = z) -> (c_dist c = None -> done = []) ->
  let c' := fold_left (fun c p => visit dist pg (fst p) c (snd p)) l c in
  (forall d, c_dist c' = Some d -> exists z s, In (z, s) (done ++ l) /\ c_origin c' = snd s /\ d = dist (snd s) /\ c_dyn c' = z) /\ (c_dist c' = None -> done ++ l = []).
Proof.
  intros dist pg. induction l as [| [z s] l IH]; intros c done H1 H2; cbn [fold_left fst snd].
  - rewrite app_nil_r. split; assumption.
  - replace (done ++ (z, s) :: l) with ((done ++ [(z, s)]) ++ l) by (rewrite <- app_assoc; reflexivity). apply IH.
    + intros d. unfold visit. match goal with |- context [if ?b then _ else _] => destruct b end; cbn [c_dist c_origin c_dyn].
      * intros E. injection E as <-. exists z, s. repeat split. apply in_or_app. right. left. reflexivity.
      * intros E. destruct (H1 d E) as [z' [s' [I [A [B C]]]]]. exists z', s'. repeat split; try assumption. apply in_or_app. left. exact I.
    + intros E. exfalso. unfold visit in E. destruct (c_dist c) as [m |] eqn:D; [| destruct pg; cbn [negb andb orb] in E; rewrite ?orb_true_r in E; cbn in E; discriminate].
      match goal with E : context [if ?b then _ else _] |- _ => destruct b end; cbn in E; congruence.
Qed.

Lemma nearest : forall dist l c,
  let c' := fold_left (fun c p => visit dist false (fst p) c (snd p)) l c in
  (forall d, c_dist c = Some d -> exists d', c_dist c' = Some d' /\ (d' <= d)%Q)
  /\ forall z s, In (z, s) l -> exists d', c_dist c' = Some d' /\ (d' <= dist (snd s))%Q.
Proof.
  intros dist. induction l as [| [z s] l IH]; intros c; cbn [fold_left fst snd].
  - split; [intros d E; exists d; split; [exact E | lra] | intros z s []].
  - set (c1 := visit dist false z c s). destruct (IH c1) as [A B].
    assert (V : exists d1, c_dist c1 = Some d1 /\ (d1 <= dist (snd s))%Q /\ forall d, c_dist c = Some d -> (d1 <= d)%Q).
    { unfold c1, visit. cbn [negb andb orb]. rewrite orb_false_r. destruct (c_dist c) as [m |] eqn:E.
      - destruct (qltb (dist (snd s)) m) eqn:Q; cbn [c_dist].
        + apply qltb_true in Q. exists (dist (snd s)). repeat split; [lra |]. intros d X. injection X as <-. lra.
        + apply qltb_false in Q. exists m. rewrite E. repeat split; [exact Q |]. intros d X. injection X as <-. lra.
      - exists (dist (snd s)). repeat split; [lra | discriminate]. }
    destruct V as [d1 [E1 [L1 M1]]]. destruct (A d1 E1) as [d' [E' L']]. split.
    + intros d E. exists d'. split; [exact E' |]. specialize (M1 d E). lra.
    + intros z' s' [E | I]; [injection E as <- <-; exists d'; split; [exact E' | lra] | exact (B z' s' I)].
Qed.

(** the origin is the center of a segment, whatever is preferred; if growing grains are not
    preferred no other segment center is closer to the reference point *)
Theorem C50_origin : forall dim dist grains g s, In g grains -> In s (snd g) ->
  (forall pg, exists g' s', In g' grains /\ In s' (snd g') /\ find_center_origin dim dist pg grains = snd s')
  /\ (dist (find_center_origin dim dist false grains) <= dist (snd s))%Q.
Proof.
  intros dim dist grains g s Ig Is.
  assert (I : In (fst g, s) (segments grains)).
  { unfold segments. apply in_flat_map. exists g. split; [exact Ig |]. apply in_map_iff. exists s. split; [reflexivity | exact Is]. }
  assert (W : forall pg, exists d g' s', In g' grains /\ In s' (snd g') /\ find_center_origin dim dist pg grains = snd s'
    /\ c_dist (fold_left (fun c p => visit dist pg (fst p) c (snd p)) (segments grains) (mkChoice (repeat 0%Q dim) None 0)) = Some d /\ d = dist (snd s')).
  { intros pg. unfold find_center_origin. rewrite flatten.
    destruct (visited dist pg (segments grains) (mkChoice (repeat 0%Q dim) None 0) [] ltac:(cbn; discriminate) ltac:(reflexivity)) as [A B]. cbn [app] in A, B.
    destruct (c_dist _) as [d |] eqn:E; [| rewrite B in I by reflexivity; destruct I].
    destruct (A d eq_refl) as [z' [s' [I' [O [D _]]]]]. unfold segments in I'. apply in_flat_map in I'. destruct I' as [g' [Ig' Is']].
    apply in_map_iff in Is'. destruct Is' as [s'' [E'' Is'']]. injection E'' as _ <-. exists d, g', s''. repeat split; assumption. }
  split.
  - intros pg. destruct (W pg) as [d [g' [s' [A [B [C _]]]]]]. exists g', s'. repeat split; assumption.
  - destruct (W false) as [d [g' [s' [A [B [C [D E]]]]]]].
    destruct (nearest dist (segments grains) (mkChoice (repeat 0%Q dim) None 0)) as [_ N].
    destruct (N (fst g) s I) as [d' [D' L]]. rewrite D in D'. injection D' as <-. rewrite C, <- E. exact L.
Qed.
Print Assumptions C50_origin.

(** with equal dynamics of all grains, the preference does not change the choice *)
Theorem C50_prefer_growing_partial : forall dim dist grains z, (forall g, In g grains -> fst g = z) ->
  find_center_origin dim dist true grains = find_center_origin dim dist false grains.
Proof.
  intros dim dist grains z H. unfold find_center_origin. rewrite !flatten.
  assert (Hs : forall p, In p (segments grains) -> fst p = z).
  { intros [z' s] I. unfold segments in I. apply in_flat_map in I. destruct I as [g [Ig Is]]. apply in_map_iff in Is. destruct Is as [s' [E _]].
    injection E as <- <-. cbn. apply H. exact Ig. }
  assert (G : forall l c, (forall p, In p l -> fst p = z) -> (c_dist c = None \/ c_dyn c = z) ->
    fold_left (fun c p => visit dist true (fst p) c (snd p)) l c = fold_left (fun c p => visit dist false (fst p) c (snd p)) l c).
  { induction l as [| p l IH]; intros c Hl Hc; [reflexivity |]. cbn [fold_left].
    assert (Ep := Hl p (or_introl eq_refl)).
    assert (E : visit dist true (fst p) c (snd p) = visit dist false (fst p) c (snd p)).
    { unfold visit. destruct (c_dist c) as [m |]; [| rewrite !orb_true_r; reflexivity]. destruct Hc as [Hc | Hc]; [discriminate |].
      rewrite Ep, Hc, Z.leb_refl. cbn. rewrite andb_true_r, !orb_false_r. reflexivity. }
    rewrite E. apply IH; [intros q I; apply Hl; right; exact I |].
    unfold visit. match goal with |- context [if ?b then _ else _] => destruct b end; cbn; [right; exact Ep | exact Hc]. }
  rewrite G; [reflexivity | exact Hs | left; reflexivity].
Qed.
Print Assumptions C50_prefer_growing_partial.

(** but in general growing grains are not preferred: the first segment is always taken, and a
    growing grain replaces it only if it is closer *)
Theorem C50_prefer_growing_refuted : exists dim dist grains s,
  In (1%Z, [s]) grains /\ (forall g, In g grains -> fst g = 1%Z -> snd g = [s])
  /\ find_center_origin dim dist true grains <> snd s.
Proof.
  exists 1, (fun p => nth 0 p 0%Q), [((-1)%Z, [(1, [1])%Q]); (1%Z, [(1, [2])%Q])], (1, [2])%Q.
  split; [right; left; reflexivity |]. split.
  - intros g [<- | [<- | []]] E; [discriminate | reflexivity].
  - cbv. discriminate.
Qed.
Print Assumptions C50_prefer_growing_refuted.

(** What does hold when growing grains are preferred: the choice is at least as near and grows
    at least as much as the first segment, and no later segment that grows at least as much is
    nearer. *)
Lemma growing_choice : forall dist l c,
  c_dist c = Some (dist (c_origin c)) ->
  let c' := fold_left (fun c p => visit dist true (fst p) c (snd p)) l c in
  (c_dyn c <= c_dyn c')%Z /\ (dist (c_origin c') <= dist (c_origin c))%Q /\ c_dist c' = Some (dist (c_origin c'))
  /\ ((c' = c /\ forall p, In p l -> (c_dyn c' <= fst p)%Z -> (dist (c_origin c') <= dist (snd (snd p)))%Q)
     \/ exists pre p post, l = pre ++ p :: post /\ c_origin c' = snd (snd p) /\ c_dyn c' = fst p
        /\ forall p', In p' post -> (fst p <= fst p')%Z -> (dist (c_origin c') <= dist (snd (snd p')))%Q).
Proof.
  intros dist. induction l as [| p l IH]; intros c H; cbn [fold_left].
  - cbv zeta. split; [lia |]. split; [lra |]. split; [exact H |]. left. split; [reflexivity | intros p []].
  - set (c1 := visit dist true (fst p) c (snd p)).
    assert (V : (c1 = c /\ ((c_dyn c <= fst p)%Z -> (dist (c_origin c) <= dist (snd (snd p)))%Q))
      \/ (c1 = mkChoice (snd (snd p)) (Some (dist (snd (snd p)))) (fst p) /\ (c_dyn c <= fst p)%Z /\ (dist (snd (snd p)) <= dist (c_origin c))%Q)).
    { unfold c1, visit. rewrite H. cbn [negb andb orb]. rewrite orb_false_r.
      destruct (qltb (dist (snd (snd p))) (dist (c_origin c))) eqn:Eq; cbn [andb].
      - apply qltb_true in Eq. destruct (Z.leb_spec (c_dyn c) (fst p)); [right | left].
        + split; [reflexivity |]. split; [assumption | lra].
        + split; [reflexivity | lia].
      - apply qltb_false in Eq. left. split; [reflexivity | intros _; exact Eq]. }
    destruct V as [[E N] | [E [D1 D2]]].
    + rewrite E. destruct (IH c H) as [A [B [C F]]]. split; [exact A |]. split; [exact B |]. split; [exact C |].
      destruct F as [[F1 F2] | [pre [p' [post [F1 F2]]]]].
      * left. split; [exact F1 |]. intros q [<- | I] L; [rewrite F1 in L |- *; exact (N L) | exact (F2 q I L)].
      * right. exists (p :: pre), p', post. split; [rewrite F1; reflexivity | exact F2].
    + rewrite E. destruct (IH (mkChoice (snd (snd p)) (Some (dist (snd (snd p)))) (fst p)) eq_refl) as [A [B [C F]]].
      cbn [c_origin c_dyn] in A, B. cbv zeta in *. split; [lia |]. split; [lra |]. split; [exact C |]. right.
      destruct F as [[F1 F2] | [pre [p' [post [F1 F2]]]]].
      * exists [], p, l. split; [reflexivity |]. rewrite F1 in F2 |- *. cbn [c_origin c_dyn] in *. split; [reflexivity |]. split; [reflexivity | exact F2].
      * exists (p :: pre), p', post. split; [rewrite F1; reflexivity | exact F2].
Qed.

Theorem C50_prefer_growing_choice : forall dim dist grains p0 l, segments grains = p0 :: l ->
  exists pre p post, segments grains = pre ++ p :: post
    /\ find_center_origin dim dist true grains = snd (snd p)
    /\ (fst p0 <= fst p)%Z /\ (dist (snd (snd p)) <= dist (snd (snd p0)))%Q
    /\ forall p', In p' post -> (fst p <= fst p')%Z -> (dist (snd (snd p)) <= dist (snd (snd p')))%Q.
Proof.
  intros dim dist grains p0 l E. unfold find_center_origin. rewrite flatten, E. cbn [fold_left].
  destruct (growing_choice dist l (mkChoice (snd (snd p0)) (Some (dist (snd (snd p0)))) (fst p0)) eq_refl) as [A [B [_ F]]].
  unfold visit at 2. cbn [c_dist negb andb orb]. rewrite orb_true_r.
  set (c' := fold_left _ l _) in *. cbn [c_origin c_dyn] in A, B.
  destruct F as [[F1 F2] | [pre [p [post [F1 [F2 [F3 F4]]]]]]].
  - exists [], p0, l. rewrite F1 in *. cbn [c_origin c_dyn] in *. split; [reflexivity |]. split; [reflexivity |]. split; [lia |]. split; [lra | exact F2].
  - exists (p0 :: pre), p, post. rewrite F2, F3 in *. split; [rewrite F1; reflexivity |]. split; [reflexivity |]. split; [exact A |]. split; [exact B | exact F4].
Qed.
Print Assumptions C50_prefer_growing_choice.

Example C50_growing_case :
  find_center_origin 1 (fun p => nth 0 p 0%Q) true [(0%Z, [(1, [3])%Q]); ((-1)%Z, [(1, [1])%Q]); (1%Z, [(1, [2])%Q])] = [2]%Q.
Proof. reflexivity. Qed.

(** ** the barycenter lies between the extreme centers *)
Theorem C50_barycenter : forall grains d lo hi,
  (forall g s, In g grains -> In s (snd g) -> (0 <= fst s)%Q /\ (lo <= nth d (snd s) 0 <= hi)%Q) ->
  (exists g s, In g grains /\ In s (snd g) /\ (0 < fst s)%Q) ->
  exists b, barycenter_coord grains d = Some b /\ (lo <= b <= hi)%Q.
Proof.
  intros grains d lo hi H [g [s [Ig [Is P]]]].
  set (F := fun (acc : Q * Q) (p : Z * segment) => add_static d acc (snd p)).
  assert (Fl : forall grains acc, fold_left (fun acc g => fold_left (add_static d) (snd g) acc) grains acc = fold_left F (segments grains) acc).
  { clear. induction grains as [| [z l] grains IH]; intros acc; cbn [fold_left segments flat_map]; [reflexivity |].
    rewrite fold_left_app, <- IH. f_equal. cbn [fst snd]. revert acc. induction l as [| s l IHl]; intros acc; [reflexivity |]. cbn. apply IHl. }
  assert (G : forall l acc, (forall p, In p l -> (0 <= fst (snd p))%Q /\ (lo <= nth d (snd (snd p)) 0 <= hi)%Q) ->
    (lo * snd acc <= fst acc <= hi * snd acc)%Q ->
    (lo * snd (fold_left F l acc) <= fst (fold_left F l acc) <= hi * snd (fold_left F l acc))%Q
    /\ (snd acc <= snd (fold_left F l acc))%Q /\ forall p, In p l -> (snd acc + fst (snd p) <= snd (fold_left F l acc))%Q).
  { induction l as [| p l IH]; intros acc Hl B; cbn [fold_left]; [repeat split; try apply B; try lra; intros q [] |].
    destruct (Hl p (or_introl eq_refl)) as [Pp Bp].
    destruct (IH (F acc p) (fun q I => Hl q (or_intror I))) as [A1 [A2 A3]].
    - unfold F, add_static. cbn [fst snd]. set (m := fst (snd p)) in *. set (x := nth d (snd (snd p)) 0%Q) in *. clearbody m x.
      assert (0 <= m * (x - lo))%Q by (apply Qmult_le_0_compat; lra). assert (0 <= m * (hi - x))%Q by (apply Qmult_le_0_compat; lra). lra.
    - assert (E : snd (F acc p) = (snd acc + fst (snd p))%Q) by reflexivity. rewrite E in *.
      split; [exact A1 |]. split; [lra |]. intros q [<- | I]; [exact A2 |]. specialize (A3 q I). lra. }
  destruct (G (segments grains) (0, 0)%Q) as [B [_ C]].
  { intros [z s'] I. unfold segments in I. apply in_flat_map in I. destruct I as [g' [Ig' Is']]. apply in_map_iff in Is'. destruct Is' as [s'' [E Is'']].
    injection E as <- <-. apply (H g' s''); assumption. }
  { cbn. lra. }
  assert (I : In (fst g, s) (segments grains)).
  { unfold segments. apply in_flat_map. exists g. split; [exact Ig |]. apply in_map_iff. exists s. split; [reflexivity | exact Is]. }
  assert (V := C _ I). cbn [fst snd] in V. unfold barycenter_coord. rewrite Fl. set (r := fold_left F (segments grains) (0, 0)%Q) in *. clearbody r.
  assert (Vp : (0 < snd r)%Q) by lra. rewrite qdiv_some by lra. eexists. split; [reflexivity |]. split.
  - apply Qle_shift_div_l; lra.
  - apply Qle_shift_div_r; lra.
Qed.
Print Assumptions C50_barycenter.

Example C50_case : let grains := [(0%Z, [(1, [3; 1]); (2, [0; 4])]%Q); (1%Z, [(1, [1; 1])]%Q)] in
  find_center_origin 2 (fun p => nth 0 p 0%Q) false grains = [0; 4]%Q /\ option_map Qred (barycenter_coord grains 0) = Some 1%Q.
Proof. split; reflexivity. Qed.
