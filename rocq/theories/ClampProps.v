(** Property C95: restraints on displacements. *)
From Coq Require Import List QArith Qabs Arith Bool Lia Lqa Sorted.
From Verif Require Import Util ClampModel.
Import ListNotations.
Local Open Scope nat_scope.

(** ** Sets and loops *)
Lemma set_insert_in : forall x l y, In y (set_insert x l) <-> y = x \/ In y l.
Proof.
  intros x. induction l as [| z l IH]; intros y; cbn [set_insert]; [cbn; intuition |].
  destruct (Nat.ltb_spec x z); [cbn; intuition |].
  destruct (Nat.ltb_spec z x); [cbn; rewrite IH; intuition |].
  assert (x = z) by lia. subst. cbn. intuition.
Qed.
Lemma set_insert_sorted : forall x l, StronglySorted lt l -> StronglySorted lt (set_insert x l).
Proof.
  intros x l H. induction H as [| z l Hl IH Hz]; cbn [set_insert]; [repeat constructor |].
  destruct (Nat.ltb_spec x z).
  - constructor; [constructor; assumption |]. constructor; [assumption |]. rewrite Forall_forall in *. intros y Hy. specialize (Hz y Hy). lia.
  - destruct (Nat.ltb_spec z x); [| constructor; assumption].
    constructor; [exact IH |]. rewrite Forall_forall in *. intros y Hy. apply set_insert_in in Hy. destruct Hy as [-> | Hy]; [assumption | auto].
Qed.
Lemma insert_all_in : forall keep dofs l y, In y (insert_all keep dofs l) <-> (In y dofs /\ keep y = true) \/ In y l.
Proof.
  intros keep. unfold insert_all. induction dofs as [| x dofs IH]; intros l y; cbn [fold_left]; [cbn; intuition |].
  rewrite IH. destruct (keep x) eqn:E; [rewrite set_insert_in |]; cbn; intuition (subst; auto); congruence.
Qed.
Lemma insert_all_sorted : forall keep dofs l, StronglySorted lt l -> StronglySorted lt (insert_all keep dofs l).
Proof.
  intros keep. unfold insert_all. induction dofs as [| x dofs IH]; intros l H; cbn [fold_left]; [exact H |].
  apply IH. destruct (keep x); [apply set_insert_sorted |]; exact H.
Qed.

Lemma close_true : forall a b, close a b = true <-> (Qabs (a - b) < 1 # 1000000000)%Q.
Proof. intros. unfold close. apply qltb_true. Qed.

Lemma add_face_in : forall keep origin dirs sets f d i,
  In i (add_face keep origin dirs sets f d)
  <-> In i (sets d) \/ (In d dirs /\ keep i = true /\ (Qabs (f_center f d - origin d) < 1 # 1000000000)%Q /\ In i (f_dofs f)).
Proof.
  intros keep origin. unfold add_face. induction dirs as [| e dirs IH]; intros sets f d i; cbn [fold_left]; [cbn; intuition |].
  rewrite IH. rewrite <- close_true. destruct (close (f_center f e) (origin e)) eqn:E.
  - destruct (Nat.eqb_spec d e) as [-> | Hne].
    + rewrite insert_all_in. assert (In e (e :: dirs)) by (left; reflexivity). rewrite E. tauto.
    + assert (In d (e :: dirs) <-> In d dirs) by (cbn; intuition congruence). tauto.
  - destruct (Nat.eq_dec d e) as [-> | Hne].
    + rewrite E. intuition discriminate.
    + assert (In d (e :: dirs) <-> In d dirs) by (cbn; intuition congruence). tauto.
Qed.
Lemma add_face_sorted : forall keep origin dirs sets f, (forall d, StronglySorted lt (sets d)) -> forall d, StronglySorted lt (add_face keep origin dirs sets f d).
Proof.
  intros keep origin. unfold add_face. induction dirs as [| e dirs IH]; intros sets f H; cbn [fold_left]; [exact H |].
  apply IH. destruct (close _ _); [| exact H]. intros k. destruct (Nat.eqb k e); [apply insert_all_sorted |]; apply H.
Qed.
Lemma faces_in : forall keep origin dirs fs sets d i,
  In i (fold_left (add_face keep origin dirs) fs sets d)
  <-> In i (sets d) \/ exists f, In f fs /\ In d dirs /\ keep i = true /\ (Qabs (f_center f d - origin d) < 1 # 1000000000)%Q /\ In i (f_dofs f).
Proof.
  intros keep origin dirs. induction fs as [| f fs IH]; intros sets d i; cbn [fold_left]; [split; [auto | intros [H | [f [[] _]]]; exact H] |].
  rewrite IH, add_face_in. split.
  - intros [[H | H] | [g [Hg H]]]; [left; exact H | right; exists f; split; [left; reflexivity | exact H] | right; exists g; split; [right; exact Hg | exact H]].
  - intros [H | [g [[<- | Hg] H]]]; [left; left; exact H | left; right; exact H | right; exists g; split; assumption].
Qed.
Lemma faces_sorted : forall keep origin dirs fs sets, (forall d, StronglySorted lt (sets d)) -> forall d, StronglySorted lt (fold_left (add_face keep origin dirs) fs sets d).
Proof. intros keep origin dirs. induction fs as [| f fs IH]; intros sets H; cbn [fold_left]; [exact H |]. apply IH. apply add_face_sorted. exact H. Qed.

(** what the sets contain *)
Definition on_section (cells : list cell) (rank : nat) (wanted : cell -> Prop) (origin : pt) (d i : nat) : Prop :=
  exists c f, In c cells /\ c_rank c = rank /\ wanted c /\ In f (c_faces c) /\ (Qabs (f_center f d - origin d) < 1 # 1000000000)%Q /\ In i (f_dofs f).

Lemma section_sets_in : forall rank wanted keep origin dirs cells d i,
  In i (section_sets rank wanted keep origin dirs cells d)
  <-> In d dirs /\ keep i = true /\ on_section cells rank (fun c => wanted c = true) origin d i.
Proof.
  intros rank wanted keep origin dirs cells d i. unfold section_sets.
  assert (G : forall cells sets, In i (fold_left (fun sets c => if owned rank c && wanted c then fold_left (add_face keep origin dirs) (c_faces c) sets else sets) cells sets d)
    <-> In i (sets d) \/ (In d dirs /\ keep i = true /\ on_section cells rank (fun c => wanted c = true) origin d i)).
  { clear cells. induction cells as [| c cells IH]; intros sets; cbn [fold_left].
    - split; [auto | intros [H | [_ [_ [c [f [[] _]]]]]]; exact H].
    - rewrite IH. unfold owned. destruct (Nat.eqb_spec (c_rank c) rank) as [Hr | Hr]; [destruct (wanted c) eqn:Hw |]; cbn [andb].
      + rewrite faces_in. split.
        * intros [[H | [f [Hf [Hd [Hk [Hc Hi]]]]]] | [Hd [Hk [c' [f [Hc' H]]]]]]; [left; exact H | |].
          -- right. split; [exact Hd |]. split; [exact Hk |]. exists c, f. repeat split; auto. left. reflexivity.
          -- right. split; [exact Hd |]. split; [exact Hk |]. exists c', f. split; [right; exact Hc' | exact H].
        * intros [H | [Hd [Hk [c' [f [[<- | Hc'] [H1 [H2 [H3 H4]]]]]]]]]; [left; left; exact H | left; right; exists f; tauto |].
          right. split; [exact Hd |]. split; [exact Hk |]. exists c', f. tauto.
      + split; (intros [H | [Hd [Hk [c' [f [Hc' H]]]]]]; [left; exact H | right; split; [exact Hd | split; [exact Hk |]]]).
        * exists c', f. split; [right; exact Hc' | exact H].
        * destruct Hc' as [<- | Hc']; [destruct H as [_ [H _]]; congruence |]. exists c', f. tauto.
      + split; (intros [H | [Hd [Hk [c' [f [Hc' H]]]]]]; [left; exact H | right; split; [exact Hd | split; [exact Hk |]]]).
        * exists c', f. split; [right; exact Hc' | exact H].
        * destruct Hc' as [<- | Hc']; [destruct H as [H _]; congruence |]. exists c', f. tauto. }
  rewrite G. cbn. intuition.
Qed.
Lemma section_sets_sorted : forall rank wanted keep origin dirs cells d, StronglySorted lt (section_sets rank wanted keep origin dirs cells d).
Proof.
  intros rank wanted keep origin dirs cells. unfold section_sets.
  assert (G : forall cells sets, (forall d, StronglySorted lt (sets d)) ->
    forall d, StronglySorted lt (fold_left (fun sets c => if owned rank c && wanted c then fold_left (add_face keep origin dirs) (c_faces c) sets else sets) cells sets d)).
  { clear cells. induction cells as [| c cells IH]; intros sets H; cbn [fold_left]; [exact H |]. apply IH. destruct (owned rank c && wanted c); [apply faces_sorted |]; exact H. }
  apply G. intros d. constructor.
Qed.

Lemma dirs_in : forall dim mask d, In d (directions dim mask) <-> d < dim /\ mask d = true.
Proof. intros. unfold directions. rewrite filter_In, in_seq. intuition lia. Qed.

(** ** The origin *)
Lemma closest_spec : forall dim pos origin vs best v, closest dim pos origin vs best = Some v ->
  (In v vs \/ best = Some v) /\ (forall w, In w vs -> (dist2 dim origin (pos v) <= dist2 dim origin (pos w))%Q)
  /\ (forall w, best = Some w -> (dist2 dim origin (pos v) <= dist2 dim origin (pos w))%Q).
Proof.
  intros dim pos origin. induction vs as [| x vs IH]; intros best v H; cbn [closest] in H.
  - split; [right; exact H | split; [intros w [] | intros w Hw; rewrite H in Hw; injection Hw as <-; lra]].
  - destruct (IH _ _ H) as [H1 [H2 H3]]. destruct best as [b |].
    + destruct (qltb (dist2 dim origin (pos x)) (dist2 dim origin (pos b))) eqn:E.
      * apply qltb_true in E. specialize (H3 x eq_refl). split; [| split].
        -- destruct H1 as [H1 | H1]; [left; right; exact H1 | injection H1 as <-; left; left; reflexivity].
        -- intros w [<- | Hw]; auto.
        -- intros w Hw. injection Hw as <-. lra.
      * apply qltb_false in E. specialize (H3 b eq_refl). split; [| split].
        -- destruct H1 as [H1 | H1]; [left; right; exact H1 | right; exact H1].
        -- intros w [<- | Hw]; [lra | auto].
        -- intros w Hw. injection Hw as <-. exact H3.
    + specialize (H3 x eq_refl). split; [| split].
      * destruct H1 as [H1 | H1]; [left; right; exact H1 | injection H1 as <-; left; left; reflexivity].
      * intros w [<- | Hw]; auto.
      * intros w Hw. discriminate.
Qed.

Lemma pick_some : forall n f r c, pick n f = Some (r, c) -> r < n /\ f r = Some c.
Proof.
  intros n f r c H. unfold pick in H. destruct (find _ _) as [r' |] eqn:E; [| discriminate].
  apply find_some in E. destruct E as [I _]. apply in_seq in I. destruct (f r') as [c' |] eqn:F; [| discriminate].
  injection H as <- <-. split; [lia | exact F].
Qed.
Lemma pick_none : forall n f, pick n f = None <-> forall r, r < n -> f r = None.
Proof.
  intros n f. unfold pick. destruct (find _ _) as [r' |] eqn:E.
  - apply find_some in E. destruct E as [I E]. apply in_seq in I. destruct (f r') as [c' |] eqn:F; [| discriminate].
    split; [discriminate |]. intros H. rewrite (H r') in F by lia. discriminate.
  - split; [| reflexivity]. intros _ r Hr. assert (N := find_none _ _ E r ltac:(apply in_seq; lia)). cbv beta in N. destruct (f r); [discriminate | reflexivity].
Qed.

(** For all results of the search on all processes: the vertex that is taken is the closest
    one of a cell that the process owns, and one is found as soon as any process finds a
    cell it owns. *)
Theorem C95_origin : forall dim pos n_ranks found around origin,
  (forall r c, r < n_ranks -> (found r = Some c \/ In c (around r)) -> c_vertices c <> []) ->
  (forall r v, find_vertex dim pos n_ranks found around origin = Some (r, v) ->
     r < n_ranks /\ exists c, (found r = Some c \/ In c (around r)) /\ c_rank c = r /\ In v (c_vertices c)
       /\ forall w, In w (c_vertices c) -> (dist2 dim origin (pos v) <= dist2 dim origin (pos w))%Q)
  /\ (find_vertex dim pos n_ranks found around origin = None <->
      forall r c, r < n_ranks -> found r = Some c -> c_rank c <> r /\ forall c', In c' (around r) -> c_rank c' <> r).
Proof.
  intros dim pos n found around origin Hv.
  assert (C1 : forall r c, containing n found around = Some (r, c) -> r < n /\ (found r = Some c \/ In c (around r)) /\ c_rank c = r).
  { intros r c H. unfold containing in H. destruct (pick n _) as [[r1 c1] |] eqn:E1 in H.
    - injection H as <- <-. apply pick_some in E1. destruct E1 as [L E1]. split; [exact L |].
      destruct (found r1) as [c' |]; [| discriminate]. unfold owned in E1. destruct (Nat.eqb_spec (c_rank c') r1) as [O | O]; [| discriminate].
      injection E1 as <-. split; [left; reflexivity | exact O].
    - apply pick_some in H. destruct H as [L H]. split; [exact L |]. destruct (found r) as [c' |]; [| discriminate].
      apply find_some in H. destruct H as [I O]. unfold owned in O. apply Nat.eqb_eq in O. split; [right; exact I | exact O]. }
  assert (CN : containing n found around = None <-> forall r c, r < n -> found r = Some c -> c_rank c <> r /\ forall c', In c' (around r) -> c_rank c' <> r).
  { unfold containing. destruct (pick n (fun r => match found r with Some c => if owned r c then Some c else None | None => None end)) as [[r1 c1] |] eqn:E1.
    - split; [discriminate |]. intros H. apply pick_some in E1. destruct E1 as [L E1].
      destruct (found r1) as [c' |] eqn:F; [| discriminate]. destruct (H r1 c' L F) as [A _]. unfold owned in E1. apply Nat.eqb_neq in A. rewrite A in E1. discriminate.
    - assert (N1 := proj1 (pick_none _ _) E1). rewrite pick_none. split.
      + intros N2 r c Hr F. specialize (N1 r Hr). specialize (N2 r Hr). cbv beta in N1, N2. rewrite F in N1, N2. unfold owned in N1.
        destruct (Nat.eqb_spec (c_rank c) r) as [O | O]; [discriminate |]. split; [exact O |].
        intros c' Hc' O'. assert (N3 := find_none _ _ N2 c' Hc'). unfold owned in N3. apply Nat.eqb_neq in N3. contradiction.
      + intros H r Hr. destruct (found r) as [c |] eqn:F; [| reflexivity]. destruct (H r c Hr F) as [_ A].
        destruct (find (owned r) (around r)) as [c3 |] eqn:E3; [| reflexivity]. apply find_some in E3. destruct E3 as [I3 E3].
        exfalso. apply (A c3 I3). unfold owned in E3. apply Nat.eqb_eq in E3. exact E3. }
  assert (CL : forall vs best, best <> None \/ vs <> [] -> closest dim pos origin vs best <> None).
  { induction vs as [| x vs IH]; intros best H; cbn [closest]; [destruct H; [exact H | congruence] |]. apply IH. left.
    destruct best as [b |]; [destruct (qltb _ _) |]; discriminate. }
  split.
  - intros r v H. unfold find_vertex in H. destruct (containing n found around) as [[r' c] |] eqn:E; [| discriminate].
    destruct (closest dim pos origin (c_vertices c) None) as [v' |] eqn:E2; [| discriminate]. injection H as <- <-.
    destruct (C1 _ _ eq_refl) as [L [F O]]. split; [exact L |]. exists c. split; [exact F |]. split; [exact O |].
    destruct (closest_spec _ _ _ _ _ _ E2) as [A [B _]]. destruct A as [A | A]; [| discriminate]. split; [exact A | exact B].
  - rewrite <- CN. unfold find_vertex. destruct (containing n found around) as [[r c] |] eqn:E; [| split; reflexivity].
    destruct (C1 _ _ eq_refl) as [L [F _]]. destruct (closest dim pos origin (c_vertices c) None) as [v |] eqn:E2; [split; discriminate |].
    exfalso. apply (CL (c_vertices c) None); [right; apply (Hv r c L F) | exact E2].
Qed.
Print Assumptions C95_origin.

(** ** What is clamped *)

(** For all meshes and distributions: in the directions of the mask exactly the degrees of
    freedom of the faces whose centre is in the plane, each once; in the other directions
    the vertex, on its process, if at least two directions are left. *)
Theorem C95_section : forall dim pos cells rank mask vertex_rank vertex d, d < dim ->
  NoDup (clamp_section dim pos cells rank mask vertex_rank vertex d)
  /\ forall i, In i (clamp_section dim pos cells rank mask vertex_rank vertex d)
     <-> (mask d = true /\ on_section cells rank (fun _ => True) (pos vertex) d i)
         \/ (mask d = false /\ vertex_rank = rank /\ i = vertex /\ exists e, e <> d /\ e < dim /\ mask e = false).
Proof.
  intros dim pos cells rank mask vr v d Hd.
  set (sets := section_sets rank (fun _ => true) (fun _ => true) (pos v) (directions dim mask) cells).
  assert (Hin : forall i, In i (sets d) <-> mask d = true /\ on_section cells rank (fun _ => True) (pos v) d i).
  { intros i. unfold sets. rewrite section_sets_in, dirs_in. unfold on_section. split.
    - intros [[_ M] [_ [c [f H]]]]. split; [exact M |]. exists c, f. tauto.
    - intros [M [c [f H]]]. split; [split; assumption |]. split; [reflexivity |]. exists c, f. tauto. }
  assert (Few : mask d = false -> Nat.ltb (length (directions dim mask)) (dim - 1) = true <-> exists e, e <> d /\ e < dim /\ mask e = false).
  { intros M. rewrite Nat.ltb_lt. split.
    - intros L. destruct (existsb (fun e => negb (mask e) && negb (Nat.eqb e d)) (seq 0 dim)) eqn:E.
      + apply existsb_exists in E. destruct E as [e [I E]]. apply in_seq in I. apply andb_true_iff in E. destruct E as [E1 E2].
        apply negb_true_iff in E1, E2. apply Nat.eqb_neq in E2. exists e. repeat split; [exact E2 | lia | exact E1].
      + exfalso. assert (Inc : incl (seq 0 dim) (d :: directions dim mask)).
        { intros e I. destruct (Nat.eq_dec e d) as [-> | Hne]; [left; reflexivity | right]. apply dirs_in. apply in_seq in I. split; [lia |].
          destruct (mask e) eqn:Me; [reflexivity |]. exfalso. assert (X : existsb (fun e => negb (mask e) && negb (Nat.eqb e d)) (seq 0 dim) = true).
          { apply existsb_exists. exists e. split; [apply in_seq; exact I |]. rewrite Me. apply Nat.eqb_neq in Hne. rewrite Hne. reflexivity. }
          congruence. }
        apply NoDup_incl_length in Inc; [| apply seq_NoDup]. rewrite seq_length in Inc. cbn [length] in Inc. lia.
    - intros [e [Hne [He Me]]].
      assert (ND : NoDup (d :: e :: directions dim mask)).
      { constructor; [intros [-> | I]; [congruence |]; apply dirs_in in I; destruct I; congruence |].
        constructor; [intros I; apply dirs_in in I; destruct I; congruence |]. apply NoDup_filter, seq_NoDup. }
      assert (Inc : incl (d :: e :: directions dim mask) (seq 0 dim)).
      { intros x [<- | [<- | I]]; apply in_seq; [lia | lia |]. apply dirs_in in I. lia. }
      apply (NoDup_incl_length ND) in Inc. rewrite seq_length in Inc. cbn [length] in Inc. lia. }
  assert (Srt : StronglySorted lt (sets d)) by apply section_sets_sorted.
  assert (Nd : NoDup (sets d)).
  { clear - Srt. induction Srt as [| x l Hl IH Hx]; constructor; [| exact IH]. rewrite Forall_forall in Hx. intros I. specialize (Hx x I). lia. }
  unfold clamp_section, add_point. fold sets. destruct (Nat.eqb_spec vr rank) as [-> | Hr]; cbn [andb].
  - destruct (mask d) eqn:M; cbn [negb].
    + rewrite andb_false_r. split; [exact Nd |]. intros i. rewrite Hin. intuition discriminate.
    + rewrite andb_true_r. specialize (Few eq_refl). destruct (Nat.ltb (length (directions dim mask)) (dim - 1)) eqn:E.
      * assert (Z : sets d = []). { destruct (sets d) as [| x l] eqn:Es; [reflexivity |]. exfalso. assert (I : In x (x :: l)) by (left; reflexivity). rewrite Hin in I. destruct I; discriminate. }
        rewrite Z. cbn [app]. split; [repeat constructor; intros [] |]. intros i. cbn [In].
        assert (X : exists e : nat, e <> d /\ e < dim /\ mask e = false) by (apply Few; reflexivity). intuition (subst; auto; discriminate).
      * split; [exact Nd |]. intros i. rewrite Hin. split; [intros [C _]; discriminate |]. intros [[C _] | [_ [_ [_ X]]]]; [discriminate |]. apply Few in X. discriminate.
  - split; [exact Nd |]. intros i. rewrite Hin. intuition.
Qed.
Print Assumptions C95_section.

(** The section through a particle: in addition the cell belongs to the particle and the
    order parameter is above 0.1; the vertex is added if at least one direction is left. *)
Theorem C95_particle : forall dim pos cells rank mask vertex_rank vertex inside value d, d < dim ->
  forall i, In i (clamp_particle dim pos cells rank mask vertex_rank vertex inside value d)
     <-> (mask d = true /\ (1 # 10 < value i)%Q /\ on_section cells rank (fun c => inside c = true) (pos vertex) d i)
         \/ (mask d = false /\ vertex_rank = rank /\ i = vertex).
Proof.
  intros dim pos cells rank mask vr v inside value d Hd i.
  set (sets := section_sets rank inside (fun i => qltb (1 # 10) (value i)) (pos v) (directions dim mask) cells).
  assert (Hin : In i (sets d) <-> mask d = true /\ (1 # 10 < value i)%Q /\ on_section cells rank (fun c => inside c = true) (pos v) d i).
  { unfold sets. rewrite section_sets_in, dirs_in, qltb_true. tauto. }
  unfold clamp_particle, add_point. fold sets. destruct (Nat.eqb_spec vr rank) as [-> | Hr]; cbn [andb]; [| rewrite Hin; intuition].
  destruct (mask d) eqn:M; cbn [negb]; [rewrite andb_false_r, Hin; intuition discriminate |]. rewrite andb_true_r.
  assert (L : length (directions dim mask) < dim).
  { assert (ND : NoDup (d :: directions dim mask)) by (constructor; [intros I; apply dirs_in in I; destruct I; congruence | apply NoDup_filter, seq_NoDup]).
    assert (Inc : incl (d :: directions dim mask) (seq 0 dim)) by (intros x [<- | I]; apply in_seq; [lia |]; apply dirs_in in I; lia).
    apply (NoDup_incl_length ND) in Inc. rewrite seq_length in Inc. cbn [length] in Inc. lia. }
  apply Nat.ltb_lt in L. rewrite L. rewrite in_app_iff, Hin. cbn [In]. intuition (subst; auto; discriminate).
Qed.
Print Assumptions C95_particle.

(** The particle is the largest one of those at the origin, the first of equals; none is
    found exactly if there is none of positive size. *)
Theorem C95_primary : forall n_grains particle measure,
  match primary n_grains particle measure with
  | Some (ig, id) => ig < n_grains /\ particle ig = Some id /\ (0 < measure ig id)%Q
      /\ (forall k j, k < n_grains -> particle k = Some j -> (measure k j <= measure ig id)%Q)
      /\ (forall k j, k < ig -> particle k = Some j -> (measure k j < measure ig id)%Q)
  | None => forall k j, k < n_grains -> particle k = Some j -> (measure k j <= 0)%Q
  end.
Proof.
  intros n particle measure. unfold primary.
  set (step := fun (best : option (nat * nat) * Q) ig => _).
  assert (G : match fold_left step (seq 0 n) (None, 0%Q) with
    | (Some (ig, id), m) => m = measure ig id /\ ig < n /\ particle ig = Some id /\ (0 < measure ig id)%Q
      /\ (forall k j, k < n -> particle k = Some j -> (measure k j <= measure ig id)%Q)
      /\ (forall k j, k < ig -> particle k = Some j -> (measure k j < measure ig id)%Q)
    | (None, m) => m = 0%Q /\ forall k j, k < n -> particle k = Some j -> (measure k j <= 0)%Q
    end).
  { induction n as [| n IH]; [cbn; split; [reflexivity | intros; lia] |].
    rewrite seq_S, fold_left_app. cbn [Nat.add fold_left].
    destruct (fold_left step (seq 0 n) (None, 0%Q)) as [[[ig id] |] m].
    - destruct IH as [-> [L [P [Pos [All Fst]]]]]. unfold step at 1. cbn [snd fst]. destruct (particle n) as [j |] eqn:E.
      + destruct (qltb (measure ig id) (measure n j)) eqn:C; [apply qltb_true in C | apply qltb_false in C].
        * split; [reflexivity |]. split; [lia |]. split; [exact E |]. split; [lra |]. split; intros k j' Hk Hp.
          -- destruct (Nat.eq_dec k n) as [-> | Hne]; [rewrite E in Hp; injection Hp as <-; lra |]. specialize (All k j' ltac:(lia) Hp). lra.
          -- specialize (All k j' Hk Hp). lra.
        * split; [reflexivity |]. split; [lia |]. split; [exact P |]. split; [exact Pos |]. split; [| exact Fst]. intros k j' Hk Hp.
          destruct (Nat.eq_dec k n) as [-> | Hne]; [rewrite E in Hp; injection Hp as <-; lra |]. apply All; [lia | exact Hp].
      + split; [reflexivity |]. split; [lia |]. split; [exact P |]. split; [exact Pos |]. split; [| exact Fst]. intros k j' Hk Hp.
        destruct (Nat.eq_dec k n) as [-> | Hne]; [congruence |]. apply All; [lia | exact Hp].
    - destruct IH as [-> All]. unfold step at 1. cbn [snd fst]. destruct (particle n) as [j |] eqn:E.
      + destruct (qltb 0 (measure n j)) eqn:C; [apply qltb_true in C | apply qltb_false in C].
        * split; [reflexivity |]. split; [lia |]. split; [exact E |]. split; [lra |]. split; intros k j' Hk Hp.
          -- destruct (Nat.eq_dec k n) as [-> | Hne]; [rewrite E in Hp; injection Hp as <-; lra |]. specialize (All k j' ltac:(lia) Hp). lra.
          -- specialize (All k j' Hk Hp). lra.
        * split; [reflexivity |]. intros k j' Hk Hp.
          destruct (Nat.eq_dec k n) as [-> | Hne]; [rewrite E in Hp; injection Hp as <-; lra |]. apply All; [lia | exact Hp].
      + split; [reflexivity |]. intros k j' Hk Hp. destruct (Nat.eq_dec k n) as [-> | Hne]; [congruence |]. apply All; [lia | exact Hp]. }
  destruct (fold_left step (seq 0 n) (None, 0%Q)) as [[[ig id] |] m]; cbn [fst]; tauto.
Qed.
Print Assumptions C95_primary.

(** ** Rigid motions *)
Fixpoint qs (n : nat) (f : nat -> Q) : Q := match n with O => 0%Q | S n => (qs n f + f n)%Q end.
Lemma qs_zero : forall n f, (forall k, k < n -> (f k == 0)%Q) -> (qs n f == 0)%Q.
Proof. induction n as [| n IH]; intros f H; cbn [qs]; [lra |]. rewrite IH, (H n) by (try lia; intros; apply H; lia). lra. Qed.
Lemma qs_one : forall n f e, e < n -> (forall k, k < n -> k <> e -> (f k == 0)%Q) -> (qs n f == f e)%Q.
Proof.
  induction n as [| n IH]; intros f e He H; [lia |]. cbn [qs]. destruct (Nat.eq_dec e n) as [-> | Hne].
  - rewrite qs_zero by (intros; apply H; lia). lra.
  - rewrite (IH f e) by (try lia; intros; apply H; lia). rewrite (H n) by lia. lra.
Qed.
Lemma qs_minus : forall n f g, (qs n (fun k => f k - g k) == qs n f - qs n g)%Q.
Proof. induction n as [| n IH]; intros f g; cbn [qs]; [lra |]. rewrite IH. lra. Qed.
Lemma qs_ext : forall n f g, (forall k, k < n -> (f k == g k)%Q) -> (qs n f == qs n g)%Q.
Proof. induction n as [| n IH]; intros f g H; cbn [qs]; [lra |]. rewrite (IH f g), (H n) by (try lia; intros; apply H; lia). lra. Qed.

(** component [d] of the rigid motion with translation [a] and rotation [W] *)
Definition motion (dim : nat) (a : nat -> Q) (W : nat -> nat -> Q) (x : pt) (d : nat) : Q := (a d + qs dim (fun e => W d e * x e))%Q.

(** the restraints [clamped d i] leave no rigid motion *)
Definition fixes (dim : nat) (pos : nat -> pt) (clamped : nat -> nat -> Prop) : Prop :=
  forall a W, (forall d e, d < dim -> e < dim -> (W d e == - W e d)%Q) ->
    (forall d i, d < dim -> clamped d i -> (motion dim a W (pos i) d == 0)%Q) ->
    forall d, d < dim -> (a d == 0)%Q /\ forall e, e < dim -> (W d e == 0)%Q.

(** the vertex has a neighbour along every axis on the face of the cell across [d] *)
Definition box_face (dim : nat) (pos : nat -> pt) (c : cell) (v d : nat) : Prop :=
  exists f, In f (c_faces c) /\ (f_center f d == pos v d)%Q /\ In v (f_dofs f)
    /\ forall e, e < dim -> e <> d -> exists w, In w (f_dofs f) /\ ~ (pos w e == pos v e)%Q /\ forall k, k < dim -> k <> e -> (pos w k == pos v k)%Q.

Lemma row_zero : forall dim pos (clamped : nat -> Prop) a W d v, d < dim -> (forall e, e < dim -> (W d e == - W e d)%Q) ->
  (forall i, clamped i -> (motion dim a W (pos i) d == 0)%Q) -> clamped v ->
  (forall e, e < dim -> e <> d -> exists w, clamped w /\ ~ (pos w e == pos v e)%Q /\ forall k, k < dim -> k <> e -> (pos w k == pos v k)%Q) ->
  (a d == 0)%Q /\ forall e, e < dim -> (W d e == 0)%Q.
Proof.
  intros dim pos clamped a W d v Hd Anti Van Cv Nb.
  assert (R : forall e, e < dim -> (W d e == 0)%Q).
  { intros e He. destruct (Nat.eq_dec e d) as [-> | Hne]; [specialize (Anti d Hd); lra |].
    destruct (Nb e He Hne) as [w [Cw [Dw Sw]]]. assert (V1 := Van v Cv). assert (V2 := Van w Cw). unfold motion in V1, V2.
    assert (D : (qs dim (fun k => W d k * pos w k - W d k * pos v k) == W d e * pos w e - W d e * pos v e)%Q).
    { rewrite (qs_one dim _ e He); [reflexivity |]. intros k Hk Hke. rewrite (Sw k Hk Hke). ring. }
    rewrite qs_minus in D.
    assert (P : (W d e * (pos w e - pos v e) == 0)%Q) by lra.
    apply Qmult_integral in P. destruct P as [P | P]; [exact P |]. exfalso. apply Dw. lra. }
  split; [| exact R]. assert (V1 := Van v Cv). unfold motion in V1. rewrite qs_zero in V1; [lra |]. intros k Hk. rewrite (R k Hk). ring.
Qed.

(** the motions that are left: translation along [e], rotation around [x] in the plane of [e] and [f] *)
Lemma translation_free : forall dim pos (clamped : nat -> nat -> Prop) e, e < dim -> (forall i, ~ clamped e i) -> ~ fixes dim pos clamped.
Proof.
  intros dim pos clamped e He Free F.
  destruct (F (fun d => if Nat.eqb d e then 1 else 0)%Q (fun _ _ => 0%Q)) with (d := e) as [A _]; [intros; lra | | exact He |].
  - intros d i Hd C. unfold motion. rewrite qs_zero by (intros; ring). destruct (Nat.eqb_spec d e) as [-> | _]; [exfalso; apply (Free i C) | lra].
  - rewrite Nat.eqb_refl in A. lra.
Qed.
Lemma rotation_free : forall dim pos (clamped : nat -> nat -> Prop) e f v, e < dim -> f < dim -> e <> f ->
  (forall i, clamped e i \/ clamped f i -> i = v) -> ~ fixes dim pos clamped.
Proof.
  intros dim pos clamped e f v He Hf Hne Only F.
  set (a := fun d => (if Nat.eqb d e then - pos v f else if Nat.eqb d f then pos v e else 0)%Q).
  set (W := fun d k => (if Nat.eqb d e && Nat.eqb k f then 1 else if Nat.eqb d f && Nat.eqb k e then -(1) else 0)%Q).
  destruct (F a W) with (d := e) as [_ B]; [| | exact He |].
  - intros d k _ _. unfold W. destruct (Nat.eqb_spec d e), (Nat.eqb_spec k f), (Nat.eqb_spec d f), (Nat.eqb_spec k e); subst; cbn [andb]; try congruence; lra.
  - intros d i Hd C. unfold motion, a, W. destruct (Nat.eqb_spec d e) as [-> | Hde]; [| destruct (Nat.eqb_spec d f) as [-> | Hdf]].
    + assert (i = v) by (apply Only; left; exact C). subst i. rewrite (qs_one dim _ f Hf).
      * rewrite Nat.eqb_refl. cbn [andb]. lra.
      * intros k Hk Hkf. apply Nat.eqb_neq in Hkf. rewrite Hkf. cbn [andb]. destruct (Nat.eqb_spec e f); [congruence |]. cbn [andb]. ring.
    + assert (i = v) by (apply Only; right; exact C). subst i. rewrite (qs_one dim _ e He).
      * rewrite Nat.eqb_refl. cbn [andb]. lra.
      * intros k Hk Hke. apply Nat.eqb_neq in Hke. rewrite Hke. cbn [andb]. ring.
    + cbn [andb]. rewrite qs_zero by (intros; ring). lra.
  - specialize (B f Hf). unfold W in B. rewrite !Nat.eqb_refl in B. cbn [andb] in B. lra.
Qed.

(** For all meshes, distributions, dimensions and masks: the section removes all rigid
    motions exactly if all directions are in the mask.  With the default mask [{0}] a
    translation is left in two dimensions and a rotation in three. *)
Theorem C95_rigid_section : forall dim pos cells mask vertex_rank vertex c,
  In c cells -> (forall d, d < dim -> box_face dim pos c vertex d) ->
  fixes dim pos (fun d i => exists rank, In i (clamp_section dim pos cells rank mask vertex_rank vertex d))
  <-> forall d, d < dim -> mask d = true.
Proof.
  intros dim pos cells mask vr v c Hc Hbox. split.
  - intros F d Hd. destruct (mask d) eqn:M; [reflexivity | exfalso].
    destruct (existsb (fun e => negb (mask e) && negb (Nat.eqb e d)) (seq 0 dim)) eqn:E.
    + apply existsb_exists in E. destruct E as [e [I E]]. apply in_seq in I. apply andb_true_iff in E. destruct E as [E1 E2].
      apply negb_true_iff in E1, E2. apply Nat.eqb_neq in E2.
      revert F. apply (rotation_free dim pos _ d e v); [exact Hd | lia | congruence |].
      assert (He : e < dim) by lia.
      intros i [[r I'] | [r I']].
      * apply (proj2 (C95_section dim pos cells r mask vr v d Hd)) in I'. destruct I' as [[C _] | [_ [_ [-> _]]]]; congruence.
      * apply (proj2 (C95_section dim pos cells r mask vr v e He)) in I'. destruct I' as [[C _] | [_ [_ [-> _]]]]; congruence.
    + revert F. apply (translation_free dim pos _ d Hd). intros i [r I].
      apply (proj2 (C95_section dim pos cells r mask vr v d Hd)) in I. destruct I as [[C _] | [_ [_ [_ [e [He1 [He2 He3]]]]]]]; [congruence |].
      assert (X : existsb (fun e => negb (mask e) && negb (Nat.eqb e d)) (seq 0 dim) = true).
      { apply existsb_exists. exists e. split; [apply in_seq; lia |]. rewrite He3. apply Nat.eqb_neq in He1. rewrite He1. reflexivity. }
      congruence.
  - intros M a W Anti Van d Hd. destruct (Hbox d Hd) as [f [Hf [Cf [Iv Nb]]]].
    assert (Cl : forall i, In i (f_dofs f) -> exists rank, In i (clamp_section dim pos cells rank mask vr v d)).
    { intros i Hi. exists (c_rank c). apply (proj2 (C95_section dim pos cells _ mask vr v d Hd)). left. split; [apply M; exact Hd |].
      exists c, f. repeat split; auto. setoid_replace (f_center f d - pos v d)%Q with 0%Q by lra. reflexivity. }
    apply (row_zero dim pos (fun i => In i (f_dofs f)) a W d v Hd); [intros; apply Anti; assumption | intros i Hi; apply Van; auto | exact Iv |].
    intros e He Hne. destruct (Nb e He Hne) as [w H]. exists w. exact H.
Qed.
Print Assumptions C95_rigid_section.

(** The section through a particle removes them exactly if at most one direction is not in
    the mask. *)
Theorem C95_rigid_particle : forall dim pos cells mask vertex_rank vertex c inside value,
  In c cells -> inside c = true -> (forall d, d < dim -> box_face dim pos c vertex d) ->
  (forall f i, In f (c_faces c) -> In i (f_dofs f) -> (1 # 10 < value i)%Q) ->
  fixes dim pos (fun d i => exists rank, In i (clamp_particle dim pos cells rank mask vertex_rank vertex inside value d))
  <-> forall d e, d < dim -> e < dim -> mask d = false -> mask e = false -> d = e.
Proof.
  intros dim pos cells mask vr v c inside value Hc Hin Hbox Hval. split.
  - intros F d e Hd He Md Me. destruct (Nat.eq_dec d e) as [E | Hne]; [exact E | exfalso]. revert F.
    apply (rotation_free dim pos _ d e v Hd He Hne).
    intros i [[r I] | [r I]]; apply C95_particle in I; try assumption; destruct I as [[C _] | [_ [_ ->]]]; congruence.
  - intros U a W Anti Van.
    assert (Row : forall d, d < dim -> mask d = true -> (a d == 0)%Q /\ forall e, e < dim -> (W d e == 0)%Q).
    { intros d Hd M. destruct (Hbox d Hd) as [f [Hf [Cf [Iv Nb]]]].
      apply (row_zero dim pos (fun i => In i (f_dofs f)) a W d v Hd); [intros; apply Anti; assumption | | exact Iv |].
      - intros i Hi. apply Van; [exact Hd |]. exists (c_rank c). apply C95_particle; [exact Hd |]. left. split; [exact M |]. split; [apply (Hval f); assumption |].
        exists c, f. repeat split; auto. setoid_replace (f_center f d - pos v d)%Q with 0%Q by lra. reflexivity.
      - intros e He Hne. destruct (Nb e He Hne) as [w H]. exists w. exact H. }
    intros d Hd. destruct (mask d) eqn:M; [apply Row; assumption |].
    assert (R : forall e, e < dim -> (W d e == 0)%Q).
    { intros e He. rewrite (Anti d e Hd He). destruct (mask e) eqn:Me.
      - rewrite (proj2 (Row e He Me) d Hd). lra.
      - assert (d = e) by (apply U; assumption). subst e. assert (X := Anti d d Hd Hd). lra. }
    split; [| exact R].
    assert (V : (motion dim a W (pos v) d == 0)%Q).
    { apply Van; [exact Hd |]. exists vr. apply C95_particle; [exact Hd |]. right. repeat split; assumption. }
    unfold motion in V. rewrite qs_zero in V; [lra |]. intros k Hk. rewrite (R k Hk). ring.
Qed.
Print Assumptions C95_rigid_particle.

(** On a domain with coloured boundary: for every direction the faces with the even number
    are restrained, which removes all rigid motions. *)
Theorem C95_rigid_domain : forall dim pos cells,
  (forall d, d < dim -> exists c f v, In c cells /\ In f (c_faces c) /\ f_boundary f = Some (2 * d) /\ In v (f_dofs f)
     /\ forall e, e < dim -> e <> d -> exists w, In w (f_dofs f) /\ ~ (pos w e == pos v e)%Q /\ forall k, k < dim -> k <> e -> (pos w k == pos v k)%Q) ->
  fixes dim pos (fun d i => exists rank, In i (clamp_domain cells rank d)).
Proof.
  intros dim pos cells H a W Anti Van d Hd. destruct (H d Hd) as [c [f [v [Hc [Hf [Hb [Hv Nb]]]]]]].
  apply (row_zero dim pos (fun i => In i (f_dofs f)) a W d v Hd); [intros; apply Anti; assumption | | exact Hv | exact Nb].
  intros i Hi. apply Van; [exact Hd |]. exists (c_rank c). unfold clamp_domain. apply in_flat_map. exists c. split; [exact Hc |].
  unfold owned. rewrite Nat.eqb_refl. apply in_flat_map. exists f. split; [exact Hf |]. rewrite Hb, Nat.eqb_refl. exact Hi.
Qed.
Print Assumptions C95_rigid_domain.

(** ** Where the restrained degrees of freedom are *)

(** faces of the box with lower corner [lo] and edges [h] *)
Definition across (dim : nat) (h : Q) (lo : pt) (d : nat) (upper : bool) (f : face) : Prop :=
  d < dim /\ (f_center f d == lo d + if upper then h else 0)%Q /\ forall e, e < dim -> e <> d -> (f_center f e == lo e + h / 2)%Q.
Definition is_box (dim : nat) (pos : nat -> pt) (h : Q) (lo : pt) (c : cell) : Prop :=
  (forall f, In f (c_faces c) -> exists d (upper : bool), across dim h lo d upper f
     /\ forall i, In i (f_dofs f) -> (pos i d == lo d + if upper then h else 0)%Q /\ forall e, e < dim -> (lo e <= pos i e <= lo e + h)%Q)
  /\ (forall f i d (upper : bool), In f (c_faces c) -> In i (f_dofs f) -> d < dim -> (pos i d == lo d + if upper then h else 0)%Q ->
        exists g, In g (c_faces c) /\ across dim h lo d upper g /\ In i (f_dofs g)).
Definition on_lattice (h base x : Q) : Prop := exists z : Z, (x == base + inject_Z z * h)%Q.

Lemma lattice_diff : forall h base x y, on_lattice h base x -> on_lattice h base y -> exists z : Z, (x - y == inject_Z z * h)%Q.
Proof. intros h base x y [a A] [b B]. exists (a - b)%Z. unfold Zminus. rewrite inject_Z_plus, inject_Z_opp, A, B. ring. Qed.

Lemma Qabs_lt : forall x e, (Qabs x < e)%Q -> (- e < x < e)%Q.
Proof. intros x e H. assert (A := Qle_Qabs x). assert (B := Qle_Qabs (- x)). rewrite Qabs_opp in B. lra. Qed.

Lemma lattice_near : forall h z x, (4 # 1000000000 <= h)%Q -> (x == inject_Z z * h)%Q -> (Qabs x < 1 # 1000000000)%Q -> z = 0%Z.
Proof.
  intros h z x Hh Hx A. apply Qabs_lt in A. destruct (Z.eq_dec z 0) as [E | E]; [exact E | exfalso].
  destruct (Z_lt_le_dec z 0) as [L | L].
  - assert (inject_Z z <= inject_Z (-1))%Q by (rewrite <- Zle_Qle; lia). change (inject_Z (-1)) with (- (1))%Q in *. nra.
  - assert (inject_Z 1 <= inject_Z z)%Q by (rewrite <- Zle_Qle; lia). change (inject_Z 1) with 1%Q in *. nra.
Qed.

Lemma lattice_half : forall h z x, (4 # 1000000000 <= h)%Q -> (x == inject_Z z * h + h / 2)%Q -> ~ (Qabs x < 1 # 1000000000)%Q.
Proof.
  intros h z x Hh Hx A. apply Qabs_lt in A. assert (E : (h / 2 == h * (1 # 2))%Q) by field. rewrite E in Hx.
  destruct (Z_lt_le_dec z 0) as [L | L].
  - assert (inject_Z z <= inject_Z (-1))%Q by (rewrite <- Zle_Qle; lia). change (inject_Z (-1)) with (- (1))%Q in *. nra.
  - assert (inject_Z 0 <= inject_Z z)%Q by (rewrite <- Zle_Qle; lia). change (inject_Z 0) with 0%Q in *. nra.
Qed.

(** On a mesh of equal boxes: exactly the degrees of freedom (on faces of owned cells) in
    the plane of the vertex. *)
Theorem C95_uniform : forall dim pos h base cells rank mask vertex_rank vertex d,
  (4 # 1000000000 <= h)%Q ->
  (forall c, In c cells -> exists lo, is_box dim pos h lo c /\ forall e, e < dim -> on_lattice h (base e) (lo e)) ->
  (forall e, e < dim -> on_lattice h (base e) (pos vertex e)) ->
  d < dim -> mask d = true ->
  forall i, In i (clamp_section dim pos cells rank mask vertex_rank vertex d)
    <-> (exists c f, In c cells /\ c_rank c = rank /\ In f (c_faces c) /\ In i (f_dofs f)) /\ (pos i d == pos vertex d)%Q.
Proof.
  intros dim pos h base cells rank mask vr v d Hh Hcells Hv Hd M i.
  rewrite (proj2 (C95_section dim pos cells rank mask vr v d Hd) i). split.
  - intros [[_ H] | [C _]]; [| congruence]. destruct H as [c [f [Hc [Hr [_ [Hf [Near Hi]]]]]]].
    split; [exists c, f; auto |].
    destruct (Hcells c Hc) as [lo [[B1 B2] L]]. destruct (B1 f Hf) as [k [up [[Hk [Ck Ce]] Hdofs]]]. destruct (Hdofs i Hi) as [Pk Pe].
    destruct (lattice_diff h (base d) (lo d) (pos v d) (L d Hd) (Hv d Hd)) as [z Hz].
    destruct (Nat.eq_dec d k) as [<- | Hne].
    + assert (E : exists z', (f_center f d - pos v d == inject_Z z' * h)%Q).
      { destruct up; [exists (z + 1)%Z; rewrite inject_Z_plus; change (inject_Z 1) with 1%Q; lra | exists z; lra]. }
      destruct E as [z' E]. assert (Z0 := lattice_near h z' _ Hh E Near). subst z'. change (inject_Z 0) with 0%Q in E. lra.
    + exfalso. apply (lattice_half h z (f_center f d - pos v d)%Q Hh); [rewrite (Ce d Hd Hne); lra | exact Near].
  - intros [[c [f [Hc [Hr [Hf Hi]]]]] P]. left. split; [exact M |].
    destruct (Hcells c Hc) as [lo [[B1 B2] L]]. destruct (B1 f Hf) as [k [up [_ Hdofs]]]. destruct (Hdofs i Hi) as [_ Pe]. specialize (Pe d Hd).
    destruct (lattice_diff h (base d) (pos v d) (lo d) (Hv d Hd) (L d Hd)) as [z Hz].
    assert (Hz01 : z = 0%Z \/ z = 1%Z).
    { destruct (Z_lt_le_dec z 0) as [X | X].
      - assert (inject_Z z <= inject_Z (-1))%Q by (rewrite <- Zle_Qle; lia). change (inject_Z (-1)) with (- (1))%Q in *. exfalso. nra.
      - destruct (Z_lt_le_dec 1 z) as [Y | Y]; [| lia].
        assert (inject_Z 2 <= inject_Z z)%Q by (rewrite <- Zle_Qle; lia). change (inject_Z 2) with 2%Q in *. exfalso. nra. }
    assert (Side : exists up' : bool, (pos i d == lo d + if up' then h else 0)%Q).
    { destruct Hz01 as [-> | ->]; [exists false; change (inject_Z 0) with 0%Q in Hz | exists true; change (inject_Z 1) with 1%Q in Hz]; lra. }
    destruct Side as [up' Side]. destruct (B2 f i d up' Hf Hi Hd Side) as [g [Hg [[_ [Cg _]] Ig]]].
    exists c, g. repeat split; auto.
    setoid_replace (f_center g d - pos v d)%Q with 0%Q by lra. reflexivity.
Qed.
Print Assumptions C95_uniform.

(** a square cell with its four corners (numbered lexicographically) *)
Definition square (rank : nat) (x y h : Q) (n0 n1 n2 n3 : nat) : cell :=
  let fc a b := (fun e => match e with O => a | S O => b | _ => 0 end)%Q in
  mkCell rank [n0; n1; n2; n3]
    [mkFace (fc x (y + h / 2))%Q [n0; n2] None; mkFace (fc (x + h) (y + h / 2))%Q [n1; n3] None;
     mkFace (fc (x + h / 2) y)%Q [n0; n1] None; mkFace (fc (x + h / 2) (y + h))%Q [n2; n3] None].
Definition at_ (l : list (Q * Q)) (i : nat) : pt := fun e => match e with O => fst (nth i l (0, 0)%Q) | S O => snd (nth i l (0, 0)%Q) | _ => 0%Q end.

Lemma square_box : forall (pos : nat -> pt) rank x y h n0 n1 n2 n3, (0 < h)%Q ->
  (pos n0 0%nat == x)%Q -> (pos n0 1%nat == y)%Q -> (pos n1 0%nat == x + h)%Q -> (pos n1 1%nat == y)%Q ->
  (pos n2 0%nat == x)%Q -> (pos n2 1%nat == y + h)%Q -> (pos n3 0%nat == x + h)%Q -> (pos n3 1%nat == y + h)%Q ->
  is_box 2 pos h (fun e => match e with O => x | _ => y end) (square rank x y h n0 n1 n2 n3).
Proof.
  intros pos rank x y h n0 n1 n2 n3 Hh A0 B0 A1 B1 A2 B2 A3 B3. split.
  - assert (K : forall i, In i [n0; n1; n2; n3] -> forall e, e < 2 -> (match e with O => x | _ => y end <= pos i e <= match e with O => x | _ => y end + h)%Q).
    { intros i Hi e He. destruct e as [| [| e]]; [| | lia]; cbv beta iota; cbn [In] in Hi; destruct Hi as [<- | [<- | [<- | [<- | []]]]]; split; lra. }
    intros f [<- | [<- | [<- | [<- | []]]]]; [exists 0, false | exists 0, true | exists 1, false | exists 1, true];
      (split; [split; [lia |]; split; [cbv beta iota delta [f_center]; lra | intros e He Hne; destruct e as [| [| e]]; [| | lia]; cbn [f_center]; (congruence || reflexivity)] |]);
      intros i Hi; cbn [f_dofs In] in Hi; (split; [cbv beta iota; destruct Hi as [<- | [<- | []]]; lra | apply K; cbn [In]; tauto]).
  - assert (Faces : forall i d (upper : bool), In i [n0; n1; n2; n3] -> d < 2 -> (pos i d == match d with O => x | _ => y end + if upper then h else 0)%Q ->
      exists g, In g (c_faces (square rank x y h n0 n1 n2 n3)) /\ across 2 h (fun e => match e with O => x | _ => y end) d upper g /\ In i (f_dofs g)).
    { intros i d upper Hi Hd Hp. destruct d as [| [| d]]; [| | lia]; destruct upper; cbv beta iota in Hp.
      - eexists. split; [right; left; reflexivity |]. split; [split; [lia |]; split; [cbv beta iota delta [f_center]; lra | intros e He Hne; destruct e as [| [| e]]; [congruence | reflexivity | lia]] |].
        cbn [f_dofs In] in *. destruct Hi as [<- | [<- | [<- | [<- | []]]]]; auto; exfalso; lra.
      - eexists. split; [left; reflexivity |]. split; [split; [lia |]; split; [cbv beta iota delta [f_center]; lra | intros e He Hne; destruct e as [| [| e]]; [congruence | reflexivity | lia]] |].
        cbn [f_dofs In] in *. destruct Hi as [<- | [<- | [<- | [<- | []]]]]; auto; exfalso; lra.
      - eexists. split; [right; right; right; left; reflexivity |]. split; [split; [lia |]; split; [cbv beta iota delta [f_center]; lra | intros e He Hne; destruct e as [| [| e]]; [reflexivity | congruence | lia]] |].
        cbn [f_dofs In] in *. destruct Hi as [<- | [<- | [<- | [<- | []]]]]; auto; exfalso; lra.
      - eexists. split; [right; right; left; reflexivity |]. split; [split; [lia |]; split; [cbv beta iota delta [f_center]; lra | intros e He Hne; destruct e as [| [| e]]; [reflexivity | congruence | lia]] |].
        cbn [f_dofs In] in *. destruct Hi as [<- | [<- | [<- | [<- | []]]]]; auto; exfalso; lra. }
    intros f i d upper Hf Hi Hd Hp. apply Faces; [| exact Hd | exact Hp].
    destruct Hf as [<- | [<- | [<- | [<- | []]]]]; cbn [f_dofs In] in Hi; cbn [In]; tauto.
Qed.

(** With cells of two sizes it is not so: the plane through the vertex meets the middle of
    faces of a larger cell, whose corners are then restrained although they lie elsewhere. *)
Theorem C95_coarse_refuted : exists pos cells vertex,
  (forall c, In c cells -> exists h lo, (1 <= h)%Q /\ is_box 2 pos h lo c)
  /\ exists i, In i (clamp_section 2 pos cells 0 (fun d => Nat.eqb d 0) 0 vertex 0) /\ (1 <= Qabs (pos i 0%nat - pos vertex 0%nat))%Q.
Proof.
  exists (at_ [(0, 0); (2, 0); (0, 2); (2, 2); (0, -(1)); (1, -(1)); (2, -(1)); (1, 0)]%Q),
    [square 0 0 0 2 0 1 2 3; square 0 0 (-(1)) 1 4 5 0 7; square 0 1 (-(1)) 1 5 6 7 1], 5.
  split.
  - intros c [<- | [<- | [<- | []]]]; [exists 2%Q | exists 1%Q | exists 1%Q]; eexists; (split; [lra |]); apply square_box; vm_compute; reflexivity.
  - exists 3. split; [vm_compute; tauto | vm_compute; discriminate].
Qed.
Print Assumptions C95_coarse_refuted.

(** ** The mask of the driver *)
Theorem C95_mask : forall dim garbage wanted d,
  driver_mask dim garbage wanted d = true <-> (d < dim /\ In d wanted) \/ garbage d = true.
Proof.
  intros dim garbage wanted d. unfold driver_mask. revert garbage. induction wanted as [| w wanted IH]; intros garbage; cbn [fold_left In].
  - tauto.
  - rewrite IH. destruct (Nat.ltb_spec w dim) as [L | L].
    + destruct (Nat.eqb_spec d w) as [-> | Hne]; [tauto |]. intuition congruence.
    + split; [tauto |]. intros [[A [-> | B]] | C]; [lia | tauto | tauto].
Qed.
Print Assumptions C95_mask.

(** The array is not initialised: a direction nobody asked for may be restrained. *)
Theorem C95_mask_refuted : forall dim wanted d, d < dim -> ~ In d wanted ->
  (forall garbage, driver_mask dim garbage wanted d = garbage d) /\ driver_mask dim (fun _ => false) wanted d <> driver_mask dim (fun _ => true) wanted d.
Proof.
  intros dim wanted d Hd Hw.
  assert (H : forall garbage, driver_mask dim garbage wanted d = garbage d).
  { intros g. assert (X := C95_mask dim g wanted d). destruct (driver_mask dim g wanted d), (g d); intuition congruence. }
  split; [exact H |]. rewrite !H. discriminate.
Qed.
Print Assumptions C95_mask_refuted.

(** ** Example: two equal cells on two processes *)
Definition two_pos : nat -> pt := at_ [(0, 0); (1, 0); (0, 1); (1, 1); (2, 0); (2, 1)]%Q.
Definition two_cells : list cell := [square 0 0 0 1 0 1 2 3; square 1 1 0 1 1 4 3 5].
Example C95_applies :
  find_vertex 2 two_pos 2 (fun r => if Nat.eqb r 0 then Some (square 0 0 0 1 0 1 2 3) else None) (fun _ => two_cells) (fun e => match e with O => 9 # 10 | _ => 1 # 10 end)%Q = Some (0, 1)
  /\ clamp_section 2 two_pos two_cells 0 (fun d => Nat.eqb d 0) 0 1 0 = [1; 3]
  /\ clamp_section 2 two_pos two_cells 1 (fun d => Nat.eqb d 0) 0 1 0 = [1; 3]
  /\ clamp_section 2 two_pos two_cells 1 (fun _ => true) 0 1 1 = [1; 4]
  /\ clamp_section 2 two_pos two_cells 0 (fun d => Nat.eqb d 0) 0 1 1 = []
  /\ clamp_particle 2 two_pos two_cells 0 (fun d => Nat.eqb d 0) 0 1 (fun _ => true) (fun _ => 1%Q) 1 = [1]
  /\ (forall d, d < 2 -> box_face 2 two_pos (square 0 0 0 1 0 1 2 3) 1 d)
  /\ (forall c, In c two_cells -> exists lo, is_box 2 two_pos 1 lo c /\ forall e, e < 2 -> on_lattice 1 0 (lo e)).
Proof.
  split; [vm_compute; reflexivity |]. split; [vm_compute; reflexivity |]. split; [vm_compute; reflexivity |]. split; [vm_compute; reflexivity |].
  split; [vm_compute; reflexivity |]. split; [vm_compute; reflexivity |]. split.
  - intros d Hd. destruct d as [| [| d]]; [| | lia]; eexists.
    + split; [right; left; reflexivity |]. split; [vm_compute; reflexivity |]. split; [left; reflexivity |].
      intros e He Hne. destruct e as [| [| e]]; [congruence | | lia]. exists 3. split; [right; left; reflexivity |]. split; [vm_compute; discriminate |].
      intros k Hk Hke. destruct k as [| [| k]]; [vm_compute; reflexivity | congruence | lia].
    + split; [right; right; left; reflexivity |]. split; [vm_compute; reflexivity |]. split; [right; left; reflexivity |].
      intros e He Hne. destruct e as [| [| e]]; [| congruence | lia]. exists 0. split; [left; reflexivity |]. split; [vm_compute; discriminate |].
      intros k Hk Hke. destruct k as [| [| k]]; [congruence | vm_compute; reflexivity | lia].
  - intros c [<- | [<- | []]]; eexists; (split; [apply square_box; vm_compute; reflexivity |]);
      intros e He; destruct e as [| [| e]]; [exists 0%Z | exists 0%Z | lia | exists 1%Z | exists 0%Z | lia]; vm_compute; reflexivity.
Qed.
