(** C16, C17: the stitching of local particles. *)
From Coq Require Import List Arith Bool Lia Permutation Relations.
From Verif Require Import Util StitchModel StitchSpec StitchProofs.
Import ListNotations.

(** A numbering of the particles that describes the components: *)
Lemma stitch_numbering : forall sizes input deliver fuel,
  well_formed sizes input -> any_order deliver -> length input * length input < fuel ->
  exists ids, stitch fuel sizes deliver input = Some (Some (map Some ids)) /\
    length ids = length input /\ first_occurrence ids /\
    (forall g h, g < length input -> h < length input ->
       (vget ids g = vget ids h <-> connected sizes input g h)).
Proof.
  intros sizes input deliver fuel WF HD HF.
  destruct (stitch_ok sizes input WF deliver fuel HD HF) as (ids & mins & E & L & M & O & G).
  exists ids. split; [exact E|]. split; [exact L|].
  assert (UNI : forall i j a b, vget mins i = Some a -> vget mins j = Some b ->
            connected sizes input a b -> i = j /\ a = b).
  { intros i j a b Ha Hb Hc.
    assert (Ma : is_min sizes input a) by (apply M; eapply nth_error_In; exact Ha).
    assert (Mb : is_min sizes input b) by (apply M; eapply nth_error_In; exact Hb).
    pose proof (proj2 Ma b Hc). pose proof (proj2 Mb a (conn_sym sizes input WF _ _ Hc)).
    assert (a = b) by lia. split; [|assumption].
    destruct (lt_eq_lt_dec i j) as [[C|C]|C]; [|exact C|].
    - specialize (O i j a b Ha Hb C). lia.
    - specialize (O j i b a Hb Ha C). lia. }
  split.
  - intros v k Hk k' Hlt. destruct (G v k Hk) as (m & Hm & Hc).
    destruct (vget_some _ mins k') as [m' Hm']; [apply vget_lt in Hm; lia|].
    assert (Mm' : is_min sizes input m') by (apply M; eapply nth_error_In; exact Hm').
    assert (Mm : is_min sizes input m) by (apply M; eapply nth_error_In; exact Hm).
    pose proof (O k' k m' m Hm' Hm Hlt) as H1. pose proof (proj2 Mm v Hc) as H2.
    exists m'. split; [lia|].
    destruct (vget_some _ ids m') as [k'' Hk'']; [rewrite L; apply Mm'|].
    destruct (G m' k'' Hk'') as (m'' & Hm'' & Hc''). rewrite Hk''. f_equal.
    apply (UNI k'' k' m'' m' Hm'' Hm' Hc'').
  - intros g h Hg Hh. destruct (vget_some _ ids g ltac:(lia)) as [kg Eg].
    destruct (vget_some _ ids h ltac:(lia)) as [kh Eh].
    destruct (G g kg Eg) as (mg & Hmg & Hcg). destruct (G h kh Eh) as (mh & Hmh & Hch). split.
    + intro Eq. assert (kg = kh) by congruence. subst kh. assert (mg = mh) by congruence. subst mh.
      eapply rt_trans; [apply (conn_sym sizes input WF); exact Hcg|exact Hch].
    + intro Hc. rewrite Eg, Eh. f_equal. apply (UNI kg kh mg mh Hmg Hmh).
      eapply rt_trans; [exact Hcg|]. eapply rt_trans; [exact Hc|]. apply (conn_sym sizes input WF). exact Hch.
Qed.

Lemma numbers_contiguous : forall ids, first_occurrence ids ->
  forall k, In k ids <-> k < number_of_stitched ids.
Proof.
  intros ids F k. destruct ids as [|x ids].
  - simpl. split; [contradiction|lia].
  - unfold number_of_stitched. split.
    + intro H. pose proof (max_in _ _ H). lia.
    + intro H. pose proof (max_attained (x :: ids) ltac:(discriminate)) as Hm.
      set (mx := fold_right Nat.max 0 (x :: ids)) in *.
      destruct (Nat.eq_dec k mx) as [->|]; [exact Hm|].
      destruct (In_nth_error _ _ Hm) as [v Hv].
      destruct (F v mx Hv k ltac:(lia)) as (u & _ & Hu). eapply nth_error_In. exact Hu.
Qed.

(** ** C16 *)
(** For every decomposition, every well-formed symmetric set of contacts and
    every order of the messages, the algorithm ends, every particle gets a
    number, two particles get the same number exactly if they are connected,
    and the numbers are 0..n-1 without gaps. *)
Theorem C16_stitching_is_components : forall sizes input deliver fuel,
  well_formed sizes input -> any_order deliver -> length input * length input < fuel ->
  exists ids, stitch fuel sizes deliver input = Some (Some (map Some ids)) /\
    length ids = length input /\
    (forall g h, g < length input -> h < length input ->
       (vget ids g = vget ids h <-> connected sizes input g h)) /\
    (forall k, In k ids <-> k < number_of_stitched ids).
Proof.
  intros sizes input deliver fuel WF HD HF.
  destruct (stitch_numbering sizes input deliver fuel WF HD HF) as (ids & E & L & F & C).
  exists ids. split; [exact E|]. split; [exact L|]. split; [exact C|]. apply numbers_contiguous. exact F.
Qed.
Print Assumptions C16_stitching_is_components.

(** The result does not depend on the order of the messages, nor on the number
    of rounds available. *)
Theorem C16_order_independent : forall sizes input d1 d2 f1 f2,
  well_formed sizes input -> any_order d1 -> any_order d2 ->
  length input * length input < f1 -> length input * length input < f2 ->
  stitch f1 sizes d1 input = stitch f2 sizes d2 input.
Proof.
  intros sizes input d1 d2 f1 f2 WF H1 H2 F1 F2.
  destruct (stitch_numbering sizes input d1 f1 WF H1 F1) as (a & E1 & L1 & O1 & C1).
  destruct (stitch_numbering sizes input d2 f2 WF H2 F2) as (b & E2 & L2 & O2 & C2).
  assert (a = b) by (apply numbering_unique; [lia|assumption|assumption|];
    intros u v Hu Hv; rewrite C1, C2 by lia; reflexivity).
  congruence.
Qed.
Print Assumptions C16_order_independent.

(** Three ranks with 2, 2 and 1 particles: a chain 0 - 2 - 4 through all three
    ranks, 1 - 3, messages processed in reverse. *)
Definition case_sizes := [2; 2; 1].
Definition case_input : list (list contact) := [ [(1, 2)]; [(1, 3)]; [(0, 0); (2, 4)]; [(0, 1)]; [(1, 2)] ].

Example C16_case_well_formed : well_formed case_sizes case_input.
Proof.
  constructor.
  - reflexivity.
  - intros g l H. do 5 (destruct g as [|g]; [injection H as <-;
      repeat (constructor; [|intros y Hy; repeat (destruct Hy as [<-|Hy]; [reflexivity|]); contradiction]); constructor|]).
    destruct g; discriminate.
  - intros g l r id H Hin. do 5 (destruct g as [|g]; [injection H as <-;
      repeat (destruct Hin as [E|Hin]; [injection E as <- <-; simpl; lia|]); contradiction|]).
    destruct g; discriminate.
  - intros g l id H Hin. do 5 (destruct g as [|g]; [injection H as <-;
      repeat (destruct Hin as [E|Hin]; [injection E as _ <-; eexists; split; [reflexivity|simpl; tauto]|]); contradiction|]).
    destruct g; discriminate.
Qed.

Example C16_case_result :
  stitch 26 case_sizes (fun _ ms => rev ms) case_input = Some (Some (map Some [0; 1; 0; 1; 0])).
Proof. reflexivity. Qed.

Example C16_case_order : any_order (fun _ ms => rev ms).
Proof. intros k ms. apply Permutation_sym, Permutation_rev. Qed.

(** ** C17 *)
Lemma edges_touch : forall sizes input, well_formed sizes input -> forall a b,
  (In (a, b) (gather_edges 0 input) \/ In (b, a) (gather_edges 0 input)) <-> touch sizes input a b.
Proof.
  intros sizes input WF.
  assert (A : forall a b, In (a, b) (gather_edges 0 input) <-> touch sizes input a b).
  { intros a b. rewrite gather_edges_in. split.
    - intros (i & l & r & H1 & H2 & H3). simpl in H2. subst i. exists l. split; [exact H1|].
      destruct (wf_contact _ _ WF a l r b H1 H3) as (_ & <- & _). exact H3.
    - intros (l & H1 & H2). exists a, l, (owner sizes b). auto. }
  intros a b. rewrite !A. split; [intros [H|H]; [exact H|apply (touch_sym sizes input WF); exact H]|auto].
Qed.

(** Both algorithms give the same numbers. *)
Theorem C17_algorithms_agree : forall sizes input deliver fuel components,
  well_formed sizes input -> any_order deliver -> length input * length input < fuel ->
  components_contract components -> 0 < length input ->
  exists ids, stitch fuel sizes deliver input = Some (Some (map Some ids)) /\
    stitch_via_graph components input = Some ids.
Proof.
  intros sizes input deliver fuel components WF HD HF CC HN.
  destruct (stitch_numbering sizes input deliver fuel WF HD HF) as (ids & E & L & F & C).
  exists ids. split; [exact E|]. unfold stitch_via_graph.
  destruct (Nat.eqb_spec (length input) 0); [lia|]. f_equal.
  destruct (CC (length input) (gather_edges 0 input)) as (L2 & F2 & C2).
  { intros a b H. apply gather_edges_in in H. destruct H as (i & l & r & H1 & H2 & H3). simpl in H2. subst i.
    split; [eapply vget_lt; exact H1|]. apply (wf_contact _ _ WF a l r b H1 H3). }
  symmetry. apply numbering_unique; [congruence|exact F|exact F2|].
  intros u v Hu Hv. rewrite C, C2 by lia. clear Hu Hv. unfold connected.
  split; intro H; induction H as [x y H|x|x y z H1 IH1 H2 IH2].
  - apply rt_step. apply (edges_touch sizes input WF). exact H.
  - apply rt_refl.
  - eapply rt_trans; eassumption.
  - apply rt_step. apply (edges_touch sizes input WF). exact H.
  - apply rt_refl.
  - eapply rt_trans; eassumption.
Qed.
Print Assumptions C17_algorithms_agree.

(** The fixed-point iteration ends: the number of rounds is at most the square
    of the number of particles. *)
Theorem C17_terminates : forall sizes input deliver,
  well_formed sizes input -> any_order deliver ->
  exists input', stitch_loop (S (length input * length input)) 0 sizes deliver input = Some (Some input').
Proof.
  intros sizes input deliver WF HD.
  destruct (stitch_loop_ok sizes input WF deliver HD (S (length input * length input)) 0 input
              (between_start sizes input WF)) as (input' & E & _); [lia|].
  exists input'. exact E.
Qed.
Print Assumptions C17_terminates.

(** The number of stitched particles is the number of components: there is a
    list of that many particles, pairwise not connected, such that every particle
    is connected with one of them. *)
Theorem C17_count : forall sizes input deliver fuel,
  well_formed sizes input -> any_order deliver -> length input * length input < fuel ->
  exists ids reps, stitch fuel sizes deliver input = Some (Some (map Some ids)) /\
    length reps = number_of_stitched ids /\
    (forall r, In r reps -> r < length input) /\
    (forall i j a b, vget reps i = Some a -> vget reps j = Some b -> connected sizes input a b -> i = j) /\
    (forall g, g < length input -> exists r, In r reps /\ connected sizes input g r).
Proof.
  intros sizes input deliver fuel WF HD HF.
  destruct (stitch_numbering sizes input deliver fuel WF HD HF) as (ids & E & L & F & C).
  pose proof (numbers_contiguous ids F) as NC.
  assert (R : forall n, (forall k, k < n -> In k ids) ->
    exists reps, length reps = n /\ forall i, i < n -> exists r, vget reps i = Some r /\ vget ids r = Some i).
  { induction n as [|n IH]; intro H.
    - exists []. split; [reflexivity|]. intros i Hi. lia.
    - destruct IH as (reps & HL & HR); [intros; apply H; lia|].
      destruct (In_nth_error _ _ (H n ltac:(lia))) as [r Hr].
      exists (reps ++ [r]). split; [rewrite app_length, HL; simpl; lia|].
      intros i Hi. rewrite vget_app, HL. destruct (Nat.ltb_spec i n); [apply HR; assumption|].
      assert (i = n) by lia. subst i. rewrite Nat.sub_diag. exists r. split; [reflexivity|exact Hr]. }
  destruct (R (number_of_stitched ids)) as (reps & HL & HR); [intros k Hk; apply NC; exact Hk|].
  exists ids, reps. split; [exact E|]. split; [exact HL|].
  assert (LT : forall i r, vget reps i = Some r -> r < length input /\ vget ids r = Some i).
  { intros i r Hr. destruct (HR i) as (r' & H1 & H2); [rewrite <- HL; eapply vget_lt; exact Hr|].
    assert (r' = r) by congruence. subst r'. split; [rewrite <- L; eapply vget_lt; exact H2|exact H2]. }
  split; [|split].
  - intros r Hr. destruct (In_nth_error _ _ Hr) as [i Hi]. apply (LT i r Hi).
  - intros i j a b Ha Hb Hc. destruct (LT i a Ha) as [A1 A2]. destruct (LT j b Hb) as [B1 B2].
    apply C in Hc; [|assumption|assumption]. congruence.
  - intros g Hg. destruct (vget_some _ ids g ltac:(lia)) as [k Hk].
    assert (Hk' : k < number_of_stitched ids) by (apply NC; eapply nth_error_In; exact Hk).
    destruct (HR k Hk') as (r & H1 & H2). exists r. split; [eapply nth_error_In; exact H1|].
    apply C; [assumption| |congruence]. apply (LT k r H1).
Qed.
Print Assumptions C17_count.

(** Without any particle on any rank the variant with the graph has undefined
    behaviour, while the other one returns an empty list. *)
Theorem C17_empty_refuted : forall components,
  stitch_via_graph components [] = None /\ stitch 1 [0] (fun _ ms => ms) [] = Some (Some []).
Proof. intros. split; reflexivity. Qed.
Print Assumptions C17_empty_refuted.

(** ** The contract can be met *)
(** One particle per rank. *)
Definition neighbours (edges : list (nat * nat)) (g : nat) : list contact :=
  sort_unique (flat_map (fun e : nat * nat =>
    (if (fst e =? g) && negb (snd e =? g) then [(snd e, snd e)] else []) ++
    (if (snd e =? g) && negb (fst e =? g) then [(fst e, fst e)] else [])) edges).

Definition some_components (n : nat) (edges : list (nat * nat)) : list nat :=
  match stitch (S (n * n)) (repeat 1 n) (fun _ ms => ms) (map (neighbours edges) (seq 0 n)) with
  | Some (Some ids) => map (fun o => match o with Some k => k | None => 0 end) ids
  | _ => []
  end.

Lemma owner_ones : forall n g, g < n -> owner (repeat 1 n) g = g.
Proof.
  induction n as [|n IH]; intros g H; [lia|]. cbn [repeat owner].
  destruct (Nat.ltb_spec g 1); [lia|]. rewrite IH by lia. lia.
Qed.

Lemma neighbours_in : forall edges g r id, In (r, id) (neighbours edges g) <->
  r = id /\ id <> g /\ (In (g, id) edges \/ In (id, g) edges).
Proof.
  intros edges g r id. unfold neighbours. rewrite sort_unique_in, in_flat_map. split.
  - intros ([a b] & Hin & H). cbn [fst snd] in H. apply in_app_iff in H.
    destruct H as [H|H].
    + destruct (Nat.eqb_spec a g), (Nat.eqb_spec b g); simpl in H; try contradiction.
      destruct H as [H|[]]. injection H as <- <-. subst. auto.
    + destruct (Nat.eqb_spec b g), (Nat.eqb_spec a g); simpl in H; try contradiction.
      destruct H as [H|[]]. injection H as <- <-. subst. auto.
  - intros (-> & Hn & [H|H]).
    + exists (g, id). split; [exact H|]. cbn [fst snd]. apply in_app_iff. left.
      rewrite Nat.eqb_refl. destruct (Nat.eqb_spec id g); [contradiction|]. simpl. auto.
    + exists (id, g). split; [exact H|]. cbn [fst snd]. apply in_app_iff. right.
      rewrite Nat.eqb_refl. destruct (Nat.eqb_spec id g); [contradiction|]. simpl. auto.
Qed.

Theorem C17_contract_satisfiable : components_contract some_components.
Proof.
  intros n edges HE. set (input := map (neighbours edges) (seq 0 n)).
  assert (LN : length input = n) by (unfold input; rewrite map_length, seq_length; reflexivity).
  assert (GET : forall g l, vget input g = Some l -> g < n /\ l = neighbours edges g).
  { intros g l H. pose proof (vget_lt _ _ _ _ H) as Hl. rewrite LN in Hl. split; [exact Hl|].
    unfold vget, input in H. rewrite nth_error_map in H.
    rewrite (nth_error_nth' (seq 0 n) 0) in H by (rewrite seq_length; exact Hl).
    rewrite seq_nth in H by exact Hl. simpl in H. congruence. }
  assert (GET' : forall g, g < n -> vget input g = Some (neighbours edges g)).
  { intros g H. destruct (vget_some _ input g ltac:(lia)) as [l Hl]. rewrite Hl. f_equal. apply (GET g l Hl). }
  assert (WF : well_formed (repeat 1 n) input).
  { constructor.
    - rewrite LN. clear. induction n as [|n IH]; simpl; congruence.
    - intros g l H. destruct (GET g l H) as [_ ->]. apply sort_unique_sorted.
    - intros g l r id H Hin. destruct (GET g l H) as [Hg ->]. apply neighbours_in in Hin.
      destruct Hin as (-> & Hn & Hin).
      assert (id < n) by (destruct Hin as [Hin|Hin]; apply HE in Hin; tauto).
      rewrite LN, !owner_ones by assumption. auto.
    - intros g l id H Hin. destruct (GET g l H) as [Hg ->]. apply neighbours_in in Hin.
      destruct Hin as (_ & Hn & Hin).
      assert (id < n) by (destruct Hin as [Hin|Hin]; apply HE in Hin; tauto).
      exists (neighbours edges id). split; [apply GET'; assumption|].
      rewrite owner_ones by assumption. apply neighbours_in. repeat split; [congruence|tauto]. }
  destruct (stitch_numbering (repeat 1 n) input (fun _ ms => ms) (S (n * n)) WF) as (ids & E & L & F & C).
  { intros k ms. apply Permutation_refl. }
  { rewrite LN. lia. }
  unfold some_components. fold input. rewrite E. rewrite map_map, map_id.
  split; [lia|]. split; [exact F|]. intros a b Ha Hb. rewrite C by lia. unfold connected.
  assert (T : forall x y, touch (repeat 1 n) input x y <-> x <> y /\ (In (x, y) edges \/ In (y, x) edges)).
  { intros x y. split.
    - intros (l & H1 & H2). destruct (GET x l H1) as [Hx ->]. apply neighbours_in in H2.
      destruct H2 as (_ & Hn & H2). split; [congruence|exact H2].
    - intros [Hn H]. assert (x < n /\ y < n) by (destruct H as [H|H]; apply HE in H; tauto).
      exists (neighbours edges x). split; [apply GET'; tauto|]. rewrite owner_ones by tauto.
      apply neighbours_in. repeat split; [congruence|exact H]. }
  split; intro H; induction H as [x y H|x|x y z H1 IH1 H2 IH2].
  - apply rt_step. apply T in H. tauto.
  - apply rt_refl.
  - assert (y < n).
    { pose proof (conn_lt (repeat 1 n) input WF x y H1 ltac:(lia)). lia. }
    eapply rt_trans; [apply IH1|apply IH2]; assumption.
  - destruct (Nat.eq_dec x y) as [->|Hn]; [apply rt_refl|]. apply rt_step. apply T. auto.
  - apply rt_refl.
  - assert (Y : forall u v, clos_refl_trans nat (fun x y => In (x, y) edges \/ In (y, x) edges) u v -> u < n -> v < n).
    { clear -HE. induction 1 as [u v H|u|u v w H1 IH1 H2 IH2]; intro Hu; auto.
      destruct H as [H|H]; apply HE in H; tauto. }
    pose proof (Y x y H1 Ha). eapply rt_trans; [apply IH1|apply IH2]; assumption.
Qed.
Print Assumptions C17_contract_satisfiable.

Example C17_case : stitch_via_graph some_components case_input = Some [0; 1; 0; 1; 0] /\
  number_of_stitched [0; 1; 0; 1; 0] = 2.
Proof. split; reflexivity. Qed.
