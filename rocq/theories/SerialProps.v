(** C41: checkpointed fields are restored. *)
From Coq Require Import List Arith Bool Lia.
From Verif Require Import Util CutoffModel CutoffProofs SerialModel.
Import ListNotations.

(** * The order in which the degrees of freedom are met *)

(** What the locally owned cells list, cell after cell. *)
Fixpoint listed (t : cell_tree) : list (option nat) :=
  match t with
  | Active own dofs => if own then dofs else []
  | Refined ch => concat (map listed ch)
  end.

Lemma cell_tree_ind2 : forall P : cell_tree -> Prop,
  (forall own dofs, P (Active own dofs)) ->
  (forall ch, Forall P ch -> P (Refined ch)) -> forall t, P t.
Proof.
  intros P H1 H2. fix IH 1. intros [own dofs|ch]; [apply H1|]. apply H2.
  induction ch as [|c ch IHc]; constructor; [apply IH|exact IHc].
Qed.

Lemma visit_dofs_app : forall a b s, visit_dofs (a ++ b) s = (s' <- visit_dofs a s ;; visit_dofs b s').
Proof.
  induction a as [|[i|] a IH]; intros b s; cbn [app visit_dofs]; [reflexivity| |apply IH].
  destruct (vget (fst s) i) as [[|]|]; cbn [obind]; [apply IH| |reflexivity].
  destruct (vset (fst s) i true); cbn [obind]; [apply IH|reflexivity].
Qed.

Lemma visit_cell_listed : forall t s, visit_cell t s = visit_dofs (listed t) s.
Proof.
  induction t as [own dofs|ch IH] using cell_tree_ind2; intro s.
  - cbn. destruct own; reflexivity.
  - cbn [visit_cell listed]. revert s. induction IH as [|c ch Hc _ IHc]; intro s; [reflexivity|].
    cbn [map concat]. rewrite visit_dofs_app, Hc. destruct (visit_dofs (listed c) s); cbn [obind]; [apply IHc|reflexivity].
Qed.

Lemma visit_cells_listed : forall l s, visit_cells l s = visit_dofs (concat (map listed l)) s.
Proof.
  induction l as [|c l IH]; intro s; cbn [visit_cells map concat]; [reflexivity|].
  rewrite visit_dofs_app, visit_cell_listed. destruct (visit_dofs (listed c) s); cbn [obind]; [apply IH|reflexivity].
Qed.

(** deal.II's indices within the locally owned degrees of freedom are in range. *)
Definition in_range (n : nat) (coarse : list cell_tree) : Prop :=
  forall i, In (Some i) (concat (map listed coarse)) -> i < n.

(** Invariant: the mask marks exactly the collected ones. *)
Definition state_ok (n : nat) (s : visit_state) : Prop :=
  length (fst s) = n /\ NoDup (snd s) /\ (forall i, vget (fst s) i = Some true <-> In i (snd s)).

Lemma visit_dofs_spec : forall n dofs s, (forall i, In (Some i) dofs -> i < n) -> state_ok n s ->
  exists s' new, visit_dofs dofs s = Some s' /\ state_ok n s' /\ snd s' = snd s ++ new /\
    forall i, In i (snd s') <-> In i (snd s) \/ In (Some i) dofs.
Proof.
  intros n. induction dofs as [|[i|] dofs IH]; intros s Hr Hs; cbn [visit_dofs].
  - exists s, []. rewrite app_nil_r. split; [reflexivity|]. split; [assumption|]. split; [reflexivity|].
    intro i. cbn. tauto.
  - pose proof Hs as (L & N & M). assert (Hi : i < n) by (apply Hr; left; reflexivity).
    destruct (vget_some _ (fst s) i) as (b & Eb); [lia|]. rewrite Eb. cbn [obind]. destruct b.
    + destruct (IH s) as (s' & new & E & H1 & H2 & H3); [intros j Hj; apply Hr; right; assumption|assumption|].
      exists s', new. split; [assumption|]. split; [assumption|]. split; [assumption|]. intro j. rewrite H3. cbn. split.
      * intros [X|X]; auto.
      * intros [X|[X|X]]; auto. injection X as <-. left. apply M. assumption.
    + destruct (vset_some _ (fst s) i true) as (mask & Em); [lia|]. rewrite Em. cbn [obind].
      assert (Hn : ~ In i (snd s)). { intro X. apply M in X. congruence. }
      destruct (IH (mask, snd s ++ [i])) as (s' & new & E & H1 & H2 & H3).
      * intros j Hj. apply Hr. right. assumption.
      * split; [cbn; rewrite (vset_length _ _ _ _ _ Em); assumption|]. cbn [fst snd]. split.
        -- apply NoDup_rev in N. rewrite <- (rev_involutive (snd s ++ [i])). apply NoDup_rev.
           rewrite rev_app_distr. cbn. constructor; [|assumption]. rewrite <- in_rev. assumption.
        -- intro j. rewrite (vset_get _ _ _ _ _ j Em), in_app_iff. cbn. destruct (Nat.eqb_spec j i) as [->|Hne].
           ++ split; auto.
           ++ rewrite M. split; [auto|]. intros [X|[X|[]]]; [assumption|congruence].
      * exists s', (i :: new). cbn [snd] in H2, H3. split; [assumption|]. split; [assumption|]. split.
        -- rewrite H2, <- app_assoc. reflexivity.
        -- intro j. rewrite H3, in_app_iff. cbn. split.
           ++ intros [[X|[X|[]]]|X]; subst; auto.
           ++ intros [X|[X|X]]; auto. injection X as ->. auto.
  - destruct (IH s) as (s' & new & E & H1 & H2 & H3); [intros j Hj; apply Hr; right; assumption|assumption|].
    exists s', new. split; [assumption|]. split; [assumption|]. split; [assumption|]. intro j. rewrite H3. cbn. split.
    + intros [X|X]; auto.
    + intros [X|[X|X]]; auto. discriminate.
Qed.

Lemma start_ok : forall n, state_ok n (repeat false n, []).
Proof.
  intro n. split; [apply repeat_length|]. split; [constructor|]. intro i. cbn. split; [|tauto].
  intro E. exfalso. destruct (le_lt_dec n i) as [H|H].
  - rewrite vget_none in E by (rewrite repeat_length; assumption). discriminate.
  - rewrite vget_rep in E by assumption. discriminate.
Qed.

(** The map lists every locally owned degree of freedom exactly once; the assertion
    holds exactly if each of them lies on a locally owned cell. *)
Theorem C41_dof_map : forall n coarse, in_range n coarse ->
  (forall l, create_unique_dof_map n coarse = Some l ->
     length l = n /\ NoDup l /\ (forall i, In i l <-> i < n)) /\
  ((exists l, create_unique_dof_map n coarse = Some l) <->
   (forall i, i < n -> In (Some i) (concat (map listed coarse)))).
Proof.
  intros n coarse Hr. unfold create_unique_dof_map. rewrite visit_cells_listed.
  destruct (visit_dofs_spec n _ _ Hr (start_ok n)) as (s & new & E & (L & N & M) & _ & H). rewrite E. cbn [obind].
  assert (Hlt : forall i, In i (snd s) -> i < n). { intros i Hi. apply H in Hi. destruct Hi as [[]|Hi]. apply Hr, Hi. }
  assert (Full : length (snd s) = n -> forall i, i < n -> In i (snd s)).
  { intros Hl i Hi. assert (I : incl (seq 0 n) (snd s)).
    - apply NoDup_length_incl; [assumption|rewrite seq_length; lia|]. intros j Hj. apply in_seq. specialize (Hlt j Hj). lia.
    - apply I, in_seq. lia. }
  split.
  - intros l El. destruct (Nat.eqb_spec (length (snd s)) n) as [Hl|]; [|discriminate]. injection El as <-.
    split; [assumption|]. split; [assumption|]. intro i. split; [apply Hlt|apply Full; assumption].
  - destruct (Nat.eqb_spec (length (snd s)) n) as [Hl|Hl].
    + split; [|eauto]. intros _ i Hi. apply Full, H in Hi; [|assumption]. destruct Hi as [[]|Hi]. exact Hi.
    + split; [intros (l & X); discriminate|]. intro X. exfalso. apply Hl.
      apply Nat.le_antisymm.
      * rewrite <- (seq_length n 0). apply NoDup_incl_length; [assumption|]. intros i Hi. apply in_seq. specialize (Hlt i Hi). lia.
      * rewrite <- (seq_length n 0) at 1. apply NoDup_incl_length; [apply seq_NoDup|]. intros i Hi. apply in_seq in Hi.
        apply H. right. apply X. lia.
Qed.
Print Assumptions C41_dof_map.

(** * Renumbering *)

Fixpoint renumber (pi : nat -> nat) (t : cell_tree) : cell_tree :=
  match t with
  | Active own dofs => Active own (map (option_map pi) dofs)
  | Refined ch => Refined (map (renumber pi) ch)
  end.

Definition renumbering (n : nat) (pi : nat -> nat) : Prop :=
  (forall i, i < n -> pi i < n) /\ (forall i j, i < n -> j < n -> pi i = pi j -> i = j).

Lemma listed_renumber : forall pi t, listed (renumber pi t) = map (option_map pi) (listed t).
Proof.
  intros pi. induction t as [own dofs|ch IH] using cell_tree_ind2.
  - cbn. destruct own; reflexivity.
  - cbn [renumber listed]. rewrite map_map, concat_map, map_map. f_equal. apply map_ext_in. intros c Hc.
    rewrite Forall_forall in IH. apply IH, Hc.
Qed.

Lemma visit_renumber : forall n pi dofs mask mask' res, renumbering n pi -> (forall i, In (Some i) dofs -> i < n) ->
  length mask = n -> length mask' = n -> (forall i, i < n -> vget mask' (pi i) = vget mask i) ->
  match visit_dofs dofs (mask, res) with
  | Some s => exists mask'', visit_dofs (map (option_map pi) dofs) (mask', map pi res) = Some (mask'', map pi (snd s))
  | None => False
  end.
Proof.
  intros n pi dofs. induction dofs as [|[i|] dofs IH]; intros mask mask' res Hp Hr L L' M; cbn [visit_dofs map option_map].
  - exists mask'. reflexivity.
  - assert (Hi : i < n) by (apply Hr; left; reflexivity). cbn [fst snd]. rewrite (M i Hi).
    destruct (vget_some _ mask i) as (b & Eb); [lia|]. rewrite Eb. cbn [obind].
    destruct b; [apply IH; auto; intros j Hj; apply Hr; right; assumption|].
    destruct (vset_some _ mask i true) as (m1 & E1); [lia|]. rewrite E1. cbn [obind].
    destruct (vset_some _ mask' (pi i) true) as (m2 & E2); [rewrite L'; apply Hp; assumption|]. rewrite E2. cbn [obind].
    specialize (IH m1 m2 (res ++ [i]) Hp). rewrite map_app in IH. apply IH.
    + intros j Hj; apply Hr; right; assumption.
    + rewrite (vset_length _ _ _ _ _ E1). assumption.
    + rewrite (vset_length _ _ _ _ _ E2). assumption.
    + intros j Hj. rewrite (vset_get _ _ _ _ _ (pi j) E2), (vset_get _ _ _ _ _ j E1), (M j Hj).
      destruct (Nat.eqb_spec (pi j) (pi i)) as [E|E], (Nat.eqb_spec j i) as [E'|E']; try reflexivity.
      * exfalso. apply E'. apply Hp; assumption.
      * congruence.
  - apply IH; auto. intros j Hj; apply Hr; right; assumption.
Qed.

(** On the same cells with other numbers the map lists the same degrees of freedom in
    the same order. *)
Theorem C41_renumbered_map : forall n pi coarse, renumbering n pi -> in_range n coarse ->
  create_unique_dof_map n (map (renumber pi) coarse) = option_map (map pi) (create_unique_dof_map n coarse).
Proof.
  intros n pi coarse Hp Hr. unfold create_unique_dof_map. rewrite !visit_cells_listed, map_map.
  replace (concat (map (fun t => listed (renumber pi t)) coarse)) with (map (option_map pi) (concat (map listed coarse))).
  - pose proof (visit_renumber n pi (concat (map listed coarse)) (repeat false n) (repeat false n) [] Hp Hr
      (repeat_length _ _) (repeat_length _ _)) as V.
    destruct (visit_dofs (concat (map listed coarse)) (repeat false n, [])) as [s|]; cbn [obind].
    + destruct V as (mask & E).
      { intros i Hi. rewrite !vget_rep; [reflexivity|assumption|apply Hp; assumption]. }
      cbn [map] in E. rewrite E. cbn [obind snd]. rewrite map_length. destruct (length (snd s) =? n); reflexivity.
    + destruct V. intros i Hi. rewrite !vget_rep; [reflexivity|assumption|apply Hp; assumption].
  - rewrite concat_map, map_map. f_equal. apply map_ext. intro t. symmetry. apply listed_renumber.
Qed.
Print Assumptions C41_renumbered_map.

(** * Values *)
Section Values.

Variable A : Type.
Variable zero : A.
Notation field := (list A).

Definition is_map (n : nat) (l : list nat) : Prop := length l = n /\ NoDup l /\ (forall i, In i l -> i < n).

Lemma gather1_spec : forall dm (v : field), (forall i, In i dm -> i < length v) ->
  exists l, gather1 A dm v = Some l /\ length l = length dm /\
    forall j, j < length dm -> vget l j = (i <- vget dm j ;; vget v i).
Proof.
  induction dm as [|i dm IH]; intros v H; cbn [gather1].
  - exists []. split; [reflexivity|]. split; [reflexivity|]. intros j Hj. cbn in Hj. lia.
  - destruct (vget_some _ v i) as (x & Ex); [apply H; left; reflexivity|]. rewrite Ex. cbn [obind].
    destruct (IH v) as (l & El & L & G); [intros j Hj; apply H; right; assumption|]. rewrite El. cbn [obind].
    exists (x :: l). split; [reflexivity|]. split; [cbn; lia|]. intros [|j] Hj; cbn; [symmetry; exact Ex|]. apply G. cbn in Hj. lia.
Qed.

Lemma gather_spec : forall n dm vs, is_map n dm -> (forall v : field, In v vs -> length v = n) ->
  exists l, gather A dm vs = Some l /\ length l = n * length vs /\
    forall b j, b < length vs -> j < n -> vget l (b * n + j) = (v <- vget vs b ;; i <- vget dm j ;; vget v i).
Proof.
  intros n dm vs (L & _ & R). induction vs as [|v vs IH]; intro Hv; cbn [gather].
  - exists []. split; [reflexivity|]. split; [cbn; lia|]. intros b j Hb. cbn in Hb. lia.
  - destruct (gather1_spec dm v) as (a & Ea & La & Ga).
    { intros i Hi. rewrite (Hv v) by (left; reflexivity). auto. }
    rewrite Ea. cbn [obind]. destruct IH as (l & El & Ll & Gl); [intros w Hw; apply Hv; right; assumption|].
    rewrite El. cbn [obind]. exists (a ++ l). split; [reflexivity|]. split; [rewrite app_length; cbn; lia|].
    intros [|b] j Hb Hj.
    + cbn [Nat.mul Nat.add]. rewrite vget_app. destruct (Nat.ltb_spec j (length a)); [|lia]. apply Ga. lia.
    + rewrite vget_app. destruct (Nat.ltb_spec (S b * n + j) (length a)) as [X|X]; [cbn in X; lia|].
      replace (S b * n + j - length a) with (b * n + j) by (cbn; lia). apply Gl; [cbn in Hb; lia|assumption].
Qed.

Lemma scatter1_spec : forall dm temp (v : field), NoDup dm -> length temp = length dm -> (forall i, In i dm -> i < length v) ->
  exists v', scatter1 A dm temp v = Some v' /\ length v' = length v /\
    (forall j i, vget dm j = Some i -> vget v' i = vget temp j) /\
    (forall i, ~ In i dm -> vget v' i = vget v i).
Proof.
  induction dm as [|i dm IH]; intros temp v N L R; cbn [scatter1].
  - exists v. split; [reflexivity|]. split; [reflexivity|]. split; [|auto]. intros j i E. destruct j; discriminate.
  - destruct temp as [|x temp]; [discriminate|]. inversion N as [|? ? Hni N']. subst.
    destruct (vset_some _ v i x) as (v1 & E1); [apply R; left; reflexivity|]. rewrite E1. cbn [obind].
    pose proof (vset_length _ _ _ _ _ E1) as L1.
    destruct (IH temp v1) as (v' & E & L' & G & K); [assumption|cbn in L; lia|intros j Hj; rewrite L1; apply R; right; assumption|].
    exists v'. split; [assumption|]. split; [lia|]. split.
    + intros [|j] k Hk; cbn in Hk.
      * injection Hk as <-. rewrite (K i Hni), (vset_get _ _ _ _ _ i E1), Nat.eqb_refl. reflexivity.
      * apply G. exact Hk.
    + intros k Hk. rewrite K by (intro X; apply Hk; right; assumption). rewrite (vset_get _ _ _ _ _ k E1).
      destruct (Nat.eqb_spec k i) as [->|]; [exfalso; apply Hk; left; reflexivity|reflexivity].
Qed.

Lemma scatter_spec : forall n dm vs temp, is_map n dm -> (forall v : field, In v vs -> length v = n) ->
  length temp = n * length vs ->
  exists vs', scatter A dm temp vs = Some vs' /\ length vs' = length vs /\
    forall b, b < length vs -> exists v', vget vs' b = Some v' /\ length v' = n /\
      forall j i, vget dm j = Some i -> vget v' i = vget temp (b * n + j).
Proof.
  intros n dm vs. induction vs as [|v vs IH]; intros temp M Hv Lt; cbn [scatter].
  - exists []. split; [reflexivity|]. split; [reflexivity|]. intros b Hb. cbn in Hb. lia.
  - pose proof M as (L & N & R). cbn [length] in Lt.
    destruct (scatter1_spec dm (firstn (length dm) temp) v N) as (v' & E1 & L1 & G1 & _).
    { apply firstn_length_le. nia. }
    { intros i Hi. rewrite (Hv v) by (left; reflexivity). auto. }
    rewrite E1. cbn [obind]. destruct (IH (skipn (length dm) temp) M) as (vs' & E2 & L2 & G2).
    { intros w Hw. apply Hv. right. assumption. }
    { rewrite skipn_length. nia. }
    rewrite E2. cbn [obind]. exists (v' :: vs'). split; [reflexivity|]. split; [cbn; lia|]. intros [|b] Hb.
    + exists v'. split; [reflexivity|]. split; [rewrite L1; apply Hv; left; reflexivity|]. intros j i Hj.
      rewrite (G1 j i Hj). cbn [Nat.mul Nat.add]. apply vget_lt in Hj. rewrite vget_firstn. destruct (Nat.ltb_spec j (length dm)); [reflexivity|lia].
    + destruct (G2 b) as (w & Ew & Lw & Gw); [cbn in Hb; lia|]. exists w. split; [exact Ew|]. split; [exact Lw|].
      intros j i Hj. rewrite (Gw j i Hj), vget_skipn. f_equal. cbn. lia.
Qed.

Lemma read_at_vget : forall f off n k, k < n -> vget (read_at A zero f off n) k = Some (match f (off + k) with Some x => x | None => zero end).
Proof. intros f off n k H. unfold read_at. rewrite vget_map, vget_seq by assumption. reflexivity. Qed.

Lemma save_below : forall ps data off f f' p, save A ps data off f = Some f' -> p < off -> f' p = f p.
Proof.
  induction ps as [|q ps IH]; intros data off f f' p E H; cbn [save] in E; [injection E as <-; reflexivity|].
  destruct data as [|vs data]; [injection E as <-; reflexivity|].
  destruct (gather A (dof_map q) vs) as [t|]; [|discriminate]. cbn [obind] in E.
  rewrite (IH _ _ _ _ p E) by lia. unfold write_at. destruct (Nat.leb_spec off p); [lia|reflexivity].
Qed.

(** A process before and after the restart: the same degrees of freedom, [pi] gives
    their new numbers. *)
Definition same_process (p p' : process) (pi : nat -> nat) : Prop :=
  n_owned p' = n_owned p /\ is_map (n_owned p) (dof_map p) /\
  renumbering (n_owned p) pi /\ dof_map p' = map pi (dof_map p).

Lemma same_map : forall p p' pi, same_process p p' pi -> is_map (n_owned p) (dof_map p').
Proof.
  intros p p' pi (_ & (L & N & R) & (P1 & P2) & ->). split; [rewrite map_length; assumption|]. split.
  - assert (K : forall l, NoDup l -> (forall i, In i l -> i < n_owned p) -> NoDup (map pi l)); [|apply K; assumption].
    induction l as [|x l IH]; intros Nl Rl; cbn; [constructor|]. inversion Nl as [|? ? Hx Nl']. subst. constructor.
    + intro X. apply in_map_iff in X. destruct X as (y & Ey & Hy). apply P2 in Ey; [|apply Rl; right; assumption|apply Rl; left; reflexivity].
      subst y. contradiction.
    + apply IH; [assumption|]. intros i Hi. apply Rl. right. assumption.
  - intros i Hi. apply in_map_iff in Hi. destruct Hi as (j & <- & Hj). apply P1, R, Hj.
Qed.

(** [vs'] holds in its fields the values of the first fields of [vs], for every degree
    of freedom. *)
Definition restored (n : nat) (pi : nat -> nat) (vs vs' : list field) : Prop :=
  forall b v', vget vs' b = Some v' -> exists v, vget vs b = Some v /\ length v' = n /\
    forall i, i < n -> vget v' (pi i) = vget v i /\ exists x, vget v i = Some x.

Lemma load_one : forall p p' pi vs vs0 temp f off, same_process p p' pi ->
  (forall v : field, In v vs -> length v = n_owned p) -> (forall v : field, In v vs0 -> length v = n_owned p) ->
  length vs0 <= length vs -> gather A (dof_map p) vs = Some temp ->
  (forall k, k < length temp -> f (off + k) = vget temp k) ->
  exists vs', scatter A (dof_map p') (read_at A zero f off (n_owned p' * length vs0)) vs0 = Some vs' /\
    length vs' = length vs0 /\ restored (n_owned p) pi vs vs'.
Proof.
  intros p p' pi vs vs0 temp f off S Hv Hv0 Hl E Hf. pose proof (same_map _ _ _ S) as M'.
  destruct S as (En & M & Hp & Em).
  destruct (gather_spec _ _ _ M Hv) as (t & Et & Lt & Gt). rewrite E in Et. injection Et as <-.
  rewrite En. destruct (scatter_spec (n_owned p) (dof_map p') vs0 (read_at A zero f off (n_owned p * length vs0)) M' Hv0) as (vs' & Es & Ls & Gs).
  { unfold read_at. rewrite map_length, seq_length. reflexivity. }
  exists vs'. split; [exact Es|]. split; [exact Ls|]. intros b v' Hb.
  pose proof (vget_lt _ _ _ _ Hb) as Hlt. rewrite Ls in Hlt. destruct (Gs b Hlt) as (w & Ew & Lw & Gw).
  rewrite Hb in Ew. injection Ew as <-. destruct (vget_some _ vs b) as (v & Ev); [lia|]. exists v. split; [exact Ev|].
  split; [exact Lw|]. intros i Hi. destruct M as (Lm & Nm & Rm).
  assert (Hin : In i (dof_map p)).
  { assert (I : incl (seq 0 (n_owned p)) (dof_map p)).
    - apply NoDup_length_incl; [assumption|rewrite seq_length; lia|]. intros j Hj. apply in_seq. specialize (Rm j Hj). lia.
    - apply I, in_seq. lia. }
  destruct (In_nth_error _ _ Hin) as (j & Hj). fold (vget (dof_map p) j) in Hj.
  pose proof (vget_lt _ _ _ _ Hj) as Hjl. rewrite Lm in Hjl.
  assert (Lv : length v = n_owned p) by (apply Hv; eapply nth_error_In; exact Ev).
  destruct (vget_some _ v i) as (x & Ex); [lia|]. split; [|eauto].
  rewrite (Gw j (pi i)) by (rewrite Em, vget_map, Hj; reflexivity).
  assert (Bk : b * n_owned p + j < n_owned p * length vs0) by nia.
  rewrite read_at_vget by exact Bk. rewrite Hf by nia. rewrite Gt by lia. rewrite Ev. cbn [obind]. rewrite Hj. cbn [obind].
  rewrite Ex. reflexivity.
Qed.

Lemma write_at_vget : forall f off (l : list A) k, k < length l -> write_at A f off l (off + k) = vget l k.
Proof.
  intros f off l k H. unfold write_at. destruct (Nat.leb_spec off (off + k)); [|lia].
  destruct (Nat.ltb_spec (off + k) (off + length l)); [|lia]. cbn. f_equal. lia.
Qed.

(** The processes with their fields before ([ps], [data]), and after the restart
    ([ps'], [data']: fields of the right size with any content). *)
Inductive restart (nb : nat) : list process -> list (list field) -> list process -> list (list field) -> list (nat -> nat) -> Prop :=
| restart_nil : restart nb [] [] [] [] []
| restart_cons : forall p ps vs data p' ps' vs0 data' pi pis,
    same_process p p' pi -> length vs = nb -> length vs0 = nb ->
    (forall v : field, In v vs -> length v = n_owned p) -> (forall v : field, In v vs0 -> length v = n_owned p) ->
    restart nb ps data ps' data' pis ->
    restart nb (p :: ps) (vs :: data) (p' :: ps') (vs0 :: data') (pi :: pis).

Lemma save_load : forall nb ps data ps' data' pis, restart nb ps data ps' data' pis -> forall off f,
  exists f', save A ps data off f = Some f' /\
  forall f2, (forall p, off <= p -> f2 p = f' p) ->
  exists r, load A zero ps' data' off f2 = Some r /\ length r = length ps /\
    forall k p vs pi, vget ps k = Some p -> vget data k = Some vs -> vget pis k = Some pi ->
      exists vs', vget r k = Some vs' /\ length vs' = nb /\ restored (n_owned p) pi vs vs'.
Proof.
  intros nb ps data ps' data' pis H. induction H as [|p ps vs data p' ps' vs0 data' pi pis S L1 L2 Hv Hv0 _ IH]; intros off f.
  - exists f. split; [reflexivity|]. intros f2 _. exists []. split; [reflexivity|]. split; [reflexivity|].
    intros k p vs pi E. destruct k; discriminate.
  - cbn [save load]. pose proof S as (En & M & _).
    destruct (gather_spec _ _ _ M Hv) as (temp & Et & Lt & _). rewrite Et. cbn [obind].
    destruct (IH (off + n_owned p * length vs) (write_at A f off temp)) as (f' & Ef & K).
    exists f'. split; [exact Ef|]. intros f2 Hf2.
    destruct (load_one p p' pi vs vs0 temp f2 off S Hv Hv0 ltac:(lia) Et) as (vs' & Es & Ls & Rs).
    { intros k Hk. rewrite Hf2 by lia. rewrite (save_below _ _ _ _ _ _ Ef) by lia. apply write_at_vget. exact Hk. }
    rewrite Es. cbn [obind].
    destruct (K f2) as (r & Er & Lr & Kr); [intros q Hq; apply Hf2; lia|].
    rewrite En. replace (off + n_owned p * length vs0) with (off + n_owned p * length vs) by (rewrite L1, L2; reflexivity).
    rewrite Er. cbn [obind]. exists (vs' :: r). split; [reflexivity|]. split; [cbn; lia|].
    intros [|k] q ws ro E1 E2 E3; cbn in E1, E2, E3.
    + injection E1 as <-. injection E2 as <-. injection E3 as <-. exists vs'. split; [reflexivity|]. split; [lia|exact Rs].
    + apply (Kr k q ws ro E1 E2 E3).
Qed.

(** Saving, over any older file, and loading as many fields on the same processes
    restores all of them, whatever the numbers of the degrees of freedom are now. *)
Theorem C41_round_trip : forall nb ps data ps' data' pis old,
  restart nb ps data ps' data' pis ->
  exists f r, save A ps data 0 old = Some f /\ load A zero ps' data' 0 f = Some r /\ length r = length ps /\
    forall k p vs pi, vget ps k = Some p -> vget data k = Some vs -> vget pis k = Some pi ->
      exists vs', vget r k = Some vs' /\ length vs' = nb /\ restored (n_owned p) pi vs vs'.
Proof.
  intros nb ps data ps' data' pis old H. destruct (save_load _ _ _ _ _ _ H 0 old) as (f & Ef & K).
  destruct (K f (fun _ _ => eq_refl)) as (r & Er & Lr & Kr). exists f, r. auto.
Qed.

(** One process: reading fewer fields than were written returns the first ones. *)
Theorem C41_fewer_fields_partial : forall p p' pi vs vs0 old,
  same_process p p' pi -> (forall v : field, In v vs -> length v = n_owned p) ->
  (forall v : field, In v vs0 -> length v = n_owned p) -> length vs0 <= length vs ->
  exists f vs', save A [p] [vs] 0 old = Some f /\ load A zero [p'] [vs0] 0 f = Some [vs'] /\
    length vs' = length vs0 /\ restored (n_owned p) pi vs vs'.
Proof.
  intros p p' pi vs vs0 old S Hv Hv0 L. pose proof S as (En & M & _).
  destruct (gather_spec _ _ _ M Hv) as (temp & Et & Lt & _).
  exists (write_at A old 0 temp).
  destruct (load_one p p' pi vs vs0 temp (write_at A old 0 temp) 0 S Hv Hv0 L Et) as (vs' & Es & Ls & Rs).
  { intros k Hk. apply write_at_vget. exact Hk. }
  exists vs'. cbn [save load]. rewrite Et. cbn [obind]. split; [reflexivity|]. rewrite Es. auto.
Qed.

End Values.
Print Assumptions C41_round_trip.
Print Assumptions C41_fewer_fields_partial.

(** The processes of the theorems come from the cells. *)
Theorem C41_same_process : forall n coarse pi l, in_range n coarse -> renumbering n pi ->
  create_unique_dof_map n coarse = Some l ->
  exists l', create_unique_dof_map n (map (renumber pi) coarse) = Some l' /\
    same_process (mkProcess n l) (mkProcess n l') pi.
Proof.
  intros n coarse pi l Hr Hp E. exists (map pi l). rewrite C41_renumbered_map by assumption. rewrite E. split; [reflexivity|].
  destruct (proj1 (C41_dof_map n coarse Hr) l E) as (L & N & R).
  split; [reflexivity|]. cbn [n_owned dof_map]. split; [|split; [assumption|reflexivity]].
  split; [assumption|]. split; [assumption|]. intros i Hi. apply R, Hi.
Qed.
Print Assumptions C41_same_process.

(** Two processes: reading one of the two fields that were written, the second process
    gets values of the first one. *)
Theorem C41_fewer_fields_refuted : exists ps data f r,
  save nat ps data 0 (fun _ => None) = Some f /\
  load nat 0 ps (map (fun vs => firstn 1 vs) data) 0 f = Some r /\
  data = [[[10]; [20]]; [[30]; [40]]] /\ r = [[[10]]; [[20]]].
Proof.
  exists [mkProcess 1 [0]; mkProcess 1 [0]], [[[10]; [20]]; [[30]; [40]]].
  eexists. eexists. split; [reflexivity|]. split; [vm_compute; reflexivity|]. split; reflexivity.
Qed.
Print Assumptions C41_fewer_fields_refuted.

Example C41_case :
  let coarse := [Refined [Active true [Some 1; None; Some 0]; Active false [None; Some 2]]; Active true [Some 0; Some 2]] in
  let pi := fun i => (i + 1) mod 3 in
  in_range 3 coarse /\ renumbering 3 pi /\
  create_unique_dof_map 3 coarse = Some [1; 0; 2] /\
  create_unique_dof_map 3 (map (renumber pi) coarse) = Some [2; 1; 0] /\
  (f <- save nat [mkProcess 3 [1; 0; 2]] [[[5; 6; 7]; [1; 2; 3]]] 0 (fun _ => None) ;;
   load nat 0 [mkProcess 3 [2; 1; 0]] [[[0; 0; 0]; [0; 0; 0]]] 0 f) = Some [[[7; 5; 6]; [3; 1; 2]]].
Proof.
  cbv zeta. split; [|split; [|split; [reflexivity|split; [reflexivity|reflexivity]]]].
  - intros i H. cbn in H. repeat destruct H as [H|H]; try discriminate; try (injection H as <-; lia). destruct H.
  - split.
    + intros i _. apply Nat.mod_upper_bound. lia.
    + intros [|[|[|i]]] [|[|[|j]]] Hi Hj E; cbn in E; try lia.
Qed.
