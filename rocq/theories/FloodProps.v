(** C18 (flooding on one rank) and the detection of particles over all ranks
    (C16, C18 together). *)
From Coq Require Import List QArith Arith Bool Lia Relations Permutation.
From Verif Require Import Util StitchModel StitchSpec StitchProofs StitchProps FloodModel FloodSpec FloodProofs.
Import ListNotations.
Local Open Scope nat_scope.

Lemma touching_sym : forall m thr c d, mesh_ok m -> touching m thr c d -> touching m thr d c.
Proof.
  intros m thr c d OK (H1 & H2 & H3). split; [exact H2|]. split; [exact H1|].
  apply (ok_symmetric m OK); [apply H1|exact H3].
Qed.

Lemma region_sym : forall m thr c d, mesh_ok m -> region m thr c d -> region m thr d c.
Proof.
  intros m thr c d OK. induction 1 as [x y H|x|x y z H1 IH1 H2 IH2].
  - apply rt_step, touching_sym; assumption.
  - apply rt_refl.
  - eapply rt_trans; eassumption.
Qed.

Lemma region_on_sym : forall m thr me c d, mesh_ok m -> region_on m thr me c d -> region_on m thr me d c.
Proof.
  intros m thr me c d OK. induction 1 as [x y H|x|x y z H1 IH1 H2 IH2].
  - apply rt_step. destruct H as (H1 & H2 & H3). split; [apply touching_sym; assumption|auto].
  - apply rt_refl.
  - eapply rt_trans; eassumption.
Qed.

(** ** C18: one rank *)
(** For every mesh: the flooding ends; exactly the owned cells with particle are
    labelled; the labels are 0..counter-1; touching cells get the same label. *)
Theorem C18_labels : forall m thr, mesh_ok m -> exists fuel0, forall me fuel, fuel0 <= fuel ->
  exists ids counter maxs, detect_local fuel m me thr = Some (ids, counter, maxs) /\
    length ids = n_cells m /\
    (forall c, (exists k, vget ids c = Some (Some k)) <-> has_particle m thr c /\ rank m c = me) /\
    (forall k, (exists c, vget ids c = Some (Some k)) <-> k < counter) /\
    (forall c d, region_on m thr me c d -> vget ids c = vget ids d).
Proof.
  intros m thr OK. destruct (detect_local_ok m thr OK) as [fuel0 H]. exists fuel0. intros me fuel HF.
  destruct (H me fuel HF) as (ids & counter & maxs & E & B). destruct B as [B1 B2 B3 B4 B5 B6 B7].
  exists ids, counter, maxs. split; [exact E|]. split; [exact B1|]. split; [|split].
  - intro c. split.
    + intros [k Hk]. apply (B2 c k Hk).
    + intro Hc. apply B3. exact Hc.
  - intro k. split.
    + intros [c Hc]. apply (B2 c k Hc).
    + intro Hk. destruct (B4 k Hk) as (c & Hc & _). exists c. exact Hc.
  - intros c d Hr. induction Hr as [x y Hxy|x|x y z H1 IH1 H2 IH2]; [apply B5, Hxy|reflexivity|congruence].
Qed.
Print Assumptions C18_labels.

(** If the flooding never jumps to a cell that is not connected (in particular
    without local refinement), the labels are exactly the connected regions. *)
Theorem C18_regions_partial : forall m thr me, mesh_ok m ->
  (forall c d, visits m thr c d -> rank m c = me -> region_on m thr me c d) ->
  exists fuel0, forall fuel, fuel0 <= fuel ->
  exists ids counter maxs, detect_local fuel m me thr = Some (ids, counter, maxs) /\
    forall c d, has_particle m thr c -> rank m c = me -> has_particle m thr d -> rank m d = me ->
      (vget ids c = vget ids d <-> region_on m thr me c d).
Proof.
  intros m thr me OK HV. destruct (detect_local_ok m thr OK) as [fuel0 H]. exists fuel0. intros fuel HF.
  destruct (H me fuel HF) as (ids & counter & maxs & E & B). destruct B as [B1 B2 B3 B4 B5 B6 B7].
  exists ids, counter, maxs. split; [exact E|]. intros c d Hc Rc Hd Rd. split.
  - intro Eq. destruct (B3 c (conj Hc Rc)) as [k Hk]. pose proof Hk as Hk'. rewrite Eq in Hk'.
    destruct (B4 k ltac:(apply (B2 c k Hk))) as (s & _ & Hs).
    assert (VR : forall x, clos_refl_trans nat (V m me thr) s x -> region_on m thr me s x).
    { intros x Hx. clear -Hx HV. induction Hx as [x y Hxy|x|x y z H1 IH1 H2 IH2]; [|apply rt_refl|eapply rt_trans; eassumption].
      destruct Hxy as ((P1 & R1) & (P2 & R2) & n). apply HV; [|exact R1].
      split; [exact P1|]. split; [exact P2|]. split; [congruence|exact n]. }
    eapply rt_trans; [apply region_on_sym; [exact OK|]; apply VR, Hs, Hk|apply VR, Hs, Hk'].
  - intro Hr. induction Hr as [x y Hxy|x|x y z H1 IH1 H2 IH2]; [apply B5, Hxy|reflexivity|].
    assert (Py : has_particle m thr y /\ rank m y = me).
    { apply clos_rt_rtn1 in H1. inversion H1 as [|w ? ((_ & Pw & _) & _ & Rw) _]; subst; auto. }
    destruct Py as [Py Ry]. rewrite (IH1 Hc Rc Py Ry). apply IH2; assumption.
Qed.
Print Assumptions C18_regions_partial.

Lemma unrefined_visits : forall m thr me, unrefined m ->
  forall c d, visits m thr c d -> rank m c = me -> region_on m thr me c d.
Proof.
  intros m thr me U c d (Hc & Hd & R & n & Hn & Hl) Rc. apply rt_step.
  pose proof (U c n ltac:(apply Hc) Hn) as En.
  assert (d = n) by (inversion Hl as [? E|? x ? Hx _]; subst; [reflexivity|rewrite En in Hx; contradiction]). subst n.
  split; [|split; congruence]. split; [exact Hc|]. split; [exact Hd|].
  unfold face_cells. apply in_flat_map. exists d. split; [exact Hn|]. rewrite En. left. reflexivity.
Qed.

(** Without local refinement: same label exactly for connected cells. *)
Theorem C18_unrefined : forall m thr me, mesh_ok m -> unrefined m ->
  exists fuel0, forall fuel, fuel0 <= fuel ->
  exists ids counter maxs, detect_local fuel m me thr = Some (ids, counter, maxs) /\
    forall c d, has_particle m thr c -> rank m c = me -> has_particle m thr d -> rank m d = me ->
      (vget ids c = vget ids d <-> region_on m thr me c d).
Proof. intros m thr me OK U. apply C18_regions_partial; [exact OK|]. apply unrefined_visits. exact U. Qed.
Print Assumptions C18_unrefined.

(** The maximum value recorded for a local particle is the maximum over its
    cells. *)
Theorem C18_max_values : forall m thr, mesh_ok m -> exists fuel0, forall me fuel, fuel0 <= fuel ->
  exists ids counter maxs, detect_local fuel m me thr = Some (ids, counter, maxs) /\
    length maxs = counter /\
    forall k, k < counter -> exists q, vget maxs k = Some (Some q) /\
      (forall c v, vget ids c = Some (Some k) -> In v (fst (values m c) :: snd (values m c)) -> (v <= q)%Q) /\
      (exists c, vget ids c = Some (Some k) /\ In q (fst (values m c) :: snd (values m c))).
Proof.
  intros m thr OK. destruct (detect_local_ok m thr OK) as [fuel0 H]. exists fuel0. intros me fuel HF.
  destruct (H me fuel HF) as (ids & counter & maxs & E & B). destruct B as [B1 B2 B3 B4 B5 B6 B7].
  exists ids, counter, maxs. split; [exact E|]. split; [exact B6|]. intros k Hk.
  destruct (B7 k Hk) as (q & Eq & Hq & d & Hd & Hm). exists q. split; [exact Eq|]. split.
  - intros c v Hc Hv. eapply Qle_trans; [|apply (Hq c Hc)]. unfold cell_max.
    apply (proj1 (fold_qmax (snd (values m c)) (fst (values m c)))). exact Hv.
  - exists d. split; [exact Hd|]. rewrite Hm. unfold cell_max. apply (proj2 (fold_qmax (snd (values m d)) (fst (values m d)))).
Qed.
Print Assumptions C18_max_values.

(** *** Cases *)
(** Cells 0 - 1 - 2 - 3 in a row; the value of cell 2 is below the threshold. *)
Definition row_values (c : nat) : Q * list Q := match c with 2 => (0, [0])%Q | _ => (0, [1; 1 # 2])%Q end.
Definition row_mesh : mesh :=
  mkMesh 4 [0; 1; 2; 3] (fun _ => [])
    (fun c => match c with 0 => [1] | 1 => [0; 2] | 2 => [1; 3] | 3 => [2] | _ => [] end)
    (fun _ _ => []) (fun _ => 0) row_values.

Example C18_case_ok : mesh_ok row_mesh /\ unrefined row_mesh.
Proof.
  assert (NOCH : forall c, children row_mesh c = []) by reflexivity.
  split; [constructor|].
  - intros c H. split; [|reflexivity]. simpl in *. lia.
  - intros c n e H Hn Hl. assert (e = n) by (inversion Hl as [? ?|? x ? Hx _]; subst; [reflexivity|contradiction]). subst e.
    simpl in H. repeat (destruct H as [<-|H]; [simpl in Hn; simpl; lia|]). contradiction.
  - exists 0, (fun _ => 0). split; [lia|]. intros c d [].
  - intros c n e _ _ H. rewrite NOCH in H. congruence.
  - intros c d H Hd. simpl in H.
    repeat (destruct H as [<-|H]; [simpl in Hd; repeat (destruct Hd as [<-|Hd]; [simpl; tauto|]); contradiction|]). contradiction.
  - intros c n _ _. reflexivity.
Qed.

Example C18_case : detect_local 9 row_mesh 0 (1 # 10) =
  Some ([Some 0; Some 0; None; Some 1], 2, [Some 1%Q; Some 1%Q]).
Proof. reflexivity. Qed.

(** A coarse cell 0 next to a refined cell 5 with children 1 2 / 3 4, of which 1
    and 3 touch cell 0.  The particle occupies cells 0 and 2 only; they do not
    touch, but the flooding from cell 0 goes to all children of cell 5. *)
Definition refined_values (c : nat) : Q * list Q := match c with 0 | 2 => (1%Q, []) | _ => (0%Q, []) end.
Definition refined_mesh (order : list nat) : mesh :=
  mkMesh 5 order (fun c => match c with 5 => [1; 2; 3; 4] | _ => [] end)
    (fun c => match c with 0 => [5] | 1 => [0; 2; 3] | 2 => [1; 4] | 3 => [0; 1; 4] | 4 => [2; 3] | _ => [] end)
    (fun c n => match c, n with 0, 5 => [1; 3] | _, _ => [] end) (fun _ => 0) refined_values.

Lemma refined_ok : forall order, (forall c, In c order <-> c < 5) -> mesh_ok (refined_mesh order).
Proof.
  intros order HO. constructor.
  - intros c H. apply HO in H. split; [exact H|].
    do 5 (destruct c as [|c]; [reflexivity|]). lia.
  - intros c n e H Hn Hl. apply HO in H. apply HO.
    assert (L : forall x, x < 5 -> leaf (refined_mesh order) x e -> e = x).
    { intros x Hx Hlx. inversion Hlx as [? ?|? y ? Hy _]; subst; [reflexivity|].
      do 5 (destruct x as [|x]; [contradiction|]). lia. }
    assert (N5 : n < 5 \/ n = 5).
    { do 5 (destruct c as [|c]; [simpl in Hn; lia|]). lia. }
    destruct N5 as [N5| ->]; [rewrite (L n N5 Hl); exact N5|].
    inversion Hl as [? E|? y ? Hy Hl']; subst; [discriminate|].
    assert (y < 5) by (simpl in Hy; lia). rewrite (L y H0 Hl'). exact H0.
  - exists 1, (fun c => if c =? 5 then 1 else 0). split; [intro c; destruct (c =? 5); lia|].
    intros c d Hd. do 5 (destruct c as [|c]; [contradiction|]). destruct c as [|c]; [|contradiction].
    simpl in Hd. destruct Hd as [<-|[<-|[<-|[<-|[]]]]]; simpl; lia.
  - intros c n e H Hn Hc He. apply HO in H.
    assert (CN : c = 0 /\ n = 5).
    { do 5 (destruct c as [|c]; [simpl in Hn;
        repeat (destruct Hn as [<-|Hn]; [first [split; reflexivity | exfalso; apply Hc; reflexivity]|]); contradiction|]). lia. }
    destruct CN as [-> ->]. simpl in He.
    destruct He as [<-|[<-|[]]]; (eapply leaf_child; [|apply leaf_self; reflexivity]); simpl; tauto.
  - intros c d H Hd. apply HO in H.
    do 5 (destruct c as [|c]; [simpl in Hd; repeat (destruct Hd as [<-|Hd]; [simpl; tauto|]); contradiction|]). lia.
Qed.

(** On locally refined meshes the statement fails: cells 0 and 2 get the same
    label although no chain of touching cells connects them; if cell 2 comes
    first in the mesh, they get different labels. *)
Theorem C18_refined_refuted : exists (m m' : mesh) (thr : Q),
  mesh_ok m /\ mesh_ok m' /\
  has_particle m thr 0 /\ has_particle m thr 2 /\ ~ region m thr 0 2 /\
  (forall x, values m x = values m' x /\ neighbors m x = neighbors m' x /\ children m x = children m' x) /\
  (exists ids n q, detect_local 20 m 0 thr = Some (ids, n, q) /\ vget ids 0 = Some (Some 0) /\ vget ids 2 = Some (Some 0)) /\
  (exists ids n q, detect_local 20 m' 0 thr = Some (ids, n, q) /\ vget ids 0 = Some (Some 1) /\ vget ids 2 = Some (Some 0)).
Proof.
  exists (refined_mesh [0; 1; 2; 3; 4]), (refined_mesh [1; 2; 3; 4; 0]), 0%Q.
  assert (O1 : forall c, In c [0; 1; 2; 3; 4] <-> c < 5) by (intro c; simpl; lia).
  assert (O2 : forall c, In c [1; 2; 3; 4; 0] <-> c < 5) by (intro c; simpl; lia).
  split; [apply refined_ok, O1|]. split; [apply refined_ok, O2|].
  split; [split; [simpl; tauto|]; exists 1%Q; split; [left; reflexivity|reflexivity]|].
  split; [split; [simpl; tauto|]; exists 1%Q; split; [left; reflexivity|reflexivity]|].
  split; [|split; [|split]].
  - intro H. apply clos_rt_rt1n in H.
    inversion H as [|y ? (_ & Hy & Hf) _]; subst. simpl in Hf.
    destruct Hf as [<-|[<-|[]]]; destruct Hy as (_ & v & Hin & Hv); simpl in Hin;
      (destruct Hin as [<-|Hin]; [discriminate Hv|contradiction]).
  - intro x. auto.
  - eexists _, _, _. split; [reflexivity|]. split; reflexivity.
  - eexists _, _, _. split; [reflexivity|]. split; reflexivity.
Qed.
Print Assumptions C18_refined_refuted.

(** ** All ranks *)
Lemma detect_ranks_ok : forall m thr fuel0,
  (forall me fuel, fuel0 <= fuel -> exists ids counter maxs,
     detect_local fuel m me thr = Some (ids, counter, maxs) /\ labels m me thr ids counter maxs) ->
  forall fuel, fuel0 <= fuel -> forall n me, exists res, detect_ranks fuel m thr me n = Some res /\ length res = n /\
    forall r ids counter, vget res r = Some (ids, counter) -> exists maxs, labels m (me + r) thr ids counter maxs.
Proof.
  intros m thr fuel0 H fuel HF. induction n as [|n IH]; intro me.
  - exists []. split; [reflexivity|]. split; [reflexivity|]. intros r ids c Hr. destruct r; discriminate.
  - cbn [detect_ranks]. destruct (H me fuel HF) as (ids & counter & maxs & E & B). rewrite E. cbn [obind fst snd].
    destruct (IH (S me)) as (rest & E' & L & HR). rewrite E'. cbn [obind].
    eexists. split; [reflexivity|]. split; [simpl; congruence|]. intros [|r] ids' c' Hr.
    + cbn in Hr. injection Hr as <- <-. rewrite Nat.add_0_r. exists maxs. exact B.
    + cbn in Hr. destruct (HR r ids' c' Hr) as [mx Hm]. exists mx. rewrite Nat.add_succ_r. exact Hm.
Qed.

Section Global.
Variable m : mesh.
Variable thr : Q.
Variable res : list (list (option nat) * nat).
Hypothesis OK : mesh_ok m.
Hypothesis RANKS : forall c, In c (active m) -> rank m c < length res.
Hypothesis LAB : forall r ids counter, vget res r = Some (ids, counter) -> exists maxs, labels m r thr ids counter maxs.

Lemma sizes_get : forall r ids counter, vget res r = Some (ids, counter) -> vget (map snd res) r = Some counter.
Proof. intros r ids counter H. unfold vget in *. rewrite nth_error_map, H. reflexivity. Qed.

Lemma offset_sizes : forall r, offset res r = list_sum (firstn r (map snd res)).
Proof. intro r. unfold offset. rewrite firstn_map. reflexivity. Qed.

(** Cells with particle have a particle id, composed of rank and label. *)
Lemma pid_spec : forall c p, particle_id m res c = Some p <->
  exists ids counter k, vget res (rank m c) = Some (ids, counter) /\ vget ids c = Some (Some k) /\
    k < counter /\ p = offset res (rank m c) + k /\ has_particle m thr c.
Proof.
  intros c p. unfold particle_id. split.
  - destruct (vget res (rank m c)) as [[ids counter]|] eqn:E; [|discriminate].
    destruct (vget ids c) as [[k|]|] eqn:Ek; try discriminate. intro H. injection H as <-.
    destruct (LAB _ _ _ E) as [maxs B]. destruct (b_lab _ _ _ _ _ _ B c k Ek) as [B1 [B2 _]].
    exists ids, counter, k. auto.
  - intros (ids & counter & k & E & Ek & Hk & -> & _). rewrite E, Ek. reflexivity.
Qed.

Lemma pid_exists : forall c, has_particle m thr c -> exists p, particle_id m res c = Some p.
Proof.
  intros c Hc. destruct (vget_some _ res (rank m c)) as [[ids counter] E]; [apply RANKS, Hc|].
  destruct (LAB _ _ _ E) as [maxs B]. destruct (b_all _ _ _ _ _ _ B c (conj Hc eq_refl)) as [k Hk].
  exists (offset res (rank m c) + k). apply pid_spec. exists ids, counter, k.
  destruct (b_lab _ _ _ _ _ _ B c k Hk) as [B1 _]. auto.
Qed.

Lemma pid_owner : forall c p, particle_id m res c = Some p ->
  owner (map snd res) p = rank m c /\ p < list_sum (map snd res).
Proof.
  intros c p H. apply pid_spec in H. destruct H as (ids & counter & k & E & _ & Hk & -> & _).
  rewrite offset_sizes. pose proof (sizes_get _ _ _ E) as S. split.
  - apply (owner_offset _ _ _ counter); assumption.
  - apply (offset_total _ _ _ counter); assumption.
Qed.

Lemma pid_onto : forall p, p < list_sum (map snd res) -> exists c, particle_id m res c = Some p.
Proof.
  intros p Hp. destruct (offset_split _ _ Hp) as (r & k & n & H1 & H2 & H3).
  pose proof (vget_lt _ _ _ _ H1) as Hr. rewrite map_length in Hr.
  destruct (vget_some _ res r Hr) as [[ids counter] E]. pose proof (sizes_get _ _ _ E) as S.
  assert (n = counter) by congruence. subst n.
  destruct (LAB _ _ _ E) as [maxs B]. destruct (b_seed _ _ _ _ _ _ B k H2) as (c & Hc & _).
  destruct (b_lab _ _ _ _ _ _ B c k Hc) as [_ [Pc Rc]].
  exists c. apply pid_spec. exists ids, counter, k. rewrite Rc, offset_sizes. auto.
Qed.

Lemma all_connectivity_ok : exists conn, all_connectivity m res res 0 = Some conn /\
  length conn = list_sum (map snd res) /\
  forall p k, vget conn p = Some k -> sorted k /\
    forall x, In x k <-> exists ghost loc g, In ghost (active m) /\ rank m ghost <> rank m loc /\ In loc (face_cells m ghost) /\
      particle_id m res loc = Some p /\ particle_id m res ghost = Some g /\ x = (rank m ghost, g).
Proof.
  assert (LOC : forall me ids n, vget res me = Some (ids, n) -> forall c p, rank m c = me -> particle_id m res c = Some p ->
     exists l, p = offset res me + l /\ l < n).
  { intros me ids n E c p R H. apply pid_spec in H. destruct H as (ids' & counter & k & E' & _ & Hk & -> & _).
    rewrite R in E'. rewrite E in E'. injection E' as <- <-. exists k. rewrite R. auto. }
  assert (GEN : forall l0 r0 pre, res = pre ++ l0 -> length pre = r0 ->
    exists cs, all_connectivity m l0 res r0 = Some (concat cs) /\ map (@length (list contact)) cs = map snd l0 /\
      forall r c, vget cs r = Some c -> forall l k, vget c l = Some k -> sorted k /\
        forall x, In x k <-> exists ghost loc g, In ghost (active m) /\ rank m ghost <> r0 + r /\ In loc (face_cells m ghost) /\
          rank m loc = r0 + r /\ particle_id m res loc = Some (offset res (r0 + r) + l) /\
          particle_id m res ghost = Some g /\ x = (rank m ghost, g)).
  { induction l0 as [|[ids n] l0 IH]; intros r0 pre E L.
    - exists []. split; [reflexivity|]. split; [reflexivity|]. intros r c Hr. destruct r; discriminate.
    - cbn [all_connectivity].
      assert (Er : vget res r0 = Some (ids, n)).
      { rewrite E. unfold vget. rewrite nth_error_app2 by lia. rewrite L, Nat.sub_diag. reflexivity. }
      destruct (local_connectivity_ok m res r0 n (LOC r0 ids n Er)) as (c & Ec & Lc & Hc).
      rewrite Ec. cbn [obind].
      destruct (IH (S r0) (pre ++ [(ids, n)])) as (cs & E1 & E2 & E3).
      { rewrite E, <- app_assoc. reflexivity. }
      { rewrite app_length. simpl. lia. }
      rewrite E1. cbn [obind]. exists (c :: cs). split; [reflexivity|]. split; [cbn [map snd]; congruence|].
      intros [|r] c' Hr l k Hk.
      + cbn in Hr. injection Hr as <-. rewrite Nat.add_0_r. apply (Hc l k Hk).
      + cbn in Hr. rewrite Nat.add_succ_r. apply (E3 r c' Hr l k Hk). }
  destruct (GEN res 0 [] eq_refl eq_refl) as (cs & E & LS & H). exists (concat cs). split; [exact E|].
  assert (LN : length (concat cs) = list_sum (map snd res)).
  { rewrite <- LS. clear. induction cs as [|c cs IH]; [reflexivity|]. cbn [concat map]. rewrite app_length, IH. reflexivity. }
  split; [exact LN|]. intros p k Hk.
  pose proof (vget_lt _ _ _ _ Hk) as Hp. rewrite LN in Hp.
  destruct (offset_split _ _ Hp) as (r & l & n & H1 & H2 & H3).
  rewrite <- LS in H1. unfold vget in H1. rewrite nth_error_map in H1.
  destruct (nth_error cs r) as [c|] eqn:Ec; [|discriminate]. injection H1 as <-.
  assert (Hkl : vget c l = Some k).
  { rewrite <- (concat_get _ cs r l c Ec H2). rewrite LS, <- H3. exact Hk. }
  destruct (H r c Ec l k Hkl) as [HS HI]. split; [exact HS|]. intro x. rewrite HI. cbn [Nat.add].
  rewrite (offset_sizes r), <- H3. split.
  - intros (gh & lo & g & A & B & C & R & P & G & X). exists gh, lo, g. rewrite R. auto 10.
  - intros (gh & lo & g & A & B & C & P & G & X).
    assert (R : rank m lo = r).
    { destruct (pid_owner lo p P) as [O _]. rewrite <- O, H3. apply (owner_offset _ _ _ (length c)); [|exact H2].
      rewrite <- LS. unfold vget. rewrite nth_error_map, Ec. reflexivity. }
    exists gh, lo, g. rewrite R in B. auto 10.
Qed.

Hypothesis VIS : forall c d, visits m thr c d -> region m thr c d.

Lemma same_pid_region : forall c d p, particle_id m res c = Some p -> particle_id m res d = Some p -> region m thr c d.
Proof.
  intros c d p Hc Hd.
  assert (RR : rank m c = rank m d).
  { destruct (pid_owner c p Hc) as [O1 _]. destruct (pid_owner d p Hd) as [O2 _]. congruence. }
  apply pid_spec in Hc. apply pid_spec in Hd.
  destruct Hc as (ids & counter & k & E & Kc & Hk & -> & _). destruct Hd as (ids' & counter' & k' & E' & Kd & _ & Ep & _).
  rewrite <- RR in E', Ep. rewrite E in E'. injection E' as <- <-. assert (k' = k) by lia. subst k'.
  destruct (LAB _ _ _ E) as [maxs B]. destruct (b_seed _ _ _ _ _ _ B k Hk) as (s & _ & Hs).
  assert (VR : forall x, clos_refl_trans nat (V m (rank m c) thr) s x -> region m thr s x).
  { intros x Hx. clear -Hx VIS. induction Hx as [x y Hxy|x|x y z H1 IH1 H2 IH2]; [|apply rt_refl|eapply rt_trans; eassumption].
    destruct Hxy as ((P1 & R1) & (P2 & R2) & n). apply VIS.
    split; [exact P1|]. split; [exact P2|]. split; [congruence|exact n]. }
  eapply rt_trans; [apply region_sym; [exact OK|]; apply VR, Hs, Kc|apply VR, Hs, Kd].
Qed.

Section Conn.
Variable conn : list (list contact).
Hypothesis LC : length conn = list_sum (map snd res).
Hypothesis CONN : forall p k, vget conn p = Some k -> sorted k /\
    forall x, In x k <-> exists ghost loc g, In ghost (active m) /\ rank m ghost <> rank m loc /\ In loc (face_cells m ghost) /\
      particle_id m res loc = Some p /\ particle_id m res ghost = Some g /\ x = (rank m ghost, g).

Lemma conn_wf : well_formed (map snd res) conn.
Proof.
  constructor.
  - exact LC.
  - intros g l H. apply (CONN g l H).
  - intros g l r id H Hin. apply (CONN g l H) in Hin. destruct Hin as (gh & lo & i & A & B & C & P & G & X).
    injection X as -> ->. destruct (pid_owner gh i G) as [O1 O2]. destruct (pid_owner lo g P) as [O3 O4].
    rewrite LC. split; [exact O2|]. split; congruence.
  - intros g l id H Hin. apply (CONN g l H) in Hin. destruct Hin as (gh & lo & i & A & B & C & P & G & X).
    injection X as X <-. destruct (pid_owner gh id G) as [O1 O2].
    destruct (vget_some _ conn id) as [l' Hl']; [rewrite LC; exact O2|]. exists l'. split; [exact Hl'|].
    apply (CONN id l' Hl'). exists lo, gh, g. destruct (pid_owner lo g P) as [O3 _].
    assert (Alo : In lo (active m)).
    { apply pid_spec in P. destruct P as (_ & _ & _ & _ & _ & _ & _ & Hp). apply Hp. }
    split; [exact Alo|]. split; [congruence|]. split; [apply (ok_symmetric m OK); assumption|].
    split; [exact G|]. split; [exact P|]. congruence.
Qed.

Lemma touch_cells : forall p q, touch (map snd res) conn p q <->
  exists c d, touching m thr c d /\ rank m c <> rank m d /\ particle_id m res c = Some p /\ particle_id m res d = Some q.
Proof.
  intros p q. split.
  - intros (l & Hl & Hin). apply (CONN p l Hl) in Hin. destruct Hin as (gh & lo & i & A & B & C & P & G & X).
    injection X as _ <-. exists lo, gh. split; [|split; [congruence|auto]].
    pose proof P as P'. pose proof G as G'. apply pid_spec in P', G'.
    destruct P' as (_ & _ & _ & _ & _ & _ & _ & Hp). destruct G' as (_ & _ & _ & _ & _ & _ & _ & Hg).
    split; [exact Hp|]. split; [exact Hg|]. apply (ok_symmetric m OK); assumption.
  - intros (c & d & (Hc & Hd & Hf) & R & P & Q).
    destruct (pid_owner c p P) as [O1 O2]. destruct (pid_owner d q Q) as [O3 _].
    destruct (vget_some _ conn p) as [l Hl]; [rewrite LC; exact O2|]. exists l. split; [exact Hl|].
    apply (CONN p l Hl). exists d, c, q. split; [apply Hd|]. split; [congruence|].
    split; [apply (ok_symmetric m OK); [apply Hc|exact Hf]|]. split; [exact P|]. split; [exact Q|]. congruence.
Qed.

Lemma connected_region : forall p q, connected (map snd res) conn p q -> p < list_sum (map snd res) ->
  forall c d, particle_id m res c = Some p -> particle_id m res d = Some q -> region m thr c d.
Proof.
  intros p q H. induction H as [p q H|p|p q s H1 IH1 H2 IH2]; intros Hp c d Hc Hd.
  - apply touch_cells in H. destruct H as (c0 & d0 & T & _ & P & Q).
    eapply rt_trans; [apply (same_pid_region c c0 p Hc P)|].
    eapply rt_trans; [apply rt_step; exact T|apply (same_pid_region d0 d q Q Hd)].
  - apply (same_pid_region c d p Hc Hd).
  - assert (Hq : q < list_sum (map snd res)).
    { rewrite <- LC. eapply conn_lt; [exact conn_wf|exact H1|rewrite LC; exact Hp]. }
    destruct (pid_onto q Hq) as [e He]. eapply rt_trans; [apply (IH1 Hp c e Hc He)|apply (IH2 Hq e d He Hd)].
Qed.

Lemma region_connected : forall c d, region m thr c d -> forall p q,
  particle_id m res c = Some p -> particle_id m res d = Some q -> connected (map snd res) conn p q.
Proof.
  intros c d H. induction H as [c d H|c|c e d H1 IH1 H2 IH2]; intros p q Hc Hd.
  - destruct (Nat.eq_dec (rank m c) (rank m d)) as [R|R].
    + assert (p = q); [|subst; apply rt_refl].
      apply pid_spec in Hc. apply pid_spec in Hd.
      destruct Hc as (ids & counter & k & E & Kc & Hk & -> & _). destruct Hd as (ids' & counter' & k' & E' & Kd & _ & -> & _).
      rewrite <- R in E'. rewrite E in E'. injection E' as <- <-. destruct (LAB _ _ _ E) as [maxs B].
      pose proof (b_touch _ _ _ _ _ _ B c d (conj H (conj eq_refl (eq_sym R)))) as Eq. rewrite R. f_equal. congruence.
    + apply rt_step. apply touch_cells. exists c, d. auto.
  - assert (p = q) by congruence. subst. apply rt_refl.
  - destruct (particle_id m res e) as [s|] eqn:Es.
    + eapply rt_trans; [apply (IH1 p s Hc eq_refl)|apply (IH2 s q eq_refl Hd)].
    + assert (e = d).
      { apply clos_rt_rt1n in H2. inversion H2 as [|y ? (He & _) _]; subst; [reflexivity|].
        destruct (pid_exists e He) as [s Hs]. congruence. }
      congruence.
Qed.
End Conn.
End Global.

(** Over all ranks: for every mesh and every distribution of its cells, for every
    order of the messages, every cell with particle gets a global particle
    number and no other cell does; the numbers are 0..n-1 without gaps; two cells
    get the same number exactly if a chain of touching cells with particle, on
    whatever ranks, connects them. *)
Theorem C16_particles_are_regions : forall m thr n_ranks deliver,
  mesh_ok m -> (forall c, In c (active m) -> rank m c < n_ranks) -> any_order deliver ->
  (forall c d, visits m thr c d -> region m thr c d) ->
  exists fuel sfuel gid n, detect_particles fuel sfuel m n_ranks thr deliver = Some gid /\
    (forall c, (exists k, gid c = Some k) <-> has_particle m thr c) /\
    (forall c d, has_particle m thr c -> has_particle m thr d -> (gid c = gid d <-> region m thr c d)) /\
    (forall k, (exists c, gid c = Some k) <-> k < n).
Proof.
  intros m thr n_ranks deliver OK RK HD VIS.
  destruct (detect_local_ok m thr OK) as [fuel0 HL].
  destruct (detect_ranks_ok m thr fuel0 HL fuel0 (Nat.le_refl _) n_ranks 0) as (res & E & LR & LAB).
  cbn [Nat.add] in LAB. rewrite <- LR in RK.
  destruct (all_connectivity_ok m thr res LAB) as (conn & EC & LC & CONN).
  pose proof (conn_wf m thr res OK LAB conn LC CONN) as WF.
  destruct (stitch_numbering (map snd res) conn deliver (S (length conn * length conn)) WF HD ltac:(lia))
    as (ids & ES & LI & FO & CI).
  exists fuel0, (S (length conn * length conn)),
    (fun c => match particle_id m res c with None => None
              | Some p => match vget (map Some ids) p with Some (Some k) => Some k | _ => None end end),
    (number_of_stitched ids).
  split; [unfold detect_particles; rewrite E; cbn [obind]; rewrite EC; cbn [obind]; rewrite ES; reflexivity|].
  assert (G : forall p, vget (map Some ids) p = match vget ids p with Some k => Some (Some k) | None => None end).
  { intro p. unfold vget. rewrite nth_error_map. destruct (nth_error ids p); reflexivity. }
  assert (GP : forall c p, particle_id m res c = Some p -> exists k, vget ids p = Some k).
  { intros c p H. apply vget_some. rewrite LI, LC. apply (pid_owner m thr res LAB c p H). }
  split; [|split].
  - intro c. split.
    + intros [k Hk]. destruct (particle_id m res c) as [p|] eqn:Ep; [|discriminate].
      apply (pid_spec m thr res LAB) in Ep. destruct Ep as (_ & _ & _ & _ & _ & _ & _ & Hp). exact Hp.
    + intro Hc. destruct (pid_exists m thr res RK LAB c Hc) as [p Hp]. destruct (GP c p Hp) as [k Hk].
      exists k. rewrite Hp, G, Hk. reflexivity.
  - intros c d Hc Hd. destruct (pid_exists m thr res RK LAB c Hc) as [p Hp].
    destruct (pid_exists m thr res RK LAB d Hd) as [q Hq].
    destruct (GP c p Hp) as [k Hk]. destruct (GP d q Hq) as [k' Hk'].
    rewrite Hp, Hq, !G, Hk, Hk'.
    destruct (pid_owner m thr res LAB c p Hp) as [_ Lp]. destruct (pid_owner m thr res LAB d q Hq) as [_ Lq].
    assert (CE : vget ids p = vget ids q <-> connected (map snd res) conn p q) by (apply CI; rewrite LC; assumption).
    split.
    + intro Eq. apply (connected_region m thr res OK LAB VIS conn LC CONN p q); [apply CE; congruence|assumption|assumption|assumption].
    + intro Hr. assert (X : vget ids p = vget ids q) by (apply CE; apply (region_connected m thr res OK RK LAB conn LC CONN c d Hr p q Hp Hq)).
      congruence.
  - intro k. rewrite <- (numbers_contiguous ids FO k). split.
    + intros [c Hc]. destruct (particle_id m res c) as [p|] eqn:Ep; [|discriminate]. rewrite G in Hc.
      destruct (vget ids p) as [k'|] eqn:Ek; [|discriminate]. injection Hc as ->. eapply nth_error_In. exact Ek.
    + intro Hk. destruct (In_nth_error _ _ Hk) as [p Hp].
      destruct (pid_onto m thr res LAB p) as [c Hc].
      { rewrite <- LC, <- LI. eapply vget_lt. exact Hp. }
      exists c. rewrite Hc, G. unfold vget. rewrite Hp. reflexivity.
Qed.
Print Assumptions C16_particles_are_regions.

(** The row of cells on two ranks, with a particle over both of them. *)
Example C16_particles_case :
  match detect_particles 20 20 (mkMesh 4 [0; 1; 2; 3] (fun _ => []) (neighbors row_mesh) (fun _ _ => [])
    (fun c => Nat.modulo c 2) (fun c => match c with 3 => (0%Q, []) | _ => (1%Q, []) end)) 2 (1 # 10) (fun _ ms => ms) with
  | None => []
  | Some gid => map gid [0; 1; 2; 3]
  end = [Some 0; Some 0; Some 0; None].
Proof. reflexivity. Qed.
