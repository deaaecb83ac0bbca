(** C72: pores and the data of their contours. *)
From Coq Require Import List QArith Qabs Qminmax Arith Bool Lia Relations Lqa.
From Verif Require Import Util StitchModel StitchSpec StitchProofs StitchProps FloodModel FloodSpec FloodProofs FloodProps PoreModel.
Import ListNotations.
Local Open Scope nat_scope.

(** A void cell: not excluded by the box, all values of all blocks between
    -threshold and threshold. *)
Definition void (p : pmesh) (thr : Q) (c : nat) : Prop :=
  In c (active (base p)) /\ outside p c = false /\
  forall b v, b < n_blocks p -> In v (block_values p b c) -> (- thr < v /\ v < thr)%Q.

(** A pore: void cells connected through faces. *)
Definition adjacent (p : pmesh) (thr : Q) (c d : nat) : Prop :=
  void p thr c /\ void p thr d /\ In d (face_cells (base p) c).
Definition same_pore (p : pmesh) (thr : Q) : nat -> nat -> Prop := clos_refl_trans nat (adjacent p thr).

(** The same mesh with one order parameter that marks the void cells. *)
Definition void_mesh (p : pmesh) (thr : Q) : mesh :=
  mkMesh (n_cells (base p)) (active (base p)) (children (base p)) (neighbors (base p)) (subface_children (base p))
    (rank (base p)) (fun c => (if negb (outside p c) && negb (solid p thr c) then 1%Q else 0%Q, [])).

Lemma linfty_spec : forall l a t, (a < t)%Q ->
  (fold_left (fun a v => qmax a (Qabs v)) l a < t)%Q <-> forall v, In v l -> (- t < v /\ v < t)%Q.
Proof.
  induction l as [|x l IH]; intros a t H; cbn [fold_left].
  - split; [intros _ v []|intros _; exact H].
  - assert (AB : (Qabs x < t)%Q <-> (- t < x /\ x < t)%Q).
    { split.
      - intro A. pose proof (Qle_Qabs x). pose proof (Qle_Qabs (- x)). rewrite Qabs_opp in *. split; lra.
      - intros [A B]. apply Qabs_case; intros; lra. }
    destruct (Qlt_le_dec (Qabs x) t) as [L|L].
    + rewrite IH.
      * split; [|intros K v Hv; apply K; right; exact Hv]. intros K v [<-|Hv]; [apply AB, L|apply K, Hv].
      * unfold qmax. destruct (qltb a (Qabs x)); assumption.
    + split.
      * intro K. exfalso.
        assert (M : forall l a, (a <= fold_left (fun a v => qmax a (Qabs v)) l a)%Q).
        { clear. induction l as [|x l IH]; intro a; cbn [fold_left]; [lra|].
          eapply Qle_trans; [|apply IH]. unfold qmax. destruct (qltb a (Qabs x)) eqn:E; [|lra].
          apply qltb_true in E. lra. }
        pose proof (M l (qmax a (Qabs x))) as M1.
        assert (M2 : (Qabs x <= qmax a (Qabs x))%Q).
        { unfold qmax. destruct (qltb a (Qabs x)) eqn:E; [lra|]. apply qltb_false in E. exact E. }
        lra.
      * intro K. exfalso. apply (Qlt_not_le (Qabs x) t); [|exact L]. apply AB. apply K. left. reflexivity.
Qed.

Lemma solid_spec : forall p thr c, (0 < thr)%Q ->
  (solid p thr c = false <-> forall b v, b < n_blocks p -> In v (block_values p b c) -> (- thr < v /\ v < thr)%Q).
Proof.
  intros p thr c H. unfold solid. split.
  - intros E b v Hb Hv. revert v Hv. apply (linfty_spec (block_values p b c) 0 thr H).
    destruct (Qlt_le_dec (linfty (block_values p b c)) thr) as [L|L]; [exact L|]. exfalso.
    assert (T : existsb (fun b => Qle_bool thr (linfty (block_values p b c))) (seq 0 (n_blocks p)) = true).
    { apply existsb_exists. exists b. split; [apply in_seq; lia|]. apply Qle_bool_iff. exact L. }
    congruence.
  - intro K. destruct (existsb _ _) eqn:E; [|reflexivity]. exfalso. apply existsb_exists in E.
    destruct E as (b & Hb & L). apply in_seq in Hb. apply Qle_bool_iff in L.
    assert (B : (linfty (block_values p b c) < thr)%Q).
    { apply (linfty_spec (block_values p b c) 0 thr H). intros v Hv. apply (K b v); [lia|exact Hv]. }
    lra.
Qed.

Lemma void_particle : forall p thr c, (0 < thr)%Q -> (has_particle (void_mesh p thr) (1 # 2) c <-> void p thr c).
Proof.
  intros p thr c H. unfold has_particle, void. cbn [void_mesh active values fst snd].
  pose proof (solid_spec p thr c H) as SS. split.
  - intros (A & v & [<-|[]] & L). split; [exact A|].
    destruct (outside p c); cbn [negb andb] in L; [exfalso; revert L; apply Qle_not_lt; discriminate|].
    split; [reflexivity|]. apply SS. destruct (solid p thr c); [exfalso; revert L; apply Qle_not_lt; discriminate|reflexivity].
  - intros (A & O & V). split; [exact A|]. exists 1%Q. split; [|reflexivity]. left.
    rewrite O, (proj2 SS V). reflexivity.
Qed.

Lemma adjacent_touching : forall p thr c d, (0 < thr)%Q -> (touching (void_mesh p thr) (1 # 2) c d <-> adjacent p thr c d).
Proof.
  intros p thr c d H. unfold touching, adjacent. rewrite !void_particle by exact H. reflexivity.
Qed.

Lemma pore_region : forall p thr c d, (0 < thr)%Q -> (region (void_mesh p thr) (1 # 2) c d <-> same_pore p thr c d).
Proof.
  intros p thr c d H. split; intro R; induction R as [x y R|x|x y z R1 IH1 R2 IH2];
    try apply rt_refl; try (eapply rt_trans; eassumption); apply rt_step, adjacent_touching; assumption.
Qed.

Lemma leaf_void : forall p thr c e, leaf (void_mesh p thr) c e <-> leaf (base p) c e.
Proof.
  intros p thr c e. split; intro L; induction L as [c E|c d e I L IH].
  - apply leaf_self. exact E.
  - eapply leaf_child; [exact I|exact IH].
  - apply leaf_self. exact E.
  - eapply leaf_child; [exact I|exact IH].
Qed.

Lemma void_mesh_ok : forall p thr, mesh_ok (base p) -> mesh_ok (void_mesh p thr).
Proof.
  intros p thr [H1 H2 H3 H4 H5]. constructor.
  - exact H1.
  - intros c n e A B L. apply (H2 c n e A B). apply (leaf_void p thr). exact L.
  - exact H3.
  - intros c n e A B C L. apply leaf_void. apply (H4 c n e A B C L).
  - exact H5.
Qed.

(** ** The flooding of void cells is that of particles on the marked mesh *)
Lemma flood_pore : forall p thr me fuel id c s mx r n,
  flood fuel (void_mesh p thr) me (1 # 2) id c (s, mx) = Some (r, n) ->
  pore_flood fuel p me thr id c s = Some (fst r, n).
Proof.
  intros p thr me. induction fuel as [|fuel IH]; intros id c s mx r n E; [discriminate|].
  assert (LL : forall l s mx r n, flood_list (flood fuel (void_mesh p thr) me (1 # 2) id) l (s, mx) = Some (r, n) ->
    pore_list (pore_flood fuel p me thr id) l s = Some (fst r, n)).
  { induction l as [|x l IHl]; intros s0 mx0 r0 n0 E0; cbn [flood_list pore_list] in *.
    - injection E0 as <- <-. reflexivity.
    - destruct (flood fuel (void_mesh p thr) me (1 # 2) id x (s0, mx0)) as [[[s1 mx1] n1]|] eqn:E1; [|discriminate].
      rewrite (IH _ _ _ _ _ _ E1). cbn [obind fst snd] in *.
      destruct (flood_list _ l (s1, mx1)) as [[t n2]|] eqn:E2; [|discriminate].
      rewrite (IHl _ _ _ _ E2). cbn [obind fst snd] in *. injection E0 as <- <-. reflexivity. }
  cbn [flood pore_flood] in *. change (children (void_mesh p thr) c) with (children (base p) c) in E.
  destruct (children (base p) c) as [|x l] eqn:EC; [|apply LL with (mx := mx); exact E].
  change (rank (void_mesh p thr) c) with (rank (base p) c) in E.
  destruct (rank (base p) c =? me); cbn [negb orb] in *; [|injection E as <- <-; reflexivity].
  cbn [fst snd] in E. unfold cell_max in E. cbn [void_mesh values fst snd fold_left] in E.
  destruct (vget s c) as [[k|]|]; cbn [obind] in E |- *; [| |discriminate].
  - injection E as <- <-. destruct (outside p c); reflexivity.
  - destruct (outside p c); cbn [negb andb] in E; [injection E as <- <-; reflexivity|].
    destruct (solid p thr c); cbn [negb] in E; [injection E as <- <-; reflexivity|].
    change (qltb (1 # 2) 1) with true in E. cbn [negb] in E.
    destruct (vset s c (Some id)) as [s1|]; [|discriminate]. cbn [obind] in *.
    change (neighbors (void_mesh p thr) c) with (neighbors (base p) c) in E.
    destruct (flood_list _ (neighbors (base p) c) (s1, _)) as [[t n2]|] eqn:E2; [|discriminate].
    rewrite (LL _ _ _ _ _ E2). cbn [obind fst snd] in *. injection E as <- <-. reflexivity.
Qed.

Lemma loop_pore : forall p thr me fuel cells s mx counter maxs ids n mm,
  detect_loop fuel (void_mesh p thr) me (1 # 2) cells (s, mx) counter maxs = Some (ids, n, mm) ->
  pore_loop fuel p me thr cells s counter = Some (ids, n).
Proof.
  intros p thr me fuel. induction cells as [|c l IH]; intros s mx counter maxs ids n mm E; cbn [detect_loop pore_loop] in *.
  - injection E as <- <- <-. reflexivity.
  - destruct (flood fuel (void_mesh p thr) me (1 # 2) counter c (s, mx)) as [[[s1 mx1] n1]|] eqn:E1; [|discriminate].
    rewrite (flood_pore _ _ _ _ _ _ _ _ _ _ E1). cbn [obind fst snd] in *.
    destruct (0 <? n1); eapply IH; exact E.
Qed.

Lemma ranks_pore : forall p thr fuel n me res,
  detect_ranks fuel (void_mesh p thr) (1 # 2) me n = Some res -> pore_ranks fuel p thr me n = Some res.
Proof.
  intros p thr fuel. induction n as [|n IH]; intros me res E; cbn [detect_ranks pore_ranks] in *; [exact E|].
  destruct (detect_local fuel (void_mesh p thr) me (1 # 2)) as [[[ids k] mm]|] eqn:E1; [|discriminate].
  unfold detect_local in E1. apply loop_pore in E1. cbn [void_mesh active n_cells] in E1. rewrite E1.
  cbn [obind fst snd] in *.
  destruct (detect_ranks fuel (void_mesh p thr) (1 # 2) (S me) n) as [rest|] eqn:E2; [|discriminate].
  rewrite (IH _ _ E2). cbn [obind] in *. exact E.
Qed.

(** The flooding does not jump to cells of another pore (always so without local
    refinement). *)
Definition no_jump (p : pmesh) (thr : Q) : Prop :=
  forall c d n, void p thr c -> void p thr d -> rank (base p) c = rank (base p) d ->
    In n (neighbors (base p) c) -> leaf (base p) n d -> same_pore p thr c d.

Lemma unrefined_no_jump : forall p thr, unrefined (base p) -> no_jump p thr.
Proof.
  intros p thr U c d n Vc Vd R Hn Hl. apply rt_step. split; [exact Vc|]. split; [exact Vd|].
  pose proof (U c n (proj1 Vc) Hn) as En.
  assert (d = n) by (inversion Hl as [? E|? x ? Hx _]; subst; [reflexivity|rewrite En in Hx; contradiction]). subst n.
  unfold face_cells. apply in_flat_map. exists d. split; [exact Hn|]. rewrite En. left. reflexivity.
Qed.

(** For every mesh, every distribution of its cells and every number of ranks:
    with at least one void cell, exactly the void cells get a pore number, the
    numbers are 0..n-1, and two cells get the same number exactly if a chain of
    void cells, on whatever ranks, connects them through faces. *)
Theorem C72_pores_partial : forall p thr n_ranks components,
  mesh_ok (base p) -> (forall c, In c (active (base p)) -> rank (base p) c < n_ranks) ->
  components_contract components -> (0 < thr)%Q -> no_jump p thr -> (exists c, void p thr c) ->
  exists fuel0, forall fuel, fuel0 <= fuel ->
  exists gid n, detect_pores fuel p n_ranks thr components = Some gid /\
    (forall c, (exists k, gid c = Some k) <-> void p thr c) /\
    (forall c d, void p thr c -> void p thr d -> (gid c = gid d <-> same_pore p thr c d)) /\
    (forall k, (exists c, gid c = Some k) <-> k < n).
Proof.
  intros p thr n_ranks components OK RK CC HT NJ (c0 & V0).
  pose proof (void_mesh_ok p thr OK) as OK'.
  destruct (detect_local_ok (void_mesh p thr) (1 # 2) OK') as [fuel0 HL]. exists fuel0. intros fuel HF.
  destruct (detect_ranks_ok (void_mesh p thr) (1 # 2) fuel0 HL fuel HF n_ranks 0) as (res & E & LR & LAB).
  cbn [Nat.add] in LAB.
  assert (RK' : forall c, In c (active (void_mesh p thr)) -> rank (void_mesh p thr) c < length res)
    by (rewrite LR; exact RK).
  destruct (all_connectivity_ok (void_mesh p thr) (1 # 2) res LAB) as (conn & EC & LC & CONN).
  pose proof (conn_wf (void_mesh p thr) (1 # 2) res OK' LAB conn LC CONN) as WF.
  assert (VIS : forall c d, visits (void_mesh p thr) (1 # 2) c d -> region (void_mesh p thr) (1 # 2) c d).
  { intros c d (Hc & Hd & R & n & Hn & Hl). apply pore_region; [exact HT|].
    apply void_particle in Hc; [|exact HT]. apply void_particle in Hd; [|exact HT].
    apply (NJ c d n Hc Hd R Hn). apply (leaf_void p thr). exact Hl. }
  assert (PID : forall c, void p thr c -> exists q, particle_id (base p) res c = Some q).
  { intros c Hc. apply (void_particle p thr c HT) in Hc. exact (pid_exists (void_mesh p thr) (1 # 2) res RK' LAB c Hc). }
  assert (POS : 0 < length conn).
  { destruct (PID c0 V0) as (q & Hq).
    pose proof (proj2 (pid_owner (void_mesh p thr) (1 # 2) res LAB c0 q Hq)) as B. lia. }
  destruct (C17_algorithms_agree (map snd res) conn (fun _ ms => ms) (S (length conn * length conn)) components WF)
    as (ids & ES & EG); [intros k ms; apply Permutation.Permutation_refl|lia|exact CC|exact POS|].
  destruct (stitch_numbering (map snd res) conn (fun _ ms => ms) (S (length conn * length conn)) WF)
    as (ids' & ES' & LI & FO & CI); [intros k ms; apply Permutation.Permutation_refl|lia|].
  assert (ids' = ids).
  { rewrite ES in ES'. injection ES' as ES'. clear -ES'. revert ids' ES'.
    induction ids as [|a l IH]; intros [|b m] H; cbn in H; try discriminate; [reflexivity|].
    injection H as -> H. f_equal. apply IH. exact H. }
  subst ids'.
  exists (fun c => match particle_id (base p) res c with None => None | Some q => vget ids q end), (number_of_stitched ids).
  split.
  { unfold detect_pores. rewrite (ranks_pore _ _ _ _ _ _ E). cbn [obind].
    assert (EC' : all_connectivity (base p) res res 0 = Some conn).
    { rewrite <- EC. clear. generalize res at 1 3 as l. intro l. generalize 0 as k.
      induction l as [|[a n] l IH]; intro k; [reflexivity|]. cbn [all_connectivity].
      change (local_connectivity (void_mesh p thr) res k n) with (local_connectivity (base p) res k n).
      destruct (local_connectivity (base p) res k n); [|reflexivity]. cbn [obind]. rewrite IH. reflexivity. }
    rewrite EC'. cbn [obind]. rewrite EG. reflexivity. }
  assert (GP : forall c q, particle_id (base p) res c = Some q -> exists k, vget ids q = Some k).
  { intros c q H. apply vget_some. rewrite LI, LC. apply (pid_owner (void_mesh p thr) (1 # 2) res LAB c q H). }
  assert (PV : forall c q, particle_id (base p) res c = Some q -> void p thr c).
  { intros c q H. apply (pid_spec (void_mesh p thr) (1 # 2) res LAB) in H. destruct H as (_ & _ & _ & _ & _ & _ & _ & Hp).
    apply (void_particle p thr c HT). exact Hp. }
  split; [|split].
  - intro c. split.
    + intros [k Hk]. destruct (particle_id (base p) res c) as [q|] eqn:Ep; [|discriminate]. apply (PV c q Ep).
    + intro Hc. destruct (PID c Hc) as [q Hq]. destruct (GP c q Hq) as [k Hk]. exists k. rewrite Hq. exact Hk.
  - intros c d Hc Hd. destruct (PID c Hc) as [q Hq]. destruct (PID d Hd) as [q' Hq'].
    rewrite Hq, Hq'. rewrite <- (pore_region p thr c d HT).
    pose proof (proj2 (pid_owner (void_mesh p thr) (1 # 2) res LAB c q Hq)) as B1.
    pose proof (proj2 (pid_owner (void_mesh p thr) (1 # 2) res LAB d q' Hq')) as B2.
    rewrite (CI q q') by (rewrite LC; assumption). split.
    + intro C. exact (connected_region (void_mesh p thr) (1 # 2) res OK' LAB VIS conn LC CONN q q' C B1 c d Hq Hq').
    + intro R. exact (region_connected (void_mesh p thr) (1 # 2) res OK' RK' LAB conn LC CONN c d R q q' Hq Hq').
  - intro k. rewrite <- (numbers_contiguous ids FO k). split.
    + intros [c Hc]. destruct (particle_id (base p) res c) as [q|] eqn:Ep; [|discriminate].
      eapply nth_error_In. exact Hc.
    + intro Hk. destruct (In_nth_error _ _ Hk) as [q Hq].
      destruct (pid_onto (void_mesh p thr) (1 # 2) res LAB q) as [c Hc].
      { rewrite <- LC, <- LI. eapply vget_lt. exact Hq. }
      exists c. change (particle_id (void_mesh p thr) res c) with (particle_id (base p) res c) in Hc.
      rewrite Hc. exact Hq.
Qed.
Print Assumptions C72_pores_partial.

(** The hypothesis on the flooding holds on every mesh without local refinement. *)
Theorem C72_pores_unrefined : forall p thr n_ranks components,
  mesh_ok (base p) -> (forall c, In c (active (base p)) -> rank (base p) c < n_ranks) ->
  components_contract components -> (0 < thr)%Q -> unrefined (base p) -> (exists c, void p thr c) ->
  exists fuel0, forall fuel, fuel0 <= fuel ->
  exists gid n, detect_pores fuel p n_ranks thr components = Some gid /\
    (forall c, (exists k, gid c = Some k) <-> void p thr c) /\
    (forall c d, void p thr c -> void p thr d -> (gid c = gid d <-> same_pore p thr c d)) /\
    (forall k, (exists c, gid c = Some k) <-> k < n).
Proof. intros p thr n components OK RK CC HT U. apply C72_pores_partial; try assumption. apply unrefined_no_jump. exact U. Qed.
Print Assumptions C72_pores_unrefined.

(** Without a void cell (a dense body filling the box) the graph is empty and the
    code forms a reference to an entry of an empty vector: for every mesh. *)
Theorem C72_dense_refuted : forall p thr n_ranks components,
  mesh_ok (base p) -> (0 < thr)%Q -> (forall c, ~ void p thr c) ->
  (forall c, In c (active (base p)) -> rank (base p) c < n_ranks) ->
  exists fuel0, forall fuel, fuel0 <= fuel ->
    detect_pores fuel p n_ranks thr components = None /\ exists res, pore_ranks fuel p thr 0 n_ranks = Some res /\
      forall r, In r res -> snd r = 0.
Proof.
  intros p thr n_ranks components OK HT NV RK.
  pose proof (void_mesh_ok p thr OK) as OK'.
  destruct (detect_local_ok (void_mesh p thr) (1 # 2) OK') as [fuel0 HL]. exists fuel0. intros fuel HF.
  destruct (detect_ranks_ok (void_mesh p thr) (1 # 2) fuel0 HL fuel HF n_ranks 0) as (res & E & LR & LAB).
  cbn [Nat.add] in LAB.
  assert (Z : forall r, In r res -> snd r = 0).
  { intros [ids n] Hr. destruct (In_nth_error _ _ Hr) as [i Hi]. destruct (LAB i ids n Hi) as [maxs B].
    cbn [snd]. destruct n as [|n]; [reflexivity|]. exfalso.
    destruct (b_seed _ _ _ _ _ _ B 0 ltac:(lia)) as (c & Hc & _). destruct (b_lab _ _ _ _ _ _ B c 0 Hc) as [_ [Pc _]].
    apply (NV c). apply (void_particle p thr c HT). exact Pc. }
  pose proof (ranks_pore _ _ _ _ _ _ E) as EP.
  split; [|exists res; split; [exact EP|exact Z]].
  unfold detect_pores. rewrite EP. cbn [obind].
  assert (A : forall l k, (forall r, In r l -> snd r = 0) -> forall conn, all_connectivity (base p) l res k = Some conn -> conn = []).
  { induction l as [|[ids n] l IH]; intros k Hl conn EC; cbn [all_connectivity] in EC; [injection EC as <-; reflexivity|].
    pose proof (Hl _ (or_introl eq_refl)) as N. cbn [snd] in N. subst n.
    destruct (local_connectivity (base p) res k 0) as [lc|] eqn:EL; [|discriminate]. cbn [obind] in EC.
    destruct (all_connectivity (base p) l res (S k)) as [rest|] eqn:ER; [|discriminate]. cbn [obind] in EC.
    injection EC as <-. rewrite (IH (S k) (fun r Hr => Hl r (or_intror Hr)) _ ER), app_nil_r.
    revert EL. unfold local_connectivity. cbn [repeat].
    assert (N0 : forall g c, particle_id (base p) res g = Some c -> False).
    { intros g c H. apply (pid_spec (void_mesh p thr) (1 # 2) res LAB) in H. destruct H as (_ & _ & _ & _ & _ & _ & _ & Hp).
      apply (NV g). apply (void_particle p thr g HT). exact Hp. }
    assert (F2 : forall fc g, fold_left (add_contact (base p) res k g) fc (Some []) = Some []).
    { induction fc as [|x fc IHf]; intro g; [reflexivity|]. cbn [fold_left]. unfold add_contact at 2. cbn [obind].
      destruct (particle_id (base p) res g) as [q|] eqn:Eq; [destruct (N0 g q Eq)|].
      destruct (negb (rank (base p) x =? k)); apply IHf. }
    generalize (active (base p)). intro al. revert lc.
    induction al as [|x al IHa]; intros lc EL; cbn [fold_left] in EL; [injection EL as <-; reflexivity|].
    destruct (rank (base p) x =? k); [apply IHa; exact EL|]. rewrite F2 in EL. apply IHa. exact EL. }
  destruct (all_connectivity (base p) res res 0) as [conn|] eqn:EC; [|reflexivity].
  rewrite (A res 0 Z conn EC). reflexivity.
Qed.
Print Assumptions C72_dense_refuted.

(** The pores do not depend on the distribution of the cells: for two
    distributions of the same mesh the same cells are void and the same cells are
    in one pore. *)
Definition redistributed (p q : pmesh) : Prop :=
  n_cells (base p) = n_cells (base q) /\ active (base p) = active (base q) /\
  children (base p) = children (base q) /\ neighbors (base p) = neighbors (base q) /\
  subface_children (base p) = subface_children (base q) /\
  n_blocks p = n_blocks q /\ block_values p = block_values q /\ outside p = outside q /\
  at_boundary p = at_boundary q /\ dofs p = dofs q.

Lemma redistributed_void : forall p q thr c, redistributed p q -> (void p thr c <-> void q thr c).
Proof.
  intros p q thr c (_ & A & _ & _ & _ & N & B & O & _). unfold void. rewrite A, N, B, O. reflexivity.
Qed.

Lemma redistributed_faces : forall p q c, redistributed p q -> face_cells (base p) c = face_cells (base q) c.
Proof. intros p q c (_ & _ & C & N & SF & _). unfold face_cells. rewrite C, N, SF. reflexivity. Qed.

Lemma redistributed_sym : forall p q, redistributed p q -> redistributed q p.
Proof. unfold redistributed. intros p q H. decompose [and] H. repeat split; congruence. Qed.

Lemma redistributed_pore1 : forall p q thr c d, redistributed p q -> same_pore p thr c d -> same_pore q thr c d.
Proof.
  intros p q thr c d R K. induction K as [x y (K1 & K2 & K3)|x|x y z K1 IH1 K2 IH2]; [|apply rt_refl|eapply rt_trans; eassumption].
  apply rt_step. split; [apply (redistributed_void p q thr x R); exact K1|].
  split; [apply (redistributed_void p q thr y R); exact K2|]. rewrite <- (redistributed_faces p q x R). exact K3.
Qed.

Theorem C72_partition : forall p q thr n n' components components',
  redistributed p q -> mesh_ok (base p) -> mesh_ok (base q) -> unrefined (base p) ->
  (forall c, In c (active (base p)) -> rank (base p) c < n) ->
  (forall c, In c (active (base q)) -> rank (base q) c < n') ->
  components_contract components -> components_contract components' -> (0 < thr)%Q -> (exists c, void p thr c) ->
  exists fuel0, forall fuel, fuel0 <= fuel ->
  exists gid gid', detect_pores fuel p n thr components = Some gid /\ detect_pores fuel q n' thr components' = Some gid' /\
    forall c d, (gid c = None <-> gid' c = None) /\ (gid c = gid d <-> gid' c = gid' d).
Proof.
  intros p q thr n n' comp comp' RD OKp OKq U Rp Rq Cp Cq HT (c0 & V0).
  assert (Uq : unrefined (base q)).
  { intros c m Hc Hm. destruct RD as (_ & A & C & N & _). rewrite <- C. apply (U c m); [rewrite A; exact Hc|rewrite N; exact Hm]. }
  destruct (C72_pores_unrefined p thr n comp OKp Rp Cp HT U (ex_intro _ c0 V0)) as (f1 & H1).
  destruct (C72_pores_unrefined q thr n' comp' OKq Rq Cq HT Uq) as (f2 & H2).
  { exists c0. apply (redistributed_void p q thr c0 RD). exact V0. }
  exists (f1 + f2). intros fuel HF.
  destruct (H1 fuel ltac:(lia)) as (gid & k1 & E1 & A1 & B1 & _).
  destruct (H2 fuel ltac:(lia)) as (gid' & k2 & E2 & A2 & B2 & _).
  exists gid, gid'. split; [exact E1|]. split; [exact E2|].
  assert (NN : forall c, gid c = None <-> gid' c = None).
  { intro c. pose proof (A1 c) as X. pose proof (A2 c) as Y. rewrite (redistributed_void p q thr c RD) in X.
    destruct (gid c) as [k|]; destruct (gid' c) as [k'|]; split; intro H; try discriminate; try reflexivity; exfalso.
    - destruct (proj2 Y (proj1 X (ex_intro _ k eq_refl))) as [? ?]. discriminate.
    - destruct (proj2 X (proj1 Y (ex_intro _ k' eq_refl))) as [? ?]. discriminate. }
  intros c d. split; [apply NN|].
  destruct (gid c) as [k|] eqn:Ec; destruct (gid d) as [l|] eqn:Ed.
  - assert (Vc : void p thr c) by (apply A1; eauto). assert (Vd : void p thr d) by (apply A1; eauto).
    rewrite <- Ec, <- Ed, (B1 c d Vc Vd).
    rewrite (B2 c d (proj1 (redistributed_void p q thr c RD) Vc) (proj1 (redistributed_void p q thr d RD) Vd)).
    split; intro H; [apply (redistributed_pore1 p q)|apply (redistributed_pore1 q p), H]; try assumption.
    apply redistributed_sym. exact RD.
  - apply NN in Ed. split; intro H; [discriminate|]. rewrite Ed in H. apply NN in H. congruence.
  - apply NN in Ec. split; intro H; [discriminate|]. rewrite Ec in H. symmetry in H. apply NN in H. congruence.
  - apply NN in Ec. apply NN in Ed. split; [intros _; congruence|reflexivity].
Qed.
Print Assumptions C72_partition.

(** ** Boundary pores *)
Definition numbered (p : pmesh) (thr : Q) (gid : nat -> option nat) : Prop :=
  (forall c, (exists k, gid c = Some k) <-> void p thr c) /\
  (forall c d, void p thr c -> void p thr d -> (gid c = gid d <-> same_pore p thr c d)).

(** The pore of the cell reaches the boundary of the domain. *)
Definition open_pore (p : pmesh) (thr : Q) (c : nat) : Prop :=
  exists d, void p thr d /\ same_pore p thr c d /\ at_boundary p d = true.

Lemma mem_true : forall k l, mem k l = true <-> In k l.
Proof.
  intros k l. unfold mem. rewrite existsb_exists. split.
  - intros (x & Hx & E). apply Nat.eqb_eq in E. subst. exact Hx.
  - intro H. exists k. split; [exact H|apply Nat.eqb_refl].
Qed.

(** After the exchange, the pores taken as boundary pores are exactly those with a
    cell, on any rank, at the boundary. *)
Theorem C72_boundary : forall p thr n_ranks gid, numbered p thr gid ->
  (forall c, In c (active (base p)) -> rank (base p) c < n_ranks) ->
  forall c k, gid c = Some k -> (In k (boundary_pores p gid n_ranks) <-> open_pore p thr c).
Proof.
  intros p thr n_ranks gid (A & B) RK c k Ek. unfold boundary_pores, rank_boundary_pores.
  assert (Vc : void p thr c) by (apply A; eauto).
  rewrite in_flat_map. split.
  - intros (r & Hr & H). apply in_flat_map in H. destruct H as (d & Hd & H).
    destruct (Nat.eqb_spec (rank (base p) d) r); [|contradiction].
    destruct (gid d) as [l|] eqn:El; [|contradiction]. destruct (at_boundary p d) eqn:Eb; [|contradiction].
    destruct H as [->|[]]. assert (Vd : void p thr d) by (apply A; eauto).
    exists d. split; [exact Vd|]. split; [|exact Eb]. apply (B c d Vc Vd). congruence.
  - intros (d & Vd & S & Eb). exists (rank (base p) d). split; [apply in_seq; split; [lia|apply RK, Vd]|].
    apply in_flat_map. exists d. split; [apply Vd|]. rewrite Nat.eqb_refl.
    apply (B c d Vc Vd) in S. rewrite <- S, Ek, Eb. left. reflexivity.
Qed.
Print Assumptions C72_boundary.

Lemma writes_spec : forall p thr n_ranks gid smooth r d, numbered p thr gid ->
  (forall c, In c (active (base p)) -> rank (base p) c < n_ranks) ->
  (writes p gid (boundary_pores p gid n_ranks) smooth r d = true <->
   exists c, void p thr c /\ rank (base p) c = r /\ In d (dofs p c) /\
     if smooth then open_pore p thr c else ~ open_pore p thr c).
Proof.
  intros p thr n_ranks gid smooth r d NB RK. unfold writes. rewrite existsb_exists. split.
  - intros (c & Hc & H). apply andb_true_iff in H. destruct H as [H H3]. apply andb_true_iff in H. destruct H as [H1 H2].
    apply Nat.eqb_eq in H1. apply mem_true in H3. destruct (gid c) as [k|] eqn:Ek; [|discriminate].
    exists c. split; [apply NB; eauto|]. split; [exact H1|]. split; [exact H3|].
    pose proof (C72_boundary p thr n_ranks gid NB RK c k Ek) as O. rewrite <- mem_true in O.
    destruct (mem k (boundary_pores p gid n_ranks)); destruct smooth; cbn in H2; try discriminate.
    + apply O. reflexivity.
    + intro K. apply O in K. discriminate.
  - intros (c & Vc & R & D & S). exists c. split; [apply Vc|].
    destruct (proj2 (proj1 NB c) Vc) as [k Ek]. rewrite Ek, R, Nat.eqb_refl, (proj2 (mem_true d _) D).
    pose proof (C72_boundary p thr n_ranks gid NB RK c k Ek) as O. rewrite <- mem_true in O.
    destruct (mem k (boundary_pores p gid n_ranks)); destruct smooth; cbn; try reflexivity; exfalso.
    + apply S, O. reflexivity.
    + apply O in S. discriminate.
Qed.

Lemma count_sum_zero : forall l, list_sum l = 0 <-> forall x, In x l -> x = 0.
Proof.
  induction l as [|y l IH]; [split; [intros _ x []|reflexivity]|]. change (list_sum (y :: l)) with (y + list_sum l).
  split.
  - intros H x [<-|Hx]; [lia|]. apply IH; [lia|exact Hx].
  - intro H. rewrite (H y (or_introl eq_refl)). apply IH. intros x Hx. apply H. right. exact Hx.
Qed.

(** Without smoothing the data are one at the DoFs of the closed pores and zero
    elsewhere, for every distribution of cells and DoFs. *)
Theorem C72_sharp : forall p thr n_ranks gid, numbered p thr gid ->
  (forall c, In c (active (base p)) -> rank (base p) c < n_ranks) ->
  forall d, let value := sharp_data p gid (boundary_pores p gid n_ranks) n_ranks d in
  ((exists c, void p thr c /\ ~ open_pore p thr c /\ In d (dofs p c)) -> (value == 1)%Q) /\
  ((forall c, void p thr c -> In d (dofs p c) -> open_pore p thr c) -> (value == 0)%Q).
Proof.
  intros p thr n_ranks gid NB RK d value. unfold value, sharp_data.
  set (bp := boundary_pores p gid n_ranks).
  set (total := count (writes p gid bp false (dof_owner p d) d) + _). split.
  - intros (c & Vc & O & D).
    assert (W : writes p gid bp false (rank (base p) c) d = true)
      by (apply (writes_spec p thr n_ranks gid false _ d NB RK); exists c; auto).
    assert (T : 1 <= total).
    { destruct total as [|t] eqn:ET; [|lia]. exfalso. unfold total in ET. apply Nat.eq_add_0 in ET. destruct ET as [T1 T2].
      destruct (Nat.eq_dec (rank (base p) c) (dof_owner p d)) as [Er|Er].
      - rewrite <- Er, W in T1. discriminate.
      - rewrite count_sum_zero in T2.
        assert (K : count (writes p gid bp false (rank (base p) c) d) = 0).
        { apply T2. apply (in_map (fun r => count (writes p gid bp false r d))). apply filter_In.
          split; [apply in_seq; split; [lia|apply RK, Vc]|]. apply negb_true_iff, Nat.eqb_neq. exact Er. }
        rewrite W in K. discriminate. }
    rewrite Q.min_r; [reflexivity|]. unfold Qle. cbn. lia.
  - intro N.
    assert (W : forall r, writes p gid bp false r d = false).
    { intro r. destruct (writes p gid bp false r d) eqn:E; [|reflexivity]. exfalso.
      apply (writes_spec p thr n_ranks gid false _ d NB RK) in E. destruct E as (c & Vc & _ & D & O).
      apply O, (N c Vc D). }
    assert (T : total = 0).
    { unfold total. rewrite W. cbn [count Nat.add]. apply count_sum_zero. intros x Hx. apply in_map_iff in Hx.
      destruct Hx as (r & <- & _). rewrite W. reflexivity. }
    rewrite T. rewrite Q.min_l; [reflexivity|discriminate].
Qed.
Print Assumptions C72_sharp.

(** With smoothing each rank sees zeros in its own cells of open pores; in serial
    these are all. *)
Theorem C72_smooth_partial : forall p thr n_ranks sol gid, numbered p thr gid ->
  (forall c, In c (active (base p)) -> rank (base p) c < n_ranks) ->
  (forall c d, void p thr c -> open_pore p thr c -> In d (dofs p c) ->
     smooth_data p sol gid (boundary_pores p gid n_ranks) (rank (base p) c) d = 0%Q) /\
  (n_ranks = 1 -> forall d, (forall c, void p thr c -> open_pore p thr c -> ~ In d (dofs p c)) ->
     smooth_data p sol gid (boundary_pores p gid n_ranks) 0 d =
       (1 - fold_right Qplus 0 (map (fun b => sol b d) (seq 0 (n_blocks p))))%Q).
Proof.
  intros p thr n_ranks sol gid NB RK. split.
  - intros c d Vc O D. unfold smooth_data.
    rewrite (proj2 (writes_spec p thr n_ranks gid true (rank (base p) c) d NB RK)); [reflexivity|].
    exists c. auto.
  - intros N1 d N. unfold smooth_data. destruct (writes _ _ _ _ _ _) eqn:E; [|reflexivity]. exfalso.
    apply (writes_spec p thr n_ranks gid true 0 d NB RK) in E. destruct E as (c & Vc & _ & D & O).
    apply (N c Vc O D).
Qed.
Print Assumptions C72_smooth_partial.

(** ** The threshold of the contours *)
(** For an iso level up to 0.99, cells below the iso level are void. *)
Theorem C72_threshold : forall p iso c, (0 < iso)%Q -> (iso <= 99 # 100)%Q ->
  In c (active (base p)) -> outside p c = false ->
  (forall b v, b < n_blocks p -> In v (block_values p b c) -> (- iso < v /\ v < iso)%Q) ->
  void p (contour_threshold iso) c.
Proof.
  intros p iso c P L A O V. split; [exact A|]. split; [exact O|]. intros b v Hb Hv. destruct (V b v Hb Hv) as [V1 V2].
  assert (T : (iso <= contour_threshold iso)%Q) by (unfold contour_threshold; apply Q.min_glb; lra).
  split; lra.
Qed.
Print Assumptions C72_threshold.

(** ** Cases *)
(** Cells 0 - 1 - .. - n-1 in a row with the DoFs c and c+1; the ends are at the
    boundary; one block. *)
Definition row_neighbors (n c : nat) : list nat :=
  (if 0 <? c then [c - 1] else []) ++ (if S c <? n then [S c] else []).
Definition row (n : nat) (rk own : nat -> nat) (u : nat -> Q) : pmesh :=
  mkP (mkMesh n (seq 0 n) (fun _ => []) (row_neighbors n) (fun _ _ => []) rk (fun _ => (0%Q, [])))
    1 (fun _ c => [u c; u (S c)]) (fun _ => false) (fun c => (c =? 0) || (S c =? n)) (fun c => [c; S c]) own.

Lemma row_ok : forall n rk own u, mesh_ok (base (row n rk own u)) /\ unrefined (base (row n rk own u)).
Proof.
  intros n rk own u. split; [|intros c m _ _; reflexivity]. constructor.
  - intros c H. apply in_seq in H. split; [cbn; lia|reflexivity].
  - intros c m e H Hm Hl. assert (e = m) by (inversion Hl as [? ?|? x ? Hx _]; subst; [reflexivity|contradiction]). subst e.
    apply in_seq in H. apply in_seq. change (In m (row_neighbors n c)) in Hm. unfold row_neighbors in Hm.
    apply in_app_iff in Hm. destruct (Nat.ltb_spec 0 c), (Nat.ltb_spec (S c) n); cbn [In] in Hm; lia.
  - exists 0, (fun _ => 0). split; [lia|]. intros c d [].
  - intros c m e _ _ H. contradiction H. reflexivity.
  - intros c d H Hd. apply in_seq in H.
    assert (F : forall x, face_cells (base (row n rk own u)) x = row_neighbors n x).
    { intro x. unfold face_cells.
      change (flat_map (fun y => [y]) (row_neighbors n x) = row_neighbors n x). induction (row_neighbors n x) as [|y l IH]; [reflexivity|]. cbn. rewrite IH. reflexivity. }
    rewrite F in *. unfold row_neighbors in *. apply in_app_iff in Hd. apply in_app_iff.
    destruct (Nat.ltb_spec 0 c), (Nat.ltb_spec (S c) n), (Nat.ltb_spec 0 d), (Nat.ltb_spec (S d) n);
      cbn [In] in *; lia.
Qed.

(** Cells 0 and 1 form an open pore over two ranks, cell 4 a closed one. *)
Definition case_mesh : pmesh := row 7 (fun c => Nat.modulo c 2) (fun d => Nat.modulo d 2)
  (fun d => match d with 0 | 1 | 2 => 0%Q | 4 | 5 => (1 # 2)%Q | _ => 1%Q end).

Example C72_case : match detect_pores 30 case_mesh 2 (8 # 10) some_components with
  | Some gid => (map gid [0; 1; 2; 3; 4; 5; 6], boundary_pores case_mesh gid 2,
      map (sharp_data case_mesh gid (boundary_pores case_mesh gid 2) 2) [0; 1; 2; 3; 4; 5; 6])
  | None => ([], [], [])
  end = ([Some 0; Some 0; None; None; Some 1; None; None], [0], [0; 0; 0; 0; 1; 1; 0]%Q).
Proof. vm_compute. reflexivity. Qed.

Example C72_applies : mesh_ok (base case_mesh) /\ unrefined (base case_mesh) /\
  components_contract some_components /\ void case_mesh (8 # 10) 4.
Proof.
  split; [apply row_ok|]. split; [apply row_ok|]. split; [exact C17_contract_satisfiable|].
  split; [cbn; tauto|]. split; [reflexivity|]. intros b v _ [<-|[<-|[]]]; cbn; split; reflexivity.
Qed.

(** With smoothing the data depend on the distribution of the cells.  Cell 0 is an
    open pore, cell 1 is not void.  If cell 1 belongs to another rank, that rank
    sees 1-c at the DoF they share, while the rank of cell 0 sees zero; in serial
    cell 1 sees zero. *)
Definition edge_u (d : nat) : Q := match d with 0 => 0%Q | 1 => (1 # 2)%Q | _ => 1%Q end.
Definition edge (rk : nat -> nat) : pmesh := row 3 rk (fun _ => 0) edge_u.

Theorem C72_smooth_refuted : exists p q n thr sol gid gid',
  redistributed p q /\ mesh_ok (base p) /\ mesh_ok (base q) /\ unrefined (base p) /\
  detect_pores 20 p n thr some_components = Some gid /\ detect_pores 20 q 1 thr some_components = Some gid' /\
  In 1 (dofs p 0) /\ In 1 (dofs p 1) /\ rank (base p) 0 = 0 /\ rank (base p) 1 = 1 /\
  smooth_data p sol gid (boundary_pores p gid n) 0 1 = 0%Q /\
  (smooth_data p sol gid (boundary_pores p gid n) 1 1 == 1 # 2)%Q /\
  smooth_data q sol gid' (boundary_pores q gid' 1) 0 1 = 0%Q.
Proof.
  set (p := edge (fun c => if c =? 0 then 0 else 1)). set (q := edge (fun _ => 0)).
  assert (X : match detect_pores 20 p 2 (8 # 10) some_components with
    | Some gid => Qeq_bool (smooth_data p (fun _ => edge_u) gid (boundary_pores p gid 2) 1 1) (1 # 2) = true /\
        smooth_data p (fun _ => edge_u) gid (boundary_pores p gid 2) 0 1 = 0%Q
    | None => False end) by (vm_compute; split; reflexivity).
  assert (Y : match detect_pores 20 q 1 (8 # 10) some_components with
    | Some gid => smooth_data q (fun _ => edge_u) gid (boundary_pores q gid 1) 0 1 = 0%Q
    | None => False end) by (vm_compute; reflexivity).
  destruct (detect_pores 20 p 2 (8 # 10) some_components) as [gid|] eqn:E; [|contradiction].
  destruct (detect_pores 20 q 1 (8 # 10) some_components) as [gid'|] eqn:E'; [|contradiction].
  exists p, q, 2, (8 # 10)%Q, (fun _ => edge_u), gid, gid'.
  split; [repeat split|]. split; [apply row_ok|]. split; [apply row_ok|]. split; [apply row_ok|].
  split; [exact E|]. split; [exact E'|].
  split; [cbn; tauto|]. split; [cbn; tauto|]. split; [reflexivity|]. split; [reflexivity|].
  split; [apply X|]. split; [apply Qeq_bool_iff, X|exact Y].
Qed.
Print Assumptions C72_smooth_refuted.

(** A cell crossed by the iso level need not be captured as void, against the
    comment in the code; nor is a cell with a large negative value. *)
Theorem C72_threshold_refuted : exists p iso,
  (0 < iso /\ iso < 1)%Q /\ In 1 (active (base p)) /\ (exists v w, In v (block_values p 0 1) /\ In w (block_values p 0 1) /\
    (v < iso /\ iso < w)%Q) /\ ~ void p (contour_threshold iso) 1 /\
  (exists q thr, (0 < thr)%Q /\ In 0 (active (base q)) /\ outside q 0 = false /\
     (forall b v, b < n_blocks q -> In v (block_values q b 0) -> (v < thr)%Q) /\ ~ void q thr 0).
Proof.
  exists (row 3 (fun _ => 0) (fun _ => 0) (fun d => if d <? 2 then 0%Q else 1%Q)), (1 # 2)%Q.
  split; [split; reflexivity|]. split; [cbn; tauto|]. split.
  - exists 0%Q, 1%Q. split; [cbn; tauto|]. split; [cbn; tauto|]. split; reflexivity.
  - split.
    + intros (_ & _ & V). destruct (V 0 1%Q) as [_ V2]; [cbn; lia|cbn; tauto|]. discriminate V2.
    + exists (row 1 (fun _ => 0) (fun _ => 0) (fun _ => - (1))%Q), (8 # 10)%Q.
      split; [reflexivity|]. split; [cbn; tauto|]. split; [reflexivity|]. split.
      * intros b v _ [<-|[<-|[]]]; reflexivity.
      * intros (_ & _ & V). destruct (V 0 (-(1))%Q) as [V1 _]; [cbn; lia|cbn; tauto|]. discriminate V1.
Qed.
Print Assumptions C72_threshold_refuted.

(** On locally refined meshes two pores can be taken as one, depending on the order
    of the cells: the cells 0 and 2 of the refined mesh of C18. *)
Definition refined_pores (order : list nat) : pmesh :=
  mkP (refined_mesh order) 1 (fun _ c => match c with 0 | 2 => [0%Q] | _ => [1%Q] end) (fun _ => false) (fun _ => false)
    (fun _ => []) (fun _ => 0).

Theorem C72_refined_refuted : exists p q thr gid gid',
  mesh_ok (base p) /\ mesh_ok (base q) /\ void p thr 0 /\ void p thr 2 /\ ~ same_pore p thr 0 2 /\
  (forall x, block_values p 0 x = block_values q 0 x /\ neighbors (base p) x = neighbors (base q) x /\
     children (base p) x = children (base q) x) /\
  detect_pores 20 p 1 thr some_components = Some gid /\ gid 0 = gid 2 /\
  detect_pores 20 q 1 thr some_components = Some gid' /\ gid' 0 <> gid' 2.
Proof.
  set (p := refined_pores [0; 1; 2; 3; 4]). set (q := refined_pores [1; 2; 3; 4; 0]).
  assert (X : match detect_pores 20 p 1 (8 # 10) some_components with
    | Some gid => gid 0 = gid 2 | None => False end) by (vm_compute; reflexivity).
  assert (Y : match detect_pores 20 q 1 (8 # 10) some_components with
    | Some gid => gid 0 <> gid 2 | None => False end) by (vm_compute; discriminate).
  destruct (detect_pores 20 p 1 (8 # 10) some_components) as [gid|] eqn:E; [|contradiction].
  destruct (detect_pores 20 q 1 (8 # 10) some_components) as [gid'|] eqn:E'; [|contradiction].
  exists p, q, (8 # 10)%Q, gid, gid'.
  split; [apply refined_ok; intro c; simpl; lia|]. split; [apply refined_ok; intro c; simpl; lia|].
  assert (V0 : void p (8 # 10) 0).
  { split; [cbn; tauto|]. split; [reflexivity|]. intros b v _ [<-|[]]. split; reflexivity. }
  split; [exact V0|].
  split; [split; [cbn; tauto|]; split; [reflexivity|]; intros b v _ [<-|[]]; split; reflexivity|].
  split; [|split; [auto|split; [exact E|split; [exact X|split; [exact E'|exact Y]]]]].
  intro H. apply clos_rt_rt1n in H.
  inversion H as [|y ? (_ & (_ & _ & Hy) & Hf) _]; subst. simpl in Hf.
  destruct Hf as [<-|[<-|[]]]; (destruct (Hy 0 1%Q) as [_ L]; [cbn; lia|cbn; tauto|discriminate L]).
Qed.
Print Assumptions C72_refined_refuted.

(** A dense body. *)
Example C72_dense_applies : forall c, ~ void (row 3 (fun _ => 0) (fun _ => 0) (fun _ => 1%Q)) (8 # 10) c.
Proof.
  intros c (_ & _ & V). destruct (V 0 1%Q) as [_ L]; [cbn; lia|cbn; tauto|discriminate L].
Qed.
