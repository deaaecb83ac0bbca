(** Lemmas for C104: ordering the moves when only some pairs of moves are taken
    as dependent (cf. RemapProofs, where all are), and what the transfer does at
    one degree of freedom. *)
From Coq Require Import List QArith Arith Bool Lia Permutation.
From Verif Require Import Util MapModel RemapModel RemapProofs RemapOldModel.
Import ListNotations.
Local Open Scope nat_scope.

(** A move whose target is the source of a dependent move comes after it. *)
Definition ordered_by (dep : remapping -> remapping -> bool) (l : list remapping) : Prop :=
  forall a r1 b r2 c, l = a ++ r1 :: b ++ r2 :: c -> dep r1 r2 = true -> m_to r1 <> m_from r2.

Section Rearrange.
Variables (out_order in_order : nat -> list remapping -> list remapping).
Hypothesis OO : forall v l, Permutation (out_order v l) l.
Hypothesis IO : forall v l, Permutation (in_order v l) l.

Section Loop.
Variables (rk : nat -> nat) (l0 es0 : list remapping) (dep : remapping -> remapping -> bool).
Hypothesis DEP : forall a b, In a l0 -> In b l0 -> a <> b -> dep a b = true -> m_to a = m_from b -> In a es0 /\ In b es0.
Hypothesis NL : forall r, In r l0 -> m_from r <> m_to r.

Record loop_ok (g : rgraph) (old new : list remapping) : Prop := {
  lo_perm : Permutation l0 (new ++ old);
  lo_nodup : NoDup (new ++ old);
  lo_edges : incl (ge g) old;
  lo_done : forall e, In e es0 -> In e (ge g) \/ In e new;
  lo_once : NoDup (ge g);
  lo_ends : forall e, In e (ge g) -> In (m_from e) (gv g) /\ In (m_to e) (gv g);
  lo_rank : forall e, In e (ge g) -> rk (m_to e) < rk (m_from e);
  lo_new : ordered_by dep new;
  lo_cross : forall a b, In a new -> In b old -> dep a b = true -> m_to a <> m_from b }.

Lemma loop_end : forall g old new, loop_ok g old new -> ge g = [] -> ordered_by dep (new ++ old).
Proof.
  intros g old new [L1 L2 L3 L4 L5 L6 L7 L8 L9] Z.
  assert (OLD : forall a b, In a old -> In b old -> dep a b = true -> m_to a <> m_from b).
  { intros a b Ha Hb DD C. assert (INL : forall x, In x old -> In x l0) by (intros x Hx; apply (Permutation_in _ (Permutation_sym L1)), in_or_app; auto).
    destruct (req a b) eqn:R; [apply req_true in R; subst b; apply (NL a (INL a Ha)); congruence|].
    destruct (DEP a b (INL a Ha) (INL b Hb)) as [D _]; [intros ->; assert (req b b = true) by (apply req_true; reflexivity); congruence|exact DD|exact C|].
    destruct (L4 a D) as [X|X]; [rewrite Z in X; destruct X|]. clear - L2 X Ha. induction new as [|y new IH]; [destruct X|].
    cbn [app] in L2. inversion L2 as [|? ? N1 N2]; subst. destruct X as [->|X]; [apply N1, in_or_app; right; exact Ha|exact (IH N2 X)]. }
  intros a r1 b r2 c E DD. assert (S : (exists b', new = a ++ r1 :: b' ) \/ In r1 old).
  { revert a E. clear. induction new as [|y new IH]; intros a E; cbn [app] in E.
    - right. rewrite E. apply in_or_app. right. left. reflexivity.
    - destruct a as [|z a]; cbn [app] in E; injection E as -> E.
      + left. exists new. reflexivity.
      + destruct (IH a E) as [(b' & ->)|H]; [left; exists b'; reflexivity|right; exact H]. }
  destruct S as [(b' & EN)|HO].
  - rewrite EN in E. rewrite <- app_assoc in E. cbn [app] in E. apply app_inv_head in E. injection E as E.
    assert (S2 : (exists c', b' = b ++ r2 :: c') \/ In r2 old).
    { revert b E. clear. induction b' as [|y b' IH]; intros b E; cbn [app] in E.
      - right. rewrite E. apply in_or_app. right. left. reflexivity.
      - destruct b as [|z b]; cbn [app] in E; injection E as -> E.
        + left. exists b'. reflexivity.
        + destruct (IH b E) as [(c' & ->)|H]; [left; exists c'; reflexivity|right; exact H]. }
    destruct S2 as [(c' & ->)|H2]; [apply (L8 a r1 b r2 c'); [exact EN|exact DD]|]. apply L9; [|exact H2|exact DD]. rewrite EN. apply in_or_app. right. left. reflexivity.
  - assert (H2 : In r2 old).
    { assert (IR : In r2 (new ++ old)) by (rewrite E; apply in_or_app; right; right; apply in_or_app; right; left; reflexivity).
      apply in_app_or in IR. destruct IR as [IR|IR]; [exfalso|exact IR].
      (* r2 in new but r1, before it, in old *)
      clear - E HO IR L2. revert a E L2 IR. induction new as [|y new IH]; intros a E L2 IR; [destruct IR|]. cbn [app] in *. inversion L2 as [|? ? N1 N2]; subst.
      destruct a as [|z a]; cbn [app] in E; injection E as -> E.
      - apply N1. apply in_or_app. right. exact HO.
      - destruct IR as [->|IR]; [|exact (IH a E N2 IR)]. apply N1. rewrite E. apply in_or_app. right. right. apply in_or_app. right. left. reflexivity. }
    apply OLD; assumption.
Qed.

Lemma ordered_by_app : forall a b, ordered_by dep a -> ordered_by dep b -> (forall x y, In x a -> In y b -> dep x y = true -> m_to x <> m_from y) -> ordered_by dep (a ++ b).
Proof.
  intros a b OA OB X p r1 q r2 s E DD. revert p E. induction a as [|y a IH]; intros p E; cbn [app] in E; [apply (OB p r1 q r2 s E DD)|].
  destruct p as [|z p]; cbn [app] in E; injection E as -> E.
  - assert (IR : In r2 (a ++ b)) by (rewrite E; apply in_or_app; right; left; reflexivity). apply in_app_or in IR. destruct IR as [IR|IR].
    + apply in_split in IR. destruct IR as (s1 & s2 & EA). apply (OA [] r1 s1 r2 s2); [cbn [app]; rewrite EA; reflexivity|exact DD].
    + apply X; [left; reflexivity|exact IR|exact DD].
  - apply (IH) with (p := p); [| |exact E].
    + intros p' x q' x' s' E' DX. apply (OA (z :: p') x q' x' s'); [cbn [app]; rewrite E'; reflexivity|exact DX].
    + intros x x' Hx. apply X. right. exact Hx.
Qed.

Lemma rearrange_loop_spec : forall fuel g old new, loop_ok g old new -> length (gv g) < fuel ->
  exists old' new', rearrange_loop out_order in_order fuel g old new = Some (old', new') /\ Permutation l0 (new' ++ old') /\ ordered_by dep (new' ++ old').
Proof.
  induction fuel as [|fuel IH]; intros g old new OK HF; [lia|]. cbn [rearrange_loop].
  destruct (find (ready out_order in_order (ge g)) (gv g)) as [v|] eqn:F.
  - apply find_some in F. destruct F as [Fv Fr]. apply (ready_spec out_order in_order OO IO) in Fr. destruct Fr as [R1 R2]. pose proof OK as [L1 L2 L3 L4 L5 L6 L7 L8 L9].
    set (ins := in_edges in_order (ge g) v). assert (MI : forall e, In e ins <-> In e (ge g) /\ m_to e = v) by (intro e; apply (in_edges_in in_order IO)).
    destruct (move_over_spec ins old new) as (old' & E & P).
    { unfold ins, in_edges. eapply Permutation_NoDup; [apply Permutation_sym, IO|]. apply NoDup_filter, L5. }
    { intros e He. apply L3. apply MI in He. apply He. }
    { clear - L2. induction new; [exact L2|]. cbn [app] in L2. inversion L2; auto. }
    rewrite E. cbn [obind fst snd].
    assert (P2 : Permutation (new ++ old) ((new ++ ins) ++ old')) by (rewrite <- app_assoc; apply Permutation_app_head, P).
    apply IH.
    + constructor; cbn [ge gv].
      * eapply Permutation_trans; eassumption.
      * eapply Permutation_NoDup; eassumption.
      * intros e He. apply filter_In in He. destruct He as [H1 H2]. apply andb_true_iff in H2. destruct H2 as [_ H2]. apply negb_true_iff, Nat.eqb_neq in H2.
        assert (X : In e (ins ++ old')) by (apply (Permutation_in _ P), L3, H1). apply in_app_or in X. destruct X as [X|X]; [apply MI in X; destruct X; contradiction|exact X].
      * intros e He. destruct (L4 e He) as [X|X]; [|right; apply in_or_app; auto]. destruct (Nat.eq_dec (m_to e) v) as [T|T].
        -- right. apply in_or_app. right. apply MI. auto.
        -- left. apply filter_In. split; [exact X|]. apply andb_true_iff. split; apply negb_true_iff, Nat.eqb_neq; [apply R1, X|exact T].
      * apply NoDup_filter, L5.
      * intros e He. apply filter_In in He. destruct He as [H1 H2]. apply andb_true_iff in H2. destruct (L6 e H1) as [X1 X2]. split; apply filter_In; tauto.
      * intros e He. apply filter_In in He. apply L7, He.
      * apply ordered_by_app; [exact L8| |].
        -- intros a r1 b r2 c EQ DD C. assert (H1 : In r1 ins) by (rewrite EQ; apply in_or_app; right; left; reflexivity).
           assert (H2 : In r2 ins) by (rewrite EQ; apply in_or_app; right; right; apply in_or_app; right; left; reflexivity).
           apply MI in H1. apply MI in H2. apply (R1 r2 (proj1 H2)). rewrite <- C. apply H1.
        -- intros x y Hx Hy DD. apply L9; [exact Hx| |exact DD]. apply L3. apply MI in Hy. apply Hy.
      * intros a b Ha Hb DD C. assert (Hb' : In b old) by (apply (Permutation_in _ (Permutation_sym P)), in_or_app; right; exact Hb).
        apply in_app_or in Ha. destruct Ha as [Ha|Ha]; [exact (L9 a b Ha Hb' DD C)|]. apply MI in Ha. destruct Ha as [Ha T].
        assert (INL : forall x, In x old -> In x l0) by (intros x Hx; apply (Permutation_in _ (Permutation_sym L1)), in_or_app; auto).
        destruct (DEP a b) as [_ D]; [apply INL, L3, Ha|apply INL, Hb'| |exact DD|exact C|].
        { intros ->. apply (NL b (INL b Hb')). congruence. }
        destruct (L4 b D) as [X|X]; [apply (R1 b X); congruence|].
        clear - L2 X Hb'. induction new as [|y new IHn]; [destruct X|]. cbn [app] in L2. inversion L2 as [|? ? N1 N2]; subst.
        destruct X as [->|X]; [apply N1, in_or_app; right; exact Hb'|exact (IHn N2 X)].
    + cbn [gv]. assert (LT : length (filter (fun w => negb (w =? v)) (gv g)) < length (gv g)).
      { clear - Fv. induction (gv g) as [|w vs IHv]; [destruct Fv|]. cbn [filter length]. destruct (Nat.eqb_spec w v) as [->|NE]; cbn [negb].
        - assert (X : length (filter (fun w => negb (w =? v)) vs) <= length vs); [|lia]. clear. induction vs as [|a vs IH]; cbn [filter length]; [lia|]. destruct (negb (a =? v)); cbn [length]; lia.
        - destruct Fv as [->|Fv]; [contradiction|]. specialize (IHv Fv). cbn [length]. lia. }
      lia.
  - exists old, new. split; [reflexivity|]. split; [apply OK|]. apply (loop_end g); [exact OK|].
    destruct (ge g) as [|e es] eqn:EG; [reflexivity|exfalso]. destruct (ready_exists out_order in_order OO IO rk (ge g)) as (x & H1 & H2); [apply OK|rewrite EG; discriminate|].
    pose proof (find_none _ _ F (m_to x) (proj2 (lo_ends _ _ _ OK x H1))) as X. rewrite EG in *. congruence.
Qed.
End Loop.

(** Everything after the graph has been built. *)
Lemma order_graph : forall (dep : remapping -> remapping -> bool) l g, NoDup l -> (forall r, In r l -> m_from r <> m_to r) ->
  graph_ok l g ->
  (forall a b, In a l -> In b l -> a <> b -> dep a b = true -> m_to a = m_from b -> In a (ge g) /\ In b (ge g)) ->
  exists cyc rest l' g', resolve_cycles out_order l g = Some (l', g', map temp_pair cyc) /\
    rearrange out_order in_order l' g' = Some rest /\
    Permutation l (cyc ++ rest) /\ ordered_by dep rest /\ forall e, In e cyc -> leads l (m_to e) (m_from e).
Proof.
  intros dep l g ND NL (G1 & G2 & G3 & G4) DEP. unfold resolve_cycles.
  assert (DS : dfs out_order g = search out_order (ge g) (gv g)) by reflexivity. rewrite DS.
  destruct (search_spec out_order (ge g) (gv g) OO G2 G4) as (_ & _ & _ & CI & CN).
  destruct (search_acyclic out_order (ge g) (gv g) OO G2 G4) as [rk RK].
  set (cyc := snd (search out_order (ge g) (gv g))) in *.
  destruct (split_cycles_spec cyc l g [] CN ND G2 CI G3) as (l' & g' & ES & N1 & N2 & EV' & ML & MG). cbn [app] in ES.
  unfold rearrange.
  destruct (rearrange_loop_spec rk l' (ge g') dep) with (fuel := S (length (gv g'))) (g := g') (old := l') (new := @nil remapping) as (old' & new' & ER & PM & OR).
  + intros a b Ha Hb NE DD T. apply ML in Ha. apply ML in Hb. destruct (DEP a b (proj1 Ha) (proj1 Hb) NE DD T) as [X Y]. split; apply MG; tauto.
  + intros r Hr. apply ML in Hr. apply NL, Hr.
  + constructor; cbn [app].
    * reflexivity.
    * exact N1.
    * intros e He. apply MG in He. apply ML. split; [apply G3|]; apply He.
    * auto.
    * exact N2.
    * intros e He. rewrite EV'. apply G4. apply MG in He. apply He.
    * intros e He. apply MG in He. apply RK; apply He.
    * intros a r1 b r2 c X. destruct a; discriminate.
    * intros a b [].
  + lia.
  + exists cyc, (new' ++ old'), l', g'. split; [exact ES|]. rewrite ER. cbn [obind fst snd]. split; [reflexivity|].
    split; [|split; [exact OR|intros e He; apply (leads_mono (ge g) l _ _ G3); exact (search_cycle out_order (ge g) (gv g) OO e He)]].
    rewrite <- PM. apply NoDup_Permutation; [exact ND| |].
    * apply (Permutation_NoDup (l := cyc ++ l')); [reflexivity|]. clear - CN N1 ML.
      assert (ND' : forall x, In x l' -> ~ In x cyc) by (intros x Hx C; apply ML in Hx; apply (proj2 Hx); exact C).
      clear ML. induction cyc as [|d cyc IH]; [exact N1|]. cbn [app]. inversion CN as [|? ? D1 D2]; subst. constructor.
      -- intro X. apply in_app_or in X. destruct X as [X|X]; [contradiction|]. apply (ND' d X). left. reflexivity.
      -- apply IH; [exact D2|]. intros x Hx C. apply (ND' x Hx). right. exact C.
    * intro r. rewrite in_app_iff, ML. split; [|intros [X|X]; [apply G3, CI, X|apply X]]. intro Hr.
      destruct (existsb (req r) cyc) eqn:X.
      -- left. apply existsb_exists in X. destruct X as (y & Hy & EQ). apply req_true in EQ. subst y. exact Hy.
      -- right. split; [exact Hr|]. intro C. assert (existsb (req r) cyc = true); [|congruence]. apply existsb_exists. exists r. split; [exact C|apply req_true; reflexivity].
Qed.
End Rearrange.

(** ** Planning the moves *)
Section Planning.
Variables (Point : Type) (dmax : Q) (seg_dist : segment Point -> segment Point -> Q).
Variables (out_order in_order : nat -> list remapping -> list remapping).
Hypothesis OO : forall v l, Permutation (out_order v l) l.
Hypothesis IO : forall v l, Permutation (in_order v l) l.
Notation grain := (grain Point).
Notation grain_at := (grain_at Point).
Notation overlaps := (has_overlap Point dmax seg_dist).

Definition dep_old (gs : list grain) (a b : remapping) : bool :=
  match grain_at gs (m_grain a), grain_at gs (m_grain b) with Some x, Some y => overlaps x y | _, _ => false end.

Definition known (gs : list grain) (l : list remapping) : Prop := forall r, In r l -> exists g, grain_at gs (m_grain r) = Some g.

Lemma pair_loop_old_spec : forall gs l ri rs g, known gs l -> ids_distinct l -> In ri l -> incl rs l -> graph_ok l g -> (gv g = [] -> ge g = []) ->
  exists g', pair_loop_old Point dmax seg_dist gs l ri rs g = Some g' /\ graph_ok l g' /\ incl (ge g) (ge g') /\ (gv g' = [] -> ge g' = []) /\
    forall rj, In rj rs -> ri <> rj -> dep_old gs ri rj = true -> m_to ri = m_from rj -> In ri (ge g') /\ In rj (ge g').
Proof.
  intros gs l ri rs g K D HI. revert g. induction rs as [|rj rs IH]; intros g IN OK NV; cbn [pair_loop_old].
  - exists g. split; [reflexivity|]. split; [exact OK|]. split; [apply incl_refl|]. split; [exact NV|]. intros rj [].
  - assert (Hj : In rj l) by (apply IN; left; reflexivity). assert (IN' : incl rs l) by (intros x Hx; apply IN; right; exact Hx).
    destruct (K ri HI) as [gi Gi]. destruct (K rj Hj) as [gj Gj]. rewrite Gi, Gj. cbn [obind].
    assert (DE : dep_old gs ri rj = overlaps gi gj) by (unfold dep_old; rewrite Gi, Gj; reflexivity).
    destruct (negb (req ri rj) && (overlaps gi gj && (m_to ri =? m_from rj))) eqn:C.
    + rewrite (find_grain l rj D Hj). cbn [obind]. destruct (add_remapping_spec l ri g OK HI) as (A1 & A2 & A3). destruct (add_remapping_spec l rj _ A1 Hj) as (B1 & B2 & B3).
      destruct (IH (add_remapping rj (add_remapping ri g)) IN' B1) as (g' & E & L1 & L2 & L3 & L4); [intro X; contradiction|].
      exists g'. split; [exact E|]. split; [exact L1|]. split; [intros e He; apply L2, B2; left; apply A2; left; exact He|]. split; [exact L3|].
      intros r [<-|Hr] NE DD T; [|apply L4; assumption]. split; apply L2, B2; [left; apply A2; right; reflexivity|right; reflexivity].
    + destruct (IH g IN' OK NV) as (g' & E & L1 & L2 & L3 & L4). exists g'. split; [exact E|]. split; [exact L1|]. split; [exact L2|]. split; [exact L3|].
      intros r [<-|Hr] NE DD T; [|apply L4; assumption]. exfalso. rewrite DE in DD. rewrite DD, T, Nat.eqb_refl in C.
      destruct (req ri rj) eqn:R; [apply req_true in R; contradiction|discriminate].
Qed.

Lemma build_graph_old_spec : forall gs l rs g, known gs l -> ids_distinct l -> incl rs l -> graph_ok l g -> (gv g = [] -> ge g = []) ->
  exists g', build_graph_old Point dmax seg_dist gs l rs g = Some g' /\ graph_ok l g' /\ incl (ge g) (ge g') /\ (gv g' = [] -> ge g' = []) /\
    forall ri rj, In ri rs -> In rj l -> ri <> rj -> dep_old gs ri rj = true -> m_to ri = m_from rj -> In ri (ge g') /\ In rj (ge g').
Proof.
  intros gs l. induction rs as [|ri rs IH]; intros g K D IN OK NV; cbn [build_graph_old].
  - exists g. split; [reflexivity|]. split; [exact OK|]. split; [apply incl_refl|]. split; [exact NV|]. intros ri rj [].
  - destruct (pair_loop_old_spec gs l ri l g K D (IN ri (or_introl eq_refl)) (incl_refl _) OK NV) as (g1 & E1 & K1 & K2 & K3 & K4). rewrite E1. cbn [obind].
    destruct (IH g1 K D) as (g' & E & L1 & L2 & L3 & L4); [intros x Hx; apply IN; right; exact Hx|exact K1|exact K3|].
    exists g'. split; [exact E|]. split; [exact L1|]. split; [eapply incl_tran; eassumption|]. split; [exact L3|].
    intros a b [<-|Ha] Hb NE DD T; [destruct (K4 b Hb NE DD T); split; apply L2; assumption|apply L4; assumption].
Qed.

Lemma plan_spec : forall gs l, known gs l -> ids_distinct l -> NoDup l -> (forall r, In r l -> m_from r <> m_to r) ->
  exists cyc rest, plan Point dmax seg_dist out_order in_order gs l = Some (map temp_pair cyc, rest) /\
    Permutation l (cyc ++ rest) /\ ordered_by (dep_old gs) rest /\ forall e, In e cyc -> leads l (m_to e) (m_from e).
Proof.
  intros gs l K D ND NL. unfold plan.
  destruct (build_graph_old_spec gs l l (mkGraph [] []) K D (incl_refl _)) as (g & E & G & _ & NV & DEP).
  { split; [constructor|]. split; [constructor|]. split; intros x []. }
  { reflexivity. }
  rewrite E. cbn [obind]. destruct (gv g) as [|v vs] eqn:EV.
  - exists [], l. split; [reflexivity|]. split; [reflexivity|]. split; [|intros e []].
    intros a r1 b r2 c EQ DD T.
    assert (NE : r1 <> r2).
    { intros ->. rewrite EQ in ND. apply NoDup_remove_2 in ND. apply ND. apply in_or_app. right. apply in_or_app. right. left. reflexivity. }
    assert (H1 : In r1 l) by (rewrite EQ; apply in_or_app; right; left; reflexivity).
    assert (H2 : In r2 l) by (rewrite EQ; apply in_or_app; right; right; apply in_or_app; right; left; reflexivity).
    destruct (DEP r1 r2 H1 H2 NE DD T) as [X _]. rewrite (NV eq_refl) in X. destruct X.
  - destruct (order_graph out_order in_order OO IO (dep_old gs) l g ND NL G) as (cyc & rest & l' & g' & E1 & E2 & P & OR & LE).
    { intros a b Ha Hb NE DD T. apply DEP; assumption. }
    exists cyc, rest. rewrite E1. cbn [obind]. rewrite E2. cbn [obind]. auto.
Qed.
End Planning.

(** ** What the loops over the cells do at one degree of freedom *)
Section Transfer.
Variables (Point : Type) (dist : Point -> Point -> Q) (V : Type) (zero : V) (n_blocks offset : nat).
Notation grain := (grain Point).
Notation ocell := (ocell Point).
Notation alter := (alter Point dist V).

Definition touch (g : grain) (cells : list ocell) (d : nat) : bool :=
  existsb (fun c => in_zone Point dist g c && memb d (oc_dofs Point c)) cells.

Lemma alter_zero : forall g b cells s, b < n_blocks ->
  exists s', alter g (cb_zero V zero n_blocks b) cells s = Some s' /\ snd s' = snd s /\
    forall b' d, fst s' b' d = if (b' =? b) && touch g cells d then zero else fst s b' d.
Proof.
  intros g b cells s B. apply Nat.ltb_lt in B. revert s. induction cells as [|c r IH]; intro s; cbn [RemapOldModel.alter].
  - exists s. split; [reflexivity|]. split; [reflexivity|]. intros. cbn [touch existsb]. rewrite Bool.andb_false_r. reflexivity.
  - unfold touch. cbn [existsb]. destruct (in_zone Point dist g c) eqn:Z; cbn [andb orb].
    + unfold cb_zero at 1. rewrite B. cbn [obind]. destruct (IH (set_dofs V (oc_dofs Point c) b (fun _ => zero) (fst s), snd s)) as (s' & E & E1 & E2).
      exists s'. split; [exact E|]. split; [exact E1|]. intros b' d. rewrite E2. cbn [fst]. unfold set_dofs.
      destruct (b' =? b); cbn [andb]; [|reflexivity]. fold (touch g r d). destruct (touch g r d), (memb d (oc_dofs Point c)); reflexivity.
    + cbn [obind]. destruct (IH s) as (s' & E & E1 & E2). exists s'. auto.
Qed.

Lemma alter_copy : forall g src dst cells s, src < n_blocks -> dst < n_blocks -> src <> dst ->
  exists s', alter g (cb_copy V n_blocks src dst) cells s = Some s' /\ snd s' = snd s /\
    forall b' d, fst s' b' d = if (b' =? dst) && touch g cells d then fst s src d else fst s b' d.
Proof.
  intros g src dst cells s B1 B2 NE. apply Nat.ltb_lt in B1. apply Nat.ltb_lt in B2. apply Nat.eqb_neq in NE. revert s. induction cells as [|c r IH]; intro s; cbn [RemapOldModel.alter].
  - exists s. split; [reflexivity|]. split; [reflexivity|]. intros. cbn [touch existsb]. rewrite Bool.andb_false_r. reflexivity.
  - unfold touch. cbn [existsb]. destruct (in_zone Point dist g c) eqn:Z; cbn [andb orb].
    + unfold cb_copy at 1. rewrite B1, B2. cbn [andb obind]. destruct (IH (set_dofs V (oc_dofs Point c) dst (fst s src) (fst s), snd s)) as (s' & E & E1 & E2).
      exists s'. split; [exact E|]. split; [exact E1|]. intros b' d. rewrite E2. cbn [fst]. unfold set_dofs. rewrite NE. cbn [andb].
      destruct (b' =? dst); cbn [andb]; [|reflexivity]. fold (touch g r d). destruct (touch g r d), (memb d (oc_dofs Point c)); reflexivity.
    + cbn [obind]. destruct (IH s) as (s' & E & E1 & E2). exists s'. auto.
Qed.

Lemma alter_save : forall g src i cells s, src < n_blocks ->
  exists s', alter g (cb_save V n_blocks src i) cells s = Some s' /\ fst s' = fst s /\
    forall b' d, snd s' b' d = if (b' =? i) && touch g cells d then fst s src d else snd s b' d.
Proof.
  intros g src i cells s B. apply Nat.ltb_lt in B. revert s. induction cells as [|c r IH]; intro s; cbn [RemapOldModel.alter].
  - exists s. split; [reflexivity|]. split; [reflexivity|]. intros. cbn [touch existsb]. rewrite Bool.andb_false_r. reflexivity.
  - unfold touch. cbn [existsb]. destruct (in_zone Point dist g c) eqn:Z; cbn [andb orb].
    + unfold cb_save at 1. rewrite B. cbn [obind]. destruct (IH (fst s, set_dofs V (oc_dofs Point c) i (fst s src) (snd s))) as (s' & E & E1 & E2).
      exists s'. split; [exact E|]. split; [exact E1|]. intros b' d. rewrite E2. cbn [fst snd]. unfold set_dofs.
      destruct (b' =? i); cbn [andb]; [|reflexivity]. fold (touch g r d). destruct (touch g r d), (memb d (oc_dofs Point c)); reflexivity.
    + cbn [obind]. destruct (IH s) as (s' & E & E1 & E2). exists s'. auto.
Qed.

Lemma alter_load : forall g i dst cells s, dst < n_blocks ->
  exists s', alter g (cb_load V n_blocks i dst) cells s = Some s' /\ snd s' = snd s /\
    forall b' d, fst s' b' d = if (b' =? dst) && touch g cells d then snd s i d else fst s b' d.
Proof.
  intros g i dst cells s B. apply Nat.ltb_lt in B. revert s. induction cells as [|c r IH]; intro s; cbn [RemapOldModel.alter].
  - exists s. split; [reflexivity|]. split; [reflexivity|]. intros. cbn [touch existsb]. rewrite Bool.andb_false_r. reflexivity.
  - unfold touch. cbn [existsb]. destruct (in_zone Point dist g c) eqn:Z; cbn [andb orb].
    + unfold cb_load at 1. rewrite B. cbn [obind]. destruct (IH (set_dofs V (oc_dofs Point c) dst (snd s i) (fst s), snd s)) as (s' & E & E1 & E2).
      exists s'. split; [exact E|]. split; [exact E1|]. intros b' d. rewrite E2. cbn [fst snd]. unfold set_dofs.
      destruct (b' =? dst); cbn [andb]; [|reflexivity]. fold (touch g r d). destruct (touch g r d), (memb d (oc_dofs Point c)); reflexivity.
    + cbn [obind]. destruct (IH s) as (s' & E & E1 & E2). exists s'. auto.
Qed.

Lemma clear_gone_spec : forall l cells s, (forall g, In g l -> g_new Point g + offset < n_blocks) ->
  exists s', clear_gone Point dist V zero n_blocks offset l cells s = Some s' /\ snd s' = snd s /\
    forall b d, fst s' b d = if existsb (fun g => (b =? g_new Point g + offset) && touch g cells d) l then zero else fst s b d.
Proof.
  induction l as [|g l IH]; intros cells s R; cbn [clear_gone].
  - exists s. auto.
  - destruct (alter_zero g (g_new Point g + offset) cells s (R g (or_introl eq_refl))) as (s1 & E1 & F1 & F2). rewrite E1. cbn [obind].
    destruct (IH cells s1) as (s' & E & G1 & G2); [intros h Hh; apply R; right; exact Hh|]. exists s'. split; [exact E|]. split; [congruence|].
    intros b d. rewrite G2, F2. cbn [existsb]. destruct ((b =? g_new Point g + offset) && touch g cells d); cbn [orb]; [|reflexivity]. destruct (existsb _ l); reflexivity.
Qed.

Variables (gs : list grain) (cells : list ocell).
Definition act (d : nat) (r : remapping) : bool := match grain_at Point gs (m_grain r) with Some g => touch g cells d | None => false end.
Definition in_range (l : list remapping) : Prop := forall r, In r l -> m_from r + offset < n_blocks /\ m_to r + offset < n_blocks /\ m_from r <> m_to r.

Lemma to_temps_spec : forall cyc i s, known Point gs cyc -> in_range cyc ->
  exists s', to_temps Point dist V zero n_blocks offset gs i (map temp_pair cyc) cells s = Some s' /\
    forall d, NoDup (map m_from (filter (act d) cyc)) ->
      (forall k, k < i -> snd s' k d = snd s k d) /\
      (forall k e, nth_error cyc k = Some e -> act d e = true -> snd s' (i + k) d = fst s (m_from e + offset) d) /\
      (forall b, (forall e, In e cyc -> act d e = true -> b <> m_from e + offset) -> fst s' b d = fst s b d) /\
      (forall e, In e cyc -> act d e = true -> fst s' (m_from e + offset) d = zero).
Proof.
  induction cyc as [|e cyc IH]; intros i s K R; cbn [map to_temps].
  - exists s. split; [reflexivity|]. intros d _. repeat split; auto; [intros k e H; destruct k; discriminate|intros e []].
  - unfold temp_pair at 1. cbn [st_grain st_from fst]. destruct (K e (or_introl eq_refl)) as [g G]. rewrite G. cbn [obind].
    destruct (R e (or_introl eq_refl)) as (R1 & R2 & R3).
    destruct (alter_save g (m_from e + offset) i cells s R1) as (s1 & E1 & F1 & F2). rewrite E1. cbn [obind].
    destruct (alter_zero g (m_from e + offset) cells s1 R1) as (s2 & E2 & H1 & H2). rewrite E2. cbn [obind].
    destruct (IH (S i) s2) as (s' & E & SP); [intros r Hr; apply K; right; exact Hr|intros r Hr; apply R; right; exact Hr|].
    exists s'. split; [exact E|]. intros d ND. assert (AE : act d e = touch g cells d) by (unfold act; rewrite G; reflexivity).
    cbn [filter] in ND. rewrite AE in ND.
    assert (ND' : NoDup (map m_from (filter (act d) cyc))) by (destruct (touch g cells d); [inversion ND; assumption|exact ND]).
    destruct (SP d ND') as (S1 & S2 & S3 & S4).
    assert (NEF : touch g cells d = true -> forall e', In e' cyc -> act d e' = true -> m_from e' <> m_from e).
    { intros T e' He A C. rewrite T in ND. inversion ND as [|x y N1 N2]; subst. apply N1. rewrite <- C. apply in_map, filter_In. auto. }
    split; [|split; [|split]].
    + intros k Hk. rewrite S1 by lia. rewrite H1, F2. replace (k =? i) with false by (symmetry; apply Nat.eqb_neq; lia). reflexivity.
    + intros [|k] e' N A; cbn [nth_error] in N.
      * inversion N; subst e'. rewrite Nat.add_0_r, S1 by lia. rewrite H1, F2, Nat.eqb_refl. rewrite AE in A. rewrite A. reflexivity.
      * replace (i + S k) with (S i + k) by lia. rewrite (S2 k e' N A), H2, F1. destruct (touch g cells d) eqn:T; [|rewrite Bool.andb_false_r; reflexivity].
        replace (m_from e' + offset =? m_from e + offset) with false; [reflexivity|]. symmetry. apply Nat.eqb_neq. intro C. apply (NEF eq_refl e' (nth_error_In _ _ N) A). lia.
    + intros b B. rewrite S3; [|intros e' He A; apply B; [right; exact He|exact A]]. rewrite H2, F1. destruct (touch g cells d) eqn:T; [|rewrite Bool.andb_false_r; reflexivity].
      replace (b =? m_from e + offset) with false; [reflexivity|]. symmetry. apply Nat.eqb_neq. apply B; [left; reflexivity|congruence].
    + intros e' [<-|He] A; [|apply S4; assumption]. rewrite AE in A. rewrite S3; [|intros e' He A'; specialize (NEF A e' He A'); lia]. rewrite H2, Nat.eqb_refl, A. reflexivity.
Qed.

Lemma plain_moves_spec : forall rest s, known Point gs rest -> in_range rest ->
  exists s', plain_moves Point dist V zero n_blocks offset gs rest cells s = Some s' /\ snd s' = snd s /\
    forall d, NoDup (map m_from (filter (act d) rest)) -> NoDup (map m_to (filter (act d) rest)) ->
      ForallOrdPairs (fun a b => m_to a <> m_from b) (filter (act d) rest) ->
      (forall r, In r rest -> act d r = true -> fst s' (m_to r + offset) d = fst s (m_from r + offset) d) /\
      (forall b, (forall r, In r rest -> act d r = true -> b <> m_to r + offset) ->
        ((forall r, In r rest -> act d r = true -> b <> m_from r + offset) -> fst s' b d = fst s b d) /\
        ((exists r, In r rest /\ act d r = true /\ b = m_from r + offset) -> fst s' b d = zero)).
Proof.
  induction rest as [|e rest IH]; intros s K R; cbn [plain_moves].
  - exists s. split; [reflexivity|]. split; [reflexivity|]. intros d _ _ _. split; [intros r []|]. intros b _. split; [reflexivity|]. intros (r & [] & _).
  - destruct (K e (or_introl eq_refl)) as [g G]. rewrite G. cbn [obind]. destruct (R e (or_introl eq_refl)) as (R1 & R2 & R3).
    destruct (alter_copy g (m_from e + offset) (m_to e + offset) cells s R1 R2) as (s1 & E1 & F1 & F2); [lia|]. rewrite E1. cbn [obind].
    destruct (alter_zero g (m_from e + offset) cells s1 R1) as (s2 & E2 & H1 & H2). rewrite E2. cbn [obind].
    destruct (IH s2) as (s' & E & E' & SP); [intros r Hr; apply K; right; exact Hr|intros r Hr; apply R; right; exact Hr|].
    exists s'. split; [exact E|]. split; [congruence|]. intros d NF NT OP. assert (AE : act d e = touch g cells d) by (unfold act; rewrite G; reflexivity).
    cbn [filter] in NF, NT, OP. rewrite AE in NF, NT, OP. destruct (touch g cells d) eqn:T.
    + cbn [map] in NF, NT. inversion NF as [|x1 x2 NF1 NF2]; subst. inversion NT as [|x1 x2 NT1 NT2]; subst. inversion OP as [|x1 x2 OP1 OP2]; subst. rewrite Forall_forall in OP1.
      assert (DF : forall r, In r rest -> act d r = true -> m_from r <> m_from e) by (intros r Hr A C; apply NF1; rewrite <- C; apply in_map, filter_In; auto).
      assert (DT : forall r, In r rest -> act d r = true -> m_to r <> m_to e) by (intros r Hr A C; apply NT1; rewrite <- C; apply in_map, filter_In; auto).
      assert (DO : forall r, In r rest -> act d r = true -> m_to e <> m_from r) by (intros r Hr A; apply OP1, filter_In; auto).
      assert (VAL : forall b, fst s2 b d = if b =? m_from e + offset then zero else if b =? m_to e + offset then fst s (m_from e + offset) d else fst s b d).
      { intro b. rewrite H2, F2, T, !Bool.andb_true_r. reflexivity. }
      destruct (SP d NF2 NT2 OP2) as (S1 & S2). split.
      * intros r [<-|Hr] A.
        -- destruct (S2 (m_to e + offset)) as [S3 _]; [intros r Hr A'; specialize (DT r Hr A'); lia|]. rewrite S3; [|intros r Hr A'; specialize (DO r Hr A'); lia].
           rewrite VAL, Nat.eqb_refl. replace (m_to e + offset =? m_from e + offset) with false; [reflexivity|]. symmetry. apply Nat.eqb_neq. lia.
        -- rewrite (S1 r Hr A), VAL. specialize (DF r Hr A). specialize (DO r Hr A).
           replace (m_from r + offset =? m_from e + offset) with false by (symmetry; apply Nat.eqb_neq; lia).
           replace (m_from r + offset =? m_to e + offset) with false by (symmetry; apply Nat.eqb_neq; lia). reflexivity.
      * intros b B. assert (BE : b <> m_to e + offset) by (apply B; [left; reflexivity|exact AE]).
        destruct (S2 b) as [S3 S4]; [intros r Hr A; apply B; [right; exact Hr|exact A]|]. split.
        -- intro BF. rewrite S3; [|intros r Hr A; apply BF; [right; exact Hr|exact A]]. rewrite VAL.
           replace (b =? m_from e + offset) with false by (symmetry; apply Nat.eqb_neq; apply BF; [left; reflexivity|exact AE]).
           replace (b =? m_to e + offset) with false by (symmetry; apply Nat.eqb_neq; exact BE). reflexivity.
        -- intros (r & [<-|Hr] & A & ->); [|apply S4; exists r; auto].
           rewrite S3; [rewrite VAL, Nat.eqb_refl; reflexivity|]. intros r Hr A'. specialize (DF r Hr A'). lia.
    + assert (VAL : forall b, fst s2 b d = fst s b d) by (intro b; rewrite H2, F2, T, !Bool.andb_false_r; reflexivity).
      destruct (SP d NF NT OP) as (S1 & S2). split.
      * intros r [<-|Hr] A; [congruence|]. rewrite (S1 r Hr A). apply VAL.
      * intros b B. destruct (S2 b) as [S3 S4]; [intros r Hr A; apply B; [right; exact Hr|exact A]|]. split.
        -- intro BF. rewrite S3; [apply VAL|]. intros r Hr A. apply BF; [right; exact Hr|exact A].
        -- intros (r & [<-|Hr] & A & ->); [congruence|]. apply S4. exists r. auto.
Qed.

Lemma from_temps_spec : forall cyc i s, known Point gs cyc -> in_range cyc ->
  exists s', from_temps Point dist V n_blocks offset gs i (map temp_pair cyc) cells s = Some s' /\
    forall d, NoDup (map m_to (filter (act d) cyc)) ->
      (forall k e, nth_error cyc k = Some e -> act d e = true -> fst s' (m_to e + offset) d = snd s (i + k) d) /\
      (forall b, (forall e, In e cyc -> act d e = true -> b <> m_to e + offset) -> fst s' b d = fst s b d).
Proof.
  induction cyc as [|e cyc IH]; intros i s K R; cbn [map from_temps].
  - exists s. split; [reflexivity|]. intros d _. split; [intros k e H; destruct k; discriminate|auto].
  - unfold temp_pair at 1. cbn [st_grain st_to snd]. destruct (K e (or_introl eq_refl)) as [g G]. rewrite G. cbn [obind].
    destruct (R e (or_introl eq_refl)) as (R1 & R2 & R3).
    destruct (alter_load g i (m_to e + offset) cells s R2) as (s1 & E1 & F1 & F2). rewrite E1. cbn [obind].
    destruct (IH (S i) s1) as (s' & E & SP); [intros r Hr; apply K; right; exact Hr|intros r Hr; apply R; right; exact Hr|].
    exists s'. split; [exact E|]. intros d ND. assert (AE : act d e = touch g cells d) by (unfold act; rewrite G; reflexivity).
    cbn [filter] in ND. rewrite AE in ND.
    assert (ND' : NoDup (map m_to (filter (act d) cyc))) by (destruct (touch g cells d); [inversion ND; assumption|exact ND]).
    destruct (SP d ND') as (S1 & S2). split.
    + intros [|k] e' N A; cbn [nth_error] in N.
      * inversion N; subst e'. rewrite AE in A. rewrite A in ND. inversion ND as [|x1 x2 N1 N2]; subst.
        rewrite S2; [rewrite F2, Nat.eqb_refl, A, Nat.add_0_r; reflexivity|]. intros e' He A' C. apply N1. replace (m_to e) with (m_to e') by lia. apply in_map, filter_In. auto.
      * rewrite (S1 k e' N A), F1. replace (S i + k) with (i + S k) by lia. reflexivity.
    + intros b B. rewrite S2; [|intros e' He A; apply B; [right; exact He|exact A]]. rewrite F2. destruct (touch g cells d) eqn:T; [|rewrite Bool.andb_false_r; reflexivity].
      replace (b =? m_to e + offset) with false; [reflexivity|]. symmetry. apply Nat.eqb_neq. apply B; [left; reflexivity|congruence].
Qed.
End Transfer.

(** ** All together *)
Lemma ordered_active : forall dep (f : remapping -> bool) l, ordered_by dep l ->
  (forall a b, In a l -> In b l -> f a = true -> f b = true -> a <> b -> m_to a = m_from b -> dep a b = true) ->
  (forall a, In a l -> m_from a <> m_to a) ->
  ForallOrdPairs (fun a b => m_to a <> m_from b) (filter f l).
Proof.
  intros dep f. induction l as [|r l IH]; intros OR DEP NL; cbn [filter]; [constructor|].
  assert (T : ForallOrdPairs (fun a b => m_to a <> m_from b) (filter f l)).
  { apply IH; [|intros a b Ha Hb; apply DEP; right; assumption|intros a Ha; apply NL; right; exact Ha].
    intros a r1 b r2 c E. apply (OR (r :: a) r1 b r2 c). rewrite E. reflexivity. }
  destruct (f r) eqn:F; [|exact T]. constructor; [|exact T]. apply Forall_forall. intros b Hb C. apply filter_In in Hb. destruct Hb as [Hb FB].
  assert (NE : r <> b) by (intros ->; apply (NL b); [left; reflexivity|auto]).
  destruct (in_split b l Hb) as (p & q & E). apply (OR [] r p b q); [cbn [app]; rewrite E; reflexivity| |exact C].
  apply DEP; auto; [left; reflexivity|right; exact Hb].
Qed.

Lemma grain_at_in : forall Point (gs : list (grain Point)) g, NoDup (map (g_id Point) gs) -> In g gs -> grain_at Point gs (g_id Point g) = Some g.
Proof.
  intros Point gs g. unfold grain_at. induction gs as [|h gs IH]; intros ND I; [destruct I|]. cbn [map] in ND. inversion ND as [|x l N1 N2]; subst. cbn [find].
  destruct I as [->|I]; [rewrite Nat.eqb_refl; reflexivity|]. destruct (Nat.eqb_spec (g_id Point h) (g_id Point g)) as [E|_]; [|apply IH; assumption].
  exfalso. apply N1. rewrite E. apply in_map, I.
Qed.

Lemma moves_in : forall Point (gs : list (grain Point)) r, In r (moves_of Point gs) <->
  exists g, In g gs /\ g_new Point g <> g_old Point g /\ r = mkRemap (g_id Point g) (g_old Point g) (g_new Point g).
Proof.
  intros Point gs r. unfold moves_of. rewrite in_flat_map. split; intros (g & I & H); exists g; (split; [exact I|]).
  - destruct (Nat.eqb_spec (g_new Point g) (g_old Point g)) as [E|E]; [destruct H|]. destruct H as [<-|[]]. auto.
  - destruct H as [NE ->]. apply Nat.eqb_neq in NE. rewrite NE. left. reflexivity.
Qed.

Lemma moves_length : forall Point (gs : list (grain Point)), length (moves_of Point gs) = length (filter (fun g => negb (g_new Point g =? g_old Point g)) gs).
Proof.
  intros Point. unfold moves_of. induction gs as [|g gs IH]; [reflexivity|]. cbn [flat_map filter]. rewrite app_length, IH.
  destruct (g_new Point g =? g_old Point g); reflexivity.
Qed.

Lemma moves_ids : forall Point (gs : list (grain Point)), NoDup (map (g_id Point) gs) -> NoDup (map m_grain (moves_of Point gs)).
Proof.
  intros Point. unfold moves_of. induction gs as [|g gs IH]; intro ND; [constructor|]. cbn [map] in ND. inversion ND as [|x l N1 N2]; subst. cbn [flat_map].
  destruct (g_new Point g =? g_old Point g); cbn [app map]; [apply IH, N2|]. constructor; [|apply IH, N2]. cbn [m_grain].
  intro C. apply in_map_iff in C. destruct C as (r & E & Hr). apply (moves_in Point gs r) in Hr. destruct Hr as (h & Hh & _ & ->). cbn [m_grain] in E. apply N1. rewrite <- E. apply in_map, Hh.
Qed.

Lemma ids_distinct_nodup : forall l, NoDup (map m_grain l) -> ids_distinct l.
Proof.
  induction l as [|r l IH]; intros ND a b Ha Hb E; [destruct Ha|]. cbn [map] in ND. inversion ND as [|x y N1 N2]; subst.
  destruct Ha as [<-|Ha]; destruct Hb as [<-|Hb]; [reflexivity| | |apply IH; assumption]; exfalso; apply N1; [rewrite E|rewrite <- E]; apply in_map; assumption.
Qed.

Lemma nodup_filter_map : forall (f : remapping -> bool) (p : remapping -> nat) l, NoDup l ->
  (forall a b, In a l -> In b l -> f a = true -> f b = true -> a <> b -> p a <> p b) -> NoDup (map p (filter f l)).
Proof.
  intros f p. induction l as [|r l IH]; intros ND D; [constructor|]. inversion ND as [|x y N1 N2]; subst. cbn [filter].
  assert (T : NoDup (map p (filter f l))) by (apply IH; [exact N2|intros a b Ha Hb; apply D; right; assumption]).
  destruct (f r) eqn:F; [|exact T]. cbn [map]. constructor; [|exact T]. intro C. apply in_map_iff in C. destruct C as (b & E & Hb). apply filter_In in Hb.
  destruct Hb as [Hb FB]. apply (D r b); [left; reflexivity|right; exact Hb|exact F|exact FB| |symmetry; exact E]. intros ->. contradiction.
Qed.

Section Whole.
Variables (Point : Type) (dist : Point -> Point -> Q) (dmax : Q) (seg_dist : segment Point -> segment Point -> Q).
Variables (out_order in_order : nat -> list remapping -> list remapping).
Hypothesis OO : forall v l, Permutation (out_order v l) l.
Hypothesis IO : forall v l, Permutation (in_order v l) l.
Variables (V : Type) (zero : V) (n_blocks offset : nat).
Notation grain := (grain Point).
Notation touch := (touch Point dist).

Definition moved (g : grain) : Prop := g_new Point g <> g_old Point g.

Lemma remap_old_spec : forall old gs cells u, NoDup (map (g_id Point) gs) ->
  (forall g, In g gs -> moved g -> g_old Point g + offset < n_blocks /\ g_new Point g + offset < n_blocks) ->
  (forall g, In g (gone Point old gs) -> g_new Point g + offset < n_blocks) ->
  exists u', remap_old Point dist dmax seg_dist out_order in_order V zero n_blocks offset old gs cells u =
      Some (u', length (filter (fun g => negb (g_new Point g =? g_old Point g)) gs)) /\
    forall d,
      (forall g h, In g gs -> In h gs -> g <> h -> moved g -> moved h -> touch g cells d = true -> touch h cells d = true ->
         g_old Point g <> g_old Point h /\ g_new Point g <> g_new Point h /\
         (g_new Point g = g_old Point h -> has_overlap Point dmax seg_dist g h = true)) ->
      let start b := if existsb (fun g => (b =? g_new Point g + offset) && touch g cells d) (gone Point old gs) then zero else u b d in
      (forall g, In g gs -> moved g -> touch g cells d = true -> u' (g_new Point g + offset) d = start (g_old Point g + offset)) /\
      (forall b, (forall g, In g gs -> moved g -> touch g cells d = true -> b <> g_new Point g + offset) ->
         ((forall g, In g gs -> moved g -> touch g cells d = true -> b <> g_old Point g + offset) -> u' b d = start b) /\
         ((exists g, In g gs /\ moved g /\ touch g cells d = true /\ b = g_old Point g + offset) -> u' b d = zero)).
Proof.
  intros old gs cells u ND R RG. unfold remap_old.
  destruct (clear_gone_spec Point dist V zero n_blocks offset (gone Point old gs) cells (u, fun _ _ => zero) RG) as (s0 & E0 & _ & S0). rewrite E0. cbn [obind].
  set (l := moves_of Point gs). assert (LI : NoDup (map m_grain l)) by (apply moves_ids, ND).
  assert (LD : NoDup l) by (apply (NoDup_map_inv m_grain), LI).
  assert (LK : known Point gs l). { intros r Hr. apply moves_in in Hr. destruct Hr as (g & Hg & _ & ->). exists g. apply grain_at_in; assumption. }
  assert (LR : in_range n_blocks offset l).
  { intros r Hr. apply moves_in in Hr. destruct Hr as (g & Hg & M & ->). cbn [m_from m_to]. destruct (R g Hg M) as [R1 R2]. split; [exact R1|]. split; [exact R2|]. intro C. apply M. symmetry. exact C. }
  destruct (plan_spec Point dmax seg_dist out_order in_order OO IO gs l LK (ids_distinct_nodup l LI) LD) as (cyc & rest & EP & PM & OR & _); [intros r Hr; apply LR, Hr|].
  rewrite EP. cbn [obind fst snd].
  assert (IC : incl cyc l) by (intros x Hx; apply (Permutation_in x (Permutation_sym PM)), in_or_app; left; exact Hx).
  assert (IR : incl rest l) by (intros x Hx; apply (Permutation_in x (Permutation_sym PM)), in_or_app; right; exact Hx).
  assert (ALL : forall x, In x l -> In x cyc \/ In x rest) by (intros x Hx; apply in_app_or, (Permutation_in x PM), Hx).
  assert (NDA : NoDup (cyc ++ rest)) by (apply (Permutation_NoDup PM), LD).
  assert (NDC : NoDup cyc /\ NoDup rest /\ forall x, In x cyc -> ~ In x rest).
  { clear - NDA. induction cyc as [|x cyc IH]; cbn [app] in NDA; [split; [constructor|split; [exact NDA|intros x []]]|].
    inversion NDA as [|y z N1 N2]; subst. destruct (IH N2) as (A & B & C). split; [constructor; [intro H; apply N1, in_or_app; left; exact H|exact A]|].
    split; [exact B|]. intros y [<-|Hy]; [intro H; apply N1, in_or_app; right; exact H|apply C, Hy]. }
  destruct NDC as (NDC & NDR & DIS).
  assert (KC : known Point gs cyc) by (intros r Hr; apply LK, IC, Hr). assert (KR : known Point gs rest) by (intros r Hr; apply LK, IR, Hr).
  assert (RC : in_range n_blocks offset cyc) by (intros r Hr; apply LR, IC, Hr). assert (RR : in_range n_blocks offset rest) by (intros r Hr; apply LR, IR, Hr).
  destruct (to_temps_spec Point dist V zero n_blocks offset gs cells cyc 0 s0 KC RC) as (s1 & E1 & S1). rewrite E1. cbn [obind].
  destruct (plain_moves_spec Point dist V zero n_blocks offset gs cells rest s1 KR RR) as (s2 & E2 & F2 & S2). rewrite E2. cbn [obind].
  destruct (from_temps_spec Point dist V n_blocks offset gs cells cyc 0 s2 KC RC) as (s3 & E3 & S3). rewrite E3. cbn [obind].
  exists (fst s3). split; [unfold l; rewrite moves_length; reflexivity|]. intros d SEP.
  set (f := act Point dist gs cells d) in *.
  set (start := fun b => if existsb (fun g => (b =? g_new Point g + offset) && touch g cells d) (gone Point old gs) then zero else u b d).
  assert (ST : forall b, fst s0 b d = start b) by (intro b; rewrite S0; reflexivity).
  assert (MV : forall r, In r l -> f r = true -> exists g, In g gs /\ moved g /\ touch g cells d = true /\ r = mkRemap (g_id Point g) (g_old Point g) (g_new Point g)).
  { intros r Hr A. apply moves_in in Hr. destruct Hr as (g & Hg & M & ->). exists g. unfold f, act in A. cbn [m_grain] in A. rewrite (grain_at_in Point gs g ND Hg) in A. auto. }
  assert (MB : forall g, In g gs -> moved g -> touch g cells d = true -> let r := mkRemap (g_id Point g) (g_old Point g) (g_new Point g) in In r l /\ f r = true).
  { intros g Hg M T. split; [apply moves_in; exists g; auto|]. unfold f, act. cbn [m_grain]. rewrite (grain_at_in Point gs g ND Hg). exact T. }
  assert (PAIR : forall a b, In a l -> In b l -> f a = true -> f b = true -> a <> b -> m_from a <> m_from b /\ m_to a <> m_to b /\ (m_to a = m_from b -> dep_old Point dmax seg_dist gs a b = true)).
  { intros a b Ha Hb Fa Fb NE. destruct (MV a Ha Fa) as (g & Hg & Mg & Tg & ->). destruct (MV b Hb Fb) as (h & Hh & Mh & Th & ->). cbn [m_from m_to].
    assert (GH : g <> h) by (intros ->; apply NE; reflexivity). destruct (SEP g h Hg Hh GH Mg Mh Tg Th) as (X & Y & Z). split; [exact X|]. split; [exact Y|]. intro W.
    unfold dep_old. cbn [m_grain]. rewrite (grain_at_in Point gs g ND Hg), (grain_at_in Point gs h ND Hh). apply Z, W. }
  assert (CF : NoDup (map m_from (filter f cyc))) by (apply nodup_filter_map; [exact NDC|intros a b Ha Hb Fa Fb NE; apply PAIR; auto]).
  assert (CT : NoDup (map m_to (filter f cyc))) by (apply nodup_filter_map; [exact NDC|intros a b Ha Hb Fa Fb NE; apply PAIR; auto]).
  assert (RF : NoDup (map m_from (filter f rest))) by (apply nodup_filter_map; [exact NDR|intros a b Ha Hb Fa Fb NE; apply PAIR; auto]).
  assert (RT : NoDup (map m_to (filter f rest))) by (apply nodup_filter_map; [exact NDR|intros a b Ha Hb Fa Fb NE; apply PAIR; auto]).
  assert (RO : ForallOrdPairs (fun a b => m_to a <> m_from b) (filter f rest)).
  { apply (ordered_active (dep_old Point dmax seg_dist gs)); [exact OR| |intros a Ha; apply LR, IR, Ha]. intros a b Ha Hb Fa Fb NE. apply PAIR; auto. }
  destruct (S1 d CF) as (_ & T1 & T2 & T3). destruct (S2 d RF RT RO) as (P1 & P2). destruct (S3 d CT) as (Q1 & Q2). clear S1 S2 S3 S0.
  assert (CR : forall a b, In a cyc -> In b rest -> f a = true -> f b = true -> m_from a <> m_from b /\ m_to a <> m_to b).
  { intros a b Ha Hb Fa Fb. assert (NE : a <> b) by (intros ->; exact (DIS b Ha Hb)). destruct (PAIR a b (IC a Ha) (IR b Hb) Fa Fb NE) as (X & Y & _). auto. }
  split.
  - intros g Hg M T. destruct (MB g Hg M T) as [Hr Fr]. set (r := mkRemap (g_id Point g) (g_old Point g) (g_new Point g)) in *.
    change (g_new Point g) with (m_to r). change (g_old Point g) with (m_from r). destruct (ALL r Hr) as [C|C].
    + destruct (In_nth_error cyc r C) as [k Nk]. rewrite (Q1 k r Nk Fr). rewrite F2, (T1 k r Nk Fr). apply ST.
    + rewrite Q2; [|intros e He Fe; destruct (CR e r He C Fe Fr); lia]. rewrite (P1 r C Fr). rewrite T2; [apply ST|]. intros e He Fe. destruct (CR e r He C Fe Fr). lia.
  - intros b B.
    assert (BL : forall r, In r l -> f r = true -> b <> m_to r + offset). { intros r Hr Fr. destruct (MV r Hr Fr) as (g & Hg & M & T & ->). apply B; assumption. }
    rewrite Q2; [|intros e He Fe; apply BL; auto]. destruct (P2 b) as [P3 P4]; [intros r Hr Fr; apply BL; auto|]. split.
    + intro BF. assert (BL' : forall r, In r l -> f r = true -> b <> m_from r + offset). { intros r Hr Fr. destruct (MV r Hr Fr) as (g & Hg & M & T & ->). apply BF; assumption. }
      rewrite P3; [|intros r Hr Fr; apply BL'; auto]. rewrite T2; [apply ST|]. intros e He Fe. apply BL'; auto.
    + intros (g & Hg & M & T & ->). destruct (MB g Hg M T) as [Hr Fr]. set (r := mkRemap (g_id Point g) (g_old Point g) (g_new Point g)) in *.
      destruct (ALL r Hr) as [C|C].
      * rewrite P3; [exact (T3 r C Fr)|]. intros e He Fe. destruct (CR r e C He Fr Fe) as [X _]. unfold r in X. cbn [m_from] in X. lia.
      * apply P4. exists r. auto.
Qed.
End Whole.

(** ** Distances *)
Lemma qmin_le : forall a b, (qmin a b <= a /\ qmin a b <= b)%Q.
Proof.
  intros a b. unfold qmin. destruct (qltb b a) eqn:E.
  - apply qltb_true in E. split; [apply Qlt_le_weak, E|apply Qle_refl].
  - apply qltb_false in E. split; [apply Qle_refl|exact E].
Qed.

Section Distances.
Variables (Point : Type) (dmax : Q) (seg_dist : segment Point -> segment Point -> Q).
Notation inner s := (fun m t => qmin (seg_dist s t) m).

Lemma inner_le : forall s l m, (fold_left (inner s) l m <= m)%Q /\ forall t, In t l -> (fold_left (inner s) l m <= seg_dist s t)%Q.
Proof.
  intros s. induction l as [|t l IH]; intro m; cbn [fold_left]; [split; [apply Qle_refl|intros t []]|].
  destruct (IH (qmin (seg_dist s t) m)) as [A B]. destruct (qmin_le (seg_dist s t) m) as [C D]. split; [eapply Qle_trans; eassumption|].
  intros x [<-|Hx]; [eapply Qle_trans; eassumption|apply B, Hx].
Qed.

Lemma grain_distance_le : forall a b s t, In s (g_segments Point a) -> In t (g_segments Point b) -> (grain_distance Point dmax seg_dist a b <= seg_dist s t)%Q.
Proof.
  intros a b s t Hs Ht. unfold grain_distance. generalize dmax. induction (g_segments Point a) as [|x l IH]; [destruct Hs|]. intro m. cbn [fold_left].
  assert (MON : forall l m, (fold_left (fun m s => fold_left (inner s) (g_segments Point b) m) l m <= m)%Q).
  { clear. induction l as [|y l IH]; intro m; cbn [fold_left]; [apply Qle_refl|]. eapply Qle_trans; [apply IH|]. apply inner_le. }
  destruct Hs as [->|Hs]; [|apply IH, Hs]. eapply Qle_trans; [apply MON|]. apply inner_le, Ht.
Qed.
End Distances.
