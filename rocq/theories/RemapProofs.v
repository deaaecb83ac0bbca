(** Proofs for the transfer of values between order parameters. *)
From Coq Require Import List Arith Bool Lia Permutation.
From Verif Require Import Util MapModel RemapModel.
Import ListNotations.

Lemma memb_in : forall x l, memb x l = true <-> In x l.
Proof.
  intros x l. unfold memb. rewrite existsb_exists. split.
  - intros (y & H & E). apply Nat.eqb_eq in E. subst y. exact H.
  - intro H. exists x. rewrite Nat.eqb_refl. auto.
Qed.

Lemma memb_out : forall x l, memb x l = false <-> ~ In x l.
Proof. intros x l. rewrite <- memb_in. destruct (memb x l); split; congruence. Qed.

Lemma req_true : forall a b, req a b = true <-> a = b.
Proof.
  intros [a1 a2 a3] [b1 b2 b3]. unfold req. cbn [m_grain m_from m_to]. rewrite !andb_true_iff, !Nat.eqb_eq. split; [intros [[-> ->] ->]; reflexivity|intro H; injection H; auto].
Qed.

Lemma take_out_spec : forall r l, In r l -> exists l', take_out r l = Some l' /\ Permutation l (r :: l').
Proof.
  intros r. induction l as [|x l IH]; [intros []|]. intro H. cbn [take_out]. destruct (req r x) eqn:E.
  - apply req_true in E. subst x. eauto.
  - destruct H as [->|H]; [assert (req r r = true) by (apply req_true; reflexivity); congruence|]. destruct (IH H) as (l' & E' & P). rewrite E'. cbn [obind].
    exists (x :: l'). split; [reflexivity|]. rewrite P. apply perm_swap.
Qed.

(** ** Depth first search *)
Section Search.
Variables (out_order : nat -> list remapping -> list remapping) (es : list remapping) (vs : list nat).
Hypothesis OO : forall v l, Permutation (out_order v l) l.
Hypothesis ND : NoDup es.
Hypothesis EV : forall e, In e es -> In (m_from e) vs /\ In (m_to e) vs.
Hypothesis VV : NoDup vs.

Lemma out_edges_in : forall v e, In e (out_edges out_order es v) <-> In e es /\ m_from e = v.
Proof.
  intros v e. unfold out_edges. split; intro H.
  - apply (Permutation_in _ (OO _ _)) in H. apply filter_In in H. rewrite Nat.eqb_eq in H. exact H.
  - apply (Permutation_in _ (Permutation_sym (OO _ _))). apply filter_In. rewrite Nat.eqb_eq. exact H.
Qed.

Lemma out_edges_nodup : forall v, NoDup (out_edges out_order es v).
Proof. intro v. unfold out_edges. eapply Permutation_NoDup; [apply Permutation_sym, OO|]. apply NoDup_filter, ND. Qed.

(** every edge of a finished vertex is a back edge or leads to a vertex finished before *)
Definition finished (black : list nat) (back : list remapping) : Prop :=
  forall l1 x l2, black = l1 ++ x :: l2 -> forall e, In e es -> m_from e = x -> In e back \/ In (m_to e) l2.

Record state_ok (gray : list nat) (s : list nat * list remapping) : Prop := {
  so_nodup : NoDup (gray ++ fst s);
  so_incl : incl (gray ++ fst s) vs;
  so_fin : finished (fst s) (snd s);
  so_edges : incl (snd s) es;
  so_src : forall e, In e (snd s) -> In (m_from e) (gray ++ fst s);
  so_once : NoDup (snd s) }.

Lemma finished_more : forall black back back', finished black back -> incl back back' -> finished black back'.
Proof. intros black back back' H I l1 x l2 E e He Hx. destruct (H _ _ _ E e He Hx) as [X|X]; [left; apply I, X|right; exact X]. Qed.

Lemma dfs_visit_spec : forall fuel gray u s, state_ok gray s -> In u vs -> ~ In u (gray ++ fst s) ->
  length vs <= fuel + length (gray ++ fst s) ->
  let s' := dfs_visit out_order fuel es gray u s in
  state_ok gray s' /\ (exists ext, fst s' = ext ++ fst s) /\ In u (fst s') /\ incl (snd s) (snd s') /\
  (forall e, In e (snd s') -> In e (snd s) \/ ~ In (m_from e) (gray ++ fst s)).
Proof.
  induction fuel as [|fuel IH]; intros gray u s OK HU NU LF.
  - exfalso. assert (X : length (u :: gray ++ fst s) <= length vs).
    { apply NoDup_incl_length; [constructor; [exact NU|apply OK]|]. intros x [<-|Hx]; [exact HU|apply (so_incl _ _ OK), Hx]. }
    cbn [length] in X. lia.
  - cbn [dfs_visit]. set (f := fun (s : list nat * list remapping) e => _).
    assert (LOOP : forall rest pre s1, out_edges out_order es u = pre ++ rest ->
      state_ok (u :: gray) s1 -> (exists ext, fst s1 = ext ++ fst s) -> incl (snd s) (snd s1) ->
      (forall e, In e (snd s1) -> In e (snd s) \/ In e pre \/ ~ In (m_from e) (u :: gray ++ fst s)) ->
      (forall e, In e pre -> In e (snd s1) \/ In (m_to e) (fst s1)) ->
      let s2 := fold_left f rest s1 in
      state_ok (u :: gray) s2 /\ (exists ext, fst s2 = ext ++ fst s) /\ incl (snd s) (snd s2) /\
      (forall e, In e (snd s2) -> In e (snd s) \/ In e (out_edges out_order es u) \/ ~ In (m_from e) (u :: gray ++ fst s)) /\
      (forall e, In e (out_edges out_order es u) -> In e (snd s2) \/ In (m_to e) (fst s2))).
    { induction rest as [|e rest IHr]; intros pre s1 EQ OK1 EXT INC SRC DONE.
      - rewrite app_nil_r in EQ. cbn [fold_left]. rewrite EQ. auto 10.
      - cbn [fold_left]. assert (He : In e es /\ m_from e = u) by (apply out_edges_in; rewrite EQ; apply in_or_app; right; left; reflexivity).
        assert (EQ' : out_edges out_order es u = (pre ++ [e]) ++ rest) by (rewrite <- app_assoc; exact EQ).
        assert (NEW : ~ In e pre).
        { pose proof (out_edges_nodup u) as NDo. rewrite EQ in NDo. apply NoDup_remove_2 in NDo. intro C. apply NDo. apply in_or_app. left. exact C. }
        assert (FE : f s1 e = if memb (m_to e) (u :: gray) then (fst s1, snd s1 ++ [e]) else if memb (m_to e) (fst s1) then s1 else dfs_visit out_order fuel es (u :: gray) (m_to e) s1) by reflexivity.
        rewrite FE. clear FE. destruct (memb (m_to e) (u :: gray)) eqn:M1; [|destruct (memb (m_to e) (fst s1)) eqn:M2].
        + apply (IHr (pre ++ [e])); cbn [fst snd]; try assumption.
          * destruct OK1 as [O1 O2 O3 O4 O5 O6]. constructor; cbn [fst snd]; try assumption.
            -- eapply finished_more; [exact O3|]. apply incl_appl, incl_refl.
            -- apply incl_app; [exact O4|]. intros x [<-|[]]. apply He.
            -- intros x Hx. apply in_app_or in Hx. destruct Hx as [Hx|[<-|[]]]; [apply O5, Hx|]. left. symmetry. apply He.
            -- eapply Permutation_NoDup; [apply Permutation_cons_append|]. constructor; [|exact O6]. intro C.
               destruct (SRC e C) as [X|[X|X]]; [|contradiction|apply X; left; symmetry; apply He].
               apply (so_src _ _ OK) in X. apply NU. rewrite (proj2 He) in X. exact X.
          * eapply incl_tran; [exact INC|]. apply incl_appl, incl_refl.
          * intros x Hx. apply in_app_or in Hx. destruct Hx as [Hx|[<-|[]]].
            -- destruct (SRC x Hx) as [X|[X|X]]; [auto|right; left; apply in_or_app; auto|auto].
            -- right. left. apply in_or_app. right. left. reflexivity.
          * intros x Hx. apply in_app_or in Hx. destruct Hx as [Hx|[<-|[]]].
            -- destruct (DONE x Hx) as [X|X]; [left; apply in_or_app; auto|auto].
            -- left. apply in_or_app. right. left. reflexivity.
        + apply (IHr (pre ++ [e])); try assumption.
          * intros x Hx. destruct (SRC x Hx) as [X|[X|X]]; [auto|right; left; apply in_or_app; auto|auto].
          * intros x Hx. apply in_app_or in Hx. destruct Hx as [Hx|[<-|[]]]; [apply DONE, Hx|right; apply memb_in, M2].
        + apply memb_out in M1. apply memb_out in M2.
          assert (NI : ~ In (m_to e) ((u :: gray) ++ fst s1)) by (intro C; apply in_app_or in C; tauto).
          destruct EXT as [ext EXT].
          destruct (IH (u :: gray) (m_to e) s1 OK1 (proj2 (EV e (proj1 He))) NI) as (K1 & (ext2 & K2) & K3 & K4 & K5).
          { rewrite EXT. cbn [app length] in *. rewrite !app_length in *. lia. }
          apply (IHr (pre ++ [e])); try assumption.
          * exists (ext2 ++ ext). rewrite K2, EXT, app_assoc. reflexivity.
          * eapply incl_tran; [exact INC|exact K4].
          * intros x Hx. destruct (K5 x Hx) as [Y|Y].
            -- destruct (SRC x Y) as [X|[X|X]]; [auto|right; left; apply in_or_app; auto|auto].
            -- right. right. intro C. apply Y. rewrite EXT. destruct C as [C|C]; [left; exact C|right].
               apply in_app_or in C. apply in_or_app. destruct C as [C|C]; [left; exact C|right; apply in_or_app; right; exact C].
          * intros x Hx. apply in_app_or in Hx. destruct Hx as [Hx|[<-|[]]].
            -- destruct (DONE x Hx) as [X|X]; [left; apply K4, X|right; rewrite K2; apply in_or_app; right; exact X].
            -- right. exact K3. }
    destruct (LOOP (out_edges out_order es u) [] s eq_refl) as (S1 & (ext & S2) & S3 & S4 & S5).
    { destruct OK as [O1 O2 O3 O4 O5 O6]. constructor; try assumption.
      - cbn [app]. constructor; assumption.
      - intros x [<-|Hx]; [exact HU|apply O2, Hx].
      - intros e He. right. apply O5, He. }
    { exists []. reflexivity. } { apply incl_refl. } { intros e He. left. exact He. } { intros e []. }
    set (s2 := fold_left f (out_edges out_order es u) s) in *. cbv zeta. cbn [fst snd].
    destruct S1 as [O1 O2 O3 O4 O5 O6]. split; [|split; [|split; [|split]]].
    + constructor; cbn [fst snd]; try assumption.
      * apply Permutation_NoDup with ((u :: gray) ++ fst s2); [|exact O1]. cbn [app]. apply Permutation_middle.
      * intros x Hx. apply O2. apply in_app_or in Hx. cbn [app]. destruct Hx as [Hx|[<-|Hx]]; [right; apply in_or_app; auto|left; reflexivity|right; apply in_or_app; auto].
      * intros l1 x l2 EQ e He Hx. destruct l1 as [|y l1]; cbn [app] in EQ; injection EQ as E1 E2.
        -- subst x l2. apply S5. apply out_edges_in. auto.
        -- apply (O3 l1 x l2 E2 e He Hx).
      * intros e He. specialize (O5 e He). cbn [app] in O5. apply in_or_app. destruct O5 as [O5|O5]; [right; left; exact O5|].
        apply in_app_or in O5. destruct O5 as [O5|O5]; [left; exact O5|right; right; exact O5].
    + exists (u :: ext). cbn [app]. rewrite S2. reflexivity.
    + left. reflexivity.
    + exact S3.
    + intros e He. destruct (S4 e He) as [X|[X|X]]; [auto| |right; intro C; apply X; right; exact C].
      right. apply out_edges_in in X. rewrite (proj2 X). exact NU.
Qed.

Definition search : list nat * list remapping := fold_left (fun s v => if memb v (fst s) then s else dfs_visit out_order (length vs) es [] v s) vs ([], []).

Lemma search_spec : finished (fst search) (snd search) /\ incl vs (fst search) /\ NoDup (fst search) /\ incl (snd search) es /\ NoDup (snd search).
Proof.
  assert (G : forall todo doing s, vs = doing ++ todo -> state_ok [] s -> incl doing (fst s) ->
    let s' := fold_left (fun s v => if memb v (fst s) then s else dfs_visit out_order (length vs) es [] v s) todo s in state_ok [] s' /\ incl vs (fst s')).
  { induction todo as [|v todo IH]; intros doing s E OK D; cbn [fold_left].
    - rewrite app_nil_r in E. split; [exact OK|]. rewrite E at 1. exact D.
    - assert (E' : vs = (doing ++ [v]) ++ todo) by (rewrite <- app_assoc; exact E). destruct (memb v (fst s)) eqn:M.
      + apply (IH (doing ++ [v])); [exact E'|exact OK|]. apply incl_app; [exact D|]. intros x [<-|[]]. apply memb_in, M.
      + apply memb_out in M. destruct (dfs_visit_spec (length vs) [] v s OK) as (K1 & (ext & K2) & K3 & _).
        * rewrite E. apply in_or_app. right. left. reflexivity.
        * exact M.
        * lia.
        * apply (IH (doing ++ [v])); [exact E'|exact K1|]. apply incl_app; [|intros x [<-|[]]; exact K3]. rewrite K2. apply incl_appr, D. }
  destruct (G vs [] ([], []) eq_refl) as [OK INC].
  - constructor; cbn [fst snd app].
    + constructor.
    + intros x [].
    + intros l1 x l2 E. destruct l1; discriminate.
    + intros x [].
    + intros x [].
    + constructor.
  - intros x [].
  - fold search in OK, INC. destruct OK as [O1 O2 O3 O4 O5 O6]. auto.
Qed.

(** hence the edges which are no back edges decrease a rank *)
Fixpoint rank (l : list nat) (x : nat) : nat :=
  match l with
  | [] => 0
  | y :: l => if x =? y then S (length l) else rank l x
  end.

Lemma rank_le : forall l x, rank l x <= length l.
Proof. induction l as [|y l IH]; intro x; cbn [rank length]; [lia|]. destruct (x =? y); [lia|]. specialize (IH x). lia. Qed.

Lemma rank_split : forall l1 x l2, ~ In x l1 -> rank (l1 ++ x :: l2) x = S (length l2).
Proof.
  induction l1 as [|y l1 IH]; intros x l2 H; cbn [app rank]; [rewrite Nat.eqb_refl; reflexivity|].
  destruct (Nat.eqb_spec x y) as [->|]; [exfalso; apply H; left; reflexivity|]. apply IH. intro C. apply H. right. exact C.
Qed.

Lemma rank_tail : forall l1 l2 x, ~ In x l1 -> rank (l1 ++ l2) x = rank l2 x.
Proof.
  induction l1 as [|y l1 IH]; intros l2 x H; cbn [app rank]; [reflexivity|].
  destruct (Nat.eqb_spec x y) as [->|]; [exfalso; apply H; left; reflexivity|]. apply IH. intro C. apply H. right. exact C.
Qed.

Lemma search_acyclic : exists rk, forall e, In e es -> ~ In e (snd search) -> rk (m_to e) < rk (m_from e).
Proof.
  destruct search_spec as (F & IV & NDb & _ & _). exists (rank (fst search)). intros e He NB.
  destruct (in_split _ _ (IV _ (proj1 (EV e He)))) as (l1 & l2 & E).
  destruct (F l1 (m_from e) l2 E e He eq_refl) as [X|X]; [contradiction|].
  rewrite E in NDb |- *. rewrite rank_split.
  - assert (N : ~ In (m_to e) (l1 ++ [m_from e])).
    { replace (l1 ++ m_from e :: l2) with ((l1 ++ [m_from e]) ++ l2) in NDb by (rewrite <- app_assoc; reflexivity). clear - NDb X.
      induction (l1 ++ [m_from e]) as [|y l IH]; [intros []|]. cbn [app] in NDb. inversion NDb as [|? ? N1 N2]; subst. intros [->|C]; [apply N1; apply in_or_app; right; exact X|exact (IH N2 C)]. }
    replace (l1 ++ m_from e :: l2) with ((l1 ++ [m_from e]) ++ l2) by (rewrite <- app_assoc; reflexivity).
    rewrite rank_tail by exact N. pose proof (rank_le l2 (m_to e)). lia.
  - apply NoDup_remove_2 in NDb. intro C. apply NDb. apply in_or_app. left. exact C.
Qed.
End Search.

(** ** Back edges close cycles *)
Inductive leads (es : list remapping) : nat -> nat -> Prop :=
| leads_here : forall a, leads es a a
| leads_step : forall a e b, leads es a (m_from e) -> In e es -> m_to e = b -> leads es a b.

Lemma leads_mono : forall es es' a b, incl es es' -> leads es a b -> leads es' a b.
Proof. intros es es' a b I H. induction H as [a|a e b _ IH He E]; [constructor|]. eapply leads_step; [exact IH|apply I, He|exact E]. Qed.

Lemma dfs_visit_cycle : forall out_order es, (forall v l, Permutation (out_order v l) l) ->
  forall fuel gray u s, (forall x, In x gray -> leads es x u) -> (forall e, In e (snd s) -> leads es (m_to e) (m_from e)) ->
  forall e, In e (snd (dfs_visit out_order fuel es gray u s)) -> leads es (m_to e) (m_from e).
Proof.
  intros out_order es OO. induction fuel as [|fuel IH]; intros gray u s G B; [exact B|]. cbn [dfs_visit]. set (f := fun (s : list nat * list remapping) e => _). cbn [snd].
  assert (G' : forall x, In x (u :: gray) -> leads es x u) by (intros x [<-|H]; [constructor|apply G, H]).
  assert (L : forall rest s1, incl rest (out_edges out_order es u) -> (forall e, In e (snd s1) -> leads es (m_to e) (m_from e)) ->
    forall e, In e (snd (fold_left f rest s1)) -> leads es (m_to e) (m_from e)).
  { induction rest as [|e rest IHr]; intros s1 I B1; [exact B1|]. cbn [fold_left].
    assert (He : In e es /\ m_from e = u) by (apply (out_edges_in out_order es OO), I; left; reflexivity).
    apply IHr; [intros x Hx; apply I; right; exact Hx|].
    assert (FE : f s1 e = if memb (m_to e) (u :: gray) then (fst s1, snd s1 ++ [e]) else if memb (m_to e) (fst s1) then s1 else dfs_visit out_order fuel es (u :: gray) (m_to e) s1) by reflexivity.
    rewrite FE. clear FE. destruct (memb (m_to e) (u :: gray)) eqn:M1; [|destruct (memb (m_to e) (fst s1)); [exact B1|]].
    - cbn [snd]. intros x Hx. apply in_app_or in Hx. destruct Hx as [Hx|[<-|[]]]; [apply B1, Hx|]. apply memb_in in M1. rewrite (proj2 He). apply G', M1.
    - apply IH; [|exact B1]. intros x Hx. eapply leads_step; [rewrite (proj2 He); apply G', Hx|apply He|reflexivity]. }
  apply L; [apply incl_refl|exact B].
Qed.

Lemma search_cycle : forall out_order es vs, (forall v l, Permutation (out_order v l) l) -> forall e, In e (snd (search out_order es vs)) -> leads es (m_to e) (m_from e).
Proof.
  intros out_order es vs OO. unfold search.
  assert (G : forall todo s, (forall e, In e (snd s) -> leads es (m_to e) (m_from e)) ->
    forall e, In e (snd (fold_left (fun s v => if memb v (fst s) then s else dfs_visit out_order (length vs) es [] v s) todo s)) -> leads es (m_to e) (m_from e)).
  { induction todo as [|v todo IH]; intros s B; [exact B|]. cbn [fold_left]. apply IH. destruct (memb v (fst s)); [exact B|]. apply dfs_visit_cycle; [exact OO| |exact B]. intros x []. }
  apply G. intros e [].
Qed.

(** ** Building the graph *)
Definition graph_ok (l : list remapping) (g : rgraph) : Prop :=
  NoDup (gv g) /\ NoDup (ge g) /\ incl (ge g) l /\ forall e, In e (ge g) -> In (m_from e) (gv g) /\ In (m_to e) (gv g).

Lemma add_vertex_spec : forall v g, NoDup (gv g) -> NoDup (gv (add_vertex v g)) /\ (forall x, In x (gv (add_vertex v g)) <-> In x (gv g) \/ x = v) /\ ge (add_vertex v g) = ge g.
Proof.
  intros v g H. unfold add_vertex. destruct (memb v (gv g)) eqn:M.
  - split; [exact H|]. split; [|reflexivity]. intro x. split; [auto|]. intros [X | ->]; [exact X|apply memb_in, M].
  - apply memb_out in M. cbn [gv ge]. split; [|split; [|reflexivity]].
    + eapply Permutation_NoDup; [apply Permutation_cons_append|]. constructor; assumption.
    + intro x. rewrite in_app_iff. cbn [In]. intuition.
Qed.

Lemma add_remapping_spec : forall l r g, graph_ok l g -> In r l -> graph_ok l (add_remapping r g) /\
  (forall e, In e (ge (add_remapping r g)) <-> In e (ge g) \/ e = r) /\ gv (add_remapping r g) <> [].
Proof.
  intros l r g (G1 & G2 & G3 & G4) H. unfold add_remapping.
  destruct (add_vertex_spec (m_from r) g G1) as (A1 & A2 & A3). destruct (add_vertex_spec (m_to r) _ A1) as (B1 & B2 & B3).
  set (g2 := add_vertex (m_to r) (add_vertex (m_from r) g)) in *. rewrite A3 in B3.
  assert (NV : gv g2 <> []) by (intro C; assert (X : In (m_to r) (gv g2)) by (apply B2; auto); rewrite C in X; destruct X).
  assert (EV : forall e, In e (ge g) \/ e = r -> In (m_from e) (gv g2) /\ In (m_to e) (gv g2)).
  { intros e [He | ->]; rewrite !B2, !A2; [destruct (G4 e He); auto|auto]. }
  destruct (existsb (req r) (ge g2)) eqn:X.
  - assert (IR : In r (ge g)). { apply existsb_exists in X. destruct X as (y & Hy & E). apply req_true in E. subst y. rewrite B3 in Hy. exact Hy. }
    split; [|split; [|exact NV]].
    + unfold graph_ok. rewrite B3. split; [exact B1|]. split; [exact G2|]. split; [exact G3|]. intros e He. apply EV. auto.
    + intro e. rewrite B3. split; [auto|]. intros [He | ->]; assumption.
  - assert (IR : ~ In r (ge g)).
    { intro C. assert (existsb (req r) (ge g2) = true); [|congruence]. apply existsb_exists. exists r. rewrite B3. split; [exact C|apply req_true; reflexivity]. }
    unfold graph_ok. cbn [gv ge]. rewrite B3. split; [|split; [|exact NV]].
    + split; [exact B1|]. split; [eapply Permutation_NoDup; [apply Permutation_cons_append|constructor; assumption]|]. split.
      * apply incl_app; [exact G3|]. intros x [<-|[]]. exact H.
      * intros e He. apply EV. apply in_app_or in He. destruct He as [He|[<-|[]]]; auto.
    + intro e. rewrite in_app_iff. cbn [In]. intuition.
Qed.

Definition ids_distinct (l : list remapping) : Prop := forall a b, In a l -> In b l -> m_grain a = m_grain b -> a = b.

Lemma find_grain : forall l r, ids_distinct l -> In r l -> find (fun a => m_grain a =? m_grain r) l = Some r.
Proof.
  intros l r D H. destruct (find (fun a => m_grain a =? m_grain r) l) as [x|] eqn:E.
  - apply find_some in E. destruct E as [E1 E2]. apply Nat.eqb_eq in E2. f_equal. apply D; assumption.
  - exfalso. apply (find_none _ _ E) in H. rewrite Nat.eqb_refl in H. discriminate.
Qed.

Lemma pair_loop_spec : forall l ri rs g, ids_distinct l -> In ri l -> incl rs l -> graph_ok l g -> (gv g = [] -> ge g = []) ->
  exists g', pair_loop l ri rs g = Some g' /\ graph_ok l g' /\ incl (ge g) (ge g') /\ (gv g' = [] -> ge g' = []) /\
    forall rj, In rj rs -> ri <> rj -> m_to ri = m_from rj -> In ri (ge g') /\ In rj (ge g').
Proof.
  intros l ri rs g D HI. revert g. induction rs as [|rj rs IH]; intros g IN OK NV; cbn [pair_loop].
  - exists g. split; [reflexivity|]. split; [exact OK|]. split; [apply incl_refl|]. split; [exact NV|]. intros rj [].
  - assert (Hj : In rj l) by (apply IN; left; reflexivity). assert (IN' : incl rs l) by (intros x Hx; apply IN; right; exact Hx).
    destruct (negb (req ri rj) && (m_to ri =? m_from rj)) eqn:C.
    + rewrite (find_grain l rj D Hj). cbn [obind]. destruct (add_remapping_spec l ri g OK HI) as (A1 & A2 & A3). destruct (add_remapping_spec l rj _ A1 Hj) as (B1 & B2 & B3).
      destruct (IH _ IN' B1) as (g' & E & K1 & K2 & K3 & K4); [intro Z; contradiction|]. exists g'. split; [exact E|]. split; [exact K1|]. split.
      * intros x Hx. apply K2, B2. left. apply A2. auto.
      * split; [exact K3|]. intros r [<-|Hr] NE T; [|apply K4; assumption]. split; apply K2, B2; [left; apply A2; auto|auto].
    + destruct (IH g IN' OK NV) as (g' & E & K1 & K2 & K3 & K4). exists g'. split; [exact E|]. split; [exact K1|]. split; [exact K2|]. split; [exact K3|].
      intros r [<-|Hr] NE T; [|apply K4; assumption]. exfalso. rewrite T, Nat.eqb_refl, andb_true_r in C. apply negb_false_iff, req_true in C. contradiction.
Qed.

Lemma build_graph_spec : forall l rs g, ids_distinct l -> incl rs l -> graph_ok l g -> (gv g = [] -> ge g = []) ->
  exists g', build_graph l rs g = Some g' /\ graph_ok l g' /\ incl (ge g) (ge g') /\ (gv g' = [] -> ge g' = []) /\
    forall ri rj, In ri rs -> In rj l -> ri <> rj -> m_to ri = m_from rj -> In ri (ge g') /\ In rj (ge g').
Proof.
  intros l. induction rs as [|ri rs IH]; intros g D IN OK NV; cbn [build_graph].
  - exists g. split; [reflexivity|]. split; [exact OK|]. split; [apply incl_refl|]. split; [exact NV|]. intros ri rj [].
  - destruct (pair_loop_spec l ri l g D (IN ri (or_introl eq_refl)) (incl_refl _) OK NV) as (g1 & E1 & K1 & K2 & K3 & K4). rewrite E1. cbn [obind].
    destruct (IH g1 D) as (g' & E & L1 & L2 & L3 & L4); [intros x Hx; apply IN; right; exact Hx|exact K1|exact K3|].
    exists g'. split; [exact E|]. split; [exact L1|]. split; [eapply incl_tran; eassumption|]. split; [exact L3|].
    intros a b [<-|Ha] Hb NE T; [|apply L4; assumption]. destruct (K4 b Hb NE T). split; apply L2; assumption.
Qed.

(** ** Cutting the cycles *)
Definition temp_pair (e : remapping) : step * step := (mkStep (m_grain e) (Some (m_from e)) None, mkStep (m_grain e) None (Some (m_to e))).

Lemma split_cycles_spec : forall cyc l g temps, NoDup cyc -> NoDup l -> NoDup (ge g) -> incl cyc (ge g) -> incl (ge g) l ->
  exists l' g', split_cycles cyc l g temps = Some (l', g', temps ++ map temp_pair cyc) /\ NoDup l' /\ NoDup (ge g') /\ gv g' = gv g /\
    (forall r, In r l' <-> In r l /\ ~ In r cyc) /\ (forall r, In r (ge g') <-> In r (ge g) /\ ~ In r cyc).
Proof.
  induction cyc as [|e cyc IH]; intros l g temps NC NL NG I1 I2; cbn [split_cycles].
  - exists l, g. cbn [map]. rewrite app_nil_r. split; [reflexivity|]. split; [exact NL|]. split; [exact NG|]. split; [reflexivity|]. split; intro r; cbn [In]; intuition.
  - assert (Hg : In e (ge g)) by (apply I1; left; reflexivity). destruct (take_out_spec e l (I2 e Hg)) as (l1 & El & Pl). destruct (take_out_spec e (ge g) Hg) as (e1 & Ee & Pe).
    rewrite El, Ee. cbn [obind]. inversion NC as [|? ? N1 N2]; subst.
    pose proof (Permutation_NoDup Pl NL) as NL1. pose proof (Permutation_NoDup Pe NG) as NG1. inversion NL1 as [|? ? A1 A2]; inversion NG1 as [|? ? B1 B2]; subst.
    assert (ML : forall r, In r l1 <-> In r l /\ r <> e).
    { intro r. split.
      - intro H. split; [apply (Permutation_in _ (Permutation_sym Pl)); right; exact H|intros ->; contradiction].
      - intros [H1 H2]. apply (Permutation_in _ Pl) in H1. destruct H1 as [H1|H1]; [congruence|exact H1]. }
    assert (MG : forall r, In r e1 <-> In r (ge g) /\ r <> e).
    { intro r. split.
      - intro H. split; [apply (Permutation_in _ (Permutation_sym Pe)); right; exact H|intros ->; contradiction].
      - intros [H1 H2]. apply (Permutation_in _ Pe) in H1. destruct H1 as [H1|H1]; [congruence|exact H1]. }
    destruct (IH l1 (mkGraph (gv g) e1) (temps ++ [temp_pair e]) N2 A2 B2) as (l' & g' & E & K1 & K2 & K3 & K4 & K5).
    + intros r Hr. cbn [ge]. apply MG. split; [apply I1; right; exact Hr|intros ->; contradiction].
    + intros r Hr. cbn [ge] in Hr. apply MG in Hr. apply ML. split; [apply I2, Hr|apply Hr].
    + cbn [ge gv] in *. exists l', g'. split; [unfold temp_pair in E at 1; rewrite E; cbn [map]; rewrite <- app_assoc; reflexivity|]. split; [exact K1|]. split; [exact K2|]. split; [exact K3|]. split; intro r.
      * rewrite K4, ML. cbn [In]. intuition.
      * rewrite K5, MG. cbn [In]. intuition.
Qed.

(** ** Rearranging *)
Definition ordered (l : list remapping) : Prop := forall a r1 b r2 c, l = a ++ r1 :: b ++ r2 :: c -> m_to r1 <> m_from r2.

Lemma move_over_spec : forall ins old new, NoDup ins -> incl ins old -> NoDup old ->
  exists old', move_over ins old new = Some (old', new ++ ins) /\ Permutation old (ins ++ old').
Proof.
  induction ins as [|e ins IH]; intros old new N I NO; cbn [move_over].
  - exists old. rewrite app_nil_r. auto.
  - destruct (take_out_spec e old (I e (or_introl eq_refl))) as (o1 & E & P). rewrite E. cbn [obind]. inversion N as [|? ? N1 N2]; subst.
    pose proof (Permutation_NoDup P NO) as NO1. inversion NO1 as [|? ? A1 A2]; subst. destruct (IH o1 (new ++ [e]) N2) as (o' & E' & P').
    + intros x Hx. assert (X : In x (e :: o1)) by (apply (Permutation_in _ P), I; right; exact Hx). destruct X as [->|X]; [contradiction|exact X].
    + exact A2.
    + exists o'. split; [rewrite E', <- app_assoc; reflexivity|]. rewrite P. cbn [app]. constructor. exact P'.
Qed.

Section Rearrange.
Variables (out_order in_order : nat -> list remapping -> list remapping).
Hypothesis OO : forall v l, Permutation (out_order v l) l.
Hypothesis IO : forall v l, Permutation (in_order v l) l.

Lemma in_edges_in : forall es v e, In e (in_edges in_order es v) <-> In e es /\ m_to e = v.
Proof.
  intros es v e. unfold in_edges. split; intro H.
  - apply (Permutation_in _ (IO _ _)) in H. apply filter_In in H. rewrite Nat.eqb_eq in H. exact H.
  - apply (Permutation_in _ (Permutation_sym (IO _ _))). apply filter_In. rewrite Nat.eqb_eq. exact H.
Qed.

Lemma ready_spec : forall es v, ready out_order in_order es v = true <-> (forall e, In e es -> m_from e <> v) /\ exists e, In e es /\ m_to e = v.
Proof.
  intros es v. unfold ready. destruct (out_edges out_order es v) as [|o os] eqn:EO.
  - assert (NO : forall e, In e es -> m_from e <> v).
    { intros e He C. assert (X : In e (out_edges out_order es v)) by (apply (out_edges_in out_order es OO); auto). rewrite EO in X. destruct X. }
    destruct (in_edges in_order es v) as [|i is] eqn:EI.
    + split; [discriminate|]. intros [_ (e & H1 & H2)]. assert (X : In e (in_edges in_order es v)) by (apply in_edges_in; auto). rewrite EI in X. destruct X.
    + split; [|reflexivity]. intros _. split; [exact NO|]. exists i. apply in_edges_in. rewrite EI. left. reflexivity.
  - split; [discriminate|]. intros [H _]. exfalso. assert (X : In o es /\ m_from o = v) by (apply (out_edges_in out_order es OO); rewrite EO; left; reflexivity).
    apply (H o); apply X.
Qed.

(** an acyclic graph with an edge has a vertex ready *)
Lemma ready_exists : forall (rk : nat -> nat) es, (forall e, In e es -> rk (m_to e) < rk (m_from e)) -> es <> [] ->
  exists e, In e es /\ ready out_order in_order es (m_to e) = true.
Proof.
  intros rk es H NE.
  assert (G : forall n e, In e es -> rk (m_to e) <= n -> exists e', In e' es /\ ready out_order in_order es (m_to e') = true).
  { induction n as [|n IH]; intros e He Hn.
    - exists e. split; [exact He|]. apply ready_spec. split; [|eauto]. intros x Hx C. specialize (H x Hx). rewrite C in H. lia.
    - destruct (existsb (fun x => m_from x =? m_to e) es) eqn:X.
      + apply existsb_exists in X. destruct X as (x & Hx & E). apply Nat.eqb_eq in E. apply (IH x Hx). specialize (H x Hx). rewrite E in H. lia.
      + exists e. split; [exact He|]. apply ready_spec. split; [|eauto]. intros x Hx C. assert (Y : existsb (fun x => m_from x =? m_to e) es = true); [|congruence].
        apply existsb_exists. exists x. split; [exact Hx|]. apply Nat.eqb_eq. exact C. }
  destruct es as [|e es']; [contradiction|]. apply (G _ e (or_introl eq_refl) (le_n _)).
Qed.

Section Loop.
Variables (rk : nat -> nat) (l0 es0 : list remapping).
Hypothesis DEP : forall a b, In a l0 -> In b l0 -> a <> b -> m_to a = m_from b -> In a es0 /\ In b es0.
Hypothesis NL : forall r, In r l0 -> m_from r <> m_to r.

Record loop_ok (g : rgraph) (old new : list remapping) : Prop := {
  lo_perm : Permutation l0 (new ++ old);
  lo_nodup : NoDup (new ++ old);
  lo_edges : incl (ge g) old;
  lo_done : forall e, In e es0 -> In e (ge g) \/ In e new;
  lo_once : NoDup (ge g);
  lo_ends : forall e, In e (ge g) -> In (m_from e) (gv g) /\ In (m_to e) (gv g);
  lo_rank : forall e, In e (ge g) -> rk (m_to e) < rk (m_from e);
  lo_new : ordered new;
  lo_cross : forall a b, In a new -> In b old -> m_to a <> m_from b }.

Lemma loop_end : forall g old new, loop_ok g old new -> ge g = [] -> ordered (new ++ old).
Proof.
  intros g old new [L1 L2 L3 L4 L5 L6 L7 L8 L9] Z.
  assert (OLD : forall a b, In a old -> In b old -> m_to a <> m_from b).
  { intros a b Ha Hb C. assert (INL : forall x, In x old -> In x l0) by (intros x Hx; apply (Permutation_in _ (Permutation_sym L1)), in_or_app; auto).
    destruct (req a b) eqn:R; [apply req_true in R; subst b; apply (NL a (INL a Ha)); congruence|].
    destruct (DEP a b (INL a Ha) (INL b Hb)) as [D _]; [intros ->; assert (req b b = true) by (apply req_true; reflexivity); congruence|exact C|].
    destruct (L4 a D) as [X|X]; [rewrite Z in X; destruct X|]. clear - L2 X Ha. induction new as [|y new IH]; [destruct X|].
    cbn [app] in L2. inversion L2 as [|? ? N1 N2]; subst. destruct X as [->|X]; [apply N1, in_or_app; right; exact Ha|exact (IH N2 X)]. }
  intros a r1 b r2 c E. assert (S : (exists b', new = a ++ r1 :: b' ) \/ In r1 old).
  { revert a E. clear. induction new as [|y new IH]; intros a E; cbn [app] in E.
    - right. rewrite E. apply in_or_app. right. left. reflexivity.
    - destruct a as [|z a]; cbn [app] in E; injection E as -> E.
      + left. exists new. reflexivity.
      + destruct (IH a E) as [(b' & ->)|H]; [left; exists b'; reflexivity|right; exact H]. }
  destruct S as [(b' & EN)|HO].
  - rewrite EN in E. rewrite <- app_assoc in E. cbn [app] in E. apply app_inv_head in E. injection E as E.
    assert (S2 : (exists c', b' = b ++ r2 :: c') \/ In r2 old).
    { revert b E. clear. induction b' as [|y b' IH]; intros b E; cbn [app] in E.
      - right. rewrite E. apply in_or_app. right. left. reflexivity.
      - destruct b as [|z b]; cbn [app] in E; injection E as -> E.
        + left. exists b'. reflexivity.
        + destruct (IH b E) as [(c' & ->)|H]; [left; exists c'; reflexivity|right; exact H]. }
    destruct S2 as [(c' & ->)|H2]; [apply (L8 a r1 b r2 c'); exact EN|]. apply L9; [|exact H2]. rewrite EN. apply in_or_app. right. left. reflexivity.
  - assert (H2 : In r2 old).
    { assert (IR : In r2 (new ++ old)) by (rewrite E; apply in_or_app; right; right; apply in_or_app; right; left; reflexivity).
      apply in_app_or in IR. destruct IR as [IR|IR]; [exfalso|exact IR].
      (* r2 in new but r1, before it, in old *)
      clear - E HO IR L2. revert a E L2 IR. induction new as [|y new IH]; intros a E L2 IR; [destruct IR|]. cbn [app] in *. inversion L2 as [|? ? N1 N2]; subst.
      destruct a as [|z a]; cbn [app] in E; injection E as -> E.
      - apply N1. apply in_or_app. right. exact HO.
      - destruct IR as [->|IR]; [|exact (IH a E N2 IR)]. apply N1. rewrite E. apply in_or_app. right. right. apply in_or_app. right. left. reflexivity. }
    apply OLD; assumption.
Qed.

Lemma ordered_app : forall a b, ordered a -> ordered b -> (forall x y, In x a -> In y b -> m_to x <> m_from y) -> ordered (a ++ b).
Proof.
  intros a b OA OB X p r1 q r2 s E. revert p E. induction a as [|y a IH]; intros p E; cbn [app] in E; [apply (OB p r1 q r2 s E)|].
  destruct p as [|z p]; cbn [app] in E; injection E as -> E.
  - assert (IR : In r2 (a ++ b)) by (rewrite E; apply in_or_app; right; left; reflexivity). apply in_app_or in IR. destruct IR as [IR|IR].
    + apply in_split in IR. destruct IR as (s1 & s2 & EA). apply (OA [] r1 s1 r2 s2). cbn [app]. rewrite EA. reflexivity.
    + apply X; [left; reflexivity|exact IR].
  - apply (IH) with (p := p); [| |exact E].
    + intros p' x q' x' s' E'. apply (OA (z :: p') x q' x' s'). cbn [app]. rewrite E'. reflexivity.
    + intros x x' Hx. apply X. right. exact Hx.
Qed.

Lemma rearrange_loop_spec : forall fuel g old new, loop_ok g old new -> length (gv g) < fuel ->
  exists old' new', rearrange_loop out_order in_order fuel g old new = Some (old', new') /\ Permutation l0 (new' ++ old') /\ ordered (new' ++ old').
Proof.
  induction fuel as [|fuel IH]; intros g old new OK HF; [lia|]. cbn [rearrange_loop].
  destruct (find (ready out_order in_order (ge g)) (gv g)) as [v|] eqn:F.
  - apply find_some in F. destruct F as [Fv Fr]. apply ready_spec in Fr. destruct Fr as [R1 R2]. pose proof OK as [L1 L2 L3 L4 L5 L6 L7 L8 L9].
    set (ins := in_edges in_order (ge g) v). assert (MI : forall e, In e ins <-> In e (ge g) /\ m_to e = v) by (intro e; apply in_edges_in).
    destruct (move_over_spec ins old new) as (old' & E & P).
    { unfold ins, in_edges. eapply Permutation_NoDup; [apply Permutation_sym, IO|]. apply NoDup_filter, L5. }
    { intros e He. apply L3. apply MI in He. apply He. }
    { clear - L2. induction new; [exact L2|]. cbn [app] in L2. inversion L2; auto. }
    rewrite E. cbn [obind fst snd].
    assert (P2 : Permutation (new ++ old) ((new ++ ins) ++ old')) by (rewrite <- app_assoc; apply Permutation_app_head, P).
    apply IH.
    + constructor; cbn [ge gv].
      * eapply Permutation_trans; eassumption.
      * eapply Permutation_NoDup; eassumption.
      * intros e He. apply filter_In in He. destruct He as [H1 H2]. apply andb_true_iff in H2. destruct H2 as [_ H2]. apply negb_true_iff, Nat.eqb_neq in H2.
        assert (X : In e (ins ++ old')) by (apply (Permutation_in _ P), L3, H1). apply in_app_or in X. destruct X as [X|X]; [apply MI in X; destruct X; contradiction|exact X].
      * intros e He. destruct (L4 e He) as [X|X]; [|right; apply in_or_app; auto]. destruct (Nat.eq_dec (m_to e) v) as [T|T].
        -- right. apply in_or_app. right. apply MI. auto.
        -- left. apply filter_In. split; [exact X|]. apply andb_true_iff. split; apply negb_true_iff, Nat.eqb_neq; [apply R1, X|exact T].
      * apply NoDup_filter, L5.
      * intros e He. apply filter_In in He. destruct He as [H1 H2]. apply andb_true_iff in H2. destruct (L6 e H1) as [X1 X2]. split; apply filter_In; tauto.
      * intros e He. apply filter_In in He. apply L7, He.
      * apply ordered_app; [exact L8| |].
        -- intros a r1 b r2 c EQ C. assert (H1 : In r1 ins) by (rewrite EQ; apply in_or_app; right; left; reflexivity).
           assert (H2 : In r2 ins) by (rewrite EQ; apply in_or_app; right; right; apply in_or_app; right; left; reflexivity).
           apply MI in H1. apply MI in H2. apply (R1 r2 (proj1 H2)). rewrite <- C. apply H1.
        -- intros x y Hx Hy. apply L9; [exact Hx|]. apply L3. apply MI in Hy. apply Hy.
      * intros a b Ha Hb C. assert (Hb' : In b old) by (apply (Permutation_in _ (Permutation_sym P)), in_or_app; right; exact Hb).
        apply in_app_or in Ha. destruct Ha as [Ha|Ha]; [exact (L9 a b Ha Hb' C)|]. apply MI in Ha. destruct Ha as [Ha T].
        assert (INL : forall x, In x old -> In x l0) by (intros x Hx; apply (Permutation_in _ (Permutation_sym L1)), in_or_app; auto).
        destruct (DEP a b) as [_ D]; [apply INL, L3, Ha|apply INL, Hb'| |exact C|].
        { intros ->. apply (NL b (INL b Hb')). congruence. }
        destruct (L4 b D) as [X|X]; [apply (R1 b X); congruence|].
        clear - L2 X Hb'. induction new as [|y new IHn]; [destruct X|]. cbn [app] in L2. inversion L2 as [|? ? N1 N2]; subst.
        destruct X as [->|X]; [apply N1, in_or_app; right; exact Hb'|exact (IHn N2 X)].
    + cbn [gv]. assert (LT : length (filter (fun w => negb (w =? v)) (gv g)) < length (gv g)).
      { clear - Fv. induction (gv g) as [|w vs IHv]; [destruct Fv|]. cbn [filter length]. destruct (Nat.eqb_spec w v) as [->|NE]; cbn [negb].
        - assert (X : length (filter (fun w => negb (w =? v)) vs) <= length vs); [|lia]. clear. induction vs as [|a vs IH]; cbn [filter length]; [lia|]. destruct (negb (a =? v)); cbn [length]; lia.
        - destruct Fv as [->|Fv]; [contradiction|]. specialize (IHv Fv). cbn [length]. lia. }
      lia.
  - exists old, new. split; [reflexivity|]. split; [apply OK|]. apply (loop_end g); [exact OK|].
    destruct (ge g) as [|e es] eqn:EG; [reflexivity|exfalso]. destruct (ready_exists rk (ge g)) as (x & H1 & H2); [apply OK|rewrite EG; discriminate|].
    pose proof (find_none _ _ F (m_to x) (proj2 (lo_ends _ _ _ OK x H1))) as X. rewrite EG in *. congruence.
Qed.
End Loop.

(** ** The whole schedule *)
Definition good_schedule (l : list remapping) (sq : list step) : Prop :=
  exists cyc rest, sq = map fst (rev (map temp_pair cyc)) ++ map step_of rest ++ map snd (map temp_pair cyc) /\
    Permutation l (cyc ++ rest) /\ ordered rest /\ forall e, In e cyc -> leads l (m_to e) (m_from e).

Lemma fold_temps : forall temps (base : list step), fold_left (fun s p => fst p :: s ++ [snd p]) temps base = map fst (rev temps) ++ base ++ map snd temps.
Proof.
  induction temps as [|p temps IH]; intro base; cbn [fold_left rev map]; [rewrite app_nil_r; reflexivity|].
  rewrite IH, map_app. cbn [map]. rewrite <- app_assoc. cbn [app]. rewrite <- app_assoc. reflexivity.
Qed.

Lemma schedule_spec : forall l, NoDup l -> ids_distinct l -> (forall r, In r l -> m_from r <> m_to r) ->
  exists sq, schedule out_order in_order l = Some sq /\ good_schedule l sq.
Proof.
  intros l ND D NL. unfold schedule.
  destruct (build_graph_spec l l (mkGraph [] []) D (incl_refl _)) as (g & E & (G1 & G2 & G3 & G4) & _ & NV & DEP).
  { split; [constructor|]. split; [constructor|]. split; [intros x []|intros e []]. } { reflexivity. }
  rewrite E. cbn [obind]. destruct (gv g) as [|v0 vs0] eqn:EV.
  - exists (map step_of l). split; [reflexivity|]. exists [], l. split; [cbn; rewrite app_nil_r; reflexivity|]. split; [reflexivity|]. split; [|intros e []].
    intros a r1 b r2 c EQ T. assert (H1 : In r1 l) by (rewrite EQ; apply in_or_app; right; left; reflexivity).
    assert (H2 : In r2 l) by (rewrite EQ; apply in_or_app; right; right; apply in_or_app; right; left; reflexivity).
    destruct (DEP r1 r2 H1 H2) as [X _]; [intros ->; apply (NL r2 H2); congruence|exact T|]. rewrite (NV eq_refl) in X. destruct X.
  - rewrite <- EV in *. clear EV v0 vs0 NV. unfold resolve_cycles.
    assert (DS : dfs out_order g = search out_order (ge g) (gv g)) by reflexivity. rewrite DS.
    destruct (search_spec out_order (ge g) (gv g) OO G2 G4) as (_ & _ & _ & CI & CN).
    destruct (search_acyclic out_order (ge g) (gv g) OO G2 G4) as [rk RK].
    set (cyc := snd (search out_order (ge g) (gv g))) in *.
    destruct (split_cycles_spec cyc l g [] CN ND G2 CI G3) as (l' & g' & ES & N1 & N2 & EV' & ML & MG). rewrite ES. cbn [obind app].
    unfold rearrange.
    destruct (rearrange_loop_spec rk l' (ge g')) with (fuel := S (length (gv g'))) (g := g') (old := l') (new := @nil remapping) as (old' & new' & ER & PM & OR).
    + intros a b Ha Hb NE T. apply ML in Ha. apply ML in Hb. destruct (DEP a b (proj1 Ha) (proj1 Hb) NE T) as [X Y]. split; apply MG; tauto.
    + intros r Hr. apply ML in Hr. apply NL, Hr.
    + constructor; cbn [app].
      * reflexivity.
      * exact N1.
      * intros e He. apply MG in He. apply ML. split; [apply G3|]; apply He.
      * auto.
      * exact N2.
      * intros e He. rewrite EV'. apply G4. apply MG in He. apply He.
      * intros e He. apply MG in He. apply RK; apply He.
      * intros a r1 b r2 c X. destruct a; discriminate.
      * intros a b [].
    + lia.
    + rewrite ER. cbn [obind fst snd]. eexists. split; [reflexivity|]. exists cyc, (new' ++ old'). split; [apply fold_temps|]. split; [|split; [exact OR|intros e He; apply (leads_mono (ge g) l _ _ G3); exact (search_cycle out_order (ge g) (gv g) OO e He)]].
      rewrite <- PM. apply NoDup_Permutation; [exact ND| |].
      * apply (Permutation_NoDup (l := cyc ++ l')); [reflexivity|]. clear - CN N1 ML. induction cyc as [|c cyc IH]; [exact N1|].
        cbn [app]. inversion CN as [|? ? C1 C2]; subst. constructor.
        -- intro X. apply in_app_or in X. destruct X as [X|X]; [contradiction|]. apply ML in X. apply (proj2 X). left. reflexivity.
        -- assert (ND' : forall x, In x l' -> ~ In x cyc) by (intros x Hx C; apply ML in Hx; apply (proj2 Hx); right; exact C).
           clear - C2 N1 ND'. induction cyc as [|d cyc IH]; [exact N1|]. cbn [app]. inversion C2 as [|? ? D1 D2]; subst. constructor.
           ++ intro X. apply in_app_or in X. destruct X as [X|X]; [contradiction|]. apply (ND' d X). left. reflexivity.
           ++ apply IH; [exact D2|]. intros x Hx C. apply (ND' x Hx). right. exact C.
      * intro r. rewrite in_app_iff, ML. split; [|intros [X|X]; [apply G3, CI, X|apply X]]. intro Hr.
        destruct (existsb (req r) cyc) eqn:X.
        -- left. apply existsb_exists in X. destruct X as (y & Hy & EQ). apply req_true in EQ. subst y. exact Hy.
        -- right. split; [exact Hr|]. intro C. assert (existsb (req r) cyc = true); [|congruence]. apply existsb_exists. exists r. split; [exact C|apply req_true; reflexivity].
Qed.
End Rearrange.

(** ** Executing a schedule at a cell *)
Section Run.
Variables (V : Type) (zero : V) (n_blocks offset : nat).

Lemma set_dofs_spec : forall dofs b (val : nat -> V) u b' d,
  (b' = b -> In d dofs -> set_dofs V dofs b val u b' d = val d) /\ (b' <> b \/ ~ In d dofs -> set_dofs V dofs b val u b' d = u b' d).
Proof.
  intros dofs b val u b' d. unfold set_dofs. destruct (Nat.eqb_spec b' b) as [->|NE]; cbn [andb]; [|split; [contradiction|reflexivity]].
  destruct (memb d dofs) eqn:M; [apply memb_in in M|apply memb_out in M]; split; auto; [intros [C|C]; contradiction|contradiction].
Qed.

Fixpoint run_st (dofs : list nat) (copy : bvector V) (seq : list step) (temp : list (nat -> V)) (u : bvector V) : option (list (nat -> V) * bvector V) :=
  match seq with
  | [] => Some (temp, u)
  | st :: r =>
      vt <- match st_from st with
            | Some f => if f + offset <? n_blocks then Some (copy (f + offset), temp) else None
            | None => match temp with v :: temp => Some (v, temp) | [] => None end
            end ;;
      ut <- match st_to st with
            | Some t => if t + offset <? n_blocks then Some (set_dofs V dofs (t + offset) (fst vt) u, snd vt) else None
            | None => Some (u, fst vt :: snd vt)
            end ;;
      let u := match st_from st with
               | Some f => set_dofs V dofs (f + offset) (fun _ => zero) (fst ut)
               | None => fst ut
               end in
      run_st dofs copy r (snd ut) u
  end.

Lemma run_run_st : forall dofs copy seq temp u, run V zero n_blocks offset dofs copy seq temp u = p <- run_st dofs copy seq temp u ;; Some (snd p).
Proof.
  intros dofs copy. induction seq as [|st seq IH]; intros temp u; [reflexivity|]. cbn [run run_st].
  destruct (match st_from st with Some f => _ | None => _ end) as [vt|]; [|reflexivity]. cbn [obind].
  destruct (match st_to st with Some f => _ | None => _ end) as [ut|]; [|reflexivity]. cbn [obind]. apply IH.
Qed.

Lemma run_st_app : forall dofs copy s1 s2 temp u, run_st dofs copy (s1 ++ s2) temp u = p <- run_st dofs copy s1 temp u ;; run_st dofs copy s2 (fst p) (snd p).
Proof.
  intros dofs copy. induction s1 as [|st s1 IH]; intros s2 temp u; [reflexivity|]. cbn [app run_st].
  destruct (match st_from st with Some f => _ | None => _ end) as [vt|]; [|reflexivity]. cbn [obind].
  destruct (match st_to st with Some f => _ | None => _ end) as [ut|]; [|reflexivity]. cbn [obind]. apply IH.
Qed.

Definition blocks_ok (l : list remapping) : Prop := forall r, In r l -> m_from r + offset < n_blocks /\ m_to r + offset < n_blocks.

(** the pass into the temporary storage *)
Lemma run_to_temps : forall dofs copy cyc temp u, blocks_ok cyc ->
  exists u', run_st dofs copy (map fst (rev (map temp_pair cyc))) temp u = Some (map (fun e => copy (m_from e + offset)) cyc ++ temp, u') /\
    (forall b d, (exists e, In e cyc /\ b = m_from e + offset) -> In d dofs -> u' b d = zero) /\
    (forall b d, (forall e, In e cyc -> b <> m_from e + offset) \/ ~ In d dofs -> u' b d = u b d).
Proof.
  intros dofs copy. induction cyc as [|e cyc IH]; intros temp u OK.
  - exists u. split; [reflexivity|]. split; [intros b d (e & [] & _)|reflexivity].
  - destruct (OK e (or_introl eq_refl)) as [Bf Bt]. destruct (IH temp u) as (u1 & E & Z & U); [intros r Hr; apply OK; right; exact Hr|].
    cbn [map rev]. rewrite map_app, run_st_app, E. cbn [obind fst snd map run_st temp_pair st_from st_to].
    apply Nat.ltb_lt in Bf. rewrite Bf. cbn [obind fst snd]. eexists. split; [reflexivity|]. split.
    + intros b d (x & [<-|Hx] & EB) Hd.
      * apply (proj1 (set_dofs_spec dofs (m_from e + offset) (fun _ => zero) u1 b d) EB Hd).
      * destruct (Nat.eq_dec b (m_from e + offset)) as [EB'|NB].
        -- apply (proj1 (set_dofs_spec dofs (m_from e + offset) (fun _ => zero) u1 b d) EB' Hd).
        -- rewrite (proj2 (set_dofs_spec dofs (m_from e + offset) (fun _ => zero) u1 b d) (or_introl NB)). apply Z; [eauto|exact Hd].
    + intros b d H. rewrite (proj2 (set_dofs_spec dofs (m_from e + offset) (fun _ => zero) u1 b d)).
      * apply U. destruct H as [H|H]; [left; intros x Hx; apply H; right; exact Hx|right; exact H].
      * destruct H as [H|H]; [left; apply H; left; reflexivity|right; exact H].
Qed.

(** the pass back from the temporary storage *)
Lemma run_from_temps : forall dofs copy cyc u, blocks_ok cyc -> NoDup (map m_to cyc) ->
  exists u', run_st dofs copy (map snd (map temp_pair cyc)) (map (fun e => copy (m_from e + offset)) cyc) u = Some ([], u') /\
    (forall e d, In e cyc -> In d dofs -> u' (m_to e + offset) d = copy (m_from e + offset) d) /\
    (forall b d, (forall e, In e cyc -> b <> m_to e + offset) \/ ~ In d dofs -> u' b d = u b d).
Proof.
  intros dofs copy. induction cyc as [|e cyc IH]; intros u OK ND.
  - exists u. split; [reflexivity|]. split; [intros e d []|reflexivity].
  - destruct (OK e (or_introl eq_refl)) as [Bf Bt]. cbn [map run_st temp_pair st_from st_to snd obind fst]. apply Nat.ltb_lt in Bt. rewrite Bt. cbn [obind fst snd].
    cbn [map] in ND. inversion ND as [|? ? N1 N2]; subst.
    destruct (IH (set_dofs V dofs (m_to e + offset) (copy (m_from e + offset)) u)) as (u1 & E & W & U); [intros r Hr; apply OK; right; exact Hr|exact N2|].
    exists u1. split; [exact E|]. split.
    + intros x d [<-|Hx] Hd; [|apply W; assumption]. rewrite U.
      * apply (proj1 (set_dofs_spec dofs (m_to e + offset) (copy (m_from e + offset)) u _ d) eq_refl Hd).
      * left. intros y Hy C. apply N1. apply in_map_iff. exists y. split; [lia|exact Hy].
    + intros b d H. rewrite U; [|destruct H as [H|H]; [left; intros x Hx; apply H; right; exact Hx|right; exact H]].
      apply (proj2 (set_dofs_spec dofs (m_to e + offset) (copy (m_from e + offset)) u b d)). destruct H as [H|H]; [left; apply H; left; reflexivity|right; exact H].
Qed.

(** the plain moves *)
Lemma run_moves : forall dofs copy l temp u, blocks_ok l -> NoDup (map m_to l) -> ordered l -> (forall r, In r l -> m_from r <> m_to r) ->
  exists u', run_st dofs copy (map step_of l) temp u = Some (temp, u') /\
    (forall r d, In r l -> In d dofs -> u' (m_to r + offset) d = copy (m_from r + offset) d) /\
    (forall r d, In r l -> ~ In (m_from r) (map m_to l) -> In d dofs -> u' (m_from r + offset) d = zero) /\
    (forall b d, (forall r, In r l -> b <> m_from r + offset /\ b <> m_to r + offset) \/ ~ In d dofs -> u' b d = u b d).
Proof.
  intros dofs copy. induction l as [|r l IH]; intros temp u OK ND OR NL.
  - exists u. split; [reflexivity|]. split; [intros r d []|]. split; [intros r d []|reflexivity].
  - destruct (OK r (or_introl eq_refl)) as [Bf Bt]. cbn [map run_st step_of st_from st_to]. apply Nat.ltb_lt in Bf. apply Nat.ltb_lt in Bt. rewrite Bf. cbn [obind fst snd]. rewrite Bt. cbn [obind fst snd].
    cbn [map] in ND. inversion ND as [|? ? N1 N2]; subst. pose proof (NL r (or_introl eq_refl)) as NR.
    set (u1 := set_dofs V dofs (m_from r + offset) (fun _ => zero) (set_dofs V dofs (m_to r + offset) (copy (m_from r + offset)) u)).
    assert (U1 : forall b d, (b = m_to r + offset -> In d dofs -> u1 b d = copy (m_from r + offset) d) /\ (b = m_from r + offset -> In d dofs -> u1 b d = zero) /\
      ((b <> m_from r + offset /\ b <> m_to r + offset) \/ ~ In d dofs -> u1 b d = u b d)).
    { intros b d. destruct (set_dofs_spec dofs (m_from r + offset) (fun _ => zero) (set_dofs V dofs (m_to r + offset) (copy (m_from r + offset)) u) b d) as [A1 A2].
      destruct (set_dofs_spec dofs (m_to r + offset) (copy (m_from r + offset)) u b d) as [B1 B2]. fold u1 in A1, A2. split; [|split].
      - intros E Hd. rewrite A2 by (left; lia). apply B1; assumption.
      - exact A1.
      - intros [[H1 H2]|H]; (rewrite A2; [apply B2|]); auto. }
    destruct (IH temp u1) as (u' & E & W & Z & U); [intros x Hx; apply OK; right; exact Hx|exact N2| |intros x Hx; apply NL; right; exact Hx|].
    { intros a r1 b r2 c EQ. apply (OR (r :: a) r1 b r2 c). cbn [app]. rewrite EQ. reflexivity. }
    exists u'. split; [exact E|]. split; [|split].
    + intros x d [<-|Hx] Hd; [|apply W; assumption]. rewrite U; [apply U1; [reflexivity|exact Hd]|]. left. intros y Hy. split; intro C.
      * apply in_split in Hy. destruct Hy as (a & b & EQ). apply (OR [] r a y b); [cbn [app]; rewrite EQ; reflexivity|lia].
      * apply N1. apply in_map_iff. exists y. split; [lia|exact Hy].
    + intros x d Hx NT Hd. cbn [map] in NT.
      assert (NT' : ~ In (m_from x) (map m_to l)) by (intro C; apply NT; right; exact C).
      destruct (in_dec Nat.eq_dec (m_from x) (map m_from l)) as [I|I].
      * apply in_map_iff in I. destruct I as (y & EY & Hy). rewrite <- EY in *. apply Z; assumption.
      * destruct Hx as [<-|Hx]; [|exfalso; apply I; apply in_map; exact Hx]. rewrite U; [apply U1; [reflexivity|exact Hd]|].
        left. intros y Hy. split; intro C; [apply I|apply NT']; apply in_map_iff; exists y; (split; [lia|exact Hy]).
    + intros b d [H|H].
      * rewrite U by (left; intros x Hx; apply H; right; exact Hx). apply U1. left. apply H. left. reflexivity.
      * rewrite U by (right; exact H). apply U1. right. exact H.
Qed.

Definition effect (M : list remapping) (dofs : list nat) (copy u u' : bvector V) : Prop :=
  (forall r d, In r M -> In d dofs -> u' (m_to r + offset) d = copy (m_from r + offset) d) /\
  (forall r d, In r M -> ~ In (m_from r) (map m_to M) -> In d dofs -> u' (m_from r + offset) d = zero) /\
  (forall b d, (forall r, In r M -> b <> m_from r + offset /\ b <> m_to r + offset) \/ ~ In d dofs -> u' b d = u b d).

Lemma run_schedule : forall l sq dofs copy u, good_schedule l sq -> blocks_ok l -> NoDup (map m_to l) -> (forall r, In r l -> m_from r <> m_to r) ->
  exists u', run V zero n_blocks offset dofs copy sq [] u = Some u' /\ effect l dofs copy u u'.
Proof.
  intros l sq dofs copy u (cyc & rest & -> & P & OR & _) OK ND NL. rewrite run_run_st, !run_st_app.
  assert (IC : forall r, In r cyc -> In r l) by (intros r H; apply (Permutation_in _ (Permutation_sym P)), in_or_app; auto).
  assert (IR : forall r, In r rest -> In r l) by (intros r H; apply (Permutation_in _ (Permutation_sym P)), in_or_app; auto).
  assert (IL : forall r, In r l -> In r cyc \/ In r rest) by (intros r H; apply in_app_or, (Permutation_in _ P), H).
  assert (NDa : NoDup (map m_to cyc ++ map m_to rest)) by (rewrite <- map_app; eapply Permutation_NoDup; [apply Permutation_map, P|exact ND]).
  assert (DJ : forall a b, In a cyc -> In b rest -> m_to a <> m_to b).
  { intros a b Ha Hb C. clear - NDa Ha Hb C. induction cyc as [|x cyc IH]; [destruct Ha|]. cbn [map app] in NDa. inversion NDa as [|? ? N1 N2]; subst. destruct Ha as [->|Ha]; [|exact (IH N2 Ha)].
    apply N1. apply in_or_app. right. rewrite C. apply in_map. exact Hb. }
  destruct (run_to_temps dofs copy cyc [] u) as (u1 & E1 & Z1 & U1); [intros r H; apply OK, IC, H|]. rewrite E1. cbn [obind fst snd]. rewrite app_nil_r.
  destruct (run_moves dofs copy rest (map (fun e => copy (m_from e + offset)) cyc) u1) as (u2 & E2 & W2 & Z2 & U2).
  { intros r H; apply OK, IR, H. } { clear - NDa. induction (map m_to cyc); [exact NDa|]. cbn [app] in NDa. inversion NDa; auto. } { exact OR. } { intros r H. apply NL, IR, H. }
  rewrite run_st_app, E2. cbn [obind fst snd].
  destruct (run_from_temps dofs copy cyc u2) as (u3 & E3 & W3 & U3).
  { intros r H; apply OK, IC, H. } { clear - NDa. induction (map m_to cyc) as [|x m IH]; [constructor|]. cbn [app] in NDa. inversion NDa as [|? ? N1 N2]; subst. constructor; [intro C; apply N1, in_or_app; auto|apply IH, N2]. }
  rewrite E3. cbn [obind snd]. exists u3. split; [reflexivity|]. split; [|split].
  - intros r d Hr Hd. destruct (IL r Hr) as [H|H]; [apply W3; assumption|]. rewrite U3; [apply W2; assumption|]. left. intros e He C. apply (DJ e r He H). lia.
  - intros r d Hr NT Hd. assert (NT' : forall x, In x l -> m_to x <> m_from r) by (intros x Hx C; apply NT; apply in_map_iff; exists x; auto).
    rewrite U3; [|left; intros e He C; apply (NT' e (IC e He)); lia].
    destruct (existsb (fun x => m_from x =? m_from r) rest) eqn:X.
    + apply existsb_exists in X. destruct X as (y & Hy & EY). apply Nat.eqb_eq in EY. rewrite <- EY. apply Z2; [exact Hy| |exact Hd].
      intro C. apply in_map_iff in C. destruct C as (x & C1 & C2). apply (NT' x (IR x C2)). congruence.
    + assert (NR : forall x, In x rest -> m_from x <> m_from r).
      { intros x Hx C. assert (Y : existsb (fun x => m_from x =? m_from r) rest = true); [|congruence]. apply existsb_exists. exists x. split; [exact Hx|apply Nat.eqb_eq, C]. }
      rewrite U2; [|left; intros x Hx; split; intro C; [apply (NR x Hx)|apply (NT' x (IR x Hx))]; lia].
      destruct (IL r Hr) as [H|H]; [|exfalso; exact (NR r H eq_refl)]. apply Z1; [eauto|exact Hd].
  - intros b d [H|H].
    + rewrite U3 by (left; intros x Hx; apply (H x (IC x Hx))). rewrite U2 by (left; intros x Hx; apply (H x (IR x Hx))). apply U1. left. intros x Hx. apply (H x (IC x Hx)).
    + rewrite U3, U2, U1 by (right; exact H). reflexivity.
Qed.
End Run.
