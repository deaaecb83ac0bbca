(** C106: making a packing of spheres connected (check_particle_connectivity.py). *)
From Coq Require Import QArith Qabs List Arith Bool Lia Permutation Lqa.
From Verif Require Import Util ConnectModel.
Import ListNotations.
Local Open Scope nat_scope.

(** Connected by the pairs of a list (among [n] things). *)
Inductive path (n : nat) (ps : list (nat * nat)) : nat -> nat -> Prop :=
| path_here : forall i, i < n -> path n ps i i
| path_step : forall i j k, path n ps i j -> k < n -> In (j, k) ps \/ In (k, j) ps -> path n ps i k.

(** Two spheres are in contact. *)
Definition touching (dist : nat -> nat -> Q) (tol : Q) (radii : list Q) (i j : nat) : Prop :=
  (dist i j <= nth i radii 0 + nth j radii 0 + tol)%Q.
(** Connected by contacts. *)
Inductive joined (dist : nat -> nat -> Q) (tol : Q) (radii : list Q) : nat -> nat -> Prop :=
| joined_here : forall i, i < length radii -> joined dist tol radii i i
| joined_step : forall i j k, joined dist tol radii i j -> k < length radii -> touching dist tol radii j k -> joined dist tol radii i k.

(** What scipy's [connected_components] promises. *)
Definition components_ok (cc : nat -> list (nat * nat) -> nat * list nat) : Prop :=
  forall n ps, (forall p, In p ps -> fst p < n /\ snd p < n) -> let (k, lab) := cc n ps in
    length lab = n /\ (forall i, i < n -> nth i lab 0 < k) /\ (forall c, c < k -> exists i, i < n /\ nth i lab 0 = c) /\
    (forall i j, i < n -> j < n -> (nth i lab 0 = nth j lab 0 <-> path n ps i j)).
(** What is needed of scipy's [minimum_spanning_tree] for a complete graph: it is
    a spanning tree, given by pairs of different nodes in any order. *)
Definition tree_ok (mst : nat -> list edge -> list (nat * nat)) : Prop :=
  forall n es, 0 < n -> (forall a b, a < b -> b < n -> exists e, In e es /\ e_a e = a /\ e_b e = b) ->
    (forall p, In p (mst n es) -> fst p <> snd p /\ fst p < n /\ snd p < n) /\ S (length (mst n es)) = n /\
    (forall a b, a < n -> b < n -> path n (mst n es) a b).

Lemma path_range : forall n ps i j, path n ps i j -> i < n /\ j < n.
Proof. intros n ps i j H. induction H as [i H|i j k H [IH1 IH2] K S]; auto. Qed.
Lemma path_trans : forall n ps i j k, path n ps i j -> path n ps j k -> path n ps i k.
Proof. intros n ps i j k A B. induction B as [|j m k B IH K S]; [exact A|]. eapply path_step; [apply IH, A|exact K|exact S]. Qed.
Lemma path_sym : forall n ps i j, path n ps i j -> path n ps j i.
Proof.
  intros n ps i j H. induction H as [i H|i j k H IH K S]; [constructor; exact H|]. eapply path_trans; [|exact IH].
  eapply path_step; [constructor; exact K|apply (path_range _ _ _ _ H)|tauto].
Qed.

(** ** Contacts *)
Lemma all_pairs_in : forall n i j, In (i, j) (all_pairs n) <-> i < j /\ j < n.
Proof.
  intros n i j. unfold all_pairs. rewrite in_flat_map. split.
  - intros (x & Hx & H). apply in_seq in Hx. apply in_map_iff in H. destruct H as (y & E & Hy). apply in_seq in Hy. inversion E; subst. lia.
  - intros [A B]. exists i. split; [apply in_seq; lia|]. apply in_map_iff. exists j. split; [reflexivity|]. apply in_seq. lia.
Qed.

Lemma qmaximum_ge : forall l i, i < length l -> (nth i l 0 <= qmaximum l)%Q.
Proof.
  intros l i H. unfold qmaximum. generalize (hd 0%Q l). revert i H.
  assert (M : forall l m, (m <= fold_left (fun m x => if qltb m x then x else m) l m)%Q).
  { clear. induction l as [|x l IH]; intro m; cbn [fold_left]; [apply Qle_refl|]. eapply Qle_trans; [|apply IH].
    destruct (qltb m x) eqn:E; [apply qltb_true in E; apply Qlt_le_weak, E|apply Qle_refl]. }
  induction l as [|x l IH]; intros i H m; cbn [length] in H; [lia|]. cbn [fold_left]. destruct i as [|i]; cbn [nth]; [|apply IH; lia].
  eapply Qle_trans; [|apply M]. destruct (qltb m x) eqn:E; [apply Qle_refl|apply qltb_false in E; exact E].
Qed.

Lemma contact_in : forall dist tol radii i j, In (i, j) (contact_pairs dist tol radii) <->
  i < j /\ j < length radii /\ touching dist tol radii i j.
Proof.
  intros dist tol radii i j. unfold contact_pairs, touching, rad. rewrite !filter_In, all_pairs_in. cbn [fst snd]. rewrite !Qle_bool_iff. split.
  - intros [[[A B] C] D]. split; [exact A|]. split; [exact B|]. lra.
  - intros (A & B & C). split; [split; [split; [exact A|exact B]|]|lra].
    pose proof (qmaximum_ge radii i ltac:(lia)). pose proof (qmaximum_ge radii j B). lra.
Qed.

(** The contacts are the pairs of touching particles: limiting the search by the
    largest radius loses none. *)
Theorem C106_contacts : forall dist tol radii i j, In (i, j) (contact_pairs dist tol radii) <->
  i < j /\ j < length radii /\ (dist i j <= nth i radii 0 + nth j radii 0 + tol)%Q.
Proof. exact contact_in. Qed.
Print Assumptions C106_contacts.

Definition symmetric (dist : nat -> nat -> Q) : Prop := forall i j, (dist i j == dist j i)%Q.

Lemma touching_sym : forall dist tol radii i j, symmetric dist -> touching dist tol radii i j -> touching dist tol radii j i.
Proof. intros dist tol radii i j S H. unfold touching in *. specialize (S i j). lra. Qed.

Lemma path_joined : forall dist tol radii i j, symmetric dist -> path (length radii) (contact_pairs dist tol radii) i j -> joined dist tol radii i j.
Proof.
  intros dist tol radii i j S H. induction H as [i H|i j k H IH K [E|E]]; [constructor; exact H| |]; (eapply joined_step; [exact IH|exact K|]);
  apply contact_in in E; [apply E|apply touching_sym; [exact S|apply E]].
Qed.
Lemma joined_path : forall dist tol radii i j, symmetric dist -> joined dist tol radii i j -> path (length radii) (contact_pairs dist tol radii) i j.
Proof.
  intros dist tol radii i j S H. induction H as [i H|i j k H IH K T]; [constructor; exact H|].
  destruct (Nat.eq_dec j k) as [->|NE]; [exact IH|]. pose proof (proj2 (path_range _ _ _ _ IH)) as J.
  eapply path_step; [exact IH|exact K|]. destruct (lt_dec j k) as [L|L]; [left|right]; apply contact_in; (split; [lia|]); (split; [lia|]); [exact T|apply touching_sym; assumption].
Qed.

(** ** Closest pairs *)
Lemma argmin_spec : forall A (f : A -> Q) l b, In (argmin f b l) (b :: l) /\ forall x, In x (b :: l) -> (f (argmin f b l) <= f x)%Q.
Proof.
  intros A f. induction l as [|x l IH]; intro b; cbn [argmin]; [split; [left; reflexivity|intros y [<-|[]]; apply Qle_refl]|].
  destruct (IH (if qltb (f x) (f b) then x else b)) as [I M]. split.
  - destruct I as [<-|I]; [destruct (qltb (f x) (f b)); cbn; auto|right; right; exact I].
  - assert (M0 : (f (argmin f (if qltb (f x) (f b) then x else b) l) <= f (if qltb (f x) (f b) then x else b))%Q) by (apply M; left; reflexivity).
    destruct (qltb (f x) (f b)) eqn:E; [apply qltb_true in E|apply qltb_false in E]; intros y [<-|[<-|Hy]]; try (apply M; right; exact Hy); lra.
Qed.

Lemma members_in : forall labels c i, In i (members labels c) <-> i < length labels /\ nth i labels 0 = c.
Proof. intros labels c i. unfold members. rewrite filter_In, in_seq, Nat.eqb_eq. lia. Qed.

Lemma closest_spec : forall dist tol radii la lb, la <> [] -> lb <> [] -> exists i j, closest dist tol radii la lb = Some (i, j) /\ In i la /\ In j lb /\
  (forall k, In k lb -> (dist i j <= dist i k)%Q).
Proof.
  intros dist tol radii la lb NA NB. unfold closest. destruct lb as [|b0 rb]; [contradiction|]. destruct la as [|a0 ra]; [contradiction|]. cbn [map].
  set (f := fun p : nat * nat => (dist (fst p) (snd p) - rad radii (fst p) - rad radii (snd p) - tol)%Q).
  set (g := fun i => (i, argmin (fun j => dist i j) b0 rb)). fold (g a0).
  destruct (argmin_spec _ f (map g ra) (g a0)) as [I _]. set (r := argmin f (g a0) (map g ra)) in *.
  assert (X : exists i, In i (a0 :: ra) /\ r = g i).
  { destruct I as [I|I]; [exists a0; split; [left; reflexivity|symmetry; exact I]|]. apply in_map_iff in I. destruct I as (i & E & Hi). exists i. split; [right; exact Hi|symmetry; exact E]. }
  destruct X as (i & Hi & E). destruct (argmin_spec _ (fun j => dist i j) rb b0) as [J M]. exists i, (argmin (fun j => dist i j) b0 rb). rewrite E.
  split; [reflexivity|]. split; [exact Hi|]. split; [exact J|exact M].
Qed.

Definition edge_ok (dist : nat -> nat -> Q) (tol : Q) (radii : list Q) (labels : list nat) (e : edge) : Prop :=
  e_i e < length labels /\ e_j e < length labels /\ nth (e_i e) labels 0 = e_a e /\ nth (e_j e) labels 0 = e_b e /\
  e_dist e = dist (e_i e) (e_j e) /\ (e_gap e == dist (e_i e) (e_j e) - nth (e_i e) radii 0 - nth (e_j e) radii 0 - tol)%Q.

Lemma gap_edges_spec : forall dist tol radii labels n_comp pairs, (forall c, c < n_comp -> exists i, i < length labels /\ nth i labels 0 = c) ->
  (forall p, In p pairs -> fst p < n_comp /\ snd p < n_comp) ->
  exists es, gap_edges dist tol radii labels pairs = Some es /\ (forall e, In e es -> edge_ok dist tol radii labels e) /\
    map (fun e => (e_a e, e_b e)) es = pairs.
Proof.
  intros dist tol radii labels n_comp pairs SU. induction pairs as [|[a b] pairs IH]; intro R; cbn [gap_edges].
  - exists []. split; [reflexivity|]. split; [intros e []|reflexivity].
  - destruct (R (a, b) (or_introl eq_refl)) as [RA RB]. cbn [fst snd] in RA, RB.
    assert (NE : forall c, c < n_comp -> members labels c <> []).
    { intros c Hc E. destruct (SU c Hc) as (i & Hi & L). assert (X : In i (members labels c)) by (apply members_in; auto). rewrite E in X. destruct X. }
    destruct (closest_spec dist tol radii (members labels a) (members labels b) (NE a RA) (NE b RB)) as (i & j & E & Hi & Hj & _). rewrite E. cbn [obind fst snd].
    destruct IH as (es & E2 & OK & MP); [intros p Hp; apply R; right; exact Hp|]. rewrite E2. cbn [obind]. eexists. split; [reflexivity|].
    apply members_in in Hi. apply members_in in Hj. split; [|cbn [map e_a e_b]; rewrite MP; reflexivity].
    intros e [<-|He]; [|apply OK, He]. unfold edge_ok. cbn [e_i e_j e_a e_b e_dist e_gap]. destruct Hi, Hj. repeat split; auto.
Qed.

Lemma best_edge_spec : forall k es b, let f := (fun best e =>
    if (fst (key (e_a e) (e_b e)) =? fst k) && (snd (key (e_a e) (e_b e)) =? snd k)
    then match best with None => Some e | Some x => if qltb (e_gap e) (e_gap x) then Some e else best end
    else best) in
  (forall x, fold_left f es b = Some x -> b = Some x \/ (In x es /\ key (e_a x) (e_b x) = k)) /\
  ((b <> None \/ exists e, In e es /\ key (e_a e) (e_b e) = k) -> fold_left f es b <> None).
Proof.
  intros k es b f. revert b. induction es as [|e es IH]; intro b; cbn [fold_left].
  - split; [auto|]. intros [H|(e & [] & _)]. exact H.
  - destruct (IH (f b e)) as [A B].
    assert (FE : f b e = b \/ (f b e = Some e /\ key (e_a e) (e_b e) = k)).
    { unfold f. destruct (Nat.eqb_spec (fst (key (e_a e) (e_b e))) (fst k)) as [E1|]; [|auto]. destruct (Nat.eqb_spec (snd (key (e_a e) (e_b e))) (snd k)) as [E2|]; [|auto]. cbn [andb].
      assert (KE : key (e_a e) (e_b e) = k) by (destruct k; unfold key in *; cbn [fst snd] in *; congruence).
      destruct b as [x|]; [|auto]. destruct (qltb (e_gap e) (e_gap x)); auto. }
    assert (FN : b <> None \/ key (e_a e) (e_b e) = k -> f b e <> None).
    { intros [H|H]; [destruct FE as [-> |[-> _]]; [exact H|discriminate]|]. unfold f. rewrite <- H, !Nat.eqb_refl. cbn [andb]. destruct b as [x|]; [destruct (qltb (e_gap e) (e_gap x)); discriminate|discriminate]. }
    split.
    + intros x Hx. destruct (A x Hx) as [H|[H1 H2]]; [|right; split; [right; exact H1|exact H2]]. destruct FE as [E|[E KE]]; rewrite E in H; [left; exact H|]. injection H as <-. right. split; [left; reflexivity|exact KE].
    + intros [H|(y & [<-|Hy] & KE)]; apply B; [left; apply FN; left; exact H|left; apply FN; right; exact KE|right; exists y; auto].
Qed.

Lemma lookup_spec : forall es n pairs, (forall a b, a < b -> b < n -> exists e, In e es /\ e_a e = a /\ e_b e = b) ->
  (forall e, In e es -> e_a e < e_b e) -> (forall p, In p pairs -> fst p <> snd p /\ fst p < n /\ snd p < n) ->
  exists l, lookup_bridges pairs es = Some l /\ incl l es /\ map (fun e => (e_a e, e_b e)) l = map (fun p => (Nat.min (fst p) (snd p), Nat.max (fst p) (snd p))) pairs.
Proof.
  intros es n pairs AL OR. induction pairs as [|[a b] pairs IH]; intro R; cbn [lookup_bridges]; [exists []; split; [reflexivity|split; [intros x []|reflexivity]]|].
  destruct (R (a, b) (or_introl eq_refl)) as (R0 & R1 & R2). cbn [fst snd] in R0, R1, R2. destruct (best_edge_spec (key a b) es None) as [A B].
  destruct (AL (Nat.min a b) (Nat.max a b) ltac:(lia) ltac:(lia)) as (e0 & H0 & E1 & E2). fold (best_edge (key a b) es) in A, B.
  destruct (best_edge (key a b) es) as [e|] eqn:E; [|exfalso; apply B; [right; exists e0; split; [exact H0|rewrite E1, E2; unfold key; f_equal; lia]|reflexivity]].
  destruct (A e eq_refl) as [C|[He KE]]; [discriminate|]. destruct IH as (l & EL & IN & MP); [intros p Hp; apply R; right; exact Hp|]. cbn [obind]. rewrite EL. cbn [obind].
  exists (e :: l). split; [reflexivity|]. split; [intros x [<-|Hx]; [exact He|apply IN, Hx]|]. cbn [map fst snd]. rewrite MP. f_equal.
  specialize (OR e He). unfold key in KE. inversion KE as [[K1 K2]]. f_equal; lia.
Qed.

Lemma insert_perm : forall e l, Permutation (insert_desc e l) (e :: l).
Proof. intros e. induction l as [|x l IH]; cbn [insert_desc]; [reflexivity|]. destruct (qltb (e_gap e) (e_gap x)); [|reflexivity]. rewrite IH. constructor. Qed.
Lemma sort_perm : forall l, Permutation (sort_desc l) l.
Proof. induction l as [|e l IH]; cbn [sort_desc]; [reflexivity|]. rewrite insert_perm. constructor. exact IH. Qed.

(** ** Closing gaps *)
Lemma add_at_spec : forall l k x, length (add_at k x l) = length l /\ forall i, nth i (add_at k x l) 0%Q = if (i =? k) && (i <? length l) then (nth i l 0 + x)%Q else nth i l 0%Q.
Proof.
  induction l as [|y l IH]; intros k x; [split; [destruct k; reflexivity|]; intros i; cbn [add_at length]; rewrite andb_false_r; destruct k; reflexivity|]. destruct k as [|k]; cbn [add_at].
  - split; [reflexivity|]. intros [|i]; reflexivity.
  - destruct (IH k x) as [A B]. split; [cbn [length]; rewrite A; reflexivity|]. intros [|i]; cbn [nth length]; [reflexivity|]. rewrite B. reflexivity.
Qed.

Definition touched (s : strategy) (radii : list Q) (i j : nat) : list nat :=
  match s with
  | Larger => [if Qle_bool (rad radii j) (rad radii i) then i else j]
  | Smaller => [if Qle_bool (rad radii i) (rad radii j) then i else j]
  | Split => [i; j]
  end.
Definition per_bridge (s : strategy) : nat := match s with Split => 2 | _ => 1 end.

Lemma fix_bridge_spec : forall tol s radii e, e_i e < length radii -> e_j e < length radii -> e_i e <> e_j e ->
  let r' := fix_bridge tol s radii e in
  length r' = length radii /\ (forall k, (nth k radii 0 <= nth k r' 0)%Q) /\ (e_dist e <= nth (e_i e) r' 0 + nth (e_j e) r' 0 + tol)%Q /\
  (exists ch, length ch <= per_bridge s /\ incl ch [e_i e; e_j e] /\ forall k, ~ In k ch -> nth k r' 0%Q = nth k radii 0%Q).
Proof.
  intros tol s radii e HI HJ NE. unfold fix_bridge. cbv zeta. set (gap := (e_dist e - rad radii (e_i e) - rad radii (e_j e) - tol)%Q).
  destruct (Qle_bool gap 0) eqn:G.
  - apply Qle_bool_iff in G. unfold gap, rad in G. split; [reflexivity|]. split; [intro; apply Qle_refl|]. split; [lra|]. exists []. split; [cbn; lia|]. split; [intros x []|reflexivity].
  - assert (GP : (0 < gap)%Q) by (apply Qnot_le_lt; intro C; apply Qle_bool_iff in C; congruence). unfold close_gap. rewrite G.
    assert (ONE : forall t, t = e_i e \/ t = e_j e -> let r' := add_at t gap radii in
      length r' = length radii /\ (forall k, (nth k radii 0 <= nth k r' 0)%Q) /\ (e_dist e <= nth (e_i e) r' 0 + nth (e_j e) r' 0 + tol)%Q /\
      (exists ch, length ch <= 1 /\ incl ch [e_i e; e_j e] /\ forall k, ~ In k ch -> nth k r' 0%Q = nth k radii 0%Q)).
    { intros t T r'. destruct (add_at_spec radii t gap) as [L N]. fold r' in L, N. split; [exact L|].
      split; [intro k; rewrite N; destruct ((k =? t) && (k <? length radii)); lra|]. split.
      - rewrite !N. apply Nat.ltb_lt in HI. apply Nat.ltb_lt in HJ. rewrite HI, HJ, !andb_true_r.
        destruct T as [-> | -> ]; rewrite Nat.eqb_refl; [replace (e_j e =? e_i e) with false by (symmetry; apply Nat.eqb_neq; auto)|replace (e_i e =? e_j e) with false by (symmetry; apply Nat.eqb_neq; auto)]; unfold gap, rad; lra.
      - exists [t]. split; [cbn; lia|]. split; [intros x [<-|[]]; destruct T as [-> | -> ]; cbn; auto|]. intros k Hk. rewrite N.
        replace (k =? t) with false; [reflexivity|]. symmetry. apply Nat.eqb_neq. intros ->. apply Hk. left. reflexivity. }
    destruct s; cbn [per_bridge]; [apply ONE; match goal with |- context [if ?b then _ else _] => destruct b end; auto|apply ONE; match goal with |- context [if ?b then _ else _] => destruct b end; auto|].
    destruct (add_at_spec radii (e_i e) (gap / 2)%Q) as [L1 N1]. destruct (add_at_spec (add_at (e_i e) (gap / 2)%Q radii) (e_j e) (gap / 2)%Q) as [L2 N2].
    assert (HF : (gap / 2 == (1 # 2) * gap)%Q) by field.
    split; [congruence|]. split; [intro k; rewrite N2, N1; destruct ((k =? e_j e) && _); destruct ((k =? e_i e) && _); lra|]. split.
    + rewrite !N2, !N1, L1. apply Nat.ltb_lt in HI. apply Nat.ltb_lt in HJ. rewrite HI, HJ, !andb_true_r, !Nat.eqb_refl.
      replace (e_j e =? e_i e) with false by (symmetry; apply Nat.eqb_neq; auto). replace (e_i e =? e_j e) with false by (symmetry; apply Nat.eqb_neq; auto).
      unfold gap, rad in *. lra.
    + exists [e_i e; e_j e]. split; [cbn; lia|]. split; [apply incl_refl|]. intros k Hk. rewrite N2, N1.
      replace (k =? e_j e) with false by (symmetry; apply Nat.eqb_neq; intros ->; apply Hk; cbn; auto).
      replace (k =? e_i e) with false by (symmetry; apply Nat.eqb_neq; intros ->; apply Hk; cbn; auto). reflexivity.
Qed.

Lemma fix_all_spec : forall tol s es radii, (forall e, In e es -> e_i e < length radii /\ e_j e < length radii /\ e_i e <> e_j e) ->
  let r' := fold_left (fix_bridge tol s) es radii in
  length r' = length radii /\ (forall k, (nth k radii 0 <= nth k r' 0)%Q) /\
  (forall e, In e es -> (e_dist e <= nth (e_i e) r' 0 + nth (e_j e) r' 0 + tol)%Q) /\
  (exists ch, length ch <= per_bridge s * length es /\ (forall k, In k ch -> exists e, In e es /\ (k = e_i e \/ k = e_j e)) /\ forall k, ~ In k ch -> nth k r' 0%Q = nth k radii 0%Q).
Proof.
  intros tol s. induction es as [|e es IH]; intros radii R; cbn [fold_left].
  - split; [reflexivity|]. split; [intro; apply Qle_refl|]. split; [intros e []|]. exists []. split; [cbn; lia|]. split; [intros k []|reflexivity].
  - destruct (R e (or_introl eq_refl)) as (R1 & R2 & R3). destruct (fix_bridge_spec tol s radii e R1 R2 R3) as (A & B & C & ch & D1 & D2 & D3).
    destruct (IH (fix_bridge tol s radii e)) as (A' & B' & C' & ch' & D1' & D2' & D3'); [intros x Hx; rewrite A; apply R; right; exact Hx|]. cbv zeta in *.
    split; [congruence|]. split; [intro k; eapply Qle_trans; [apply B|apply B']|]. split.
    + intros x [<-|Hx]; [|apply C', Hx]. pose proof (B' (e_i e)). pose proof (B' (e_j e)). lra.
    + exists (ch ++ ch'). split; [rewrite app_length; cbn [length]; lia|]. split.
      * intros k Hk. apply in_app_or in Hk. destruct Hk as [Hk|Hk]; [exists e; split; [left; reflexivity|]; specialize (D2 k Hk); cbn in D2; intuition|].
        destruct (D2' k Hk) as (x & Hx & X). exists x. split; [right; exact Hx|exact X].
      * intros k Hk. rewrite D3' by (intro X; apply Hk, in_or_app; right; exact X). apply D3. intro X. apply Hk, in_or_app. left. exact X.
Qed.

Lemma joined_mono : forall dist tol r r' i j, length r' = length r -> (forall k, (nth k r 0 <= nth k r' 0)%Q) -> joined dist tol r i j -> joined dist tol r' i j.
Proof.
  intros dist tol r r' i j L M H. induction H as [i H|i j k H IH K T]; [constructor; congruence|]. eapply joined_step; [exact IH|congruence|].
  unfold touching in *. pose proof (M j). pose proof (M k). lra.
Qed.
Lemma joined_trans : forall dist tol r i j k, joined dist tol r i j -> joined dist tol r j k -> joined dist tol r i k.
Proof. intros dist tol r i j k A B. induction B as [|j m k B IH K S]; [exact A|]. eapply joined_step; [apply IH, A|exact K|exact S]. Qed.

Section Repair.
Variables (dist : nat -> nat -> Q) (tol : Q) (cc : nat -> list (nat * nat) -> nat * list nat) (mst : nat -> list edge -> list (nat * nat)).
Hypothesis SY : symmetric dist.
Hypothesis CC : components_ok cc.
Hypothesis TR : tree_ok mst.

Lemma components_joined : forall radii k lab, get_components dist tol cc radii = (k, lab) ->
  length lab = length radii /\ (forall i, i < length radii -> nth i lab 0 < k) /\ (forall c, c < k -> exists i, i < length radii /\ nth i lab 0 = c) /\
  (forall i j, i < length radii -> j < length radii -> (nth i lab 0 = nth j lab 0 <-> joined dist tol radii i j)).
Proof.
  intros radii k lab E. unfold get_components in E. specialize (CC (length radii) (contact_pairs dist tol radii)). rewrite E in CC.
  destruct CC as (A & B & C & D); [intros [i j] H; apply contact_in in H; cbn [fst snd]; lia|]. split; [exact A|]. split; [exact B|]. split; [exact C|].
  intros i j Hi Hj. rewrite (D i j Hi Hj). split; [apply path_joined, SY|apply joined_path, SY].
Qed.

Lemma one_component : forall radii k lab, get_components dist tol cc radii = (k, lab) -> radii <> [] ->
  (k = 1 <-> forall i j, i < length radii -> j < length radii -> joined dist tol radii i j).
Proof.
  intros radii k lab E NE. destruct (components_joined radii k lab E) as (A & B & C & D). assert (P : 0 < length radii) by (destruct radii; [contradiction|cbn; lia]). split.
  - intros -> i j Hi Hj. apply D; [exact Hi|exact Hj|]. pose proof (B i Hi). pose proof (B j Hj). lia.
  - intro H. pose proof (B 0 P) as B0. destruct (Nat.eq_dec k 1) as [X|X]; [exact X|]. exfalso.
    destruct (C 0 ltac:(lia)) as (i & Hi & Li). destruct (C 1 ltac:(lia)) as (j & Hj & Lj). apply (proj2 (D i j Hi Hj)) in H; [lia|exact Hi|exact Hj].
Qed.

Lemma pass_spec : forall s radii k lab, radii <> [] -> get_components dist tol cc radii = (k, lab) ->
  exists es bridges, gap_graph dist tol radii lab k = Some es /\ mst_bridges mst es k = Some bridges /\
    (forall e, In e bridges -> edge_ok dist tol radii lab e /\ e_i e <> e_j e /\ e_i e < length radii /\ e_j e < length radii) /\
    S (length bridges) = k /\
    let r' := fold_left (fix_bridge tol s) bridges radii in
    length r' = length radii /\ (forall i, (nth i radii 0 <= nth i r' 0)%Q) /\
    (forall i j, i < length radii -> j < length radii -> joined dist tol r' i j) /\
    (exists ch, length ch <= per_bridge s * (k - 1) /\ forall i, ~ In i ch -> nth i r' 0%Q = nth i radii 0%Q).
Proof.
  intros s radii k lab NE E. destruct (components_joined radii k lab E) as (A & B & C & D). assert (P : 0 < length radii) by (destruct radii; [contradiction|cbn; lia]).
  assert (KP : 0 < k) by (pose proof (B 0 P); lia).
  destruct (gap_edges_spec dist tol radii lab k (all_pairs k)) as (es & E1 & OK & MP); [rewrite A; exact C|intros [a b] H; apply all_pairs_in in H; cbn [fst snd]; lia|].
  exists es. assert (AL : forall a b, a < b -> b < k -> exists e, In e es /\ e_a e = a /\ e_b e = b).
  { intros a b H1 H2. assert (X : In (a, b) (map (fun e => (e_a e, e_b e)) es)) by (rewrite MP; apply all_pairs_in; auto). apply in_map_iff in X. destruct X as (e & X & He). inversion X. exists e. auto. }
  assert (OR : forall e, In e es -> e_a e < e_b e). { intros e He. assert (X : In (e_a e, e_b e) (map (fun e => (e_a e, e_b e)) es)) by (apply in_map_iff; exists e; auto). rewrite MP in X. apply all_pairs_in in X. lia. }
  destruct (TR k es KP AL) as (T1 & T2 & T3). destruct (lookup_spec es k (mst k es) AL OR T1) as (l & EL & IN & ML).
  exists (sort_desc l). split; [exact E1|]. unfold mst_bridges. rewrite EL. cbn [obind]. split; [reflexivity|]. pose proof (sort_perm l) as SP.
  assert (BOK : forall e, In e (sort_desc l) -> edge_ok dist tol radii lab e /\ e_i e <> e_j e /\ e_i e < length radii /\ e_j e < length radii).
  { intros e He. apply (Permutation_in e SP) in He. apply IN in He. pose proof (OK e He) as X. specialize (OR e He). split; [exact X|]. destruct X as (X1 & X2 & X3 & X4 & _). rewrite A in *. split; [|auto]. intro Q0. rewrite Q0 in X3. lia. }
  split; [exact BOK|]. assert (LL : length (sort_desc l) = length (mst k es)) by (rewrite (Permutation_length SP); apply (f_equal (@length _)) in ML; rewrite !map_length in ML; exact ML).
  split; [rewrite LL; exact T2|].
  destruct (fix_all_spec tol s (sort_desc l) radii) as (F1 & F2 & F3 & ch & F4 & F5 & F6); [intros e He; destruct (BOK e He) as (_ & X & Y & Z); auto|].
  cbv zeta in *. set (r' := fold_left (fix_bridge tol s) (sort_desc l) radii) in *. split; [exact F1|]. split; [exact F2|]. split.
  - assert (SAME : forall i j, i < length radii -> j < length radii -> nth i lab 0 = nth j lab 0 -> joined dist tol r' i j).
    { intros i j Hi Hj L. apply (joined_mono dist tol radii); [exact F1|exact F2|]. apply D; assumption. }
    assert (ALLP : forall a b, path k (mst k es) a b -> forall i j, i < length radii -> j < length radii -> nth i lab 0 = a -> nth j lab 0 = b -> joined dist tol r' i j).
    { intros a b H. induction H as [a H|a b c H IH K S0]; intros i j Hi Hj Li Lj; [apply SAME; congruence|].
      assert (BR : exists e x y, In e (sort_desc l) /\ nth x lab 0 = b /\ nth y lab 0 = c /\ x < length radii /\ y < length radii /\ touching dist tol r' x y).
      { assert (EX : forall p q, In (p, q) (mst k es) -> exists e, In e (sort_desc l) /\ (e_a e = p /\ e_b e = q \/ e_a e = q /\ e_b e = p)).
        { intros p q Hpq. apply (in_map (fun p => (Nat.min (fst p) (snd p), Nat.max (fst p) (snd p)))) in Hpq. rewrite <- ML in Hpq. cbn [fst snd] in Hpq.
          apply in_map_iff in Hpq. destruct Hpq as (e & X & He). injection X as X1 X2. exists e. split; [apply (Permutation_in e (Permutation_sym SP)), He|lia]. }
        destruct S0 as [S0|S0]; destruct (EX _ _ S0) as (e & He & Eab); destruct (BOK e He) as ((X1 & X2 & X3 & X4 & X5 & _) & _ & Y1 & Y2); specialize (F3 e He); rewrite X5 in F3; destruct Eab as [[Ea Eb]|[Ea Eb]].
        1, 4: exists e, (e_i e), (e_j e); repeat split; try congruence; assumption.
        all: exists e, (e_j e), (e_i e); repeat split; try congruence; try assumption; apply touching_sym; [exact SY|exact F3]. }
      destruct BR as (e & x & y & _ & Lx & Ly & Hx & Hy & T). eapply joined_trans; [apply (IH i x Hi Hx Li Lx)|]. apply (joined_trans dist tol r' x y j); [apply (joined_step dist tol r' x x y); [constructor; congruence|congruence|exact T]|].
      apply SAME; congruence. }
    intros i j Hi Hj. apply (ALLP (nth i lab 0) (nth j lab 0)); auto.
  - exists ch. split; [|exact F6]. rewrite LL in F4. replace (k - 1) with (length (mst k es)) by lia. exact F4.
Qed.
End Repair.

(** ** Results *)
(** A connected packing is left as it is. *)
Theorem C106_connected : forall dist tol cc mst s radii fuel, symmetric dist -> components_ok cc -> radii <> [] -> 0 < fuel ->
  (forall i j, i < length radii -> j < length radii -> joined dist tol radii i j) -> repair dist tol cc mst fuel s radii = Some radii.
Proof.
  intros dist tol cc mst s radii [|f] SY CC NE F H; [lia|]. cbn [repair]. destruct (get_components dist tol cc radii) as [k lab] eqn:E.
  rewrite (proj2 (one_component dist tol cc SY CC radii k lab E NE) H). reflexivity.
Qed.
Print Assumptions C106_connected.

(** Particles of different components have a positive gap, so no edge between
    components is lost as a zero of a sparse matrix. *)
Theorem C106_gap : forall dist tol cc radii k lab es, symmetric dist -> components_ok cc -> get_components dist tol cc radii = (k, lab) ->
  gap_graph dist tol radii lab k = Some es -> forall e, In e es -> e_a e < e_b e ->
  (0 < e_gap e)%Q /\ ~ joined dist tol radii (e_i e) (e_j e).
Proof.
  intros dist tol cc radii k lab es SY CC E G e He O. destruct (components_joined dist tol cc SY CC radii k lab E) as (A & B & C & D).
  destruct (gap_edges_spec dist tol radii lab k (all_pairs k)) as (es' & E1 & OK & _); [rewrite A; exact C|intros [a b] H; apply all_pairs_in in H; cbn [fst snd]; lia|].
  unfold gap_graph in G. rewrite G in E1. injection E1 as <-. destruct (OK e He) as (X1 & X2 & X3 & X4 & _ & X6). rewrite A in *.
  assert (NJ : ~ joined dist tol radii (e_i e) (e_j e)) by (intro J; apply (D _ _ X1 X2) in J; lia). split; [|exact NJ].
  apply Qnot_le_lt. intro GP. apply NJ. apply (joined_step _ _ _ _ (e_i e)); [constructor; exact X1|exact X2|]. unfold touching. lra.
Qed.
Print Assumptions C106_gap.

(** One pass connects the packing: the second one finds a single component.  No
    radius shrinks, and if the particles of [reps] represent all components, at
    most one particle less than these (twice this number for [Split]) is enlarged. *)
Theorem C106_repair : forall dist tol cc mst s radii fuel, symmetric dist -> components_ok cc -> tree_ok mst -> radii <> [] -> 2 <= fuel ->
  exists radii', repair dist tol cc mst fuel s radii = Some radii' /\ length radii' = length radii /\
    (forall i, (nth i radii 0 <= nth i radii' 0)%Q) /\
    (forall i j, i < length radii -> j < length radii -> joined dist tol radii' i j) /\
    (forall reps, (forall i, i < length radii -> exists r, In r reps /\ r < length radii /\ joined dist tol radii r i) ->
      exists enlarged, length enlarged <= match s with Split => 2 | _ => 1 end * (length reps - 1) /\
        forall i, ~ In i enlarged -> nth i radii' 0%Q = nth i radii 0%Q).
Proof.
  intros dist tol cc mst s radii [|[|f]] SY CC TR NE F; [lia|lia|]. destruct (get_components dist tol cc radii) as [k lab] eqn:E.
  destruct (Nat.eq_dec k 1) as [K1|K1].
  - pose proof (proj1 (one_component dist tol cc SY CC radii k lab E NE) K1) as J. exists radii. split; [apply C106_connected; auto; lia|]. split; [reflexivity|].
    split; [intro; apply Qle_refl|]. split; [exact J|]. intros reps _. exists []. split; [apply Nat.le_0_l|reflexivity].
  - destruct (pass_spec dist tol cc mst SY CC TR s radii k lab NE E) as (es & br & E1 & E2 & _ & _ & A & B & C & ch & D1 & D2). cbv zeta in *.
    set (r' := fold_left (fix_bridge tol s) br radii) in *. exists r'. split.
    { assert (N' : r' <> []) by (intro X; rewrite X in A; destruct radii; [contradiction|discriminate]).
      change (repair dist tol cc mst (S (S f)) s radii = Some r').
      assert (R : repair dist tol cc mst (S (S f)) s radii = repair dist tol cc mst (S f) s r').
      { cbn [repair]. rewrite E. apply Nat.eqb_neq in K1. rewrite K1, E1. cbn [obind]. rewrite E2. cbn [obind]. reflexivity. }
      rewrite R. apply C106_connected; [exact SY|exact CC|exact N'|lia|]. rewrite A. exact C. }
    split; [exact A|]. split; [exact B|]. split; [exact C|]. intros reps RP. exists ch. split; [|exact D2].
    destruct (components_joined dist tol cc SY CC radii k lab E) as (_ & _ & SU & LJ).
    assert (KL : k <= length reps).
    { rewrite <- (seq_length k 0), <- (map_length (fun r => nth r lab 0) reps). apply NoDup_incl_length; [apply seq_NoDup|]. intros c Hc. apply in_seq in Hc.
      destruct (SU c ltac:(lia)) as (i & Hi & Li). destruct (RP i Hi) as (r & Hr & RL & J). apply in_map_iff. exists r. split; [|exact Hr]. apply (LJ r i RL Hi) in J. congruence. }
    fold (per_bridge s). eapply Nat.le_trans; [exact D1|]. apply Nat.mul_le_mono_l. lia.
Qed.
Print Assumptions C106_repair.

(** ** Functions meeting the assumptions *)
Definition merge (lab : list nat) (p : nat * nat) : list nat := map (fun x => if x =? nth (snd p) lab 0 then nth (fst p) lab 0 else x) lab.
Definition raw_labels (n : nat) (ps : list (nat * nat)) : list nat := fold_left merge ps (seq 0 n).
Fixpoint position (x : nat) (l : list nat) : nat := match l with [] => 0 | y :: r => if x =? y then 0 else S (position x r) end.
Definition cc_ex (n : nat) (ps : list (nat * nat)) : nat * list nat :=
  let raw := raw_labels n ps in let d := nodup Nat.eq_dec raw in (length d, map (fun x => position x d) raw).
Definition chain (n : nat) (es : list edge) : list (nat * nat) := map (fun a => (a, S a)) (seq 0 (n - 1)).

Lemma path_incl : forall n ps qs i j, incl ps qs -> path n ps i j -> path n qs i j.
Proof. intros n ps qs i j I H. induction H as [i H|i j k H IH K [E|E]]; [constructor; exact H| |]; (eapply path_step; [exact IH|exact K|]); [left|right]; apply I, E. Qed.

Lemma merge_spec : forall n lab a b ps, length lab = n -> a < n -> b < n ->
  (forall i j, i < n -> j < n -> (nth i lab 0 = nth j lab 0 <-> path n ps i j)) ->
  length (merge lab (a, b)) = n /\ forall i j, i < n -> j < n -> (nth i (merge lab (a, b)) 0 = nth j (merge lab (a, b)) 0 <-> path n (ps ++ [(a, b)]) i j).
Proof.
  intros n lab a b ps L Ha Hb I. unfold merge. cbn [fst snd]. set (f := fun x => if x =? nth b lab 0 then nth a lab 0 else x).
  assert (N : forall i, i < n -> nth i (map f lab) 0 = f (nth i lab 0)) by (intros i Hi; rewrite (nth_indep _ 0 (f 0)) by (rewrite map_length; lia); apply map_nth).
  split; [rewrite map_length; exact L|]. intros i j Hi Hj. rewrite !N by assumption. split.
  - intro E. assert (X : path n (ps ++ [(a, b)]) b a) by (eapply path_step; [constructor; exact Hb|exact Ha|right; apply in_or_app; right; left; reflexivity]).
    assert (OLD : forall x y, x < n -> y < n -> nth x lab 0 = nth y lab 0 -> path n (ps ++ [(a, b)]) x y) by (intros x y Hx Hy Q0; apply (path_incl n ps); [apply incl_appl, incl_refl|apply I; assumption]).
    unfold f in E. destruct (Nat.eqb_spec (nth i lab 0) (nth b lab 0)) as [E1|E1], (Nat.eqb_spec (nth j lab 0) (nth b lab 0)) as [E2|E2].
    + apply OLD; [assumption|assumption|congruence].
    + eapply path_trans; [apply (OLD i b); assumption|]. eapply path_trans; [exact X|]. apply OLD; assumption.
    + apply path_sym. eapply path_trans; [apply (OLD j b); assumption|]. eapply path_trans; [exact X|]. apply OLD; auto.
    + apply OLD; assumption.
  - intro P. assert (PR : j < n) by exact Hj. clear Hj. induction P as [i P|i j k P IH K S0]; [reflexivity|]. pose proof (proj2 (path_range _ _ _ _ P)) as Hj. rewrite (IH Hi Hj).
    assert (ST : path n ps j k \/ (j = a /\ k = b) \/ (j = b /\ k = a)).
    { destruct S0 as [S0|S0]; apply in_app_or in S0; destruct S0 as [S0|[S0|[]]].
      - left. eapply path_step; [constructor; exact Hj|exact K|left; exact S0].
      - inversion S0. auto.
      - left. eapply path_step; [constructor; exact Hj|exact K|right; exact S0].
      - inversion S0. auto. }
    destruct ST as [ST|[[-> -> ]|[-> -> ]]]; [apply (I j k Hj K) in ST; rewrite ST; reflexivity| |]; unfold f; rewrite Nat.eqb_refl; destruct (nth a lab 0 =? nth b lab 0); reflexivity.
Qed.

Lemma raw_spec : forall n ps, (forall p, In p ps -> fst p < n /\ snd p < n) -> length (raw_labels n ps) = n /\
  forall i j, i < n -> j < n -> (nth i (raw_labels n ps) 0 = nth j (raw_labels n ps) 0 <-> path n ps i j).
Proof.
  intros n ps. unfold raw_labels. induction ps as [|[a b] ps IH] using rev_ind; intro R; cbn [fold_left].
  - split; [apply seq_length|]. intros i j Hi Hj. rewrite !seq_nth by assumption. split; [cbn; intros ->; constructor; exact Hj|]. intro P.
    assert (X : i = j); [|congruence]. clear Hi Hj. induction P as [|i j k P IH K [[]|[]]]; reflexivity.
  - rewrite fold_left_app. cbn [fold_left]. destruct IH as [A B]; [intros p Hp; apply R, in_or_app; left; exact Hp|].
    destruct (R (a, b)); [apply in_or_app; right; left; reflexivity|]. apply merge_spec; assumption.
Qed.

Lemma position_spec : forall l x, In x l -> position x l < length l /\ nth (position x l) l 0 = x.
Proof.
  induction l as [|y l IH]; intros x H; [destruct H|]. cbn [position length]. destruct (Nat.eqb_spec x y) as [->|NE]; [split; [lia|reflexivity]|].
  destruct H as [H|H]; [congruence|]. destruct (IH x H). split; [lia|assumption].
Qed.

Lemma cc_ex_ok : components_ok cc_ex.
Proof.
  intros n ps R. unfold cc_ex. destruct (raw_spec n ps R) as [L I]. set (raw := raw_labels n ps) in *. set (d := nodup Nat.eq_dec raw).
  assert (IN : forall i, i < n -> In (nth i raw 0) d) by (intros i Hi; apply nodup_In, nth_In; lia).
  assert (N : forall i, i < n -> nth i (map (fun x => position x d) raw) 0 = position (nth i raw 0) d).
  { intros i Hi. rewrite (nth_indep _ 0 (position 0 d)) by (rewrite map_length; lia). apply (map_nth (fun x => position x d)). }
  split; [rewrite map_length; exact L|]. split; [intros i Hi; rewrite N by exact Hi; apply position_spec, IN, Hi|]. split.
  - intros c Hc. assert (X : In (nth c d 0) raw) by (apply (nodup_In Nat.eq_dec), nth_In, Hc). apply (In_nth _ _ 0) in X. destruct X as (i & Hi & E). rewrite L in Hi. exists i. split; [exact Hi|].
    rewrite N by exact Hi. destruct (position_spec d (nth i raw 0) (IN i Hi)) as [P1 P2]. apply (proj1 (NoDup_nth d 0) (NoDup_nodup Nat.eq_dec raw)); [exact P1|exact Hc|congruence].
  - intros i j Hi Hj. rewrite !N by assumption. rewrite <- (I i j Hi Hj). split; [|intros ->; reflexivity]. intro E.
    destruct (position_spec d (nth i raw 0) (IN i Hi)) as [_ P1]. destruct (position_spec d (nth j raw 0) (IN j Hj)) as [_ P2]. congruence.
Qed.

Lemma chain_ok : tree_ok chain.
Proof.
  intros n es P _. unfold chain. split; [intros p H; apply in_map_iff in H; destruct H as (a & <- & H); apply in_seq in H; cbn [fst snd]; lia|].
  split; [rewrite map_length, seq_length; lia|].
  assert (Z0 : forall b, b < n -> path n (map (fun a => (a, S a)) (seq 0 (n - 1))) 0 b).
  { induction b as [|b IH]; intro H; [constructor; exact P|]. eapply path_step; [apply IH; lia|exact H|]. left. apply in_map_iff. exists b. split; [reflexivity|]. apply in_seq. lia. }
  intros a b Ha Hb. eapply path_trans; [apply path_sym, Z0, Ha|apply Z0, Hb].
Qed.

(** Spheres on a line. *)
Definition line (xs : list Q) (i j : nat) : Q := Qabs (nth i xs 0 - nth j xs 0)%Q.
Lemma line_symmetric : forall xs, symmetric (line xs).
Proof. intros xs i j. unfold line; rewrite Qabs_Qminus; reflexivity. Qed.

Example C106_case : option_map (map Qred) (repair (line [0; 5; 10; 11]%Q) 0 cc_ex chain 2 Split [2; 1; 2; 1]%Q) = Some [3; 5 # 2; 5 # 2; 1]%Q /\
  option_map (map Qred) (repair (line [0; 5; 10; 11]%Q) 0 cc_ex chain 2 Larger [2; 1; 2; 1]%Q) = Some [4; 1; 4; 1]%Q /\
  option_map (map Qred) (repair (line [0; 5; 10; 11]%Q) 0 cc_ex chain 2 Smaller [2; 1; 2; 1]%Q) = Some [2; 3; 2; 1]%Q /\
  repair (line [0; 5; 10; 11]%Q) 0 cc_ex chain 1 Larger [2; 1; 2; 1]%Q = None /\
  contact_pairs (line [0; 5; 10; 11]%Q) 0 [2; 1; 2; 1]%Q = [(2, 3)].
Proof. vm_compute. repeat split; reflexivity. Qed.

(** The bridge between two components need not be the pair with the smallest gap:
    for each particle only the particle with the nearest center is looked at. *)
Theorem C106_smallest_gap_refuted : exists xs radii k lab es e i j,
  get_components (line xs) 0 cc_ex radii = (k, lab) /\ gap_graph (line xs) 0 radii lab k = Some es /\ In e es /\
  i < length radii /\ j < length radii /\ nth i lab 0 = e_a e /\ nth j lab 0 = e_b e /\
  (line xs i j - nth i radii 0 - nth j radii 0 < e_gap e)%Q.
Proof.
  exists [0; 3; 4]%Q, [1; 1 # 2; 2]%Q, 2, [0; 1; 1]. eexists. exists (mkEdge 0 1 (3 # 2) 0 1 3), 0, 2.
  split; [vm_compute; reflexivity|]. split; [vm_compute; reflexivity|]. split; [left; vm_compute; reflexivity|]. vm_compute. auto 10.
Qed.
Print Assumptions C106_smallest_gap_refuted.

(** Nor is the number of enlarged particles the smallest possible: enlarging the
    particle in the middle would connect both neighbours. *)
Theorem C106_minimum_refuted : exists xs radii radii' other,
  repair (line xs) 0 cc_ex chain 2 Larger radii = Some radii' /\ length other = length radii /\
  (forall i j, i < length radii -> j < length radii -> joined (line xs) 0 other i j) /\
  length (filter (fun i => negb (Qeq_bool (nth i other 0%Q) (nth i radii 0%Q))) (seq 0 (length radii))) = 1 /\
  length (filter (fun i => negb (Qeq_bool (nth i radii' 0%Q) (nth i radii 0%Q))) (seq 0 (length radii))) = 2.
Proof.
  exists [0; 5; 10]%Q, [2; 1; 2]%Q. eexists. exists [2; 3; 2]%Q. split; [vm_compute; reflexivity|]. split; [reflexivity|]. split; [|split; vm_compute; reflexivity].
  intros i j Hi Hj. cbn [length] in Hi, Hj.
  assert (C : forall x, x < 3 -> joined (line [0; 5; 10]%Q) 0 [2; 3; 2]%Q 1 x).
  { intros x Hx. apply (joined_step _ _ _ 1 1 x); [constructor; cbn; lia|exact Hx|]. unfold touching. destruct x as [|[|[|x]]]; [| | |lia]; vm_compute; discriminate. }
  apply (joined_trans _ _ _ i 1 j); [|apply C, Hj]. apply (joined_step _ _ _ i i 1); [constructor; exact Hi|cbn; lia|].
  unfold touching. destruct i as [|[|[|i]]]; [| | |lia]; vm_compute; discriminate.
Qed.
Print Assumptions C106_minimum_refuted.
