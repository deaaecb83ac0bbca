(** C86: cells with hanging nodes. *)
From Coq Require Import List NArith ZArith QArith Qround Arith Bool Lia Lqa ZifyNat.
From Verif Require Import Util HangingModel.
Import ListNotations.
Local Open Scope nat_scope.
Ltac Zify.zify_post_hook ::= Z.div_mod_to_equations.

(** ** What is claimed, in coordinates of the space *)
(** in units of the finer level: the interval of position [m] lies in the one of position [l] *)
Definition inside (s l m : nat) : Prop := l * s <= m < (l + 1) * s.
(** edge [m] is a part of edge [l] *)
Definition on_edge (m l : line) : Prop :=
  ldir m = ldir l /\ llev l <= llev m /\
  let s := 2 ^ (llev m - llev l) in
  (if ldir l =? 0 then inside s (lx l) (lx m) else lx m = lx l * s) /\
  (if ldir l =? 1 then inside s (ly l) (ly m) else ly m = ly l * s) /\
  (if ldir l =? 2 then inside s (lz l) (lz m) else lz m = lz l * s).
(** cell (or place) [c] is a part of cell [o] *)
Definition in_cell (c o : cell) : Prop :=
  lev o <= lev c /\ let s := 2 ^ (lev c - lev o) in inside s (px o) (px c) /\ inside s (py o) (py c) /\ inside s (pz o) (pz c).

(** a refinement gives eight children *)
Definition forest (cells : list cell) : Prop :=
  forall c, In c cells -> lev c <> 0 -> In (parent c) cells /\ forall k, k < 8 -> In (child (parent c) k) cells.
(** the lines have different indices *)
Definition numbered (cells : list cell) (idx : line -> nat) (n : nat) : Prop :=
  (forall c i, In c cells -> i < 12 -> idx (cell_line c i) < n) /\
  (forall c i d j, In c cells -> In d cells -> i < 12 -> j < 12 -> idx (cell_line c i) = idx (cell_line d j) -> cell_line c i = cell_line d j).

(** ** Geometry *)
Definition half (l : line) (b : nat) : line :=
  mkLine (S (llev l)) (2 * lx l + if ldir l =? 0 then b else 0) (2 * ly l + if ldir l =? 1 then b else 0)
    (2 * lz l + if ldir l =? 2 then b else 0) (ldir l).

Lemma twelve : forall i, i < 12 -> In i (seq 0 12).
Proof. intros i H. apply in_seq. lia. Qed.
Ltac lines12 i := match goal with H : i < 12 |- _ => let T := fresh in assert (T := twelve i H); cbn [seq In] in T;
  repeat (destruct T as [<-|T]); [..|contradiction] end.

Lemma child_line : forall c i b, i < 12 -> b < 2 -> cell_line (child c (line_to_children i b)) i = half (cell_line c i) b.
Proof.
  intros c i b Hi Hb. destruct b as [|[|b]]; [| |lia];
  lines12 i; unfold cell_line, child, half, line_to_children; cbn -[Nat.mul Nat.add Nat.div Nat.modulo]; f_equal; try reflexivity; cbn; lia.
Qed.
Lemma parent_child : forall c k, k < 8 -> parent (child c k) = c.
Proof. intros [l x y z] k Hk. unfold parent, child. cbn [lev px py pz]. f_equal; lia. Qed.
Lemma child_of_parent : forall c, lev c <> 0 -> exists k, k < 8 /\ child (parent c) k = c.
Proof.
  intros [l x y z] H. cbn [lev] in H. exists (x mod 2 + 2 * (y mod 2) + 4 * (z mod 2)). unfold parent, child. cbn [lev px py pz].
  assert (Nat.modulo x 2 < 2) by (apply Nat.mod_upper_bound; lia). assert (Nat.modulo y 2 < 2) by (apply Nat.mod_upper_bound; lia).
  assert (Nat.modulo z 2 < 2) by (apply Nat.mod_upper_bound; lia). split; [lia|]. f_equal; lia.
Qed.

Lemma on_edge_refl : forall l, on_edge l l.
Proof.
  intros [v x y z d]. unfold on_edge, inside. cbn [llev lx ly lz ldir]. rewrite Nat.sub_diag. cbn [Nat.pow].
  destruct (d =? 0), (d =? 1), (d =? 2); repeat split; lia.
Qed.
Lemma on_edge_half : forall m l b, b < 2 -> on_edge m l -> on_edge (half m b) l.
Proof.
  intros [v x y z d] [v' x' y' z' d'] b Hb. unfold on_edge, inside, half. cbn [llev lx ly lz ldir]. intros (-> & Hv & H). cbv zeta in *.
  replace (S v - v') with (S (v - v')) by lia. cbn [Nat.pow]. set (s := 2 ^ (v - v')) in *.
  destruct (d' =? 0), (d' =? 1), (d' =? 2); repeat split; nia.
Qed.

(** the line of the parent, if the line of the cell is a part of a coarser one *)
Lemma parent_line : forall c i l, i < 12 -> on_edge (cell_line c i) l -> llev l < lev c ->
  on_edge (cell_line (parent c) i) l /\ exists b, b < 2 /\ cell_line c i = half (cell_line (parent c) i) b.
Proof.
  intros [v x y z] i [v' x' y' z' d'] Hi. 
  assert (P : forall a, v - v' = S a -> 2 ^ (v - v') = 2 * 2 ^ a) by (intros a ->; cbn [Nat.pow]; lia).
  unfold on_edge, inside. intros H Hv. cbn [lev llev] in Hv.
  assert (E : 2 ^ (v - v') = 2 * 2 ^ (v - 1 - v')) by (apply P; lia).
  destruct H as (Hd & H1 & H). cbv zeta in *. cbn [llev lx ly lz ldir] in *.
  assert (V : llev (cell_line (mkCell v x y z) i) = v) by (lines12 i; reflexivity). rewrite V in *. rewrite E in H.
  set (s := 2 ^ (v - 1 - v')) in *.
  lines12 i; unfold cell_line, parent, half in *; cbn [llev lx ly lz ldir lev px py pz] in *; subst d'; cbn [Nat.eqb] in *;
  (split; [split; [reflexivity|]; split; [lia|]; fold s; repeat split; nia|]);
  match type of H with
  | (_ <= ?a < _) /\ _ => exists (a mod 2)
  | _ /\ (_ <= ?a < _) /\ _ => exists (a mod 2)
  | _ /\ _ /\ (_ <= ?a < _) => exists (a mod 2)
  end; (split; [apply Nat.mod_upper_bound; lia|]); f_equal; nia.
Qed.

(** ** The tables *)
Lemma cell_eqb_eq : forall a b, cell_eqb a b = true <-> a = b.
Proof.
  intros [l x y z] [l' x' y' z']. unfold cell_eqb. cbn [lev px py pz]. rewrite !andb_true_iff, !Nat.eqb_eq. split.
  - intros (((-> & ->) & ->) & ->). reflexivity.
  - intro E. injection E as -> -> -> ->. repeat split.
Qed.
Lemma member_in : forall cells c, member cells c = true <-> In c cells.
Proof.
  intros cells c. unfold member. rewrite existsb_exists. split.
  - intros (d & H & E). apply cell_eqb_eq in E. subst d. exact H.
  - intro H. exists c. split; [exact H|apply cell_eqb_eq; reflexivity].
Qed.
Lemma push_in : forall t j l k x, In x (push t j l k) <-> In x (t k) \/ (k = j /\ In x l).
Proof.
  intros t j l k x. unfold push. destruct (k =? j) eqn:E.
  - apply Nat.eqb_eq in E. rewrite in_app_iff. tauto.
  - apply Nat.eqb_neq in E. tauto.
Qed.

Section Tables.
Variable cells : list cell.
Variable idx : line -> nat.
Variable n : nat.
Hypothesis tree : forest cells.
Hypothesis num : numbered cells idx n.
Notation active := (is_active cells).
Notation sorted := (sorted_cells cells idx).
Notation process := (process_line idx (snd sorted)).

Lemma add_line_in : forall c i ts q x,
  (In x (fst (add_line cells idx c ts i) q) <-> In x (fst ts q) \/ (active c = true /\ x = (c, i) /\ idx (cell_line c i) = q)) /\
  (In x (snd (add_line cells idx c ts i) q) <-> In x (snd ts q) \/ (active c = false /\ x = (c, i) /\ idx (cell_line c i) = q)).
Proof using.
  intros c i ts q x. unfold add_line. cbv zeta. destruct (active c); cbn [fst snd]; rewrite push_in; cbn [In]; split; split; intro H.
  - destruct H as [H|(-> & [<-|[]])]; [left; exact H|right; repeat split].
  - destruct H as [H|(_ & -> & <-)]; [left; exact H|right; split; [reflexivity|left; reflexivity]].
  - left. exact H.
  - destruct H as [H|(H & _)]; [exact H|discriminate].
  - left. exact H.
  - destruct H as [H|(H & _)]; [exact H|discriminate].
  - destruct H as [H|(-> & [<-|[]])]; [left; exact H|right; repeat split].
  - destruct H as [H|(_ & -> & <-)]; [left; exact H|right; split; [reflexivity|left; reflexivity]].
Qed.
Lemma add_cell_in : forall c ts q x,
  (In x (fst (add_cell cells idx ts c) q) <-> In x (fst ts q) \/ (active c = true /\ fst x = c /\ snd x < 12 /\ idx (cell_line c (snd x)) = q)) /\
  (In x (snd (add_cell cells idx ts c) q) <-> In x (snd ts q) \/ (active c = false /\ fst x = c /\ snd x < 12 /\ idx (cell_line c (snd x)) = q)).
Proof using.
  intros c ts q (o, j). cbn [fst snd]. unfold add_cell.
  assert (G : forall is ts,
    (In (o, j) (fst (fold_left (add_line cells idx c) is ts) q) <-> In (o, j) (fst ts q) \/ (active c = true /\ o = c /\ In j is /\ idx (cell_line c j) = q)) /\
    (In (o, j) (snd (fold_left (add_line cells idx c) is ts) q) <-> In (o, j) (snd ts q) \/ (active c = false /\ o = c /\ In j is /\ idx (cell_line c j) = q))).
  { induction is as [|i is IH]; intro ts0; cbn [fold_left]; [cbn [In]; tauto|].
    destruct (IH (add_line cells idx c ts0 i)) as (A & A'). destruct (add_line_in c i ts0 q (o, j)) as (B & B').
    rewrite A, A', B, B'. clear. cbn [In].
    assert (E : (o, j) = (c, i) <-> o = c /\ j = i) by (split; [intro H; injection H as -> ->; auto|intros (-> & ->); reflexivity]).
    rewrite E. clear E. split; split.
    - intros [[H|(H1 & (H2 & H3) & H4)]|(H1 & H2 & H3 & H4)]; [tauto| |tauto]. subst. right. repeat split; try assumption. left; reflexivity.
    - intros [H|(H1 & H2 & [H3|H3] & H4)]; [tauto| |tauto]. subst. left. right. repeat split; assumption.
    - intros [[H|(H1 & (H2 & H3) & H4)]|(H1 & H2 & H3 & H4)]; [tauto| |tauto]. subst. right. repeat split; try assumption. left; reflexivity.
    - intros [H|(H1 & H2 & [H3|H3] & H4)]; [tauto| |tauto]. subst. left. right. repeat split; assumption. }
  destruct (G (seq 0 12) ts) as (A & A'). rewrite A, A'.
  assert (E : In j (seq 0 12) <-> j < 12) by (rewrite in_seq; lia). rewrite E. tauto.
Qed.

Lemma sorted_in : forall q x,
  (In x (fst sorted q) <-> In (fst x) cells /\ active (fst x) = true /\ snd x < 12 /\ idx (cell_line (fst x) (snd x)) = q) /\
  (In x (snd sorted q) <-> In (fst x) cells /\ active (fst x) = false /\ snd x < 12 /\ idx (cell_line (fst x) (snd x)) = q).
Proof using.
  intros q x. unfold sorted_cells. assert (F := fun c ts => add_cell_in c ts q x). revert F. generalize (add_cell cells idx). intros f F.
  assert (G : forall cs ts,
    (In x (fst (fold_left f cs ts) q) <-> In x (fst ts q) \/ (In (fst x) cs /\ active (fst x) = true /\ snd x < 12 /\ idx (cell_line (fst x) (snd x)) = q)) /\
    (In x (snd (fold_left f cs ts) q) <-> In x (snd ts q) \/ (In (fst x) cs /\ active (fst x) = false /\ snd x < 12 /\ idx (cell_line (fst x) (snd x)) = q))).
  { induction cs as [|c cs IH]; intro ts; cbn [fold_left].
    - cbn [In]. split; (split; [intro H; left; exact H|intros [H|([] & _)]; exact H]).
    - destruct (IH (f ts c)) as (A & A'). destruct (F c ts) as (C & C'). clear IH F. cbn [In]. split.
      + rewrite A, C. clear. split.
        * intros [[H|(H1 & H2 & H3 & H4)]|(H1 & H2 & H3 & H4)]; [left; exact H| |right; repeat split; try assumption; right; assumption].
          subst c. right. repeat split; try assumption. left; reflexivity.
        * intros [H|([H1|H1] & H2 & H3 & H4)]; [left; left; exact H| |right; repeat split; assumption]. subst c. left. right. repeat split; assumption.
      + rewrite A', C'. clear. split.
        * intros [[H|(H1 & H2 & H3 & H4)]|(H1 & H2 & H3 & H4)]; [left; exact H| |right; repeat split; try assumption; right; assumption].
          subst c. right. repeat split; try assumption. left; reflexivity.
        * intros [H|([H1|H1] & H2 & H3 & H4)]; [left; left; exact H| |right; repeat split; assumption]. subst c. left. right. repeat split; assumption. }
  destruct (G cells (fun _ => [], fun _ => [])) as (A & A'). clear G. cbn [fst snd In] in A, A'.
  split; [rewrite A|rewrite A']; (split; [intros [[]|H]; exact H|intro H; right; exact H]).
Qed.

Lemma process_mono : forall t j q x, In x (t q) -> In x (process t j q).
Proof using.
  intros t j q x H. unfold process_line. destruct (t j); [exact H|]. destruct (snd sorted j) as [|(ic, nl) ?]; [exact H|].
  cbn [fold_left]. apply push_in. left. apply push_in. left. exact H.
Qed.
Lemma process_all_mono : forall js t q x, In x (t q) -> In x (fold_left process js t q).
Proof using. induction js as [|j js IH]; intros t q x H; cbn [fold_left]; [exact H|]. apply IH, process_mono, H. Qed.

Lemma children_in : forall c k, In c cells -> active c = false -> k < 8 -> In (child c k) cells.
Proof using tree n.
  intros c k Hc Ha Hk. unfold is_active in Ha. apply negb_false_iff, member_in in Ha.
  destruct (tree _ Ha ltac:(discriminate)) as (_ & H). specialize (H k Hk). rewrite parent_child in H by lia. exact H.
Qed.
Lemma parent_inactive : forall c, In c cells -> lev c <> 0 -> In (parent c) cells /\ active (parent c) = false.
Proof using tree n.
  intros c Hc Hl. destruct (tree c Hc Hl) as (H1 & H2). split; [exact H1|]. unfold is_active. apply negb_false_iff, member_in, H2. lia.
Qed.
Lemma children_range : forall i b, i < 12 -> b < 2 -> line_to_children i b < 8.
Proof using. intros i b Hi Hb. destruct b as [|[|b]]; [| |lia]; lines12 i; cbn; lia. Qed.

(** all entries belong to cells with a coarser or the same edge *)
Definition entries (t : table) : Prop := forall q x, In x (t q) ->
  In (fst x) cells /\ active (fst x) = true /\ snd x < 12 /\
  forall c i, In c cells -> i < 12 -> idx (cell_line c i) = q -> on_edge (cell_line c i) (cell_line (fst x) (snd x)).
Lemma entries_start : entries (fst sorted).
Proof using num n.
  intros q x H. apply (proj1 (sorted_in q x)) in H. destruct H as (H1 & H2 & H3 & H4). repeat (split; [assumption|]).
  intros c i Hc Hi E. rewrite (proj2 num c i (fst x) (snd x) Hc H1 Hi H3 ltac:(congruence)). apply on_edge_refl.
Qed.
Lemma entries_process : forall t j, entries t -> entries (process t j).
Proof using tree num n.
  intros t j Ht. unfold process_line. destruct (t j) as [|t0 tr]; [exact Ht|]. destruct (snd sorted j) as [|(ic, nl) rest] eqn:E; [exact Ht|].
  assert (I : In (ic, nl) (snd sorted j)) by (rewrite E; left; reflexivity).
  apply (proj2 (sorted_in j (ic, nl))) in I. cbn [fst snd] in I. destruct I as (I1 & I2 & I3 & I4).
  assert (G : forall t b, b < 2 -> entries t -> entries (push t (idx (cell_line (child ic (line_to_children nl b)) nl)) (t j))).
  { intros t' b Hb Ht' q x H. apply push_in in H. destruct H as [H|(-> & H)]; [exact (Ht' q x H)|].
    destruct (Ht' j x H) as (X1 & X2 & X3 & X4). repeat (split; [assumption|]). intros c i Hc Hi Eq.
    assert (K := children_range nl b I3 Hb).
    rewrite (proj2 num c i _ nl Hc (children_in ic _ I1 I2 K) Hi I3 Eq), child_line by assumption.
    apply on_edge_half; [exact Hb|]. apply X4; assumption. }
  cbn [fold_left]. apply (G _ 1 ltac:(lia)). apply (G _ 0 ltac:(lia)). exact Ht.
Qed.
Lemma entries_end : entries (line_to_cells cells idx n).
Proof using tree num n.
  unfold line_to_cells. generalize (seq 0 n). assert (H := entries_start). revert H. generalize (fst sorted). intros t H l. revert t H.
  induction l as [|j l IH]; intros t H; cbn [fold_left]; [exact H|]. apply IH, entries_process, H.
Qed.

(** one step to a finer line *)
Lemma process_child : forall t c i b x, In c cells -> active c = false -> i < 12 -> b < 2 ->
  In x (t (idx (cell_line c i))) -> In x (process t (idx (cell_line c i)) (idx (half (cell_line c i) b))).
Proof using num n.
  intros t c i b x Hc Ha Hi Hb H. unfold process_line.
  destruct (t (idx (cell_line c i))) as [|t0 tr] eqn:T; [contradiction|].
  assert (I : In (c, i) (snd sorted (idx (cell_line c i)))).
  { apply (proj2 (sorted_in _ (c, i))). cbn [fst snd]. repeat split; assumption. }
  destruct (snd sorted (idx (cell_line c i))) as [|(ic, nl) rest] eqn:E; [contradiction|].
  assert (J : In (ic, nl) (snd sorted (idx (cell_line c i)))) by (rewrite E; left; reflexivity).
  apply (proj2 (sorted_in _ (ic, nl))) in J. cbn [fst snd] in J. destruct J as (J1 & J2 & J3 & J4).
  assert (L : cell_line ic nl = cell_line c i) by (apply (proj2 num); assumption).
  cbn [fold_left]. rewrite !child_line by (assumption || lia). rewrite L.
  destruct b as [|[|b]]; [| |lia].
  - apply push_in. left. apply push_in. right. split; [reflexivity|]. rewrite T. exact H.
  - apply push_in. right. split; [reflexivity|]. apply push_in. left. rewrite T. exact H.
Qed.

Lemma run_seq : forall t a b, a < b -> fold_left process (seq 0 b) t = fold_left process (seq (S a) (b - S a)) (process (fold_left process (seq 0 a) t) a).
Proof using.
  intros t a b H. replace b with (a + S (b - S a)) at 1 by lia. rewrite seq_app, fold_left_app. cbn [seq fold_left Nat.add]. reflexivity.
Qed.
End Tables.

(** ** Edges *)
(** C86_edge: a cell that is reported has an edge which is a part of an edge of a coarser cell *)
Theorem C86_edge : forall cells owned idx n c, forest cells -> numbered cells idx n -> In c cells ->
  is_edge_constrained cells owned idx n c = true ->
  owned c = true /\ exists o i j, In o cells /\ is_active cells o = true /\ lev o < lev c /\ i < 12 /\ j < 12 /\ on_edge (cell_line c i) (cell_line o j).
Proof.
  intros cells owned idx n c T N Hc H. unfold is_edge_constrained in H. apply andb_true_iff in H. destruct H as (Ho & H). split; [exact Ho|].
  apply existsb_exists in H. destruct H as (i & Hi & H). apply existsb_exists in H. destruct H as (x & Hx & H).
  apply in_seq in Hi. apply Nat.ltb_lt in H.
  destruct (entries_end cells idx n T N _ _ Hx) as (X1 & X2 & X3 & X4).
  exists (fst x), i, (snd x). do 5 (split; [assumption || lia|]). apply X4; [exact Hc|lia|reflexivity].
Qed.
Print Assumptions C86_edge.

Lemma edge_found : forall cells owned idx n c o i j, owned c = true -> i < 12 -> lev o < lev c ->
  In (o, j) (line_to_cells cells idx n (idx (cell_line c i))) -> is_edge_constrained cells owned idx n c = true.
Proof.
  intros cells owned idx n c o i j Ho Hi Hl H. unfold is_edge_constrained. rewrite Ho. cbn [andb].
  apply existsb_exists. exists i. split; [apply in_seq; lia|]. apply existsb_exists. exists (o, j). split; [exact H|]. apply Nat.ltb_lt. exact Hl.
Qed.
Lemma lev_line : forall c i, llev (cell_line c i) = lev c.
Proof. intros c i. unfold cell_line. do 11 (destruct i as [|i]; [reflexivity|]). reflexivity. Qed.

Lemma on_edge_same : forall a b, on_edge a b -> llev a = llev b -> a = b.
Proof.
  intros [v x y z d] [v' x' y' z' d']. unfold on_edge, inside. cbn [llev lx ly lz ldir]. intros (-> & _ & H) ->. cbv zeta in H. rewrite Nat.sub_diag in H. cbn [Nat.pow] in H.
  destruct (d' =? 0), (d' =? 1), (d' =? 2); f_equal; lia.
Qed.

(** C86_edge_found: a cell with an edge that is a half of an edge of an active cell is reported,
    whatever the indices of the lines are *)
Theorem C86_edge_found : forall cells owned idx n c o i j, forest cells -> numbered cells idx n -> In c cells -> owned c = true ->
  In o cells -> is_active cells o = true -> lev c = S (lev o) -> i < 12 -> j < 12 -> on_edge (cell_line c i) (cell_line o j) ->
  is_edge_constrained cells owned idx n c = true.
Proof.
  intros cells owned idx n c o i j T N Hc Hw Ho Ha Hl Hi Hj E.
  apply (edge_found _ _ _ _ _ o i j Hw Hi); [lia|].
  destruct (parent_line c i (cell_line o j) Hi E ltac:(rewrite lev_line; lia)) as (E1 & b & Hb & ->).
  destruct (parent_inactive cells n T c Hc ltac:(lia)) as (P1 & P2).
  assert (L : cell_line (parent c) i = cell_line o j).
  { apply on_edge_same; [exact E1|]. rewrite !lev_line. cbn [parent lev]. lia. }
  unfold line_to_cells. rewrite (run_seq _ _ _ (idx (cell_line (parent c) i)) n (proj1 N _ _ P1 Hi)).
  apply process_all_mono, (process_child cells idx n N); try assumption.
  apply process_all_mono. apply (proj1 (sorted_in cells idx _ (o, j))). cbn [fst snd]. rewrite L. repeat split; assumption.
Qed.
Print Assumptions C86_edge_found.

(** the parts of a line have larger indices *)
Definition ordered (idx : line -> nat) : Prop := forall l b, b < 2 -> idx l < idx (half l b).

(** C86_edge_ordered: if the parts of lines have larger indices, then all cells are found, even
    if their levels differ by more than one *)
Theorem C86_edge_ordered : forall cells owned idx n c o i j, forest cells -> numbered cells idx n -> ordered idx -> In c cells -> owned c = true ->
  In o cells -> is_active cells o = true -> lev o < lev c -> i < 12 -> j < 12 -> on_edge (cell_line c i) (cell_line o j) ->
  is_edge_constrained cells owned idx n c = true.
Proof.
  intros cells owned idx n c o i j T N O Hc Hw Ho Ha Hl Hi Hj E.
  apply (edge_found _ _ _ _ _ o i j Hw Hi Hl).
  assert (G : forall k c, In c cells -> lev c = lev o + k -> on_edge (cell_line c i) (cell_line o j) ->
    In (o, j) (fold_left (process_line idx (snd (sorted_cells cells idx))) (seq 0 (idx (cell_line c i))) (fst (sorted_cells cells idx)) (idx (cell_line c i)))).
  { induction k as [|k IH]; intros d Hd Hk Ed.
    - apply process_all_mono. rewrite (on_edge_same _ _ Ed) by (rewrite !lev_line; lia).
      apply (proj1 (sorted_in cells idx _ (o, j))). cbn [fst snd]. repeat split; assumption.
    - destruct (parent_line d i (cell_line o j) Hi Ed ltac:(rewrite lev_line; lia)) as (E1 & b & Hb & Eb).
      destruct (parent_inactive cells n T d Hd ltac:(lia)) as (P1 & P2). rewrite Eb.
      rewrite (run_seq _ _ _ (idx (cell_line (parent d) i))) by (apply O; exact Hb).
      apply process_all_mono, (process_child cells idx n N); try assumption.
      apply IH; [exact P1|cbn [parent lev]; lia|exact E1]. }
  assert (F := G (lev c - lev o) c Hc ltac:(lia) E). unfold line_to_cells.
  rewrite (run_seq _ _ _ (idx (cell_line c i)) n (proj1 N _ _ Hc Hi)). apply process_all_mono, process_mono, F.
Qed.
Print Assumptions C86_edge_ordered.

(** ** Faces *)
(** two places of the same level with a common face *)
Definition adjacent (c p : cell) : Prop :=
  lev p = lev c /\
  ((px p = px c + 1 \/ px c = px p + 1) /\ py p = py c /\ pz p = pz c \/
   px p = px c /\ (py p = py c + 1 \/ py c = py p + 1) /\ pz p = pz c \/
   px p = px c /\ py p = py c /\ (pz p = pz c + 1 \/ pz c = pz p + 1)).
Lemma beside_adjacent : forall c p, (exists f, f < 6 /\ beside c f = Some p) <-> adjacent c p.
Proof.
  intros [l x y z] [l' x' y' z']. unfold adjacent. cbn [lev px py pz]. split.
  - intros (f & Hf & E). do 6 (destruct f as [|f]; [cbn in E; try (destruct (_ =? 0) eqn:Z; [discriminate|apply Nat.eqb_neq in Z]); injection E as <- <- <- <-; lia|]). lia.
  - intros (-> & [([-> | E] & -> & ->)|[(-> & [-> | E] & ->)|(-> & -> & [-> | E])]]).
    + exists 1. split; [lia|reflexivity].
    + exists 0. split; [lia|]. cbn. destruct (x =? 0) eqn:Z; [apply Nat.eqb_eq in Z; lia|]. f_equal. f_equal. lia.
    + exists 3. split; [lia|reflexivity].
    + exists 2. split; [lia|]. cbn. destruct (y =? 0) eqn:Z; [apply Nat.eqb_eq in Z; lia|]. f_equal. f_equal. lia.
    + exists 5. split; [lia|reflexivity].
    + exists 4. split; [lia|]. cbn. destruct (z =? 0) eqn:Z; [apply Nat.eqb_eq in Z; lia|]. f_equal. f_equal. lia.
Qed.

Lemma in_cell_same : forall a b, in_cell a b -> lev a = lev b -> a = b.
Proof.
  intros [v x y z] [v' x' y' z']. unfold in_cell, inside. cbn [lev px py pz]. intros (_ & H) ->. cbv zeta in H. rewrite Nat.sub_diag in H. cbn [Nat.pow] in H. f_equal; lia.
Qed.
Lemma in_cell_refl : forall a, in_cell a a.
Proof. intros [v x y z]. unfold in_cell, inside. cbn [lev px py pz]. rewrite Nat.sub_diag. cbn [Nat.pow]. lia. Qed.
Lemma in_cell_parent : forall c o, lev o < lev c -> in_cell c o <-> in_cell (parent c) o.
Proof.
  intros [v x y z] [v' x' y' z'] Hv. unfold in_cell, inside, parent. cbn [lev px py pz] in *. cbv zeta.
  replace (v - v') with (S (v - 1 - v')) by lia. cbn [Nat.pow]. set (s := 2 ^ (v - 1 - v')). 
  assert (A : forall a b, b * (s + (s + 0)) <= a < (b + 1) * (s + (s + 0)) <-> b * s <= a / 2 < (b + 1) * s).
  { intros a b. split; intros; nia. }
  rewrite !A. lia.
Qed.
Lemma in_cell_inactive : forall cells d o, forest cells -> In d cells -> in_cell d o -> lev o < lev d -> is_active cells o = false.
Proof.
  intros cells d o T. assert (G : forall k d, In d cells -> in_cell d o -> lev d = S (lev o + k) -> is_active cells o = false).
  { induction k as [|k IH]; intros e He Hi Hl.
    - destruct (parent_inactive cells 0 T e He ltac:(lia)) as (P1 & P2).
      apply (in_cell_parent e o ltac:(lia)) in Hi. apply in_cell_same in Hi; [|cbn [parent lev]; lia]. rewrite <- Hi. exact P2.
    - destruct (parent_inactive cells 0 T e He ltac:(lia)) as (P1 & P2).
      apply (in_cell_parent e o ltac:(lia)) in Hi. apply (IH (parent e) P1 Hi). cbn [parent lev]. lia. }
  intros Hd Hi Hl. apply (G (lev d - S (lev o)) d Hd Hi). lia.
Qed.
Lemma cover_spec : forall cells k d o, forest cells -> k <= lev d -> cover cells k d = Some o ->
  In o cells /\ in_cell d o /\ (o = d \/ lev o < lev d /\ is_active cells o = true).
Proof.
  intros cells k d o T. revert d. induction k as [|k IH]; intros d Hk E; cbn [cover] in E; destruct (member cells d) eqn:M.
  - injection E as <-. apply member_in in M. split; [exact M|]. split; [apply in_cell_refl|left; reflexivity].
  - discriminate.
  - injection E as <-. apply member_in in M. split; [exact M|]. split; [apply in_cell_refl|left; reflexivity].
  - destruct (IH (parent d) ltac:(cbn [parent lev]; lia) E) as (H1 & H2 & H3). split; [exact H1|].
    assert (L : lev o < lev d). { destruct H3 as [->|(H3 & _)]; cbn [parent lev] in *; lia. }
    split; [apply in_cell_parent; assumption|]. right. split; [exact L|].
    destruct H3 as [->|(_ & H3)]; [|exact H3]. destruct (is_active cells (parent d)) eqn:A; [reflexivity|]. exfalso.
    destruct (child_of_parent d ltac:(lia)) as (q & Hq & Q). assert (X := children_in cells 0 T (parent d) q H1 A Hq). rewrite Q in X.
    apply member_in in X. congruence.
Qed.
Lemma cover_exists : forall cells k d o, In o cells -> in_cell d o -> lev d <= lev o + k -> exists e, cover cells k d = Some e.
Proof.
  intros cells. induction k as [|k IH]; intros d o Ho Hi Hk; cbn [cover]; destruct (member cells d) eqn:M; try (eexists; reflexivity).
  - exfalso. apply in_cell_same in Hi as X; [|unfold in_cell in Hi; lia]. subst o. apply member_in in Ho. congruence.
  - destruct (Nat.eq_dec (lev d) (lev o)) as [El|El].
    + exfalso. apply in_cell_same in Hi; [|exact El]. subst o. apply member_in in Ho. congruence.
    + assert (L : lev o < lev d) by (unfold in_cell in Hi; lia). apply (IH (parent d) o Ho); [exact (proj1 (in_cell_parent d o L) Hi)|]. cbn [parent lev]. lia.
Qed.

(** C86_face: a cell is reported because of a face exactly if a coarser active cell lies on the
    other side *)
Theorem C86_face : forall cells owned c, forest cells ->
  is_face_constrained cells owned c = true <->
  owned c = true /\ exists p o, adjacent c p /\ In o cells /\ is_active cells o = true /\ lev o < lev c /\ in_cell p o.
Proof.
  intros cells owned c T. unfold is_face_constrained. rewrite andb_true_iff, existsb_exists. split.
  - intros (Hw & f & Hf & H). split; [exact Hw|]. apply in_seq in Hf. unfold neighbor in H.
    destruct (beside c f) as [p|] eqn:E; [|discriminate]. destruct (cover cells (lev p) p) as [o|] eqn:C; [|discriminate]. apply Nat.ltb_lt in H.
    assert (A : adjacent c p) by (apply beside_adjacent; exists f; split; [lia|exact E]).
    destruct (cover_spec cells _ p o T (Nat.le_refl _) C) as (H1 & H2 & [->|(H3 & H4)]).
    + unfold adjacent in A. lia.
    + exists p, o. do 4 (split; [assumption || lia|]). exact H2.
  - intros (Hw & p & o & A & Ho & Ha & Hl & Hi). split; [exact Hw|].
    apply beside_adjacent in A as (f & Hf & E). exists f. split; [apply in_seq; lia|]. unfold neighbor. rewrite E.
    assert (L : lev p = lev c). { assert (B : adjacent c p) by (apply beside_adjacent; exists f; split; assumption). apply B. }
    destruct (cover_exists cells (lev p) p o Ho Hi ltac:(lia)) as (e & C). rewrite C. apply Nat.ltb_lt.
    destruct (cover_spec cells _ p e T (Nat.le_refl _) C) as (H1 & H2 & [->|(H3 & H4)]); [|lia].
    exfalso. rewrite (in_cell_inactive cells p o T H1 Hi ltac:(lia)) in Ha. discriminate.
Qed.
Print Assumptions C86_face.

(** ** Both together *)
(** active cells with a common edge differ by one level at most, as p4est guarantees *)
Definition balanced (cells : list cell) : Prop := forall c o i j, In c cells -> In o cells -> is_active cells c = true -> is_active cells o = true ->
  i < 12 -> j < 12 -> on_edge (cell_line c i) (cell_line o j) -> lev c <= S (lev o).

(** C86_constrained: exactly the owned cells with an edge or a face that is a part of one of a
    coarser active cell *)
Theorem C86_constrained : forall cells owned idx n c, forest cells -> numbered cells idx n -> balanced cells \/ ordered idx ->
  In c cells -> is_active cells c = true ->
  is_constrained cells owned idx n c = true <->
  owned c = true /\ exists o, In o cells /\ is_active cells o = true /\ lev o < lev c /\
    ((exists p, adjacent c p /\ in_cell p o) \/ exists i j, i < 12 /\ j < 12 /\ on_edge (cell_line c i) (cell_line o j)).
Proof.
  intros cells owned idx n c T N B Hc Ha. unfold is_constrained. rewrite orb_true_iff, (C86_face cells owned c T). split.
  - intros [(Hw & p & o & H1 & H2 & H3 & H4 & H5)|H].
    + split; [exact Hw|]. exists o. do 3 (split; [assumption|]). left. exists p. split; assumption.
    + destruct (C86_edge cells owned idx n c T N Hc H) as (Hw & o & i & j & H1 & H2 & H3 & H4 & H5 & H6). split; [exact Hw|].
      exists o. do 3 (split; [assumption|]). right. exists i, j. do 2 (split; [assumption|]). exact H6.
  - intros (Hw & o & H1 & H2 & H3 & [(p & H4 & H5)|(i & j & H4 & H5 & H6)]).
    + left. split; [exact Hw|]. exists p, o. do 4 (split; [assumption|]). exact H5.
    + right. destruct B as [B|B].
      * apply (C86_edge_found cells owned idx n c o i j); try assumption. assert (X := B c o i j Hc H1 Ha H2 H4 H5 H6). lia.
      * apply (C86_edge_ordered cells owned idx n c o i j); assumption.
Qed.
Print Assumptions C86_constrained.

(** C86_count: the two counts are the numbers of owned active cells with and without hanging
    nodes, and every owned active cell is counted once *)
Theorem C86_count : forall cells owned idx n,
  count_hn cells owned idx n =
    (length (filter (fun c => owned c && is_constrained cells owned idx n c) (active_cells cells)),
     length (filter (fun c => owned c && negb (is_constrained cells owned idx n c)) (active_cells cells))) /\
  fst (count_hn cells owned idx n) + snd (count_hn cells owned idx n) = length (filter owned (active_cells cells)).
Proof.
  intros cells owned idx n. unfold count_hn. generalize (active_cells cells). intro l.
  assert (G : forall l a b, fold_left (fun m c => if owned c then if is_constrained cells owned idx n c then (S (fst m), snd m) else (fst m, S (snd m)) else m) l (a, b) =
    (a + length (filter (fun c => owned c && is_constrained cells owned idx n c) l), b + length (filter (fun c => owned c && negb (is_constrained cells owned idx n c)) l)) /\
    length (filter (fun c => owned c && is_constrained cells owned idx n c) l) + length (filter (fun c => owned c && negb (is_constrained cells owned idx n c)) l) = length (filter owned l)).
  { clear l. induction l as [|c l IH]; intros a b; cbn [fold_left filter length]; [split; [f_equal; lia|reflexivity]|].
    destruct (owned c); cbn [andb]; [|exact (IH a b)]. destruct (is_constrained cells owned idx n c); cbn [negb fst snd length].
    - destruct (IH (S a) b) as (I1 & I2). rewrite I1. split; [f_equal; lia|lia].
    - destruct (IH a (S b)) as (I1 & I2). rewrite I1. split; [f_equal; lia|lia]. }
  destruct (G l 0 0) as (G1 & G2). rewrite G1. cbn [fst snd]. split; [reflexivity|exact G2].
Qed.
Print Assumptions C86_count.

(** ** Weights *)
(** C86_weight: for factors in the range of the type the weight is the rounded one, and a cell
    with hanging nodes has no smaller weight than others if the factor is at least one *)
Theorem C86_weight : forall cells owned idx n c weight, (0 <= weight)%Q -> (10000 * weight < 4294967296)%Q ->
  exists w, hanging_nodes_weighting cells owned idx n weight c = Some w /\
  (is_active cells c = true -> is_constrained cells owned idx n c = true ->
     (inject_Z (Z.of_N w) <= 10000 * weight)%Q /\ (10000 * weight < inject_Z (Z.of_N w + 1))%Q /\ ((1 <= weight)%Q -> (10000 <= w)%N)) /\
  (is_constrained cells owned idx n c = false -> w = 10000%N).
Proof.
  intros cells owned idx n c weight H0 H1. unfold hanging_nodes_weighting.
  assert (P : (0 <= 10000 * weight)%Q) by lra.
  assert (F0 : (0 <= Qfloor (10000 * weight))%Z) by (change 0%Z with (Qfloor 0); apply Qfloor_resp_le; exact P).
  assert (F1 : (inject_Z (Qfloor (10000 * weight)) <= 10000 * weight)%Q) by apply Qfloor_le.
  assert (F2 : (10000 * weight < inject_Z (Qfloor (10000 * weight) + 1))%Q) by apply Qlt_floor.
  assert (F3 : (Qfloor (10000 * weight) < 4294967296)%Z) by (rewrite Zlt_Qlt; change (inject_Z 4294967296) with 4294967296%Q; lra).
  assert (U : to_unsigned (10000 * weight) = Some (Z.to_N (Qfloor (10000 * weight)))).
  { unfold to_unsigned. rewrite (proj2 (Qle_bool_iff _ _) P). cbv zeta.
    rewrite (proj2 (Z.leb_le _ _) F0), (proj2 (Z.ltb_lt _ _) F3). reflexivity. }
  assert (W : is_constrained cells owned idx n c = true -> owned c = true).
  { unfold is_constrained, is_face_constrained, is_edge_constrained. destruct (owned c); [reflexivity|cbn; discriminate]. }
  destruct (is_constrained cells owned idx n c) eqn:C.
  - rewrite (W eq_refl). destruct (is_active cells c); cbn [negb orb].
    + rewrite U. eexists. split; [reflexivity|]. split; [|discriminate]. intros _ _. rewrite Z2N.id by exact F0.
      split; [exact F1|]. split; [exact F2|]. intro H. assert (X : (Qfloor 10000 <= Qfloor (10000 * weight))%Z) by (apply Qfloor_resp_le; lra).
      change (Qfloor 10000) with 10000%Z in X.
      lia.
    + exists 10000%N. split; [reflexivity|]. split; discriminate.
  - exists 10000%N. split; [destruct (_ || _); reflexivity|]. split; [discriminate|reflexivity].
Qed.
Print Assumptions C86_weight.

(** ** Concrete meshes *)
Definition line_eqb (a b : line) : bool :=
  (llev a =? llev b) && (lx a =? lx b) && (ly a =? ly b) && (lz a =? lz b) && (ldir a =? ldir b).
Lemma line_eqb_eq : forall a b, line_eqb a b = true <-> a = b.
Proof.
  intros [v x y z d] [v' x' y' z' d']. unfold line_eqb. cbn [llev lx ly lz ldir]. rewrite !andb_true_iff, !Nat.eqb_eq. split.
  - intros ((((-> & ->) & ->) & ->) & ->). reflexivity.
  - intro E. injection E as -> -> -> -> ->. repeat split.
Qed.
Fixpoint position (l : line) (ls : list line) : nat := match ls with [] => 0 | m :: ls => if line_eqb l m then 0 else S (position l ls) end.
Lemma position_in : forall l ls, In l ls -> position l ls < length ls /\ nth_error ls (position l ls) = Some l.
Proof.
  intros l ls. induction ls as [|m ls IH]; intro H; [destruct H|]. cbn [position]. destruct (line_eqb l m) eqn:E.
  - apply line_eqb_eq in E. subst m. split; [cbn; lia|reflexivity].
  - destruct H as [->|H]; [rewrite (proj2 (line_eqb_eq l l) eq_refl) in E; discriminate|].
    destruct (IH H) as (I1 & I2). split; [cbn [length]; lia|exact I2].
Qed.
Definition new_line (ls : list line) (l : line) : list line := if existsb (line_eqb l) ls then ls else ls ++ [l].
Definition all_lines (cells : list cell) : list line := fold_left new_line (flat_map (fun c => map (cell_line c) (seq 0 12)) cells) [].
Lemma new_line_in : forall l ls acc, In l ls \/ In l acc -> In l (fold_left new_line ls acc).
Proof.
  intros l ls. induction ls as [|m ls IH]; intros acc H; cbn [fold_left]; [destruct H as [[]|H]; exact H|]. apply IH.
  destruct H as [[->|H]|H]; [right|left; exact H|right]; unfold new_line.
  - destruct (existsb (line_eqb l) acc) eqn:E; [|apply in_or_app; right; left; reflexivity].
    apply existsb_exists in E. destruct E as (k & Hk & E). apply line_eqb_eq in E. subst k. exact Hk.
  - destruct (existsb (line_eqb m) acc); [exact H|apply in_or_app; left; exact H].
Qed.
Definition in_order (cells : list cell) (l : line) : nat := position l (all_lines cells).
Lemma in_order_numbered : forall cells, numbered cells (in_order cells) (length (all_lines cells)).
Proof.
  intro cells. assert (I : forall c i, In c cells -> i < 12 -> In (cell_line c i) (all_lines cells)).
  { intros c i Hc Hi. unfold all_lines. apply new_line_in. left. apply in_flat_map. exists c. split; [exact Hc|]. apply in_map, in_seq. lia. }
  split.
  - intros c i Hc Hi. apply position_in, I; assumption.
  - intros c i d j Hc Hd Hi Hj E. destruct (position_in _ _ (I c i Hc Hi)) as (_ & A). destruct (position_in _ _ (I d j Hd Hj)) as (_ & B).
    unfold in_order in E. rewrite E in A. congruence.
Qed.
Definition forest_check (cells : list cell) : bool :=
  forallb (fun c => (lev c =? 0) || (member cells (parent c) && forallb (fun k => member cells (child (parent c) k)) (seq 0 8))) cells.
Lemma forest_checked : forall cells, forest_check cells = true -> forest cells.
Proof.
  intros cells H c Hc Hl. unfold forest_check in H. rewrite forallb_forall in H. specialize (H c Hc).
  apply orb_true_iff in H. destruct H as [H|H]; [apply Nat.eqb_eq in H; lia|]. apply andb_true_iff in H. destruct H as (H1 & H2).
  apply member_in in H1. split; [exact H1|]. intros k Hk. rewrite forallb_forall in H2. apply member_in, H2, in_seq. lia.
Qed.

(** four coarse cells around an edge, three of them refined *)
Definition around_edge : list cell :=
  let coarse := [mkCell 0 0 0 0; mkCell 0 1 0 0; mkCell 0 0 1 0] in
  coarse ++ [mkCell 0 1 1 0] ++ flat_map (fun c => map (child c) (seq 0 8)) coarse.
Definition reported (cells : list cell) : cell -> bool * bool :=
  let ls := all_lines cells in
  fun c => (is_face_constrained cells (fun _ => true) c, is_edge_constrained cells (fun _ => true) (fun l => position l ls) (length ls) c).
(** the cells at the common edge are reported because of the edge only, and the next one because
    of the face *)
Example C86_example :
  forest around_edge /\ numbered around_edge (in_order around_edge) (length (all_lines around_edge)) /\
  reported around_edge (mkCell 1 1 1 0) = (false, true) /\ reported around_edge (mkCell 1 0 1 0) = (false, false) /\
  reported around_edge (mkCell 1 1 2 0) = (true, true).
Proof.
  split; [apply forest_checked; vm_compute; reflexivity|]. split; [apply in_order_numbered|]. vm_compute. repeat split.
Qed.

(** C86_periodic_refuted: two cells in a row, the first one refined, and the row periodic: the
    children at the end of the row touch the coarse cell over the period, but they are not
    reported *)
Definition period (n : nat) (c : cell) : cell := mkCell (lev c) ((px c + n * 2 ^ lev c - 1) mod (n * 2 ^ lev c)) (py c) (pz c).
Definition in_a_row : list cell := [mkCell 0 0 0 0; mkCell 0 1 0 0] ++ map (child (mkCell 0 0 0 0)) (seq 0 8).
Theorem C86_periodic_refuted : forest in_a_row /\ numbered in_a_row (in_order in_a_row) (length (all_lines in_a_row)) /\
  exists c o, In c in_a_row /\ is_active in_a_row c = true /\ In o in_a_row /\ is_active in_a_row o = true /\ lev o < lev c /\
    px c = 0 /\ in_cell (period 2 c) o /\
    is_constrained in_a_row (fun _ => true) (in_order in_a_row) (length (all_lines in_a_row)) c = false.
Proof.
  split; [apply forest_checked; vm_compute; reflexivity|]. split; [apply in_order_numbered|].
  exists (mkCell 1 0 0 0), (mkCell 0 1 0 0). split; [vm_compute; tauto|]. split; [reflexivity|]. split; [vm_compute; tauto|]. split; [reflexivity|].
  split; [cbn; lia|]. split; [reflexivity|]. split; [unfold in_cell, inside; cbn; lia|]. vm_compute. reflexivity.
Qed.
Print Assumptions C86_periodic_refuted.

(** C86_weight_refuted: a small factor gives weight zero, and with a negative or a large one the
    conversion is undefined; nothing checks the parameter *)
Theorem C86_weight_refuted :
  let w f := hanging_nodes_weighting in_a_row (fun _ => true) (in_order in_a_row) (length (all_lines in_a_row)) f (mkCell 1 1 0 0) in
  is_constrained in_a_row (fun _ => true) (in_order in_a_row) (length (all_lines in_a_row)) (mkCell 1 1 0 0) = true /\
  w (1 # 20000) = Some 0%N /\ w (-(1)) = None /\ w (500000 # 1) = None.
Proof. vm_compute. repeat split. Qed.
Print Assumptions C86_weight_refuted.

Example C86_count_example :
  let ls := all_lines in_a_row in count_hn in_a_row (fun _ => true) (fun l => position l ls) (length ls) = (4, 5) /\
  hanging_nodes_weighting in_a_row (fun _ => true) (fun l => position l ls) (length ls) (5 # 2) (mkCell 1 1 0 0) = Some 25000%N.
Proof. vm_compute. repeat split. Qed.
