(** C114: periodic connections do not depend on the partition. *)
From Coq Require Import List Arith Bool Lia Relations.
From Verif Require Import Util StitchModel StitchSpec FloodModel DetectModel DetectProps PeriodicCellsModel.
Import ListNotations.
Local Open Scope nat_scope.

Definition touches (periodic : nat -> list neighbor) (c o : nat) : Prop := exists face, In face (periodic c) /\ match face with Active a => o = a | Refined children => In o children end.
Lemma across_in : forall o face, In o (across face) <-> match face with Active a => o = a | Refined children => In o children end.
Proof. intros o [a|l]; cbn; intuition. Qed.

Lemma pair_lt_spec : forall a b, pair_lt a b = true <-> fst a < fst b \/ (fst a = fst b /\ snd a < snd b).
Proof. intros a b. unfold pair_lt. rewrite orb_true_iff, andb_true_iff, !Nat.ltb_lt, Nat.eqb_eq. reflexivity. Qed.
Lemma emplace_in : forall x l y, In y (emplace x l) <-> y = x \/ In y l.
Proof.
  intros x. induction l as [|z l IH]; intro y; cbn [emplace].
  - cbn [In]. split; [intros [H|[]]; auto|intros [H|[]]; auto].
  - destruct (pair_lt x z) eqn:E1; [cbn [In]; split; intros [H|H]; auto|]. destruct (pair_lt z x) eqn:E2.
    + cbn [In]. rewrite IH. tauto.
    + assert (x = z). { destruct x as [x1 x2], z as [z1 z2]. apply not_true_iff_false in E1, E2. rewrite pair_lt_spec in E1, E2. cbn [fst snd] in *. f_equal; lia. }
      subst. cbn [In]. split; [auto|]. intros [->|H]; auto.
Qed.

Section S.
Variables (n_cells : nat) (owner : nat -> nat) (relevant : nat -> nat -> bool) (periodic : nat -> list neighbor) (ids : nat -> option nat).

Lemma add_pair_in : forall rank p o s x, In x (add_pair owner ids rank p s o) <-> In x s \/ (owner o = rank /\ exists q, ids o = Some q /\ x = (q, p)).
Proof.
  intros rank p o s x. unfold add_pair. destruct (Nat.eqb_spec (owner o) rank) as [E|E]; cbn [negb].
  - destruct (ids o) as [q|]; [rewrite emplace_in|]; split.
    + intros [->|H]; [right; split; [exact E|exists q; auto]|auto].
    + intros [H|(_ & q' & Hq & ->)]; [auto|injection Hq as <-; auto].
    + auto.
    + intros [H|(_ & q' & Hq & _)]; [exact H|discriminate].
  - split; [auto|]. intros [H|[H _]]; [exact H|contradiction].
Qed.
Lemma face_in : forall rank p os s x, In x (fold_left (add_pair owner ids rank p) os s) <-> In x s \/ exists o q, In o os /\ owner o = rank /\ ids o = Some q /\ x = (q, p).
Proof.
  intros rank p. induction os as [|o os IH]; intros s x; cbn [fold_left].
  - split; [auto|]. intros [H|(o & q & [] & _)]; exact H.
  - rewrite IH, add_pair_in. split.
    + intros [[H|(E & q & Q1 & Q2)]|(o' & q & H & R)]; [auto|right; exists o, q; split; [left; reflexivity|auto]|right; exists o', q; split; [right; exact H|exact R]].
    + intros [H|(o' & q & [<-|H] & E & Q1 & Q2)]; [auto|left; right; split; [exact E|exists q; auto]|right; exists o', q; auto].
Qed.
Lemma faces_in : forall rank p fs s x, In x (fold_left (fun s face => fold_left (add_pair owner ids rank p) (across face) s) fs s) <->
  In x s \/ exists f o q, In f fs /\ In o (across f) /\ owner o = rank /\ ids o = Some q /\ x = (q, p).
Proof.
  intros rank p. induction fs as [|f fs IH]; intros s x; cbn [fold_left].
  - split; [auto|]. intros [H|(f & o & q & [] & _)]; exact H.
  - rewrite IH, face_in. split.
    + intros [[H|(o & q & H & R)]|(f' & o & q & H & R)]; [auto|right; exists f, o, q; split; [left; reflexivity|auto]|right; exists f', o, q; split; [right; exact H|exact R]].
    + intros [H|(f' & o & q & [<-|H] & H2 & R)]; [auto|left; right; exists o, q; auto|right; exists f', o, q; auto].
Qed.
Lemma cell_in : forall rank s c x, In x (cell_pairs owner relevant periodic ids rank s c) <->
  In x s \/ (relevant rank c = true /\ exists o p q, touches periodic c o /\ owner o = rank /\ ids c = Some p /\ ids o = Some q /\ x = (q, p)).
Proof.
  intros rank s c x. unfold cell_pairs. destruct (relevant rank c) eqn:R.
  - destruct (ids c) as [p|] eqn:P.
    + rewrite faces_in. split.
      * intros [H|(f & o & q & A & B & C & D & E)]; [auto|]. right. split; [reflexivity|]. exists o, p, q. split; [exists f; split; [exact A|apply across_in; exact B]|auto].
      * intros [H|(_ & o & p' & q & (f & A & B) & C & D & E & G)]; [auto|]. injection D as <-. apply across_in in B. right. exists f, o, q. auto.
    + split; [auto|]. intros [H|(_ & o & p' & q & _ & _ & D & _)]; [exact H|discriminate].
  - split; [auto|]. intros [H|(D & _)]; [exact H|discriminate].
Qed.
Lemma rank_in : forall rank x, In x (rank_pairs n_cells owner relevant periodic ids rank) <->
  exists c o p q, c < n_cells /\ relevant rank c = true /\ touches periodic c o /\ owner o = rank /\ ids c = Some p /\ ids o = Some q /\ x = (q, p).
Proof.
  intros rank x. unfold rank_pairs.
  assert (G : forall l s, In x (fold_left (cell_pairs owner relevant periodic ids rank) l s) <-> In x s \/ exists c o p q, In c l /\ relevant rank c = true /\ touches periodic c o /\ owner o = rank /\ ids c = Some p /\ ids o = Some q /\ x = (q, p)).
  { induction l as [|c l IH]; intro s; cbn [fold_left].
    - split; [auto|]. intros [H|(c & o & p & q & [] & _)]; exact H.
    - rewrite IH, cell_in. split.
      + intros [[H|(R & o & p & q & H)]|(c' & o & p & q & H & R)]; [auto|right; exists c, o, p, q; split; [left; reflexivity|auto]|right; exists c', o, p, q; split; [right; exact H|exact R]].
      + intros [H|(c' & o & p & q & [<-|H] & R & R2)]; [auto|left; right; split; [exact R|exists o, p, q; auto]|right; exists c', o, p, q; auto]. }
  rewrite G. split.
  - intros [[]|(c & o & p & q & H & R)]. exists c, o, p, q. split; [apply in_seq in H; lia|exact R].
  - intros (c & o & p & q & H & R). right. exists c, o, p, q. split; [apply in_seq; lia|exact R].
Qed.
End S.

Lemma read_flatten : forall l, read_pairs (flatten_pairs l) = Some l.
Proof. induction l as [|[a b] l IH]; [reflexivity|]. cbn [flatten_pairs flat_map fst snd app read_pairs]. unfold flatten_pairs in IH. rewrite IH. reflexivity. Qed.
Lemma read_all_spec : forall l, read_all (map flatten_pairs l) = Some (concat l).
Proof. induction l as [|x l IH]; [reflexivity|]. cbn [map read_all concat]. rewrite read_flatten, IH. reflexivity. Qed.

(** A partition: owners are ranks, and at the owner of a cell the cells periodic to it
    are not artificial (deal.II's ghost layer contains periodic neighbors). *)
Record partition (n_ranks n_cells : nat) (owner : nat -> nat) (relevant : nat -> nat -> bool) (periodic : nat -> list neighbor) : Prop := {
  part_owner : forall c, c < n_cells -> owner c < n_ranks;
  part_ghost : forall c o, c < n_cells -> touches periodic c o -> relevant (owner o) c = true;
  part_cells : forall c o, c < n_cells -> touches periodic c o -> o < n_cells }.

(** The connections are, for every partition, the pairs of particles with cells
    that are periodic neighbors; reading never leaves the data. *)
Theorem C114_connections : forall n_ranks n_cells owner relevant periodic ids, partition n_ranks n_cells owner relevant periodic ->
  exists conns, connections n_cells owner relevant periodic ids n_ranks = Some conns /\
  forall a b, In (a, b) conns <-> exists c o, c < n_cells /\ touches periodic c o /\ ids c = Some b /\ ids o = Some a.
Proof.
  intros n_ranks n_cells owner relevant periodic ids P. unfold connections. rewrite <- map_map, read_all_spec. eexists. split; [reflexivity|]. intros a b. rewrite in_concat. split.
  - intros (l & H & I). apply in_map_iff in H. destruct H as (r & <- & _). apply rank_in in I. destruct I as (c & o & p & q & A & B & C & D & E & F & G). injection G as -> ->. exists c, o. auto.
  - intros (c & o & A & B & C & D). exists (rank_pairs n_cells owner relevant periodic ids (owner o)). split.
    + apply in_map_iff. exists (owner o). split; [reflexivity|]. apply in_seq. pose proof (part_owner _ _ _ _ _ P o (part_cells _ _ _ _ _ P c o A B)). lia.
    + apply rank_in. exists c, o, b, a. repeat split; auto. apply (part_ghost _ _ _ _ _ P); assumption.
Qed.
Print Assumptions C114_connections.

(** Particles are in one group exactly if a chain of periodic cells connects them, and
    in no group if none of their cells has a periodic neighbor in a particle. *)
Theorem C114_groups : forall components n_particles n_ranks n_cells owner relevant periodic ids, components_contract components -> partition n_ranks n_cells owner relevant periodic ->
  (forall c p, ids c = Some p -> p < n_particles) ->
  let step a b := exists c o, c < n_cells /\ touches periodic c o /\ ((ids c = Some a /\ ids o = Some b) \/ (ids c = Some b /\ ids o = Some a)) in
  exists conns groups k, connections n_cells owner relevant periodic ids n_ranks = Some conns /\ particle_groups components n_particles conns = Some (groups, k) /\ length groups = n_particles /\
  (forall p, p < n_particles -> (vget groups p = Some None <-> forall q, ~ step p q)) /\
  (forall p q c, vget groups p = Some (Some c) -> (vget groups q = Some (Some c) <-> clos_refl_trans nat step p q)).
Proof.
  intros components n_particles n_ranks n_cells owner relevant periodic ids CC P IB step. destruct (C114_connections _ _ _ _ _ ids P) as (conns & E & S1).
  assert (B : forall a b, In (a, b) conns -> a < n_particles /\ b < n_particles). { intros a b H. apply S1 in H. destruct H as (c & o & _ & _ & H1 & H2). split; [apply (IB o), H2|apply (IB c), H1]. }
  destruct (C54_groups components n_particles conns CC B) as (groups & k & E2 & L & G1 & _ & G3). exists conns, groups, k. split; [exact E|]. split; [exact E2|]. split; [exact L|].
  assert (ST : forall a b, step a b <-> In (a, b) conns \/ In (b, a) conns).
  { intros a b. rewrite !S1. unfold step. split.
    - intros (c & o & H1 & H2 & [[H3 H4]|[H3 H4]]); [right|left]; exists c, o; auto.
    - intros [(c & o & H1 & H2 & H3 & H4)|(c & o & H1 & H2 & H3 & H4)]; exists c, o; auto. }
  assert (CL : forall a b, clos_refl_trans nat step a b <-> clos_refl_trans nat (fun a b => In (a, b) conns \/ In (b, a) conns) a b).
  { intros a b. split; intro H; induction H as [a b H|a|a b c H1 IH1 H2 IH2]; try (apply rt_refl); try (eapply rt_trans; eassumption); apply rt_step; apply ST; exact H. }
  split.
  - intros p Hp. rewrite (G1 p Hp). split; [intros H q X; apply ST in X; destruct (H q); tauto|]. intros H q. split; intro X; apply (H q), ST; auto.
  - intros p q c H. rewrite CL. apply G3, H.
Qed.
Print Assumptions C114_groups.

(** Every rank sends each pair once, in increasing order. *)
Fixpoint increasing (l : list (nat * nat)) : Prop := match l with [] => True | x :: r => (forall y, In y r -> pair_lt x y = true) /\ increasing r end.
Lemma pair_lt_trans : forall a b c, pair_lt a b = true -> pair_lt b c = true -> pair_lt a c = true.
Proof. intros a b c. rewrite !pair_lt_spec. lia. Qed.
Lemma emplace_increasing : forall x l, increasing l -> increasing (emplace x l).
Proof.
  intros x. induction l as [|y l IH]; intro H; cbn [emplace]; [split; [intros y []|exact I]|]. destruct H as [H1 H2]. destruct (pair_lt x y) eqn:E.
  - split; [|split; assumption]. intros z [<-|Hz]; [exact E|apply (pair_lt_trans x y z E), H1, Hz].
  - destruct (pair_lt y x) eqn:E2; [|split; assumption]. split; [|apply IH, H2]. intros z Hz. apply emplace_in in Hz. destruct Hz as [->|Hz]; [exact E2|apply H1, Hz].
Qed.
Theorem C114_once : forall n_cells owner relevant periodic ids rank, increasing (rank_pairs n_cells owner relevant periodic ids rank).
Proof.
  intros n_cells owner relevant periodic ids rank. unfold rank_pairs.
  assert (A : forall p os s, increasing s -> increasing (fold_left (add_pair owner ids rank p) os s)).
  { intros p. induction os as [|o os IH]; intros s H; [exact H|]. cbn [fold_left]. apply IH. unfold add_pair. destruct (negb _); [exact H|]. destruct (ids o); [apply emplace_increasing|]; exact H. }
  assert (B : forall p fs s, increasing s -> increasing (fold_left (fun s face => fold_left (add_pair owner ids rank p) (across face) s) fs s)).
  { intros p. induction fs as [|f fs IH]; intros s H; [exact H|]. cbn [fold_left]. apply IH, A, H. }
  assert (C : forall l s, increasing s -> increasing (fold_left (cell_pairs owner relevant periodic ids rank) l s)).
  { induction l as [|c l IH]; intros s H; [exact H|]. cbn [fold_left]. apply IH. unfold cell_pairs. destruct (relevant rank c); [|exact H]. destruct (ids c); [apply B|]; exact H. }
  apply C. exact I.
Qed.
Print Assumptions C114_once.

(** Two cells at opposite sides, a refined one next to two: two ranks and one rank. *)
Definition ex_periodic (c : nat) : list neighbor := match c with 0 => [Refined [1; 2]] | 1 => [Active 0] | 2 => [Active 0] | 3 => [Active 4] | 4 => [Active 3] | _ => [] end.
Definition ex_ids (c : nat) : option nat := match c with 0 => Some 7 | 1 => Some 2 | 3 => Some 5 | 4 => Some 5 | _ => None end.
Example C114_case : connections 6 (fun c => c mod 2) (fun _ _ => true) ex_periodic ex_ids 2 = Some [(5, 5); (7, 2); (2, 7); (5, 5)] /\
  connections 6 (fun _ => 0) (fun _ _ => true) ex_periodic ex_ids 1 = Some [(2, 7); (5, 5); (7, 2)] /\
  partition 2 6 (fun c => c mod 2) (fun _ _ => true) ex_periodic.
Proof.
  split; [reflexivity|]. split; [reflexivity|]. split; auto.
  - intros c _. apply Nat.mod_upper_bound. discriminate.
  - intros c o _ (f & F & O). do 5 (destruct c as [|c]; [cbn in F; destruct F as [<-|[]]; cbn in O; lia|]). destruct F.
Qed.
