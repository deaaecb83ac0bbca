(** C80: plane sections of a three-dimensional solution. *)
From Coq Require Import List QArith Qabs Qminmax Arith Bool Lia Lqa.
From Verif Require Import Util BoxFilterModel SectionModel.
Import ListNotations.
Local Open Scope Q_scope.

(** ** Lines *)
Lemma sdot_unit : forall d f, (d < 3)%nat -> sdot 3 (plane_normal d) f == f d.
Proof. intros d f L. unfold sdot, plane_normal. destruct d as [|[|[|d]]]; [ | | | lia ]; cbn; ring. Qed.

Lemma line_hit : forall vec d loc c a b tol, (d < 3)%nat -> 1 # 1000000 < h_up c d - h_low c d -> 0 <= tol -> tol < tolerance ->
  h_low c d - tol * (h_up c d - h_low c d) <= loc -> loc <= h_up c d + tol * (h_up c d - h_low c d) ->
  Nat.testbit a d = false -> Nat.testbit b d = true -> (forall i, i <> d -> (i < 3)%nat -> Nat.testbit a i = Nat.testbit b i) ->
  exists p v, line_vertex vec d loc c (a, b) = [(p, v)] /\ p d == loc /\ (forall i, i <> d -> (i < 3)%nat -> p i == h_vertex c a i) /\
    v == ((h_up c d - loc) * vec (h_dofs c a) + (loc - h_low c d) * vec (h_dofs c b)) / (h_up c d - h_low c d).
Proof.
  intros vec d loc c a b tol Ld LG T0 T1 H1 H2 A B O. unfold line_vertex, intersect_line_plane. cbn [fst snd].
  set (u := fun i => h_vertex c a i - h_vertex c b i). set (w := fun i => h_vertex c a i - plane_origin d loc i).
  assert (U : u d == - (h_up c d - h_low c d)) by (unfold u, h_vertex; rewrite A, B; ring).
  assert (W : w d == h_low c d - loc) by (unfold w, h_vertex, plane_origin; rewrite A, Nat.eqb_refl; ring).
  pose proof (sdot_unit d u Ld) as SU. pose proof (sdot_unit d w Ld) as SW.
  set (su := sdot 3 (plane_normal d) u) in *. set (sw := sdot 3 (plane_normal d) w) in *. clearbody su sw.
  set (h := h_up c d - h_low c d) in *.
  assert (Q1 : qltb (1 # 1000000) (Qabs su) = true).
  { apply qltb_true. rewrite SU, U, Qabs_opp, Qabs_pos by lra. exact LG. }
  rewrite Q1. set (fac := - sw / su).
  assert (N : ~ h == 0) by (intros X; lra).
  assert (F : fac == - ((loc - h_low c d) / h)) by (unfold fac; rewrite SU, SW, U, W; field; exact N).
  assert (G : fac * h == h_low c d - loc) by (rewrite F; field; exact N).
  assert (Q2 : qltb (Qabs fac) (1 + tolerance) = true).
  { apply qltb_true. apply Qabs_Qlt_condition. set (t := tolerance) in *. assert (HU : h_up c d == h_low c d + h) by (unfold h; ring). assert (HP : 0 < h) by lra.
    assert (TH : 0 < (t - tol) * h) by (apply Qmult_lt_0_compat; lra). clearbody t h fac. clear F SU SW U W.
    assert (HA : 0 <= tol * h) by (apply Qmult_le_0_compat; lra).
    split.
    - destruct (Qlt_le_dec (- (1 + t)) fac) as [L | L]; [ exact L | ]. exfalso. assert (fac * h <= - (1 + t) * h) by (apply Qmult_le_compat_r; lra). lra.
    - destruct (Qlt_le_dec fac (1 + t)) as [L | L]; [ exact L | ]. exfalso. assert ((1 + t) * h <= fac * h) by (apply Qmult_le_compat_r; lra). lra. }
  rewrite Q2. eexists. eexists. split; [ reflexivity | ]. split; [ | split ].
  - change (h_vertex c a d + u d * fac == loc). rewrite U. unfold h_vertex. rewrite A. lra.
  - intros i Ni Li. change (h_vertex c a i + u i * fac == h_vertex c a i). unfold u, h_vertex. rewrite (O i Ni Li). destruct (Nat.testbit b i); ring.
  - cbv beta zeta. rewrite F. unfold h in *. field. exact N.
Qed.

Lemma line_miss : forall vec d loc c a b, (d < 3)%nat -> Nat.testbit a d = Nat.testbit b d -> line_vertex vec d loc c (a, b) = [].
Proof.
  intros vec d loc c a b Ld E. unfold line_vertex, intersect_line_plane. cbn [fst snd].
  set (u := fun i => h_vertex c a i - h_vertex c b i). pose proof (sdot_unit d u Ld) as SU.
  assert (U : u d == 0) by (unfold u, h_vertex; rewrite E; destruct (Nat.testbit b d); ring).
  assert (Q1 : qltb (1 # 1000000) (Qabs (sdot 3 (plane_normal d) u)) = false).
  { apply qltb_false. rewrite SU, U. cbn. discriminate. }
  rewrite Q1. reflexivity.
Qed.

Lemma in_section_spec : forall tol d loc c, (d < 3)%nat -> 0 <= tol -> (forall i, (i < 3)%nat -> h_low c i <= h_up c i) ->
  (in_section tol d loc c = true <-> h_low c d - tol * (h_up c d - h_low c d) <= loc /\ loc <= h_up c d + tol * (h_up c d - h_low c d)).
Proof.
  intros tol d loc c Ld T B. unfold in_section, box_contains. rewrite forallb_forall. split.
  - intros H. specialize (H d ltac:(apply in_seq; lia)). apply andb_true_iff in H. destruct H as [H1 H2]. apply negb_true_iff in H1. apply negb_true_iff in H2.
    apply qltb_false in H1. apply qltb_false in H2. unfold ref_point in *. rewrite Nat.eqb_refl in *. split; assumption.
  - intros [H1 H2] i I. apply in_seq in I. specialize (B i ltac:(lia)). apply andb_true_iff. unfold ref_point. destruct (Nat.eqb_spec i d) as [-> | N].
    + split; apply negb_true_iff, qltb_false; assumption.
    + split; apply negb_true_iff, qltb_false; (assert (0 <= tol * (h_up c i - h_low c i)) by nra); [ assert (h_low c i <= (h_low c i + h_up c i) / 2) by (apply Qle_shift_div_l; lra) | assert ((h_low c i + h_up c i) / 2 <= h_up c i) by (apply Qle_shift_div_r; lra) ]; lra.
Qed.

(** a function that is linear in every coordinate, as the shape functions of the element *)
Definition trilinear (k : nat -> Q) (p : point) : Q :=
  k 0%nat + k 1%nat * p 0%nat + k 2%nat * p 1%nat + k 3%nat * p 0%nat * p 1%nat + p 2%nat * (k 4%nat + k 5%nat * p 0%nat + k 6%nat * p 1%nat + k 7%nat * p 0%nat * p 1%nat).

(** C80: a cell that meets the plane adds the four corners of its section, in the order of
    the vertices of a square, and the value of the finite element function at each of them. *)
Theorem C80_patch : forall vec d loc c tol k, (d < 3)%nat -> (forall i, (i < 3)%nat -> h_low c i <= h_up c i) -> 1 # 1000000 < h_up c d - h_low c d -> 0 <= tol -> tol < tolerance ->
  in_section tol d loc c = true -> (forall v, (v < 8)%nat -> vec (h_dofs c v) == trilinear k (h_vertex c v)) ->
  let a := nth 0 (projector d) 0%nat in let b := nth 1 (projector d) 0%nat in
  a <> d /\ b <> d /\ (a < b)%nat /\ (b < 3)%nat /\ projector d = [a; b] /\
  exists e0 e1 e2 e3, section_vertices vec d loc c = [e0; e1; e2; e3] /\
    forall n e, nth_error [e0; e1; e2; e3] n = Some e -> fst e d == loc /\
      (fst e a == if Nat.testbit n 0 then h_up c a else h_low c a) /\ (fst e b == if Nat.testbit n 1 then h_up c b else h_low c b) /\
      snd e == trilinear k (fst e).
Proof.
  intros vec d loc c tol k Ld B LG T0 T1 I V. apply (in_section_spec tol d loc c Ld T0 B) in I. destruct I as [I1 I2].
  assert (HIT := fun a b => line_hit vec d loc c a b tol Ld LG T0 T1 I1 I2).
  assert (MISS := fun a b => line_miss vec d loc c a b Ld).
  assert (LE : ~ h_up c d - h_low c d == 0) by (intros X; lra).
  assert (OTH : forall a b, (forall i, (i < 3)%nat -> i <> d -> Nat.testbit a i = Nat.testbit b i) -> forall i, i <> d -> (i < 3)%nat -> Nat.testbit a i = Nat.testbit b i) by auto.
  unfold section_vertices, h_lines. cbn [flat_map].
  destruct d as [|[|[|d]]]; [ | | | lia ]; cbn [projector filter Nat.eqb negb nth]; (split; [ lia | ]); (split; [ lia | ]); (split; [ lia | ]); (split; [ lia | ]); (split; [ reflexivity | ]).
  - rewrite (MISS 0 2)%nat, (MISS 1 3)%nat, (MISS 4 6)%nat, (MISS 5 7)%nat, (MISS 0 4)%nat, (MISS 1 5)%nat, (MISS 2 6)%nat, (MISS 3 7)%nat by reflexivity.
    destruct (HIT 0 1)%nat as (p0 & v0 & E0 & P0 & O0 & V0); [ reflexivity | reflexivity | intros i N L; destruct i as [|[|[|i]]]; try lia; reflexivity | ].
    destruct (HIT 2 3)%nat as (p1 & v1 & E1 & P1 & O1 & V1); [ reflexivity | reflexivity | intros i N L; destruct i as [|[|[|i]]]; try lia; reflexivity | ].
    destruct (HIT 4 5)%nat as (p2 & v2 & E2 & P2 & O2 & V2); [ reflexivity | reflexivity | intros i N L; destruct i as [|[|[|i]]]; try lia; reflexivity | ].
    destruct (HIT 6 7)%nat as (p3 & v3 & E3 & P3 & O3 & V3); [ reflexivity | reflexivity | intros i N L; destruct i as [|[|[|i]]]; try lia; reflexivity | ].
    rewrite E0, E1, E2, E3. cbn [app]. do 4 eexists. split; [ reflexivity | ].
    intros n e X. destruct n as [|[|[|[|n]]]]; cbn in X; try (destruct n; discriminate); injection X as <-; cbn [fst snd].
    + pose proof (O0 1 ltac:(lia) ltac:(lia))%nat as A1. pose proof (O0 2 ltac:(lia) ltac:(lia))%nat as A2. cbn in A1, A2. repeat split; [ exact P0 | exact A1 | exact A2 | ].
      rewrite V0, !V by lia. unfold trilinear. rewrite P0, A1, A2. cbn. field. exact LE.
    + pose proof (O1 1 ltac:(lia) ltac:(lia))%nat as A1. pose proof (O1 2 ltac:(lia) ltac:(lia))%nat as A2. cbn in A1, A2. repeat split; [ exact P1 | exact A1 | exact A2 | ].
      rewrite V1, !V by lia. unfold trilinear. rewrite P1, A1, A2. cbn. field. exact LE.
    + pose proof (O2 1 ltac:(lia) ltac:(lia))%nat as A1. pose proof (O2 2 ltac:(lia) ltac:(lia))%nat as A2. cbn in A1, A2. repeat split; [ exact P2 | exact A1 | exact A2 | ].
      rewrite V2, !V by lia. unfold trilinear. rewrite P2, A1, A2. cbn. field. exact LE.
    + pose proof (O3 1 ltac:(lia) ltac:(lia))%nat as A1. pose proof (O3 2 ltac:(lia) ltac:(lia))%nat as A2. cbn in A1, A2. repeat split; [ exact P3 | exact A1 | exact A2 | ].
      rewrite V3, !V by lia. unfold trilinear. rewrite P3, A1, A2. cbn. field. exact LE.
  - rewrite (MISS 0 1)%nat, (MISS 2 3)%nat, (MISS 4 5)%nat, (MISS 6 7)%nat, (MISS 0 4)%nat, (MISS 1 5)%nat, (MISS 2 6)%nat, (MISS 3 7)%nat by reflexivity.
    destruct (HIT 0 2)%nat as (p0 & v0 & E0 & P0 & O0 & V0); [ reflexivity | reflexivity | intros i N L; destruct i as [|[|[|i]]]; try lia; reflexivity | ].
    destruct (HIT 1 3)%nat as (p1 & v1 & E1 & P1 & O1 & V1); [ reflexivity | reflexivity | intros i N L; destruct i as [|[|[|i]]]; try lia; reflexivity | ].
    destruct (HIT 4 6)%nat as (p2 & v2 & E2 & P2 & O2 & V2); [ reflexivity | reflexivity | intros i N L; destruct i as [|[|[|i]]]; try lia; reflexivity | ].
    destruct (HIT 5 7)%nat as (p3 & v3 & E3 & P3 & O3 & V3); [ reflexivity | reflexivity | intros i N L; destruct i as [|[|[|i]]]; try lia; reflexivity | ].
    rewrite E0, E1, E2, E3. cbn [app]. do 4 eexists. split; [ reflexivity | ].
    intros n e X. destruct n as [|[|[|[|n]]]]; cbn in X; try (destruct n; discriminate); injection X as <-; cbn [fst snd].
    + pose proof (O0 0 ltac:(lia) ltac:(lia))%nat as A1. pose proof (O0 2 ltac:(lia) ltac:(lia))%nat as A2. cbn in A1, A2. repeat split; [ exact P0 | exact A1 | exact A2 | ].
      rewrite V0, !V by lia. unfold trilinear. rewrite P0, A1, A2. cbn. field. exact LE.
    + pose proof (O1 0 ltac:(lia) ltac:(lia))%nat as A1. pose proof (O1 2 ltac:(lia) ltac:(lia))%nat as A2. cbn in A1, A2. repeat split; [ exact P1 | exact A1 | exact A2 | ].
      rewrite V1, !V by lia. unfold trilinear. rewrite P1, A1, A2. cbn. field. exact LE.
    + pose proof (O2 0 ltac:(lia) ltac:(lia))%nat as A1. pose proof (O2 2 ltac:(lia) ltac:(lia))%nat as A2. cbn in A1, A2. repeat split; [ exact P2 | exact A1 | exact A2 | ].
      rewrite V2, !V by lia. unfold trilinear. rewrite P2, A1, A2. cbn. field. exact LE.
    + pose proof (O3 0 ltac:(lia) ltac:(lia))%nat as A1. pose proof (O3 2 ltac:(lia) ltac:(lia))%nat as A2. cbn in A1, A2. repeat split; [ exact P3 | exact A1 | exact A2 | ].
      rewrite V3, !V by lia. unfold trilinear. rewrite P3, A1, A2. cbn. field. exact LE.
  - rewrite (MISS 0 2)%nat, (MISS 1 3)%nat, (MISS 0 1)%nat, (MISS 2 3)%nat, (MISS 4 6)%nat, (MISS 5 7)%nat, (MISS 4 5)%nat, (MISS 6 7)%nat by reflexivity.
    destruct (HIT 0 4)%nat as (p0 & v0 & E0 & P0 & O0 & V0); [ reflexivity | reflexivity | intros i N L; destruct i as [|[|[|i]]]; try lia; reflexivity | ].
    destruct (HIT 1 5)%nat as (p1 & v1 & E1 & P1 & O1 & V1); [ reflexivity | reflexivity | intros i N L; destruct i as [|[|[|i]]]; try lia; reflexivity | ].
    destruct (HIT 2 6)%nat as (p2 & v2 & E2 & P2 & O2 & V2); [ reflexivity | reflexivity | intros i N L; destruct i as [|[|[|i]]]; try lia; reflexivity | ].
    destruct (HIT 3 7)%nat as (p3 & v3 & E3 & P3 & O3 & V3); [ reflexivity | reflexivity | intros i N L; destruct i as [|[|[|i]]]; try lia; reflexivity | ].
    rewrite E0, E1, E2, E3. cbn [app]. do 4 eexists. split; [ reflexivity | ].
    intros n e X. destruct n as [|[|[|[|n]]]]; cbn in X; try (destruct n; discriminate); injection X as <-; cbn [fst snd].
    + pose proof (O0 0 ltac:(lia) ltac:(lia))%nat as A1. pose proof (O0 1 ltac:(lia) ltac:(lia))%nat as A2. cbn in A1, A2. repeat split; [ exact P0 | exact A1 | exact A2 | ].
      rewrite V0, !V by lia. unfold trilinear. rewrite P0, A1, A2. cbn. field. exact LE.
    + pose proof (O1 0 ltac:(lia) ltac:(lia))%nat as A1. pose proof (O1 1 ltac:(lia) ltac:(lia))%nat as A2. cbn in A1, A2. repeat split; [ exact P1 | exact A1 | exact A2 | ].
      rewrite V1, !V by lia. unfold trilinear. rewrite P1, A1, A2. cbn. field. exact LE.
    + pose proof (O2 0 ltac:(lia) ltac:(lia))%nat as A1. pose proof (O2 1 ltac:(lia) ltac:(lia))%nat as A2. cbn in A1, A2. repeat split; [ exact P2 | exact A1 | exact A2 | ].
      rewrite V2, !V by lia. unfold trilinear. rewrite P2, A1, A2. cbn. field. exact LE.
    + pose proof (O3 0 ltac:(lia) ltac:(lia))%nat as A1. pose proof (O3 1 ltac:(lia) ltac:(lia))%nat as A2. cbn in A1, A2. repeat split; [ exact P3 | exact A1 | exact A2 | ].
      rewrite V3, !V by lia. unfold trilinear. rewrite P3, A1, A2. cbn. field. exact LE.
Qed.
Print Assumptions C80_patch.

(** ** Covering *)
Definition cell_ok (d : nat) (c : hexa) : Prop := (forall i, (i < 3)%nat -> h_low c i <= h_up c i) /\ 1 # 1000000 < h_up c d - h_low c d.
(** the point [x], [y] is in the rectangle between the first and the last vertex *)
Definition covers (lt : Q -> Q -> Prop) (pt : patch) (x y : Q) : Prop :=
  exists p q v w, nth_error (p_vertices pt) 0 = Some ([fst p; snd p], v) /\ nth_error (p_vertices pt) 3 = Some ([fst q; snd q], w) /\ length (p_vertices pt) = 4%nat /\
    lt (fst p) x /\ lt x (fst q) /\ lt (snd p) y /\ lt y (snd q).

(** the rectangle of a cell, for any values *)
Lemma patch_corners : forall vec d loc c tol, (d < 3)%nat -> cell_ok d c -> 0 <= tol -> tol < tolerance -> in_section tol d loc c = true ->
  let a := nth 0 (projector d) 0%nat in let b := nth 1 (projector d) 0%nat in
  exists p0 v0 e1 e2 p3 v3, map (project d) (section_vertices vec d loc c) = [([fst p0; snd p0], v0); e1; e2; ([fst p3; snd p3], v3)] /\
    fst p0 == h_low c a /\ snd p0 == h_low c b /\ fst p3 == h_up c a /\ snd p3 == h_up c b.
Proof.
  intros vec d loc c tol Ld (B & LG) T0 T1 I. cbv zeta. apply (in_section_spec tol d loc c Ld T0 B) in I. destruct I as [I1 I2].
  assert (HIT := fun a b => line_hit vec d loc c a b tol Ld LG T0 T1 I1 I2).
  assert (MISS := fun a b => line_miss vec d loc c a b Ld).
  unfold section_vertices, h_lines. cbn [flat_map].
  destruct d as [|[|[|d]]]; [ | | | lia ]; cbn [projector filter Nat.eqb negb nth].
  - rewrite (MISS 0 2)%nat, (MISS 1 3)%nat, (MISS 4 6)%nat, (MISS 5 7)%nat, (MISS 0 4)%nat, (MISS 1 5)%nat, (MISS 2 6)%nat, (MISS 3 7)%nat by reflexivity.
    destruct (HIT 0 1)%nat as (p0 & v0 & E0 & P0 & O0 & V0); [ reflexivity | reflexivity | intros i N L; destruct i as [|[|[|i]]]; try lia; reflexivity | ].
    destruct (HIT 2 3)%nat as (p1 & v1 & E1 & P1 & O1 & V1); [ reflexivity | reflexivity | intros i N L; destruct i as [|[|[|i]]]; try lia; reflexivity | ].
    destruct (HIT 4 5)%nat as (p2 & v2 & E2 & P2 & O2 & V2); [ reflexivity | reflexivity | intros i N L; destruct i as [|[|[|i]]]; try lia; reflexivity | ].
    destruct (HIT 6 7)%nat as (p3 & v3 & E3 & P3 & O3 & V3); [ reflexivity | reflexivity | intros i N L; destruct i as [|[|[|i]]]; try lia; reflexivity | ].
    rewrite E0, E1, E2, E3. cbn [app map project]. exists (p0 1%nat, p0 2%nat), v0. do 2 eexists. exists (p3 1%nat, p3 2%nat), v3. split; [ reflexivity | ]. cbn [fst snd].
    rewrite (O0 1 ltac:(lia) ltac:(lia))%nat, (O0 2 ltac:(lia) ltac:(lia))%nat, (O3 1 ltac:(lia) ltac:(lia))%nat, (O3 2 ltac:(lia) ltac:(lia))%nat. repeat split; reflexivity.
  - rewrite (MISS 0 1)%nat, (MISS 2 3)%nat, (MISS 4 5)%nat, (MISS 6 7)%nat, (MISS 0 4)%nat, (MISS 1 5)%nat, (MISS 2 6)%nat, (MISS 3 7)%nat by reflexivity.
    destruct (HIT 0 2)%nat as (p0 & v0 & E0 & P0 & O0 & V0); [ reflexivity | reflexivity | intros i N L; destruct i as [|[|[|i]]]; try lia; reflexivity | ].
    destruct (HIT 1 3)%nat as (p1 & v1 & E1 & P1 & O1 & V1); [ reflexivity | reflexivity | intros i N L; destruct i as [|[|[|i]]]; try lia; reflexivity | ].
    destruct (HIT 4 6)%nat as (p2 & v2 & E2 & P2 & O2 & V2); [ reflexivity | reflexivity | intros i N L; destruct i as [|[|[|i]]]; try lia; reflexivity | ].
    destruct (HIT 5 7)%nat as (p3 & v3 & E3 & P3 & O3 & V3); [ reflexivity | reflexivity | intros i N L; destruct i as [|[|[|i]]]; try lia; reflexivity | ].
    rewrite E0, E1, E2, E3. cbn [app map project]. exists (p0 0%nat, p0 2%nat), v0. do 2 eexists. exists (p3 0%nat, p3 2%nat), v3. split; [ reflexivity | ]. cbn [fst snd].
    rewrite (O0 0 ltac:(lia) ltac:(lia))%nat, (O0 2 ltac:(lia) ltac:(lia))%nat, (O3 0 ltac:(lia) ltac:(lia))%nat, (O3 2 ltac:(lia) ltac:(lia))%nat. repeat split; reflexivity.
  - rewrite (MISS 0 2)%nat, (MISS 1 3)%nat, (MISS 0 1)%nat, (MISS 2 3)%nat, (MISS 4 6)%nat, (MISS 5 7)%nat, (MISS 4 5)%nat, (MISS 6 7)%nat by reflexivity.
    destruct (HIT 0 4)%nat as (p0 & v0 & E0 & P0 & O0 & V0); [ reflexivity | reflexivity | intros i N L; destruct i as [|[|[|i]]]; try lia; reflexivity | ].
    destruct (HIT 1 5)%nat as (p1 & v1 & E1 & P1 & O1 & V1); [ reflexivity | reflexivity | intros i N L; destruct i as [|[|[|i]]]; try lia; reflexivity | ].
    destruct (HIT 2 6)%nat as (p2 & v2 & E2 & P2 & O2 & V2); [ reflexivity | reflexivity | intros i N L; destruct i as [|[|[|i]]]; try lia; reflexivity | ].
    destruct (HIT 3 7)%nat as (p3 & v3 & E3 & P3 & O3 & V3); [ reflexivity | reflexivity | intros i N L; destruct i as [|[|[|i]]]; try lia; reflexivity | ].
    rewrite E0, E1, E2, E3. cbn [app map project]. exists (p0 0%nat, p0 1%nat), v0. do 2 eexists. exists (p3 0%nat, p3 1%nat), v3. split; [ reflexivity | ]. cbn [fst snd].
    rewrite (O0 0 ltac:(lia) ltac:(lia))%nat, (O0 1 ltac:(lia) ltac:(lia))%nat, (O3 0 ltac:(lia) ltac:(lia))%nat, (O3 1 ltac:(lia) ltac:(lia))%nat. repeat split; reflexivity.
Qed.

Lemma covers_spec : forall (lt : Q -> Q -> Prop) vec d loc c tol m x y, (forall a a' b b', a == a' -> b == b' -> (lt a b <-> lt a' b')) ->
  (d < 3)%nat -> cell_ok d c -> 0 <= tol -> tol < tolerance -> in_section tol d loc c = true ->
  let a := nth 0 (projector d) 0%nat in let b := nth 1 (projector d) 0%nat in
  (covers lt (mkPatch (map (project d) (section_vertices vec d loc c)) m) x y <-> lt (h_low c a) x /\ lt x (h_up c a) /\ lt (h_low c b) y /\ lt y (h_up c b)).
Proof.
  intros lt vec d loc c tol m x y C Ld K T0 T1 I a b. destruct (patch_corners vec d loc c tol Ld K T0 T1 I) as (p0 & v0 & e1 & e2 & p3 & v3 & E & A & B & A' & B'). fold a in A, A'. fold b in B, B'.
  unfold covers. cbn [p_vertices]. rewrite E. cbn [nth_error length]. split.
  - intros (p & q & v & w & X & Y & _ & L1 & L2 & L3 & L4). injection X as X1 X2 _. injection Y as Y1 Y2 _. rewrite <- X1 in L1. rewrite <- X2 in L3. rewrite <- Y1 in L2. rewrite <- Y2 in L4.
    repeat split; [ apply (C (fst p0) (h_low c a) x x); auto; reflexivity | apply (C x x (fst p3) (h_up c a)); auto; reflexivity | apply (C (snd p0) (h_low c b) y y); auto; reflexivity | apply (C y y (snd p3) (h_up c b)); auto; reflexivity ].
  - intros (L1 & L2 & L3 & L4). exists p0, p3, v0, v3. repeat split;
    [ apply (C (fst p0) (h_low c a) x x); auto; reflexivity | apply (C x x (fst p3) (h_up c a)); auto; reflexivity | apply (C (snd p0) (h_low c b) y y); auto; reflexivity | apply (C y y (snd p3) (h_up c b)); auto; reflexivity ].
Qed.
Lemma le_compat : forall a a' b b', a == a' -> b == b' -> (a <= b <-> a' <= b').
Proof. intros a a' b b' E F. rewrite E, F. reflexivity. Qed.
Lemma lt_compat : forall a a' b b', a == a' -> b == b' -> (a < b <-> a' < b').
Proof. intros a a' b b' E F. rewrite E, F. reflexivity. Qed.

(** C80: every point of the plane that a cell contains is in the patch of that cell, which
    carries the index of the cell. *)
Theorem C80_cover : forall tol d loc fine coarse c q, (d < 3)%nat -> 0 <= tol -> tol < tolerance -> In c (m_cells fine) -> cell_ok d c ->
  (forall i, (i < 3)%nat -> h_low c i <= q i <= h_up c i) -> q d == loc ->
  exists pt, In pt (build_projection tol d loc fine coarse 0) /\ p_material pt = h_index c /\ covers Qle pt (q (nth 0 (projector d) 0%nat)) (q (nth 1 (projector d) 0%nat)).
Proof.
  intros tol d loc fine coarse c q Ld T0 T1 I K R E. destruct K as (B & LG). pose proof (conj B LG : cell_ok d c) as K.
  assert (IS : in_section tol d loc c = true).
  { apply in_section_spec; auto. pose proof (R d Ld) as [R1 R2]. assert (0 <= tol * (h_up c d - h_low c d)) by (apply Qmult_le_0_compat; lra). lra. }
  exists (mkPatch (map (project d) (section_vertices (m_values fine) d loc c)) (h_index c)). split; [ | split ].
  - unfold build_projection. cbn [Nat.eqb]. apply in_map_iff. exists c. split; [ reflexivity | ]. apply filter_In. split; assumption.
  - reflexivity.
  - apply (covers_spec Qle (m_values fine) d loc c tol _ _ _ le_compat Ld K T0 T1 IS).
    assert (L : forall i, (i < 3)%nat -> h_low c i <= q i /\ q i <= h_up c i) by (intros i Li; apply R; exact Li).
    destruct d as [|[|[|d]]]; [ | | | lia ]; cbn [projector filter Nat.eqb negb nth]; [ destruct (L 1 ltac:(lia))%nat, (L 2 ltac:(lia))%nat | destruct (L 0 ltac:(lia))%nat, (L 2 ltac:(lia))%nat | destruct (L 0 ltac:(lia))%nat, (L 1 ltac:(lia))%nat ]; auto.
Qed.
Print Assumptions C80_cover.

(** C80: and no patch is outside of the cells (with the tolerance zero). *)
Theorem C80_inside : forall d loc fine coarse pt x y, (d < 3)%nat -> (forall c, In c (m_cells fine) -> cell_ok d c) -> In pt (build_projection 0 d loc fine coarse 0) -> covers Qle pt x y ->
  exists c, In c (m_cells fine) /\ p_material pt = h_index c /\ h_low c d <= loc <= h_up c d /\
    h_low c (nth 0 (projector d) 0%nat) <= x <= h_up c (nth 0 (projector d) 0%nat) /\ h_low c (nth 1 (projector d) 0%nat) <= y <= h_up c (nth 1 (projector d) 0%nat).
Proof.
  intros d loc fine coarse pt x y Ld K I C. unfold build_projection in I. cbn [Nat.eqb] in I. apply in_map_iff in I. destruct I as (c & <- & I). apply filter_In in I. destruct I as [I IS].
  exists c. split; [ exact I | ]. split; [ reflexivity | ]. apply (covers_spec Qle (m_values fine) d loc c 0 _ _ _ le_compat Ld (K c I) ltac:(lra) ltac:(reflexivity) IS) in C.
  apply in_section_spec in IS; [ | exact Ld | lra | apply (K c I) ]. destruct C as (C1 & C2 & C3 & C4). split; [ lra | ]. split; split; assumption.
Qed.
Print Assumptions C80_inside.

Definition interiors_disjoint (c e : hexa) : Prop := forall q, ~ ((forall i, (i < 3)%nat -> h_low c i < q i /\ q i < h_up c i) /\ (forall i, (i < 3)%nat -> h_low e i < q i /\ q i < h_up e i)).
Lemma pairs_filter : forall A (R : A -> A -> Prop) f l, ForallOrdPairs R l -> ForallOrdPairs R (filter f l).
Proof.
  intros A R f l H. induction H as [|a l F H IH]; cbn; [ constructor | ]. destruct (f a); [ | exact IH ]. constructor; [ | exact IH ]. rewrite Forall_forall in *. intros x X. apply filter_In in X. apply F, X.
Qed.
Lemma pairs_map : forall A B (R : A -> A -> Prop) (T : B -> B -> Prop) (f : A -> B) l, (forall x y, In x l -> In y l -> R x y -> T (f x) (f y)) -> ForallOrdPairs R l -> ForallOrdPairs T (map f l).
Proof.
  intros A B R T f l C H. induction H as [|a l F H IH]; cbn; [ constructor | ]. constructor.
  - rewrite Forall_forall in *. intros y Y. apply in_map_iff in Y. destruct Y as (x & <- & X). apply C; [ left; reflexivity | right; exact X | apply F; exact X ].
  - apply IH. intros x y X Y. apply C; right; assumption.
Qed.

(** C80: if the cells do not overlap and the plane contains no face of a cell, no two patches
    overlap. *)
Theorem C80_once_partial : forall tol d loc fine coarse, (d < 3)%nat -> 0 <= tol -> tol < tolerance ->
  (forall c, In c (m_cells fine) -> cell_ok d c) -> ForallOrdPairs interiors_disjoint (m_cells fine) ->
  (forall c, In c (m_cells fine) -> in_section tol d loc c = true -> h_low c d < loc /\ loc < h_up c d) ->
  ForallOrdPairs (fun p q => forall x y, ~ (covers Qlt p x y /\ covers Qlt q x y)) (build_projection tol d loc fine coarse 0).
Proof.
  intros tol d loc fine coarse Ld T0 T1 K D F. unfold build_projection. cbn [Nat.eqb]. apply (pairs_map _ _ interiors_disjoint); [ | apply pairs_filter; exact D ].
  intros c e Ic Ie DJ x y [C1 C2]. apply filter_In in Ic. apply filter_In in Ie. destruct Ic as [Ic Sc]. destruct Ie as [Ie Se].
  apply (covers_spec Qlt (m_values fine) d loc c tol _ _ _ lt_compat Ld (K c Ic) T0 T1 Sc) in C1. apply (covers_spec Qlt (m_values fine) d loc e tol _ _ _ lt_compat Ld (K e Ie) T0 T1 Se) in C2.
  pose proof (F c Ic Sc) as [P1 P2]. pose proof (F e Ie Se) as [P3 P4].
  destruct C1 as (A1 & A2 & A3 & A4). destruct C2 as (B1 & B2 & B3 & B4).
  apply (DJ (fun i => if Nat.eqb i d then loc else if Nat.eqb i (nth 0 (projector d) 0%nat) then x else y)).
  destruct d as [|[|[|d]]]; [ | | | lia ]; cbn [projector filter Nat.eqb negb nth] in *; split; intros i Li; (destruct i as [|[|[|i]]]; [ | | | lia ]); cbn; auto.
Qed.
Print Assumptions C80_once_partial.

(** ** Refutations *)
Definition box (x0 x1 y0 y1 z0 z1 : Q) (dofs : nat -> nat) (n : nat) : hexa :=
  mkHexa (fun i => nth i [x0; y0; z0] 0) (fun i => nth i [x1; y1; z1] 0) dofs n.

(** C80 refuted: a plane between two cells gets the patches of both. *)
Theorem C80_once_refuted : exists fine, ForallOrdPairs interiors_disjoint (m_cells fine) /\ (forall c, In c (m_cells fine) -> cell_ok 2 c) /\
  exists p q, build_projection 0 2 0 fine fine 0 = [p; q] /\ covers Qlt p (1 # 2) (1 # 2) /\ covers Qlt q (1 # 2) (1 # 2).
Proof.
  exists (mkMesh [box 0 1 0 1 (-1) 0 (fun v => v) 0; box 0 1 0 1 0 1 (fun v => v + 4)%nat 1] (fun _ => 1)).
  split; [ | split ].
  - constructor; [ | constructor; [ constructor | constructor ] ]. constructor; [ | constructor ]. intros q [A B]. specialize (A 2%nat ltac:(lia)). specialize (B 2%nat ltac:(lia)). cbn in A, B. lra.
  - intros c [<- | [<- | []]]; (split; [ intros i Li; destruct i as [|[|[|i]]]; [ | | | lia ]; cbn; lra | cbn; reflexivity ]).
  - do 2 eexists. split; [ reflexivity | ]. split.
    + exists (0, 0), (1, 1). do 2 eexists. split; [ vm_compute; reflexivity | ]. split; [ vm_compute; reflexivity | ]. split; [ reflexivity | ]. cbn. repeat split.
    + exists (0, 0), (1, 1). do 2 eexists. split; [ vm_compute; reflexivity | ]. split; [ vm_compute; reflexivity | ]. split; [ reflexivity | ]. cbn. repeat split.
Qed.
Print Assumptions C80_once_refuted.

(** C80 refuted: a cell that is not longer than 1e-6 across the plane adds no vertex at all. *)
Theorem C80_small_refuted : exists c, in_section 0 2 0 c = true /\ (forall i, (i < 3)%nat -> h_low c i < h_up c i) /\ forall vec, section_vertices vec 2 0 c = [].
Proof.
  exists (box 0 1 0 1 (-(1 # 4000000)) (1 # 4000000) (fun v => v) 0). split; [ reflexivity | ]. split; [ intros i Li; destruct i as [|[|[|i]]]; [ | | | lia ]; cbn; reflexivity | ]. intros vec. reflexivity.
Qed.
Print Assumptions C80_small_refuted.

(** C80 refuted: with a coarsened mesh the values are those of the fine mesh with the numbers
    of the coarse one, and all cells count as cell zero. *)
Theorem C80_coarse_refuted : exists fine coarse k, (forall m, In m [fine; coarse] -> forall c v, In c (m_cells m) -> (v < 8)%nat -> m_values m (h_dofs c v) == trilinear k (h_vertex c v)) /\
  exists pt e0 e1 e2 e3, In pt (build_projection 0 2 (1 # 2) fine coarse 1) /\ p_vertices pt = [e0; e1; e2; e3] /\
    (forall z, ~ snd e1 == trilinear k (fun i => nth i (fst e1 ++ [z]) 0)) /\ (forall c, In c (m_cells coarse) -> in_section 0 2 (1 # 2) c = true -> h_index c <> 0%nat) /\ p_material pt = 0%nat.
Proof.
  exists (mkMesh [box 0 (1 # 2) 0 2 0 1 (fun v => nth v [0; 1; 3; 4; 6; 7; 9; 10]%nat 0%nat) 0; box (1 # 2) 2 0 2 0 1 (fun v => nth v [1; 2; 4; 5; 7; 8; 10; 11]%nat 0%nat) 1] (fun j => nth (j mod 3) [0; 1 # 2; 2] 0)),
    (mkMesh [box 0 2 0 2 0 1 (fun v => v) 1] (fun j => nth (j mod 2) [0; 2] 0)), (fun j => if Nat.eqb j 1 then 1 else 0).
  split.
  - intros m [<- | [<- | []]] c v; [ intros [<- | [<- | []]] L | intros [<- | []] L ]; do 8 (destruct v as [|v]; [ vm_compute; reflexivity | ]); lia.
  - do 5 eexists. split; [ left; reflexivity | ]. split; [ vm_compute; reflexivity | ]. split; [ | split; [ | reflexivity ] ].
    + intros z. unfold trilinear. cbn. intros X. lra.
    + intros c [<- | []] _. cbn. discriminate.
Qed.
Print Assumptions C80_coarse_refuted.

(** ** Circles *)
Definition dist2 (p q : point) : Q := sdot 3 (fun i => p i - q i) (fun i => p i - q i).

(** C80: for a sphere with its center in the plane the circle is the section of the sphere:
    the points of the plane on the sphere are those on the circle. *)
Theorem C80_circle_partial : forall center origin d radius q, (d < 3)%nat -> 0 <= radius -> plane_dist center origin (plane_normal d) == 0 ->
  exists r2, circle_radius2 radius center origin (plane_normal d) = Some r2 /\ plane_dist (circle_center center origin (plane_normal d)) origin (plane_normal d) == 0 /\
    (dist2 q center == radius * radius <-> dist2 q (circle_center center origin (plane_normal d)) == r2).
Proof.
  intros center origin d radius q Ld R Z. unfold circle_radius2. set (n := plane_normal d) in *. set (D := plane_dist center origin n) in *.
  assert (L : Qle_bool D radius = true) by (apply Qle_bool_iff; lra). rewrite L. cbv zeta.
  assert (N : qltb (radius * radius - D * D) 0 = false) by (apply qltb_false; rewrite Z; nra). rewrite N.
  assert (CC : forall i, circle_center center origin n i == center i) by (intros i; unfold circle_center; fold D; rewrite Z; ring).
  exists (radius * radius - D * D). split; [ reflexivity | ]. split.
  - unfold plane_dist, sdot. cbn. rewrite !CC. unfold D, plane_dist, sdot in Z. cbn in Z. exact Z.
  - assert (X : dist2 q (circle_center center origin n) == dist2 q center) by (unfold dist2, sdot; cbn; rewrite !CC; reflexivity). rewrite X, Z. split; intros Y; lra.
Qed.
Print Assumptions C80_circle_partial.

(** C80 refuted: otherwise the center of the circle is at twice the distance from the plane,
    on the side of the sphere. *)
Theorem C80_circle_refuted : forall center origin d, (d < 3)%nat -> let n := plane_normal d in
  plane_dist (circle_center center origin n) origin n == 2 * plane_dist center origin n.
Proof.
  intros center origin d Ld n. unfold plane_dist at 1, circle_center. set (D := plane_dist center origin n).
  assert (X : D == center d - origin d) by (unfold D, plane_dist, sdot, n, plane_normal; destruct d as [|[|[|d]]]; [ | | | lia ]; cbn; ring).
  clearbody D. unfold sdot, n, plane_normal. destruct d as [|[|[|d]]]; [ | | | lia ]; cbn; rewrite X; ring.
Qed.
Print Assumptions C80_circle_refuted.
(** C80 refuted: a sphere that lies behind the plane entirely has no radius, although one in
    front of it has the radius zero. *)
Theorem C80_behind_refuted : forall radius center origin normal, 0 <= radius -> plane_dist center origin normal < - radius -> circle_radius2 radius center origin normal = None.
Proof.
  intros radius center origin normal R L. unfold circle_radius2. set (D := plane_dist center origin normal) in *. clearbody D.
  assert (X : Qle_bool D radius = true) by (apply Qle_bool_iff; lra). rewrite X. cbv zeta. assert (Y : qltb (radius * radius - D * D) 0 = true) by (apply qltb_true; nra). rewrite Y. reflexivity.
Qed.
Print Assumptions C80_behind_refuted.
(** C80 refuted: the format has [dim] coordinates and a radius for a segment, the file of a
    section one number more. *)
Theorem C80_parameters_refuted : forall origin normal segments, length (circle_parameters origin normal segments) = ((2 + 1) * length segments + length segments)%nat.
Proof. intros origin normal segments. unfold circle_parameters. induction segments as [|s r IH]; cbn [flat_map]; [ reflexivity | ]. rewrite app_length, IH. cbn. lia. Qed.
Print Assumptions C80_parameters_refuted.

(** ** Bounding box *)
Lemma fold_max : forall l x, x <= fold_left Qmax l x /\ (forall y, In y l -> y <= fold_left Qmax l x) /\ (fold_left Qmax l x == x \/ exists y, In y l /\ fold_left Qmax l x == y).
Proof.
  induction l as [|a l IH]; intros x; cbn; [ split; [ apply Qle_refl | split; [ contradiction | left; reflexivity ] ] | ].
  destruct (IH (Qmax x a)) as (A & B & C). pose proof (Q.le_max_l x a). pose proof (Q.le_max_r x a). split; [ lra | ]. split; [ intros y [<- | Y]; [ lra | auto ] | ].
  destruct C as [C | (y & Y & C)]; [ | right; exists y; auto ]. destruct (Q.max_spec x a) as [[_ M] | [_ M]]; [ right; exists a | left ]; [ split; [ auto | ] | ]; rewrite C; exact M.
Qed.
(** C80: the upper bound is the largest of the bounds of the parts, if that is positive, or if
    every process has a part. *)
Theorem C80_bounds_partial : forall tiny procs b, In (Some b) procs -> (forall x, In (Some x) procs -> x <= b) -> (tiny <= b \/ ~ In None procs) -> section_max tiny procs == b.
Proof.
  intros tiny procs b I M H. unfold section_max. set (f := fun o : option Q => match o with Some x => x | None => tiny end).
  assert (J : In b (map f procs)) by (apply in_map_iff; exists (Some b); split; [ reflexivity | exact I ]).
  assert (U : forall y, In y (map f procs) -> y <= b).
  { intros y Y. apply in_map_iff in Y. destruct Y as ([x|] & <- & Y); cbn; [ auto | ]. destruct H as [H | H]; [ exact H | contradiction ]. }
  destruct (map f procs) as [|x r]; [ contradiction | ]. destruct (fold_max r x) as (A & B & C).
  assert (b <= fold_left Qmax r x) by (destruct J as [-> | J]; auto). assert (fold_left Qmax r x <= b) by (destruct C as [-> | (y & Y & ->)]; apply U; [ left; reflexivity | right; exact Y ]). lra.
Qed.
Print Assumptions C80_bounds_partial.
(** C80 refuted: a section below the origin and a process without a part: the smallest
    positive number is taken. *)
Theorem C80_bounds_refuted : forall tiny, 0 < tiny -> exists procs b, In (Some b) procs /\ (forall x, In (Some x) procs -> x <= b) /\ section_max tiny procs == tiny /\ b < 0.
Proof.
  intros tiny P. exists [Some (-1); None], (-1). split; [ left; reflexivity | ]. split; [ intros x [E | [E | []]]; [ injection E as <-; lra | discriminate ] | ].
  split; [ | reflexivity ]. unfold section_max. cbn [map fold_left]. apply Q.max_r. lra.
Qed.
Print Assumptions C80_bounds_refuted.

(** C80_minimum: the lower bound is the least of the processes with a part, wherever the section
    lies *)
Theorem C80_minimum : forall huge procs b, In (Some b) procs -> (forall x, In (Some x) procs -> b <= x) -> b <= huge -> section_min huge procs == b.
Proof.
  intros huge procs b I M H. unfold section_min. set (f := fun o : option Q => match o with Some x => x | None => huge end).
  assert (I' : In b (map f procs)) by (apply in_map_iff; exists (Some b); split; [ reflexivity | exact I ]).
  assert (M' : forall x, In x (map f procs) -> b <= x).
  { intros x J. apply in_map_iff in J as ([y|] & <- & J); cbn; [ apply M; exact J | exact H ]. }
  destruct (map f procs) as [|x r]; [ destruct I' | ].
  assert (G : forall r x, b <= x -> (forall y, In y r -> b <= y) -> (x == b \/ In b r) -> fold_left Qmin r x == b).
  { clear. induction r as [|y r IH]; intros x H1 H2 H3; cbn [fold_left]; [ destruct H3 as [H3|[]]; exact H3 | ].
    assert (Y := H2 y (or_introl eq_refl)). apply IH.
    - apply Q.min_glb; assumption.
    - intros z J. apply H2. right. exact J.
    - destruct H3 as [E|[->|J]]; [ left | left | right; exact J ].
      + rewrite Q.min_l; [ exact E | lra ].
      + apply Q.min_r. exact H1. }
  apply G; [ apply M'; left; reflexivity | intros y J; apply M'; right; exact J | ]. destruct I' as [->|J]; [ left; reflexivity | right; exact J ].
Qed.
Print Assumptions C80_minimum.

(** ** Case: the field x + 10 y + 100 z on a cell, cut at z = 1/2 *)
Example C80_example : exists p, build_projection 0 2 (1 # 2) (mkMesh [box 0 1 0 2 0 1 (fun v => v) 7] (fun v => inject_Z (Z.of_nat (v mod 2 + 20 * (v / 2 mod 2) + 100 * (v / 4))))) (mkMesh [] (fun _ => 0)) 0 = [p] /\
  p_material p = 7%nat /\ map (fun e => Qred (snd e)) (p_vertices p) = [50; 51; 70; 71] /\ map (fun e => map Qred (fst e)) (p_vertices p) = [[0; 0]; [1; 0]; [0; 2]; [1; 2]].
Proof. eexists. split; [ reflexivity | ]. split; [ reflexivity | ]. split; vm_compute; reflexivity. Qed.
