(** Properties of the table of results kept during a run (C119). *)
From Coq Require Import Ascii String.
From Coq Require Import QArith List Arith Bool Lia.
From Verif Require Import Util ResultsFileModel ResultsFileProps IntegralsModel IntegralsProps TableModel.
Import ListNotations.
Local Open Scope nat_scope.
Local Open Scope list_scope.

(** ** Names of the columns, written without the functions of the model *)

(** Name of a quantity for the [i]-th region of a run with [n] control boxes *)
Definition region_name (n : nat) (only : bool) (l : string) (i : nat) : string :=
  match n, only, i with
  | 0, _, _ => l
  | _, true, _ => (l ++ "_" ++ to_string i)%string
  | _, false, 0 => l
  | _, false, S i => (l ++ "_" ++ to_string i)%string
  end.
(** The regions: the whole domain ([false]) comes first unless only boxes are asked for *)
Definition regions (n : nat) (only : bool) : list (nat * bool) :=
  match n, only with
  | S _, true => map (fun i => (i, true)) (seq 0 n)
  | _, _ => (0, false) :: map (fun i => (i, true)) (seq 1 n)
  end.
Section Names.
Context {P B : Type}.
Definition columns (st : @settings P B) (dim : nat) (ops grains : bool) : list string :=
  let n := length (s_boxes st) in
  ["step"; "time"; "dt"; "n_dofs"; "n_op"; "n_grains"; "n_newton_iter"; "n_linear_iter"; "n_resid_eval"]%string
  ++ flat_map (fun r => map (fun l => region_name n (s_only st) l (fst r)) (expand (s_max st) (s_integrals st))) (regions n (s_only st))
  ++ (if s_shrinkage st then firstn dim ["dim_x"; "dim_y"; "dim_z"]%string ++ ["volume"%string] else [])
  ++ (if s_quality_min st then ["mesh_quality"%string] else [])
  ++ flat_map (fun r => map (fun l => region_name n (s_only st) l (fst r))
       ((if snd r : bool then ["control_box"%string] else [])
        ++ (if s_surf st then match s_kind st with GrainGrowth => [] | _ => ["iso_surf_area"%string] end else [])
        ++ (if s_gb st then if ops then ["iso_gb_area"%string] else [] else [])
        ++ (if s_coord st then if grains then ["avg_coord_num"%string] else [] else [])))
     (regions n (s_only st)).

(** The data of an output are complete *)
Definition good (st : @settings P B) (dim : nat) (e : @event P) : Prop :=
  length (e_first e) = 7 /\ length (e_sides e) = dim /\ complete (s_kind st) (e_op e) (e_ranks e).
Definition usable (st : @settings P B) (dim : nat) : Prop :=
  s_table st = true /\ dim <= 3 /\ NoDup (s_integrals st) /\ forall l, In l (s_integrals st) -> accepts (s_kind st) l.
End Names.

(** ** Auxiliary lemmas *)

Lemma region_name_spec : forall {B} (accepted : list B) only l i, generate_name accepted only l i = region_name (length accepted) only l i.
Proof.
  intros B accepted only l i. unfold generate_name, region_name. destruct (length accepted) as [| n]; [reflexivity |].
  cbn [Nat.eqb]. destruct only; [reflexivity |]. destruct i; [reflexivity |]. cbn [Nat.eqb Nat.sub]. rewrite Nat.sub_0_r. reflexivity.
Qed.
Lemma indexed_some : forall {B} (accepted : list B) i,
  combine (seq i (length accepted)) (map (fun b => match b with Some _ => true | None => false end) (map Some accepted)) = map (fun i => (i, true)) (seq i (length accepted)).
Proof. induction accepted as [| b l IH]; intros i; [reflexivity |]. cbn [length seq map combine]. rewrite IH. reflexivity. Qed.
Lemma regions_spec : forall {B} (accepted : list B) only,
  regions (length accepted) only = combine (seq 0 (length (box_filters accepted only))) (map (fun b => match b with Some _ => true | None => false end) (box_filters accepted only)).
Proof.
  intros B accepted only. unfold regions, box_filters. destruct accepted as [| b l]; [reflexivity |].
  cbn [length Nat.eqb negb orb]. destruct only; cbn [negb].
  - pose proof (indexed_some (b :: l) 0) as H. cbn [length] in H. rewrite map_length. symmetry. exact H.
  - pose proof (indexed_some (b :: l) 1) as H. cbn [length] in H. cbn [length seq map combine]. rewrite map_length.
    cbn [seq map combine] in H. rewrite H. reflexivity.
Qed.
Lemma region_indices : forall {B} (accepted : list B) only, map fst (regions (length accepted) only) = seq 0 (length (box_filters accepted only)).
Proof.
  intros B accepted only. rewrite regions_spec. generalize (box_filters accepted only). intros l. generalize 0.
  induction l as [| b l IH]; intros n; [reflexivity |]. cbn [length seq map combine fst]. rewrite IH. reflexivity.
Qed.
Lemma flat_map_fst : forall {A} (f : nat -> list A) (l : list (nat * bool)), flat_map (fun r => f (fst r)) l = flat_map f (map fst l).
Proof. induction l as [| [i b] l IH]; [reflexivity |]. cbn [flat_map map fst]. rewrite IH. reflexivity. Qed.

(** Base names *)
Definition based (l : string) : Prop := plain l /\ l <> "op"%string \/ exists n, l = ("op_" ++ to_string n)%string.
Lemma name_inj : forall {B} (accepted : list B) only l l' i j, based l -> based l' ->
  generate_name accepted only l i = generate_name accepted only l' j -> l = l'.
Proof.
  intros B accepted only l l' i j H H' E.
  assert (Base : forall a b n, based a -> based b -> a <> (b ++ "_" ++ to_string n)%string).
  { intros a b n [[Pa _] | [p Hp]] Hb X; [apply (plain_suffix a b n Pa X) |].
    rewrite Hp, op_split in X. apply suffix_inj in X. destruct X as [X _]. destruct Hb as [[_ Nb] | [q Hq]]; [congruence |].
    rewrite <- X in Hq. discriminate. }
  destruct (generate_cases accepted only l i) as [E1 | [p E1]], (generate_cases accepted only l' j) as [E2 | [q E2]]; rewrite E1, E2 in E.
  - exact E.
  - exfalso. apply (Base l l' q H H' E).
  - exfalso. symmetry in E. apply (Base l' l p H' H E).
  - apply suffix_inj in E. apply E.
Qed.
Lemma expand_based : forall k max labels l, forallb (ok k) labels = true -> In l (expand max labels) -> based l.
Proof.
  intros k max labels l OK H. destruct (expand_cases k max labels l OK H) as [[K _] | E]; [left | right; exact E].
  split; [apply (known_plain k l K) |]. intros ->. destruct k; discriminate.
Qed.
Definition special : list string := ["control_box"; "iso_surf_area"; "iso_gb_area"; "avg_coord_num"]%string.
Lemma special_based : forall l, In l special -> based l.
Proof. intros l H. cbn [special In] in H. repeat (destruct H as [<- | H]; [left; split; [vm_compute; reflexivity | discriminate] |]). destruct H. Qed.
Lemma special_fresh : forall k max labels l, forallb (ok k) labels = true -> In l special -> ~ In l (expand max labels).
Proof.
  intros k max labels l OK H I. destruct (expand_cases k max labels l OK I) as [[K _] | [n E]];
    cbn [special In] in H; repeat (destruct H as [<- | H]; [first [destruct k; discriminate K | discriminate E] |]); destruct H.
Qed.
Definition fixed : list string :=
  ["step"; "time"; "dt"; "n_dofs"; "n_op"; "n_grains"; "n_newton_iter"; "n_linear_iter"; "n_resid_eval"; "dim_x"; "dim_y"; "dim_z"; "volume"; "mesh_quality"]%string.
Lemma fixed_fresh : forall {B} k max labels (accepted : list B) only l i x, forallb (ok k) labels = true -> In x fixed ->
  In l (expand max labels) \/ In l special -> generate_name accepted only l i <> x.
Proof.
  intros B k max labels accepted only l i x OK F H E.
  assert (PL : plain x /\ known k x = false /\ (forall n, x <> ("op_" ++ to_string n)%string) /\ ~ In x special).
  { cbn [fixed In] in F. repeat (destruct F as [<- | F]; [split; [vm_compute; first [reflexivity | exact I] | split; [destruct k; reflexivity | split; [intros n X; discriminate X | intros K; cbn in K; repeat (destruct K as [K | K]; [discriminate K |]); exact K]]] |]). destruct F. }
  destruct PL as [P1 [P2 [P3 P4]]]. destruct (generate_cases accepted only l i) as [E1 | [j E1]]; rewrite E1 in E.
  - subst x. destruct H as [H | H]; [| contradiction]. destruct (expand_cases k max labels l OK H) as [[K _] | [n Hn]]; [congruence | apply (P3 n Hn)].
  - symmetry in E. apply (plain_suffix _ l j P1 E).
Qed.

(** Distinct names over the regions *)
Lemma region_nodup : forall {B} (accepted : list B) only (f : nat * bool -> list string) rs,
  NoDup (map fst rs) -> (forall r, In r rs -> fst r < length (box_filters accepted only)) ->
  (forall r, In r rs -> NoDup (f r) /\ forall l, In l (f r) -> based l) ->
  NoDup (flat_map (fun r => map (fun l => generate_name accepted only l (fst r)) (f r)) rs).
Proof.
  intros B accepted only f. pose proof (C97_boxes B accepted only) as NB.
  induction rs as [| r rs IH]; intros Nj Lj Hf; [constructor |]. cbn [map] in Nj. inversion Nj; subst. cbn [flat_map]. apply NoDup_app_intro.
  - destruct (Hf r (or_introl eq_refl)) as [N1 N2]. apply NoDup_map_in; [exact N1 |]. intros x y Hx Hy Exy. apply (name_inj accepted only x y _ _ (N2 x Hx) (N2 y Hy) Exy).
  - apply IH; [assumption | intros i Hi; apply Lj; right; exact Hi | intros i Hi; apply Hf; right; exact Hi].
  - intros x Hx Hx2. apply in_map_iff in Hx. destruct Hx as [l [<- Hl]]. apply in_flat_map in Hx2. destruct Hx2 as [r' [Hr' Hx2]].
    apply in_map_iff in Hx2. destruct Hx2 as [l' [E2 Hl']].
    assert (l' = l) by (apply (name_inj accepted only l' l (fst r') (fst r)); [apply (Hf r' (or_intror Hr')), Hl' | apply (Hf r (or_introl eq_refl)), Hl | exact E2]). subst l'.
    destruct (NB l) as [_ [_ [_ I4]]]. assert (EE : fst r' = fst r) by (apply I4; [apply Lj; right; exact Hr' | apply Lj; left; reflexivity | exact E2]).
    apply H1. rewrite <- EE. apply in_map. exact Hr'.
Qed.

Section Rows.
Context {P B : Type}.
Variables (st : @settings P B) (dim : nat).

Lemma side_spec : forall labels sides v, length sides <= length labels ->
  side_columns labels sides v = Some (combine (firstn (length sides) labels ++ ["volume"%string]) (sides ++ [fold_left Qmult sides v])).
Proof.
  induction labels as [| l labels IH]; intros [| x sides] v H; cbn [length] in H; try reflexivity; [lia |].
  cbn [side_columns length firstn app fold_left combine]. rewrite IH by lia. reflexivity.
Qed.
Definition extra_names (ops grains inside : bool) : list string :=
  (if inside then ["control_box"%string] else [])
  ++ (if s_surf st then match s_kind st with GrainGrowth => [] | _ => ["iso_surf_area"%string] end else [])
  ++ (if s_gb st then if ops then ["iso_gb_area"%string] else [] else [])
  ++ (if s_coord st then if grains then ["avg_coord_num"%string] else [] else []).
Lemma advanced_spec : forall e boxes i, map fst (advanced_columns st e i boxes)
  = flat_map (fun r => map (fun l => generate_name (s_boxes st) (s_only st) l (fst r)) (extra_names (e_ops e) (e_grains e) (snd r)))
      (combine (seq i (length boxes)) (map (fun b => match b with Some _ => true | None => false end) boxes)).
Proof.
  intros e. induction boxes as [| b boxes IH]; intros i; [reflexivity |]. cbn [advanced_columns length seq map combine flat_map fst snd].
  rewrite !map_app, IH, !app_assoc. f_equal. unfold extra_names. rewrite !map_app, !app_assoc. f_equal; [f_equal; [f_equal |] |].
  - destruct b; reflexivity.
  - destruct (s_surf st), (s_kind st); reflexivity.
  - destruct (s_gb st), (e_ops e); reflexivity.
  - destruct (s_coord st), (e_grains e); reflexivity.
Qed.

(** What [good] and [usable] give *)
Lemma row_exists : forall e c, usable st dim -> good st dim e -> exists row, driver_row st e c = Some row
  /\ map fst row = columns st dim (e_ops e) (e_grains e)
  /\ exists rest, row = ("step"%string, inject_Z (Z.of_nat c)) :: ("time"%string, e_time e) :: rest.
Proof.
  intros e c [_ [D [ND A]]] [L [LS C]]. unfold driver_row.
  assert (T : exists row, table_row (s_kind st) (e_op e) (s_max st) (s_filter st) (s_boxes st) (s_only st) (s_integrals st)
             (inject_Z (Z.of_nat c) :: e_time e :: e_first e) (e_ranks e) = Some row
    /\ map fst row = first_columns ++ flat_map (fun j => map (fun l => generate_name (s_boxes st) (s_only st) l j) (expand (s_max st) (s_integrals st))) (seq 0 (length (box_filters (s_boxes st) (s_only st))))).
  { destruct (s_integrals st) as [| l0 ls] eqn:EI.
    - eexists. split; [reflexivity |]. cbn [expand flat_map map].
      destruct (e_first e) as [| a1 [| a2 [| a3 [| a4 [| a5 [| a6 [| a7 [| ]]]]]]]]; try discriminate L. cbn [combine first_columns map fst].
      assert (Z : forall s : list nat, flat_map (fun _ : nat => @nil string) s = []) by (induction s as [| ? s IH]; [reflexivity | exact IH]). rewrite Z. reflexivity.
    - destruct (C115_columns P B (s_kind st) (e_op e) (s_max st) (s_filter st) (s_boxes st) (s_only st) (l0 :: ls)
        (inject_Z (Z.of_nat c) :: e_time e :: e_first e) (e_ranks e)) as [row [E [N _]]];
        [discriminate | exact A | cbn [length]; rewrite L; reflexivity | exact C |].
      exists row. split; [exact E | exact N]. }
  destruct T as [row [E N]]. rewrite E. cbn [obind].
  assert (Sh : exists shrink, (if s_shrinkage st then side_columns ["dim_x"; "dim_y"; "dim_z"]%string (e_sides e) 1%Q else Some []) = Some shrink
    /\ map fst shrink = (if s_shrinkage st then firstn dim ["dim_x"; "dim_y"; "dim_z"]%string ++ ["volume"%string] else [])).
  { destruct (s_shrinkage st); [| exists []; split; reflexivity]. rewrite side_spec by (cbn [length]; lia). eexists. split; [reflexivity |].
    rewrite LS. destruct (e_sides e) as [| x1 [| x2 [| x3 [| x4 r]]]]; subst dim; cbn [length] in *; first [reflexivity | lia]. }
  destruct Sh as [shrink [E2 N2]]. rewrite E2. cbn [obind]. eexists. split; [reflexivity |]. split.
  - rewrite !map_app, N, N2, advanced_spec. unfold columns. rewrite <- regions_spec, <- region_indices, <- flat_map_fst.
    rewrite <- !app_assoc. f_equal. f_equal; [apply flat_map_ext; intros r; apply map_ext; intros l; apply region_name_spec |].
    f_equal. f_equal; [destruct (s_quality_min st); reflexivity |].
    apply flat_map_ext. intros r. unfold extra_names. apply map_ext. intros l. apply region_name_spec.
  - assert (HD : exists rest, row = ("step"%string, inject_Z (Z.of_nat c)) :: ("time"%string, e_time e) :: rest).
    { clear - E. unfold table_row in E. destruct (s_integrals st).
      - injection E as <-. cbn [combine first_columns]. eexists. reflexivity.
      - destruct (build _ _ _ _ _ _); [| discriminate]. cbn [obind] in E. destruct (box_loop _ _ _ _ _ _ _ _); [| discriminate]. cbn [obind] in E.
        injection E as <-. cbn [combine first_columns app]. eexists. reflexivity. }
    destruct HD as [rest ->]. cbn [app]. eexists. reflexivity.
Qed.
Lemma extra_ok : forall ops grains inside, NoDup (extra_names ops grains inside) /\ forall l, In l (extra_names ops grains inside) -> In l special.
Proof.
  intros ops grains inside. unfold extra_names, special. destruct inside, (s_surf st), (s_kind st), (s_gb st), ops, (s_coord st), grains; cbn [app]; split;
    solve [ repeat (apply NoDup_cons; [intros K; cbn in K; repeat (destruct K as [K | K]; [discriminate K |]); exact K |]); apply NoDup_nil
          | intros l K; cbn [In] in *; tauto ].
Qed.
Lemma columns_nodup : forall ops grains, usable st dim -> NoDup (columns st dim ops grains).
Proof.
  intros ops grains [_ [D [ND A]]].
  assert (OK : forallb (ok (s_kind st)) (s_integrals st) = true) by (apply forallb_forall; intros l Hl; apply accepts_ok, A, Hl).
  assert (RI : forall r, In r (regions (length (s_boxes st)) (s_only st)) -> fst r < length (box_filters (s_boxes st) (s_only st))).
  { intros r Hr. apply (in_map fst) in Hr. rewrite region_indices in Hr. apply in_seq in Hr. lia. }
  assert (RN : NoDup (map fst (regions (length (s_boxes st)) (s_only st)))) by (rewrite region_indices; apply seq_NoDup).
  set (I1 := flat_map (fun r => map (fun l => generate_name (s_boxes st) (s_only st) l (fst r)) (expand (s_max st) (s_integrals st))) (regions (length (s_boxes st)) (s_only st))).
  set (I2 := flat_map (fun r => map (fun l => generate_name (s_boxes st) (s_only st) l (fst r)) (extra_names ops grains (snd r))) (regions (length (s_boxes st)) (s_only st))).
  set (F2 := (if s_shrinkage st then firstn dim ["dim_x"; "dim_y"; "dim_z"]%string ++ ["volume"%string] else []) ++ (if s_quality_min st then ["mesh_quality"%string] else [])).
  assert (EQ : columns st dim ops grains = first_columns ++ I1 ++ F2 ++ I2).
  { unfold columns, I1, I2, F2. rewrite <- !app_assoc. f_equal. f_equal; [apply flat_map_ext; intros r; apply map_ext; intros l; symmetry; apply region_name_spec |].
    f_equal. f_equal. apply flat_map_ext. intros r. unfold extra_names. apply map_ext. intros l. symmetry. apply region_name_spec. }
  rewrite EQ.
  assert (N1 : NoDup I1).
  { apply (region_nodup (s_boxes st) (s_only st) (fun _ => expand (s_max st) (s_integrals st))); [exact RN | exact RI |].
    intros r _. split; [apply (expand_nodup (s_kind st)); assumption | intros l Hl; apply (expand_based (s_kind st) (s_max st) (s_integrals st)); assumption]. }
  assert (N2 : NoDup I2).
  { apply (region_nodup (s_boxes st) (s_only st) (fun r => extra_names ops grains (snd r))); [exact RN | exact RI |].
    intros r _. destruct (extra_ok ops grains (snd r)) as [X1 X2]. split; [exact X1 | intros l Hl; apply special_based, X2, Hl]. }
  assert (Fix2 : forall x, In x F2 -> In x fixed).
  { unfold F2, fixed. intros x Hx. rewrite in_app_iff in Hx. destruct Hx as [Hx | Hx].
    - destruct (s_shrinkage st); [| destruct Hx]. destruct dim as [| [| [| [| n]]]]; cbn [firstn app In] in Hx |- *; [tauto .. |]. destruct n; cbn in Hx; tauto.
    - destruct (s_quality_min st); cbn [In] in Hx |- *; tauto. }
  assert (M1 : forall x, In x I1 -> exists l i, x = generate_name (s_boxes st) (s_only st) l i /\ In l (expand (s_max st) (s_integrals st))).
  { intros x Hx. apply in_flat_map in Hx. destruct Hx as [r [_ Hx]]. apply in_map_iff in Hx. destruct Hx as [l [<- Hl]]. exists l, (fst r). split; [reflexivity | exact Hl]. }
  assert (M2 : forall x, In x I2 -> exists l i, x = generate_name (s_boxes st) (s_only st) l i /\ In l special).
  { intros x Hx. apply in_flat_map in Hx. destruct Hx as [r [_ Hx]]. apply in_map_iff in Hx. destruct Hx as [l [<- Hl]]. exists l, (fst r). split; [reflexivity | apply (extra_ok ops grains (snd r)), Hl]. }
  assert (FF : NoDup (first_columns ++ F2)).
  { unfold first_columns, F2. destruct (s_shrinkage st), (s_quality_min st), dim as [| [| [| [| n]]]]; cbn [firstn app]; try lia;
      repeat (apply NoDup_cons; [intros K; cbn in K; repeat (destruct K as [K | K]; [discriminate K |]); exact K |]); apply NoDup_nil. }
  assert (SF : NoDup first_columns /\ NoDup F2 /\ forall x, In x first_columns -> ~ In x F2).
  { clear - FF. revert FF. generalize first_columns, F2. induction l as [| a l IH]; intros l' N; [repeat split; [constructor | exact N | intros x []] |].
    cbn [app] in N. inversion N; subst. destruct (IH l' H2) as [Y1 [Y2 Y3]]. rewrite in_app_iff in H1. split; [constructor; tauto | split; [exact Y2 |]].
    intros x [<- | Hx]; [tauto | apply Y3, Hx]. }
  destruct SF as [S1 [S2 S3]].
  apply NoDup_app_intro; [exact S1 | apply NoDup_app_intro; [exact N1 | apply NoDup_app_intro; [exact S2 | exact N2 |] |] |].
  - intros x Hx Hy. destruct (M2 x Hy) as [l [i [E Hl]]]. apply (fixed_fresh (s_kind st) (s_max st) (s_integrals st) (s_boxes st) (s_only st) l i x OK (Fix2 x Hx) (or_intror Hl)). symmetry. exact E.
  - intros x Hx Hy. destruct (M1 x Hx) as [l [i [E Hl]]]. rewrite in_app_iff in Hy. destruct Hy as [Hy | Hy].
    + apply (fixed_fresh (s_kind st) (s_max st) (s_integrals st) (s_boxes st) (s_only st) l i x OK (Fix2 x Hy) (or_introl Hl)). symmetry. exact E.
    + destruct (M2 x Hy) as [l' [i' [E' Hl']]]. rewrite E in E'.
      assert (l = l') by (apply (name_inj (s_boxes st) (s_only st) l l' i i'); [apply (expand_based (s_kind st) (s_max st) (s_integrals st)); assumption | apply special_based, Hl' | exact E']).
      subst l'. apply (special_fresh (s_kind st) (s_max st) (s_integrals st) l OK Hl' Hl).
  - intros x Hx Hy. assert (HF : In x fixed) by (unfold first_columns, fixed in *; cbn [In] in Hx |- *; tauto). rewrite !in_app_iff in Hy. destruct Hy as [Hy | [Hy | Hy]].
    + destruct (M1 x Hy) as [l [i [E Hl]]]. apply (fixed_fresh (s_kind st) (s_max st) (s_integrals st) (s_boxes st) (s_only st) l i x OK HF (or_introl Hl)). symmetry. exact E.
    + apply (S3 x Hx Hy).
    + destruct (M2 x Hy) as [l [i [E Hl]]]. apply (fixed_fresh (s_kind st) (s_max st) (s_integrals st) (s_boxes st) (s_only st) l i x OK HF (or_intror Hl)). symmetry. exact E.
Qed.
End Rows.

(** ** A table filled with one value for every column *)
Lemma add_new : forall key v t, ~ In key (map fst t) -> add_value key v t = t ++ [(key, [v])].
Proof.
  intros key v. induction t as [| [k vs] t IH]; intros H; [reflexivity |]. cbn [add_value map fst In] in *.
  destruct (String.eqb_spec k key) as [E | _]; [exfalso; apply H; left; exact E |]. rewrite IH by (intros X; apply H; right; exact X). reflexivity.
Qed.
Lemma fill_spec : forall row, NoDup (map fst row) -> fill row = map (fun kv => (fst kv, [snd kv])) row.
Proof.
  intros row. unfold fill.
  assert (G : forall row acc, NoDup (map fst acc ++ map fst row) ->
    fold_left (fun t kv => add_value (fst kv) (snd kv) t) row acc = acc ++ map (fun kv : string * Q => (fst kv, [snd kv])) row).
  { induction row0 as [| [k v] row0 IH]; intros acc N; [rewrite app_nil_r; reflexivity |]. cbn [fold_left map fst snd] in *.
    rewrite add_new by (intros X; apply NoDup_remove_2 in N; apply N; apply in_or_app; left; exact X).
    rewrite IH; [rewrite <- app_assoc; reflexivity |]. rewrite map_app, <- app_assoc. exact N. }
  intros N. apply (G row []). exact N.
Qed.
Lemma write_spec : forall row time file, row <> [] -> NoDup (map fst row) ->
  write_table (fill row) time file = Some ((if Qeq_bool time 0 then [Header (map fst row)] else file) ++ [Data (map snd row)]).
Proof.
  intros row time file NE N. rewrite fill_spec by exact N. unfold write_table, write_text.
  assert (R : n_rows (map (fun kv : string * Q => (fst kv, [snd kv])) row) = Some 1).
  { destruct row as [| kv row]; [congruence |]. cbn [map n_rows length]. replace (forallb _ _) with true; [reflexivity |]. symmetry. apply forallb_forall.
    intros c Hc. apply in_map_iff in Hc. destruct Hc as [x [<- _]]. reflexivity. }
  rewrite R. cbn [obind seq map fst snd hd]. rewrite !map_map. cbn [fst snd nth]. destruct (Qeq_bool time 0); reflexivity.
Qed.

Section Runs.
Context {P B : Type}.
Variables (st : @settings P B) (dim : nat).

(** Whether an output takes place at all *)
Definition active (e : @event P) : Prop := s_debug st = true \/ e_label e = "solution"%string.

Lemma other_label : forall s e s' l, output_result st s e = Some s' -> e_label e <> l -> counters s' l = counters s l /\ files s' l = files s l.
Proof.
  intros s e s' l H N. unfold output_result in H. destruct (negb (s_debug st) && _)%bool; [injection H as <-; split; reflexivity |].
  assert (U : forall {A} (f : string -> A) v, update f (e_label e) v l = f l).
  { intros A f v. unfold update. destruct (String.eqb_spec l (e_label e)) as [E | _]; [exfalso; apply N; symmetry; exact E | reflexivity]. }
  destruct (s_table st).
  - destruct (driver_row st e _); [| discriminate]. cbn [obind] in H. destruct (write_table _ _ _); [| discriminate]. cbn [obind] in H.
    injection H as <-. cbn [counters files]. rewrite !U. split; reflexivity.
  - cbn [obind] in H. injection H as <-. cbn [counters files]. rewrite U. split; reflexivity.
Qed.
Lemma this_label : forall s e, usable st dim -> good st dim e -> active e ->
  exists s' r, output_result st s e = Some s' /\ counters s' (e_label e) = S (counters s (e_label e))
    /\ driver_row st e (counters s (e_label e)) = Some (combine (columns st dim (e_ops e) (e_grains e)) r)
    /\ length r = length (columns st dim (e_ops e) (e_grains e))
    /\ nth_error r 0 = Some (inject_Z (Z.of_nat (counters s (e_label e)))) /\ nth_error r 1 = Some (e_time e)
    /\ files s' (e_label e) = (if Qeq_bool (e_time e) 0 then [Header (columns st dim (e_ops e) (e_grains e))] else files s (e_label e)) ++ [Data r].
Proof.
  intros s e U G A. destruct (row_exists st dim e (counters s (e_label e)) U G) as [row [E [N [rest R]]]].
  pose proof (columns_nodup st dim (e_ops e) (e_grains e) U) as ND. rewrite <- N in ND.
  unfold output_result. replace (negb (s_debug st) && negb (String.eqb (e_label e) "solution"))%bool with false.
  2: { destruct A as [-> | ->]; [reflexivity | rewrite andb_false_r; reflexivity]. }
  destruct U as [-> _]. rewrite E. cbn [obind]. rewrite write_spec by (subst; try discriminate; exact ND). cbn [obind].
  eexists. exists (map snd row). split; [reflexivity |]. cbn [counters files]. unfold update. rewrite String.eqb_refl. split; [reflexivity |].
  rewrite <- N. split; [f_equal; clear; induction row as [| [k v] row IH]; [reflexivity | cbn [map combine fst snd]; rewrite <- IH; reflexivity] |].
  split; [rewrite !map_length; reflexivity |]. subst row. split; [reflexivity | split; reflexivity].
Qed.

(** The lines written by a list of outputs under one label, none of them at time zero *)
Definition lines_of (names : list string) (c : nat) (es : list (@event P)) (rows : list (list Q)) : Prop :=
  length rows = length es /\ forall i e, nth_error es i = Some e -> exists r, nth_error rows i = Some r
    /\ driver_row st e (c + i) = Some (combine names r) /\ length r = length names
    /\ nth_error r 0 = Some (inject_Z (Z.of_nat (c + i))) /\ nth_error r 1 = Some (e_time e).
Definition steady (l : string) (ops grains : bool) (e : @event P) : Prop := e_label e = l -> e_ops e = ops /\ e_grains e = grains.
Definition labelled (l : string) (es : list (@event P)) : list (@event P) := filter (fun e => String.eqb (e_label e) l) es.

Lemma lines_cons : forall names c e es r rows, driver_row st e c = Some (combine names r) -> length r = length names ->
  nth_error r 0 = Some (inject_Z (Z.of_nat c)) -> nth_error r 1 = Some (e_time e) -> lines_of names (S c) es rows -> lines_of names c (e :: es) (r :: rows).
Proof.
  intros names c e es r rows H1 H2 H3 H4 [L H]. split; [cbn [length]; rewrite L; reflexivity |]. intros [| i] e' E.
  - injection E as <-. exists r. rewrite Nat.add_0_r. repeat split; assumption.
  - cbn [nth_error] in *. rewrite <- Nat.add_succ_comm. apply H, E.
Qed.
Lemma run_append : forall l ops grains es s, usable st dim -> (s_debug st = true \/ l = "solution"%string) ->
  (forall e, In e es -> good st dim e /\ steady l ops grains e) ->
  (forall e, In e (labelled l es) -> Qeq_bool (e_time e) 0 = false) ->
  exists s' rows, outputs st s es = Some s' /\ counters s' l = counters s l + length (labelled l es)
    /\ files s' l = files s l ++ map Data rows /\ lines_of (columns st dim ops grains) (counters s l) (labelled l es) rows.
Proof.
  intros l ops grains es. induction es as [| e es IH]; intros s U A G T.
  - exists s, []. split; [reflexivity |]. split; [cbn; lia |]. split; [cbn [map]; rewrite app_nil_r; reflexivity |]. split; [reflexivity |]. intros [| i] e E; discriminate.
  - cbn [outputs labelled filter] in *. fold (labelled l es) in *. destruct (G e (or_introl eq_refl)) as [Ge Se].
    destruct (String.eqb_spec (e_label e) l) as [El | Nl].
    + destruct (this_label s e U Ge) as [s' [r [E [C [D [L [R0 [R1 F]]]]]]]]; [unfold active; rewrite El; exact A |]. destruct (Se El) as [EO EG]. rewrite El, EO, EG in *.
      rewrite E. cbn [obind]. destruct (IH s' U A (fun x Hx => G x (or_intror Hx))) as [s'' [rows [E' [C' [F' L']]]]].
      { intros x Hx. apply T. right. exact Hx. }
      exists s'', (r :: rows). split; [exact E' |]. split; [cbn [length]; lia |]. rewrite F', F, (T e (or_introl eq_refl)), <- app_assoc. split; [reflexivity |].
      rewrite C in L'. apply lines_cons; assumption.
    + assert (X : exists s', output_result st s e = Some s').
      { destruct (s_debug st) eqn:ED; [| destruct (String.eqb_spec (e_label e) "solution") as [ES | NS]].
        - destruct (this_label s e U Ge) as [s' [r [E _]]]; [left; exact ED | exists s'; exact E].
        - destruct (this_label s e U Ge) as [s' [r [E _]]]; [right; exact ES | exists s'; exact E].
        - exists s. unfold output_result. rewrite ED. destruct (String.eqb_spec (e_label e) "solution"); [contradiction | reflexivity]. }
      destruct X as [s' E]. rewrite E. cbn [obind]. destruct (other_label s e s' l E Nl) as [C F].
      destruct (IH s' U A (fun x Hx => G x (or_intror Hx)) T) as [s'' [rows [E' [C' [F' L']]]]]. exists s'', rows. rewrite <- C, <- F. split; [exact E' | split; [exact C' | split; [exact F' | exact L']]].
Qed.
Lemma outputs_app : forall a b s, outputs st s (a ++ b) = obind (outputs st s a) (fun s => outputs st s b).
Proof. induction a as [| e a IH]; intros b s; [reflexivity |]. cbn [app outputs]. destruct (output_result st s e); [apply IH | reflexivity]. Qed.
Lemma labelled_app : forall l a b, labelled l (a ++ b) = labelled l a ++ labelled l b.
Proof. intros l a b. unfold labelled. apply filter_app. Qed.
(** From the last output at time zero on *)
Lemma run_reset : forall l ops grains a e b s, usable st dim -> (s_debug st = true \/ l = "solution"%string) ->
  (forall x, In x (a ++ e :: b) -> good st dim x /\ steady l ops grains x) ->
  (exists sa, outputs st s a = Some sa /\ counters sa l = counters s l + length (labelled l a)) ->
  e_label e = l -> Qeq_bool (e_time e) 0 = true -> (forall x, In x (labelled l b) -> Qeq_bool (e_time x) 0 = false) ->
  exists s' rows, outputs st s (a ++ e :: b) = Some s' /\ counters s' l = counters s l + length (labelled l (a ++ e :: b))
    /\ files s' l = Header (columns st dim ops grains) :: map Data rows
    /\ lines_of (columns st dim ops grains) (counters s l + length (labelled l a)) (e :: labelled l b) rows.
Proof.
  intros l ops grains a e b s U A G [sa [Ea Ca]] El T0 T. rewrite outputs_app, Ea. cbn [obind outputs].
  destruct (G e) as [Ge Se]; [apply in_or_app; right; left; reflexivity |]. destruct (Se El) as [EO EG].
  destruct (this_label sa e U Ge) as [s1 [r [E [C [D [L [R0 [R1 F]]]]]]]]; [unfold active; rewrite El; exact A |]. rewrite El, EO, EG, T0 in *.
  rewrite E. cbn [obind]. destruct (run_append l ops grains b s1 U A) as [s2 [rows [E' [C' [F' L']]]]].
  { intros x Hx. apply G. apply in_or_app. right. right. exact Hx. }
  { exact T. }
  exists s2, (r :: rows). split; [exact E' |]. split.
  - rewrite labelled_app, app_length. cbn [labelled filter]. rewrite El, String.eqb_refl. cbn [length]. fold (labelled l b). lia.
  - split; [rewrite F', F; reflexivity |]. rewrite <- Ca. rewrite C in L'. apply lines_cons; assumption.
Qed.
End Runs.

(** ** One row: distinct names that depend on the settings only (and on whether there are order
    parameters and grains), one value for every name, step and time in front *)
Theorem C119_row : forall (P B : Type) (st : @settings P B) dim e c, usable st dim -> good st dim e ->
  exists row, driver_row st e c = Some row /\ map fst row = columns st dim (e_ops e) (e_grains e) /\ NoDup (map fst row)
    /\ In ("step"%string, inject_Z (Z.of_nat c)) row /\ In ("time"%string, e_time e) row
    /\ (s_shrinkage st = true ->
          (forall d l x, nth_error ["dim_x"; "dim_y"; "dim_z"]%string d = Some l -> nth_error (e_sides e) d = Some x -> In (l, x) row)
          /\ exists v, In ("volume"%string, v) row /\ (v == fold_right Qmult 1 (e_sides e))%Q)
    /\ (s_quality_min st = true -> In ("mesh_quality"%string, e_quality e) row)
    /\ (forall j b, nth_error (s_boxes st) j = Some b ->
          In (region_name (length (s_boxes st)) (s_only st) "control_box" (if s_only st then j else S j), s_volume st b) row)
    /\ (forall i, i < length (regions (length (s_boxes st)) (s_only st)) ->
          (s_surf st = true -> s_kind st <> GrainGrowth -> In (region_name (length (s_boxes st)) (s_only st) "iso_surf_area" i, e_surf e i) row)
          /\ (s_gb st = true -> e_ops e = true -> In (region_name (length (s_boxes st)) (s_only st) "iso_gb_area" i, e_gb e i) row)
          /\ (s_coord st = true -> e_grains e = true -> In (region_name (length (s_boxes st)) (s_only st) "avg_coord_num" i, e_coord e i) row)).
Proof.
  intros P B st dim e c U G. destruct (row_exists st dim e c U G) as [row [E [N [rest R]]]]. exists row. split; [exact E |]. split; [exact N |].
  split; [rewrite N; apply columns_nodup; exact U |]. split; [subst; left; reflexivity |]. split; [subst; right; left; reflexivity |].
  clear R rest N. destruct U as [_ [D _]], G as [_ [LS _]]. unfold driver_row in E. destruct (table_row _ _ _ _ _ _ _ _ _) as [row1 |]; [| discriminate]. cbn [obind] in E.
  assert (Adv : forall boxes i0, (forall j b, nth_error boxes j = Some (Some b) -> In (generate_name (s_boxes st) (s_only st) "control_box" (i0 + j), s_volume st b) (advanced_columns st e i0 boxes))
    /\ (forall j, j < length boxes ->
          (s_surf st = true -> s_kind st <> GrainGrowth -> In (generate_name (s_boxes st) (s_only st) "iso_surf_area" (i0 + j), e_surf e (i0 + j)) (advanced_columns st e i0 boxes))
          /\ (s_gb st = true -> e_ops e = true -> In (generate_name (s_boxes st) (s_only st) "iso_gb_area" (i0 + j), e_gb e (i0 + j)) (advanced_columns st e i0 boxes))
          /\ (s_coord st = true -> e_grains e = true -> In (generate_name (s_boxes st) (s_only st) "avg_coord_num" (i0 + j), e_coord e (i0 + j)) (advanced_columns st e i0 boxes)))).
  { induction boxes as [| b0 boxes IH]; intros i0; [split; [intros [| j] b X; discriminate X | intros j X; cbn [length] in X; lia] |].
    destruct (IH (S i0)) as [I1 I2]. cbn [advanced_columns]. split.
    - intros [| j] b X.
      + injection X as ->. rewrite Nat.add_0_r. apply in_or_app. left. left. reflexivity.
      + rewrite <- Nat.add_succ_comm. do 4 (apply in_or_app; right). apply I1. exact X.
    - intros [| j] X.
      + rewrite Nat.add_0_r. split; [| split].
        * intros -> K. apply in_or_app. right. apply in_or_app. left. destruct (s_kind st); try congruence; left; reflexivity.
        * intros -> ->. do 2 (apply in_or_app; right). apply in_or_app. left. left. reflexivity.
        * intros -> ->. do 3 (apply in_or_app; right). apply in_or_app. left. left. reflexivity.
      + rewrite <- Nat.add_succ_comm. cbn [length] in X. destruct (I2 j) as [J1 [J2 J3]]; [lia |].
        split; [| split]; intros Y1 Y2; do 4 (apply in_or_app; right); [apply J1 | apply J2 | apply J3]; assumption. }
  destruct (Adv (box_filters (s_boxes st) (s_only st)) 0) as [A1 A2]. clear Adv.
  assert (RL : length (regions (length (s_boxes st)) (s_only st)) = length (box_filters (s_boxes st) (s_only st))).
  { rewrite <- (map_length fst), region_indices, seq_length. reflexivity. }
  split; [| split; [| split]].
  - intros Hs. rewrite Hs, side_spec in E by (cbn [length]; lia). cbn [obind] in E. injection E as <-. split.
    + intros d l x Hl Hx. apply in_or_app. right. apply in_or_app. left.
      destruct (e_sides e) as [| x1 [| x2 [| x3 [| x4 r]]]]; cbn [length] in LS; [| | | | lia];
        destruct d as [| [| [| d]]]; cbn [nth_error] in Hl, Hx; try (destruct d; discriminate); try discriminate;
        injection Hl as <-; injection Hx as <-; cbn [length firstn app combine In]; tauto.
    + exists (fold_left Qmult (e_sides e) 1%Q). split.
      * apply in_or_app. right. apply in_or_app. left.
        destruct (e_sides e) as [| x1 [| x2 [| x3 [| x4 r]]]]; cbn [length] in LS; [| | | | lia]; cbn [length firstn app combine In fold_left]; tauto.
      * assert (FL : forall l a, (fold_left Qmult l a == a * fold_right Qmult 1 l)%Q).
        { induction l as [| x l IHl]; intros a; cbn [fold_left fold_right]; [ring |]. rewrite IHl. ring. }
        rewrite FL. ring.
  - intros Hq. rewrite Hq in E. destruct (if s_shrinkage st then _ else _); [| discriminate]. cbn [obind] in E. injection E as <-.
    do 2 (apply in_or_app; right). left. reflexivity.
  - intros j b Hb. destruct (if s_shrinkage st then _ else _); [| discriminate]. cbn [obind] in E. injection E as <-. do 3 (apply in_or_app; right).
    rewrite <- region_name_spec. apply (A1 (if s_only st then j else S j) b). unfold box_filters. destruct (s_boxes st) as [| b0 bs]; [destruct j; discriminate |].
    cbn [length Nat.eqb negb orb]. destruct (s_only st); cbn [negb nth_error]; apply map_nth_error; exact Hb.
  - intros i Hi. rewrite RL in Hi. destruct (if s_shrinkage st then _ else _); [| discriminate]. cbn [obind] in E. injection E as <-.
    destruct (A2 i Hi) as [J1 [J2 J3]]. rewrite <- !region_name_spec. split; [| split]; intros Y1 Y2; do 3 (apply in_or_app; right); [apply J1 | apply J2 | apply J3]; assumption.
Qed.
Print Assumptions C119_row.

(** ** A run whose first result is at time zero: one header, then one line for every output of
    results in order, numbered from zero, under the names of the header.  What was in the file
    before and what is put out under other labels does not matter *)
Theorem C119_file : forall (P B : Type) (st : @settings P B) dim ops grains before e es s, usable st dim ->
  (forall x, In x (before ++ e :: es) -> good st dim x /\ steady "solution" ops grains x) ->
  (forall x, In x before -> e_label x <> "solution"%string) -> e_label e = "solution"%string -> (e_time e == 0)%Q ->
  (forall x, In x es -> e_label x = "solution"%string -> ~ (e_time x == 0)%Q) -> counters s "solution"%string = 0 ->
  exists s' rows, outputs st s (before ++ e :: es) = Some s'
    /\ files s' "solution"%string = Header (columns st dim ops grains) :: map Data rows
    /\ lines_of st (columns st dim ops grains) 0 (labelled "solution" (e :: es)) rows.
Proof.
  intros P B st dim ops grains before e es s U G Bf El T0 T C0.
  assert (LB : labelled "solution" before = []).
  { clear - Bf. induction before as [| x l IH]; [reflexivity |]. cbn [labelled filter]. destruct (String.eqb_spec (e_label x) "solution") as [E | _]; [exfalso; apply (Bf x (or_introl eq_refl) E) |].
    apply IH. intros y Hy. apply Bf. right. exact Hy. }
  destruct (run_append st dim "solution" ops grains before s U (or_intror eq_refl)) as [sa [ra [Ea [Ca [Fa La]]]]].
  { intros x Hx. apply G. apply in_or_app. left. exact Hx. }
  { rewrite LB. intros x []. }
  destruct (run_reset st dim "solution" ops grains before e es s U (or_intror eq_refl) G) as [s' [rows [E [C [F L]]]]].
  { exists sa. split; [exact Ea | exact Ca]. }
  { exact El. }
  { apply Qeq_bool_iff. exact T0. }
  { intros x Hx. apply filter_In in Hx. destruct Hx as [Hx Hl]. apply String.eqb_eq in Hl. apply not_true_is_false. intros X. apply Qeq_bool_iff in X. apply (T x Hx Hl X). }
  exists s', rows. split; [exact E |]. split; [exact F |]. rewrite LB, C0 in L. cbn [labelled filter]. rewrite El, String.eqb_refl. exact L.
Qed.
Print Assumptions C119_file.

Lemma combine_inj : forall (n : list string) (r1 r2 : list Q), length r1 = length n -> length r2 = length n -> combine n r1 = combine n r2 -> r1 = r2.
Proof.
  induction n as [| y n IH]; intros [| x1 r1] [| x2 r2] K1 K2 D; try discriminate; [reflexivity |]. cbn [combine] in D. injection D as D0 D. subst x2. f_equal.
  injection K1 as K1. injection K2 as K2. apply IH; assumption.
Qed.
(** ** Restart: the file is not taken back to the saved state.  If results were put out after the
    restart point, their numbers occur again *)
Theorem C119_restart : forall (P B : Type) (st : @settings P B) dim ops grains a b c s sa sb, usable st dim ->
  (forall x, In x (a ++ b ++ c) -> good st dim x /\ steady "solution" ops grains x) ->
  (forall x, In x (b ++ c) -> e_label x = "solution"%string -> ~ (e_time x == 0)%Q) ->
  outputs st s a = Some sa -> outputs st sa b = Some sb ->
  let k := counters sa "solution"%string in
  exists s' rb rc, outputs st (restart sa sb) c = Some s'
    /\ files s' "solution"%string = files sa "solution"%string ++ map Data rb ++ map Data rc
    /\ lines_of st (columns st dim ops grains) k (labelled "solution" b) rb
    /\ lines_of st (columns st dim ops grains) k (labelled "solution" c) rc
    /\ (labelled "solution" b = [] -> exists s'', outputs st s (a ++ c) = Some s'' /\ files s'' "solution"%string = files s' "solution"%string).
Proof.
  intros P B st dim ops grains a b c s sa sb U G T Ea Eb k.
  assert (TZ : forall l, (forall x, In x l -> In x (b ++ c)) -> forall x, In x (labelled "solution" l) -> Qeq_bool (e_time x) 0 = false).
  { intros l Hl x Hx. apply filter_In in Hx. destruct Hx as [Hx HL]. apply String.eqb_eq in HL. apply not_true_is_false. intros X. apply Qeq_bool_iff in X. apply (T x (Hl x Hx) HL X). }
  destruct (run_append st dim "solution" ops grains b sa U (or_intror eq_refl)) as [sb' [rb [Eb' [Cb [Fb Lb]]]]].
  { intros x Hx. apply G. apply in_or_app. right. apply in_or_app. left. exact Hx. }
  { apply TZ. intros x Hx. apply in_or_app. left. exact Hx. }
  rewrite Eb in Eb'. injection Eb' as <-.
  assert (Gc : forall x, In x c -> good st dim x /\ steady "solution" ops grains x) by (intros x Hx; apply G; apply in_or_app; right; apply in_or_app; right; exact Hx).
  assert (Tc : forall x, In x (labelled "solution" c) -> Qeq_bool (e_time x) 0 = false) by (apply TZ; intros x Hx; apply in_or_app; right; exact Hx).
  destruct (run_append st dim "solution" ops grains c (restart sa sb) U (or_intror eq_refl) Gc Tc) as [s' [rc [Ec [Cc [Fc Lc]]]]].
  cbn [restart counters files] in Cc, Fc, Lc. exists s', rb, rc. split; [exact Ec |]. split; [rewrite Fc, Fb, app_assoc; reflexivity |]. split; [exact Lb |]. split; [exact Lc |].
  intros LB. destruct (run_append st dim "solution" ops grains c sa U (or_intror eq_refl) Gc Tc) as [s'' [rc' [Ec' [Cc' [Fc' Lc']]]]].
  exists s''. rewrite outputs_app, Ea. cbn [obind]. split; [exact Ec' |]. rewrite Fc', Fc, Fb.
  assert (rb = []) by (destruct Lb as [Lb _]; rewrite LB in Lb; destruct rb; [reflexivity | discriminate]). subst rb. cbn [map]. rewrite app_nil_r. f_equal. f_equal.
  destruct Lc as [N1 H1], Lc' as [N2 H2]. clear - N1 H1 N2 H2.
  assert (NE : forall i, nth_error rc' i = nth_error rc i).
  { intros i. destruct (nth_error (labelled "solution" c) i) as [x |] eqn:Ex.
    - destruct (H1 i x Ex) as [r1 [E1 [D1 [K1 _]]]], (H2 i x Ex) as [r2 [E2 [D2 [K2 _]]]]. rewrite E1, E2. rewrite D1 in D2. injection D2 as D2. f_equal.
      symmetry. apply (combine_inj (columns st dim ops grains)); assumption.
    - apply nth_error_None in Ex. rewrite (proj2 (nth_error_None rc' i)), (proj2 (nth_error_None rc i)); [reflexivity | |]; lia. }
  clear - NE. revert rc' NE. induction rc as [| x rc IH]; intros [| y rc'] NE; [reflexivity | pose proof (NE 0) as X; discriminate X | pose proof (NE 0) as X; discriminate X |].
  pose proof (NE 0) as X. cbn in X. injection X as ->. f_equal. apply IH. intros i. apply (NE (S i)).
Qed.
Print Assumptions C119_restart.

(** ** A concrete run *)
Definition c119_op : op_settings := mkSet 2 (1 # 10) (1 # 5) (fun _ => 0%Q).
Definition c119_point : @qpoint nat := mkPt (1 # 2) 3 [(1 # 4)%Q; 0%Q; 1%Q; 0%Q] [[1%Q]; [0%Q]; [0%Q]; [2%Q]].
Definition c119_st (debug : bool) : @settings nat nat :=
  mkSettings debug true Sintering 3 ["solid_vol"]%string (fun b x => if Nat.leb x b then 1%Q else 0%Q) [5] false (fun b => inject_Z (Z.of_nat b)) true true true false true.
Definition c119_event (label : string) (t : Q) (grains : bool) : @event nat :=
  mkEvent label t [1; 100; 2; 4; 3; 9; 5]%Q c119_op [[mkBatch 1 [[c119_point]]]] [2%Q; 3%Q] (1 # 2) true grains (fun i => inject_Z (Z.of_nat (10 + i))) (fun _ => 0%Q) (fun i => inject_Z (Z.of_nat (20 + i))).
Definition c119_start : state := mkState (fun _ => 0) (fun _ => [Data [7%Q]]).
Definition c119_names : list string :=
  ["step"; "time"; "dt"; "n_dofs"; "n_op"; "n_grains"; "n_newton_iter"; "n_linear_iter"; "n_resid_eval"; "solid_vol"; "solid_vol_0"; "dim_x"; "dim_y"; "volume"; "mesh_quality";
   "iso_surf_area"; "avg_coord_num"; "control_box_0"; "iso_surf_area_0"; "avg_coord_num_0"]%string.
Example C119_usable : usable (c119_st false) 2.
Proof.
  split; [reflexivity |]. split; [repeat constructor |]. split; [repeat constructor; intros [] |]. intros l [<- | []]. apply accepts_ok. reflexivity.
Qed.
Example C119_good : forall l t g, good (c119_st false) 2 (c119_event l t g).
Proof.
  intros l t g. split; [reflexivity |]. split; [reflexivity |]. intros r b [<- | []] [<- | []]. split; [apply le_n |].
  intros x q [<- | []] [<- | []]. split; reflexivity.
Qed.
Example C119_case : exists s' r1 r2, outputs (c119_st false) c119_start [c119_event "track" 0 true; c119_event "solution" 0 true; c119_event "remap" 1 true; c119_event "solution" 2 true] = Some s'
  /\ columns (c119_st false) 2 true true = c119_names
  /\ files s' "solution"%string = [Header c119_names; Data r1; Data r2] /\ firstn 2 r1 = [0%Q; 0%Q] /\ firstn 2 r2 = [1%Q; 2%Q] /\ length r2 = 20
  /\ counters s' "solution"%string = 2 /\ files s' "remap"%string = [Data [7%Q]].
Proof. eexists. eexists. eexists. split; [vm_compute; reflexivity |]. vm_compute. repeat split. Qed.

(** ** What fails *)

(** Results put out after the restart point: both the numbers and the lines occur twice *)
Theorem C119_restart_refuted : exists sa sb s' r0 r1 r2,
  outputs (c119_st false) c119_start [c119_event "solution" 0 true] = Some sa
  /\ outputs (c119_st false) sa [c119_event "solution" 2 true] = Some sb
  /\ outputs (c119_st false) (restart sa sb) [c119_event "solution" 2 true] = Some s'
  /\ files s' "solution"%string = [Header c119_names; Data r0; Data r1; Data r2] /\ firstn 2 r1 = [1%Q; 2%Q] /\ r2 = r1.
Proof. do 6 eexists. split; [vm_compute; reflexivity |]. split; [vm_compute; reflexivity |]. split; [vm_compute; reflexivity |]. vm_compute. repeat split. Qed.
Print Assumptions C119_restart_refuted.

(** With debug output, refinements of the initial mesh are put out at time zero, and each empties
    the table: of any number of them only the last is left *)
Theorem C119_debug_refuted : forall (P B : Type) (st : @settings P B) dim ops grains before e s, usable st dim -> s_debug st = true ->
  (forall x, In x (before ++ [e]) -> good st dim x /\ steady "refinement" ops grains x /\ e_label x = "refinement"%string /\ (e_time x == 0)%Q) -> counters s "refinement"%string = 0 ->
  exists s' r, outputs st s (before ++ [e]) = Some s' /\ files s' "refinement"%string = [Header (columns st dim ops grains); Data r]
    /\ nth_error r 0 = Some (inject_Z (Z.of_nat (length before))).
Proof.
  intros P B st dim ops grains before e s U HD G C0.
  assert (X : exists sa, outputs st s before = Some sa /\ counters sa "refinement"%string = counters s "refinement"%string + length (labelled "refinement" before)).
  { assert (Gb : forall x, In x before -> good st dim x /\ e_label x = "refinement"%string) by (intros x Hx; destruct (G x) as [G1 [_ [G2 _]]]; [apply in_or_app; left; exact Hx | split; assumption]).
    clear - U HD Gb. revert s. induction before as [| x l IH]; intros s; [exists s; split; [reflexivity | cbn; lia] |].
    destruct (Gb x (or_introl eq_refl)) as [Gx Lx]. destruct (this_label st dim s x U Gx (or_introl HD)) as [s1 [r [E [C _]]]]. rewrite Lx in C.
    destruct (IH (fun y Hy => Gb y (or_intror Hy)) s1) as [s2 [E2 C2]]. exists s2. cbn [outputs]. rewrite E. split; [exact E2 |].
    cbn [labelled filter]. rewrite Lx. cbn [String.eqb Ascii.eqb Bool.eqb length]. fold (labelled "refinement" l). lia. }
  assert (LB : length (labelled "refinement" before) = length before).
  { clear - G. induction before as [| x l IH]; [reflexivity |]. cbn [labelled filter]. destruct (G x (or_introl eq_refl)) as [_ [_ [-> _]]].
    cbn [String.eqb Ascii.eqb Bool.eqb length]. f_equal. apply IH. intros y Hy. apply G. right. exact Hy. }
  destruct (G e) as [_ [_ [El T0]]]; [apply in_or_app; right; left; reflexivity |].
  destruct (run_reset st dim "refinement" ops grains before e [] s U (or_introl HD)) as [s' [rows [E [C [F [L1 L2]]]]]].
  { intros x Hx. destruct (G x Hx) as [G1 [G2 _]]. split; assumption. }
  { exact X. }
  { exact El. }
  { apply Qeq_bool_iff. exact T0. }
  { intros x []. }
  destruct (L2 0 e eq_refl) as [r [R [_ [_ [R0 _]]]]]. destruct rows as [| r' [| ? ?]]; try discriminate. injection R as ->. exists s', r. split; [exact E |]. split; [exact F |].
  rewrite R0, C0, LB, Nat.add_0_r. reflexivity.
Qed.
Print Assumptions C119_debug_refuted.
Example C119_debug_case : exists s' r, outputs (c119_st true) c119_start [c119_event "refinement" 0 true; c119_event "refinement" 0 true; c119_event "refinement" 0 true] = Some s'
  /\ files s' "refinement"%string = [Header c119_names; Data r] /\ firstn 1 r = [2%Q].
Proof. eexists. eexists. split; [vm_compute; reflexivity |]. vm_compute. repeat split. Qed.

(** A run started at time five writes its first line under the time zero *)
Theorem C119_start_refuted : exists e s' r, initial_output 5 5 1 (c119_event "solution" 5 true) = Some e
  /\ outputs (c119_st false) c119_start [e] = Some s' /\ files s' "solution"%string = [Header c119_names; Data r] /\ nth_error r 1 = Some 0%Q.
Proof. eexists. eexists. eexists. split; [reflexivity |]. split; [vm_compute; reflexivity |]. vm_compute. repeat split. Qed.
Print Assumptions C119_start_refuted.

(** Once the grain tracker has no grains the lines are shorter than the header, and values stand
    under names of other quantities *)
Theorem C119_vanish_refuted : exists s' r1 r2, outputs (c119_st false) c119_start [c119_event "solution" 0 true; c119_event "solution" 1 false] = Some s'
  /\ files s' "solution"%string = [Header c119_names; Data r1; Data r2] /\ length r1 = length c119_names /\ length r2 < length c119_names
  /\ nth_error c119_names 16 = Some "avg_coord_num"%string /\ nth_error r2 16 = Some 5%Q.
Proof. eexists. eexists. eexists. split; [vm_compute; reflexivity |]. vm_compute. repeat split; repeat constructor. Qed.
Print Assumptions C119_vanish_refuted.
