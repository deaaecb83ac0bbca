(** Properties of the density analysis of packings (C120). *)
From Coq Require Import QArith Qabs Qround ZArith.
From Coq Require Import List Arith Bool Lia Permutation Lqa.
From Verif Require Import Util ContactsModel ContactsProps DensificationModel.
Import ListNotations.
Local Open Scope nat_scope.

(** ** Which data are saved under which name *)

Definition filled (fd : folder) : bool := match fd_files fd with [] => false | _ => true end.
(** The rows of a folder, one for each of its tables of grains *)
Definition right_rows (fd : folder) (rows : list (list Q)) : Prop :=
  length rows = length (fd_files fd)
  /\ forall i f g, nth_error (fd_solution fd) i = Some f -> nth_error (fd_files fd) i = Some (Some g) ->
       exists density, nth_error rows i = Some [f_time f; f_dt f; g_grains g; f_solid f; g_hull g; density; g_cover g; g_med g; g_max g]
         /\ (~ (g_hull g == 0)%Q -> (density * g_hull g == f_solid f)%Q).

Lemma csv_rows_spec : forall fdata files junk idx i, nth_error (csv_rows fdata idx files junk) i =
  match nth_error files i with
  | None => None
  | Some file => Some (match nth_error fdata (idx + i), file with Some f, Some g => csv_row f g | _, _ => junk (idx + i) end)
  end.
Proof.
  intros fdata. induction files as [| file files IH]; intros junk idx i; [destruct i; reflexivity |].
  cbn [csv_rows]. destruct i as [| i]; cbn [nth_error]; [rewrite Nat.add_0_r; reflexivity |]. rewrite IH, <- Nat.add_succ_comm. reflexivity.
Qed.
Lemma csv_rows_length : forall fdata files junk idx, length (csv_rows fdata idx files junk) = length files.
Proof. intros fdata. induction files as [| f files IH]; intros junk idx; [reflexivity |]. cbn [csv_rows length]. rewrite IH. reflexivity. Qed.
Lemma csv_right : forall fd, right_rows fd (csv_rows (fd_solution fd) 0 (fd_files fd) (fd_junk fd)).
Proof.
  intros fd. split; [apply csv_rows_length |]. intros i f g Hf Hg. rewrite csv_rows_spec, Hg. cbn [Nat.add]. rewrite Hf.
  eexists. split; [reflexivity |]. intros N. field. exact N.
Qed.

(** The folders with tables get the names in order: the names of the folders with their number
    only if no folder before is empty *)
Theorem C120_saved : forall (Name : Type) folders (csv_names : list Name), length csv_names = length folders ->
  exists saved, save_folders folders csv_names = Some saved
    /\ length saved = length (filter filled folders)
    /\ forall i fd, nth_error (filter filled folders) i = Some fd ->
         exists n rows, nth_error csv_names i = Some n /\ nth_error saved i = Some (n, rows) /\ right_rows fd rows.
Proof.
  intros Name folders csv_names L.
  assert (G : forall folders csv_names, length (filter filled folders) <= length csv_names -> exists saved, save_folders folders csv_names = Some saved
    /\ length saved = length (filter filled folders)
    /\ forall i fd, nth_error (filter filled folders) i = Some fd ->
         exists n rows, nth_error csv_names i = Some n /\ nth_error saved i = Some (n : Name, rows) /\ right_rows fd rows).
  { clear. induction folders as [| fd folders IH]; intros names L.
    - exists []. split; [reflexivity |]. split; [reflexivity |]. intros [| i] fd E; discriminate.
    - cbn [save_folders filter] in *. destruct (fd_files fd) as [| f0 fs] eqn:EF.
      + assert (FF : filled fd = false) by (unfold filled; rewrite EF; reflexivity). rewrite FF in *. apply IH. exact L.
      + assert (FF : filled fd = true) by (unfold filled; rewrite EF; reflexivity). rewrite FF in *. destruct names as [| n names]; cbn [length] in L; [lia |]. destruct (IH names) as [saved [E [L2 H]]]; [lia |]. rewrite E. cbn [obind].
        eexists. split; [reflexivity |]. split; [cbn [length]; rewrite L2; reflexivity |]. intros [| i] fd' E'.
        * injection E' as <-. exists n. eexists. split; [reflexivity |]. split; [reflexivity |]. rewrite <- EF. apply csv_right.
        * cbn [nth_error] in *. apply H. exact E'. }
  apply G. rewrite L. clear. induction folders as [| x l IH]; cbn [filter length]; [lia | destruct (filled x); cbn [length]; lia].
Qed.
Print Assumptions C120_saved.

(** If every folder has tables, each folder is saved under its own name *)
Theorem C120_names : forall (Name : Type) folders (csv_names : list Name), length csv_names = length folders ->
  (forall fd, In fd folders -> fd_files fd <> []) ->
  exists saved, save_folders folders csv_names = Some saved /\ map fst saved = csv_names
    /\ forall i fd n rows, nth_error folders i = Some fd -> nth_error saved i = Some (n, rows) -> right_rows fd rows.
Proof.
  intros Name folders csv_names L NE. destruct (C120_saved Name folders csv_names L) as [saved [E [L2 H]]].
  assert (F : filter filled folders = folders).
  { clear - NE. induction folders as [| x l IH]; [reflexivity |]. cbn [filter]. unfold filled at 1. specialize (NE x (or_introl eq_refl)) as Nx. destruct (fd_files x); [congruence |].
    rewrite IH; [reflexivity |]. intros fd Hfd. apply NE. right. exact Hfd. }
  rewrite F in *. exists saved. split; [exact E |]. split.
  - assert (NX : forall i, nth_error (map fst saved) i = nth_error csv_names i).
    { intros i. destruct (nth_error folders i) as [fd |] eqn:Ef.
      - destruct (H i fd Ef) as [n [rows [H1 [H2 _]]]]. rewrite H1. apply (map_nth_error fst) in H2. exact H2.
      - apply nth_error_None in Ef. rewrite (proj2 (nth_error_None _ i)), (proj2 (nth_error_None csv_names i)); [reflexivity | lia | rewrite map_length; lia]. }
    clear - NX. revert csv_names NX. induction (map fst saved) as [| x l IH]; intros [| y m] NX; [reflexivity | specialize (NX 0); discriminate NX | specialize (NX 0); discriminate NX |].
    pose proof (NX 0) as X. injection X as ->. f_equal. apply IH. intros i. apply (NX (S i)).
  - intros i fd n rows Hf Hs. destruct (H i fd Hf) as [n' [rows' [_ [H2 H3]]]]. rewrite Hs in H2. injection H2 as <- <-. exact H3.
Qed.
Print Assumptions C120_names.

(** A folder without tables does not take its name off the list, so the next folder is saved
    under it, and the last name is not used *)
Theorem C120_names_refuted : forall (Name : Type) (n1 n2 : Name) fd1 fd2, fd_files fd1 = [] -> fd_files fd2 <> [] ->
  exists rows, save_folders [fd1; fd2] [n1; n2] = Some [(n1, rows)] /\ right_rows fd2 rows.
Proof.
  intros Name n1 n2 fd1 fd2 E NE. cbn [save_folders]. rewrite E. destruct (fd_files fd2) as [| f fs] eqn:E2; [congruence |].
  eexists. split; [reflexivity |]. rewrite <- E2. apply csv_right.
Qed.
Print Assumptions C120_names_refuted.

(** A table that is skipped leaves its row as it was in memory, and the row is saved *)
Theorem C120_skipped_refuted : forall fdata files junk i file, nth_error files i = Some file -> (file = None \/ length fdata <= i) ->
  nth_error (csv_rows fdata 0 files junk) i = Some (junk i).
Proof.
  intros fdata files junk i file Hf H. rewrite csv_rows_spec, Hf. cbn [Nat.add]. destruct H as [-> | H].
  - destruct (nth_error fdata i); reflexivity.
  - apply nth_error_None in H. rewrite H. reflexivity.
Qed.
Print Assumptions C120_skipped_refuted.
Definition c120_data : grain_data := mkData 3 10 (1 # 2) 2 2.
Example C120_saved_case : save_folders [mkFolder [mkSol 0 1 5] [Some c120_data; None] (fun i => [inject_Z (Z.of_nat i)]); mkFolder [] [] (fun _ => []); mkFolder [mkSol 1 1 6] [Some c120_data] (fun _ => [])] [10; 11; 12]
  = Some [(10%nat, [[0; 1; 3; 5; 10; 5 / 10; 1 # 2; 2; 2]; [1]]); (11%nat, [[1; 1; 3; 6; 10; 6 / 10; 1 # 2; 2; 2]])]%Q.
Proof. vm_compute. reflexivity. Qed.

(** ** The grid of sample points *)
Lemma py_round_ge : forall n q, (inject_Z n <= q)%Q -> (n <= py_round q)%Z.
Proof.
  intros n q H. assert (F : (n <= Qfloor q)%Z) by (rewrite <- (Qfloor_Z n); apply Qfloor_resp_le; exact H).
  unfold py_round. destruct (qltb _ _); [exact F |]. destruct (qltb _ _); [lia |]. destruct (Z.even _); lia.
Qed.
Lemma arange_spec : forall start stop step, (0 < step)%Q ->
  (forall k, k < length (arange start stop step) <-> (start + inject_Z (Z.of_nat k) * step < stop)%Q)
  /\ forall k, k < length (arange start stop step) -> nth k (arange start stop step) 0%Q = (start + inject_Z (Z.of_nat k) * step)%Q.
Proof.
  intros start stop step H. unfold arange. rewrite map_length, seq_length. split.
  - intros k. assert (D : ((stop - start) / step * step == stop - start)%Q) by (field; intros X; rewrite X in H; apply Qlt_irrefl in H; exact H).
    set (x := ((stop - start) / step)%Q) in *. split; intros K.
    + assert (K' : (Z.of_nat k <= Qceiling x - 1)%Z) by lia. rewrite Zle_Qle in K'. pose proof (Qceiling_lt x) as C.
      assert (X : (inject_Z (Z.of_nat k) < x)%Q) by (eapply Qle_lt_trans; [exact K' | exact C]).
      apply (Qmult_lt_r _ _ _ H) in X. lra.
    + assert (X : (inject_Z (Z.of_nat k) < x)%Q) by (apply (Qmult_lt_r _ _ _ H); lra).
      assert (C : (inject_Z (Z.of_nat k) < inject_Z (Qceiling x))%Q) by (eapply Qlt_le_trans; [exact X | apply Qle_ceiling]). rewrite <- Zlt_Qlt in C. lia.
  - intros k K. set (f := fun k => (start + inject_Z (Z.of_nat k) * step)%Q). rewrite (nth_indep _ 0%Q (f 0)) by (rewrite map_length, seq_length; exact K).
    rewrite map_nth, seq_nth by exact K. reflexivity.
Qed.
Lemma min_list_spec : forall l, l <> [] -> exists m, min_list l = Some m /\ In m l /\ forall x, In x l -> (m <= x)%Q.
Proof.
  induction l as [| x l IH]; intros H; [congruence |]. cbn [min_list]. destruct l as [| y l].
  - exists x. split; [reflexivity |]. split; [left; reflexivity |]. intros z [<- | []]. apply Qle_refl.
  - destruct IH as [m [E [I M]]]; [discriminate |]. rewrite E. eexists. split; [reflexivity |]. destruct (Qle_bool x m) eqn:B.
    + apply Qle_bool_iff in B. split; [left; reflexivity |]. intros z [<- | Hz]; [apply Qle_refl | apply (Qle_trans _ m); [exact B | apply M, Hz]].
    + split; [right; exact I |]. intros z [<- | Hz]; [| apply M, Hz]. destruct (Qlt_le_dec m x) as [L | L]; [apply Qlt_le_weak; exact L |]. apply Qle_bool_iff in L. congruence.
Qed.
Lemma first_equal_spec : forall m l, In m l -> exists i x, first_equal m l = Some i /\ nth_error l i = Some x /\ (x == m)%Q.
Proof.
  intros m. induction l as [| y l IH]; intros H; [destruct H |]. cbn [first_equal]. destruct (Qeq_bool y m) eqn:B.
  - exists 0, y. split; [reflexivity |]. split; [reflexivity | apply Qeq_bool_iff; exact B].
  - destruct H as [-> | H]; [rewrite (proj2 (Qeq_bool_iff m m) (Qeq_refl m)) in B; discriminate |]. destruct (IH H) as [i [x [E [N X]]]]. exists (S i), x. rewrite E. split; [reflexivity | split; assumption].
Qed.

(** The points of one direction with edges [b] and [t]: equal steps that divide the edge into at
    least [grid] parts, from [b] up to less than a ten thousandth of [t] beyond [t] *)
Definition right_range (grid : nat) (b t : Q) (r : list Q) : Prop :=
  exists splits h, (Z.of_nat grid <= Z.of_nat splits)%Z /\ (0 < h)%Q /\ (inject_Z (Z.of_nat splits) * h == t - b)%Q
    /\ (forall k, k < length r <-> (b + inject_Z (Z.of_nat k) * h < (10001 # 10000) * t)%Q)
    /\ forall k, k < length r -> (nth k r 0 == b + inject_Z (Z.of_nat k) * h)%Q.

Theorem C120_grid : forall grid box, 0 < grid -> box <> [] -> (forall b t, In (b, t) box -> (b < t)%Q) ->
  exists ranges, make_grid grid box = Some ranges /\ length ranges = length box
    /\ forall i b t, nth_error box i = Some (b, t) -> exists r, nth_error ranges i = Some r /\ right_range grid b t r.
Proof.
  intros grid box Hg NE P. unfold make_grid. set (sizes := map (fun bt => snd bt - fst bt)%Q box).
  destruct (min_list_spec sizes) as [m [Em [Im Mm]]]; [unfold sizes; destruct box; [congruence | discriminate] |]. rewrite Em. cbn [obind].
  destruct (first_equal_spec m sizes Im) as [ref [x [Er [Nr Xr]]]]. rewrite Er. cbn [obind].
  assert (Pm : (0 < m)%Q). { unfold sizes in Im. apply in_map_iff in Im. destruct Im as [[b t] [<- I]]. specialize (P b t I). cbn [fst snd]. lra. }
  assert (Pg : (0 < inject_Z (Z.of_nat grid))%Q) by (unfold Qlt; cbn; lia).
  assert (G : forall box i0, (forall j b t, nth_error box j = Some (b, t) -> (m <= t - b)%Q /\ (i0 + j = ref -> (t - b == m)%Q)) ->
    exists ranges, grid_ranges grid m ref i0 box = Some ranges /\ length ranges = length box
      /\ forall i b t, nth_error box i = Some (b, t) -> exists r, nth_error ranges i = Some r /\ right_range grid b t r).
  { clear - Hg Pm Pg. induction box as [| [b t] box IH]; intros i0 H.
    - exists []. split; [reflexivity |]. split; [reflexivity |]. intros [| i] b t E; discriminate.
    - destruct (IH (S i0)) as [ranges [E [L R]]].
      { intros j b' t' E. destruct (H (S j) b' t' E) as [H1 H2]. split; [exact H1 |]. intros X. apply H2. lia. }
      destruct (H 0 b t eq_refl) as [H1 H2]. rewrite Nat.add_0_r in H2. cbn [grid_ranges].
      assert (C : exists splits h, cell_size grid m ref i0 (t - b)%Q = Some (Z.of_nat splits, h) /\ (Z.of_nat grid <= Z.of_nat splits)%Z /\ (0 < h)%Q /\ (inject_Z (Z.of_nat splits) * h == t - b)%Q).
      { unfold cell_size. destruct (Qeq_bool m 0) eqn:B; [apply Qeq_bool_iff in B; rewrite B in Pm; apply Qlt_irrefl in Pm; destruct Pm |].
        destruct (Nat.eqb_spec i0 ref) as [Er | Nr].
        - exists grid. eexists. split; [reflexivity |]. split; [lia |]. split; [apply Qlt_shift_div_l; [exact Pg | lra] |]. rewrite (H2 Er). field. intros X. rewrite X in Pg. apply Qlt_irrefl in Pg. exact Pg.
        - set (q := ((t - b) / (m / inject_Z (Z.of_nat grid)))%Q).
          assert (Q1 : (inject_Z (Z.of_nat grid) <= q)%Q).
          { unfold q. apply Qle_shift_div_l; [apply Qlt_shift_div_l; [exact Pg | lra] |].
            setoid_replace (inject_Z (Z.of_nat grid) * (m / inject_Z (Z.of_nat grid)))%Q with m; [exact H1 |]. field. intros X. rewrite X in Pg. apply Qlt_irrefl in Pg. exact Pg. }
          apply py_round_ge in Q1. destruct (Z.eqb_spec (py_round q) 0) as [Z0 | Z0]; [lia |].
          assert (PS : (0 < inject_Z (py_round q))%Q) by (unfold Qlt; cbn; lia).
          exists (Z.to_nat (py_round q)). eexists. rewrite Z2Nat.id by lia. split; [reflexivity |]. split; [exact Q1 |]. split; [apply Qlt_shift_div_l; [exact PS | lra] |].
          field. intros X. rewrite X in PS. apply Qlt_irrefl in PS. exact PS. }
      destruct C as [splits [h [Ec [C1 [C2 C3]]]]]. rewrite Ec. cbn [obind]. rewrite E. cbn [obind snd]. eexists. split; [reflexivity |]. split; [cbn [length]; rewrite L; reflexivity |].
      intros [| i] b' t' En.
      + injection En as <- <-. eexists. split; [reflexivity |]. destruct (arange_spec b ((10001 # 10000) * t)%Q h C2) as [A1 A2].
        exists splits, h. split; [exact C1 |]. split; [exact C2 |]. split; [exact C3 |]. split; [exact A1 |]. intros k K. rewrite (A2 k K). reflexivity.
      + cbn [nth_error] in *. apply R. exact En. }
  apply G. intros j b t E. assert (Es : nth_error sizes j = Some (t - b)%Q) by (unfold sizes; rewrite (map_nth_error _ _ _ E); reflexivity).
  split; [apply Mm, (nth_error_In _ _ Es) |]. cbn [Nat.add]. intros ->. rewrite Nr in Es. injection Es as ->. exact Xr.
Qed.
Print Assumptions C120_grid.

(** With a positive upper edge both edges carry points; otherwise the last layer is missing *)
Theorem C120_ends : forall grid b t r, right_range grid b t r -> (b < t)%Q ->
  ((0 < t)%Q -> (exists x, nth_error r 0 = Some x /\ (x == b)%Q) /\ exists k x, nth_error r k = Some x /\ (x == t)%Q)
  /\ ((t <= 0)%Q -> forall x, In x r -> (x < t)%Q).
Proof.
  intros grid b t r [splits [h [S1 [S2 [S3 [R1 R2]]]]]] BT. split.
  - intros Pt. split.
    + assert (K : 0 < length r). { apply R1. change (inject_Z (Z.of_nat 0)) with 0%Q. lra. }
      exists (nth 0 r 0%Q). split; [apply nth_error_nth'; exact K |]. rewrite (R2 0 K). change (inject_Z (Z.of_nat 0)) with 0%Q. lra.
    + assert (K : splits < length r). { apply R1. lra. }
      exists splits, (nth splits r 0%Q). split; [apply nth_error_nth'; exact K |]. rewrite (R2 splits K). lra.
  - intros Nt x Hx. apply (In_nth _ _ 0%Q) in Hx. destruct Hx as [k [K <-]]. rewrite (R2 k K). apply R1 in K.
    assert (L : ((10001 # 10000) * t <= t)%Q) by lra. apply (Qlt_le_trans _ _ _ K L).
Qed.
Print Assumptions C120_ends.
Theorem C120_ends_refuted : exists r, make_grid 2 [((- (4))%Q, (- (2))%Q); (0%Q, 4%Q)] = Some r
  /\ map (map Qred) r = [[- (4); - (3)]; [0; 1; 2; 3; 4]]%Q.
Proof. eexists. split; [reflexivity |]. vm_compute. reflexivity. Qed.
Print Assumptions C120_ends_refuted.
Example C120_grid_case : option_map (map (map Qred)) (make_grid 2 [(1%Q, 3%Q); (0%Q, (7 # 2)%Q)]) = Some [[1; 2; 3]; [0; 7 # 8; 7 # 4; 21 # 8; 7 # 2]]%Q.
Proof. vm_compute. reflexivity. Qed.
(** All grains on one line along an axis *)
Example C120_flat : make_grid 50 [(1%Q, 1%Q); (0%Q, 5%Q)] = None.
Proof. reflexivity. Qed.

(** ** The covered part is the number of points in at least one grain over the number of points
    in the hull *)
Section Cover.
Context {Point : Type}.
Variables (near : Point -> Point -> Q -> bool) (query : list Point -> Point -> Q -> list nat).
Definition query_right : Prop := forall points c r i, In i (query points c r) <-> exists p, nth_error points i = Some p /\ near p c r = true.

Lemma set_one_length : forall l p, length (set_one l p) = length l.
Proof. induction l as [| x l IH]; intros [| p]; cbn [set_one length]; try reflexivity. rewrite IH. reflexivity. Qed.
Lemma set_one_nth : forall l p i, i < length l -> nth i (set_one l p) 0 = if i =? p then 1 else nth i l 0.
Proof.
  induction l as [| x l IH]; intros p i H; cbn [length] in H; [lia |]. destruct p as [| p], i as [| i]; cbn [set_one nth Nat.eqb]; try reflexivity. apply IH. lia.
Qed.
Lemma set_many : forall ps l, length (fold_left set_one ps l) = length l
  /\ forall i, i < length l -> nth i (fold_left set_one ps l) 0 = if existsb (Nat.eqb i) ps then 1 else nth i l 0.
Proof.
  induction ps as [| p ps IH]; intros l; [split; [reflexivity | intros; reflexivity] |]. cbn [fold_left existsb]. destruct (IH (set_one l p)) as [I1 I2].
  rewrite set_one_length in I1, I2. split; [exact I1 |]. intros i Hi. rewrite (I2 i Hi), set_one_nth by exact Hi. destruct (i =? p), (existsb (Nat.eqb i) ps); reflexivity.
Qed.
Lemma set_all : forall cs l, length (fold_left (fun acc cvr => fold_left set_one cvr acc) cs l) = length l
  /\ forall i, i < length l -> nth i (fold_left (fun acc cvr => fold_left set_one cvr acc) cs l) 0 = if existsb (existsb (Nat.eqb i)) cs then 1 else nth i l 0.
Proof.
  induction cs as [| c cs IH]; intros l; [split; [reflexivity | intros; reflexivity] |]. cbn [fold_left existsb]. destruct (IH (fold_left set_one c l)) as [I1 I2], (set_many c l) as [J1 J2].
  rewrite J1 in I1, I2. split; [exact I1 |]. intros i Hi. rewrite (I2 i Hi), (J2 i Hi). destruct (existsb (Nat.eqb i) c), (existsb (existsb (Nat.eqb i)) cs); reflexivity.
Qed.
Lemma ones_count : forall {A} (f : A -> bool) l, list_sum (map (fun x => if f x then 1 else 0) l) = length (filter f l).
Proof. intros A f. induction l as [| x l IH]; [reflexivity |]. cbn [map list_sum fold_right filter] in *. unfold list_sum in IH. rewrite IH. destruct (f x); reflexivity. Qed.

Theorem C120_cover : forall (inside : Point -> bool) points grains radii, query_right ->
  (forall p, In p points -> inside p = false) /\ ratio_covered inside query points grains radii = None
  \/ exists v, ratio_covered inside query points grains radii = Some v /\ (0 <= v <= 1)%Q
       /\ (v * inject_Z (Z.of_nat (length (filter inside points)))
           == inject_Z (Z.of_nat (length (filter (fun p => inside p && existsb (fun gr => near p (fst gr) (snd gr)) (combine grains radii)) points))))%Q.
Proof.
  intros inside points grains radii QR. unfold ratio_covered. set (mc := filter inside points).
  destruct (Nat.eqb_spec (length mc) 0) as [Z0 | NZ].
  - left. split; [| reflexivity]. intros p Hp. destruct (inside p) eqn:E; [| reflexivity]. assert (I : In p mc) by (apply filter_In; split; assumption). destruct mc; [destruct I | discriminate].
  - right. set (cov := map (fun gr => query mc (fst gr) (snd gr)) (combine grains radii)). destruct (set_all cov (repeat 0 (length mc))) as [L N]. rewrite repeat_length in L, N.
    set (f := fun p => existsb (fun gr => near p (fst gr) (snd gr)) (combine grains radii)).
    assert (EQ : fold_left (fun acc cvr => fold_left set_one cvr acc) cov (repeat 0 (length mc)) = map (fun p => if f p then 1 else 0) mc).
    { apply (nth_ext _ _ 0 0); [rewrite L, map_length; reflexivity |]. intros i Hi. rewrite L in Hi. rewrite (N i Hi), nth_repeat.
      destruct (nth_error mc i) as [p |] eqn:Ep; [| apply nth_error_None in Ep; lia].
      rewrite (nth_error_nth (map (fun p => if f p then 1 else 0) mc) i 0 (map_nth_error (fun p => if f p then 1 else 0) i mc Ep)).
      replace (existsb (existsb (Nat.eqb i)) cov) with (f p); [reflexivity |]. unfold f, cov. apply eq_iff_eq_true. rewrite !existsb_exists. split.
      - intros [gr [I1 I2]]. exists (query mc (fst gr) (snd gr)). split; [apply in_map_iff; exists gr; split; [reflexivity | exact I1] |]. apply existsb_exists. exists i. split; [| apply Nat.eqb_refl].
        apply QR. exists p. split; assumption.
      - intros [c [I1 I2]]. apply in_map_iff in I1. destruct I1 as [gr [<- I1]]. apply existsb_exists in I2. destruct I2 as [j [I2 I3]]. apply Nat.eqb_eq in I3. subst j.
        apply QR in I2. destruct I2 as [p' [E1 E2]]. rewrite Ep in E1. injection E1 as <-. exists gr. split; assumption. }
    rewrite EQ, ones_count. assert (FI : filter f mc = filter (fun p => inside p && existsb (fun gr => near p (fst gr) (snd gr)) (combine grains radii)) points).
    { change (filter f mc = filter (fun p => inside p && f p) points). unfold mc. clear. induction points as [| x l IH]; [reflexivity |]. cbn [filter]. destruct (inside x); cbn [andb]; [cbn [filter]; rewrite IH; reflexivity | exact IH]. }
    assert (LE : length (filter f mc) <= length mc) by (clear; induction mc as [| x l IH]; cbn [filter length]; [lia | destruct (f x); cbn [length]; lia]).
    assert (PN : (0 < inject_Z (Z.of_nat (length mc)))%Q) by (unfold Qlt; cbn; lia).
    eexists. split; [reflexivity |]. rewrite <- FI. split.
    + split; [apply Qle_shift_div_l; [exact PN |]; rewrite Qmult_0_l; change 0%Q with (inject_Z 0); rewrite <- Zle_Qle; lia | apply Qle_shift_div_r; [exact PN |]; rewrite Qmult_1_l, <- Zle_Qle; lia].
    + field. intros X. rewrite X in PN. apply Qlt_irrefl in PN. exact PN.
Qed.
End Cover.
Print Assumptions C120_cover.
(** Points on a line, two overlapping grains *)
Definition c120_near (p c : Q) (r : Q) : bool := Qle_bool (Qabs (p - c)) r.
Definition c120_query (points : list Q) (c r : Q) : list nat := filter (fun i => match nth_error points i with Some p => c120_near p c r | None => false end) (seq 0 (length points)).
Example C120_query : query_right c120_near c120_query.
Proof.
  intros points c r i. unfold c120_query. rewrite filter_In, in_seq. split.
  - intros [_ H]. destruct (nth_error points i) as [p |]; [exists p; split; [reflexivity | exact H] | discriminate].
  - intros [p [E H]]. rewrite E. split; [| exact H]. split; [lia |]. cbn [Nat.add]. apply nth_error_Some. congruence.
Qed.
Example C120_cover_case : option_map Qred (ratio_covered (fun p => Qle_bool p 9) c120_query [0; 1; 2; 3; 4; 5; 6; 7; 8; 9; 10; 11]%Q [1; 2]%Q [1; 1]%Q) = Some (2 # 5)%Q.
Proof. vm_compute. reflexivity. Qed.

(** ** The coordination number is the mean number of overlapping other grains *)
Section Degrees.
Variable R : nat -> nat -> bool.
Hypothesis sym : forall i j, R i j = R j i.
Definition b2n (b : bool) : nat := if b then 1 else 0.
Definition total (f : nat -> nat -> bool) (l m : list nat) : nat := list_sum (map (fun i => list_sum (map (fun j => b2n (f i j)) m)) l).
Lemma sum_add : forall {A} (f g : A -> nat) l, list_sum (map (fun x => f x + g x) l) = list_sum (map f l) + list_sum (map g l).
Proof. intros A f g. induction l as [| x l IH]; [reflexivity |]. cbn [map list_sum fold_right] in *. unfold list_sum in IH. lia. Qed.
Lemma total_swap : forall f l m, total f l m = total (fun j i => f i j) m l.
Proof.
  intros f. induction l as [| i l IH]; intros m; unfold total in *.
  - cbn [map list_sum fold_right]. induction m as [| j m IHm]; [reflexivity |]. cbn [map list_sum fold_right] in *. exact IHm.
  - cbn [map list_sum fold_right]. change (list_sum (map (fun j => b2n (f i j)) m) + list_sum (map (fun i => list_sum (map (fun j => b2n (f i j)) m)) l) = list_sum (map (fun j => b2n (f i j) + list_sum (map (fun i => b2n (f i j)) l)) m)).
    rewrite IH, sum_add. reflexivity.
Qed.
Lemma total_ext : forall f g l m, (forall i j, f i j = g i j) -> total f l m = total g l m.
Proof. intros f g l m H. unfold total. f_equal. apply map_ext. intros i. f_equal. apply map_ext. intros j. rewrite H. reflexivity. Qed.
Lemma total_prod : forall f l m, length (filter (fun p => f (fst p) (snd p)) (list_prod l m)) = total f l m.
Proof.
  intros f. induction l as [| i l IH]; intros m; [reflexivity |]. cbn [list_prod]. rewrite filter_app, app_length, IH. unfold total. cbn [map list_sum fold_right]. f_equal.
  clear. induction m as [| j m IH]; [reflexivity |]. cbn [map filter fst snd list_sum fold_right]. unfold list_sum in IH. rewrite <- IH. destruct (f i j); reflexivity.
Qed.
Lemma degrees : forall l, list_sum (map (fun i => length (filter (fun j => negb (j =? i) && R i j) l)) l) = 2 * length (filter (fun p => (fst p <? snd p) && R (fst p) (snd p)) (list_prod l l)).
Proof.
  intros l. rewrite (total_prod (fun i j => (i <? j) && R i j)).
  assert (S1 : total (fun i j => (i <? j) && R i j) l l = total (fun i j => (j <? i) && R i j) l l).
  { rewrite total_swap. apply total_ext. intros i j. rewrite (sym j i). reflexivity. }
  replace (2 * total (fun i j => (i <? j) && R i j) l l) with (total (fun i j => (i <? j) && R i j) l l + total (fun i j => (j <? i) && R i j) l l) by lia.
  unfold total. rewrite <- sum_add. f_equal. apply map_ext. intros i. rewrite <- sum_add. rewrite <- ones_count. f_equal. apply map_ext. intros j.
  destruct (Nat.ltb_spec i j), (Nat.ltb_spec j i), (Nat.eqb_spec j i), (R i j); cbn; lia.
Qed.
End Degrees.

Theorem C120_coordination : forall dist radii query argsort res, symmetric dist -> query_ok dist query -> argsort_ok argsort -> 2 <= length radii ->
  ends_gap dist radii query argsort = Some res ->
  let overlap i j := Qle_bool (dist i j) (nth i radii 0 + nth j radii 0)%Q in
  exists v, coordination res (length radii) = Some v
    /\ (v * inject_Z (Z.of_nat (length radii))
        == inject_Z (Z.of_nat (list_sum (map (fun i => length (filter (fun j => negb (j =? i) && overlap i j) (seq 0 (length radii)))) (seq 0 (length radii))))))%Q.
Proof.
  intros dist radii query argsort res SY QO AO N2 E overlap. destruct (C107_pairs dist radii query argsort SY QO AO N2) as [res' [E' [M _]]]. rewrite E in E'. injection E' as <-.
  unfold coordination. destruct (Nat.eqb_spec (length radii) 0); [lia |]. eexists. split; [reflexivity |].
  assert (OS : forall i j, overlap i j = overlap j i).
  { intros i j. unfold overlap. apply eq_iff_eq_true. rewrite !Qle_bool_iff. assert (D : (dist i j == dist j i)%Q) by apply SY. split; intros H; [rewrite <- D | rewrite D]; rewrite (Qplus_comm (nth _ _ _)); exact H. }
  rewrite (degrees overlap OS).
  assert (LL : length res = length (filter (fun p => (fst p <? snd p) && overlap (fst p) (snd p)) (list_prod (seq 0 (length radii)) (seq 0 (length radii))))) by (rewrite <- (map_length snd res), M; reflexivity).
  rewrite <- LL.
  assert (PN : ~ (inject_Z (Z.of_nat (length radii)) == 0)%Q) by (unfold Qeq; cbn; lia). field. exact PN.
Qed.
Print Assumptions C120_coordination.
Example C120_coordination_case : let dist i j := Qabs (nth i [0; 9; 2; 5; 20]%Q 0 - nth j [0; 9; 2; 5; 20]%Q 0)%Q in
  option_map Qred (match ends_gap dist [1; 2; 3; 2; 1]%Q (query_ex dist) argsort_ex with Some res => coordination res 5 | None => None end) = Some (6 # 5)%Q.
Proof. vm_compute. reflexivity. Qed.
