(** C96: what a restart point holds is found again.  See CheckpointModel.v. *)
From Coq Require Import List Arith NArith Bool Lia.
From Verif Require Import CheckpointModel.
Import ListNotations.
Local Open Scope nat_scope.

(** ** The head of the driver file *)
Lemma u32_roundtrip : forall n rest, (n < 2 ^ 32)%N -> get_u32 (put_u32 n ++ rest) = Some (n, rest).
Proof.
  intros n rest H. unfold put_u32. cbn [app get_u32]. do 2 f_equal.
  assert (A := N.div_mod n 256 ltac:(lia)). assert (B := N.div_mod (n / 256) 256 ltac:(lia)).
  assert (C := N.div_mod (n / 65536) 256 ltac:(lia)).
  rewrite N.div_div in B by lia. change (256 * 256)%N with 65536%N in B.
  rewrite N.div_div in C by lia. change (65536 * 256)%N with 16777216%N in C.
  assert (D : (n / 16777216 < 256)%N) by (apply N.div_lt_upper_bound; lia).
  rewrite (N.mod_small (n / 16777216)) by exact D. lia.
Qed.

Theorem C96_header : forall h rest,
  (h_ranks h < 2 ^ 32)%N -> (h_components h < 2 ^ 32)%N -> (h_blocks h < 2 ^ 32)%N -> (h_total h < 2 ^ 32)%N ->
  read_header (write_header h ++ rest) = Some (h, rest) /\ length (write_header h) = 18.
Proof.
  intros [fl fu r c b t] rest Hr Hc Hb Ht. cbn [h_ranks h_components h_blocks h_total] in *. split; [| reflexivity].
  unfold read_header, write_header. cbn [h_flexible h_full h_ranks h_components h_blocks h_total].
  rewrite <- !app_assoc. unfold put_bool at 1. cbn [app get_bool]. unfold put_bool at 1. cbn [app get_bool].
  rewrite !u32_roundtrip by assumption. destruct fl, fu; reflexivity.
Qed.
Print Assumptions C96_header.

(** ** The history *)
Section History.
Variable V : Type.
Notation vector := (vector V).

Lemma update_nth : forall (A : Type) (l : list A) i x j, nth_error (update l i x) j = if Nat.eqb j i then match nth_error l i with Some _ => Some x | None => None end else nth_error l j.
Proof.
  intros A. induction l as [| y l IH]; intros i x j; cbn [update].
  - destruct i, j; cbn [nth_error]; try reflexivity; destruct (Nat.eqb _ _); reflexivity.
  - destruct i as [| i], j as [| j]; cbn [update nth_error Nat.eqb]; try reflexivity. apply IH.
Qed.
Lemma update_length : forall (A : Type) (l : list A) i x, length (update l i x) = length l.
Proof. intros A. induction l as [| y l IH]; intros [| i] x; cbn [update length]; try reflexivity. rewrite IH. reflexivity. Qed.

Lemma commit_loop_length : forall i (h : list vector), length (commit_loop V i h) = length h.
Proof.
  induction i as [| i IH]; intros h; cbn [commit_loop]; [reflexivity |]. destruct (nth_error h (S i)); [| reflexivity].
  rewrite IH, !update_length. reflexivity.
Qed.

Lemma commit_loop_nth : forall i (h : list vector) j, i + 1 < length h ->
  nth_error (commit_loop V i h) j =
    if Nat.leb 2 j && Nat.leb j (i + 1) then option_map (with_ghosts V true) (nth_error h (j - 1))
    else if Nat.eqb j 1 && Nat.leb 1 i then option_map (with_ghosts V false) (nth_error h 1)
    else nth_error h j.
Proof.
  induction i as [| i IH]; intros h j Hl; cbn [commit_loop].
  - rewrite andb_false_r. destruct (Nat.leb_spec 2 j), (Nat.leb_spec j (0 + 1)); cbn [andb]; try reflexivity; lia.
  - destruct (nth_error h (S i)) as [v |] eqn:E; [| apply nth_error_None in E; lia].
    rewrite IH by (rewrite !update_length; lia). rewrite !update_nth.
    destruct (nth_error h (S i + 1)) as [w |] eqn:E2; [| apply nth_error_None in E2; lia].
    destruct (Nat.leb_spec 2 j), (Nat.leb_spec j (i + 1)), (Nat.leb_spec j (S i + 1)), (Nat.eqb_spec j 1), (Nat.leb_spec 1 i), (Nat.leb_spec 1 (S i));
      cbn [andb]; try lia;
      repeat match goal with |- context [Nat.eqb ?a ?b] => destruct (Nat.eqb_spec a b); try lia end; subst; try reflexivity;
      rewrite ?E; try reflexivity.
    all: try (replace (j - 1) with (S i) by lia; rewrite E; reflexivity).
    all: try (rewrite E; reflexivity).
    all: try (replace i with 0 in * by lia; cbn [nth_error] in *; rewrite E; reflexivity).
  all: try (replace (S i + 1 - 1) with (S i) by lia; rewrite E; reflexivity).
Qed.

Lemma nth_ext_error : forall (A : Type) (l m : list A), (forall j, nth_error l j = nth_error m j) -> l = m.
Proof.
  intros A. induction l as [| x l IH]; intros [| y m] H; [reflexivity | specialize (H 0); discriminate | specialize (H 0); discriminate |].
  assert (E := H 0). injection E as ->. f_equal. apply IH. intros j. apply (H (S j)).
Qed.

(** All but the recent old solution after [commit_old_solutions]: the current one and, with
    ghost values, all old ones but the last. *)
Lemma commit_shape : forall (v o : vector) olds,
  except_recent V (commit_old_solutions V (v :: o :: olds)) = v :: map (with_ghosts V true) (removelast (o :: olds)).
Proof.
  intros v o olds. unfold commit_old_solutions. set (h := v :: o :: olds).
  assert (L : length h = S (S (length olds))) by reflexivity.
  assert (Hn : forall j, nth_error (commit_loop V (length h - 2) h) j = _) by (intros j; apply commit_loop_nth; lia).
  assert (L' := commit_loop_length (length h - 2) h). remember (commit_loop V (length h - 2) h) as h' eqn:Eh. clear Eh.
  destruct h' as [| v' [| o' olds']]; [cbn [length] in L'; lia | cbn [length] in L'; lia |]. cbn [except_recent].
  f_equal.
  - specialize (Hn 0). cbn [nth_error Nat.leb Nat.eqb andb] in Hn. unfold h in Hn. cbn [nth_error] in Hn. congruence.
  - apply nth_ext_error. intros j. specialize (Hn (S (S j))). cbn [nth_error] in Hn. rewrite Hn. rewrite L.
    replace (Nat.leb 2 (S (S j))) with true by reflexivity. cbn [andb]. replace (Nat.eqb (S (S j)) 1) with false by reflexivity. cbn [andb].
    rewrite nth_error_map. replace (S (S (length olds)) - 2 + 1) with (S (length olds)) by lia.
    assert (R : forall (l : list vector) x k, nth_error (removelast (x :: l)) k = if Nat.ltb k (length l) then nth_error (x :: l) k else None).
    { clear. induction l as [| y l IH]; intros x k; [destruct k; reflexivity |].
      change (removelast (x :: y :: l)) with (x :: removelast (y :: l)). destruct k as [| k]; [reflexivity |].
      cbn [nth_error length]. rewrite IH. destruct (Nat.ltb_spec k (length l)), (Nat.ltb_spec (S k) (S (length l))); try lia; reflexivity. }
    rewrite R. destruct (Nat.leb_spec (S (S j)) (S (length olds))) as [H | H], (Nat.ltb_spec j (length olds)) as [H' | H']; try lia.
    + unfold h. replace (S (S j) - 1) with (S j) by lia. cbn [nth_error]. reflexivity.
    + apply nth_error_None. unfold h. cbn [length]. lia.
Qed.

Lemma all_blocks_snd : forall h : list vector, map snd (all_blocks V h) = flat_map (blocks V) h.
Proof.
  induction h as [| v h IH]; [reflexivity |]. unfold all_blocks in *. cbn [flat_map]. rewrite map_app, map_map, IH. cbn [snd]. rewrite map_id. reflexivity.
Qed.
Lemma all_blocks_ghosts : forall h : list vector, Forall (fun v => ghosted V v = true) h -> Forall (fun b => fst b = true) (all_blocks V h).
Proof.
  intros h H. unfold all_blocks. apply Forall_forall. intros b Hb. apply in_flat_map in Hb. destruct Hb as [v [Hv Hb]].
  apply in_map_iff in Hb. destruct Hb as [f [<- _]]. cbn [fst]. rewrite Forall_forall in H. apply H. exact Hv.
Qed.
Lemma with_ghosts_blocks : forall g (l : list vector), flat_map (blocks V) (map (with_ghosts V g) l) = flat_map (blocks V) l.
Proof. intros g. induction l as [| v l IH]; [reflexivity |]. cbn [map flat_map]. rewrite IH. reflexivity. Qed.

(** what should be restored: the current solution and all old ones that are still needed *)
Definition wanted (full : bool) (h : list vector) : list (nat -> V) :=
  match h with [] => [] | v :: olds => blocks V v ++ if full then flat_map (blocks V) (removelast olds) else [] end.

Lemma to_save_spec : forall flexible full (v o : vector) olds,
  map snd (to_save V flexible full (commit_old_solutions V (v :: o :: olds))) = wanted full (v :: o :: olds)
  /\ (flexible = true -> Forall (fun b => fst b = true) (to_save V flexible full (commit_old_solutions V (v :: o :: olds)))).
Proof.
  intros flexible full v o olds. assert (Sh := commit_shape v o olds).
  assert (L' := commit_loop_length (length (v :: o :: olds) - 2) (v :: o :: olds)).
  unfold commit_old_solutions in *. destruct (commit_loop V _ _) as [| v' [| o' olds']]; [cbn [length] in L'; lia | cbn [length] in L'; lia |].
  cbn [except_recent] in Sh. injection Sh as -> So. unfold to_save, wanted. cbn [except_recent]. rewrite So. split.
  - destruct full.
    + rewrite all_blocks_snd. cbn [flat_map]. rewrite with_ghosts_blocks. destruct flexible; reflexivity.
    + rewrite all_blocks_snd. cbn [flat_map]. destruct flexible; reflexivity.
  - intros ->. assert (G : Forall (fun w => ghosted V w = true) (map (with_ghosts V true) (removelast (o :: olds)))).
    { apply Forall_forall. intros w Hw. apply in_map_iff in Hw. destruct Hw as [u [<- _]]. reflexivity. }
    destruct full; apply all_blocks_ghosts; constructor; [reflexivity | exact G | reflexivity | constructor].
Qed.
End History.

(** The number of saved vectors is the one the restart asks for (353-359), and each of them
    has ghost values if the output is flexible, for all orders and numbers of blocks. *)
Theorem C96_history : forall V order n_blocks (h : list (vector V)),
  length h = history_size order -> Forall (fun v => length (blocks V v) = n_blocks) h ->
  forall flexible,
  map snd (to_save V flexible true (commit_old_solutions V h)) = wanted V true h
  /\ length (to_save V flexible true (commit_old_solutions V h)) = Nat.max order 1 * n_blocks
  /\ (flexible = true -> Forall (fun b => fst b = true) (to_save V flexible true (commit_old_solutions V h))).
Proof.
  intros V order nb h L F flexible. unfold history_size in L.
  destruct h as [| v [| o olds]]; [cbn [length] in L; lia | cbn [length] in L; lia |].
  destruct (to_save_spec V flexible true v o olds) as [A B]. split; [exact A |]. split; [| exact B].
  rewrite <- (map_length snd), A. unfold wanted. rewrite app_length. inversion F as [| ? ? Fv Fr]; subst.
  assert (S1 : forall l : list (vector V), Forall (fun w => length (blocks V w) = length (blocks V v)) l ->
    length (flat_map (blocks V) l) = length l * length (blocks V v)).
  { induction l as [| w l IH]; intros H; [reflexivity |]. inversion H as [| ? ? Hw Hl]; subst. cbn [flat_map length]. rewrite app_length, IH, Hw by exact Hl. lia. }
  assert (R1 : forall (l : list (vector V)) x, length (removelast (x :: l)) = length l).
  { induction l as [| y l IH]; intros x; [reflexivity |]. change (removelast (x :: y :: l)) with (x :: removelast (y :: l)). cbn [length]. rewrite IH. reflexivity. }
  assert (R2 : forall (l : list (vector V)) x P, Forall P (x :: l) -> Forall P (removelast (x :: l))).
  { induction l as [| y l IH]; intros x P H; [constructor |]. change (removelast (x :: y :: l)) with (x :: removelast (y :: l)).
    inversion H; subst. constructor; [assumption |]. apply IH. assumption. }
  rewrite S1 by (apply R2; exact Fr). rewrite R1. cbn [length] in L. replace (Nat.max order 1) with (S (length olds)) by lia. lia.
Qed.
Print Assumptions C96_history.

(** ** Restart *)
Lemma detach_attach : forall V zero owner cell_rank from b, fst b = true ->
  forall d, detach V from (attach V zero owner cell_rank b) d = snd b d.
Proof. intros V zero owner cr from b G d. unfold detach, attach, seen. rewrite G, orb_true_r. reflexivity. Qed.

Lemma nth_error_firstn_lt : forall (A : Type) n (l : list A) j, j < n -> nth_error (firstn n l) j = nth_error l j.
Proof. intros A. induction n as [| n IH]; intros l j H; [lia |]. destruct l as [| x l]; [destruct j; reflexivity |]. destruct j as [| j]; [reflexivity |]. cbn. apply IH. lia. Qed.

Lemma nth_error_repeat_lt : forall (A : Type) (x : A) n j, j < n -> nth_error (repeat x n) j = Some x.
Proof. intros A x. induction n as [| n IH]; intros j H; [lia |]. destruct j as [| j]; [reflexivity |]. cbn. apply IH. lia. Qed.

(** Flexible files, any number of processes and any partition in both runs, any number of
    blocks waiting in the new run. *)
Theorem C96_flexible : forall V zero full ranks components owner cell_rank partition (v o : vector V) olds ranks' n_ptr from loaded repartitioned,
  exists l, restart V true false ranks' n_ptr from loaded repartitioned
              (save V zero true full ranks components owner cell_rank partition (commit_old_solutions V (v :: o :: olds))) = Some l
  /\ length l = n_ptr
  /\ forall b, b < n_ptr ->
       match nth_error (wanted V full (v :: o :: olds)) b with
       | Some x => exists f, nth_error l b = Some (Set_all V f) /\ forall d, f d = x d
       | None => nth_error l b = Some (Untouched V)
       end.
Proof.
  intros V zero full ranks comps owner cr partition v o olds ranks' n_ptr from loaded repart.
  destruct (to_save_spec V true full v o olds) as [A G]. specialize (G eq_refl).
  unfold save. set (ptr := to_save V true full (commit_old_solutions V (v :: o :: olds))) in *.
  unfold restart. cbn [s_header h_flexible h_ranks h_total s_attached negb andb]. rewrite Nnat.Nat2N.id.
  eexists. split; [reflexivity |]. split.
  - rewrite app_length, map_length, firstn_length, map_length, repeat_length. lia.
  - intros b Hb. rewrite <- A, nth_error_map. destruct (nth_error ptr b) as [p |] eqn:E; cbn [option_map].
    + assert (Hlen : b < length ptr) by (apply nth_error_Some; rewrite E; discriminate).
      exists (detach V from (attach V zero owner cr p)). split.
      * rewrite nth_error_app1 by (rewrite map_length, firstn_length, map_length; lia).
        rewrite nth_error_map, nth_error_firstn_lt by lia. rewrite nth_error_map, E. reflexivity.
      * apply detach_attach. rewrite Forall_forall in G. apply G. apply nth_error_In in E. exact E.
    + apply nth_error_None in E. rewrite nth_error_app2 by (rewrite map_length, firstn_length, map_length; lia).
      apply nth_error_repeat_lt. rewrite map_length, firstn_length, map_length. lia.
Qed.
Print Assumptions C96_flexible.

Section Chunks.
Variable V : Type.
Lemma combine_map : forall (f : nat -> V) l, combine l (map f l) = map (fun d => (d, f d)) l.
Proof. intros f. induction l as [| x l IH]; [reflexivity |]. cbn [map combine]. rewrite IH. reflexivity. Qed.
Lemma firstn_map_app : forall (f : nat -> V) l rest, firstn (length l) (map f l ++ rest) = map f l.
Proof. intros f. induction l as [| x l IH]; intros rest; [reflexivity |]. cbn [map length app firstn]. rewrite IH. reflexivity. Qed.
Lemma skipn_map_app : forall (f : nat -> V) l rest, skipn (length l) (map f l ++ rest) = rest.
Proof. intros f. induction l as [| x l IH]; intros rest; [reflexivity |]. cbn [map length app skipn]. apply IH. Qed.

Lemma take_blocks_chunk : forall owned bs rest,
  take_blocks V owned (length bs) (chunk V owned bs ++ rest) = (map (fun f => map (fun d => (d, f d)) owned) bs, rest).
Proof.
  intros owned. induction bs as [| f bs IH]; intros rest; [reflexivity |]. unfold chunk. cbn [flat_map length take_blocks map].
  rewrite <- app_assoc, skipn_map_app, firstn_map_app, combine_map. fold (chunk V owned bs). rewrite IH. reflexivity.
Qed.

Lemma take_ranks_file : forall bs b f partition rest, nth_error bs b = Some f ->
  take_ranks V partition (length bs) b (vectors_file V partition bs ++ rest) = map (fun d => (d, f d)) (concat partition).
Proof.
  intros bs b f partition rest E. induction partition as [| owned partition IH]; [reflexivity |].
  unfold vectors_file. cbn [flat_map take_ranks concat]. rewrite <- app_assoc, take_blocks_chunk. cbn [fst snd].
  fold (vectors_file V partition bs). rewrite IH, map_app. f_equal.
  apply nth_error_nth. rewrite nth_error_map, E. reflexivity.
Qed.
End Chunks.

(** Files for the same number of processes, restarted with the same option: if the
    repartitioning finds the partition of the saving run and at least as many blocks are
    waiting as were saved, every owned entry of every saved block is set to its value. *)
Theorem C96_inflexible : forall V zero full ranks components owner cell_rank partition (v o : vector V) olds n_ptr from loaded,
  length (wanted V full (v :: o :: olds)) <= n_ptr ->
  exists l, restart V false false ranks n_ptr from loaded partition
              (save V zero false full ranks components owner cell_rank partition (commit_old_solutions V (v :: o :: olds))) = Some l
  /\ length l = n_ptr
  /\ forall b, b < n_ptr ->
       nth_error l b = Some (match nth_error (wanted V full (v :: o :: olds)) b with
                             | Some x => Set_entries V (map (fun d => (d, x d)) (concat partition))
                             | None => Untouched V
                             end).
Proof.
  intros V zero full ranks comps owner cr partition v o olds n_ptr from loaded Hn.
  destruct (to_save_spec V false full v o olds) as [A _].
  unfold save. set (ptr := to_save V false full (commit_old_solutions V (v :: o :: olds))) in *.
  assert (L : length ptr = length (wanted V full (v :: o :: olds))) by (rewrite <- A, map_length; reflexivity).
  unfold restart. cbn [s_header h_flexible h_ranks h_total s_vectors negb]. rewrite N.eqb_refl. cbn [negb andb]. rewrite Nnat.Nat2N.id, A.
  rewrite Nat.min_l by lia. eexists. split; [reflexivity |]. split.
  - rewrite app_length, map_length, seq_length, repeat_length. lia.
  - intros b Hb. destruct (nth_error (wanted V full (v :: o :: olds)) b) as [x |] eqn:E.
    + assert (Hlen : b < length (wanted V full (v :: o :: olds))) by (apply nth_error_Some; rewrite E; discriminate).
      rewrite nth_error_app1 by (rewrite map_length, seq_length; lia). rewrite nth_error_map.
      rewrite (nth_error_nth' (seq 0 (length ptr)) 0) by (rewrite seq_length; lia). rewrite seq_nth by lia. cbn [option_map Nat.add].
      rewrite L, <- (app_nil_r (vectors_file V partition _)), (take_ranks_file V _ b x) by exact E. reflexivity.
    + apply nth_error_None in E. rewrite nth_error_app2 by (rewrite map_length, seq_length; lia).
      apply nth_error_repeat_lt. rewrite map_length, seq_length. lia.
Qed.
Print Assumptions C96_inflexible.

(** ** Options that differ between the runs *)

(** A flexible file is lost if the parameter is off in the restarted run: the mesh is
    repartitioned before the values are taken from the cells.  The number of processes is
    checked for files that are not flexible only. *)
Theorem C96_option_refuted : forall V zero full ranks components owner cell_rank partition h refined ranks' n_ptr from loaded repartitioned,
  restart V false refined ranks' n_ptr from loaded repartitioned (save V zero true full ranks components owner cell_rank partition h) = None.
Proof. intros. unfold restart, save. cbn [s_header h_flexible negb andb]. destruct refined; reflexivity. Qed.
Print Assumptions C96_option_refuted.

(** The other way round the values get to other places, and nothing is noticed. *)
Theorem C96_partition_refuted : exists (partition loaded : list (list nat)) (v o : vector nat) l entries f d x,
  concat partition = concat loaded /\ length partition = length loaded
  /\ restart nat true false 2 2 (fun _ => 0) loaded partition (save nat 0 false false 2 2 (fun _ => 0) (fun _ => 0) partition (commit_old_solutions nat [v; o])) = Some l
  /\ nth_error l 0 = Some (Set_entries nat entries)
  /\ nth_error (wanted nat false [v; o]) 0 = Some f /\ In (d, x) entries /\ x <> f d.
Proof.
  exists [[0]; [1; 2]], [[0; 1]; [2]], (mkVector nat [Nat.add 10; Nat.add 20] false), (mkVector nat [Nat.add 10; Nat.add 20] false).
  eexists. eexists. exists (Nat.add 10), 1, 20.
  split; [reflexivity |]. split; [reflexivity |]. split; [vm_compute; reflexivity |]. split; [reflexivity |]. split; [reflexivity |].
  split; [right; left; reflexivity | discriminate].
Qed.
Print Assumptions C96_partition_refuted.

(** A mesh given by divisions with global refinements is not accepted by [tria.load]. *)
Theorem C96_divisions_refuted : forall V zero flexible full ranks components owner cell_rank partition h param_flexible n ranks' n_ptr from loaded repartitioned,
  restart V param_flexible (coarse_refined (Some (S n))) ranks' n_ptr from loaded repartitioned
    (save V zero flexible full ranks components owner cell_rank partition h) = None.
Proof. intros. unfold restart, save. destruct (_ && _); reflexivity. Qed.
Print Assumptions C96_divisions_refuted.

(** The number of blocks per vector in the file is not compared with the one of the new run:
    with more blocks (a coupled run restarted from one without mechanics) the additional ones
    of the current solution receive the old solution. *)
Theorem C96_blocks_refuted : forall V zero ranks components owner cell_rank partition (v o o' : vector V) olds ranks' n_blocks n_vectors from loaded repartitioned f fs,
  length (blocks V v) < n_blocks -> 1 <= n_vectors -> blocks V o = f :: fs ->
  exists l g, restart V true false ranks' (n_vectors * n_blocks) from loaded repartitioned
              (save V zero true true ranks components owner cell_rank partition (commit_old_solutions V (v :: o :: o' :: olds))) = Some l
  /\ nth_error l (length (blocks V v)) = Some (Set_all V g) /\ forall d, g d = f d.
Proof.
  intros V zero ranks comps owner cr partition v o o' olds ranks' nb nv from loaded repart f fs Hb Hv Ho.
  destruct (C96_flexible V zero true ranks comps owner cr partition v o (o' :: olds) ranks' (nv * nb) from loaded repart) as [l [R [_ N]]].
  specialize (N (length (blocks V v)) ltac:(nia)). unfold wanted in N.
  rewrite nth_error_app2, Nat.sub_diag in N by lia. change (removelast (o :: o' :: olds)) with (o :: removelast (o' :: olds)) in N.
  cbn [flat_map] in N. rewrite Ho in N. cbn [app nth_error] in N. destruct N as [g [N1 N2]]. exists l, g. split; [exact R |]. split; [exact N1 | exact N2].
Qed.
Print Assumptions C96_blocks_refuted.

(** ** The program may end at any moment *)
Lemma kind_eqb_refl : forall q, kind_eqb q q = true.
Proof. destruct q; reflexivity. Qed.
Lemma kind_eqb_eq : forall a b, kind_eqb a b = true <-> a = b.
Proof. destruct a, b; cbn; split; congruence. Qed.

Lemma write_files_get : forall m k qs s name q,
  write_files m k qs s name q = if N.eqb name (name_of m k) && existsb (kind_eqb q) qs then Complete k else s name q.
Proof.
  intros m k. induction qs as [| x qs IH]; intros s name q; unfold write_files in *; cbn [fold_left existsb]; [rewrite andb_false_r; reflexivity |].
  rewrite IH. unfold put. destruct (N.eqb name (name_of m k)); cbn [andb]; [| reflexivity].
  destruct (existsb (kind_eqb q) qs), (kind_eqb q x); reflexivity.
Qed.

(** all files of the restart point [name] are from save [k] *)
Definition consistent (flexible : bool) (s : store) (name k : N) : Prop := forall q, In q (kinds flexible) -> s name q = Complete k.

Lemma other_name : forall m n, m <> 1%N -> name_of m (N.of_nat n) <> name_of m (N.of_nat (S n)).
Proof.
  intros m n Hm. unfold name_of. destruct (N.eqb_spec m 0) as [-> | H0]; [lia |]. intros E.
  assert (A := N.div_mod (N.of_nat n) m H0). assert (B := N.div_mod (N.of_nat (S n)) m H0). rewrite <- E in B.
  assert (C : (m * (N.of_nat (S n) / m) = m * (N.of_nat n / m) + 1)%N) by lia.
  assert (D : (m * (N.of_nat (S n) / m - N.of_nat n / m) = 1)%N) by (rewrite N.mul_sub_distr_l; lia).
  apply N.eq_mul_1 in D. lia.
Qed.

(** With more than one name (or without limit): at whatever moment the program ends, the
    last completed restart point is there with all its files. *)
Theorem C96_killed : forall flexible max_output n j torn s, max_output <> 1%N ->
  consistent flexible (killed flexible max_output (S n) j torn s) (name_of max_output (N.of_nat n)) (N.of_nat n).
Proof.
  intros fl m n j torn s Hm q Hq. assert (O := other_name m n Hm).
  assert (W : forall qs, write_files m (N.of_nat (S n)) qs (saves fl m (S n) s) (name_of m (N.of_nat n)) q = Complete (N.of_nat n)).
  { intros qs. rewrite write_files_get. replace (N.eqb (name_of m (N.of_nat n)) (name_of m (N.of_nat (S n)))) with false by (symmetry; apply N.eqb_neq; exact O).
    cbn [andb saves]. rewrite write_files_get, N.eqb_refl. replace (existsb (kind_eqb q) (kinds fl)) with true; [reflexivity |].
    symmetry. apply existsb_exists. exists q. split; [exact Hq | apply kind_eqb_refl]. }
  unfold killed. destruct (nth_error (kinds fl) j) as [x |]; [| apply W]. destruct torn; [| apply W]. unfold put.
  replace (N.eqb (name_of m (N.of_nat n)) (name_of m (N.of_nat (S n)))) with false by (symmetry; apply N.eqb_neq; exact O). cbn [andb]. apply W.
Qed.
Print Assumptions C96_killed.

(** With a single name: if the program ends between two files, no restart point is left
    whose files belong together, although all files are complete. *)
Theorem C96_killed_refuted : forall flexible n j, 0 < j < length (kinds flexible) ->
  let s := killed flexible 1 (S n) j false (fun _ _ => Missing) in
  (forall name k, ~ consistent flexible s name k) /\ (forall q, In q (kinds flexible) -> exists k, s 0%N q = Complete k).
Proof.
  intros fl n j Hj s.
  assert (N0 : forall k, name_of 1 k = 0%N) by (intros k; unfold name_of; cbn [N.eqb]; apply N.mod_1_r).
  assert (G : forall name q, s name q = if N.eqb name 0 && existsb (kind_eqb q) (firstn j (kinds fl)) then Complete (N.of_nat (S n))
                                        else if N.eqb name 0 && existsb (kind_eqb q) (kinds fl) then Complete (N.of_nat n) else saves fl 1 n (fun _ _ => Missing) name q).
  { intros name q. unfold s, killed. destruct (nth_error (kinds fl) j); rewrite write_files_get, N0; cbn [saves]; rewrite write_files_get, N0; reflexivity. }
  assert (M : forall n name q, name <> 0%N -> saves fl 1 n (fun _ _ => Missing) name q = Missing).
  { clear - N0. induction n as [| n IH]; intros name q Hn; [reflexivity |]. cbn [saves]. rewrite write_files_get, N0.
    apply N.eqb_neq in Hn. rewrite Hn. cbn [andb]. apply IH. apply N.eqb_neq. exact Hn. }
  split.
  - intros name k C. destruct (N.eq_dec name 0) as [-> | Hne].
    + assert (F : s 0%N (hd Tria (kinds fl)) = Complete (N.of_nat (S n))).
      { rewrite G. destruct j as [| j]; [lia |]. destruct fl; reflexivity. }
      assert (T : s 0%N Times = Complete (N.of_nat n)).
      { rewrite G. replace (existsb (kind_eqb Times) (firstn j (kinds fl))) with false.
        - destruct fl; reflexivity.
        - symmetry. apply not_true_is_false. intros E. apply existsb_exists in E. destruct E as [x [I Ex]]. apply kind_eqb_eq in Ex. subst x.
          destruct fl; cbn [kinds length] in Hj; do 5 (destruct j as [| j]; [first [lia | cbn in I; decompose [or] I; first [discriminate | contradiction]] |]); lia. }
      rewrite (C (hd Tria (kinds fl))) in F by (destruct fl; left; reflexivity).
      rewrite (C Times) in T by (destruct fl; cbn; auto 8). injection F as F. injection T as T. lia.
    + assert (T : s name Times = Complete k) by (apply C; destruct fl; cbn; auto 8). rewrite G in T. apply N.eqb_neq in Hne. rewrite Hne in T. cbn [andb] in T.
      rewrite M in T by (apply N.eqb_neq; exact Hne). discriminate.
  - intros q Hq. rewrite G, N.eqb_refl. cbn [andb]. replace (existsb (kind_eqb q) (kinds fl)) with true.
    + destruct (existsb _ _); eexists; reflexivity.
    + symmetry. apply existsb_exists. exists q. split; [exact Hq | apply kind_eqb_refl].
Qed.
Print Assumptions C96_killed_refuted.

(** ** Example: second order, two blocks, two processes *)
Definition ex_history : list (vector nat) :=
  [mkVector nat [Nat.add 10; Nat.add 20] false; mkVector nat [Nat.add 30; Nat.add 40] true; mkVector nat [Nat.add 50; Nat.add 60] true].
Example C96_applies :
  length ex_history = history_size 2
  /\ restart nat false false 2 4 (fun _ => 0) [] [[0]; [2; 1]] (save nat 0 false true 2 4 (fun _ => 0) (fun _ => 0) [[0]; [2; 1]] (commit_old_solutions nat ex_history))
     = Some [Set_entries nat [(0, 10); (2, 12); (1, 11)]; Set_entries nat [(0, 20); (2, 22); (1, 21)];
             Set_entries nat [(0, 30); (2, 32); (1, 31)]; Set_entries nat [(0, 40); (2, 42); (1, 41)]]
  /\ restart nat false false 3 4 (fun _ => 0) [] [[0]; [2]; [1]] (save nat 0 false true 2 4 (fun _ => 0) (fun _ => 0) [[0]; [2; 1]] (commit_old_solutions nat ex_history)) = None
  /\ seen nat 0 (fun d => d) 0 (false, Nat.add 30) 1 = 0
  /\ killed false 2 3 2 true (fun _ _ => Missing) 0%N Grains = Complete 2
  /\ killed false 2 3 2 true (fun _ _ => Missing) 1%N Driver = Broken
  /\ killed false 2 3 2 true (fun _ _ => Missing) 1%N Grains = Complete 1.
Proof. repeat split. Qed.
