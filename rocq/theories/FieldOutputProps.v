(** Property C66: every output field of an operator carries the name of the quantity stored
    in it, every requested quantity is stored once, and the buffer is as large as needed. *)
From Coq Require Import String Bool List Arith Lia.
From Verif Require Import Util FieldOutputModel.
Import ListNotations.
Local Open Scope nat_scope.
Local Open Scope list_scope.

(** what a name says *)
Definition label (q : quantity) : fname :=
  match q with
  | SumSquares => N_bnds | SumProducts => N_gb
  | D2fDc2 => N_d2f_dc2 | D2fDcDeta i => N_d2f_dcdeta i | D2fDeta2 i => N_d2f_deta2 i | D2fDetaDeta i j => N_d2f_detadeta i j
  | Mobility => N_M | NormDMDc => N_nrm_dM_dc_x_mu_grad | NormDMDgradC => N_nrm_dM_dgrad_c | NormDMDeta i => N_nrm_dM_deta_x_mu_grad i
  | KappaC => N_kappa_c | KappaP => N_kappa_p | Lgb => N_L | F => N_f | DfDc => N_df_dc | DfDeta i => N_df_deta i
  | Flux m _ => N_flux m
  end.

(** the quantities that a request asks the sintering operators for *)
Definition requested (dim n : nat) (fields_list : string -> bool) (q : quantity) : Prop :=
  match q with
  | SumSquares => fields_list "bnds"%string = true
  | SumProducts => fields_list "gb"%string = true
  | D2fDc2 => fields_list "d2f"%string = true
  | D2fDcDeta i | D2fDeta2 i => fields_list "d2f"%string = true /\ i < n
  | D2fDetaDeta i j => fields_list "d2f"%string = true /\ i < j < n
  | Mobility => fields_list "M"%string = true
  | NormDMDc | NormDMDgradC => fields_list "dM"%string = true
  | NormDMDeta i => fields_list "dM"%string = true /\ i < n
  | KappaC | KappaP => fields_list "kappa"%string = true
  | Lgb => fields_list "L"%string = true
  | F | DfDc => fields_list "energy"%string = true
  | Flux m d => fields_list "flux"%string = true /\ m < 4 /\ d < dim
  | DfDeta _ => False
  end.

(** all fields are labelled, and they are the wanted ones, once each *)
Definition good (wanted : quantity -> Prop) (out : option (list (option quantity * fname))) : Prop :=
  exists qs, out = Some (map (fun q => (Some q, label q)) qs) /\ NoDup qs /\ forall q, In q qs <-> wanted q.

Lemma entries_mask_spec : forall possible fl mask n,
  (forall g, fst (entries_mask possible fl mask n) g = existsb (fun e => fl (fst (fst e)) && field_eqb g (snd (fst e))) possible || mask g)
  /\ snd (entries_mask possible fl mask n) = n + fold_right (fun e s => (if fl (fst (fst e)) then snd e else 0) + s) 0 possible.
Proof.
  induction possible as [| [[key fld] count] possible IH]; intros fl mask n; cbn [entries_mask existsb fold_right fst snd]; [split; [reflexivity | lia] |].
  destruct (fl key).
  - destruct (IH fl (fun g => if field_eqb g fld then true else mask g) (n + count)) as [A B]. split; [| rewrite B; lia].
    intros g. rewrite A. destruct (field_eqb g fld); cbn [andb]; [rewrite !orb_true_r; reflexivity | reflexivity].
  - destruct (IH fl mask n) as [A B]. split; [exact A | rewrite B; lia].
Qed.

Definition slots (done : list quantity) (m : nat) : list (option quantity) * nat := (map Some done ++ repeat None m, length done).
Lemma vset_slot : forall (done : list quantity) m (q : quantity), vset (map Some done ++ repeat None (S m)) (length done) (Some q) = Some (map Some (done ++ [q]) ++ repeat None m).
Proof. induction done as [| d done IH]; intros m q; [reflexivity |]. cbn [map app length vset]. rewrite IH. reflexivity. Qed.
Lemma write_spec : forall qs done m, length qs <= m -> write qs (slots done m) = Some (slots (done ++ qs) (m - length qs)).
Proof.
  induction qs as [| q qs IH]; intros done m H; cbn [write length].
  - rewrite app_nil_r, Nat.sub_0_r. reflexivity.
  - destruct m as [| m]; [cbn in H; lia |]. change (slots done (S m)) with (map Some done ++ repeat (@None quantity) (S m), length done). cbn [fst snd]. rewrite vset_slot. cbn [obind].
    replace (map Some (done ++ [q]) ++ repeat None m, S (length done)) with (slots (done ++ [q]) m) by (unfold slots; rewrite app_length; cbn; f_equal; lia).
    rewrite IH by (cbn in H; lia). rewrite <- app_assoc. reflexivity.
Qed.
Definition opt (b : bool) {A} (l : list A) : list A := if b then l else [].
Lemma when_spec : forall b qs done m, length (opt b qs) <= m -> when b qs (slots done m) = Some (slots (done ++ opt b qs) (m - length (opt b qs))).
Proof. intros [|] qs done m H; [apply write_spec; exact H |]. cbn. rewrite app_nil_r, Nat.sub_0_r. reflexivity. Qed.
Lemma write_over : forall qs done m, m < length qs -> write qs (slots done m) = None.
Proof.
  induction qs as [| q qs IH]; intros done m H; [cbn in H; lia |]. cbn [write]. change (slots done m) with (map Some done ++ repeat (@None quantity) m, length done). cbn [fst snd]. destruct m as [| m].
  - cbn [repeat]. rewrite app_nil_r. assert (E : vset (map Some done) (length done) (Some q) = None).
    { clear. induction done as [| d done IH]; [reflexivity |]. cbn [map length vset]. rewrite IH. reflexivity. }
    rewrite E. reflexivity.
  - rewrite vset_slot. cbn [obind].
    replace (map Some (done ++ [q]) ++ repeat None m, S (length done)) with (slots (done ++ [q]) m) by (unfold slots; rewrite app_length; cbn; f_equal; lia).
    apply IH. cbn in H. lia.
Qed.

Lemma attach_labels : forall qs, attach (map Some qs) (map label qs) = Some (map (fun q => (Some q, label q)) qs).
Proof. induction qs as [| q qs IH]; [reflexivity |]. cbn [map attach]. rewrite IH. reflexivity. Qed.

Lemma pairs_length : forall n, length (pairs n) = n * (n - 1) / 2.
Proof.
  intros n. unfold pairs.
  assert (G : forall m a, a + m <= n -> 2 * length (flat_map (fun ig => map (fun jg => (ig, jg)) (seq (S ig) (n - S ig))) (seq a m)) = m * (2 * n - 2 * a - m - 1)).
  { induction m as [| m IH]; intros a H; [reflexivity |]. cbn [seq flat_map]. rewrite app_length, map_length, seq_length, Nat.mul_add_distr_l, IH by lia. nia. }
  specialize (G n 0 (le_n _)). replace (n * (n - 1)) with (2 * length (flat_map (fun ig => map (fun jg => (ig, jg)) (seq (S ig) (n - S ig))) (seq 0 n))) by (rewrite G; nia).
  rewrite Nat.mul_comm, Nat.div_mul by lia. reflexivity.
Qed.
Lemma pairs_in : forall n i j, In (i, j) (pairs n) <-> i < j < n.
Proof.
  intros n i j. unfold pairs. rewrite in_flat_map. split.
  - intros [a [A B]]. apply in_map_iff in B. destruct B as [b [E B]]. injection E as -> ->. apply in_seq in A, B. lia.
  - intros H. exists i. split; [apply in_seq; lia |]. apply in_map_iff. exists j. split; [reflexivity | apply in_seq; lia].
Qed.
Lemma nodup_app : forall A (l k : list A), NoDup l -> NoDup k -> (forall x, In x l -> In x k -> False) -> NoDup (l ++ k).
Proof.
  induction l as [| x l IH]; intros k Hl Hk H; [exact Hk |]. inversion Hl; subst. cbn. constructor.
  - intros I. apply in_app_or in I. destruct I as [I | I]; [contradiction | apply (H x); [left; reflexivity | exact I]].
  - apply IH; [assumption | assumption |]. intros y I J. apply (H y); [right; exact I | exact J].
Qed.
Lemma nodup_map : forall A B (f : A -> B) l, (forall x y, In x l -> In y l -> f x = f y -> x = y) -> NoDup l -> NoDup (map f l).
Proof.
  induction l as [| x l IH]; intros I H; [constructor |]. inversion H; subst. cbn. constructor.
  - intros J. apply in_map_iff in J. destruct J as [y [E J]]. apply I in E; [subst; contradiction | right; exact J | left; reflexivity].
  - apply IH; [| assumption]. intros y z Hy Hz. apply I; right; assumption.
Qed.
Lemma nodup_flat : forall A B (f : A -> list B) l, NoDup l -> (forall x, In x l -> NoDup (f x)) -> (forall x y b, In x l -> In y l -> In b (f x) -> In b (f y) -> x = y) -> NoDup (flat_map f l).
Proof.
  induction l as [| x l IH]; intros H N D; [constructor |]. inversion H; subst. cbn. apply nodup_app.
  - apply N. left. reflexivity.
  - apply IH; [assumption | intros; apply N; right; assumption |]. intros y z b Y Z. apply D; right; assumption.
  - intros b I J. apply in_flat_map in J. destruct J as [y [Y J]]. assert (x = y) by (apply (D x y b); [left; reflexivity | right; exact Y | exact I | exact J]). subst. contradiction.
Qed.
Lemma pairs_nodup : forall n, NoDup (pairs n).
Proof.
  intros n. unfold pairs. apply nodup_flat; [apply seq_NoDup | |].
  - intros x _. apply nodup_map; [| apply seq_NoDup]. intros a b _ _ E. injection E as ->. reflexivity.
  - intros x y b _ _ X Y. apply in_map_iff in X, Y. destruct X as [i [<- _]], Y as [j [E _]]. injection E as ->. reflexivity.
Qed.

Definition d2f_block (n : nat) : list quantity :=
  D2fDc2 :: map D2fDcDeta (seq 0 n) ++ map D2fDeta2 (seq 0 n) ++ map (fun ij => D2fDetaDeta (fst ij) (snd ij)) (pairs n).
Definition dm_block (n : nat) : list quantity := NormDMDc :: NormDMDgradC :: map NormDMDeta (seq 0 n).
Definition sintering_list (dim n : nat) (fl : string -> bool) : list quantity :=
  opt (fl "bnds"%string) [SumSquares] ++ opt (fl "gb"%string) [SumProducts] ++ opt (fl "d2f"%string) (d2f_block n)
  ++ opt (fl "M"%string) [Mobility] ++ opt (fl "dM"%string) (dm_block n) ++ opt (fl "kappa"%string) [KappaC; KappaP]
  ++ opt (fl "L"%string) [Lgb] ++ opt (fl "energy"%string) [F; DfDc] ++ opt (fl "flux"%string) (flux_block dim).

Lemma d2f_length : forall n, length (d2f_block n) = 1 + 2 * n + n * (n - 1) / 2.
Proof. intros. unfold d2f_block. cbn [length]. rewrite !app_length, !map_length, !seq_length, pairs_length. lia. Qed.
Lemma dm_length : forall n, length (dm_block n) = 2 + n.
Proof. intros. unfold dm_block. cbn [length]. rewrite map_length, seq_length. reflexivity. Qed.
Lemma flux_length : forall dim, length (flux_block dim) = 4 * dim.
Proof. intros. unfold flux_block. cbn [seq flat_map]. rewrite !app_length, !map_length, !seq_length. cbn [length]. lia. Qed.
Lemma opt_length : forall b A (l : list A), length (opt b l) = if b then length l else 0.
Proof. intros [|]; reflexivity. Qed.

Lemma opt_in : forall A b (l : list A) x, In x (opt b l) <-> b = true /\ In x l.
Proof. intros A [|] l x; cbn; intuition discriminate. Qed.
Lemma map_opt : forall A B (f : A -> B) b l, map f (opt b l) = opt b (map f l).
Proof. intros A B f [|] l; reflexivity. Qed.
Lemma opt_nodup : forall A b (l : list A), NoDup l -> NoDup (opt b l).
Proof. intros A [|] l H; [exact H | constructor]. Qed.

Lemma in_map_seq : forall (f : nat -> quantity) n q, In q (map f (seq 0 n)) <-> exists i, q = f i /\ i < n.
Proof.
  intros f n q. rewrite in_map_iff. split; intros [i [A B]]; exists i.
  - apply in_seq in B. split; [congruence | lia].
  - split; [congruence | apply in_seq; lia].
Qed.
Lemma in_pairs_map : forall n q, In q (map (fun ij => D2fDetaDeta (fst ij) (snd ij)) (pairs n)) <-> exists i j, q = D2fDetaDeta i j /\ i < j < n.
Proof.
  intros n q. rewrite in_map_iff. split.
  - intros [[i j] [A B]]. exists i, j. apply pairs_in in B. cbn in A. split; [congruence | exact B].
  - intros [i [j [A B]]]. exists (i, j). split; [cbn; congruence | apply pairs_in; exact B].
Qed.
Lemma in_flux : forall dim q, In q (flux_block dim) <-> exists m d, q = Flux m d /\ m < 4 /\ d < dim.
Proof.
  intros dim q. unfold flux_block. rewrite in_flat_map. split.
  - intros [m [A B]]. apply in_seq in A. apply in_map_seq in B. destruct B as [d [-> B]]. exists m, d. repeat split; lia.
  - intros [m [d [-> [A B]]]]. exists m. split; [apply in_seq; lia | apply in_map_seq; exists d; split; [reflexivity | exact B]].
Qed.

Lemma sintering_list_in : forall dim n fl q, In q (sintering_list dim n fl) <-> requested dim n fl q.
Proof.
  intros dim n fl q. unfold sintering_list, d2f_block, dm_block. rewrite !in_app_iff, !opt_in. cbn [In]. rewrite !in_app_iff, !in_map_seq, in_pairs_map, in_flux.
  split.
  - intros H.
    repeat match goal with
    | H : _ \/ _ |- _ => destruct H as [H | H]
    | H : _ /\ _ |- _ => destruct H as [? H]
    | H : exists _, _ |- _ => destruct H as [? H]
    | H : False |- _ => contradiction
    end; subst; cbn [requested]; auto; try (split; auto; fail); repeat split; auto; lia.
  - destruct q as [| | | i | i | i j | | | | i | | | | | | i | m d]; cbn [requested]; intros H; try contradiction.
    + left. tauto.
    + right; left. tauto.
    + do 2 right; left. tauto.
    + do 2 right; left. split; [tauto |]. right; left. exists i. tauto.
    + do 2 right; left. split; [tauto |]. right; right; left. exists i. tauto.
    + do 2 right; left. split; [tauto |]. right; right; right. exists i, j. tauto.
    + do 3 right; left. tauto.
    + do 4 right; left. tauto.
    + do 4 right; left. tauto.
    + do 4 right; left. split; [tauto |]. right; right. exists i. tauto.
    + do 5 right; left. tauto.
    + do 5 right; left. tauto.
    + do 6 right; left. tauto.
    + do 7 right; left. tauto.
    + do 7 right; left. tauto.
    + do 8 right. split; [tauto |]. exists m, d. tauto.
Qed.

Lemma d2f_nodup : forall n, NoDup (d2f_block n).
Proof.
  intros n. unfold d2f_block. constructor.
  - rewrite !in_app_iff, !in_map_seq, in_pairs_map. intros [[i [E _]] | [[i [E _]] | [i [j [E _]]]]]; discriminate.
  - apply nodup_app; [apply nodup_map; [intros x y _ _ E; congruence | apply seq_NoDup] | apply nodup_app | ].
    + apply nodup_map; [intros x y _ _ E; congruence | apply seq_NoDup].
    + apply nodup_map; [| apply pairs_nodup]. intros [a b] [c d] _ _ E. cbn in E. congruence.
    + intros q A B. apply in_map_seq in A. apply in_pairs_map in B. destruct A as [i [-> _]], B as [a [b [E _]]]. discriminate.
    + intros q A B. rewrite in_app_iff, in_map_seq, in_pairs_map in B. apply in_map_seq in A. destruct A as [i [-> _]], B as [[a [E _]] | [a [b [E _]]]]; discriminate.
Qed.
Lemma dm_nodup : forall n, NoDup (dm_block n).
Proof.
  intros n. unfold dm_block. constructor; [| constructor].
  - cbn [In]. rewrite in_map_seq. intros [E | [i [E _]]]; discriminate.
  - rewrite in_map_seq. intros [i [E _]]. discriminate.
  - apply nodup_map; [intros x y _ _ E; congruence | apply seq_NoDup].
Qed.
Lemma flux_nodup : forall dim, NoDup (flux_block dim).
Proof.
  intros dim. unfold flux_block. apply nodup_flat; [apply seq_NoDup | |].
  - intros m _. apply nodup_map; [intros x y _ _ E; congruence | apply seq_NoDup].
  - intros x y b _ _ A B. apply in_map_seq in A, B. destruct A as [i [-> _]], B as [j [E _]]. congruence.
Qed.

(** which request key a quantity belongs to *)
Definition key (q : quantity) : nat :=
  match q with
  | SumSquares => 0 | SumProducts => 1 | D2fDc2 | D2fDcDeta _ | D2fDeta2 _ | D2fDetaDeta _ _ => 2 | Mobility => 3
  | NormDMDc | NormDMDgradC | NormDMDeta _ => 4 | KappaC | KappaP => 5 | Lgb => 6 | F | DfDc => 7 | Flux _ _ => 8 | DfDeta _ => 9
  end.
Lemma blocks_nodup : forall (bs : list (list quantity)) k, (forall i b q, nth_error bs i = Some b -> In q b -> key q = k + i) ->
  (forall b, In b bs -> NoDup b) -> NoDup (concat bs) /\ forall q, In q (concat bs) -> k <= key q.
Proof.
  induction bs as [| b bs IH]; intros k H N; [split; [constructor | intros q []] |]. cbn [concat].
  destruct (IH (S k)) as [A B].
  - intros i c q Hc Hq. rewrite (H (S i) c q Hc Hq). lia.
  - intros c Hc. apply N. right. exact Hc.
  - split.
    + apply nodup_app; [apply N; left; reflexivity | exact A |]. intros q I J. apply B in J. specialize (H 0 b q eq_refl I). lia.
    + intros q I. apply in_app_or in I. destruct I as [I | I]; [rewrite (H 0 b q eq_refl I); lia | apply B in I; lia].
Qed.
Lemma sintering_list_nodup : forall dim n fl, NoDup (sintering_list dim n fl).
Proof.
  intros dim n fl. unfold sintering_list.
  set (bs := [opt (fl "bnds"%string) [SumSquares]; opt (fl "gb"%string) [SumProducts]; opt (fl "d2f"%string) (d2f_block n); opt (fl "M"%string) [Mobility];
    opt (fl "dM"%string) (dm_block n); opt (fl "kappa"%string) [KappaC; KappaP]; opt (fl "L"%string) [Lgb]; opt (fl "energy"%string) [F; DfDc]; opt (fl "flux"%string) (flux_block dim)]).
  replace (_ ++ _) with (concat bs) by (unfold bs; cbn [concat]; rewrite app_nil_r; reflexivity).
  apply (blocks_nodup bs 0).
  - intros i b q Hb Hq. unfold bs in Hb.
    do 9 (destruct i as [| i]; [cbn [nth_error] in Hb; injection Hb as <-; apply opt_in in Hq; destruct Hq as [_ Hq];
      unfold d2f_block, dm_block in Hq; cbn [In] in Hq; rewrite ?in_app_iff, ?in_map_seq, ?in_pairs_map, ?in_flux in Hq;
      repeat match goal with
      | H : _ \/ _ |- _ => destruct H as [H | H]
      | H : _ /\ _ |- _ => destruct H as [H ?]
      | H : exists _, _ |- _ => destruct H as [? H]
      | H : False |- _ => contradiction
      end; subst; reflexivity |]).
    cbn in Hb. destruct i; discriminate.
  - intros b Hb. unfold bs in Hb. cbn [In] in Hb.
    repeat (destruct Hb as [<- | Hb]; [apply opt_nodup; first [apply d2f_nodup | apply dm_nodup | apply flux_nodup | repeat constructor; cbn; intuition discriminate] |]).
    contradiction.
Qed.

(** For every dimension, number of grains and request: the sintering operators write every
    requested quantity once, under its name, into a buffer of the right size.  With the
    tensorial mobility the two mobility fields must not be requested (exception). *)
Theorem C66_sintering : forall tensorial dim n fields_list,
  (tensorial = true -> fields_list "M"%string = false /\ fields_list "dM"%string = false) ->
  good (requested dim n fields_list) (sintering_output tensorial dim n fields_list).
Proof.
  intros tens dim n fl HT. exists (sintering_list dim n fl).
  split; [| split; [apply sintering_list_nodup | apply sintering_list_in]].
  unfold sintering_output. destruct (entries_mask_spec (sintering_possible dim n) fl (fun _ => false) 0) as [M C].
  destruct (entries_mask (sintering_possible dim n) fl (fun _ => false) 0) as [mask n_entries]. cbn [fst snd] in M, C.
  assert (L : n_entries = length (sintering_list dim n fl)).
  { rewrite C. unfold sintering_list. rewrite !app_length, !opt_length, d2f_length, dm_length, flux_length. cbn [fold_right sintering_possible fst snd length].
    rewrite Nat.add_0_l, Nat.add_0_r. reflexivity. }
  assert (M' : forall g, mask g = existsb (fun e => fl (fst (fst e)) && field_eqb g (snd (fst e))) (sintering_possible dim n)) by (intros g; rewrite M, orb_false_r; reflexivity).
  cbn [existsb sintering_possible fst snd] in M'.
  assert (Q : forall a, a && true = a) by apply andb_true_r.
  assert (M0 := M' FieldBnds). assert (M1 := M' FieldGb). assert (M2 := M' FieldD2f). assert (M3 := M' FieldM). assert (M4 := M' FieldDM).
  assert (M5 := M' FieldKappa). assert (M6 := M' FieldL). assert (M7 := M' FieldF). assert (M8 := M' FieldFlux).
  cbn [field_eqb] in M0, M1, M2, M3, M4, M5, M6, M7, M8.
  rewrite ?andb_true_r, ?andb_false_r, ?orb_false_r in M0, M1, M2, M3, M4, M5, M6, M7, M8. cbn [orb] in M0, M1, M2, M3, M4, M5, M6, M7, M8.
  clear M M' C Q.
  destruct (Nat.eqb_spec n_entries 0) as [Z | Z].
  { rewrite Z in L. destruct (sintering_list dim n fl); [reflexivity | discriminate]. }
  assert (T : sintering_temp tens dim n mask n_entries = Some (map Some (sintering_list dim n fl))).
  { unfold sintering_temp. rewrite M0, M1, M2, M3, M4, M5, M6, M7, M8. fold (d2f_block n). fold (dm_block n).
    change (repeat None n_entries, 0) with (slots [] n_entries).
    unfold sintering_list in L. rewrite !app_length in L.
    rewrite when_spec by lia. cbn [obind]. rewrite when_spec by lia. cbn [obind]. rewrite when_spec by lia. cbn [obind].
    assert (X : forall s, (if tens then if fl "M"%string || fl "dM"%string then None else Some s else s <- when (fl "M"%string) [Mobility] s;; when (fl "dM"%string) (dm_block n) s)
       = (s <- when (fl "M"%string) [Mobility] s;; when (fl "dM"%string) (dm_block n) s)).
    { intros s. destruct tens; [| reflexivity]. destruct (HT eq_refl) as [-> ->]. reflexivity. }
    rewrite X. rewrite when_spec by lia. cbn [obind]. rewrite when_spec by lia. cbn [obind].
    rewrite when_spec by lia. cbn [obind]. rewrite when_spec by lia. cbn [obind]. rewrite when_spec by lia. cbn [obind]. rewrite when_spec by lia. cbn [obind].
    unfold slots. cbn [fst]. rewrite <- !app_assoc. cbn [app].
    match goal with |- Some (map Some ?l ++ repeat None ?m) = _ => assert (Y : m = 0) by lia; rewrite Y; cbn [repeat]; rewrite app_nil_r; reflexivity end. }
  rewrite T. cbn [obind].
  assert (NN : sintering_names dim n mask = map label (sintering_list dim n fl)).
  { unfold sintering_names. cbv zeta. rewrite M0, M1, M2, M3, M4, M5, M6, M7, M8. unfold sintering_list. rewrite !map_app, !map_opt. unfold opt.
    assert (FX : flat_map (fun m => repeat (N_flux m) dim) (seq 0 4) = map label (flux_block dim)).
    { unfold flux_block. rewrite flat_map_concat_map, flat_map_concat_map, concat_map, map_map. f_equal. apply map_ext. intros m. rewrite map_map. cbn [label].
      assert (G : forall a, repeat (N_flux m) dim = map (fun _ : nat => N_flux m) (seq a dim)); [| apply G].
      clear. induction dim as [| d IH]; intros a; [reflexivity |]. cbn [repeat seq map]. f_equal. apply IH. }
    rewrite FX. unfold d2f_block, dm_block. cbn [map label]. rewrite !map_app, !map_map. cbn [label]. reflexivity. }
  rewrite NN. apply attach_labels.
Qed.
Print Assumptions C66_sintering.

(** a request and what it gives *)
Example C66_case : sintering_output false 2 2 (fun k => (String.eqb k "gb" || String.eqb k "d2f")%bool)
  = Some [(Some SumProducts, N_gb); (Some D2fDc2, N_d2f_dc2); (Some (D2fDcDeta 0), N_d2f_dcdeta 0); (Some (D2fDcDeta 1), N_d2f_dcdeta 1);
          (Some (D2fDeta2 0), N_d2f_deta2 0); (Some (D2fDeta2 1), N_d2f_deta2 1); (Some (D2fDetaDeta 0 1), N_d2f_detadeta 0 1)].
Proof. reflexivity. Qed.

(** ** grain growth *)
Lemma growth_masks : forall n fl mask n_entries, entries_mask (growth_possible n) fl (fun _ => false) 0 = (mask, n_entries) ->
  mask FieldBnds = fl "bnds"%string /\ mask FieldGb = fl "gb"%string /\ mask FieldF = fl "energy"%string /\ mask FieldDf = false
  /\ mask FieldD2f = (fl "df"%string || fl "d2f"%string)
  /\ n_entries = length (opt (fl "bnds"%string) [SumSquares] ++ opt (fl "gb"%string) [SumProducts] ++ opt (fl "energy"%string) [F])
                 + ((if fl "df"%string then n else 0) + (if fl "d2f"%string then n * (n - 1) / 2 else 0)).
Proof.
  intros n fl mask n_entries E. destruct (entries_mask_spec (growth_possible n) fl (fun _ => false) 0) as [M C]. rewrite E in M, C. cbn [fst snd] in M, C.
  rewrite !M. cbn [existsb growth_possible fst snd field_eqb]. rewrite ?andb_true_r, ?andb_false_r, ?orb_false_r. cbn [orb].
  repeat split; try reflexivity. rewrite C, !app_length, !opt_length. cbn [fold_right growth_possible fst snd length]. lia.
Qed.

Definition growth_wanted (fields_list : string -> bool) (q : quantity) : Prop :=
  match q with
  | SumSquares => fields_list "bnds"%string = true
  | SumProducts => fields_list "gb"%string = true
  | F => fields_list "energy"%string = true
  | _ => False
  end.
(** Requests without derivatives of the free energy *)
Theorem C66_growth_partial : forall n fields_list,
  fields_list "df"%string = false -> fields_list "d2f"%string = false ->
  good (growth_wanted fields_list) (growth_output n fields_list).
Proof.
  intros n fl H1 H2. exists (opt (fl "bnds"%string) [SumSquares] ++ opt (fl "gb"%string) [SumProducts] ++ opt (fl "energy"%string) [F]).
  split; [| split].
  - unfold growth_output. destruct (entries_mask (growth_possible n) fl (fun _ => false) 0) as [mask n_entries] eqn:E.
    apply growth_masks in E. destruct E as [M0 [M1 [M2 [M3 [M4 L]]]]]. rewrite H1, H2 in M4, L. cbn [orb] in M4.
    unfold growth_temp, growth_names. rewrite M0, M1, M2, M3, M4. destruct (fl "bnds"%string), (fl "gb"%string), (fl "energy"%string); cbn in L; subst n_entries; reflexivity.
  - destruct (fl "bnds"%string), (fl "gb"%string), (fl "energy"%string); cbn; repeat constructor; cbn; intuition discriminate.
  - intros q. rewrite !in_app_iff, !opt_in. cbn [In]. split.
    + intros H. repeat match goal with
      | H : _ \/ _ |- _ => destruct H as [H | H]
      | H : _ /\ _ |- _ => destruct H as [? H]
      | H : False |- _ => contradiction
      end; subst; assumption.
    + destruct q; cbn [growth_wanted]; intros H; try contradiction; tauto.
Qed.
Print Assumptions C66_growth_partial.

Lemma attach_nth : forall data names l i d nm, attach data names = Some l -> nth_error data i = Some d -> nth_error names i = Some nm -> nth_error l i = Some (d, nm).
Proof.
  induction data as [| d0 data IH]; intros [| n0 names] l i d nm A D N; try (destruct i; discriminate). cbn [attach] in A.
  destruct (attach data names) as [r |] eqn:E; [| discriminate]. injection A as <-. destruct i as [| i]; cbn [nth_error] in *; [congruence |].
  apply (IH names r); assumption.
Qed.
Lemma pairs_first : forall n, 2 <= n -> exists r, pairs n = (0, 1) :: r.
Proof. intros [| [| n]] H; try lia. unfold pairs. cbn [seq flat_map Nat.sub map app]. eexists. reflexivity. Qed.

(** For every number of grains: a request that contains derivatives of the free energy is
    answered with fields under wrong names (or leaves the buffer), whatever is wanted. *)
Theorem C66_growth_refuted : forall n fields_list wanted,
  2 <= n -> fields_list "df"%string = true \/ fields_list "d2f"%string = true ->
  ~ good wanted (growth_output n fields_list).
Proof.
  intros n fl wanted Hn H [qs [E _]]. unfold growth_output in E.
  destruct (entries_mask (growth_possible n) fl (fun _ => false) 0) as [mask n_entries] eqn:EM.
  apply growth_masks in EM. destruct EM as [M0 [M1 [M2 [M3 [M4 L]]]]].
  set (base := opt (fl "bnds"%string) [SumSquares] ++ opt (fl "gb"%string) [SumProducts] ++ opt (fl "energy"%string) [F]) in *.
  set (k := (if fl "df"%string then n else 0) + (if fl "d2f"%string then n * (n - 1) / 2 else 0)) in *.
  destruct (pairs_first n Hn) as [rest PF].
  assert (K : 1 <= k).
  { unfold k. destruct H as [-> | ->]; [lia |]. rewrite <- pairs_length, PF. cbn [length]. lia. }
  assert (D : fl "df"%string || fl "d2f"%string = true) by (destruct H as [-> | ->]; [reflexivity | apply orb_true_r]).
  rewrite D in M4. destruct (Nat.eqb_spec n_entries 0) as [Z | _]; [lia |].
  unfold growth_temp in E. rewrite M0, M1, M2, M3, M4 in E. change (repeat None n_entries, 0) with (slots [] n_entries) in E.
  assert (LB : length base = length (opt (fl "bnds"%string) [SumSquares]) + (length (opt (fl "gb"%string) [SumProducts]) + length (opt (fl "energy"%string) [F]))) by (unfold base; rewrite !app_length; reflexivity).
  rewrite when_spec in E by lia. cbn [obind] in E. rewrite when_spec in E by lia. cbn [obind] in E. rewrite when_spec in E by lia. cbn [obind] in E.
  cbn [app] in E. rewrite <- app_assoc in E. change (opt (fl "bnds"%string) [SumSquares] ++ opt (fl "gb"%string) [SumProducts] ++ opt (fl "energy"%string) [F]) with base in E.
  cbn [when obind] in E.
  match type of E with context [slots base ?m] => replace m with k in E by lia end.
  destruct (Nat.le_gt_cases (length (map (fun ij => D2fDetaDeta (fst ij) (snd ij)) (pairs n))) k) as [F0 | F0].
  2:{ rewrite (write_over _ base k F0) in E. discriminate. }
  rewrite (write_spec _ base k F0) in E. cbn [obind] in E. unfold slots in E. cbn [fst] in E.
  assert (D1 : nth_error (map Some (base ++ map (fun ij => D2fDetaDeta (fst ij) (snd ij)) (pairs n)) ++ repeat None (k - length (map (fun ij => D2fDetaDeta (fst ij) (snd ij)) (pairs n)))) (length base) = Some (Some (D2fDetaDeta 0 1))).
  { rewrite PF. cbn [map fst snd]. rewrite map_app, <- app_assoc. rewrite nth_error_app2 by (rewrite map_length; lia). rewrite map_length, Nat.sub_diag. reflexivity. }
  assert (D2 : nth_error (growth_names n mask) (length base) = Some (N_df_deta 0)).
  { unfold growth_names. cbv zeta. rewrite M0, M1, M2, M4. unfold base. clear - Hn. destruct n as [| n]; [lia |].
    destruct (fl "bnds"%string), (fl "gb"%string), (fl "energy"%string); reflexivity. }
  assert (G := attach_nth _ _ _ _ _ _ E D1 D2). rewrite nth_error_map in G.
  destruct (nth_error qs (length base)) as [q |]; [| discriminate]. cbn [option_map] in G. injection G as -> G. discriminate.
Qed.
Print Assumptions C66_growth_refuted.

(** For four or more grains, requesting the first derivatives writes past the buffer. *)
Theorem C66_growth_overrun_refuted : forall n fields_list,
  4 <= n -> fields_list "df"%string = true -> fields_list "d2f"%string = false -> growth_output n fields_list = None.
Proof.
  intros n fl Hn H1 H2. unfold growth_output.
  destruct (entries_mask (growth_possible n) fl (fun _ => false) 0) as [mask n_entries] eqn:EM.
  apply growth_masks in EM. destruct EM as [M0 [M1 [M2 [M3 [M4 L]]]]]. rewrite H1, H2 in M4, L. cbn [orb] in M4.
  destruct (Nat.eqb_spec n_entries 0) as [Z | _]; [lia |].
  unfold growth_temp. rewrite M0, M1, M2, M3, M4. change (repeat None n_entries, 0) with (slots [] n_entries).
  rewrite !app_length in L.
  rewrite when_spec by lia. cbn [obind]. rewrite when_spec by lia. cbn [obind]. rewrite when_spec by lia. cbn [obind when].
  rewrite write_over; [reflexivity |]. rewrite map_length, pairs_length.
  assert (G : 2 * n < n * (n - 1)) by nia.
  assert (P := pairs_length n). assert (X : n < n * (n - 1) / 2); [| lia].
  assert (EV : exists e, n * (n - 1) = 2 * e).
  { exists (length (pairs n)). rewrite P. assert (D := Nat.div_mod (n * (n - 1)) 2 ltac:(lia)).
    assert (O : (n * (n - 1)) mod 2 = 0).
    { destruct (Nat.Even_or_Odd n) as [[a A] | [a A]]; [replace (n * (n - 1)) with ((a * (n - 1)) * 2) by nia | replace (n * (n - 1)) with ((n * a) * 2) by nia]; apply Nat.mod_mul; lia. }
    lia. }
  destruct EV as [e Ee]. rewrite Ee in *. rewrite (Nat.mul_comm 2 e), Nat.div_mul by lia. lia.
Qed.
Print Assumptions C66_growth_overrun_refuted.

(** ** grand potential *)
Definition greenquist_wanted (fields_list : string -> bool) (q : quantity) : Prop :=
  match q with SumSquares => fields_list "bnds"%string = true | SumProducts => fields_list "gb"%string = true | _ => False end.
Theorem C66_greenquist : forall fields_list, fields_list ""%string = false -> good (greenquist_wanted fields_list) (greenquist_output fields_list).
Proof.
  intros fl H0. exists (opt (fl "bnds"%string) [SumSquares] ++ opt (fl "gb"%string) [SumProducts]).
  split; [| split].
  - unfold greenquist_output, greenquist_possible. cbn [entries_mask]. rewrite H0. destruct (fl "bnds"%string), (fl "gb"%string); reflexivity.
  - destruct (fl "bnds"%string), (fl "gb"%string); cbn; repeat constructor; cbn; intuition discriminate.
  - intros q. rewrite !in_app_iff, !opt_in. cbn [In]. split.
    + intros [[A [<- | []]] | [A [<- | []]]]; assumption.
    + destruct q; cbn [greenquist_wanted]; intros H; try contradiction; tauto.
Qed.
Print Assumptions C66_greenquist.
(** An empty string in the request switches on a field without room for it. *)
Theorem C66_greenquist_empty_refuted : forall fields_list,
  fields_list ""%string = true -> fields_list "bnds"%string = false -> fields_list "gb"%string = true -> greenquist_output fields_list = None.
Proof. intros fl H0 H1 H2. unfold greenquist_output, greenquist_possible. cbn [entries_mask]. rewrite H0, H1, H2. reflexivity. Qed.
Print Assumptions C66_greenquist_empty_refuted.
