(** C40: parsing of the particle file. *)
From Coq Require Import String Ascii.
From Coq Require Import List Arith Bool ZArith Lia.
From Verif Require Import Util CutoffProofs CsvModel.
Import ListNotations.
Local Open Scope list_scope.

(** Pieces put together with a separator between them. *)
Fixpoint join (d : ascii) (l : list text) : text :=
  match l with
  | [] => []
  | [a] => a
  | a :: l => a ++ d :: join d l
  end.

Definition count (d : ascii) (t : text) : nat := count_occ Ascii.ascii_dec t d.

Lemma join_cons : forall d a l, l <> [] -> join d (a :: l) = a ++ d :: join d l.
Proof. intros d a [|b l] H; [congruence|reflexivity]. Qed.

(** The fields of a line from a given position on, by recursion over the line. *)
Fixpoint split (d : ascii) (t : text) : list text :=
  match t with
  | [] => [[]]
  | c :: t =>
    match split d t with
    | f :: fs => if Ascii.eqb c d then [] :: f :: fs else (c :: f) :: fs
    | [] => []
    end
  end.

Lemma split_ok : forall d t, split d t <> [] /\ length (split d t) = S (count d t) /\
  join d (split d t) = t /\ Forall (fun f => ~ In d f) (split d t).
Proof.
  intros d t. induction t as [|c t (N & L & J & F)].
  - cbn. repeat split; [discriminate|]. repeat constructor. auto.
  - cbn [split]. destruct (split d t) as [|f fs] eqn:E; [congruence|].
    pose proof (Forall_inv F) as F1. pose proof (Forall_inv_tail F) as F2. cbv beta in F1.
    unfold count in *. cbn [count_occ].
    destruct (Ascii.eqb_spec c d) as [->|Hne].
    + split; [discriminate|]. split; [|split].
      * destruct (Ascii.ascii_dec d d); [|congruence]. cbn [length] in *. lia.
      * rewrite join_cons by discriminate. rewrite J. reflexivity.
      * repeat constructor; auto.
    + split; [discriminate|]. split; [|split].
      * destruct (Ascii.ascii_dec c d); [congruence|]. exact L.
      * destruct fs; cbn in J |- *; congruence.
      * constructor; [|assumption]. cbn. intros [X|X]; [congruence|auto].
Qed.

(** Separated pieces are unique. *)
Lemma join_unique : forall d a b, a <> [] -> b <> [] ->
  Forall (fun f => ~ In d f) a -> Forall (fun f => ~ In d f) b -> join d a = join d b -> a = b.
Proof.
  intros d. assert (S : forall x y u v, ~ In d x -> ~ In d y -> x ++ d :: u = y ++ d :: v -> x = y /\ u = v).
  { intros x. induction x as [|c x IH]; intros y u v Hx Hy E; destruct y as [|c' y]; cbn in E.
    - injection E as ->. auto.
    - injection E as -> _. destruct Hy. left. reflexivity.
    - injection E as -> _. destruct Hx. left. reflexivity.
    - injection E as -> E. destruct (IH y u v) as (-> & ->); auto; intro X; [apply Hx|apply Hy]; right; assumption. }
  intros a. induction a as [|x a IH]; intros b Na Nb Fa Fb E; [congruence|].
  destruct b as [|y b]; [congruence|]. inversion Fa as [|? ? Fx Fa']. inversion Fb as [|? ? Fy Fb']. subst.
  destruct a as [|x' a]; destruct b as [|y' b].
  - cbn in E. congruence.
  - exfalso. rewrite (join_cons d y) in E by discriminate. cbn [join] in E. apply Fx. rewrite E.
    apply in_or_app. right. left. reflexivity.
  - exfalso. rewrite (join_cons d x) in E by discriminate. cbn [join] in E. apply Fy. rewrite <- E.
    apply in_or_app. right. left. reflexivity.
  - rewrite !join_cons in E by discriminate. destruct (S _ _ _ _ Fx Fy E) as (-> & E'). f_equal.
    apply IH; auto; discriminate.
Qed.

(** The positions of the row cut the line into its fields. *)
Lemma fields_spec : forall t pre i,
  let l := pre ++ t in
  let d := commas_from t (length pre) ++ [Z.of_nat (length l)] in
  (forall a, a <= length pre -> exists b, vget d 0 = Some (Z.of_nat b) /\ length pre <= b /\
     vget (split comma t) 0 = Some (firstn (b - length pre) t)) /\
  (forall a, vget d i = Some a ->
     exists k, a = Z.of_nat k /\ length pre <= k) /\
  (forall a b, vget d i = Some a -> vget d (S i) = Some b ->
     vget (split comma t) (S i) = Some (firstn (Z.to_nat (b - (a + 1))) (skipn (Z.to_nat (a + 1)) l))) /\
  length d = length (split comma t).
Proof.
  induction t as [|c t IH]; intros pre i; cbv zeta.
  - cbn [commas_from app]. split; [|split; [|split]].
    + intros a Ha. exists (length pre). rewrite app_nil_r. split; [reflexivity|]. split; [lia|].
      rewrite Nat.sub_diag. reflexivity.
    + intros a. destruct i as [|i]; cbn; [|destruct i; discriminate]. intro E. injection E as <-.
      exists (length (pre ++ [])). rewrite app_nil_r. auto.
    + intros a b _ E. destruct i; discriminate.
    + reflexivity.
  - specialize (IH (pre ++ [c])). rewrite app_length in IH. cbn [length] in IH.
    rewrite <- app_assoc in IH. cbn [app] in IH. replace (length pre + 1) with (S (length pre)) in IH by lia.
    cbv zeta in IH. cbn [commas_from split].
    pose proof (split_ok comma t) as (N & _ & _ & _).
    destruct (split comma t) as [|f fs] eqn:ES; [congruence|].
    destruct (Ascii.eqb_spec c comma) as [->|Hne]; cbn [app].
    + split; [|split; [|split]].
      * intros a _. exists (length pre). split; [reflexivity|]. split; [lia|]. rewrite Nat.sub_diag. reflexivity.
      * intros a E. destruct i as [|i].
        -- injection E as <-. exists (length pre). auto.
        -- destruct (IH i) as (_ & A & _). destruct (A a) as (k & -> & Hk); [exact E|]. exists k. split; [reflexivity|lia].
      * intros a b Ea Eb. destruct i as [|i].
        -- injection Ea as <-. destruct (IH 0) as (A & _). destruct (A 0) as (k & E1 & Hk & E2); [lia|].
           change (vget (commas_from t (S (length pre)) ++ [Z.of_nat (length (pre ++ comma :: t))]) 0 = Some b) in Eb.
           rewrite E1 in Eb. injection Eb as <-. change (vget (f :: fs) 0 = Some (firstn (Z.to_nat (Z.of_nat k - (Z.of_nat (length pre) + 1)))
             (skipn (Z.to_nat (Z.of_nat (length pre) + 1)) (pre ++ comma :: t)))). rewrite E2.
           f_equal. f_equal; [lia|].
           replace (Z.to_nat (Z.of_nat (length pre) + 1)) with (length (pre ++ [comma])).
           ++ change (pre ++ comma :: t) with (pre ++ [comma] ++ t). rewrite app_assoc, skipn_app, skipn_all, Nat.sub_diag.
              reflexivity.
           ++ rewrite app_length. cbn [length]. lia.
        -- destruct (IH i) as (_ & _ & A & _). exact (A a b Ea Eb).
      * destruct (IH 0) as (_ & _ & _ & A). cbn [length]. cbn [length] in A. rewrite A. reflexivity.
    + split; [|split; [|split]].
      * intros a Ha. destruct (IH 0) as (A & _). destruct (A a) as (k & E1 & Hk & E2); [lia|].
        exists k. split; [exact E1|]. split; [lia|]. cbn in E2. injection E2 as ->.
        replace (k - length pre) with (S (k - S (length pre))) by lia. reflexivity.
      * intros a E. destruct (IH i) as (_ & A & _). destruct (A a E) as (k & -> & Hk). exists k. split; [reflexivity|lia].
      * intros a b Ea Eb. destruct (IH i) as (_ & _ & A & _). specialize (A a b Ea Eb). exact A.
      * destruct (IH 0) as (_ & _ & _ & A). exact A.
Qed.

Lemma field_split : forall l i, field (make_row l) i = vget (split comma l) i.
Proof.
  intros l i. unfold field, make_row. cbn [data line].
  destruct i as [|i].
  - destruct (fields_spec l [] 0) as (A & _). destruct (A 0) as (k & E1 & _ & E2); [cbn; lia|].
    cbn [app length] in E1, E2. rewrite E2.
    change (vget ((-1)%Z :: commas_from l 0 ++ [Z.of_nat (length l)]) 1)
      with (vget (commas_from l 0 ++ [Z.of_nat (length l)]) 0). rewrite E1. cbn [obind vget nth_error].
    f_equal. f_equal; lia.
  - destruct (fields_spec l [] i) as (_ & _ & A & L). cbn [app length] in A, L.
    change (vget ((-1)%Z :: commas_from l 0 ++ [Z.of_nat (length l)]) (S i))
      with (vget (commas_from l 0 ++ [Z.of_nat (length l)]) i).
    change (vget ((-1)%Z :: commas_from l 0 ++ [Z.of_nat (length l)]) (S (S i)))
      with (vget (commas_from l 0 ++ [Z.of_nat (length l)]) (S i)).
    destruct (vget (commas_from l 0 ++ [Z.of_nat (length l)]) (S i)) as [b|] eqn:Eb.
    + destruct (vget_some _ (commas_from l 0 ++ [Z.of_nat (length l)]) i) as (a & Ea).
      { apply vget_lt in Eb. lia. }
      rewrite Ea. cbn [obind]. symmetry. apply A; [assumption|reflexivity].
    + assert (length (split comma l) <= S i).
      { rewrite <- L. unfold vget in Eb. apply nth_error_None in Eb. exact Eb. }
      rewrite (vget_none _ (split comma l)) by assumption.
      destruct (vget (commas_from l 0 ++ [Z.of_nat (length l)]) i); reflexivity.
Qed.

(** Every line is split at its commas: the fields contain no comma and joined again
    give the line, which determines them; there is one more than commas; and there
    is no other field. *)
Theorem C40_fields : forall l, exists fs,
  length fs = S (count comma l) /\ size (make_row l) = length fs /\
  join comma fs = l /\ Forall (fun f => ~ In comma f) fs /\
  (forall i, field (make_row l) i = vget fs i) /\
  (forall fs', fs' <> [] -> Forall (fun f => ~ In comma f) fs' -> join comma fs' = l -> fs' = fs).
Proof.
  intro l. exists (split comma l). destruct (split_ok comma l) as (N & L & J & F).
  split; [assumption|]. split.
  - unfold size, make_row. cbn [data length]. destruct (fields_spec l [] 0) as (_ & _ & _ & E). cbn [app length] in E. lia.
  - split; [assumption|]. split; [assumption|]. split; [apply field_split|].
    intros fs' N' F' J'. apply (join_unique comma); auto. congruence.
Qed.
Print Assumptions C40_fields.

Example C40_fields_case :
  let l := String.list_ascii_of_string "1.5,,x,"%string in
  size (make_row l) = 4 /\ field (make_row l) 0 = Some (String.list_ascii_of_string "1.5"%string) /\
  field (make_row l) 1 = Some [] /\ field (make_row l) 2 = Some (String.list_ascii_of_string "x"%string) /\
  field (make_row l) 3 = Some [] /\ field (make_row l) 4 = None.
Proof. repeat split. Qed.

Lemma break_at_spec : forall d t a b, break_at d t = (a, b) ->
  ~ In d a /\ match b with Some r => t = a ++ d :: r | None => t = a end.
Proof.
  intros d. induction t as [|c t IH]; intros a b E; cbn in E.
  - injection E as <- <-. auto.
  - destruct (Ascii.eqb_spec c d) as [->|Hne].
    + injection E as <- <-. auto.
    + destruct (break_at d t) as (a', b') eqn:E'. injection E as <- <-.
      destruct (IH a' b' eq_refl) as (N & K). split.
      * cbn. intros [X|X]; [congruence|auto].
      * destruct b' as [r|]; rewrite K; reflexivity.
Qed.

(** How a text consists of lines: the last one need not be terminated, but then it
    is not empty. *)
Definition lines_of (ls : list text) (t : text) : Prop :=
  Forall (fun l => ~ In newline l) ls /\
  (t = concat (map (fun l => l ++ [newline]) ls) \/
   exists ls' l, ls = ls' ++ [l] /\ l <> [] /\ t = concat (map (fun l => l ++ [newline]) ls') ++ l).

Lemma rows_from_spec : forall fuel t, length t < fuel ->
  exists ls, rows_from fuel (mkStream t false false) = map make_row ls /\ lines_of ls t.
Proof.
  induction fuel as [|fuel IH]; intros t H; [lia|]. cbn [rows_from]. unfold getline. cbn [eof failed orb rest].
  destruct (break_at newline t) as (l, [r|]) eqn:E; destruct (break_at_spec _ _ _ _ E) as (N & K).
  - cbn [failed]. destruct (IH r) as (ls & Er & F & Hc).
    { subst t. rewrite app_length in H. cbn [length] in H. lia. }
    exists (l :: ls). rewrite Er. split; [reflexivity|]. split; [constructor; assumption|].
    destruct Hc as [->|(ls' & l' & -> & Hl & ->)].
    + left. subst t. cbn [map concat]. rewrite <- app_assoc. reflexivity.
    + right. exists (l :: ls'), l'. split; [reflexivity|]. split; [assumption|]. subst t. cbn [map concat].
      rewrite <- !app_assoc. reflexivity.
  - subst t. destruct l as [|c l]; cbn [failed].
    + exists []. split; [reflexivity|]. split; [constructor|]. left. reflexivity.
    + exists [c :: l]. split.
      * cbn [map]. f_equal. destruct fuel; reflexivity.
      * split; [repeat constructor; assumption|]. right. exists [], (c :: l). repeat split. discriminate.
Qed.

(** A text has only one list of lines. *)
Lemma lines_unique : forall a b t, lines_of a t -> lines_of b t -> a = b.
Proof.
  assert (S : forall x y u v, ~ In newline x -> ~ In newline y -> x ++ newline :: u = y ++ newline :: v -> x = y /\ u = v).
  { intros x. induction x as [|c x IH]; intros y u v Hx Hy E; destruct y as [|c' y]; cbn in E.
    - injection E as ->. auto.
    - injection E as X _. destruct Hy. left. symmetry. exact X.
    - injection E as X _. destruct Hx. left. exact X.
    - injection E as -> E. destruct (IH y u v) as (-> & ->); auto; intro X; [apply Hx|apply Hy]; right; assumption. }
  (* a line list is determined by its first line and the rest of the text *)
  assert (U : forall x a t, lines_of (x :: a) t ->
    (exists r, t = x ++ newline :: r /\ lines_of a r) \/ (a = [] /\ x <> [] /\ t = x)).
  { intros x a t (F & [->|(ls' & l & E & Hl & ->)]); inversion F as [|? ? Fx Fa]; subst.
    - left. exists (concat (map (fun l => l ++ [newline]) a)). cbn [map concat]. rewrite <- app_assoc. split; [reflexivity|].
      split; [assumption|]. left. reflexivity.
    - destruct ls' as [|y ls']; cbn [app] in E.
      + right. injection E as -> ->. auto.
      + left. injection E as -> ->. exists (concat (map (fun l => l ++ [newline]) ls') ++ l).
        cbn [map concat]. rewrite <- !app_assoc. split; [reflexivity|]. split; [assumption|]. right. exists ls', l. auto. }
  assert (Z : forall t, lines_of [] t -> t = []).
  { intros t (_ & [->|(ls' & l & E & _)]); [reflexivity|]. destruct ls'; discriminate. }
  intros a. induction a as [|x a IH]; intros b t Ha Hb.
  - apply Z in Ha. subst t. destruct b as [|y b]; [reflexivity|].
    destruct (U y b [] Hb) as [(r & E & _)|(_ & Hy & E)]; [destruct y; discriminate|congruence].
  - destruct b as [|y b].
    + apply Z in Hb. subst t. destruct (U x a [] Ha) as [(r & E & _)|(_ & Hx & E)]; [destruct x; discriminate|congruence].
    + pose proof (proj1 Ha) as Fa. pose proof (proj1 Hb) as Fb.
      inversion Fa as [|? ? Fx _]. inversion Fb as [|? ? Fy _]. subst.
      destruct (U x a t Ha) as [(r & E & H)|(-> & Hx & E)]; destruct (U y b t Hb) as [(r' & E' & H')|(-> & Hy & E')].
      * rewrite E in E'. destruct (S _ _ _ _ Fx Fy E') as (-> & ->). f_equal. apply (IH b r'); assumption.
      * exfalso. apply Fy. rewrite <- E', E. apply in_or_app. right. left. reflexivity.
      * exfalso. apply Fx. rewrite <- E, E'. apply in_or_app. right. left. reflexivity.
      * congruence.
Qed.

(** The reader goes over the lines of the text, in their order, each of them once. *)
Theorem C40_lines : forall t, exists ls,
  rows t = map make_row ls /\ lines_of ls t /\ forall ls', lines_of ls' t -> ls' = ls.
Proof.
  intro t. destruct (rows_from_spec (S (length t)) t) as (ls & E & H); [lia|].
  exists ls. split; [exact E|]. split; [exact H|]. intros ls' H'. exact (lines_unique ls' ls t H' H).
Qed.
Print Assumptions C40_lines.

Section Particles.

Variable D : Type.
Variable stod : text -> option D.
Variable dim : nat.

(** The particle given by a line. *)
Definition describes (l : text) (p : particle D) : Prop :=
  exists fs, fs <> [] /\ Forall (fun f => ~ In comma f) fs /\ join comma fs = l /\
    length (center _ p) = dim /\
    (forall d, d < dim -> exists f x, vget fs d = Some f /\ stod f = Some x /\ vget (center _ p) d = Some x) /\
    (exists f, vget fs 3 = Some f /\ stod f = Some (radius _ p)).

Lemma numbers_at_spec : forall r is xs, numbers_at D stod r is = Some xs <->
  length xs = length is /\ forall k i, vget is k = Some i -> exists x, number_at D stod r i = Some x /\ vget xs k = Some x.
Proof.
  intros r is. induction is as [|i is IH]; intros xs; cbn [numbers_at].
  - split.
    + intro E. injection E as <-. split; [reflexivity|]. intros k j X. destruct k; discriminate.
    + intros (L & _). destruct xs; [reflexivity|discriminate].
  - split.
    + intro E. destruct (number_at D stod r i) as [x|] eqn:Ex; [|discriminate]. cbn [obind] in E.
      destruct (numbers_at D stod r is) as [ys|] eqn:Ey; [|discriminate]. cbn [obind] in E. injection E as <-.
      destruct (proj1 (IH ys) eq_refl) as (L & K). split; [cbn; lia|]. intros k j X. destruct k as [|k].
      * injection X as <-. exists x. auto.
      * exact (K k j X).
    + intros (L & K). destruct (K 0 i eq_refl) as (x & Ex & Hx). rewrite Ex. cbn [obind].
      destruct xs as [|x' xs]; [discriminate|]. injection Hx as ->.
      rewrite (proj2 (IH xs)); [reflexivity|]. split; [cbn in L; lia|]. intros k j X. exact (K (S k) j X).
Qed.

Lemma row_describes : forall l pt r0 i,
  (numbers_at D stod (make_row l) (seq 0 dim) = Some pt /\ number_at D stod (make_row l) 3 = Some r0) <->
  describes l (mkParticle _ pt r0 i).
Proof.
  intros l pt r0 i. destruct (C40_fields l) as (fs & _ & _ & J & F & G & U).
  assert (N : fs <> []). { destruct (split_ok comma l) as (N & _). intro X. subst fs.
    specialize (G 0). rewrite field_split in G. destruct (split comma l); [congruence|discriminate]. }
  unfold describes. cbn [center radius]. rewrite numbers_at_spec, seq_length. unfold number_at. split.
  - intros ((L & K) & R). exists fs. split; [assumption|]. split; [assumption|]. split; [assumption|].
    split; [assumption|]. split.
    + intros d Hd. destruct (K d d) as (x & E & Hx); [rewrite vget_seq by assumption; reflexivity|].
      rewrite G in E. destruct (vget fs d) as [f|]; [|discriminate]. exists f, x. auto.
    + rewrite G in R. destruct (vget fs 3) as [f|]; [|discriminate]. exists f. auto.
  - intros (fs' & N' & F' & J' & L & K & (f3 & E3 & R3)). rewrite (U fs' N' F' J') in *.
    split.
    + split; [assumption|]. intros k j X.
      assert (Hk : k < dim). { apply vget_lt in X. rewrite seq_length in X. assumption. }
      rewrite vget_seq in X by assumption. cbn in X. injection X as <-.
      destruct (K k Hk) as (f & x & Ef & Ex & Hx). exists x. rewrite G, Ef. cbn [obind]. auto.
    + rewrite G, E3. exact R3.
Qed.

Lemma read_rows_spec : forall ls i ps qs,
  read_rows D stod dim (map make_row ls) true i ps = Some qs <->
  exists new, qs = ps ++ new /\ length new = length ls /\
    forall k l, vget ls k = Some l -> exists p, vget new k = Some p /\ id _ p = i + k /\ describes l p.
Proof.
  induction ls as [|l ls IH]; intros i ps qs; cbn [map read_rows].
  - split.
    + intro E. injection E as <-. exists []. rewrite app_nil_r. split; [reflexivity|]. split; [reflexivity|].
      intros k l X. destruct k; discriminate.
    + intros (new & -> & L & _). destruct new; [|discriminate]. rewrite app_nil_r. reflexivity.
  - split.
    + intro E. destruct (numbers_at D stod (make_row l) (seq 0 dim)) as [pt|] eqn:E1; [|discriminate].
      destruct (number_at D stod (make_row l) 3) as [r0|] eqn:E2; [|discriminate]. cbn [obind] in E.
      apply IH in E. destruct E as (new & -> & L & K).
      exists (mkParticle _ pt r0 i :: new). rewrite <- app_assoc. split; [reflexivity|]. split; [cbn; lia|].
      intros k l' X. destruct k as [|k].
      * injection X as <-. eexists. split; [reflexivity|]. split; [cbn; lia|]. apply row_describes. auto.
      * destruct (K k l' X) as (p & Ep & Hid & Hd). exists p. split; [exact Ep|]. split; [lia|assumption].
    + intros (new & -> & L & K). destruct (K 0 l eq_refl) as (p & Ep & Hid & Hd).
      destruct new as [|p' new]; [discriminate|]. injection Ep as ->. destruct p as [pt r0 j]. cbn [id] in Hid.
      apply row_describes in Hd. destruct Hd as (E1 & E2). rewrite E1, E2. cbn [obind].
      apply (IH (S i)). exists new. rewrite <- app_assoc. replace j with i by lia. split; [reflexivity|].
      split; [cbn in L; lia|]. intros k l' X. destruct (K (S k) l' X) as (p & Ep & Hid' & Hd'). exists p.
      split; [exact Ep|]. split; [lia|assumption].
Qed.

(** The particles are those of the lines after the header, in this order and with
    consecutive ids; reading succeeds exactly if all these lines have their numbers. *)
Theorem C40_particles : forall t ls ps, lines_of ls t ->
  (read_particles D stod dim t = Some ps <->
   length ps = length ls - 1 /\
   forall k l, vget ls (S k) = Some l -> exists p, vget ps k = Some p /\ id _ p = k /\ describes l p).
Proof.
  intros t ls ps H. destruct (C40_lines t) as (ls' & E & H' & U). rewrite <- (U ls H) in E.
  unfold read_particles. rewrite E. destruct ls as [|h ls].
  - cbn. split.
    + intro X. injection X as <-. split; [reflexivity|]. intros k l Y. discriminate.
    + intros (L & _). destruct ps; [reflexivity|discriminate].
  - cbn [map read_rows]. rewrite read_rows_spec. replace (length (h :: ls) - 1) with (length ls) by (cbn [length]; lia). split.
    + intros (new & -> & L & K). split; [exact L|]. exact K.
    + intros (L & K). exists ps. split; [reflexivity|]. split; [exact L|]. exact K.
Qed.

End Particles.
Print Assumptions C40_particles.

(** A blank line at the end makes the reading fail. *)
Theorem C40_blank_line_fails : forall D (stod : text -> option D) dim t ls, 0 < dim ->
  stod [] = None -> lines_of ls t -> (exists k, vget ls (S k) = Some []) ->
  read_particles D stod dim t = None.
Proof.
  intros D stod dim t ls Hd Hs H (k & Hk).
  destruct (read_particles D stod dim t) as [ps|] eqn:E; [|reflexivity]. exfalso.
  apply (proj1 (C40_particles D stod dim t ls ps H)) in E. destruct E as (_ & K).
  destruct (K k [] Hk) as (p & _ & _ & fs & N & F & J & _ & C & _).
  destruct (C 0 Hd) as (f & x & Ef & Ex & _).
  assert (fs = [[]]). { apply (join_unique comma); auto. discriminate. }
  subst fs. injection Ef as <-. congruence.
Qed.
Print Assumptions C40_blank_line_fails.

Definition digits (t : text) : option nat :=
  match t with
  | [] => None
  | _ => fold_left (fun o c => match o with
      | Some n => let k := nat_of_ascii c in if (48 <=? k) && (k <=? 57) then Some (10 * n + (k - 48)) else None
      | None => None end) t (Some 0)
  end.

Example C40_particles_case :
  let t := String.list_ascii_of_string "x,y,z,r"%string ++ newline :: String.list_ascii_of_string "1,2,0,7"%string ++ newline ::
           String.list_ascii_of_string "34,5,0,6"%string in
  read_particles nat digits 2 t = Some [mkParticle _ [1; 2] 7 0; mkParticle _ [34; 5] 6 1] /\
  read_particles nat digits 3 t = Some [mkParticle _ [1; 2; 0] 7 0; mkParticle _ [34; 5; 0] 6 1] /\
  read_particles nat digits 2 (t ++ [newline; newline]) = None.
Proof. repeat split; vm_compute; reflexivity. Qed.
