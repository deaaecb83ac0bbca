(** Lemmas on the operators of the block preconditioner. *)
From Coq Require Import String List Reals Arith Bool Lia Lra.
From Verif Require Import Util FreeEnergyModel FreeEnergyProofs MobilityModel MobilityProofs OperatorModel OperatorProofs OperatorProps PreconModel.
Import ListNotations.
Local Open Scope list_scope.
Local Open Scope R_scope.

(** ** zeros for order parameters that are not relevant *)
Section Dense.
  Variables (rel : nat -> bool) (val : nat -> R).
  Let dense (l : list nat) := map (fun g => if rel g then val g else 0) l.
  Let sparse (l : list nat) := map val (filter rel l).
  Lemma dense_psum2 : forall l, psum 2 (dense l) = psum 2 (sparse l).
  Proof. induction l as [| g l IH]; [reflexivity |]. unfold dense, sparse in *. cbn [map filter]. destruct (rel g); cbn [map psum]; rewrite IH; [reflexivity | ring]. Qed.
  Lemma dense_rsum : forall l, rsum (dense l) = rsum (sparse l).
  Proof. induction l as [| g l IH]; [reflexivity |]. unfold dense, sparse in *. cbn [map filter]. destruct (rel g); cbn [map rsum]; rewrite IH; [reflexivity | ring]. Qed.
  Lemma dense_sqsum : forall l, sqsum (dense l) = sqsum (sparse l).
  Proof. induction l as [| g l IH]; [reflexivity |]. unfold dense, sparse in *. cbn [map filter]. destruct (rel g); cbn [map sqsum]; rewrite IH; [reflexivity | ring]. Qed.
  Lemma dense_ij : forall l, eta_ij_sum (dense l) = eta_ij_sum (sparse l).
  Proof. intros l. rewrite !eta_ij_sum_spec, dense_rsum, dense_sqsum. reflexivity. Qed.
End Dense.

Lemma dense_velocities : forall (rel : nat -> bool) (vel : nat -> option vec) c l g,
  ch_advection (map (fun g => if rel g then vel g else None) l) c g = advect_c (map vel (filter rel l)) c g.
Proof.
  intros rel vel c. induction l as [| a l IH]; intros g; [reflexivity |]. cbn [map filter ch_advection].
  destruct (rel a); [| apply IH]. cbn [map advect_c]. destruct (vel a); apply IH.
Qed.

Lemma prodsum_zero : forall etas, prodsum etas (map (fun _ => 0) etas) = 0.
Proof. induction etas as [| e l IH]; [reflexivity |]. cbn [map prodsum]. rewrite IH. ring. Qed.
Lemma rsum_zero : forall {A} (l : list A), rsum (map (fun _ => 0) l) = 0.
Proof. induction l as [| e l IH]; [reflexivity |]. cbn [map rsum]. rewrite IH. ring. Qed.
Lemma prodsum_zero_map : forall {A} (f : A -> R) l, prodsum (map f l) (map (fun _ => 0) l) = 0.
Proof. induction l as [| e l IH]; [reflexivity |]. cbn [map prodsum]. rewrite IH. ring. Qed.
Lemma dcsum_zero_map : forall {A} e (f : A -> R) l, dcsum e (map f l) (map (fun _ => 0) l) = 0.
Proof. induction l as [| x l IH]; [reflexivity |]. cbn [map dcsum]. rewrite IH. ring. Qed.

Lemma value_zero : forall n q b (u : state), (forall j, u b j = 0) -> value_at n q u b = 0.
Proof. intros n q b u H. unfold value_at. rewrite (vsum_ext _ _ (fun _ => 0)) by (intros; rewrite H; ring). apply vsum_zero. Qed.
Lemma grad_zero : forall n q b (u : state) d, (forall j, u b j = 0) -> grad_at n q u b d = 0.
Proof. intros n q b u d H. unfold grad_at. rewrite (vsum_ext _ _ (fun _ => 0)) by (intros; rewrite H; ring). apply vsum_zero. Qed.
Lemma value_same : forall n q b b' (u v : state), (forall j, u b j = v b' j) -> value_at n q u b = value_at n q v b'.
Proof. intros n q b b' u v H. unfold value_at. apply vsum_ext. intros. rewrite H. reflexivity. Qed.
Lemma grad_same : forall n q b b' (u v : state) d, (forall j, u b j = v b' j) -> grad_at n q u b d = grad_at n q v b' d.
Proof. intros n q b b' u v d H. unfold grad_at. apply vsum_ext. intros. rewrite H. reflexivity. Qed.

Lemma scatter_not : forall dim q k i blocks vs gs, ~ In k blocks -> scatter dim q blocks vs gs k i = 0.
Proof.
  intros dim q k i. induction blocks as [| b blocks IH]; intros vs gs H; [reflexivity |].
  cbn [scatter]. destruct vs as [| v vs]; [reflexivity |]. destruct gs as [| g gs]; [reflexivity |].
  destruct (Nat.eqb_spec b k) as [-> | _]; [exfalso; apply H; left; reflexivity |].
  rewrite IH; [ring | intros C; apply H; right; exact C].
Qed.
Lemma scatter_bare : forall dim q ng k i blocks vs gs, scatter dim (jacobian_point ng q) blocks vs gs k i = scatter dim (bare q) blocks vs gs k i.
Proof. intros dim q ng k i. induction blocks as [| b blocks IH]; intros [| v vs] [| g gs]; try reflexivity. cbn [scatter]. rewrite IH. reflexivity. Qed.
Lemma scatter_shift : forall dim q k i blocks vs gs, scatter dim q (map (fun g => S (S g)) blocks) vs gs (S (S k)) i = scatter dim q blocks vs gs k i.
Proof. intros dim q k i. induction blocks as [| b blocks IH]; intros [| v vs] [| g gs]; try reflexivity. cbn [map scatter Nat.eqb]. rewrite IH. reflexivity. Qed.
Lemma scatter_map : forall dim q k i (F : nat -> R) (H : nat -> vec) l, NoDup l ->
  scatter dim q l (map F l) (map H l) k i = if in_dec Nat.eq_dec k l then q_w q * (q_N q i * F k + dot dim (q_G q i) (H k)) else 0.
Proof.
  intros dim q k i F H. induction l as [| a l IH]; intros N; [reflexivity |]. inversion N as [| x y N1 N2]; subst.
  cbn [map scatter]. destruct (Nat.eqb_spec a k) as [-> | D].
  - rewrite scatter_not by exact N1. destruct (in_dec Nat.eq_dec k (k :: l)) as [_ | C]; [ring | exfalso; apply C; left; reflexivity].
  - rewrite IH by exact N2. destruct (in_dec Nat.eq_dec k l) as [I | I], (in_dec Nat.eq_dec k (a :: l)) as [I' | I']; try ring.
    + exfalso. apply I'. right. exact I.
    + destruct I' as [-> | I']; [contradiction | contradiction].
Qed.

(** ** the linearised operator with functions of the order parameter *)
Definition lin_row (p : op_data) (e : evaluation) (c' : R) (val val' : nat -> R) (l : list nat) (g : nat) : R :=
  val' g * o_weight p + o_L p * (d2f_dcdetai e (val g) * c' + d2f_detai2 e (val g) * val' g)
  + o_L p * 24 * o_B p * val g * (dotp (map val l) (map val' l) - val g * val' g).
Definition lin_grad (p : op_data) (vel : nat -> option vec) (val' : nat -> R) (gr' : nat -> vec) (g : nat) : vec :=
  match vel g with Some v => fun d => o_L p * o_kappa_p p * gr' g d - v d * val' g | None => fun d => o_L p * o_kappa_p p * gr' g d end.

Lemma advect_etas_map : forall p vel val' gr' l,
  advect_etas (map vel l) (map val' l) (eta_grads p (map gr' l)) = map (lin_grad p vel val' gr') l.
Proof.
  intros p vel val' gr'. induction l as [| g l IH]; [reflexivity |]. cbn [map eta_grads advect_etas].
  rewrite <- IH. unfold lin_grad at 1. reflexivity.
Qed.

Lemma list_nth_map : forall (F : nat -> R) l (r : list R), length r = length l ->
  (forall i, (i < length l)%nat -> nth i r 0 = F (nth i l 0%nat)) -> r = map F l.
Proof.
  intros F l. induction l as [| g l IH]; intros [| x r] L H; cbn in L; try discriminate; [reflexivity |].
  cbn [map]. f_equal; [apply (H 0%nat); cbn; lia |]. apply IH; [congruence |]. intros i Hi. apply (H (S i)). cbn. lia.
Qed.

Lemma vmult_point_map : forall p c mu gc gmu getas c' mu' gc' gmu' val val' gr' vel l,
  vmult_point p (map vel l) (c :: mu :: map val l) (gc :: gmu :: getas) (c' :: mu' :: map val' l) (gc' :: gmu' :: map gr' l)
  = Some (c' * o_weight p :: (o_weight_alg p * mu' - d2f_dc2 (eval_lin p c (map val l)) * c' - dcsum (eval_lin p c (map val l)) (map val l) (map val' l))
            :: map (lin_row p (eval_lin p c (map val l)) c' val val' l) l,
          advect_c (map vel l) c' (apply_M_derivative p c (map val l) gc getas gmu c' (map val' l) gc' gmu') :: (fun d => - o_kappa_c p * gc' d)
            :: map (lin_grad p vel val' gr') l).
Proof.
  intros. destruct (vmult_point_spec p (map vel l) c mu (map val l) gc gmu getas c' mu' (map val' l) gc' gmu' (map gr' l)) as [retas [E [L G]]];
    rewrite ?map_length; auto.
  rewrite E, advect_etas_map. do 3 f_equal. f_equal.
  apply list_nth_map; [rewrite L, map_length; reflexivity |]. intros i Hi. rewrite G by (rewrite map_length; exact Hi).
  unfold lin_row. rewrite !(nth_indep (map val l) 0 (val 0%nat)) by (rewrite map_length; exact Hi). rewrite !map_nth.
  rewrite !(nth_indep (map val' l) 0 (val' 0%nat)) by (rewrite map_length; exact Hi). rewrite !map_nth. reflexivity.
Qed.

(** ** the Allen-Cahn operator *)
Fixpoint except (ig jg : nat) (lins value : list R) : R :=
  match lins, value with l :: lins, v :: value => (if Nat.eqb ig jg then l * v else 0) + except ig (S jg) lins value | _, _ => 0 end.
Lemma ac_inner_spec : forall p e vi ig lins value jg acc, length value = length lins ->
  ac_inner p e vi ig jg lins value acc = Some (acc + o_L p * 24 * e_B e * vi * (dotp lins value - except ig jg lins value)).
Proof.
  intros p e vi ig. induction lins as [| l lins IH]; intros [| v value] jg acc L; cbn in L; try discriminate; cbn [ac_inner dotp except].
  - f_equal. ring.
  - rewrite IH by congruence. f_equal. unfold d2f_detaidetaj. destruct (Nat.eqb ig jg); ring.
Qed.
Lemma except_map : forall (val val' : nat -> R) ig k s, (s <= ig < s + k)%nat -> except ig s (map val (seq s k)) (map val' (seq s k)) = val ig * val' ig.
Proof.
  intros val val' ig k. assert (Z : forall m s, (ig < s)%nat -> except ig s (map val (seq s m)) (map val' (seq s m)) = 0).
  { induction m as [| j IH]; intros s H; [reflexivity |]. cbn [seq map except]. destruct (Nat.eqb_spec ig s); [lia |]. rewrite IH by lia. ring. }
  induction k as [| j IH]; intros s H; [lia |]. cbn [seq map except]. destruct (Nat.eqb_spec ig s) as [-> | D].
  - rewrite Z by lia. ring.
  - rewrite IH by lia. ring.
Qed.

Lemma ac_rows_map : forall p e coupled (val val' : nat -> R) (gr' : nat -> vec) ng k s, (s + k <= ng)%nat -> e_B e = o_B p ->
  ac_rows p e coupled (map val (seq 0 ng)) (map val' (seq 0 ng)) s (map val (seq s k)) (map val' (seq s k)) (map gr' (seq s k))
  = Some (map (fun g => val' g * o_weight p + o_L p * d2f_detai2 e (val g) * val' g
                 + (if coupled then o_L p * 24 * o_B p * val g * (dotp (map val (seq 0 ng)) (map val' (seq 0 ng)) - val g * val' g) else 0)) (seq s k),
          map (fun g d => o_L p * o_kappa_p p * gr' g d) (seq s k)).
Proof.
  intros p e coupled val val' gr' ng. induction k as [| k IH]; intros s H HB; [reflexivity |].
  cbn [seq map ac_rows]. destruct coupled.
  - rewrite ac_inner_spec by (rewrite !map_length; reflexivity). cbn [obind]. rewrite IH by (lia || exact HB). cbn [obind fst snd].
    rewrite except_map by lia. rewrite HB. reflexivity.
  - cbn [obind]. rewrite IH by (lia || exact HB). cbn [obind fst snd]. rewrite Rplus_0_r. reflexivity.
Qed.

Lemma ac_advection_map : forall (vel : nat -> option vec) v0 (gr : nat -> vec) l,
  ac_advection (map vel l) v0 (map gr l) = Some (map (fun g => match vel g with Some v => fun d => gr g d - v d * v0 | None => gr g end) l).
Proof. intros vel v0 gr. induction l as [| g l IH]; [reflexivity |]. cbn [map ac_advection]. rewrite IH. reflexivity. Qed.

Lemma relevant_all : forall ng q, (forall g, (g < ng)%nat -> k_rel q g = true) -> relevant ng q = seq 0 ng.
Proof.
  intros ng q H. unfold relevant. assert (G : forall g, In g (seq 0 ng) -> k_rel q g = true) by (intros g I; apply in_seq in I; apply H; lia).
  revert G. generalize (seq 0 ng). induction l as [| a l IH]; intros G; [reflexivity |]. cbn [filter]. rewrite (G a (or_introl eq_refl)).
  f_equal. apply IH. intros g I. apply G. right. exact I.
Qed.
Lemma relevant_nodup : forall ng q, NoDup (relevant ng q).
Proof. intros. unfold relevant. apply NoDup_filter. apply seq_NoDup. Qed.
