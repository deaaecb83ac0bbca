(** C89: wrappers of linear solvers and of SNES. *)
From Coq Require Import String List NArith QArith Qabs Arith Bool Lia Lqa.
From Verif Require Import Util MeshFlagsModel VmultModel VmultProofs VmultProps LinearSolverModel.
Import ListNotations.
Local Open Scope list_scope.

(** A solver is sound for a notion of solution if it only returns with solutions and within the
    number of steps it may take. *)
Definition sound {V} (good : V -> V -> Prop) (k : solver V) : Prop :=
  forall steps dst src, a_end (k steps dst src) = Returned -> good (a_dst (k steps dst src)) src /\ (a_steps (k steps dst src) <= steps)%N.

(** ** GMRES, CG, IDR: a number is returned only with a solution and is the number of steps;
    the limit stays; failures of the solver are handed on. *)
Theorem C89_plain : forall V (good : V -> V -> Prop) k c (dst src : V), sound good k ->
  let r := solve_plain k c dst src in
  max_steps (s_control r) = max_steps c
  /\ (forall n, s_out r = Number n -> good (s_dst r) src /\ (n <= max_steps c)%N /\ last_step (s_control r) = n)
  /\ (forall e, s_out r = Failed e -> a_end (k (max_steps c) dst src) = e /\ e <> Returned).
Proof.
  intros V good k c dst src H r. unfold r, solve_plain. cbn. split; [reflexivity |]. specialize (H (max_steps c) dst src).
  destruct (a_end (k (max_steps c) dst src)) eqn:E; split; intros x Ex; try discriminate; injection Ex as <-.
  - destruct (H eq_refl) as [G L]. repeat split; [exact G | exact L].
  - split; [reflexivity | discriminate].
  - split; [reflexivity | discriminate].
Qed.
Print Assumptions C89_plain.

(** ** Bicgstab with GMRES as fallback, whatever the two solvers do: a number is only returned with a
    solution; the limit of steps is the one from before; after a failure of Bicgstab the vector is
    what GMRES alone makes of the vector handed over; the number returned is that of the steps and
    is within both limits; a missing convergence is reported only if both did not converge. *)
Theorem C89_bicgstab : forall V (good : V -> V -> Prop) bicgstab gmres default tries c (dst src : V),
  sound good bicgstab -> sound good (gmres default) -> (max_steps c + tries < 2 ^ 32)%N ->
  let r := solve_bicgstab bicgstab gmres default tries c dst src in
  let alone := solve_plain (gmres default) c dst src in
  (forall n, s_out r = Number n -> good (s_dst r) src /\ (n <= max_steps c + tries)%N)
  /\ (s_out r <> Failed OtherException -> max_steps (s_control r) = max_steps c)
  /\ (a_end (bicgstab tries dst src) = Returned -> s_dst r = a_dst (bicgstab tries dst src) /\ s_out r = Number (a_steps (bicgstab tries dst src)))
  /\ (a_end (bicgstab tries dst src) = NoConvergence -> s_dst r = s_dst alone
        /\ (forall n, s_out alone = Number n -> s_out r = Number (n + tries)%N) /\ (forall e, s_out alone = Failed e -> s_out r = Failed e))
  /\ (s_out r = Failed NoConvergence -> a_end (bicgstab tries dst src) = NoConvergence /\ s_out alone = Failed NoConvergence).
Proof.
  intros V good bi gm de tries c dst src Hb Hg Hs. cbv zeta. unfold solve_bicgstab, solve_plain. cbn.
  specialize (Hb tries dst src). specialize (Hg (max_steps c) dst src).
  destruct (a_end (bi tries dst src)) eqn:E; cbn.
  - destruct (Hb eq_refl) as [G L]. repeat split; try (intros; discriminate); intros; try reflexivity; try match goal with h : Number _ = Number _ |- _ => injection h as <- end; try exact G; try lia; try reflexivity.
  - destruct (a_end (gm de (max_steps c) dst src)) eqn:E2; cbn.
    + destruct (Hg eq_refl) as [G L].
      assert (U : u32 (a_steps (gm de (max_steps c) dst src) + tries) = (a_steps (gm de (max_steps c) dst src) + tries)%N) by (unfold u32; apply N.mod_small; lia).
      rewrite U. repeat split; try (intros; discriminate); intros; try reflexivity; try match goal with h : Number _ = Number _ |- _ => injection h as <- end; try exact G; try lia; try reflexivity.
    + repeat split; intros; try discriminate; try reflexivity; try congruence.
    + repeat split; intros; try discriminate; try reflexivity; try congruence.
  - repeat split; intros; try discriminate; try reflexivity; try congruence.
Qed.
Print Assumptions C89_bicgstab.
(** Bicgstab stops after 30 steps far away, GMRES starts from the old vector and needs 7 steps *)
Example C89_bicgstab_applies :
  let bi : solver N := fun steps d s => {| a_dst := 99; a_steps := steps; a_end := NoConvergence |}%N in
  let gm : orthogonalisation -> solver N := fun _ steps d s => {| a_dst := d + 2; a_steps := 7; a_end := Returned |}%N in
  solve_bicgstab bi gm Modified 30 {| max_steps := 1000; last_step := 5 |} 3%N 5%N
  = {| s_dst := 5%N; s_control := {| max_steps := 1000; last_step := 7 |}; s_out := Number 37 |}.
Proof. reflexivity. Qed.

(** Runs of several solves with the same control *)
Fixpoint solves {V} (bicgstab : solver V) gmres default tries (c : control) (systems : list (V * V)) : control * list outcome :=
  match systems with
  | [] => (c, [])
  | (dst, src) :: systems =>
      let r := solve_bicgstab bicgstab gmres default tries c dst src in
      let '(c, os) := solves bicgstab gmres default tries (s_control r) systems in (c, s_out r :: os)
  end.
(** ** The limit does not wear off: as long as no foreign exception occurs each solve of a run has
    the limit the run started with *)
Theorem C89_run : forall V (bicgstab : solver V) gmres default tries systems c,
  ~ In (Failed OtherException) (snd (solves bicgstab gmres default tries c systems)) ->
  max_steps (fst (solves bicgstab gmres default tries c systems)) = max_steps c.
Proof.
  intros V bi gm de tries systems. induction systems as [| [d s] rest IH]; intros c H; [reflexivity |].
  cbn [solves] in *. specialize (IH (s_control (solve_bicgstab bi gm de tries c d s))).
  destruct (solves bi gm de tries (s_control (solve_bicgstab bi gm de tries c d s)) rest) as [c' os] eqn:E. cbn in *.
  rewrite IH by (intros I; apply H; right; exact I).
  assert (N1 : s_out (solve_bicgstab bi gm de tries c d s) <> Failed OtherException) by (intros F; apply H; left; exact F).
  unfold solve_bicgstab in *. cbn in *. destruct (a_end (bi tries d s)); cbn in *; try reflexivity. congruence.
Qed.
Print Assumptions C89_run.

(** ** Refuted: the control is as before after every call.  A foreign exception (from the operator
    or the preconditioner, not a missing convergence) leaves the limit of Bicgstab behind. *)
Theorem C89_exception_refuted : forall tries c, tries <> max_steps c -> exists (bicgstab : solver N) gmres default dst src,
  max_steps (s_control (solve_bicgstab bicgstab gmres default tries c dst src)) <> max_steps c.
Proof.
  intros tries c H. exists (fun steps d s => {| a_dst := d; a_steps := 0; a_end := OtherException |}%N), (fun _ steps d s => {| a_dst := d; a_steps := 0; a_end := Returned |}%N), Modified, 0%N, 0%N.
  cbn. exact H.
Qed.
Print Assumptions C89_exception_refuted.
(** ** Refuted: the number returned is the number of steps done.  When Bicgstab gives up early the
    steps it may have done are counted: with the defaults (30 tries, limit 20 of the Newton
    solver) 3 + 4 steps are reported as 34 and make the Newton solver rebuild the preconditioner *)
Theorem C89_count_refuted : exists (bicgstab : solver N) gmres default c dst src n,
  s_out (solve_bicgstab bicgstab gmres default 30 c dst src) = Number n
  /\ (a_steps (bicgstab 30%N dst src) + a_steps (gmres default (max_steps c) dst src) <= 20 < n)%N.
Proof.
  exists (fun steps d s => {| a_dst := d; a_steps := 3; a_end := NoConvergence |}%N), (fun _ steps d s => {| a_dst := s; a_steps := 4; a_end := Returned |}%N), Modified, {| max_steps := 1000; last_step := 0 |}, 0%N, 0%N, 34%N.
  split; [reflexivity | cbn; lia].
Qed.
Print Assumptions C89_count_refuted.

(** ** The choice of the wrapper: exactly the labels of the parameter file are known, different
    labels give different wrappers, and each strategy of the parameter file is known to GMRES *)
Theorem C89_create : forall strategy tries,
  (forall label, In label ["GMRES"; "IDR"; "Bicgstab"; "Relaxation"; "Direct"]%string <-> create strategy tries label <> None)
  /\ (forall l1 l2 w, create strategy tries l1 = Some w -> create strategy tries l2 = Some w -> l1 = l2)
  /\ create strategy tries "GMRES" = Some (GMRES strategy) /\ create strategy tries "Bicgstab" = Some (Bicgstab tries)
  /\ (forall V (gmres : orthogonalisation -> solver V) c dst src, In strategy ["classical gram schmidt"; "modified gram schmidt"]%string <-> solve_gmres gmres strategy c dst src <> None).
Proof.
  intros strategy tries. unfold create, create_iterative. split; [| split; [| split; [reflexivity | split; [reflexivity |]]]].
  - intros label. split.
    + intros [<- | [<- | [<- | [<- | [<- | []]]]]]; discriminate.
    + destruct (String.eqb_spec label "Direct") as [-> | _]; [cbn; tauto |]. destruct (String.eqb_spec label "GMRES") as [-> | _]; [cbn; tauto |].
      destruct (String.eqb_spec label "Relaxation") as [-> | _]; [cbn; tauto |]. destruct (String.eqb_spec label "IDR") as [-> | _]; [cbn; tauto |].
      destruct (String.eqb_spec label "Bicgstab") as [-> | _]; [cbn; tauto |]. intros H. exfalso. apply H. reflexivity.
  - intros l1 l2 w.
    destruct (String.eqb_spec l1 "Direct") as [-> | _]; [| destruct (String.eqb_spec l1 "GMRES") as [-> | _]; [| destruct (String.eqb_spec l1 "Relaxation") as [-> | _];
      [| destruct (String.eqb_spec l1 "IDR") as [-> | _]; [| destruct (String.eqb_spec l1 "Bicgstab") as [-> | _]]]]]; intros E; try discriminate; injection E as <-;
    (destruct (String.eqb_spec l2 "Direct") as [-> | _]; [| destruct (String.eqb_spec l2 "GMRES") as [-> | _]; [| destruct (String.eqb_spec l2 "Relaxation") as [-> | _];
      [| destruct (String.eqb_spec l2 "IDR") as [-> | _]; [| destruct (String.eqb_spec l2 "Bicgstab") as [-> | _]]]]]); intros E; try discriminate; reflexivity.
  - intros V gm c dst src. unfold solve_gmres, orthogonalisation_of. split.
    + intros [<- | [<- | []]]; discriminate.
    + destruct (String.eqb_spec strategy "classical gram schmidt") as [-> | _]; [cbn; tauto |].
      destruct (String.eqb_spec strategy "modified gram schmidt") as [-> | _]; [cbn; tauto |]. intros H. exfalso. apply H. reflexivity.
Qed.
Print Assumptions C89_create.
(** The wrapper of CG exists, but no label of the parameter file leads to it *)
Example C89_cg : create "modified gram schmidt" 30 "CG" = None.
Proof. reflexivity. Qed.

(** ** Relaxation: after [n] sweeps the residual is the right-hand side after [n] applications of
    the propagation [r - omega A P r]; the vector handed over does not matter. *)
Definition linear (f : vector -> vector) : Prop :=
  (forall u v, (forall i, u i == v i) -> forall i, f u i == f v i) /\ (forall a u v i, f (fun j => u j + a * v j) i == f u i + a * f v i).
Definition propagate (op prec : vector -> vector) (omega : Q) (r : vector) : vector := fun i => r i - omega * op (prec r) i.
Lemma iter_ext : forall (F : vector -> vector) n u v, (forall a b, (forall i, a i == b i) -> forall i, F a i == F b i) -> (forall i, u i == v i) -> forall i, Nat.iter n F u i == Nat.iter n F v i.
Proof. intros F n u v HF H. induction n; [exact H |]. cbn. apply HF. exact IHn. Qed.
Lemma linear_scale : forall f a u i, linear f -> f (fun j => a * u j) i == a * f u i.
Proof.
  intros f a u i [E L]. assert (Z : forall i, f (fun _ => 0) i == 0).
  { intros k. assert (H := L (-(1)) (fun _ => 0) (fun _ => 0) k). rewrite (E (fun j => 0 + -(1) * 0) (fun _ => 0)) in H by (intros; ring). rewrite H. ring. }
  assert (H := L a (fun _ => 0) u i). rewrite (E (fun j => a * u j) (fun j => 0 + a * u j)) by (intros; ring). rewrite H, Z. ring.
Qed.
Theorem C89_relaxation : forall op prec omega n dst src, linear op -> linear prec -> (1 <= n)%nat ->
  let '(x, steps) := solve_relaxation op prec omega n dst src in
  steps = n /\ (forall i, src i - op x i == Nat.iter n (propagate op prec omega) src i)
  /\ (forall norm q, 0 <= q -> (forall u v, (forall i, u i == v i) -> norm u == norm v) -> (forall r, norm (propagate op prec omega r) <= q * norm r) ->
      norm (fun i => src i - op x i) <= Nat.iter n (Qmult q) (norm src))
  /\ ((forall r i, op (prec r) i == r i) -> omega == 1 -> forall i, op x i == src i).
Proof.
  intros op prec omega n dst src [Eo Lo] [Ep Lp] Hn. unfold solve_relaxation. split; [reflexivity |].
  assert (R : forall k i, src i - op (relax op prec omega k src) i == Nat.iter (S k) (propagate op prec omega) src i).
  { induction k as [| k IH]; intros i.
    - cbn [relax Nat.iter]. unfold propagate. rewrite linear_scale by (split; assumption). reflexivity.
    - cbn [relax]. change (Nat.iter (S (S k)) (propagate op prec omega) src i) with (propagate op prec omega (Nat.iter (S k) (propagate op prec omega) src) i).
      unfold propagate at 1. rewrite <- (IH i). rewrite Lo.
      rewrite (Eo (prec (fun j => src j - op (relax op prec omega k src) j)) (prec (Nat.iter (S k) (propagate op prec omega) src))) by (apply Ep; exact IH).
      ring. }
  specialize (R (n - 1)%nat). replace (S (n - 1)) with n in R by lia. split; [exact R |]. split.
  - intros norm q Hq En C. rewrite (En _ _ R). clear R Hn. induction n as [| n IH].
    + cbn. lra.
    + change (Nat.iter (S n) (propagate op prec omega) src) with (propagate op prec omega (Nat.iter n (propagate op prec omega) src)).
      apply Qle_trans with (q * norm (Nat.iter n (propagate op prec omega) src)); [apply C |].
      change (Nat.iter (S n) (Qmult q) (norm src)) with (q * Nat.iter n (Qmult q) (norm src)).
      rewrite (Qmult_comm q (norm _)), (Qmult_comm q (Nat.iter _ _ _)). apply Qmult_le_compat_r; assumption.
  - intros I O i. assert (Zr : forall k i, (1 <= k)%nat -> Nat.iter k (propagate op prec omega) src i == 0).
    { intros k j Hk. destruct k as [| k]; [lia |]. cbn. unfold propagate at 1. rewrite I, O. ring. }
    specialize (R i). rewrite Zr in R by exact Hn. lra.
Qed.
Print Assumptions C89_relaxation.
(** op = 2, prec = 1/4, two sweeps: the residual of 8 is 8 / 4 *)
Example C89_relaxation_applies :
  let op : vector -> vector := fun u i => 2 * u i in let prec : vector -> vector := fun u i => (1#4) * u i in
  linear op /\ linear prec /\ fst (solve_relaxation op prec 1 2 (fun _ => 5) (fun _ => 8)) 0%nat == 3.
Proof. cbv zeta. repeat split; intros; cbn; try rewrite H; try ring. Qed.

(** ** Refuted: a linear solver returns normally only with a residual within the tolerance.  The
    wrapper made by [create] (one sweep) does not look at the tolerance; the residual may be
    larger than before and still one step is reported *)
Theorem C89_relaxation_refuted : forall tolerance, exists op prec src, linear op /\ linear prec
  /\ create "modified gram schmidt" 30 "Relaxation" = Some (Relaxation 1 1)
  /\ let '(x, steps) := solve_relaxation op prec 1 1 (fun _ => 0) src in
     steps = 1%nat /\ tolerance < Qabs (src 0%nat - op x 0%nat) /\ Qabs (src 0%nat) < Qabs (src 0%nat - op x 0%nat).
Proof.
  intros tol. exists (fun u i => 3 * u i), (fun u => u), (fun _ => Qabs tol + 1).
  assert (A := Qabs_nonneg tol). assert (B := Qle_Qabs tol).
  split; [split; intros; [rewrite H; reflexivity | ring] |]. split; [split; intros; [exact (H i) | ring] |]. split; [reflexivity |].
  unfold solve_relaxation. cbn [relax Nat.sub]. split; [reflexivity |].
  assert (E : Qabs (Qabs tol + 1 - 3 * (1 * (Qabs tol + 1))) == 2 * (Qabs tol + 1)) by (rewrite Qabs_neg by lra; ring). rewrite E. split; [lra |].
  rewrite Qabs_pos by lra. lra.
Qed.
Print Assumptions C89_relaxation_refuted.

(** ** The direct solver: for any number of blocks but zero and any size, if the factorisation
    solves the assembled system, the product of the block operator (C64) with the result is the
    right-hand side. *)
Theorem C89_direct : forall A (zero : A) n m (matrix : list A -> list A) solve steps src dst dst', (0 < n)%nat -> blocks n m src -> blocks n m dst -> blocks n m dst' ->
  (forall b x, length b = (m * n)%nat -> solve b = Some x -> length x = (m * n)%nat /\ matrix x = b) ->
  (forall x, solve_direct zero (m * n) solve steps dst src = Some x -> snd x = steps /\ blocks n m (fst x) /\ vmult_matrix zero (m * n) matrix (fst x) dst' = Some src)
  /\ ((forall b, length b = (m * n)%nat -> solve b <> None) -> solve_direct zero (m * n) solve steps dst src <> None).
Proof.
  intros A zero n m matrix solve steps src dst dst' Hn Hs Hd Hd' HM.
  assert (LZ : length (repeat zero (m * n)) = (m * n)%nat) by apply repeat_length.
  destruct (proj1 (C64_layout A n m src dst' (repeat zero (m * n)) (repeat zero (m * n)) Hn Hs Hd' LZ LZ)) as [b [Eb [Lb [_ Sb]]]].
  unfold solve_direct. rewrite Eb. cbn [obind]. split.
  - intros x Ex. destruct (solve b) as [y |] eqn:Ey; [| discriminate]. cbn [obind] in Ex. destruct (HM b y Lb Ey) as [Ly My].
    destruct (proj2 (C64_layout A n m src dst y (repeat zero (m * n)) Hn Hs Hd Ly LZ)) as [u [Eu [Bu [_ Mu]]]].
    rewrite Eu in Ex. cbn [obind] in Ex. injection Ex as <-. cbn [fst snd]. split; [reflexivity |]. split; [exact Bu |].
    unfold vmult_matrix. rewrite Mu. cbn [obind]. rewrite My. exact Sb.
  - intros T. destruct (solve b) as [y |] eqn:Ey; [| exfalso; exact (T b Lb Ey)]. cbn [obind]. destruct (HM b y Lb Ey) as [Ly _].
    destruct (proj2 (C64_layout A n m src dst y (repeat zero (m * n)) Hn Hs Hd Ly LZ)) as [u [Eu _]]. rewrite Eu. discriminate.
Qed.
Print Assumptions C89_direct.
(** two blocks with two entries; the matrix reverses the merged vector *)
Example C89_direct_applies :
  solve_direct 0%Z 4 (fun b => Some (rev b)) 0 [[0;0];[0;0]]%Z [[1;2];[3;4]]%Z = Some ([[4;3];[2;1]]%Z, 0%N)
  /\ vmult_matrix 0%Z 4 (@rev Z) [[4;3];[2;1]]%Z [[0;0];[0;0]]%Z = Some [[1;2];[3;4]]%Z.
Proof. split; reflexivity. Qed.

(** ** SNES: with a positive threshold and cleared counters the preconditioner is set up in the
    first iteration of a solve, and any [threshold] consecutive iterations contain a setup, also
    when the counters are kept; too many linear iterations lead to a setup in the next one. *)
Lemma snes_trace : forall tn tl track lins s, (n_nonlinear s + N.of_nat (length lins) < 2 ^ 32)%N ->
  length (snd (snes_iterations tn tl track s lins)) = length lins
  /\ forall k, (k < length lins)%nat -> exists sk, nth_error (snd (snes_iterations tn tl track s lins)) k = Some (update_preconditioner tn tl track None sk)
     /\ n_nonlinear sk = (n_nonlinear s + N.of_nat k)%N
     /\ (track = true -> n_linear sk = nth k (n_linear s :: lins) 0%N).
Proof.
  intros tn tl track lins. induction lins as [| lin lins IH]; intros s H; [cbn; split; [reflexivity | intros; lia] |].
  cbn [snes_iterations]. unfold snes_iteration. set (s' := {| n_nonlinear := u32 (n_nonlinear s + 1); n_linear := if track then lin else n_linear s |}).
  assert (U : u32 (n_nonlinear s + 1) = (n_nonlinear s + 1)%N) by (unfold u32; apply N.mod_small; cbn [length] in H; lia).
  assert (H' : (n_nonlinear s' + N.of_nat (length lins) < 2 ^ 32)%N) by (cbn [s' n_nonlinear]; rewrite U; cbn [length] in H; lia).
  specialize (IH s' H'). destruct (snes_iterations tn tl track s' lins) as [s2 us] eqn:E. cbn [snd] in IH |- *. destruct IH as [L G].
  split; [cbn; lia |]. intros k Hk. destruct k as [| k].
  - exists s. split; [reflexivity |]. split; [lia |]. intros; reflexivity.
  - cbn [nth_error]. destruct (G k ltac:(cbn in Hk; lia)) as [sk [E1 [E2 E3]]]. exists sk. split; [exact E1 |]. split; [rewrite E2; cbn [s' n_nonlinear]; rewrite U; lia |].
    intros T. rewrite E3 by exact T. cbn [s' n_linear]. subst track. reflexivity.
Qed.
Theorem C89_snes_age : forall max_iter tn tl track (reuse : bool) s lins its, (0 < tn)%N ->
  ((if reuse then n_nonlinear s else 0) + N.of_nat (length lins) < 2 ^ 32)%N ->
  let '(s', us, out) := snes_solve max_iter tn tl track reuse s lins its in
  length us = length lins
  /\ (reuse = false -> lins <> [] -> nth_error us 0 = Some true)
  /\ (forall k, (k + N.to_nat tn <= length lins)%nat -> exists j, (k <= j < k + N.to_nat tn)%nat /\ nth_error us j = Some true)
  /\ (track = true -> forall k lin, nth_error lins k = Some lin -> (tl < lin)%N -> (S k < length lins)%nat -> nth_error us (S k) = Some true).
Proof.
  intros mi tn tl track reuse s lins its Ht Hl. unfold snes_solve. set (s0 := if reuse then s else clear_counters).
  assert (Hl' : (n_nonlinear s0 + N.of_nat (length lins) < 2 ^ 32)%N) by (unfold s0; destruct reuse; exact Hl).
  destruct (snes_trace tn tl track lins s0 Hl') as [L G]. destruct (snes_iterations tn tl track s0 lins) as [s1 us]. cbn [snd] in L, G.
  assert (Up : forall sk, (n_nonlinear sk mod tn = 0)%N -> update_preconditioner tn tl track None sk = true).
  { intros sk Z0. unfold update_preconditioner. rewrite Z0. destruct (N.ltb_spec 0 tn); [reflexivity | lia]. }
  split; [exact L |]. split; [| split].
  - intros -> NE. destruct (G 0%nat) as [sk [E1 [E2 _]]]; [destruct lins; [congruence | cbn; lia] |].
    rewrite E1. f_equal. apply Up. rewrite E2. replace (n_nonlinear s0 + N.of_nat 0)%N with 0%N by reflexivity. apply N.mod_0_l. lia.
  - intros k Hk. set (a := (n_nonlinear s0 + N.of_nat k)%N). set (d := ((tn - a mod tn) mod tn)%N).
    assert (Hd : (d < tn)%N) by (apply N.mod_upper_bound; lia).
    assert (Hm : ((a + d) mod tn = 0)%N).
    { unfold d. rewrite N.add_mod_idemp_r by lia. rewrite <- (N.add_mod_idemp_l a) by lia. assert (Ha : (a mod tn < tn)%N) by (apply N.mod_upper_bound; lia).
      replace (a mod tn + (tn - a mod tn))%N with tn by lia. apply N.mod_same. lia. }
    exists (k + N.to_nat d)%nat. split; [lia |]. destruct (G (k + N.to_nat d)%nat ltac:(lia)) as [sk [E1 [E2 _]]]. rewrite E1. f_equal. apply Up. rewrite E2.
    replace (n_nonlinear s0 + N.of_nat (k + N.to_nat d))%N with (a + d)%N by (unfold a; lia). exact Hm.
  - intros T k lin El Hlin Hk. destruct (G (S k) Hk) as [sk [E1 [_ E3]]]. rewrite E1. f_equal. specialize (E3 T). cbn [nth] in E3.
    rewrite (nth_error_nth _ _ _ El) in E3. unfold update_preconditioner. rewrite E3, T. destruct (N.ltb_spec tl lin); [| lia].
    cbn [andb]. rewrite orb_true_r. reflexivity.
Qed.
Print Assumptions C89_snes_age.
Example C89_snes_age_applies :
  snes_solve 10 3 20 true false {| n_nonlinear := 8; n_linear := 50 |} [5; 25; 5; 5; 5; 5]%N 6 = ({| n_nonlinear := 6; n_linear := 5 |}, [true; false; true; true; false; false], Some 6%N).
Proof. reflexivity. Qed.
(** ** Refuted: every solve starts with a preconditioner that was set up.  The threshold 0 switches
    the periodic setup off and the counters start at 0, so that the first iterations run with
    whatever the preconditioner contains, until one of them takes too many linear iterations *)
Theorem C89_snes_first_refuted : forall max_iter tl track s lins its, (forall lin, In lin lins -> (lin <= tl)%N) ->
  let '(_, us, _) := snes_solve max_iter 0 tl track false s lins its in forall u, In u us -> u = false.
Proof.
  intros mi tl track s lins its H. unfold snes_solve.
  assert (K : forall lins s, (forall lin, In lin lins -> (lin <= tl)%N) -> (n_linear s <= tl)%N -> forall u, In u (snd (snes_iterations 0 tl track s lins)) -> u = false).
  { clear. induction lins as [| l lins IH]; intros s H Hs u I; [destruct I |]. cbn [snes_iterations] in I. unfold snes_iteration in I.
    set (s' := {| n_nonlinear := u32 (n_nonlinear s + 1); n_linear := if track then l else n_linear s |}) in I.
    specialize (IH s'). destruct (snes_iterations 0 tl track s' lins) as [s2 us]. cbn [snd] in *. destruct I as [<- | I].
    - unfold update_preconditioner. cbn. destruct (N.ltb_spec tl (n_linear s)); [lia |]. rewrite andb_false_r. reflexivity.
    - apply IH; [intros; apply H; right; assumption | unfold s'; cbn; destruct track; [apply H; left; reflexivity | exact Hs] | exact I]. }
  specialize (K lins clear_counters H ltac:(cbn; lia)). destruct (snes_iterations 0 tl track clear_counters lins) as [s1 us]. exact K.
Qed.
Print Assumptions C89_snes_first_refuted.

(** ** SNES returns a number of iterations only below the limit.  Refuted: it succeeds whenever PETSc
    does; a solve that needs exactly the allowed number of iterations is reported as failed, so
    that with a limit of one iteration not even a linear problem is solved *)
Theorem C89_snes_limit_refuted : forall tn tl track reuse s lins its max_iter,
  (forall n, snd (snes_solve max_iter tn tl track reuse s lins its) = Some n <-> n = its /\ (max_iter = 0 \/ its < max_iter)%N)
  /\ ((0 < max_iter)%N -> snd (snes_solve max_iter tn tl track reuse s lins max_iter) = None).
Proof.
  intros tn tl track reuse s lins its mi. unfold snes_solve. destruct (snes_iterations tn tl track (if reuse then s else clear_counters) lins) as [s1 us]. cbn [snd]. split.
  - intros n. destruct (N.eqb_spec mi 0) as [E | E]; cbn [orb].
    + split; [intros X; injection X as <-; tauto | intros [-> _]; reflexivity].
    + destruct (N.ltb_spec its mi) as [L | L]; split; [intros X; injection X as <-; tauto | intros [-> _]; reflexivity | discriminate | intros [_ [X | X]]; lia].
  - intros P. destruct (N.eqb_spec mi 0); [lia |]. rewrite N.ltb_irrefl. reflexivity.
Qed.
Print Assumptions C89_snes_limit_refuted.

(** ** The values printed with each iteration are the sums over the blocks of the quantity if the
    blocks exist.  Refuted for SNES: its monitor hands over an empty vector, so that any
    quantity with a component is read out of range, whatever the residual *)
Lemma sum_blocks : forall n o r v, (o + n <= length r)%nat ->
  fold_left (fun v i => obind v (fun v => obind (vget r (o + i)) (fun x => Some (v + x)%Q))) (seq 0 n) (Some v) = Some (fold_left Qplus (firstn n (skipn o r)) v).
Proof.
  induction n as [| n IH]; intros o r v H; [reflexivity |]. rewrite seq_S, fold_left_app, IH by lia. cbn [fold_left obind Nat.add].
  destruct (nth_error r (o + n)) as [x |] eqn:E; [| apply nth_error_None in E; lia]. unfold vget. rewrite E. cbn [obind]. f_equal.
  assert (F : firstn (S n) (skipn o r) = firstn n (skipn o r) ++ [x]).
  { clear - E H. revert r E H. induction o as [| o IHo]; intros r E H.
    - cbn [skipn Nat.add] in *. revert r E H. induction n as [| n IHn]; intros [| y r] E H; cbn in E; try discriminate; [injection E as ->; reflexivity |].
      cbn [firstn app]. f_equal. apply IHn; [exact E | cbn in H; lia].
    - destruct r as [| y r]; [discriminate |]. cbn [skipn]. apply IHo; [exact E | cbn in H; lia]. }
  rewrite F, fold_left_app. reflexivity.
Qed.
Theorem C89_monitor_refuted : 
  (forall quantities r, (forall o n, In (o, n) quantities -> (o + n <= length r)%nat) ->
     check_values quantities r = Some (map (fun '(o, n) => fold_left Qplus (firstn n (skipn o r)) 0) quantities))
  /\ (forall quantities f o n, In (o, S n) quantities -> snes_monitor quantities f = None).
Proof.
  split.
  - intros qs r. induction qs as [| [o n] qs IH]; intros H; [reflexivity |]. unfold check_values in *. cbn [fold_right map]. rewrite IH by (intros; apply H; right; assumption).
    cbn [obind]. rewrite sum_blocks by (apply H; left; reflexivity). reflexivity.
  - intros qs f o n I. unfold snes_monitor. induction qs as [| [o' n'] qs IH]; [destruct I |]. unfold check_values in *. cbn [fold_right]. destruct I as [E | I].
    + injection E as -> ->. clear IH. match goal with |- obind ?e _ = None => destruct e as [vs |]; [| reflexivity] end. cbn [obind].
      assert (N0 : forall l, fold_left (fun (v : option Q) i => obind v (fun v => obind (vget (@nil Q) (o + i)) (fun x => Some (v + x)%Q))) l None = None) by (induction l; [reflexivity | exact IHl]).
      cbn [seq fold_left obind]. assert (V0 : vget (@nil Q) (o + 0) = None) by (apply nth_error_None; cbn; lia). rewrite V0. cbn [obind]. rewrite N0. reflexivity.
    + rewrite IH by exact I. reflexivity.
Qed.
Print Assumptions C89_monitor_refuted.

(** ** GMRES orthogonalises the way the parameter file names: the vector returned and the way the
    solver ends are those of GMRES with exactly that strategy, started with the given vectors and
    the steps of the control *)
Theorem C89_strategy : forall V (gmres : orthogonalisation -> solver V) c dst src,
  (exists r, solve_gmres gmres "classical gram schmidt" c dst src = Some r
     /\ s_dst r = a_dst (gmres Classical (max_steps c) dst src)
     /\ (a_end (gmres Classical (max_steps c) dst src) = Returned -> s_out r = Number (a_steps (gmres Classical (max_steps c) dst src))))
  /\ (exists r, solve_gmres gmres "modified gram schmidt" c dst src = Some r
     /\ s_dst r = a_dst (gmres Modified (max_steps c) dst src)
     /\ (a_end (gmres Modified (max_steps c) dst src) = Returned -> s_out r = Number (a_steps (gmres Modified (max_steps c) dst src)))).
Proof.
  intros V gm c dst src.
  split; (eexists; split; [reflexivity |]; split; [reflexivity |]; intros E; cbn [s_out solve_plain]; rewrite E; reflexivity).
Qed.
Print Assumptions C89_strategy.
