(** Model of the two-phase application after Kim, Kim and Suzuki,
    applications/grand_potential/kks.cc 58-127 (initial values), 135-163 (mass matrix),
    288-307 (constants), 398-452 (functions of the phases), 499-592 (right-hand side) and
    594-620 (time loop).
    Numbers are reals; a division by zero is [None].  One process.  The solver with conjugate
    gradients is taken to be exact, the methods of deal.II for the time integration to be what
    their tableaus say. *)
From Coq Require Import List Reals Arith Bool.
From Verif Require Import Util OperatorModel.
Import ListNotations.
Local Open Scope R_scope.

(** The constants [k] and [c_0] of the phases *)
Record phases := mkPhases { kk : nat -> R; cc : nat -> R }.
(** 305 *)
Definition linf (a : nat) : R := if Nat.eqb a 0 then 1 else -1.
Definition other (a : nat) : nat := if Nat.eqb a 0 then 1%nat else 0%nat.

Section Point.
Variable P : phases.

(** 398-412; [vidx] and [sidx] are 0 and 1 *)
Definition denom (phi : nat -> R) : R := kk P 0 * phi 1%nat + kk P 1 * phi 0%nat.
Definition nom (c : R) (phi : nat -> R) (a : nat) : R :=
  c * kk P (other a) + linf a * (cc P 0 * kk P 0 - cc P 1 * kk P 1) * phi (other a).
Definition calc_ca (c : R) (phi : nat -> R) (a : nat) : R := nom c phi a / denom phi.
(** 414-433, one component of the gradient *)
Definition calc_grad_ca (c c_grad : R) (phi phi_grad : nat -> R) (a : nat) : R :=
  (nom c_grad phi_grad a * denom phi - nom c phi a * denom phi_grad) / (denom phi * denom phi).
(** 435-442 *)
Definition calc_ga (ca ki c0i : R) : R := 1 / 2 * ki * (ca - c0i) ^ 2.
Definition calc_mu (ca ki c0i : R) : R := ki * (ca - c0i).
(** 542-547: the number of active phases *)
Definition active (x : R) : R := if Rlt_dec 0 x then 1 else 0.
Definition nsz (phi : nat -> R) : R := active (phi 0%nat) + active (phi 1%nat).
(** 549-552 *)
Definition vvars (B c : R) (phi : nat -> R) (a : nat) : R :=
  let ca := calc_ca c phi a in
  2 * B * phi a * phi (other a) ^ 2 + calc_ga ca (kk P a) (cc P a) - calc_mu ca (kk P a) (cc P a) * ca.

(** 518-567: what is tested with the value and with the gradient of the test function, for
    component 0 and 1 (phases) and 2 (concentration) *)
Variables (L A B D : R).
Definition value_result (c : R) (phi : nat -> R) (comp : nat) : R :=
  match comp with
  | 0%nat => - L / nsz phi * (vvars B c phi 0 - vvars B c phi 1)
  | 1%nat => - L / nsz phi * (vvars B c phi 1 - vvars B c phi 0)
  | _ => 0
  end.
Definition gradient_result (c : R) (phi : nat -> R) (c_grad : nat -> R) (phi_grad : nat -> nat -> R) (comp d : nat) : R :=
  match comp with
  | 0%nat => L / nsz phi * A * (phi_grad 1%nat d - phi_grad 0%nat d)
  | 1%nat => L / nsz phi * A * (phi_grad 0%nat d - phi_grad 1%nat d)
  | _ => - D * (phi 0%nat * calc_grad_ca c (c_grad d) phi (fun a => phi_grad a d) 0 + phi 1%nat * calc_grad_ca c (c_grad d) phi (fun a => phi_grad a d) 1)
  end.
Definition defined (phi : nat -> R) : bool :=
  (if Req_EM_T (denom phi) 0 then false else true) && (if Req_EM_T (nsz phi) 0 then false else true).

(** ** The whole domain: [n] entries of a scalar field, points of all cells with weight,
    shape functions and gradients (all cells in one list) *)
Notation fields := (nat -> nat -> R).
Variables (n dim nq : nat) (weight : nat -> R) (shape : nat -> nat -> R) (slope : nat -> nat -> nat -> R).
Definition value_q (y : fields) (comp q : nat) : R := vsum n (fun i => shape i q * y comp i).
Definition grad_q (y : fields) (comp q d : nat) : R := vsum n (fun i => slope i d q * y comp i).
(** 510-576, [None] if a division fails at one of the points *)
Definition assembled (y : fields) (comp i : nat) : R :=
  vsum nq (fun q =>
    let phi := fun a => value_q y a q in
    weight q * (value_result (value_q y 2 q) phi comp * shape i q +
      vsum dim (fun d => gradient_result (value_q y 2 q) phi (grad_q y 2 q) (fun a => grad_q y a q) comp d * slope i d q))).
Definition evaluate_rhs (y : fields) : option fields :=
  if forallb (fun q => defined (fun a => value_q y a q)) (seq 0 nq) then Some (assembled y) else None.
(** 146-163 *)
Definition mass (i j : nat) : R := vsum nq (fun q => weight q * (shape i q * shape j q)).
(** 579-592: the increment solves with the mass matrix *)
Definition evaluated (y incr : fields) : Prop :=
  exists r, evaluate_rhs y = Some r /\
  forall comp i, (comp < 3)%nat -> (i < n)%nat -> vsum n (fun j => mass i j * incr comp j) = r comp i.

(** 606-612: explicit methods of Runge and Kutta, given by the rows of their tableau *)
Fixpoint combination (coef : list R) (ks : list fields) (comp i : nat) : R :=
  match coef, ks with a :: coef, k :: ks => a * k comp i + combination coef ks comp i | _, _ => 0 end.
Definition moved (y : fields) (dt : R) (coef : list R) (ks : list fields) : fields := fun comp i => y comp i + dt * combination coef ks comp i.
Inductive stages (y : fields) (dt : R) : list (list R) -> list fields -> Prop :=
  | stages_none : stages y dt [] []
  | stages_next : forall rows ks row k, stages y dt rows ks -> evaluated (moved y dt row ks) k -> stages y dt (rows ++ [row]) (ks ++ [k]).
Definition time_step (rows : list (list R)) (last : list R) (dt : R) (y y' : fields) : Prop :=
  exists ks, stages y dt rows ks /\ y' = moved y dt last ks.
Inductive run (rows : list (list R)) (last : list R) : list R -> fields -> fields -> Prop :=
  | run_end : forall y, run rows last [] y y
  | run_step : forall dt dts y y1 y2, time_step rows last dt y y1 -> run rows last dts y1 y2 -> run rows last (dt :: dts) y y2.
End Point.

(** 288-307 *)
Definition constant_A (W gamma : R) : R := 3 * W * gamma / 2.
Definition constant_B (W gamma : R) : R := 6 * gamma / W.
(** 58-98; [x] is the distance from the interface *)
Definition initial_phi0 (W x : R) : R := 1 / 2 * (1 + tanh (x / W)).
Definition initial_phi1 (W x : R) : R := 1 - initial_phi0 W x.
