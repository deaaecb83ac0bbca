(** Specification for the time schemes: polynomials, their derivative, and the
    times at which the old solutions live.  Independent of the model. *)
From Coq Require Import List QArith.
Import ListNotations.
Local Open Scope Q_scope.

(** A polynomial by its coefficients, constant term first. *)
Fixpoint peval (p : list Q) (t : Q) : Q :=
  match p with
  | [] => 0
  | a :: q => a + t * peval q t
  end.

(** Its formal derivative: coefficient i is multiplied by i and shifted. *)
Fixpoint pderiv_from (i : Z) (p : list Q) : list Q :=
  match p with
  | [] => []
  | a :: q => inject_Z i * a :: pderiv_from (i + 1) q
  end.

Definition pderiv (p : list Q) : list Q := pderiv_from 1 (tl p).

(** Values of [p] at the times before [t] reached by going back by the step
    sizes in [dts], newest first: t - d0, t - d0 - d1, ... *)
Fixpoint past_values (p : list Q) (t : Q) (dts : list Q) : list Q :=
  match dts with
  | [] => []
  | d :: r => peval p (t - d) :: past_values p (t - d) r
  end.

Definition qsum (l : list Q) : Q := fold_right Qplus 0 l.

Definition positive (l : list Q) : Prop := Forall (fun x => 0 < x) l.

(** Equality of lists of rationals up to the equality of rational numbers. *)
Definition qlist_eq (a b : list Q) : Prop := Forall2 Qeq a b.
