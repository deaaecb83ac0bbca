(** The initial values of the tests of the tangents.

    /repo/applications/sintering/include/pf-applications/sintering/initial_values_debug.h lines
    24-125 [InitialValuesDebug].

    Simplified: coordinates and values are rational; [distance < tol] is the comparison of the
    squares. [None]: the exception "Wrong point!". A point is the list of its coordinates. *)
From Coq Require Import QArith.
From Coq Require Import List Arith Bool.
From Verif Require Import Util.
Import ListNotations.
Local Open Scope Q_scope.

(** 37 *)
Definition tol : Q := 1 # 1000000000.

Fixpoint distance2 (p q : list Q) : Q :=
  match p, q with
  | x :: p, y :: q => (x - y) * (x - y) + distance2 p q
  | _, _ => 0
  end.
Definition close (p q : list Q) : bool := qltb (distance2 p q) (tol * tol).

(** 39-67 *)
Definition values_2d (p : list Q) : option (list Q) :=
  if close p [0; 0] then Some [1; 1 # 10; 1; 0]
  else if close p [1; 0] then Some [8 # 10; 2 # 10; 4 # 10; 4 # 10]
  else if close p [2; 0] then Some [1; 3 # 10; 0; 1]
  else if close p [0; 1] then Some [1; 4 # 10; 1; 0]
  else if close p [1; 1] then Some [8 # 10; 5 # 10; 4 # 10; 4 # 10]
  else if close p [2; 1] then Some [1; 6 # 10; 0; 1]
  else None.

(** 68-101 *)
Definition values_3d (p : list Q) : option (list Q) :=
  if close p [0; 0; 0] || close p [0; 0; 1] then Some [1; 1 # 10; 1; 0]
  else if close p [1; 0; 0] || close p [1; 0; 1] then Some [8 # 10; 2 # 10; 4 # 10; 4 # 10]
  else if close p [2; 0; 0] || close p [2; 0; 1] then Some [1; 3 # 10; 0; 1]
  else if close p [0; 1; 0] || close p [0; 1; 1] then Some [1; 4 # 10; 1; 0]
  else if close p [1; 1; 0] || close p [1; 1; 1] then Some [8 # 10; 5 # 10; 4 # 10; 4 # 10]
  else if close p [2; 1; 0] || close p [2; 1; 1] then Some [1; 6 # 10; 0; 1]
  else None.

(** 32-104 [do_value] *)
Definition do_value (p : list Q) (component : nat) : option Q :=
  vals <- (if Nat.eqb (length p) 2 then values_2d p else values_3d p) ;;
  if Nat.ltb component 4 then nth_error vals component else Some 0.

(** 118-122 *)
Definition n_order_parameters : nat := 2.
