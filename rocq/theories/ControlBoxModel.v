(** Model of the automatic control box of the postprocessing,
    applications/sintering/include/pf-applications/sintering/driver.h 2887-2919.

    Coordinates are rational numbers, points lists of coordinates of the same length.
    [lower], [upper]: [geometry_domain_boundaries]; [rel]: [box_rel_padding]; [r]:
    [geometry_r_max].  The constructor of deal.II's [BoundingBox] does not reorder the two
    points (its check for inverted boxes is a debug assertion). *)
From Coq Require Import QArith List Bool Arith.
From Verif Require Import Util.
Import ListNotations.
Local Open Scope nat_scope.

Fixpoint map2 (f : Q -> Q -> Q) (a b : list Q) : list Q :=
  match a, b with x :: a, y :: b => f x y :: map2 f a b | _, _ => [] end.

(** 2889-2890 *)
Definition packing_size (lower upper : list Q) : list Q := map2 (fun l u => u - l)%Q lower upper.
(** 2891-2892 *)
Definition internal_padding (rel : Q) (size : list Q) : list Q := map (fun s => rel * s)%Q size.
(** 2894-2896 *)
Definition auto_box_size (rel r : Q) (size : list Q) : list Q :=
  map (fun s => s - 2 * r)%Q (map2 (fun s p => s - p)%Q size (internal_padding rel size)).

(** 2898-2919 *)
Definition auto_control_box (lower upper : list Q) (rel r : Q) : option (list Q * list Q) :=
  let size := packing_size lower upper in
  let padding := internal_padding rel size in
  if existsb (fun v => Qle_bool v 0) (auto_box_size rel r size) then None
  else Some (map2 (fun l p => l + (p + r))%Q lower padding, map2 (fun u p => u - (p + r))%Q upper padding).
