(** Grains of a microstructure given by their contours, over real numbers.
    /repo/applications/sintering/include/pf-applications/sintering/
    initial_values_microstructure.h lines 44-135 (MicroSegment), 137-189 (MicroGrain) and
    261-307 (op_value).  Numbers that are not finite are [None]; comparisons with them are
    false. *)
From Coq Require Import List Bool Reals.
From Verif Require Import Util InitialModel.
Import ListNotations.
Local Open Scope R_scope.

Notation point := (R * R)%type.

(** [MicroSegment]: the given points, the first one repeated at the end (53-55); an empty
    contour is undefined *)
Definition closed (vs : list point) : list point := match vs with [] => [] | v :: _ => vs ++ [v] end.

(** 74-78: does the ray to the right of [p] cross the edge? *)
Definition above (v p : point) : bool := if Rlt_dec (snd p) (snd v) then true else false.
Definition crosses (p vi vj : point) : bool :=
  xorb (above vi p) (above vj p) &&
  (if Rlt_dec (fst p) ((fst vj - fst vi) * (snd p - snd vi) / (snd vj - snd vi) + fst vi) then true else false).

(** 66-83: [point_inside]; [prev] is [vertices[j]] *)
Fixpoint inside_loop (p prev : point) (vs : list point) (is_inside : bool) : bool :=
  match vs with
  | [] => is_inside
  | v :: r => inside_loop p v r (if crosses p v prev then negb is_inside else is_inside)
  end.
Definition point_inside (vs : list point) (p : point) : bool :=
  inside_loop p (last (closed vs) (0, 0)) (closed vs) false.

(** [distance_square] and [distance] of deal.II *)
Definition dist2 (a b : point) : R := (fst a - fst b) * (fst a - fst b) + (snd a - snd b) * (snd a - snd b).
Definition pdist (a b : point) : R := sqrt (dist2 a b).

(** 101-118: distance to one edge; without length the division gives no number *)
Definition edge_distance (p p1 p2 : point) : option R :=
  let r := (fst p2 - fst p1) * (fst p - fst p1) + (snd p2 - snd p1) * (snd p - snd p1) in
  if Req_EM_T (dist2 p1 p2) 0 then None
  else
    let r := r / dist2 p1 p2 in
    if Rlt_dec r 0 then Some (pdist p p1)
    else if Rlt_dec 1 r then Some (pdist p2 p)
    else Some (sqrt (dist2 p p1 - r * r * dist2 p1 p2)).

(** [std::min(a, b)]: [b < a ? b : a] *)
Definition std_min (a b : option R) : option R :=
  match a, b with Some x, Some y => if Rlt_dec y x then b else a | _, _ => a end.

(** 94-124: [distance]; [huge] is the largest number *)
Fixpoint distance_loop (p : point) (vs : list point) (dist_min : option R) : option R :=
  match vs with
  | p1 :: ((p2 :: _) as r) => distance_loop p r (std_min (edge_distance p p1 p2) dist_min)
  | _ => dist_min
  end.
Definition distance (huge : R) (vs : list point) (p : point) : option R := distance_loop p (closed vs) (Some huge).

(** 56-61: the box around the contour, extended; [BoundingBox::point_inside] of deal.II
    without its tolerance *)
Definition extension (dir : direction) (w : R) : R := match dir with Outside => w | Middle => w / 2 | Inside => 0 end.
Definition point_inside_box (dir : direction) (w : R) (vs : list point) (p : point) : bool :=
  match vs with
  | [] => false
  | v :: r =>
    let e := extension dir w in
    let low f := fold_left (fun m u => Rmin m (f u)) r (f v) in
    let high f := fold_left (fun m u => Rmax m (f u)) r (f v) in
    (if Rle_dec (low fst - e) (fst p) then true else false) && (if Rle_dec (fst p) (high fst + e) then true else false) &&
    (if Rle_dec (low snd - e) (snd p) then true else false) && (if Rle_dec (snd p) (high snd + e) then true else false)
  end.

(** 152-189: a grain has several segments *)
Notation grain := (list (list point)).
Definition grain_inside (dir : direction) (w : R) (g : grain) (p : point) : bool :=
  existsb (fun s => point_inside_box dir w s p && point_inside s p) g.
Definition grain_in_box (dir : direction) (w : R) (g : grain) (p : point) : bool :=
  existsb (fun s => point_inside_box dir w s p) g.

(** [std::min_element] of the distances; [None] also for a grain without segments *)
Definition nearest (huge : R) (g : grain) (p : point) : option R :=
  match map (fun s => distance huge s p) g with
  | [] => None
  | d :: r => fold_left (fun m d => match d, m with Some x, Some y => if Rlt_dec x y then d else m | _, _ => m end) r d
  end.

(** 261-307: as [micro_loop] of InitialModel.v, with distances that may be no numbers *)
Fixpoint candidate_loop (w : R) (dir : direction) (cands : list (bool * option R)) (p_val : R) : R :=
  match cands with
  | [] => p_val
  | (inside, dist) :: r =>
    if inside then
      match dir with
      | Outside => 1
      | _ => if Req_EM_T w 0 then 1
             else match dist with
                  | Some d => if Rlt_dec d (ref_h dir w) then ref_b dir + ref_k dir * d / ref_h dir w else 1
                  | None => 1
                  end
      end
    else if Rlt_dec 0 w then
      match dir with
      | Inside => candidate_loop w dir r p_val
      | _ => candidate_loop w dir r
               (Rmax p_val (match dist with
                            | Some d => if Rlt_dec d (ref_h dir w) then ref_b dir - ref_k dir * d / ref_h dir w else 0
                            | None => 0
                            end))
      end
    else candidate_loop w dir r p_val
  end.

(** The grains of the order parameter, only those whose box contains the point. *)
Definition candidate (huge : R) (dir : direction) (w : R) (p : point) (g : grain) : bool * option R :=
  (grain_inside dir w g p, nearest huge g p).
Definition op_value (huge : R) (dir : direction) (w : R) (grains : list grain) (p : point) : R :=
  candidate_loop w dir (map (candidate huge dir w p) (filter (fun g => grain_in_box dir w g p) grains)) 0.
