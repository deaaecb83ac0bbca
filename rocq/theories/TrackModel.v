(** Model of include/pf-applications/grain_tracker/tracker.h 148-303 (the part of
    [track] before the reassignment), 1108-1163 (the lookups) and 1856-1871
    [build_inverse_mapping].

    Grain ids are natural numbers without upper limit, the invalid id is [None].
    Outer [None]: out of range access or exception of [at]; inner [None]: one of
    the exceptions thrown by [track].  The texts of the messages are not modelled. *)
From Coq Require Import List QArith Arith Bool.
From Verif Require Import Util MapModel FloodModel TransferModel DetectModel.
Import ListNotations.
Local Open Scope nat_scope.

(** grain.h [Dynamics] *)
Inductive dynamics := DNone | DGrowing | DShrinking.

(** a grain of [grains] after tracking: what was detected and its dynamics *)
Definition tracked := (tgrain * dynamics)%type.

(** [get_max_value() > threshold]; a grain without segments has [lowest()] *)
Definition exceeds (g : tgrain) (thr : Q) : bool :=
  match t_max g with Some v => qltb thr v | None => false end.

(** 265-283: the loop over the particles of one order parameter *)
Definition same_id (a : option nat) (b : nat) : bool := match a with Some a => a =? b | None => false end.

Fixpoint rename (cid : nat) (id : option nat) (pm : list (option nat * nat)) (changed : list bool)
  : option (list (option nat * nat) * list bool) :=
  match pm, changed with
  | [], _ => Some ([], changed)
  | _ :: _, [] => None
  | (f, s) :: pm, c :: changed =>
      r <- rename cid id pm changed ;;
      if negb c && same_id f cid
      then Some ((id, s) :: fst r, true :: snd r)
      else Some ((f, s) :: fst r, c :: snd r)
  end.

Record tstate := mkTState {
  ts_grains : fmap tracked;
  ts_numberer : nat;
  ts_invalid : nat;
  ts_skipped : nat;
  ts_pm : list (list (option nat * nat));
  ts_changed : list (list bool) }.

(** 210-252: the id of a detected grain; inner [None]: the exception at 235 *)
Definition decide (old : fmap tracked) (thr : Q) (allow : bool) (g : tgrain) (candidate : option nat) (st : tstate)
  : option (option (option nat * dynamics * tstate)) :=
  match candidate with
  | None =>
      if exceeds g thr
      then if allow
           then Some (Some (Some (ts_numberer st), DNone, mkTState (ts_grains st) (S (ts_numberer st)) (ts_invalid st) (ts_skipped st) (ts_pm st) (ts_changed st)))
           else Some (Some (None, DNone, mkTState (ts_grains st) (ts_numberer st) (S (ts_invalid st)) (ts_skipped st) (ts_pm st) (ts_changed st)))
      else Some (Some (None, DNone, mkTState (ts_grains st) (ts_numberer st) (ts_invalid st) (S (ts_skipped st)) (ts_pm st) (ts_changed st)))
  | Some o =>
      og <- mget o old ;;
      if g_op (t_grain (fst og)) =? g_op (t_grain g)
      then Some (Some (Some o, if qltb (t_measure (fst og)) (t_measure g) then DGrowing else DShrinking, st))
      else Some None
  end.

(** 254-283: insertion and update of the map from particles to grains *)
Definition insert_grain (cid : nat) (g : tgrain) (id : option nat) (d : dynamics) (st : tstate) : option tstate :=
  let grains := match id with Some k => memplace k (g, d) (ts_grains st) | None => ts_grains st end in
  if same_id id cid
  then Some (mkTState grains (ts_numberer st) (ts_invalid st) (ts_skipped st) (ts_pm st) (ts_changed st))
  else
    let op := g_op (t_grain g) in
    pm <- vget (ts_pm st) op ;;
    changed <- vget (ts_changed st) op ;;
    r <- rename cid id pm changed ;;
    pms <- vset (ts_pm st) op (fst r) ;;
    changeds <- vset (ts_changed st) op (snd r) ;;
    Some (mkTState grains (ts_numberer st) (ts_invalid st) (ts_skipped st) pms changeds).

(** 202-284: the loop over the detected grains *)
Fixpoint track_loop (old : fmap tracked) (thr : Q) (allow : bool) (r : fmap (option nat)) (new : fmap tgrain) (st : tstate)
  : option (option tstate) :=
  match new with
  | [] => Some (Some st)
  | (cid, g) :: rest =>
      candidate <- mget cid r ;;
      x <- decide old thr allow g candidate st ;;
      match x with
      | None => Some None
      | Some (id, d, st) =>
          st <- insert_grain cid g id d st ;;
          track_loop old thr allow r rest st
      end
  end.

(** 166-167 [grain_numberer] *)
Definition first_free {V} (old : fmap V) : nat :=
  match rev old with [] => 0 | (k, _) :: _ => S k end.

(** the map of grains as seen by [transfer_grain_ids] *)
Definition shapes (m : fmap tgrain) : fmap grain := map (fun p => (fst p, t_grain (snd p))) m.

(** 148-307 [track] up to the reassignment: the detected grains [new] with their map
    [maps], the grains [old] of the last call, [n] order parameters.  Result:
    [grains] and [particle_ids_to_grain_ids]. *)
Definition track (query : list box -> box -> list nat) (thr : Q) (allow : bool)
  (new : fmap tgrain) (maps : list (list (nat * nat))) (old : fmap tracked) (n : nat)
  : option (option (fmap tracked * list (list (option nat * nat)))) :=
  r <- transfer query (shapes new) (shapes (map (fun p => (fst p, fst (snd p))) old)) n ;;
  let pm := map (map (fun x => (Some (fst x), snd x))) maps in
  let changed := map (fun m => repeat false (length m)) maps in
  x <- track_loop old thr allow r new (mkTState [] (first_free old) 0 0 pm changed) ;;
  match x with
  | None => Some None
  | Some st =>
      if negb (ts_invalid st =? 0) then Some None
      else if negb (length new =? length (ts_grains st) + ts_skipped st) then Some None
      else Some (Some (ts_grains st, ts_pm st))
  end.

(** ** Numbering of the segments *)
(** 1856-1871; the nested maps are a list with the last assignment first *)
Fixpoint number_list (pm : list (option nat * nat)) (n : nat) (acc : list ((option nat * nat) * nat)) : nat * list ((option nat * nat) * nat) :=
  match pm with
  | [] => (n, acc)
  | x :: r => number_list r (S n) ((x, n) :: acc)
  end.

Fixpoint number_lists (pms : list (list (option nat * nat))) (n : nat) (acc : list ((option nat * nat) * nat)) : nat * list ((option nat * nat) * nat) :=
  match pms with
  | [] => (n, acc)
  | pm :: r => let x := number_list pm n acc in number_lists r (fst x) (snd x)
  end.

Definition build_inverse_mapping (pms : list (list (option nat * nat))) : nat * list ((option nat * nat) * nat) :=
  number_lists pms 0 [].

(** [get_grain_segment_index]; [None]: not in the maps *)
Definition oeqb (a b : option nat) : bool :=
  match a, b with Some a, Some b => a =? b | None, None => true | _, _ => false end.
Fixpoint segment_index (k : option nat * nat) (m : list ((option nat * nat) * nat)) : option nat :=
  match m with
  | [] => None
  | (j, n) :: r => if oeqb (fst j) (fst k) && (snd j =? snd k) then Some n else segment_index k r
  end.
