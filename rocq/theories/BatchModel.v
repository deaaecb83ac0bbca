(** Model of applications/sintering/batch_runs/run_batch.py (which jobs are
    submitted to which folder, locks, cleaning, options) and of
    applications/sintering/batch_runs/jobs_submitter.py.

    Simplifications: names (of folders, dimensions, physics, mobilities, files) are
    numbers; the folder of a job is what [os.path.join] gets; jobs that finish and
    remove their lock while the script runs are not modelled; of the options only
    the ones for user and cluster are modelled. *)
From Coq Require Import Ascii List Arith Bool.
From Verif Require Import Util.
Import ListNotations.
Local Open Scope char_scope.
Local Open Scope nat_scope.
Local Open Scope list_scope.

(** * run_batch.py *)
Record job := mkJob { j_folder : nat; j_dim : nat; j_phys : nat; j_mob : nat }.
(** run_batch.py 264: [job_dir] (the suffix is the same for all jobs) *)
Definition dir := (nat * nat * nat)%type.
Definition job_dir (j : job) : dir := (j_folder j, j_dim j, j_phys j).
Definition dir_eqb (a b : dir) : bool :=
  let '(a1, a2, a3) := a in let '(b1, b2, b3) := b in (a1 =? b1) && (a2 =? b2) && (a3 =? b3).

(** 160, 194-196: the loops (run_batch.py) *)
Definition all_jobs (folders dims phys mobs : list nat) : list job :=
  flat_map (fun f => flat_map (fun d => flat_map (fun p => map (fun m => mkJob f d p m) mobs) phys) dims) folders.

Record flags := mkFlags { ignore_locks : bool; clean_output : bool; debug : bool; clear : bool; restart : bool }.
(** State of the script: folders with a lock, other files in folders, numbers of the
    submitted jobs (run_batch.py 306, 10-19, 344) *)
Record batch := mkBatch { locks : list dir; files : list (dir * nat); submitted : list nat }.

(** run_batch.py 212-228: known physics (generic, generic_wang, coupled_wang) *)
Definition known (p : nat) : bool := p <? 3.

(** run_batch.py 338-339 *)
Definition do_clean (fl : flags) : bool := clean_output fl && negb (restart fl) && (negb (debug fl) || clear fl).

(** run_batch.py 305-347: one job; the lock is touched (317) before the folder is
    cleaned (340, [clean_folder] 10-19 without failures of the file system),
    and cleaning removes the lock with everything else. *)
Definition process (fl : flags) (k : nat) (j : job) (b : batch) : batch :=
  let d := job_dir j in
  if existsb (dir_eqb d) (locks b) && negb (ignore_locks fl) then b
  else
    let locks1 := d :: locks b in
    let locks2 := if do_clean fl then filter (fun x => negb (dir_eqb d x)) locks1 else locks1 in
    let files2 := if do_clean fl then filter (fun x => negb (dir_eqb d (fst x))) (files b) else files b in
    mkBatch locks2 files2 (if debug fl then submitted b else submitted b ++ [k]).

(** All jobs in turn; unknown physics ends the script with an exception
    (run_batch.py 233: [physics] unbound, or 236: [special_names] empty). *)
Fixpoint run_jobs (fl : flags) (k : nat) (l : list job) (b : batch) : batch * bool :=
  match l with
  | [] => (b, false)
  | j :: r => if known (j_phys j) then run_jobs fl (S k) r (process fl k j b) else (b, true)
  end.

(** run_batch.py 73-105: options.  A command line argument counts if it is not empty. *)
Definition str := list ascii.
Definition given (o : option str) : option str := match o with Some [] => None | _ => o end.
(** run_batch.py 73-78, 86-105: account, partition, nodes, time; [None] is an exception *)
Definition required (cmd file : option str) : option str := match given cmd with Some x => Some x | None => file end.
(** run_batch.py 166-175: entries of a case replace partition, nodes, time *)
Definition case_option (cmd file case : option str) : option str :=
  x <- required cmd file ;; Some (match case with Some y => y | None => x end).
(** run_batch.py 80-83: the mail address; the outer option is an exception ([KeyError]), the
    inner one whether the option is set *)
Definition mail (cmd : option str) (user_account user_email : option str) : option (option str) :=
  match given cmd with
  | Some x => Some (Some x)
  | None => match user_account with
            | Some _ => match user_email with Some e => Some (Some e) | None => None end
            | None => Some None
            end
  end.

(** * jobs_submitter.py *)
(** jobs_submitter.py 19: what the group [\w+] takes of a name *)
Definition word_char (c : ascii) : bool :=
  let n := nat_of_ascii c in ((48 <=? n) && (n <=? 57)) || ((65 <=? n) && (n <=? 90)) || ((97 <=? n) && (n <=? 122)) || (n =? 95).
Fixpoint word (s : str) : str := match s with [] => [] | c :: r => if word_char c then c :: word r else [] end.
Fixpoint str_eqb (a b : str) : bool := match a, b with [], [] => true | x :: a, y :: b => Ascii.eqb x y && str_eqb a b | _, _ => false end.
(** jobs_submitter.py 7-25 [get_current_jobs_num]; a line of [uniq -c] is the number of jobs and the
    partition; without a word the line does not match. *)
Definition active_jobs (partition : str) (queue : list (nat * str)) : nat :=
  fold_left (fun n line =>
    match word (snd line) with
    | [] => n
    | w => if str_eqb w partition || str_eqb partition [] then n + fst line else n
    end) queue 0.

(** jobs_submitter.py 51-74: [passes] iterations; [active i] is the number of jobs seen in pass [i];
    the result is the submitted commands per pass and the remaining ones. *)
Fixpoint submit_loop (limit : nat) (active : nat -> nat) (i passes : nat) (jobs : list nat) : list (list nat) * list nat :=
  match passes with
  | O => ([], jobs)
  | S p =>
      let now := firstn (limit - active i) jobs in
      let rest := skipn (limit - active i) jobs in
      match rest with
      | [] => ([now], [])
      | _ :: _ => let (l, r) := submit_loop limit active (S i) p rest in (now :: l, r)
      end
  end.
