(** Model of the selection, buffering and naming of the output fields of the operators:
    applications/sintering/include/pf-applications/sintering/operator_base.h 934-957
    [get_vector_output_entries_mask], operator_sintering_base.h 71-393,
    operator_grain_growth.h 333-485 and operator_grand_potential_greenquist.h 665-783
    [do_add_data_vectors_kernel].

    What is written at a quadrature point is a [quantity] instead of its value; projecting
    the point values on the nodes keeps the order of the fields and is not modelled.  The
    names pushed into [names] are symbols.  [None]: write or read out of range, or a thrown
    exception. *)
From Coq Require Import String List Arith.
From Verif Require Import Util.
Import ListNotations.
Local Open Scope nat_scope.
Local Open Scope list_scope.

Inductive quantity :=
| SumSquares | SumProducts               (* sum of eta_i^2, sum of eta_i eta_j, j < i *)
| D2fDc2 | D2fDcDeta (i : nat) | D2fDeta2 (i : nat) | D2fDetaDeta (i j : nat)
| Mobility | NormDMDc | NormDMDgradC | NormDMDeta (i : nat)
| KappaC | KappaP | Lgb | F | DfDc | DfDeta (i : nat)
| Flux (mechanism d : nat).

(** the strings pushed into [names]; components of a flux share a name *)
Inductive fname :=
| N_bnds | N_gb
| N_d2f_dc2 | N_d2f_dcdeta (i : nat) | N_d2f_deta2 (i : nat) | N_d2f_detadeta (i j : nat)
| N_M | N_nrm_dM_dc_x_mu_grad | N_nrm_dM_dgrad_c | N_nrm_dM_deta_x_mu_grad (i : nat)
| N_kappa_c | N_kappa_p | N_L | N_f | N_df_dc | N_df_deta (i : nat)
| N_flux (mechanism : nat).

Inductive field := FieldBnds | FieldGb | FieldD2f | FieldM | FieldDM | FieldKappa | FieldL | FieldF | FieldFlux | FieldDf.
Definition field_eqb (a b : field) : bool :=
  match a, b with
  | FieldBnds, FieldBnds | FieldGb, FieldGb | FieldD2f, FieldD2f | FieldM, FieldM | FieldDM, FieldDM
  | FieldKappa, FieldKappa | FieldL, FieldL | FieldF, FieldF | FieldFlux, FieldFlux | FieldDf, FieldDf => true
  | _, _ => false
  end.

(** operator_base.h 934-957; [fields_list] as its membership test *)
Fixpoint entries_mask (possible : list (string * field * nat)) (fields_list : string -> bool) (mask : field -> bool) (n_entries : nat)
  : (field -> bool) * nat :=
  match possible with
  | [] => (mask, n_entries)
  | (key, fld, count) :: possible =>
      if fields_list key
      then entries_mask possible fields_list (fun g => if field_eqb g fld then true else mask g) (n_entries + count)
      else entries_mask possible fields_list mask n_entries
  end.

(** [temp[counter++] = ...] for a list of quantities *)
Fixpoint write (qs : list quantity) (s : list (option quantity) * nat) : option (list (option quantity) * nat) :=
  match qs with
  | [] => Some s
  | q :: qs => temp <- vset (fst s) (snd s) (Some q) ;; write qs (temp, S (snd s))
  end.
(** one [if (entries_mask[...])] of the quadrature loop *)
Definition when (b : bool) (qs : list quantity) (s : list (option quantity) * nat) : option (list (option quantity) * nat) :=
  if b then write qs s else Some s.

(** nested loops over [ig] and [jg] above [ig] *)
Definition pairs (n : nat) : list (nat * nat) :=
  flat_map (fun ig => map (fun jg => (ig, jg)) (seq (S ig) (n - S ig))) (seq 0 n).

(** [names[c]] for all entries and the data at the same place *)
Fixpoint attach (data : list (option quantity)) (names : list fname) : option (list (option quantity * fname)) :=
  match data, names with
  | [], _ => Some []
  | d :: data, nm :: names => r <- attach data names ;; Some ((d, nm) :: r)
  | _ :: _, [] => None
  end.

(** ** operator_sintering_base.h 71-393; [tensorial]: use_tensorial_mobility *)
Definition sintering_possible (dim n : nat) : list (string * field * nat) :=
  [("bnds"%string, FieldBnds, 1); ("gb"%string, FieldGb, 1); ("d2f"%string, FieldD2f, 1 + 2 * n + n * (n - 1) / 2);
   ("M"%string, FieldM, 1); ("dM"%string, FieldDM, 2 + n); ("kappa"%string, FieldKappa, 2); ("L"%string, FieldL, 1);
   ("energy"%string, FieldF, 2); ("flux"%string, FieldFlux, 4 * dim)].
(** 268-287: offsets from the counter, which is advanced afterwards *)
Definition flux_block (dim : nat) : list quantity := flat_map (fun m => map (Flux m) (seq 0 dim)) (seq 0 4).
(** 169-287 *)
Definition sintering_temp (tensorial : bool) (dim n : nat) (mask : field -> bool) (n_entries : nat) : option (list (option quantity)) :=
  s <- when (mask FieldBnds) [SumSquares] (repeat None n_entries, 0) ;;
  s <- when (mask FieldGb) [SumProducts] s ;;
  s <- when (mask FieldD2f) (D2fDc2 :: map D2fDcDeta (seq 0 n) ++ map D2fDeta2 (seq 0 n) ++ map (fun ij => D2fDetaDeta (fst ij) (snd ij)) (pairs n)) s ;;
  s <- (if tensorial then if (mask FieldM || mask FieldDM)%bool then None else Some s
        else s <- when (mask FieldM) [Mobility] s ;; when (mask FieldDM) (NormDMDc :: NormDMDgradC :: map NormDMDeta (seq 0 n)) s) ;;
  s <- when (mask FieldKappa) [KappaC; KappaP] s ;;
  s <- when (mask FieldL) [Lgb] s ;;
  s <- when (mask FieldF) [F; DfDc] s ;;
  s <- when (mask FieldFlux) (flux_block dim) s ;;
  Some (fst s).
(** 309-386 *)
Definition sintering_names (dim n : nat) (mask : field -> bool) : list fname :=
  let on (b : bool) (l : list fname) := if b then l else [] in
  on (mask FieldBnds) [N_bnds] ++ on (mask FieldGb) [N_gb]
  ++ on (mask FieldD2f) (N_d2f_dc2 :: map N_d2f_dcdeta (seq 0 n) ++ map N_d2f_deta2 (seq 0 n) ++ map (fun ij => N_d2f_detadeta (fst ij) (snd ij)) (pairs n))
  ++ on (mask FieldM) [N_M]
  ++ on (mask FieldDM) (N_nrm_dM_dc_x_mu_grad :: N_nrm_dM_dgrad_c :: map N_nrm_dM_deta_x_mu_grad (seq 0 n))
  ++ on (mask FieldKappa) [N_kappa_c; N_kappa_p]
  ++ on (mask FieldL) [N_L] ++ on (mask FieldF) [N_f; N_df_dc]
  ++ on (mask FieldFlux) (flat_map (fun m => repeat (N_flux m) dim) (seq 0 4)).
(** with at least one cell and one quadrature point *)
Definition sintering_output (tensorial : bool) (dim n : nat) (fields_list : string -> bool) : option (list (option quantity * fname)) :=
  let '(mask, n_entries) := entries_mask (sintering_possible dim n) fields_list (fun _ => false) 0 in
  if Nat.eqb n_entries 0 then Some []
  else temp <- sintering_temp tensorial dim n mask n_entries ;; attach temp (sintering_names dim n mask).

(** ** operator_grain_growth.h 333-485 *)
Definition growth_possible (n : nat) : list (string * field * nat) :=
  [("bnds"%string, FieldBnds, 1); ("gb"%string, FieldGb, 1); ("energy"%string, FieldF, 1);
   ("df"%string, FieldD2f, n); ("d2f"%string, FieldD2f, n * (n - 1) / 2)].
(** 401-433 *)
Definition growth_temp (n : nat) (mask : field -> bool) (n_entries : nat) : option (list (option quantity)) :=
  s <- when (mask FieldBnds) [SumSquares] (repeat None n_entries, 0) ;;
  s <- when (mask FieldGb) [SumProducts] s ;;
  s <- when (mask FieldF) [F] s ;;
  s <- when (mask FieldDf) (map DfDeta (seq 0 n)) s ;;
  s <- when (mask FieldD2f) (map (fun ij => D2fDetaDeta (fst ij) (snd ij)) (pairs n)) s ;;
  Some (fst s).
(** 454-477 *)
Definition growth_names (n : nat) (mask : field -> bool) : list fname :=
  let on (b : bool) (l : list fname) := if b then l else [] in
  on (mask FieldBnds) [N_bnds] ++ on (mask FieldGb) [N_gb] ++ on (mask FieldF) [N_f]
  ++ on (mask FieldD2f) (map N_df_deta (seq 0 n))
  ++ on (mask FieldD2f) (flat_map (fun ig => N_d2f_deta2 ig :: map (N_d2f_detadeta ig) (seq (S ig) (n - S ig))) (seq 0 n)).
Definition growth_output (n : nat) (fields_list : string -> bool) : option (list (option quantity * fname)) :=
  let '(mask, n_entries) := entries_mask (growth_possible n) fields_list (fun _ => false) 0 in
  if Nat.eqb n_entries 0 then Some []
  else temp <- growth_temp n mask n_entries ;; attach temp (growth_names n mask).

(** ** operator_grand_potential_greenquist.h 665-783: the array of possible entries has five
    places, the last three are value-initialised: empty name, first field, no entries *)
Definition greenquist_possible : list (string * field * nat) :=
  [("bnds"%string, FieldBnds, 1); ("gb"%string, FieldGb, 1); (""%string, FieldBnds, 0); (""%string, FieldBnds, 0); (""%string, FieldBnds, 0)].
Definition greenquist_output (fields_list : string -> bool) : option (list (option quantity * fname)) :=
  let '(mask, n_entries) := entries_mask greenquist_possible fields_list (fun _ => false) 0 in
  if Nat.eqb n_entries 0 then Some []
  else
    s <- when (mask FieldBnds) [SumSquares] (repeat None n_entries, 0) ;;
    s <- when (mask FieldGb) [SumProducts] s ;;
    attach (fst s) ((if mask FieldBnds then [N_bnds] else []) ++ (if mask FieldGb then [N_gb] else [])).
