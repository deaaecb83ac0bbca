(** Model of the options with named values: what the parameter file and the command line may
    say, which words are accepted, and what the code that uses the option makes of the word.
    applications/sintering/include/pf-applications/sintering/parameters.h 30-300 (defaults),
    318-379 (reading and checking), 381-1171 (declarations), preconditioner_parameters.h
    22-66, include/pf-applications/lac/solvers_nonlinear_parameters.h 45-57,
    include/pf-applications/time_integration/time_integrator_parameters.h 24-28, and the code
    that uses the words: initial_values.h 37-55, driver.h 207-235, 382-392, 671-677, 850-859,
    972-982, 1034-1043, 1108-1164, 1339-1340, 1756-1826, 1844-1853, 2002-2040, 3206-3224,
    preconditioners.h 467-480, 942-976, 1036-1091, 1111, lac/preconditioners.h 1365-1465,
    base timer.cc 57-70, time_marching.h 342-523, time_schemes.h 213-227.

    The parameter handler of deal.II is not part of the repository; what is taken from it: a
    selection accepts exactly the words between its bars; a value that is not accepted stops
    the program; an entry of a file that is not declared is skipped, since the third argument
    of [parse_input] is true (parameters.h 325), one of the command line is not (341); what is
    given later overrides.  Exceptions are [None].  Options whose words are handed on to
    Trilinos, PETSc and SUNDIALS (1035-1070, 807-829) and those with numbers are not
    modelled; [other] stands for the declarations that are left out. *)
From Coq Require Import QArith Ascii String List Arith Bool.
From Verif Require Import Util InnerModel.
Import ListNotations.
Local Open Scope list_scope.
Local Open Scope string_scope.
Local Open Scope nat_scope.

(** ** Words of a selection *)
Fixpoint split_bars (s : string) : list string :=
  match s with
  | EmptyString => [""]
  | String c r => if Ascii.eqb c "|"%char then "" :: split_bars r
                  else match split_bars r with w :: ws => String c w :: ws | [] => [String c ""] end
  end.
Definition accepts (sequence word : string) : bool := existsb (String.eqb word) (split_bars sequence).

(** ** Declared options: parameters.h; the path is made of the sections that are entered *)
Inductive option_name :=
| InterfaceDir | Refinement | Mesh | Representation | Material | Plane | Boundary | Scheme | Predictor | RestartType
| NonlinearSolver | Approximation | Outer | Block0 | Block1 | Block2.
Definition all_options : list option_name :=
  [InterfaceDir; Refinement; Mesh; Representation; Material; Plane; Boundary; Scheme; Predictor; RestartType;
   NonlinearSolver; Approximation; Outer; Block0; Block1; Block2].
Definition path (o : option_name) : list string :=
  match o with
  | InterfaceDir => ["Geometry"; "InterfaceDirection"]                                   (* 444, 454 *)
  | Refinement => ["Geometry"; "GlobalRefinement"]                                       (* 476 *)
  | Mesh => ["Geometry"; "InitialMesh"]                                                  (* 480 *)
  | Representation => ["GrainTracker"; "GrainRepresentation"]                            (* 568, 600 *)
  | Material => ["Material"; "Type"]                                                     (* 607, 608 *)
  | Plane => ["Material"; "Mechanics"; "Type"]                                           (* 706, 711 *)
  | Boundary => ["BoundaryConditions"; "Type"]                                           (* 747, 749 *)
  | Scheme => ["TimeIntegration"; "IntegrationScheme"]                                   (* 769, 770 *)
  | Predictor => ["TimeIntegration"; "Predictor"]                                        (* 774 *)
  | RestartType => ["Restart"; "Type"]                                                   (* 964, 968 *)
  | NonlinearSolver => ["NonLinearData"; "NonLinearSolverType"]                          (* 992, 1019 *)
  | Approximation => ["Preconditioners"; "BlockPreconditioner2"; "Block1Approximation"]  (* 1144 *)
  | Outer => ["Preconditioners"; "Outer"; "Type"]                                        (* 1082, 1125 *)
  | Block0 => ["Preconditioners"; "BlockPreconditioner2"; "Block0"; "Type"]              (* 1130, 1132 *)
  | Block1 => ["Preconditioners"; "BlockPreconditioner2"; "Block1"; "Type"]              (* 1138 *)
  | Block2 => ["Preconditioners"; "BlockPreconditioner2"; "Block2"; "Type"]              (* 1150 *)
  end.
(** 1083-1084 *)
Definition preconditioner_types : string :=
  "AMG|BlockAMG|BlockILU|InverseBlockDiagonalMatrix|InverseDiagonalMatrix|ILU|InverseComponentBlockDiagonalMatrix|BlockGMG|GMG|Identity|IC".
Definition pattern (o : option_name) : string :=
  match o with
  | InterfaceDir => "Inside|Outside|Middle"                                              (* 457 *)
  | Refinement => "None|Base|Full"                                                       (* 479 *)
  | Mesh => "Interface|MaxRadius|Divisions"                                              (* 483 *)
  | Representation => "Spherical|Elliptical|Wavefront"                                   (* 603 *)
  | Material => "Abstract|Realistic"                                                     (* 611 *)
  | Plane => "None|PlaneStrain|PlaneStress"                                              (* 714 *)
  | Boundary => "None|CentralSection|CentralParticle|CentralParticleSection|Domain"      (* 753 *)
  | Scheme => "BDF1|BDF2|BDF3|FE|RK4"                                                    (* 773 *)
  | Predictor => "None|Linear|Euler|Midpoint"                                            (* 777 *)
  | RestartType => "never|n_calls|real_time|simulation_time"                             (* 972 *)
  | NonlinearSolver => "damped|NOX|SNES"                                                 (* 1022 *)
  | Approximation => "all|const|max|avg"                                                 (* 1148 *)
  | Outer => (preconditioner_types ++ "|BlockPreconditioner2")%string                    (* 1127 *)
  | Block0 | Block1 | Block2 => preconditioner_types                                     (* 1135, 1141, 1153 *)
  end.
Definition settings := option_name -> string.
(** parameters.h 62, 69, 70, 110, 161, 168, 203, 275, 284, preconditioner_parameters.h 58-63,
    solvers_nonlinear_parameters.h 57, time_integrator_parameters.h 26-27 *)
Definition defaults : settings := fun o =>
  match o with
  | InterfaceDir => "Middle" | Refinement => "None" | Mesh => "Interface" | Representation => "Spherical"
  | Material => "Abstract" | Plane => "None" | Boundary => "Domain" | Scheme => "BDF2" | Predictor => "None"
  | RestartType => "never" | NonlinearSolver => "damped" | Approximation => "all" | Outer => "BlockPreconditioner2"
  | Block0 => "ILU" | Block1 => "InverseDiagonalMatrix" | Block2 => "AMG"
  end.

(** ** Reading *)
Definition option_eq_dec : forall a b : option_name, {a = b} + {a <> b}.
Proof. decide equality. Defined.
Definition path_eq_dec : forall a b : list string, {a = b} + {a <> b} := list_eq_dec string_dec.
Definition assign (st : settings) (o : option_name) (v : string) : settings := fun o' => if option_eq_dec o' o then v else st o'.
Definition declared (p : list string) : option option_name := find (fun o => if path_eq_dec (path o) p then true else false) all_options.
Definition entry := (list string * string)%type.

(** one entry; [skip] is the third argument of [parse_input] *)
Definition read_entry (other : list string -> option (string -> bool)) (skip : bool) (st : settings) (e : entry) : option settings :=
  match declared (fst e) with
  | Some o => if accepts (pattern o) (snd e) then Some (assign st o (snd e)) else None
  | None => match other (fst e) with Some ok => if ok (snd e) then Some st else None | None => if skip then Some st else None end
  end.
Fixpoint read_entries (other : list string -> option (string -> bool)) (skip : bool) (st : settings) (l : list entry) : option settings :=
  match l with [] => Some st | e :: r => st' <- read_entry other skip st e ;; read_entries other skip st' r end.
(** base/input.h 27-74, parameters.h 319-342: the file first, then the options of the command line *)
Definition read (other : list string -> option (string -> bool)) (file line : list entry) : option settings :=
  st <- read_entries other true defaults file ;; read_entries other false st line.

(** ** Use *)
(** initial_values.h 37-55 *)
Inductive direction := inside | outside | middle.
Definition to_interface_direction (s : string) : option direction :=
  if String.eqb s "Inside" then Some inside else if String.eqb s "Outside" then Some outside
  else if String.eqb s "Middle" then Some middle else None.
(** driver.h 215-222 *)
Inductive refine := RefineNone | RefineBase | RefineFull.
Definition to_refinement (s : string) : option refine :=
  if String.eqb s "None" then Some RefineNone else if String.eqb s "Base" then Some RefineBase
  else if String.eqb s "Full" then Some RefineFull else None.
(** driver.h 226-233 and 382-390 *)
Inductive mesh := FromInterface | FromRadius | FromDivisions.
Definition to_mesh (s : string) : option mesh :=
  if String.eqb s "Interface" then Some FromInterface else if String.eqb s "MaxRadius" then Some FromRadius
  else if String.eqb s "Divisions" then Some FromDivisions else None.
(** driver.h 973-982 *)
Inductive representation := Spherical | Elliptical | Wavefront.
Definition to_representation (s : string) : option representation :=
  if String.eqb s "Spherical" then Some Spherical else if String.eqb s "Elliptical" then Some Elliptical
  else if String.eqb s "Wavefront" then Some Wavefront else None.
(** driver.h 859-: no third branch *)
Inductive material := Abstract | Realistic.
Definition to_material (s : string) : option material := if String.eqb s "Abstract" then Some Abstract else Some Realistic.
(** driver.h 1034-1043 *)
Inductive plane := NoPlane | PlaneStrain | PlaneStress.
Definition to_plane (s : string) : option plane :=
  if String.eqb s "None" then Some NoPlane else if String.eqb s "PlaneStrain" then Some PlaneStrain
  else if String.eqb s "PlaneStress" then Some PlaneStress else None.
(** driver.h 1766-1823: without a last branch, nothing is restrained *)
Inductive restraint := Nothing | Section_ | Particle | ParticleSection | Corners.
Definition to_restraint (s : string) : option restraint :=
  if String.eqb s "CentralSection" then Some Section_ else if String.eqb s "CentralParticle" then Some Particle
  else if String.eqb s "CentralParticleSection" then Some ParticleSection else if String.eqb s "Domain" then Some Corners
  else Some Nothing.
(** driver.h 1468-1470, 1476-1481: part of what enables the grain tracker *)
Definition tracker_for_restraint (s : string) : bool := String.eqb s "CentralParticle" || String.eqb s "CentralParticleSection".
Definition uses_tracker (r : restraint) : bool := match r with Particle | ParticleSection => true | _ => false end.
(** time_schemes.h 213-227: a map, [at] throws *)
Inductive scheme := Implicit (order : nat) | ForwardEuler | RungeKutta4.
Definition factory : list (string * scheme) :=
  [("BDF1", Implicit 1); ("BDF2", Implicit 2); ("BDF3", Implicit 3); ("FE", ForwardEuler); ("RK4", RungeKutta4)].
Definition create_time_scheme (s : string) : option scheme := option_map snd (find (fun x => String.eqb (fst x) s) factory).
(** driver.h 2002-2040 for a time after the start; [Zero]: no branch writes the vector *)
Inductive prediction := Keep | EulerStep | MidpointStep | Extrapolate | Zero.
Definition predict (s : string) (order : nat) : prediction :=
  if String.eqb s "None" then Keep
  else if String.eqb s "Euler" then EulerStep
  else if String.eqb s "Midpoint" then MidpointStep
  else if String.eqb s "Linear" && Nat.ltb 1 order then Extrapolate
  else Zero.
(** base timer.cc 57-70 *)
Inductive predicate := Never | Calls | RealTime | SimulationTime.
Definition to_predicate (s : string) : option predicate :=
  if String.eqb s "never" then Some Never else if String.eqb s "n_calls" then Some Calls
  else if String.eqb s "real_time" then Some RealTime else if String.eqb s "simulation_time" then Some SimulationTime else None.
(** driver.h 850-854: the start of the predicate *)
Definition start {A} (s : string) (n_timestep t : A) : A := if String.eqb s "n_calls" then n_timestep else t.
(** time_marching.h 342-523; [snes]: compiled with PETSc and USE_SNES *)
Inductive nonlinear := Damped | NOX | SNES.
Definition to_nonlinear (snes : bool) (s : string) : option nonlinear :=
  if String.eqb s "damped" then Some Damped else if String.eqb s "NOX" then Some NOX
  else if (snes && String.eqb s "SNES")%bool then Some SNES else None.
(** sintering preconditioners.h 467-480 *)
Definition to_value (s : string) : option nat :=
  if String.eqb s "all" then Some 0 else if String.eqb s "const" then Some 1
  else if String.eqb s "max" then Some 2 else if String.eqb s "avg" then Some 3 else None.

(** ** Preconditioners *)
Inductive data := NoData | AMGData | ILUData | ICData.
(** lac/preconditioners.h 1365-1392 *)
Definition create_plain (s : string) : option ptype :=
  if String.eqb s "InverseDiagonalMatrix" then Some InverseDiagonal
  else if String.eqb s "InverseComponentBlockDiagonalMatrix" then Some ComponentBlock
  else if String.eqb s "InverseBlockDiagonalMatrix" then Some CellBlock
  else if String.eqb s "AMG" then Some AMG else if String.eqb s "BlockAMG" then Some BlockAMG
  else if String.eqb s "ILU" then Some ILU else if String.eqb s "BlockILU" then Some BlockILU
  else if String.eqb s "IC" then Some IC else if String.eqb s "Identity" then Some Identity else None.
(** 1394-1412, 1414-1432, 1434-1450 *)
Definition create_amg (s : string) : option ptype := if String.eqb s "AMG" then Some AMG else if String.eqb s "BlockAMG" then Some BlockAMG else None.
Definition create_ilu (s : string) : option ptype := if String.eqb s "ILU" then Some ILU else if String.eqb s "BlockILU" then Some BlockILU else None.
Definition create_ic (s : string) : option ptype := if String.eqb s "IC" then Some IC else None.
Definition with_data (d : data) (t : option ptype) : option (ptype * data) := option_map (fun t => (t, d)) t.
(** sintering preconditioners.h 942-976 *)
Definition create_preconditioner (s : string) : option (ptype * data) :=
  if (String.eqb s "AMG" || String.eqb s "BlockAMG")%bool then with_data AMGData (create_amg s)
  else if (String.eqb s "ILU" || String.eqb s "BlockILU")%bool then with_data ILUData (create_ilu s)
  else if String.eqb s "IC" then with_data ICData (create_ic s)
  else with_data NoData (create_plain s).
(** what the driver builds: one preconditioner for everything, or one for each block; [p_blocked]:
    the second one works on the blocked operator *)
Inductive built := Whole (p : ptype * data)
  | Blocks (p0 p1 : ptype * data) (p_blocked : bool) (p2 : option (ptype * data)) (approximation : nat).
(** driver.h 671-677 *)
Definition multigrid (st : settings) : bool :=
  (String.eqb (st Outer) "GMG" || String.eqb (st Outer) "BlockGMG"
   || String.eqb (st Outer) "BlockPreconditioner2" && (String.eqb (st Block1) "GMG" || String.eqb (st Block1) "BlockGMG"))%bool.
(** driver.h 1108-1164 and preconditioners.h 1024-1091; the constructor with multigrid throws at
    once (1111); [coupled]: the operator has displacements (1125-1130) *)
Definition build (coupled : bool) (st : settings) : option built :=
  if multigrid st then None
  else if String.eqb (st Outer) "BlockPreconditioner2" then
    approximation <- to_value (st Approximation) ;;
    p0 <- create_preconditioner (st Block0) ;;
    if (String.eqb (st Block1) "GMG" || String.eqb (st Block1) "BlockGMG")%bool then None
    else
      p1 <- (if (String.eqb (st Block1) "AMG" || String.eqb (st Block1) "ILU" || String.eqb (st Block1) "IC"
                 || String.eqb (st Block1) "InverseDiagonalMatrix")%bool
             then option_map (fun p => (p, false)) (create_preconditioner (st Block1))
             else if (String.eqb (st Block1) "BlockAMG" || String.eqb (st Block1) "BlockILU")%bool
             then option_map (fun p => (p, true)) (create_preconditioner (st Block1))
             else None) ;;
      if coupled then p2 <- create_preconditioner (st Block2) ;; Some (Blocks p0 (fst p1) (snd p1) (Some p2) approximation)
      else Some (Blocks p0 (fst p1) (snd p1) None approximation)
  else option_map Whole (create_preconditioner (st Outer)).

(** ** First refinement: driver.h 1844-1853 *)
Definition top_fraction (s : string) (top : Q) : Q :=
  let f := if String.eqb s "None" then (top * 3)%Q else if String.eqb s "Base" then (top * (5 # 2))%Q else top in
  if Qle_bool f 1 then f else 1%Q.

(** ** Element and quadrature *)
(** parameters.h 344-379, runner.h 25-34: what the program was compiled for; [None] throws *)
Definition n_q_points (iso : bool) (fe_degree_macro : nat) : nat := if iso then fe_degree_macro * 2 else fe_degree_macro + 1.
Definition check (degree points : nat) (fe_degree n_subdivisions n_points : nat) : option unit :=
  if Nat.eqb n_subdivisions 1 then
    if (Nat.eqb degree fe_degree && Nat.eqb points n_points)%bool then Some tt else None
  else if (Nat.eqb degree n_subdivisions && Nat.eqb points (n_points * n_subdivisions))%bool then Some tt else None.
(** driver.h 3206-3224 and 175-176: number of intervals between the nodes of the element along a
    line, and number of quadrature points along it *)
Inductive element := FE_Q (degree : nat) | FE_Q_iso_Q1 (n_subdivisions : nat).
Definition create_fe (fe_degree n_subdivisions : nat) : option element :=
  if Nat.eqb n_subdivisions 1 then Some (FE_Q fe_degree)
  else if Nat.eqb fe_degree 1 then Some (FE_Q_iso_Q1 n_subdivisions) else None.
Definition intervals (e : element) : nat := match e with FE_Q k => k | FE_Q_iso_Q1 k => k end.
Definition quadrature (n_points n_subdivisions : nat) : nat := n_points * n_subdivisions.
Definition discretise (degree points fe_degree n_subdivisions n_points : nat) : option (element * nat) :=
  _ <- check degree points fe_degree n_subdivisions n_points ;;
  e <- create_fe fe_degree n_subdivisions ;;
  Some (e, quadrature n_points n_subdivisions).
