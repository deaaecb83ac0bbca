(** C100: the words of the parameter file and the code that uses them. *)
From Coq Require Import QArith Ascii String List Arith Bool Lia Lqa.
From Verif Require Import Util InnerModel OptionsModel.
Import ListNotations.
Local Open Scope string_scope.
Local Open Scope list_scope.
Local Open Scope nat_scope.

(** ** Words of a selection *)
Definition no_bar (s : string) : Prop := ~ In "|"%char (list_ascii_of_string s).

Lemma split_word : forall w, no_bar w -> split_bars w = [w].
Proof.
  induction w as [ | c w IH ]; intros H; [reflexivity | ]. cbn [split_bars].
  unfold no_bar in H. cbn [list_ascii_of_string In] in H.
  destruct (Ascii.eqb_spec c "|"%char) as [ -> | Hc ]; [tauto | ]. rewrite IH; [reflexivity | ]. intros K; apply H; right; exact K.
Qed.
Lemma split_cons : forall w r, no_bar w -> split_bars (w ++ String "|" r)%string = w :: split_bars r.
Proof.
  induction w as [ | c w IH ]; intros r H; [reflexivity | ]. cbn [split_bars append].
  unfold no_bar in H. cbn [list_ascii_of_string In] in H.
  destruct (Ascii.eqb_spec c "|"%char) as [ -> | Hc ]; [tauto | ]. rewrite IH; [reflexivity | ]. intros K; apply H; right; exact K.
Qed.
(** A selection accepts the words it was written with, and no others. *)
Theorem C100_selection : forall words w, words <> [] -> (forall x, In x words -> no_bar x) ->
  (accepts (String.concat "|" words) w = true <-> In w words).
Proof.
  intros words w Hn Hb.
  assert (E : split_bars (String.concat "|" words) = words).
  { clear w. induction words as [ | x xs IH ]; [congruence | ]. destruct xs as [ | y ys ].
    - cbn [String.concat]. apply split_word. apply Hb. left; reflexivity.
    - change (String.concat "|" (x :: y :: ys)) with (x ++ ("|" ++ String.concat "|" (y :: ys)))%string.
      change ("|" ++ String.concat "|" (y :: ys))%string with (String "|" (String.concat "|" (y :: ys))).
      rewrite split_cons by (apply Hb; left; reflexivity). rewrite IH; [reflexivity | discriminate | ]. intros z Hz. apply Hb. right; exact Hz. }
  unfold accepts. rewrite E. rewrite existsb_exists. split.
  - intros [x [Hx Hw]]. apply String.eqb_eq in Hw. subst x. exact Hx.
  - intros H. exists w. split; [exact H | apply String.eqb_refl].
Qed.
Print Assumptions C100_selection.

(** ** What is read *)
Lemma path_inj : forall a b, path a = path b -> a = b.
Proof. destruct a, b; intros H; try reflexivity; discriminate H. Qed.
Lemma in_all : forall o, In o all_options.
Proof. destruct o; cbn; tauto. Qed.
Lemma declared_path : forall o, declared (path o) = Some o.
Proof.
  intros o. unfold declared. destruct (find _ all_options) as [ x | ] eqn:E.
  - apply find_some in E. destruct E as [_ E]. destruct (path_eq_dec (path x) (path o)) as [Ep | ]; [ | discriminate]. apply path_inj in Ep. congruence.
  - pose proof (find_none _ _ E o (in_all o)) as K. cbn beta in K. destruct (path_eq_dec (path o) (path o)); [discriminate | congruence].
Qed.
Lemma declared_some : forall p o, declared p = Some o -> p = path o.
Proof.
  intros p o E. unfold declared in E. apply find_some in E. destruct E as [_ E]. destruct (path_eq_dec (path o) p); [congruence | discriminate].
Qed.
Lemma declared_none : forall p, declared p = None -> forall o, path o <> p.
Proof. intros p E o <-. rewrite declared_path in E. discriminate. Qed.

Definition gives (o : option_name) (e : entry) : Prop := fst e = path o.
(** the last entry for an option decides; without one the option stays as it was *)
Definition decided (before : settings) (l : list entry) (o : option_name) (value : string) : Prop :=
  ((forall e, In e l -> ~ gives o e) /\ value = before o)
  \/ (exists a v b, l = a ++ (path o, v) :: b /\ (forall e, In e b -> ~ gives o e) /\ value = v).

Lemma decided_cons : forall st e l o v st', decided st' l o v ->
  (st' o = st o \/ (gives o e /\ st' o = snd e)) -> (gives o e -> st' o = snd e) -> decided st (e :: l) o v.
Proof.
  intros st e l o v st' H Hk Hg. destruct H as [[Hno Hv] | [a [w [b [-> [Hb ->]]]]]].
  - destruct (path_eq_dec (fst e) (path o)) as [Ee | Ee].
    + right. exists [], (snd e), l. split; [rewrite <- Ee; destruct e; reflexivity | ]. split; [exact Hno | ]. rewrite Hv. apply Hg. exact Ee.
    + left. split; [intros x [<- | Hx]; [exact Ee | apply Hno; exact Hx] | ]. rewrite Hv. destruct Hk as [-> | [K _]]; [reflexivity | ]. exfalso. exact (Ee K).
  - right. exists (e :: a), w, b. split; [reflexivity | ]. split; [exact Hb | reflexivity].
Qed.
Lemma read_entry_value : forall other skip st e st' o, read_entry other skip st e = Some st' ->
  (st' o = st o \/ (gives o e /\ st' o = snd e)) /\ (gives o e -> st' o = snd e /\ accepts (pattern o) (snd e) = true).
Proof.
  intros other skip st [p v] st' o E. unfold read_entry in E. cbn [fst snd] in *. unfold gives. cbn [fst snd].
  destruct (declared p) as [ d | ] eqn:Ed.
  - destruct (accepts (pattern d) v) eqn:Ea; [ | discriminate]. injection E as <-. apply declared_some in Ed. unfold assign.
    destruct (option_eq_dec o d) as [ -> | Ho ]; [ | split; [left; reflexivity | ]].
    + split; [right; split; auto | auto].
    + intros K. exfalso. apply Ho. apply path_inj. congruence.
  - assert (Hd : st' = st). { destruct (other p) as [ ok | ]; [destruct (ok v); congruence | destruct skip; congruence]. }
    subst st'. split; [left; reflexivity | ]. intros K. exfalso. exact (declared_none _ Ed o (eq_sym K)).
Qed.
Lemma read_entries_value : forall other skip l st st' o, read_entries other skip st l = Some st' -> decided st l o (st' o).
Proof.
  induction l as [ | e l IH ]; intros st st' o E; cbn [read_entries] in E.
  - injection E as <-. left. split; [intros x [] | reflexivity].
  - destruct (read_entry other skip st e) as [ st1 | ] eqn:E1; cbn [obind] in E; [ | discriminate].
    apply (decided_cons _ _ _ _ _ st1 (IH _ _ _ E)); apply (read_entry_value _ _ _ _ _ o) in E1; [tauto | ]. intros K. apply E1. exact K.
Qed.
Lemma decided_app : forall st l1 l2 o v1 v2, decided st l1 o v1 -> (forall st1, st1 o = v1 -> decided st1 l2 o v2) -> decided st (l1 ++ l2) o v2.
Proof.
  intros st l1 l2 o v1 v2 H1 H2. specialize (H2 (fun _ => v1) eq_refl).
  destruct H2 as [[Hno Hv] | [a [w [b [-> [Hb ->]]]]]].
  - destruct H1 as [[Hno1 Hv1] | [a [w [b [-> [Hb ->]]]]]].
    + left. split; [intros e He; apply in_app_or in He; destruct He; auto | congruence].
    + right. exists a, w, (b ++ l2). split; [rewrite <- app_assoc; reflexivity | ]. split; [intros e He; apply in_app_or in He; destruct He; auto | congruence].
  - right. exists (l1 ++ a), w, b. split; [rewrite <- app_assoc; reflexivity | auto].
Qed.
(** The value of an option is the one given last, the command line coming after the file, or the
    default. *)
Theorem C100_file : forall other file line st o, read other file line = Some st -> decided defaults (file ++ line) o (st o).
Proof.
  intros other file line st o E. unfold read in E. destruct (read_entries other true defaults file) as [ st1 | ] eqn:E1; cbn [obind] in E; [ | discriminate].
  apply (decided_app _ _ _ _ (st1 o)); [exact (read_entries_value _ _ _ _ _ o E1) | ].
  intros st2 H2. pose proof (read_entries_value _ _ _ _ _ o E) as H. unfold decided in *. rewrite H2. exact H.
Qed.
Print Assumptions C100_file.

Lemma read_entry_some : forall other skip st e, (exists st', read_entry other skip st e = Some st') <->
  ((forall o, gives o e -> accepts (pattern o) (snd e) = true)
   /\ ((forall o, ~ gives o e) -> match other (fst e) with Some ok => ok (snd e) = true | None => skip = true end)).
Proof.
  intros other skip st [p v]. unfold read_entry, gives. cbn [fst snd]. destruct (declared p) as [ d | ] eqn:Ed.
  - apply declared_some in Ed. subst p. split.
    + intros [st' E]. split; [ | intros K; exfalso; exact (K d eq_refl)]. intros o Ho. apply path_inj in Ho. subst o. destruct (accepts (pattern d) v); [reflexivity | discriminate].
    + intros [H _]. rewrite (H d eq_refl). eauto.
  - pose proof (declared_none _ Ed) as Hd. split.
    + intros [st' E]. split; [intros o Ho; exfalso; exact (Hd o (eq_sym Ho)) | ]. intros _. destruct (other p) as [ ok | ]; [destruct (ok v); [reflexivity | discriminate] | destruct skip; [reflexivity | discriminate]].
    + intros [_ H]. specialize (H (fun o K => Hd o (eq_sym K))). destruct (other p) as [ ok | ]; rewrite H; eauto.
Qed.
Lemma read_entries_some : forall other skip l st, (exists st', read_entries other skip st l = Some st') <->
  (forall e, In e l -> (forall o, gives o e -> accepts (pattern o) (snd e) = true)
   /\ ((forall o, ~ gives o e) -> match other (fst e) with Some ok => ok (snd e) = true | None => skip = true end)).
Proof.
  induction l as [ | e l IH ]; intros st; cbn [read_entries].
  - split; [intros _ e [] | eauto].
  - split.
    + intros [st' E] x Hx. destruct (read_entry other skip st e) as [ st1 | ] eqn:E1; cbn [obind] in E; [ | discriminate].
      destruct Hx as [<- | Hx]; [apply (read_entry_some other skip st e); eauto | ]. apply (proj1 (IH st1)); eauto.
    + intros H. destruct (proj2 (read_entry_some other skip st e) (H e (or_introl eq_refl))) as [st1 E1]. rewrite E1. cbn [obind].
      apply IH. intros x Hx. apply H. right; exact Hx.
Qed.
(** The program starts exactly if every entry for an option is one of its words, every other
    entry suits its own declaration, and the command line names nothing unknown. *)
Theorem C100_accepted : forall other file line, (exists st, read other file line = Some st) <->
  (forall e, In e (file ++ line) -> forall o, gives o e -> accepts (pattern o) (snd e) = true)
  /\ (forall e ok, In e (file ++ line) -> (forall o, ~ gives o e) -> other (fst e) = Some ok -> ok (snd e) = true)
  /\ (forall e, In e line -> (forall o, ~ gives o e) -> other (fst e) <> None).
Proof.
  intros other file line. unfold read. split.
  - intros [st E]. destruct (read_entries other true defaults file) as [ st1 | ] eqn:E1; cbn [obind] in E; [ | discriminate].
    pose proof (proj1 (read_entries_some other true file defaults) (ex_intro _ _ E1)) as H1.
    pose proof (proj1 (read_entries_some other false line st1) (ex_intro _ _ E)) as H2. split; [ | split].
    + intros e He. apply in_app_or in He. destruct He as [He | He]; [apply (H1 e He) | apply (H2 e He)].
    + intros e ok He Hn Hok. apply in_app_or in He. destruct He as [He | He]; [pose proof (proj2 (H1 e He) Hn) as K | pose proof (proj2 (H2 e He) Hn) as K]; rewrite Hok in K; exact K.
    + intros e He Hn K0. pose proof (proj2 (H2 e He) Hn) as K. rewrite K0 in K. discriminate.
  - intros [Ha [Hb Hc]].
    destruct (proj2 (read_entries_some other true file defaults)) as [st1 E1].
    { intros e He. split; [apply Ha; apply in_or_app; auto | ]. intros Hn. destruct (other (fst e)) as [ ok | ] eqn:Eo; [ | reflexivity]. apply (Hb e ok); auto. apply in_or_app; auto. }
    rewrite E1. cbn [obind]. apply read_entries_some. intros e He. split; [apply Ha; apply in_or_app; auto | ]. intros Hn.
    destruct (other (fst e)) as [ ok | ] eqn:Eo; [apply (Hb e ok); auto; apply in_or_app; auto | exfalso; exact (Hc e He Hn Eo)].
Qed.
Print Assumptions C100_accepted.

(** An entry of the file with a misspelt name is not noticed. *)
Theorem C100_ignored_refuted : forall other a b line p v, (forall o, path o <> p) -> other p = None ->
  read other (a ++ (p, v) :: b) line = read other (a ++ b) line.
Proof.
  intros other a b line p v Hp Ho. unfold read.
  assert (E : forall st, read_entries other true st (a ++ (p, v) :: b) = read_entries other true st (a ++ b)).
  { induction a as [ | e a IH ]; intros st.
    - cbn [app read_entries]. unfold read_entry. cbn [fst snd]. destruct (declared p) as [ d | ] eqn:Ed; [apply declared_some in Ed; exfalso; exact (Hp d (eq_sym Ed)) | ].
      rewrite Ho. reflexivity.
    - cbn [app read_entries]. destruct (read_entry other true st e) as [ st1 | ]; cbn [obind]; [apply IH | reflexivity]. }
  rewrite E. reflexivity.
Qed.
Print Assumptions C100_ignored_refuted.

(** ** Every word is understood *)
Lemma read_accepts : forall other file line st o, read other file line = Some st -> accepts (pattern o) (st o) = true.
Proof.
  intros other file line st o E. pose proof (C100_file _ _ _ _ o E) as H. destruct (proj1 (C100_accepted other file line) (ex_intro _ _ E)) as [Ha _].
  destruct H as [[_ ->] | [a [v [b [El [_ ->]]]]]].
  - destruct o; reflexivity.
  - apply (Ha (path o, v)); [rewrite El; apply in_or_app; right; left; reflexivity | reflexivity].
Qed.

(** [table]: the words of option [o] and what each of them shall mean.  No two mean the same, every
    program that starts has one of them, and each can be chosen. *)
Definition understood {A : Type} (o : option_name) (use : string -> option A) (table : list (string * A)) : Prop :=
  NoDup (map snd table)
  /\ (forall other file line st, read other file line = Some st -> exists w a, In (w, a) table /\ st o = w /\ use (st o) = Some a)
  /\ (forall w a, In (w, a) table -> exists st, read (fun _ => None) [] [(path o, w)] = Some st /\ st o = w /\ use w = Some a).

Lemma understood_intro : forall A o (use : string -> option A) table, NoDup (map snd table) ->
  split_bars (pattern o) = map fst table -> (forall w a, In (w, a) table -> use w = Some a) -> understood o use table.
Proof.
  intros A o use table Hn Hw Hu. split; [exact Hn | ]. split.
  - intros other file line st E. apply (read_accepts _ _ _ _ o) in E. unfold accepts in E. apply existsb_exists in E. destruct E as [x [Hx Ex]].
    apply String.eqb_eq in Ex. rewrite Hw in Hx. apply in_map_iff in Hx. destruct Hx as [[w a] [Ewa Hx]]. cbn [fst] in Ewa. subst w.
    exists x, a. split; [exact Hx | ]. split; [exact Ex | ]. rewrite Ex. apply Hu. exact Hx.
  - intros w a Hin. unfold read. cbn [read_entries obind]. unfold read_entry. cbn [fst snd]. rewrite declared_path.
    assert (Ha : accepts (pattern o) w = true).
    { unfold accepts. apply existsb_exists. exists w. split; [rewrite Hw; apply in_map_iff; exists (w, a); auto | apply String.eqb_refl]. }
    rewrite Ha. cbn [obind]. eexists. split; [reflexivity | ]. split; [ | apply Hu; exact Hin]. unfold assign. destruct (option_eq_dec o o); [reflexivity | congruence].
Qed.
Ltac table := apply understood_intro; [repeat constructor; cbn; intuition discriminate | reflexivity | intros w a H; cbn [In] in H; intuition; match goal with K : (_, _) = (_, _) |- _ => injection K as <- <-; reflexivity end].

Theorem C100_understood :
  understood InterfaceDir to_interface_direction [("Inside", inside); ("Outside", outside); ("Middle", middle)]
  /\ understood Refinement to_refinement [("None", RefineNone); ("Base", RefineBase); ("Full", RefineFull)]
  /\ understood Mesh to_mesh [("Interface", FromInterface); ("MaxRadius", FromRadius); ("Divisions", FromDivisions)]
  /\ understood Representation to_representation [("Spherical", Spherical); ("Elliptical", Elliptical); ("Wavefront", Wavefront)]
  /\ understood Material to_material [("Abstract", Abstract); ("Realistic", Realistic)]
  /\ understood Plane to_plane [("None", NoPlane); ("PlaneStrain", PlaneStrain); ("PlaneStress", PlaneStress)]
  /\ understood Boundary to_restraint [("None", Nothing); ("CentralSection", Section_); ("CentralParticle", Particle);
                                       ("CentralParticleSection", ParticleSection); ("Domain", Corners)]
  /\ understood Scheme create_time_scheme [("BDF1", Implicit 1); ("BDF2", Implicit 2); ("BDF3", Implicit 3); ("FE", ForwardEuler); ("RK4", RungeKutta4)]
  /\ understood RestartType to_predicate [("never", Never); ("n_calls", Calls); ("real_time", RealTime); ("simulation_time", SimulationTime)]
  /\ understood NonlinearSolver (to_nonlinear true) [("damped", Damped); ("NOX", NOX); ("SNES", SNES)]
  /\ understood Approximation to_value [("all", 0); ("const", 1); ("max", 2); ("avg", 3)]
  /\ (forall order, 1 < order -> understood Predictor (fun s => Some (predict s order))
        [("None", Keep); ("Linear", Extrapolate); ("Euler", EulerStep); ("Midpoint", MidpointStep)]).
Proof.
  do 11 (split; [table | ]). intros order Ho. apply understood_intro; [repeat constructor; cbn; intuition discriminate | reflexivity | ].
  intros w a H. cbn [In] in H. unfold predict.
  destruct H as [H | [H | [H | [H | []]]]]; injection H as <- <-; try reflexivity. cbn [String.eqb Ascii.eqb Bool.eqb andb].
  apply Nat.ltb_lt in Ho. rewrite Ho. reflexivity.
Qed.
Print Assumptions C100_understood.

(** The defaults are words of their own options, so reading nothing gives them. *)
Theorem C100_defaults : forall other, exists st, read other [] [] = Some st /\ (forall o, st o = defaults o /\ accepts (pattern o) (st o) = true).
Proof. intros other. exists defaults. split; [reflexivity | ]. destruct o; split; reflexivity. Qed.
Print Assumptions C100_defaults.

(** With a first order scheme the linear predictor does nothing that is written down: the
    prediction stays zero. *)
Theorem C100_predictor_refuted : forall order, order <= 1 -> accepts (pattern Predictor) "Linear" = true /\ predict "Linear" order = Zero.
Proof.
  intros order Ho. split; [reflexivity | ]. unfold predict. cbn [String.eqb Ascii.eqb Bool.eqb andb].
  destruct (Nat.ltb_spec 1 order); [lia | reflexivity].
Qed.
Print Assumptions C100_predictor_refuted.

(** A build without SNES accepts the word and stops later. *)
Theorem C100_nonlinear_refuted : forall other, exists st, read other [] [(path NonlinearSolver, "SNES")] = Some st
  /\ to_nonlinear false (st NonlinearSolver) = None /\ (forall s, accepts (pattern NonlinearSolver) s = true -> s <> "SNES" -> to_nonlinear false s <> None).
Proof.
  intros other. eexists. split; [unfold read; cbn [read_entries obind]; unfold read_entry; cbn [fst snd]; rewrite declared_path; cbn [accepts]; reflexivity | ].
  split; [reflexivity | ]. intros s Hs Hn. unfold accepts in Hs. apply existsb_exists in Hs. destruct Hs as [x [Hx Es]]. apply String.eqb_eq in Es. subst x.
  cbn in Hx. destruct Hx as [<- | [<- | [<- | []]]]; try discriminate. congruence.
Qed.
Print Assumptions C100_nonlinear_refuted.

(** The grain tracker is switched on for the restraints that ask it for a grain, and for no
    others. *)
Theorem C100_tracker : forall s r, to_restraint s = Some r -> (tracker_for_restraint s = true <-> uses_tracker r = true).
Proof.
  intros s r E. unfold to_restraint in E. unfold tracker_for_restraint.
  destruct (String.eqb_spec s "CentralSection") as [ -> | H1 ]; [injection E as <-; cbn; tauto | ].
  destruct (String.eqb_spec s "CentralParticle") as [ -> | H2 ]; [injection E as <-; cbn; tauto | ].
  destruct (String.eqb_spec s "CentralParticleSection") as [ -> | H3 ]; [injection E as <-; cbn; tauto | ].
  destruct (String.eqb_spec s "Domain") as [ -> | H4 ]; injection E as <-; cbn; split; discriminate.
Qed.
Print Assumptions C100_tracker.
(** The count of steps starts from the step, the others from the time. *)
Theorem C100_start : forall A s p (n t : A), to_predicate s = Some p -> start s n t = match p with Calls => n | _ => t end.
Proof.
  intros A s p n t E. unfold to_predicate in E. unfold start.
  destruct (String.eqb_spec s "never") as [ -> | H1 ]; [injection E as <-; reflexivity | ].
  destruct (String.eqb_spec s "n_calls") as [ -> | H2 ]; [injection E as <-; reflexivity | ].
  destruct (String.eqb_spec s "real_time") as [ -> | H3 ]; [injection E as <-; reflexivity | ].
  destruct (String.eqb_spec s "simulation_time") as [ -> | H4 ]; [injection E as <-; reflexivity | discriminate].
Qed.
Print Assumptions C100_start.

(** ** Preconditioners *)
Definition simple : list (string * (ptype * data)) :=
  [("AMG", (AMG, AMGData)); ("BlockAMG", (BlockAMG, AMGData)); ("BlockILU", (BlockILU, ILUData));
   ("InverseBlockDiagonalMatrix", (CellBlock, NoData)); ("InverseDiagonalMatrix", (InverseDiagonal, NoData)); ("ILU", (ILU, ILUData));
   ("InverseComponentBlockDiagonalMatrix", (ComponentBlock, NoData)); ("Identity", (Identity, NoData)); ("IC", (IC, ICData))].
Definition of_second_block : list string := ["AMG"; "ILU"; "IC"; "InverseDiagonalMatrix"; "BlockAMG"; "BlockILU"].

Ltac inlist := unfold simple, of_second_block; cbn [In]; repeat first [left; reflexivity | right].
Ltac notin K := unfold simple, of_second_block in K; cbn [In] in K; solve [repeat (destruct K as [K | K]; [discriminate K | ]); destruct K].

Lemma words_of : forall sequence s, accepts sequence s = true -> In s (split_bars sequence).
Proof. intros q s H. unfold accepts in H. apply existsb_exists in H. destruct H as [x [Hx E]]. apply String.eqb_eq in E. subst x. exact Hx. Qed.
Definition eleven : list string :=
  ["AMG"; "BlockAMG"; "BlockILU"; "InverseBlockDiagonalMatrix"; "InverseDiagonalMatrix"; "ILU"; "InverseComponentBlockDiagonalMatrix"; "BlockGMG"; "GMG"; "Identity"; "IC"].
Lemma split_types : split_bars preconditioner_types = eleven.
Proof. vm_compute. reflexivity. Qed.
Lemma types_words : forall s, accepts preconditioner_types s = true -> In s eleven.
Proof. intros s H. apply words_of in H. rewrite split_types in H. exact H. Qed.
Lemma outer_words : split_bars (pattern Outer) = eleven ++ ["BlockPreconditioner2"].
Proof. vm_compute. reflexivity. Qed.

(** Of the eleven words, nine make a preconditioner, each a different one with the numbers of its
    own section; the multigrid ones make none. *)
Theorem C100_types : NoDup (map snd simple)
  /\ (forall s p, accepts preconditioner_types s = true -> (create_preconditioner s = Some p <-> In (s, p) simple))
  /\ (forall s, accepts preconditioner_types s = true -> (create_preconditioner s = None <-> s = "GMG" \/ s = "BlockGMG")).
Proof.
  split; [repeat constructor; cbn; intuition discriminate | ]. split.
  - intros s p H. apply types_words in H. cbn [eleven In] in H. split.
    + intros E. destruct H as [<- | [<- | [<- | [<- | [<- | [<- | [<- | [<- | [<- | [<- | [<- | []]]]]]]]]]]]; try discriminate E; injection E as <-; inlist.
    + intros Hin. cbn [simple In] in Hin. repeat (destruct Hin as [Hin | Hin]; [injection Hin as <- <-; reflexivity | ]). destruct Hin.
  - intros s H. apply types_words in H. cbn [eleven In] in H.
    destruct H as [<- | [<- | [<- | [<- | [<- | [<- | [<- | [<- | [<- | [<- | [<- | []]]]]]]]]]]]; (split; [intros K; first [discriminate K | left; reflexivity | right; reflexivity] | intros [K | K]; first [discriminate K | reflexivity]]).
Qed.
Print Assumptions C100_types.

Lemma eqb_neq' : forall a b, a <> b -> String.eqb a b = false.
Proof. intros a b H. apply String.eqb_neq. exact H. Qed.


(** What is built, and when. *)
Theorem C100_built : forall other file line st coupled, read other file line = Some st ->
  (forall p, build coupled st = Some (Whole p) <-> st Outer <> "BlockPreconditioner2" /\ In (st Outer, p) simple)
  /\ (forall p0 p1 blocked p2 a, build coupled st = Some (Blocks p0 p1 blocked p2 a) <->
        st Outer = "BlockPreconditioner2" /\ In (st Block0, p0) simple /\ In (st Block1, p1) simple /\ In (st Block1) of_second_block
        /\ blocked = (if in_dec string_dec (st Block1) ["BlockAMG"; "BlockILU"] then true else false)
        /\ match p2 with Some p => coupled = true /\ In (st Block2, p) simple | None => coupled = false end
        /\ In (st Approximation, a) [("all", 0); ("const", 1); ("max", 2); ("avg", 3)]).
Proof.
  intros other file line st coupled E.
  pose proof (words_of _ _ (read_accepts _ _ _ _ Outer E)) as HO. pose proof (read_accepts _ _ _ _ Block0 E) as H0.
  pose proof (read_accepts _ _ _ _ Block1 E) as H1. pose proof (read_accepts _ _ _ _ Block2 E) as H2.
  pose proof (words_of _ _ (read_accepts _ _ _ _ Approximation E)) as HA. clear E.
  change (pattern Block0) with preconditioner_types in H0. change (pattern Block1) with preconditioner_types in H1. change (pattern Block2) with preconditioner_types in H2.
  destruct C100_types as [_ [Hs Hg]].
  assert (Hval : forall a, to_value (st Approximation) = Some a <-> In (st Approximation, a) [("all", 0); ("const", 1); ("max", 2); ("avg", 3)]).
  { intros a. cbn in HA. split.
    - intros K. destruct HA as [HA | [HA | [HA | [HA | []]]]]; rewrite <- HA in K |- *; injection K as <-; inlist.
    - intros K. cbn [In] in K. repeat (destruct K as [K | K]; [injection K as K <-; rewrite <- K; reflexivity | ]). destruct K. }
  assert (HO' : st Outer = "BlockPreconditioner2" \/ (st Outer <> "BlockPreconditioner2" /\ accepts preconditioner_types (st Outer) = true)).
  { rewrite outer_words in HO. cbn [eleven In app] in HO. destruct HO as [<- | [<- | [<- | [<- | [<- | [<- | [<- | [<- | [<- | [<- | [<- | [<- | []]]]]]]]]]]]]; (left; reflexivity) || (right; split; [discriminate | reflexivity]). }
  clear HO. unfold build, multigrid. destruct HO' as [EO | [NO AO]].
  - rewrite EO. replace (String.eqb "BlockPreconditioner2" "GMG") with false by reflexivity. replace (String.eqb "BlockPreconditioner2" "BlockGMG") with false by reflexivity.
    rewrite String.eqb_refl. cbn [orb andb].
    destruct (String.eqb (st Block1) "GMG" || String.eqb (st Block1) "BlockGMG")%bool eqn:Emg.
    + split.
      * intros p. split; [discriminate | intros [K _]; congruence].
      * intros p0 p1 blocked p2 a. split; [discriminate | ]. intros [_ [_ [_ [K _]]]]. exfalso. apply orb_true_iff in Emg.
        destruct Emg as [Emg | Emg]; apply String.eqb_eq in Emg; rewrite Emg in K; notin K.
    + apply orb_false_iff in Emg. destruct Emg as [G1 G2]. apply String.eqb_neq in G1. apply String.eqb_neq in G2.
      split.
      * intros p. split; [ | intros [K _]; congruence].
        destruct (to_value (st Approximation)) as [ a | ]; cbn [obind]; [ | discriminate]. destruct (create_preconditioner (st Block0)) as [ q0 | ]; cbn [obind]; [ | discriminate].
        match goal with |- obind ?x _ = _ -> _ => destruct x as [ q1 | ] end; cbn [obind]; [ | discriminate].
        destruct coupled; [destruct (create_preconditioner (st Block2)); cbn [obind]; discriminate | discriminate].
      * intros p0 p1 blocked p2 a.
        assert (H1w : In (st Block1) eleven) by (apply types_words; exact H1).
        set (second := (if (String.eqb (st Block1) "AMG" || String.eqb (st Block1) "ILU" || String.eqb (st Block1) "IC" || String.eqb (st Block1) "InverseDiagonalMatrix")%bool
             then option_map (fun p => (p, false)) (create_preconditioner (st Block1))
             else if (String.eqb (st Block1) "BlockAMG" || String.eqb (st Block1) "BlockILU")%bool
             then option_map (fun p => (p, true)) (create_preconditioner (st Block1)) else None)).
        assert (Hsec : forall q1 bl, second = Some (q1, bl) <-> In (st Block1, q1) simple /\ In (st Block1) of_second_block
                  /\ bl = (if in_dec string_dec (st Block1) ["BlockAMG"; "BlockILU"] then true else false)).
        { intros q1 bl. rewrite <- (Hs (st Block1) q1 H1). unfold second. clear second.
          assert (Hcase : forall s, In s eleven ->
            ((if (String.eqb s "AMG" || String.eqb s "ILU" || String.eqb s "IC" || String.eqb s "InverseDiagonalMatrix")%bool
              then option_map (fun p => (p, false)) (create_preconditioner s)
              else if (String.eqb s "BlockAMG" || String.eqb s "BlockILU")%bool then option_map (fun p => (p, true)) (create_preconditioner s) else None) = Some (q1, bl)
             <-> create_preconditioner s = Some q1 /\ In s of_second_block /\ bl = (if in_dec string_dec s ["BlockAMG"; "BlockILU"] then true else false))).
          { clear. intros s H. unfold eleven in H. cbn [In] in H.
            destruct H as [<- | [<- | [<- | [<- | [<- | [<- | [<- | [<- | [<- | [<- | [<- | []]]]]]]]]]]]; cbn - [In];
              (split; [intros K; first [discriminate K | injection K as <- <-; split; [reflexivity | split; [inlist | reflexivity]]]
                      | intros [K1 [K2 K3]]; first [discriminate K1 | subst bl; injection K1 as <-; reflexivity | exfalso; notin K2]]). }
          apply Hcase. exact H1w. }
        clearbody second. rewrite <- (Hs (st Block0) p0 H0). rewrite <- Hval.
        split.
        { intros K. split; [reflexivity | ]. destruct (to_value (st Approximation)) as [ a' | ]; cbn [obind] in K; [ | discriminate].
          destruct (create_preconditioner (st Block0)) as [ q0 | ]; cbn [obind] in K; [ | discriminate].
          destruct second as [ [q1 bl] | ] eqn:Esec; cbn [obind fst snd] in K; [ | discriminate].
          destruct (proj1 (Hsec q1 bl) eq_refl) as [S1 [S2 S3]].
          destruct coupled.
          - destruct (create_preconditioner (st Block2)) as [ q2 | ] eqn:E2; cbn [obind] in K; [ | discriminate]. injection K as <- <- <- <- <-.
            apply (Hs _ _ H2) in E2. auto 10.
          - injection K as <- <- <- <- <-. auto 10. }
        { intros [_ [K0 [K1 [K2 [K3 [K4 K5]]]]]]. rewrite K5, K0. cbn [obind].
          rewrite (proj2 (Hsec p1 blocked) (conj K1 (conj K2 K3))). cbn [obind fst snd].
          destruct p2 as [ q2 | ].
          - destruct K4 as [-> K4]. apply (Hs _ _ H2) in K4. rewrite K4. reflexivity.
          - rewrite K4. reflexivity. }
  - rewrite (eqb_neq' _ _ NO). cbn [andb]. rewrite orb_false_r.
    destruct (String.eqb (st Outer) "GMG" || String.eqb (st Outer) "BlockGMG")%bool eqn:Emg.
    + split; [ | intros p0 p1 blocked p2 a; split; [discriminate | intros [K _]; congruence]].
      intros p. split; [discriminate | ]. intros [_ K]. exfalso. apply orb_true_iff in Emg.
      destruct Emg as [Emg | Emg]; apply String.eqb_eq in Emg; rewrite Emg in K; notin K.
    + split; [ | intros p0 p1 blocked p2 a; split; [destruct (create_preconditioner (st Outer)); discriminate | intros [K _]; congruence]].
      intros p. rewrite <- (Hs _ p AO). destruct (create_preconditioner (st Outer)) as [ q | ]; cbn [option_map]; split.
      * intros K. injection K as <-. auto. * intros [_ K]. congruence. * discriminate. * intros [_ K]; discriminate.
Qed.
Print Assumptions C100_built.

(** Words that are accepted and stop the program nevertheless: multigrid anywhere, and three more
    for the second block. *)
Theorem C100_preconditioner_refuted :
  (forall other coupled o w, In (o, w) [(Outer, "GMG"); (Outer, "BlockGMG"); (Block0, "GMG"); (Block0, "BlockGMG"); (Block1, "GMG"); (Block1, "BlockGMG");
                                (Block1, "Identity"); (Block1, "InverseBlockDiagonalMatrix"); (Block1, "InverseComponentBlockDiagonalMatrix")] ->
     exists st, read other [] [(path o, w)] = Some st /\ st o = w /\ build coupled st = None)
  /\ (forall other w, In w ["GMG"; "BlockGMG"] -> exists st, read other [] [(path Block2, w)] = Some st /\ build true st = None /\ build false st <> None).
Proof.
  split.
  - intros other coupled o w H. exists (assign defaults o w). unfold read. cbn [read_entries obind]. unfold read_entry. cbn [fst snd]. rewrite declared_path.
    cbn [In] in H. repeat (destruct H as [H | H]; [injection H as <- <-; destruct coupled; vm_compute; auto | ]). destruct H.
  - intros other w H. exists (assign defaults Block2 w). unfold read. cbn [read_entries obind]. unfold read_entry. cbn [fst snd]. rewrite declared_path.
    cbn [In] in H. destruct H as [<- | [<- | []]]; vm_compute; repeat split; discriminate.
Qed.
Print Assumptions C100_preconditioner_refuted.

(** What is built can be made into the preconditioners of the model of their life. *)
Theorem C100_inner : forall other file line st coupled p0 p1 blocked p2 a n dim, read other file line = Some st ->
  build coupled st = Some (Blocks p0 p1 blocked p2 a) ->
  exists b, create_block (mkConfig (fst p0) (fst p1) (option_map fst p2) (Nat.ltb 0 a) dim) n = Some b.
Proof.
  intros other file line st coupled p0 p1 blocked p2 a n dim E K. apply (proj2 (C100_built _ _ _ _ coupled E)) in K.
  destruct K as [_ [K0 [K1 [K2 [_ [K4 _]]]]]]. unfold create_block. cbn [c_block_0 c_block_1 c_block_2 c_single c_dim].
  assert (Hc : forall s p o nc, In (s, p) simple -> exists q, create (fst p) o nc = Some q).
  { intros s p o nc H. unfold create. cbn [simple In] in H. repeat (destruct H as [H | H]; [injection H as <- <-; cbn; eauto | ]). destruct H. }
  destruct (Hc _ _ (new_op None) 2 K0) as [q0 E0]. rewrite E0. cbn [obind].
  assert (Hp1 : exists q1, (match fst p1 with AMG | ILU | IC | InverseDiagonal => create (fst p1) (new_op None) n
                            | BlockAMG | BlockILU => create (fst p1) (new_op (Some (Nat.ltb 0 a))) n | _ => None end) = Some q1).
  { cbn [simple In] in K1. repeat (destruct K1 as [K1 | K1]; [injection K1 as K1 <-; rewrite <- K1 in K2; first [exfalso; notin K2 | cbn; eauto] | ]). destruct K1. }
  destruct Hp1 as [q1 E1]. rewrite E1. cbn [obind]. destruct p2 as [ p2 | ]; cbn [option_map]; [ | eauto].
  destruct K4 as [_ K4]. destruct (Hc _ _ (new_op None) dim K4) as [q2 E2]. rewrite E2. cbn [obind]. eauto.
Qed.
Print Assumptions C100_inner.

(** ** First refinement *)
Theorem C100_fraction : forall s top, (0 <= top <= 1)%Q ->
  (top <= top_fraction s top <= 1)%Q
  /\ (s = "None" -> (top_fraction s top == 3 * top)%Q \/ (1 < 3 * top)%Q /\ (top_fraction s top == 1)%Q)
  /\ (s = "Base" -> (2 * top_fraction s top == 5 * top)%Q \/ (2 < 5 * top)%Q /\ (top_fraction s top == 1)%Q)
  /\ (s = "Full" -> (top_fraction s top == top)%Q).
Proof.
  intros s top Ht. unfold top_fraction.
  assert (Hc : forall f : Q, (top <= f)%Q -> (top <= (if Qle_bool f 1 then f else 1%Q) <= 1)%Q).
  { intros f Hf. destruct (Qle_bool f 1) eqn:E; [apply Qle_bool_iff in E; split; lra | split; lra]. }
  split; [ | split; [ | split]].
  - destruct (String.eqb s "None"); [apply Hc; lra | ]. destruct (String.eqb s "Base"); apply Hc; lra.
  - intros ->. rewrite String.eqb_refl. destruct (Qle_bool (top * 3) 1) eqn:E; [left; ring | ]. right.
    assert (~ (top * 3 <= 1)%Q) by (intros K; apply Qle_bool_iff in K; congruence). split; lra.
  - intros ->. replace (String.eqb "Base" "None") with false by reflexivity. rewrite String.eqb_refl. destruct (Qle_bool (top * (5 # 2)) 1) eqn:E; [left; lra | ]. right.
    assert (~ (top * (5 # 2) <= 1)%Q) by (intros K; apply Qle_bool_iff in K; congruence). split; lra.
  - intros ->. replace (String.eqb "Full" "None") with false by reflexivity. replace (String.eqb "Full" "Base") with false by reflexivity.
    destruct (Qle_bool top 1) eqn:E; [reflexivity | ]. assert (~ (top <= 1)%Q) by (intros K; apply Qle_bool_iff in K; congruence). lra.
Qed.
Print Assumptions C100_fraction.
(** Fractions that together select no more than all cells, as the library demands, may select more
    than all of them in the first refinement. *)
Theorem C100_fraction_refuted : forall top bottom, (0 < bottom)%Q -> (1 # 3 <= top)%Q -> (top + bottom <= 1)%Q -> (1 < top_fraction "None" top + bottom)%Q.
Proof.
  intros top bottom Hb Ht Hs. unfold top_fraction. rewrite String.eqb_refl. destruct (Qle_bool (top * 3) 1) eqn:E.
  - apply Qle_bool_iff in E. lra. - lra.
Qed.
Print Assumptions C100_fraction_refuted.

(** ** Element *)
(** A program that starts works with the element and the number of quadrature points it was
    compiled for. *)
Theorem C100_element : forall degree points fe_degree n_subdivisions n_points e q,
  discretise degree points fe_degree n_subdivisions n_points = Some (e, q) ->
  intervals e = degree /\ q = points
  /\ ((e = FE_Q fe_degree /\ n_subdivisions = 1) \/ (e = FE_Q_iso_Q1 n_subdivisions /\ n_subdivisions <> 1 /\ fe_degree = 1)).
Proof.
  intros degree points fe_degree ns np e q E. unfold discretise, check, create_fe in E.
  destruct (Nat.eqb_spec ns 1) as [ -> | Hn ].
  - destruct (Nat.eqb_spec degree fe_degree) as [ -> | ]; [ | discriminate]. destruct (Nat.eqb_spec points np) as [ -> | ]; [ | discriminate].
    cbn [andb obind] in E. injection E as <- <-. unfold quadrature. cbn [intervals]. split; [reflexivity | split; [lia | left; auto]].
  - destruct (Nat.eqb_spec degree ns) as [ -> | ]; [ | discriminate]. destruct (Nat.eqb_spec points (np * ns)) as [ -> | ]; [ | discriminate].
    cbn [andb obind] in E. destruct (Nat.eqb_spec fe_degree 1) as [ -> | ]; cbn [obind] in E; [ | discriminate]. injection E as <- <-.
    unfold quadrature. cbn [intervals]. auto 10.
Qed.
Print Assumptions C100_element.
(** The usual build never works with subdivisions; the other one does in exactly one way. *)
Theorem C100_subdivisions :
  (forall degree fe_degree ns np, (exists r, discretise degree (n_q_points false degree) fe_degree ns np = Some r) <-> ns = 1 /\ fe_degree = degree /\ np = degree + 1)
  /\ (forall fe_degree ns np, (exists r, discretise 2 (n_q_points true 2) fe_degree ns np = Some r) <->
        (ns = 1 /\ fe_degree = 2 /\ np = 4) \/ (ns = 2 /\ fe_degree = 1 /\ np = 2)).
Proof.
  split.
  - intros d k ns np. unfold n_q_points. split.
    + intros [[e q] E]. unfold discretise, check in E. destruct (Nat.eqb_spec ns 1) as [ -> | Hn ].
      * destruct (Nat.eqb_spec d k) as [ <- | ]; [ | discriminate]. destruct (Nat.eqb_spec (d + 1) np) as [ <- | ]; [ | discriminate]. auto.
      * destruct (Nat.eqb_spec d ns) as [ -> | ]; [ | discriminate]. destruct (Nat.eqb_spec (ns + 1) (np * ns)) as [Ep | ]; [ | discriminate].
        exfalso. destruct np as [ | [ | np ] ]; [lia | lia | nia].
    + intros [-> [-> ->]]. unfold discretise, check, create_fe. rewrite !Nat.eqb_refl. cbn [andb obind]. eauto.
  - intros k ns np. change (n_q_points true 2) with 4. split.
    + intros [[e q] E]. unfold discretise, check, create_fe in E. destruct (Nat.eqb_spec ns 1) as [ -> | Hn ].
      * destruct (Nat.eqb_spec 2 k) as [ <- | ]; [ | discriminate]. destruct (Nat.eqb_spec 4 np) as [ <- | ]; [ | discriminate]. auto.
      * destruct (Nat.eqb_spec 2 ns) as [ <- | ]; [ | discriminate]. destruct (Nat.eqb_spec 4 (np * 2)) as [Ep | ]; [ | discriminate].
        cbn [andb obind] in E. destruct (Nat.eqb_spec k 1) as [ -> | ]; [ | discriminate]. right. repeat split; lia.
    + intros [[-> [-> ->]] | [-> [-> ->]]]; vm_compute; eauto.
Qed.
Print Assumptions C100_subdivisions.

(** A file with two entries for the same option, a misspelt one and an override on the command
    line. *)
Example C100_applies :
  let file := [(["Geometry"; "GlobalRefinement"], "Full"); (["Geometry"; "InitalMesh"], "Divisions");
               (["Preconditioners"; "BlockPreconditioner2"; "Block1"; "Type"], "BlockILU"); (["Geometry"; "GlobalRefinement"], "Base")] in
  let line := [(["TimeIntegration"; "IntegrationScheme"], "BDF3"); (["Preconditioners"; "BlockPreconditioner2"; "Block1Approximation"], "avg")] in
  match read (fun _ => None) file line with
  | Some st => st Refinement = "Base" /\ st Mesh = "Interface" /\ create_time_scheme (st Scheme) = Some (Implicit 3)
               /\ build false st = Some (Blocks (ILU, ILUData) (BlockILU, ILUData) true None 3)
  | None => False
  end
  /\ read (fun _ => None) file [(["Geometry"; "InitalMesh"], "Divisions")] = None
  /\ read (fun _ => None) [(["Geometry"; "InitialMesh"], "divisions")] [] = None
  /\ discretise 1 2 1 1 2 = Some (FE_Q 1, 2) /\ discretise 2 4 1 2 2 = Some (FE_Q_iso_Q1 2, 4) /\ discretise 1 2 2 1 2 = None.
Proof. vm_compute. repeat split. Qed.
