(** Properties of the output fields of the coupled operator (claim C124). *)
From Coq Require Import String QArith.
From Coq Require Import List Arith Bool Lia Lqa.
From Verif Require Import Util CoupledOutputModel.
Import ListNotations.
Local Open Scope string_scope.
Local Open Scope nat_scope.
Local Open Scope list_scope.

Definition axis (i : nat) : string := match i with 0 => "x" | 1 => "y" | _ => "z" end.
(** name and value of the entry of the linear strain for the axes [i <= j] *)
Definition strain_name (i j : nat) : string :=
  ("lin_" ++ (if Nat.eqb i j then "eps_" else "tau_") ++ axis i ++ axis j)%string.
Definition strain_value (u : nat -> nat -> Q) (i j : nat) : Q :=
  if Nat.eqb i j then u i i else (u i j + u j i)%Q.

(** The list of the vectors, written out. *)
Definition velocity_fields (dim first : nat) (dt : Q) (vec : list (nat -> Q)) : list (string * dvec) :=
  map (fun d => ("vel", Nodal (fun x => (nth (first + d) vec (fun _ => 0%Q) x * velocity_factor dt)%Q))) (seq 0 dim).

Lemma velocity_part : forall dim first dt vec rest,
  dim = 2 \/ dim = 3 -> first + dim <= List.length vec ->
  put_velocities (seq 0 dim) first dt vec (repeat Initial dim ++ rest) =
  Some (map snd (velocity_fields dim first dt vec) ++ rest).
Proof.
  intros dim first dt vec rest D L.
  assert (E : forall d, d < dim -> nth_error vec (first + d) = Some (nth (first + d) vec (fun _ => 0%Q))).
  { intros d Hd. apply nth_error_nth'. lia. }
  destruct D as [-> | ->]; unfold velocity_fields; cbn [seq put_velocities repeat app map snd];
    rewrite !E by lia; cbn [obind put]; rewrite ?E by lia; cbn [obind put];
    rewrite ?E by lia; cbn [obind put]; reflexivity.
Qed.

(** What is added, whatever is asked for, in 2D and 3D. The velocities come first, one vector per
    direction named "vel", holding the displacement divided by the time step at every node, or 0
    if the time step is 0. Behind them are the [dim (dim + 1) / 2] entries of the linear strain,
    every one once under a name of its own; the one named after the axes [i] and [j] holds the
    derivative along the axis on the diagonal and the sum of the mixed derivatives beside it. *)
Theorem C124_fields : forall dim first dt vec grad fields,
  dim = 2 \/ dim = 3 -> first + dim <= List.length vec -> first + dim <= List.length grad ->
  exists vels strains,
    coupled_output dim first dt vec grad fields = Some (vels ++ strains) /\
    (if fields "vel" then
       List.length vels = dim /\
       forall d, d < dim -> exists v, nth_error vels d = Some ("vel", Nodal v) /\
         forall b x, nth_error vec (first + d) = Some b ->
           (~ dt == 0 -> v x * dt == b x)%Q /\ (dt == 0 -> v x == 0)%Q
     else vels = []) /\
    (if fields "strain_lin" then
       List.length strains = dim * (dim + 1) / 2 /\ NoDup (map fst strains) /\
       forall i j, i <= j -> j < dim -> exists v, In (strain_name i j, Points v) strains /\
         forall q, (v q == strain_value (fun d k => nth (first + d) grad (fun _ _ => 0%Q) k q) i j)%Q
     else strains = []).
Proof.
  intros dim first dt vec grad fields D Lv Lg.
  assert (Ln : forall q, temp_of dim first true grad q =
    strain_of dim (fun d j => nth (first + d) grad (fun _ _ => 0%Q) j q)).
  { intros q. unfold temp_of. rewrite (nth_error_nth' grad (fun _ _ => 0%Q)) by lia. reflexivity. }
  set (u := fun q d k => nth (first + d) grad (fun _ _ => 0%Q) k q).
  exists (if fields "vel" then velocity_fields dim first dt vec else []).
  exists (if fields "strain_lin" then
    map (fun c => (nth c (map (fun s => "lin_" ++ s)%string (voigt_names dim)) "",
      Points (fun q => match temp_of dim first true grad q with Some t => nth c t 0%Q | None => 0%Q end)))
      (seq 0 (voigt_count dim)) else []).
  split; [|split].
  - unfold coupled_output, coupled_mask.
    assert (V := velocity_part dim first dt vec).
    destruct (fields "vel") eqn:Fv, (fields "strain_lin") eqn:Fs.
    + specialize (V (repeat Initial (voigt_count dim)) D Lv). rewrite <- repeat_app in V.
      rewrite V. clear V.
      destruct D as [-> | ->]; cbn [voigt_count Nat.mul Nat.add Nat.div Nat.divmod fst snd Nat.eqb obind Nat.sub];
        change (voigt_count 2) with 3; change (voigt_count 3) with 6;
        cbn [Nat.add Nat.eqb Nat.sub obind]; rewrite Ln; cbn [strain_of obind]; reflexivity.
    + specialize (V [] D Lv). rewrite !app_nil_r in V. rewrite Nat.add_0_r.
      rewrite V. clear V. destruct D as [-> | ->]; reflexivity.
    + clear V. destruct D as [-> | ->]; change (voigt_count 2) with 3; change (voigt_count 3) with 6;
        cbn [Nat.add Nat.eqb Nat.sub obind]; rewrite Ln; cbn [strain_of obind]; reflexivity.
    + destruct D as [-> | ->]; reflexivity.
  - destruct (fields "vel"); [|reflexivity]. unfold velocity_fields.
    split; [rewrite map_length, seq_length; reflexivity|].
    intros d Hd. eexists. split.
    { rewrite (map_nth_error _ d (seq 0 dim) (d := d)); [reflexivity|].
      rewrite (nth_error_nth' _ 0) by (rewrite seq_length; lia). rewrite seq_nth by lia. reflexivity. }
    intros b x Hb. rewrite (nth_error_nth _ _ (fun _ => 0%Q) Hb). unfold velocity_factor.
    destruct (Qeq_bool dt 0) eqn:E.
    + apply Qeq_bool_iff in E. split; [intro H; contradiction|]. intros _. ring.
    + split; [|intro H; apply Qeq_bool_iff in H; congruence].
      intro H. field. exact H.
  - destruct (fields "strain_lin"); [|reflexivity].
    split; [rewrite map_length, seq_length; reflexivity|].
    set (L := map _ (seq 0 (voigt_count dim))).
    assert (I : forall c, c < voigt_count dim -> In (nth c (map (fun s => "lin_" ++ s)%string (voigt_names dim)) "",
      Points (fun q => match temp_of dim first true grad q with Some t => nth c t 0%Q | None => 0%Q end)) L).
    { intros c Hc. unfold L. apply in_map_iff. exists c. split; [reflexivity|]. apply in_seq. lia. }
    destruct D as [-> | ->]; (split; [unfold L; cbn; repeat constructor; cbn; intuition discriminate|]);
      intros i j Hij Hj; clearbody L.
    + assert (K : forall c, c < 3 -> In (nth c ["lin_eps_xx"; "lin_eps_yy"; "lin_tau_xy"] "",
        Points (fun q => match temp_of 2 first true grad q with Some t => nth c t 0%Q | None => 0%Q end)) L).
      { intros c Hc. exact (I c Hc). }
      assert (C : (i = 0 /\ j = 0) \/ (i = 1 /\ j = 1) \/ (i = 0 /\ j = 1)) by lia.
      destruct C as [[-> ->]|[[-> ->]|[-> ->]]]; eexists;
        (split; [first [exact (K 0 ltac:(lia)) | exact (K 1 ltac:(lia)) | exact (K 2 ltac:(lia))]|]);
        intro q; cbv beta; rewrite Ln; cbn [strain_of nth]; unfold strain_value; cbn [Nat.eqb]; ring.
    + assert (K : forall c, c < 6 -> In (nth c ["lin_eps_xx"; "lin_eps_yy"; "lin_eps_zz"; "lin_tau_xy"; "lin_tau_yz"; "lin_tau_xz"] "",
        Points (fun q => match temp_of 3 first true grad q with Some t => nth c t 0%Q | None => 0%Q end)) L).
      { intros c Hc. exact (I c Hc). }
      assert (C : (i = 0 /\ j = 0) \/ (i = 1 /\ j = 1) \/ (i = 2 /\ j = 2) \/ (i = 0 /\ j = 1)
        \/ (i = 1 /\ j = 2) \/ (i = 0 /\ j = 2)) by lia.
      destruct C as [[-> ->]|[[-> ->]|[[-> ->]|[[-> ->]|[[-> ->]|[-> ->]]]]]]; eexists;
        (split; [first [exact (K 0 ltac:(lia)) | exact (K 1 ltac:(lia)) | exact (K 2 ltac:(lia))
          | exact (K 3 ltac:(lia)) | exact (K 4 ltac:(lia)) | exact (K 5 ltac:(lia))]|]);
        intro q; cbv beta; rewrite Ln; cbn [strain_of nth]; unfold strain_value; cbn [Nat.eqb]; ring.
Qed.

(** A case in 2D: displacements in the blocks 2 and 3, a time step of 1/2, both fields. *)
Example C124_fields_applies :
  match coupled_output 2 2 (1 # 2) [fun _ => 7; fun _ => 8; fun x => inject_Z (Z.of_nat x); fun _ => 3]%Q
    [fun _ _ => 9; fun _ _ => 9; fun j _ => inject_Z (Z.of_nat j); fun j _ => inject_Z (10 + Z.of_nat j)]%Q
    (fun _ => true) with
  | Some [("vel", Nodal vx); ("vel", Nodal vy); ("lin_eps_xx", Points a); ("lin_eps_yy", Points b); ("lin_tau_xy", Points c)] =>
      (vx 4%nat == 8 /\ vy 0%nat == 6 /\ a 5%nat == 0 /\ b 5%nat == 11 /\ c 5%nat == 11)%Q
  | _ => False
  end.
Proof. vm_compute. repeat split; reflexivity. Qed.

Print Assumptions C124_fields.
