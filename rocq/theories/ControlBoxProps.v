(** Property C47: automatic control box. *)
From Coq Require Import QArith List Bool Arith Lia Lqa.
From Verif Require Import Util ControlBoxModel.
Import ListNotations.
Local Open Scope nat_scope.

Lemma map2_vget : forall f a b d x y, vget a d = Some x -> vget b d = Some y -> vget (map2 f a b) d = Some (f x y).
Proof.
  intros f. induction a as [| x0 a IH]; intros [| y0 b] [| d] x y Ha Hb; cbn in *; try discriminate.
  - injection Ha as <-. injection Hb as <-. reflexivity.
  - apply IH; assumption.
Qed.

Lemma map2_length : forall f a b, length a = length b -> length (map2 f a b) = length a.
Proof. intros f. induction a as [| x a IH]; intros [| y b] H; cbn in *; try discriminate; [reflexivity |]. rewrite IH by lia. reflexivity. Qed.

Lemma size_vget : forall rel r lower upper d l u, vget lower d = Some l -> vget upper d = Some u ->
  vget (packing_size lower upper) d = Some (u - l)%Q /\ vget (internal_padding rel (packing_size lower upper)) d = Some (rel * (u - l))%Q
  /\ vget (auto_box_size rel r (packing_size lower upper)) d = Some (u - l - rel * (u - l) - 2 * r)%Q.
Proof.
  intros rel r lower upper d l u Hl Hu.
  assert (E1 : vget (packing_size lower upper) d = Some (u - l)%Q) by (apply (map2_vget (fun l u => u - l)%Q); assumption).
  assert (E2 : vget (internal_padding rel (packing_size lower upper)) d = Some (rel * (u - l))%Q).
  { unfold internal_padding, vget. rewrite (map_nth_error (fun s => rel * s)%Q _ _ E1). reflexivity. }
  split; [exact E1 |]. split; [exact E2 |]. unfold auto_box_size, vget.
  rewrite (map_nth_error (fun s => s - 2 * r)%Q _ _ (map2_vget (fun s p => s - p)%Q _ _ _ _ _ E1 E2)). reflexivity.
Qed.

(** The box is used exactly if the packing minus the padding (counted once) and minus the
    largest diameter has positive extent in all directions; then the box is the packing
    shrunk on every side by the padding and the largest radius. *)
Theorem C47_box : forall lower upper rel r, length lower = length upper ->
  ((forall d l u, vget lower d = Some l -> vget upper d = Some u -> (0 < (u - l) - rel * (u - l) - 2 * r)%Q) ->
    exists bl bu, auto_control_box lower upper rel r = Some (bl, bu) /\ length bl = length lower /\ length bu = length upper
      /\ forall d l u, vget lower d = Some l -> vget upper d = Some u ->
           exists x y, vget bl d = Some x /\ vget bu d = Some y /\ (x - l == rel * (u - l) + r)%Q /\ (u - y == rel * (u - l) + r)%Q)
  /\ ((exists d l u, vget lower d = Some l /\ vget upper d = Some u /\ ((u - l) - rel * (u - l) - 2 * r <= 0)%Q) ->
    auto_control_box lower upper rel r = None).
Proof.
  intros lower upper rel r Len. unfold auto_control_box. split.
  - intros H. destruct (existsb (fun v => Qle_bool v 0) (auto_box_size rel r (packing_size lower upper))) eqn:E.
    + exfalso. apply existsb_exists in E. destruct E as [v [I V]]. apply Qle_bool_iff in V. apply In_nth_error in I. destruct I as [d Hd].
      assert (Ld : d < length lower).
      { assert (X : d < length (auto_box_size rel r (packing_size lower upper))) by (apply nth_error_Some; congruence).
        unfold auto_box_size in X. rewrite map_length, map2_length in X by (unfold internal_padding; rewrite map_length; reflexivity).
        unfold packing_size in X. rewrite map2_length in X by exact Len. exact X. }
      destruct (vget_some _ lower d Ld) as [l Hl]. destruct (vget_some _ upper d ltac:(lia)) as [u Hu].
      destruct (size_vget rel r lower upper d l u Hl Hu) as [_ [_ E3]]. unfold vget in E3. rewrite E3 in Hd. injection Hd as <-.
      assert (X := H d l u Hl Hu). lra.
    + eexists _, _. split; [reflexivity |].
      assert (Lp : length (internal_padding rel (packing_size lower upper)) = length lower).
      { unfold internal_padding, packing_size. rewrite map_length, map2_length by exact Len. reflexivity. }
      split; [apply map2_length; lia |]. split; [apply map2_length; lia |].
      intros d l u Hl Hu. destruct (size_vget rel r lower upper d l u Hl Hu) as [_ [E2 _]].
      eexists _, _. split; [apply (map2_vget (fun l p => l + (p + r))%Q); eassumption |].
      split; [apply (map2_vget (fun u p => u - (p + r))%Q); eassumption |]. split; ring.
  - intros [d [l [u [Hl [Hu H]]]]]. destruct (size_vget rel r lower upper d l u Hl Hu) as [_ [_ E3]].
    destruct (existsb (fun v => Qle_bool v 0) (auto_box_size rel r (packing_size lower upper))) eqn:E; [reflexivity |].
    exfalso. apply not_true_iff_false in E. apply E. apply existsb_exists.
    eexists. split; [exact (nth_error_In _ _ E3) |]. apply Qle_bool_iff. exact H.
Qed.
Print Assumptions C47_box.

(** for a non-negative padding the box lies in the packing, at least the largest radius away
    from every side; it is non-empty if the padding is zero *)
Theorem C47_inside_partial : forall lower upper rel r bl bu d l u, length lower = length upper ->
  (0 <= rel)%Q -> (0 <= r)%Q -> (forall d l u, vget lower d = Some l -> vget upper d = Some u -> (l <= u)%Q) ->
  auto_control_box lower upper rel r = Some (bl, bu) -> vget lower d = Some l -> vget upper d = Some u ->
  exists x y, vget bl d = Some x /\ vget bu d = Some y /\ (l + r <= x)%Q /\ (y <= u - r)%Q
    /\ ((2 * rel * (u - l) + 2 * r < u - l)%Q <-> (x < y)%Q) /\ ((rel == 0)%Q -> (x < y)%Q).
Proof.
  intros lower upper rel r bl bu d l u Len H1 H2 H3 E Hl Hu.
  assert (P : (0 < (u - l) - rel * (u - l) - 2 * r)%Q).
  { destruct (Qlt_le_dec 0 ((u - l) - rel * (u - l) - 2 * r)) as [P | P]; [exact P |].
    destruct (C47_box lower upper rel r Len) as [_ N]. rewrite N in E; [discriminate |]. exists d, l, u. repeat split; assumption. }
  assert (L := H3 d l u Hl Hu). assert (R : (0 <= rel * (u - l))%Q) by (apply Qmult_le_0_compat; lra).
  unfold auto_control_box in E. destruct (existsb _ _); [discriminate |]. injection E as <- <-.
  destruct (size_vget rel r lower upper d l u Hl Hu) as [_ [E2 _]].
  eexists _, _. split; [apply (map2_vget (fun l p => l + (p + r))%Q); eassumption |].
  split; [apply (map2_vget (fun u p => u - (p + r))%Q); eassumption |].
  split; [lra |]. split; [lra |]. split; [split; intros X; lra |].
  intros Z. rewrite Z in *. lra.
Qed.
Print Assumptions C47_inside_partial.

(** the test counts the padding once, the box loses it on both sides: the box that is used may
    be inverted *)
Theorem C47_nonempty_refuted : exists lower upper rel r bl bu x y,
  (forall d l u, vget lower d = Some l -> vget upper d = Some u -> (l < u)%Q) /\ (0 < rel < 1 # 2)%Q /\ (0 < r)%Q
  /\ auto_control_box lower upper rel r = Some (bl, bu) /\ vget bl 0 = Some x /\ vget bu 0 = Some y /\ (y < x)%Q.
Proof.
  exists [0; 0]%Q, [10; 10]%Q, (2 # 5)%Q, 2%Q. eexists _, _, _, _.
  split. { intros [| [| d]] l u Hl Hu; cbn in *; try discriminate; try (injection Hl as <-; injection Hu as <-; reflexivity). destruct d; discriminate. }
  split; [split; reflexivity |]. split; [reflexivity |]. split; [reflexivity |]. split; [reflexivity |]. split; [reflexivity |]. reflexivity.
Qed.
Print Assumptions C47_nonempty_refuted.

Example C47_case : option_map (fun b => (map Qred (fst b), map Qred (snd b))) (auto_control_box [0; -5]%Q [10; 15]%Q (1 # 10) 1)
  = Some ([2; -2]%Q, [8; 12]%Q) /\ auto_control_box [0; -5]%Q [2; 15]%Q (1 # 10) 1 = None.
Proof. split; reflexivity. Qed.
