(** * Concrete tubes used to show that hypotheses are met, and a tactic that evaluates
      comparisons of real literals *)
From Coq Require Import Reals Lra Bool List Arith Lia ZArith.
From Verif Require Import Itv Arith Tube TubeSpec TubeFacts TubeOps.
Import ListNotations.
Open Scope R_scope.

Definition I2 (a b : R) : itv := Itv (Some a) (Some b).

Lemma Rltb_t a b : a < b -> Rltb a b = true. Proof. apply Rltb_true. Qed.
Lemma Rltb_f a b : b <= a -> Rltb a b = false. Proof. apply Rltb_false. Qed.
Lemma Rleb_t a b : a <= b -> Rleb a b = true. Proof. apply Rleb_true. Qed.
Lemma Rleb_f a b : b < a -> Rleb a b = false. Proof. intros; apply Rleb_false; auto. Qed.
Lemma Reqb_t a b : a = b -> Reqb a b = true. Proof. apply Reqb_true. Qed.
Lemma Reqb_f a b : a <> b -> Reqb a b = false. Proof. apply Reqb_false. Qed.
Lemma Rle_dec_t {A} a b (P Q : A) : a <= b -> (if Rle_dec a b then P else Q) = P.
Proof. destruct (Rle_dec a b); auto; lra. Qed.
Lemma Rle_dec_f {A} a b (P Q : A) : b < a -> (if Rle_dec a b then P else Q) = Q.
Proof. destruct (Rle_dec a b); auto; lra. Qed.

(** evaluates one comparison of literals in the goal *)
Ltac rstep :=
  match goal with
  | |- context [Rltb ?a ?b] => first [rewrite (Rltb_t a b) by lra | rewrite (Rltb_f a b) by lra]
  | |- context [Rleb ?a ?b] => first [rewrite (Rleb_t a b) by lra | rewrite (Rleb_f a b) by lra]
  | |- context [Reqb ?a ?b] => first [rewrite (Reqb_t a b) by lra | rewrite (Reqb_f a b) by lra]
  | |- context [if Rle_dec ?a ?b then _ else _] =>
      first [rewrite (Rle_dec_t a b) by lra | rewrite (Rle_dec_f a b) by lra]
  | |- context [Rmax ?a ?b] => first [rewrite (Rmax_left a b) by lra | rewrite (Rmax_right a b) by lra]
  | |- context [Rmin ?a ?b] => first [rewrite (Rmin_left a b) by lra | rewrite (Rmin_right a b) by lra]
  end.
Ltac reval := repeat (rstep; cbn).

Ltac slice_ok_tac := repeat split; intros; cbn in *; unfold I2 in *; cbn in *; lra.
Ltac tube_ok_tac := constructor;
  [discriminate | cbn; repeat split; lra | cbn; repeat split; reflexivity
  | repeat (constructor; [slice_ok_tac|]); constructor].
Ltac has_tac := repeat (apply has_cons; split; [repeat split; intros; cbn in *; lra|]); apply has_nil.

(** two slices, over [0,2] *)
Definition tA : tube := [mkS 0 1 (I2 0 2) (I2 0 1) (I2 1 2); mkS 1 2 (I2 1 3) (I2 1 2) (I2 2 3)].
(** three slices, over [0,2] *)
Definition tB : tube :=
  [mkS 0 (1/2) (I2 (-1) 2) (I2 (-1) 1) (I2 0 2); mkS (1/2) (3/2) (I2 0 3) (I2 0 2) (I2 1 3);
   mkS (3/2) 2 (I2 0 4) (I2 1 3) (I2 2 4)].
Lemma tA_ok : tube_ok 0 2 tA. Proof. tube_ok_tac. Qed.
Lemma tB_ok : tube_ok 0 2 tB. Proof. tube_ok_tac. Qed.
(** the trajectory x(t) = t + 1/2 *)
Definition fA (t : R) : R := t + 1 / 2.
Lemma tA_fA : has tA fA. Proof. unfold fA. has_tac. Qed.
Lemma tB_fA : has tB fA. Proof. unfold fA. has_tac. Qed.
