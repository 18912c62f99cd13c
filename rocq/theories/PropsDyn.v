(** * Properties of the dynamic contractors (C19-C23) *)
From Coq Require Import Reals Lra Bool List Arith Lia.
From Verif Require Import Itv Arith Tube TubeSpec TubeFacts TubeOps TubeOpsFacts TubeOpsFacts2
  TubeQueries TubeQueries2 TubeCtc Concrete DynSpec CtcDeriv CtcDerivFacts.
Import ListNotations.
Open Scope R_scope.

(** ** C19: CtcDeriv, for any arithmetic, any direction of propagation, any restricted domain *)
(** The solutions with values up to FLT_MAX are kept. *)
Theorem C19_no_loss_partial : forall A a b rt fwd bwd v x f g,
  arith_ok A -> tube_ok a b x -> tube_ok a b v -> map dom x = map dom v ->
  derivative_on a b f g -> has x f -> has v g -> (forall t, a <= t <= b -> - binf <= f t <= binf) ->
  has (deriv_tube A rt fwd bwd v x) f.
Proof.
  intros A a b rt fwd bwd v x f g HA Hx Hv D Hd Hf Hg HM. apply (deriv_tube_has A a b); auto.
  apply (follows_sol a b f g); auto. apply follows_derivative; auto.
Qed.
(** Others may be lost: envelopes are clipped at FLT_MAX. *)
Theorem C19_no_loss_refuted : exists A a b v x f g,
  arith_ok A /\ tube_ok a b x /\ tube_ok a b v /\ map dom x = map dom v /\
  derivative_on a b f g /\ has x f /\ has v g /\ ~ has (deriv_tube A ALL true true v x) f.
Proof.
  pose proof binf_pos as HM.
  set (c := I2 (2 * binf) (3 * binf)).
  set (sv := mkS 0 1 (pt 0) (pt 0) (pt 0)). set (s := mkS 0 1 c c c).
  exists exact, 0, 1, [sv], [s], (fun _ => 2 * binf), (fun _ => 0).
  assert (tube_ok 0 1 [s]) as Hx by (unfold s, c; tube_ok_tac).
  split; [exact exact_ok|]. split; [auto|]. split; [unfold sv; tube_ok_tac|]. split; [auto|].
  split; [|split; [unfold s, c; has_tac|split; [unfold sv; has_tac|]]].
  { split; intros; [apply derivable_continuous, derivable_const|apply derivable_pt_lim_const]. }
  intros Hf. unfold deriv_tube in Hf. change (rev (seq 0 (length [s]))) with [0%nat] in Hf. change (seq 0 (length [s])) with [0%nat] in Hf.
  cbn [fold_left] in Hf. set (x1 := deriv_slice exact ALL [sv] [s] 0) in *. set (x2 := deriv_slice exact ALL [sv] x1 0) in *.
  assert (tube_ok 0 1 x1) as O1 by (apply deriv_slice_ok; auto using exact_ok).
  assert (exists s2, nth_error x2 0 = Some s2 /\ s_lb s2 = 0 /\ s_ub s2 = 1) as (s2 & E2 & L & U).
  { assert (map dom x2 = map dom [s]) as D by (unfold x2; rewrite deriv_slice_dom; apply deriv_slice_dom).
    destruct x2 as [|s2 r]; [discriminate|]. exists s2. injection D as L U _. auto. }
  assert (exists s1, nth_error x1 0 = Some s1) as (s1 & E1).
  { destruct x1 eqn:X; [destruct (ok_ne _ _ _ O1); auto|]. eexists. reflexivity. }
  destruct (Hf s2 (nth_error_In _ _ E2)) as (_ & _ & H3).
  cut (s_cod s2 = Emp). { intros C. rewrite C in H3. apply (H3 (1 / 2)). lra. }
  apply (deriv_slice_emp exact 0 1 ALL [sv] x1 0 s1 s2 O1 E1); [|exact E2].
  apply (deriv_slice_clip exact 0 1 ALL [sv] [s] 0 s sv s1 Hx eq_refl eq_refl) in E1.
  - destruct E1 as [p ->]. unfold s, c, I2. cbn. unfold mk. reval. reflexivity.
  - unfold s, intersects, s_dom. cbn. unfold mk. reval. reflexivity.
  - unfold s, c, I2, sv, pt, is_superset. cbn. unfold mk, min4, max4. reval. reflexivity.
Qed.

(** No value up to FLT_MAX is added, whatever the tube. *)
Theorem C19_contracts_partial : forall A a b rt fwd bwd v x t w,
  arith_ok A -> tube_ok a b x -> a <= t <= b -> - binf <= w <= binf ->
  In w (eval_t (deriv_tube A rt fwd bwd v x) t) -> In w (eval_t x t).
Proof.
  intros A a b rt fwd bwd v x t w HA Hx Ht Hw. revert w Hw. change (sub_binf (eval_t (deriv_tube A rt fwd bwd v x) t) (eval_t x t)).
  apply (trel_eval sub_binf a b); auto.
  - intros i w Hw; auto.
  - intros i j k l H1 H2 w Hw. rewrite !In_inter. intros [H3 H4]. split; auto.
  - apply deriv_tube_ok; auto.
  - apply (deriv_tube_binf A a b); auto.
Qed.
(** The result is included in the tube given, if values are not close to FLT_MAX. *)
Theorem C19_contracts_tame : forall A a b rt fwd bwd v x,
  arith_ok A -> tube_ok a b x -> Forall tame_slice x -> tsub (deriv_tube A rt fwd bwd v x) x.
Proof. intros. eapply deriv_tube_tame; eauto. Qed.
(** It is not in general. *)
Theorem C19_contracts_refuted : exists A a b v x t w,
  arith_ok A /\ tube_ok a b x /\ tube_ok a b v /\ map dom x = map dom v /\ a <= t <= b /\
  In w (eval_t (deriv_tube A ALL true false v x) t) /\ ~ In w (eval_t x t).
Proof.
  pose proof binf_pos as HM.
  set (c := I2 0 (2 * binf)).
  exists exact, 0, 1, [mkS 0 1 ALL ALL ALL], [mkS 0 1 c c c], (1/2), (3 * binf). unfold c.
  split; [exact exact_ok|]. split; [tube_ok_tac|]. split; [tube_ok_tac|]. split; [auto|]. split; [lra|]. split.
  - unfold deriv_tube. cbn. unfold deriv_slice, I2, pt, ALL, is_superset, mk. cbn. unfold polygon_y, itv_eqb, intersects, mk. cbn. reval.
    unfold eval_t, slice_at, slice_eval. cbn. unfold time_to_index, tf, t0. cbn. reval. lra.
  - unfold I2, eval_t, slice_at, slice_eval. cbn. unfold time_to_index, tf, t0. cbn. reval. lra.
Qed.

(** The gates are contracted to what the slopes allow: the hypotheses are met by the trajectory
    [t + 1/2] of the tube [tA], with slopes in [1/2, 3/2]. *)
Definition vA : tube := [mkS 0 1 (I2 (1/2) (3/2)) (I2 (1/2) (3/2)) (I2 (1/2) (3/2));
                         mkS 1 2 (I2 (1/2) (3/2)) (I2 (1/2) (3/2)) (I2 (1/2) (3/2))].
Lemma vA_ok : tube_ok 0 2 vA. Proof. tube_ok_tac. Qed.
Lemma vA_one : has vA (fun _ => 1). Proof. has_tac. Qed.
Lemma fA_derivative : derivative_on 0 2 fA (fun _ => 1).
Proof.
  assert (forall t, derivable_pt_lim fA t 1) as H.
  { intros t. assert (derivable_pt_lim (id + fct_cte (1 / 2))%F t (1 + 0)) as H.
    { apply derivable_pt_lim_plus; [apply derivable_pt_lim_id|apply derivable_pt_lim_const]. }
    rewrite Rplus_0_r in H. exact H. }
  split; intros; auto. apply derivable_continuous_pt. exists 1. apply H.
Qed.
Example C19_no_loss_hyps : arith_ok exact /\ tube_ok 0 2 tA /\ tube_ok 0 2 vA /\ map dom tA = map dom vA /\
  derivative_on 0 2 fA (fun _ => 1) /\ has tA fA /\ has vA (fun _ => 1) /\
  (forall t, 0 <= t <= 2 -> - binf <= fA t <= binf) /\ Forall tame_slice tA.
Proof.
  split; [exact exact_ok|]. split; [exact tA_ok|]. split; [exact vA_ok|]. split; [reflexivity|].
  split; [exact fA_derivative|]. split; [exact tA_fA|]. split; [exact vA_one|]. pose proof binf_big as HB. split.
  - intros t Ht. unfold fA. lra.
  - repeat (apply Forall_cons; [split; [|split]; right; eexists _, _; (split; [reflexivity|lra])|]). apply Forall_nil.
Qed.
Print Assumptions C19_no_loss_partial.
Print Assumptions C19_no_loss_refuted.
Print Assumptions C19_contracts_partial.
Print Assumptions C19_contracts_tame.
Print Assumptions C19_contracts_refuted.
