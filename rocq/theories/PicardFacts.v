(** * Lemmas for [CtcPicard]: assignment of tubes, continuation of an enclosure *)
From Coq Require Import Reals Lra Bool List Arith Lia.
From Verif Require Import Itv Arith Tube TubeSpec TubeFacts TubeOps TubeOpsFacts TubeOpsFacts2 TubeQueries TubeQueries2 TubeCtc DynSpec Static CtcDelay PropsDyn2 PropsStatic CtcEvalBody CtcEvalFacts CtcDerivFacts Picard.
Import ListNotations.
Open Scope R_scope.

Lemma wf_eval_t a b x t : tube_ok a b x -> wf (eval_t x t).
Proof.
  intros H. unfold eval_t. destruct (slice_at x t) as [s|] eqn:E; [|exact I].
  unfold slice_at in E. destruct (in_tdomain x t); [|discriminate].
  apply wf_slice_eval. assert (List.In s x) as Hi.
  { clear H. revert E. induction x as [|q x IH]; cbn; [discriminate|].
    repeat match goal with |- context [if ?c then _ else _] => destruct c end; try (intros E; injection E as <-; auto; fail); intros E; try discriminate; auto.
    }
  exact (ok_in _ _ _ _ H Hi).
Qed.
Lemma in_firstn {A} n (l : list A) x : List.In x (firstn n l) -> List.In x l.
Proof. intros H. rewrite <- (firstn_skipn n l). apply in_or_app; auto. Qed.
Lemma wf_eval_itv a b x i : tube_ok a b x -> wf (eval_itv x i).
Proof.
  intros H. destruct i as [|[u|] [v|]]; try exact I. unfold eval_itv. destruct (_ || _); [exact I|].
  destruct (Reqb u v); [eapply wf_eval_t; eauto|]. apply wf_fold_hull; [exact I|].
  apply Forall_forall. intros i Hi. apply in_map_iff in Hi. destruct Hi as (s & <- & Hi).
  apply in_firstn in Hi. apply in_skipn in Hi. exact (proj1 (ok_in _ _ _ _ H Hi)).
Qed.

(** operators |= and &= keep the slicing of their left operand and the consistency of tubes *)
Lemma tube_assign_dom F x1 x2 : map dom (tube_assign F x1 x2) = map dom x1.
Proof. unfold tube_assign. destruct (same_slicing x1 x2); apply map_loop_dom. Qed.
Lemma tube_assign_ok a b F x1 x2 : mono2 F -> tube_ok a b x1 -> tube_ok a b x2 -> tube_ok a b (tube_assign F x1 x2).
Proof.
  intros HM O1 O2. unfold tube_assign. destruct (same_slicing x1 x2) eqn:E.
  - apply same_slicing_dom in E. apply zip_ok; auto.
  - destruct HM as [M1 M2]. apply map_loop_ok; auto.
    + intros k s Es. rewrite (sl_nth _ _ _ Es). assert (slice_ok s) as (W1 & W2 & W3 & S1 & S2) by (eapply ok_in; [exact O1|eapply nth_error_In; eauto]).
      pose proof (wf_eval_itv a b x2 (s_dom s) O2). pose proof (wf_eval_t a b x2 (s_lb s) O2).
      assert (List.In s x1) as Hin by (eapply nth_error_In; eauto). destruct (chain_in_bounds _ _ _ _ (ok_chain _ _ _ O1) Hin).
      repeat split; auto. apply M2; auto. apply (eval_t_sub_itv a b); auto; lra.
    + intros k s s' Es Es'. rewrite (sl_nth _ _ _ Es), (sl_nth _ _ _ Es').
      assert (slice_ok s) as (W1 & W2 & W3 & S1 & S2) by (eapply ok_in; [exact O1|eapply nth_error_In; eauto]).
      rewrite <- (gates_agree _ _ _ _ (ok_shared _ _ _ O1) Es Es').
      rewrite <- (chain_from_nth _ _ _ _ _ _ (ok_chain _ _ _ O1) Es Es').
      assert (List.In s x1) as Hin by (eapply nth_error_In; eauto). destruct (chain_in_bounds _ _ _ _ (ok_chain _ _ _ O1) Hin).
      apply M2; auto; try (eapply wf_eval_itv; eauto); try (eapply wf_eval_t; eauto). apply (eval_t_sub_itv a b); auto; lra.
    + destruct (nth_error x1 (length x1 - 1)) as [s|] eqn:Es.
      * rewrite (sl_nth _ _ _ Es). assert (slice_ok s) as (W1 & W2 & W3 & S1 & S2) by (eapply ok_in; [exact O1|eapply nth_error_In; eauto]).
        apply M1; auto. eapply wf_eval_t; eauto.
      * exfalso. apply nth_error_None in Es. pose proof (ok_ne _ _ _ O1). destruct x1; [congruence|cbn in Es; lia].
    + destruct (nth_error x1 (length x1 - 1)) as [s|] eqn:Es.
      * rewrite (sl_nth _ _ _ Es). assert (slice_ok s) as (W1 & W2 & W3 & S1 & S2) by (eapply ok_in; [exact O1|eapply nth_error_In; eauto]).
        assert (List.In s x1) as Hin by (eapply nth_error_In; eauto). destruct (chain_in_bounds _ _ _ _ (ok_chain _ _ _ O1) Hin).
        apply M2; auto; try (eapply wf_eval_itv; eauto); try (eapply wf_eval_t; eauto). apply (eval_t_sub_itv a b); auto; lra.
      * exfalso. apply nth_error_None in Es. pose proof (ok_ne _ _ _ O1). destruct x1; [congruence|cbn in Es; lia].
Qed.

(** ** Continuation: what stays in [Q] as long as it was in [P], [Q] being in the interior of [P], stays in [Q] *)
Lemma continuation (P Q : R -> Prop) lb ub : lb <= ub -> Q lb ->
  (forall s, lb <= s <= ub -> Q s -> exists e, 0 < e /\ forall u, s <= u < s + e -> P u) ->
  (forall s, lb < s <= ub -> (forall u, lb <= u < s -> P u) -> Q s) ->
  forall s, lb <= s <= ub -> Q s.
Proof.
  intros Hlu Q0 Hopen Hstep.
  set (S := fun s => lb <= s <= ub /\ forall u, lb <= u < s -> P u).
  assert (bound S) as HB by (exists ub; intros s [Hs _]; lra).
  assert (exists s, S s) as HE by (exists lb; split; [lra|intros; lra]).
  destruct (completeness S HB HE) as [m [Hm1 Hm2]].
  assert (lb <= m) as L1 by (apply Hm1; split; [lra|intros; lra]).
  assert (m <= ub) as L2 by (apply Hm2; intros s [Hs _]; lra).
  assert (forall u, lb <= u < m -> P u) as PM.
  { intros u Hu. destruct (Classical_Prop.classic (P u)) as [|N]; auto. exfalso.
    assert (m <= u); [|lra]. apply Hm2. intros s [Hs Hs']. destruct (Rle_dec s u); auto. exfalso; apply N, Hs'; lra. }
  assert (forall s, lb <= s <= m -> Q s) as QM.
  { intros s Hs. destruct (Req_dec s lb) as [->|]; auto. apply Hstep; [lra|]. intros u Hu. apply PM; lra. }
  assert (m = ub) as ->; [|exact QM].
  destruct (Rtotal_order m ub) as [Hlt|[Heq|Hgt]]; auto; [|lra]. exfalso.
  destruct (Hopen m) as (e & He & HP); [lra|apply QM; lra|].
  assert (Rmin (m + e) ub <= m) as Hle.
  { apply Hm1. split. { unfold Rmin; destruct (Rle_dec _ _); lra. }
    intros u Hu. destruct (Rle_dec m u); [apply HP|apply PM; lra]. pose proof (Rmin_l (m + e) ub). lra. }
  revert Hle. unfold Rmin; destruct (Rle_dec _ _); lra.
Qed.
Lemma continuation_back (P Q : R -> Prop) lb ub : lb <= ub -> Q ub ->
  (forall s, lb <= s <= ub -> Q s -> exists e, 0 < e /\ forall u, s - e < u <= s -> P u) ->
  (forall s, lb <= s < ub -> (forall u, s < u <= ub -> P u) -> Q s) ->
  forall s, lb <= s <= ub -> Q s.
Proof.
  intros Hlu Q0 Hopen Hstep s Hs.
  assert (forall r, - ub <= r <= - lb -> Q (- r)) as H.
  { apply (continuation (fun r => P (- r)) (fun r => Q (- r))); [lra|rewrite Ropp_involutive; auto| |].
    - intros r Hr Hq. destruct (Hopen (- r)) as (e & He & HP); [lra|auto|]. exists e. split; auto. intros u Hu. apply HP; lra.
    - intros r Hr HP. apply Hstep; [lra|]. intros u Hu. rewrite <- (Ropp_involutive u). apply HP; lra. }
  rewrite <- (Ropp_involutive s). apply H; lra.
Qed.

(** ** Interior boxes *)
Lemma interior_near f s i j : is_interior_subset i j = true -> In (f s) i -> continuity_pt f s ->
  exists e, 0 < e /\ forall u, Rabs (u - s) < e -> In (f u) j.
Proof.
  intros Hij Hi Hc.
  assert (exists d, 0 < d /\ forall v, Rabs (v - f s) < d -> In v j) as (d & Hd & HJ).
  { destruct i as [|l h]; [destruct Hi|]. destruct j as [|l' h']; [discriminate|]. cbn in Hij. apply andb_prop in Hij. destruct Hij as [A1 A2].
    assert (exists d, 0 < d /\ forall v, Rabs (v - f s) < d -> lo_le l' v) as (d1 & D1 & E1).
    { destruct l' as [m|]; [|exists 1; split; [lra|intros; exact I]]. destruct l as [m'|]; [|discriminate]. apply Rltb_true in A1. cbn in Hi.
      exists (f s - m). split; [lra|]. intros v Hv. cbn. apply Rabs_def2 in Hv. lra. }
    assert (exists d, 0 < d /\ forall v, Rabs (v - f s) < d -> le_hi v h') as (d2 & D2 & E2).
    { destruct h' as [m|]; [|exists 1; split; [lra|intros; exact I]]. destruct h as [m'|]; [|discriminate]. apply Rltb_true in A2. cbn in Hi.
      exists (m - f s). split; [lra|]. intros v Hv. cbn. apply Rabs_def2 in Hv. lra. }
    exists (Rmin d1 d2). split; [apply Rmin_glb_lt; auto|]. intros v Hv. cbn. split; [apply E1|apply E2].
    - eapply Rlt_le_trans; [exact Hv|apply Rmin_l].
    - eapply Rlt_le_trans; [exact Hv|apply Rmin_r]. }
  destruct (Hc d Hd) as (e & He & HC). exists e. split; auto. intros u Hu. apply HJ.
  destruct (Req_dec u s) as [->|N]. { rewrite Rminus_diag_eq, Rabs_R0 by auto. auto. }
  apply (HC u). split; [|exact Hu]. split; [exact I|auto].
Qed.
(** values of the trajectories at an instant *)
Definition vals (fs : list (R -> R)) (t : R) : list R := map (fun f => f t) fs.
Lemma interior_near_box fs s : forall E G, all_interior E G = true -> length G = length fs -> Forall2 In (vals fs s) E ->
  Forall (fun f => continuity_pt f s) fs -> exists e, 0 < e /\ forall u, Rabs (u - s) < e -> Forall2 In (vals fs u) G.
Proof.
  induction fs as [|f fs IH]; intros E G HI HL HE HC; inversion HE; subst; destruct G as [|g G]; try discriminate.
  - exists 1. split; [lra|]. intros; constructor.
  - cbn in HI. apply andb_prop in HI. destruct HI as [I1 I2]. inversion HC; subst.
    destruct (interior_near f s _ _ I1) as (e1 & P1 & N1); auto. destruct (IH _ _ I2) as (e2 & P2 & N2); auto.
    exists (Rmin e1 e2). split; [apply Rmin_glb_lt; auto|]. intros u Hu. constructor.
    + apply N1. eapply Rlt_le_trans; [exact Hu|apply Rmin_l].
    + apply N2. eapply Rlt_le_trans; [exact Hu|apply Rmin_r].
Qed.
