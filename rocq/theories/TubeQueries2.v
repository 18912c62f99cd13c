(** * Proofs about tubes: pointwise values, set(), eval(), truncation *)
From Coq Require Import Reals Lra Bool List Arith Lia ZArith.
From Verif Require Import Itv Arith Tube TubeSpec TubeFacts TubeOps TubeOpsFacts TubeOpsFacts2 TubeQueries.
Import ListNotations.
Open Scope R_scope.
Local Arguments Nat.eqb : simpl never.
Local Arguments seq : simpl never.

(** ** the value at an instant, from any slice that contains it *)
Lemma slice_eval_lb s : s_lb s <= s_ub s -> slice_eval s (s_lb s) = s_in s.
Proof.
  intros H. unfold slice_eval. rewrite (proj2 (Rleb_true _ _) (Rle_refl _)), (proj2 (Rleb_true _ _) H). simpl.
  rewrite (proj2 (Reqb_true _ _) eq_refl). auto.
Qed.
Lemma slice_eval_ub s : s_lb s < s_ub s -> slice_eval s (s_ub s) = s_out s.
Proof.
  intros H. unfold slice_eval. rewrite (proj2 (Rleb_true _ _) (Rle_refl _)), (proj2 (Rleb_true _ _) (Rlt_le _ _ H)). simpl.
  rewrite (proj2 (Reqb_true (s_ub s) _) eq_refl).
  replace (Reqb (s_ub s) (s_lb s)) with false; auto. symmetry; apply Reqb_false; lra.
Qed.
Lemma slice_eval_mid s t : s_lb s < t < s_ub s -> slice_eval s t = s_cod s.
Proof.
  intros H. unfold slice_eval. rewrite (proj2 (Rleb_true (s_lb s) t)), (proj2 (Rleb_true t (s_ub s))) by lra. simpl.
  replace (Reqb t (s_lb s)) with false by (symmetry; apply Reqb_false; lra).
  replace (Reqb t (s_ub s)) with false by (symmetry; apply Reqb_false; lra). auto.
Qed.

Lemma chain_order x a b j k sj sk : chain_from a x b -> nth_error x j = Some sj -> nth_error x k = Some sk -> (j < k)%nat -> s_ub sj <= s_lb sk.
Proof.
  revert a j k sj sk. induction x as [|s x IH]; intros a j k sj sk Hc Ej Ek Hlt; [destruct j; discriminate|].
  simpl in Hc. destruct Hc as (<- & H1 & H2). destruct k; [lia|]. simpl in Ek. destruct j; simpl in Ej.
  - inversion Ej; subst. apply nth_error_In in Ek. destruct (chain_in_bounds _ _ _ _ H2 Ek); auto.
  - eapply (IH _ j k); eauto; lia.
Qed.

Theorem eval_t_slice a b x k s t : tube_ok a b x -> nth_error x k = Some s -> s_lb s <= t <= s_ub s ->
  eval_t x t = slice_eval s t.
Proof.
  intros H E Ht. unfold eval_t, slice_at.
  assert (List.In s x) as Hin by (eapply nth_error_In; eauto).
  destruct (chain_in_bounds _ _ _ _ (ok_chain _ _ _ H) Hin) as (B1 & B2 & B3).
  rewrite (proj2 (in_tdomain_true x a b t (ok_chain _ _ _ H) (ok_ne _ _ _ H))) by lra.
  rewrite slice_find_index by apply H.
  destruct (idx_spec x a b t) as (s' & E' & C1 & C2); try apply H; try lra. rewrite E'.
  destruct (Nat.lt_trichotomy k (time_to_index t x)) as [Hl|[Heq|Hl]].
  - pose proof (chain_order x a b _ _ _ _ (ok_chain _ _ _ H) E E' Hl) as Ho.
    assert (t = s_ub s) by lra. assert (t = s_lb s') by lra.
    assert (time_to_index t x = S k).
    { destruct (nth_error x (S k)) as [s2|] eqn:E2.
      - pose proof (chain_from_nth _ _ _ _ _ _ (ok_chain _ _ _ H) E E2) as Hn.
        assert (List.In s2 x) as Hin2 by (eapply nth_error_In; eauto).
        destruct (chain_in_bounds _ _ _ _ (ok_chain _ _ _ H) Hin2) as (G1 & G2 & G3).
        pose proof (idx_le x t (S k) s2 E2). lia || (assert (t < s_ub s2) by lra; intuition lia).
      - apply nth_error_None in E2. assert (time_to_index t x < length x)%nat by (apply nth_error_Some; congruence). lia. }
    rewrite H2 in E'. pose proof (ok_shared _ _ _ H) as G. rewrite gates_shared_nth in G. specialize (G _ _ _ E E').
    rewrite H1 at 1. rewrite slice_eval_lb by lra. rewrite <- G. rewrite H0. symmetry. apply slice_eval_ub; auto.
  - subst k. rewrite E in E'. inversion E'; auto.
  - pose proof (chain_order x a b _ _ _ _ (ok_chain _ _ _ H) E' E Hl) as Ho. exfalso.
    assert (t = s_ub s') by lra. specialize (C2 H0). lra.
Qed.

Lemma cover x a b t : tube_ok a b x -> a <= t <= b -> exists k s, nth_error x k = Some s /\ s_lb s <= t <= s_ub s.
Proof.
  intros H Ht. destruct (idx_spec x a b t) as (s & E & B & _); try apply H; auto. eauto.
Qed.

Lemma eval_t_out a b x t : tube_ok a b x -> (t < a \/ b < t) -> eval_t x t = ALL.
Proof.
  intros H Ht. unfold eval_t, slice_at. destruct (in_tdomain x t) eqn:E; auto.
  apply (in_tdomain_true x a b) in E; try apply H. lra.
Qed.

(** two tubes with the same slicing: the values at [t] agree as soon as the slices that contain t do *)
Lemma eval_t_same a b x y t : tube_ok a b x -> tube_ok a b y ->
  (forall k s, nth_error x k = Some s -> s_lb s <= t <= s_ub s ->
     exists s', nth_error y k = Some s' /\ s_lb s' = s_lb s /\ s_ub s' = s_ub s /\ slice_eval s' t = slice_eval s t) ->
  eval_t y t = eval_t x t.
Proof.
  intros Hx Hy H. destruct (Rle_dec a t) as [H1|H1]; [destruct (Rle_dec t b) as [H2|H2]|].
  - destruct (cover x a b t Hx) as (k & s & E & B); [lra|].
    destruct (H k s E B) as (s' & E' & L & U & Ev).
    rewrite (eval_t_slice a b x k s), (eval_t_slice a b y k s'); auto; lra.
  - rewrite (eval_t_out a b), (eval_t_out a b) by (auto; lra). auto.
  - rewrite (eval_t_out a b), (eval_t_out a b) by (auto; lra). auto.
Qed.

(** ** sample leaves every value unchanged *)
Theorem sample_eval a b x u t : tube_ok a b x -> a <= u <= b -> eval_t (sample u x) t = eval_t x t.
Proof.
  intros H Hu. destruct (Rle_dec a t) as [H1|H1]; [destruct (Rle_dec t b) as [H2|H2]|].
  2,3: rewrite (eval_t_out a b), (eval_t_out a b) by (auto using sample_ok; lra); auto.
  pose proof (sample_ok a b x u H Hu) as Hok.
  destruct (sample_shape x a b u) as [E|(l1 & s & l2 & E1 & B & E2)]; try apply H; auto. { rewrite E; auto. }
  destruct (cover x a b t H) as (k & q & Eq & Bq); [lra|].
  assert (forall q k', nth_error (sample u x) k' = Some q -> s_lb q <= t <= s_ub q -> eval_t (sample u x) t = slice_eval q t) as A
    by (intros; eapply eval_t_slice; eauto).
  rewrite (eval_t_slice a b x k q) by auto. rewrite E1 in Eq. rewrite E2 in A.
  destruct (Nat.lt_trichotomy k (length l1)) as [Hl|[Heq|Hl]].
  - rewrite nth_error_app1 in Eq by auto. rewrite E2. apply (A q k); auto. rewrite nth_error_app1; auto.
  - subst k. rewrite nth_error_app2, Nat.sub_diag in Eq by lia. simpl in Eq. inversion Eq; subst q.
    destruct (Rle_dec t u).
    + rewrite E2, (A (left_part u s) (length l1)).
      2:{ rewrite nth_error_app2, Nat.sub_diag by lia. auto. } 2:{ simpl; lra. }
      destruct (Req_dec t u) as [->|]. { rewrite (slice_eval_mid s) by auto. apply (slice_eval_ub (left_part u s)). simpl; lra. }
      destruct (Req_dec t (s_lb s)) as [->|]. { rewrite (slice_eval_lb s) by lra. apply (slice_eval_lb (left_part u s)). simpl; lra. }
      rewrite (slice_eval_mid s), (slice_eval_mid (left_part u s)) by (simpl; lra). auto.
    + rewrite E2, (A (right_part u s) (S (length l1))).
      2:{ rewrite nth_error_app2 by lia. replace (S (length l1) - length l1)%nat with 1%nat by lia. auto. } 2:{ simpl; lra. }
      destruct (Req_dec t (s_ub s)) as [->|]. { rewrite (slice_eval_ub s) by lra. apply (slice_eval_ub (right_part u s)). simpl; lra. }
      rewrite (slice_eval_mid s), (slice_eval_mid (right_part u s)) by (simpl; lra). auto.
  - rewrite nth_error_app2 in Eq by lia.
    destruct (k - length l1)%nat as [|m] eqn:Em; [lia|]. simpl in Eq.
    rewrite E2. apply (A q (S k)); auto. rewrite nth_error_app2 by lia.
    replace (S k - length l1)%nat with (S (S m)) by lia. auto.
Qed.

(** a gate is created at t *)
Lemma sample_gate_at a b x u : tube_ok a b x -> a <= u <= b -> 
  exists k s, nth_error (sample u x) k = Some s /\ time_to_index u (sample u x) = k /\
    (s_lb s = u \/ (s_ub s = u /\ u = b)).
Proof.
  intros H Hu. pose proof (sample_ok a b x u H Hu) as Hok.
  destruct (idx_spec (sample u x) a b u) as (s & E & B & C); try apply Hok; auto.
  exists (time_to_index u (sample u x)), s. split; [auto|split;[auto|]].
  destruct (Req_dec u b) as [->|Hne].
  - destruct (Req_dec (s_lb s) b); auto. right. split; auto.
    assert (List.In s (sample b x)) as Hin by (eapply nth_error_In; eauto).
    destruct (chain_in_bounds _ _ _ _ (ok_chain _ _ _ Hok) Hin). lra.
  - left. destruct (Req_dec u a) as [->|Hna].
    { assert (List.In s (sample a x)) as Hin by (eapply nth_error_In; eauto).
      destruct (chain_in_bounds _ _ _ _ (ok_chain _ _ _ Hok) Hin). lra. }
    assert (List.In u (ubs (sample u x))) as Hub.
    { apply (sample_ubs a b); auto. right. split; auto. lra. }
    apply in_map_iff in Hub. destruct Hub as (q & Hq & Hin). apply In_nth_error in Hin. destruct Hin as [j Ej].
    destruct (Nat.lt_trichotomy j (time_to_index u (sample u x))) as [Hl|[Heq|Hl]].
    + pose proof (chain_order _ _ _ _ _ _ _ (ok_chain _ _ _ Hok) Ej E Hl). lra.
    + assert (q = s) by congruence. subst q. specialize (C (eq_sym Hq)). lra.
    + pose proof (chain_order _ _ _ _ _ _ _ (ok_chain _ _ _ Hok) E Ej Hl).
      assert (List.In q (sample u x)) as Hin by (eapply nth_error_In; eauto).
      destruct (chain_in_bounds _ _ _ _ (ok_chain _ _ _ Hok) Hin). lra.
Qed.

(** ** writing one gate *)
Lemma set_input_gate_eval a b x k s g : tube_ok a b x -> wf g -> nth_error x k = Some s ->
  eval_t (set_input_gate k g true x) (s_lb s) = inter_opt (inter_opt g (cod_at x k)) (prev_cod x k) /\
  forall t, t <> s_lb s -> eval_t (set_input_gate k g true x) t = eval_t x t.
Proof.
  intros H Hw E. pose proof (set_input_gate_ok a b x k g H Hw) as Hok. 
  assert (List.In s x) as Hin by (eapply nth_error_In; eauto).
  destruct (chain_in_bounds _ _ _ _ (ok_chain _ _ _ H) Hin) as (B1 & B2 & B3). split.
  - set (g' := inter_opt (inter_opt g (cod_at x k)) (prev_cod x k)).
    rewrite (eval_t_slice a b _ k (set_in g' s)); auto.
    + change (s_lb s) with (s_lb (set_in g' s)). rewrite slice_eval_lb; auto. simpl; lra.
    + unfold set_input_gate. rewrite put_gate_nth, Nat.eqb_refl, E. auto.
    + simpl; lra.
  - intros t Hne. apply (eval_t_same a b); auto. intros j q Eq Bq.
    unfold set_input_gate. rewrite put_gate_nth, Eq.
    set (g' := inter_opt (inter_opt g (cod_at x k)) (prev_cod x k)).
    assert (List.In q x) as Hinq by (eapply nth_error_In; eauto).
    destruct (chain_in_bounds _ _ _ _ (ok_chain _ _ _ H) Hinq) as (C1 & C2 & C3).
    destruct (Nat.eqb_spec j k) as [->|Hjk].
    + assert (q = s) by congruence. subst q. exists (set_in g' s). simpl. repeat split; auto.
      destruct (Req_dec t (s_ub s)) as [->|].
      * rewrite (slice_eval_ub s) by auto. apply (slice_eval_ub (set_in g' s)). simpl; auto.
      * rewrite (slice_eval_mid s), (slice_eval_mid (set_in g' s)) by (simpl; lra). auto.
    + destruct (Nat.eqb_spec (S j) k) as [Hjk'|]; [|exists q; auto].
      subst k. exists (set_out g' q). simpl. repeat split; auto.
      pose proof (chain_from_nth _ _ _ _ _ _ (ok_chain _ _ _ H) Eq E) as Hn.
      destruct (Req_dec t (s_lb q)) as [->|].
      * rewrite (slice_eval_lb q) by lra. apply (slice_eval_lb (set_out g' q)). simpl; lra.
      * rewrite (slice_eval_mid q), (slice_eval_mid (set_out g' q)) by (simpl; lra). auto.
Qed.
Lemma set_output_gate_eval a b x k s g : tube_ok a b x -> wf g -> nth_error x k = Some s ->
  eval_t (set_output_gate k g true x) (s_ub s) = inter_opt (inter_opt g (cod_at x k)) (cod_at x (S k)) /\
  forall t, t <> s_ub s -> eval_t (set_output_gate k g true x) t = eval_t x t.
Proof.
  intros H Hw E. pose proof (set_output_gate_ok a b x k g H Hw) as Hok. 
  assert (List.In s x) as Hin by (eapply nth_error_In; eauto).
  destruct (chain_in_bounds _ _ _ _ (ok_chain _ _ _ H) Hin) as (B1 & B2 & B3). split.
  - set (g' := inter_opt (inter_opt g (cod_at x k)) (cod_at x (S k))).
    rewrite (eval_t_slice a b _ k (set_out g' s)); auto.
    + change (s_ub s) with (s_ub (set_out g' s)). rewrite slice_eval_ub; auto.
    + unfold set_output_gate. rewrite put_gate_nth, Nat.eqb_refl, E. neq. auto.
    + simpl; lra.
  - intros t Hne. apply (eval_t_same a b); auto. intros j q Eq Bq.
    unfold set_output_gate. rewrite put_gate_nth, Eq.
    set (g' := inter_opt (inter_opt g (cod_at x k)) (cod_at x (S k))).
    assert (List.In q x) as Hinq by (eapply nth_error_In; eauto).
    destruct (chain_in_bounds _ _ _ _ (ok_chain _ _ _ H) Hinq) as (C1 & C2 & C3).
    destruct (Nat.eqb_spec j (S k)) as [->|Hjk].
    + exists (set_in g' q). simpl. repeat split; auto.
      pose proof (chain_from_nth _ _ _ _ _ _ (ok_chain _ _ _ H) E Eq) as Hn.
      destruct (Req_dec t (s_ub q)) as [->|].
      * rewrite (slice_eval_ub q) by auto. apply (slice_eval_ub (set_in g' q)). simpl; auto.
      * rewrite (slice_eval_mid q), (slice_eval_mid (set_in g' q)) by (simpl; lra). auto.
    + destruct (Nat.eqb_spec (S j) (S k)) as [Hjk'|]; [|exists q; auto].
      assert (j = k) by lia. subst j. assert (q = s) by congruence. subst q.
      exists (set_out g' s). simpl. repeat split; auto.
      destruct (Req_dec t (s_lb s)) as [->|].
      * rewrite (slice_eval_lb s) by lra. apply (slice_eval_lb (set_out g' s)). simpl; lra.
      * rewrite (slice_eval_mid s), (slice_eval_mid (set_out g' s)) by (simpl; lra). auto.
Qed.

(** C07, set(y,t) *)
Theorem set_at_eval a b x y u : tube_ok a b x -> wf y -> a <= u <= b ->
  sub (eval_t (tube_set_at y u x) u) y /\
  forall t, t <> u -> eval_t (tube_set_at y u x) t = eval_t x t.
Proof.
  intros H Hw Hu. unfold tube_set_at, sample_gate.
  destruct (sample_gate_at a b x u H Hu) as (k & s & E & <- & C). rewrite E.
  pose proof (sample_ok a b x u H Hu) as Hok.
  destruct (Reqb u (s_lb s)) eqn:Er.
  - apply Reqb_true in Er. 
    destruct (set_input_gate_eval a b _ _ s y Hok Hw E) as [A1 A2]. rewrite <- Er in *. split.
    + rewrite A1. eapply sub_trans; [apply inter_opt_sub_l|apply inter_opt_sub_l].
    + intros t Ht. rewrite A2 by auto. apply (sample_eval a b); auto.
  - apply Reqb_false in Er. assert (u = s_ub s) as Eu by (destruct C as [C|[C _]]; [congruence|auto]).
    destruct (set_output_gate_eval a b _ _ s y Hok Hw E) as [A1 A2]. rewrite <- Eu in *. split.
    + rewrite A1. eapply sub_trans; [apply inter_opt_sub_l|apply inter_opt_sub_l].
    + intros t Ht. rewrite A2 by auto. apply (sample_eval a b); auto.
Qed.

(** set(y,t) loses no trajectory that passes through y at t *)
Theorem set_at_has a b x y u f : tube_ok a b x -> wf y -> a <= u <= b -> has x f -> In (f u) y ->
  has (tube_set_at y u x) f.
Proof.
  intros H Hw Hu Hf Hy. unfold tube_set_at, sample_gate.
  destruct (sample_gate_at a b x u H Hu) as (k & s & E & <- & C). rewrite E.
  pose proof (sample_ok a b x u H Hu) as Hok.
  apply (sample_has a b x u f H Hu) in Hf.
  assert (forall j q, nth_error (sample u x) j = Some q -> slice_has q f) as Hq by (apply has_nth; auto).
  assert (forall j q c, nth_error (sample u x) j = Some q -> s_lb q <= u <= s_ub q -> cod_at (sample u x) j = Some c -> In (f u) c) as Hc.
  { intros j q c Ej Bj Ec. unfold cod_at in Ec. rewrite Ej in Ec. inversion Ec; subst c.
    apply (slice_has_closed q f); eauto. eapply ok_in; eauto. eapply nth_error_In; eauto. }
  assert (List.In s (sample u x)) as Hin by (eapply nth_error_In; eauto).
  destruct (chain_in_bounds _ _ _ _ (ok_chain _ _ _ Hok) Hin) as (B1 & B2 & B3).
  set (k := time_to_index u (sample u x)) in *.
  destruct (Reqb u (s_lb s)) eqn:Er.
  - apply Reqb_true in Er. unfold set_input_gate. apply has_nth. intros j q. rewrite put_gate_nth.
    assert (In (f u) (inter_opt (inter_opt y (cod_at (sample u x) k)) (prev_cod (sample u x) k))) as Hg.
    { apply In_inter_opt. split; [apply In_inter_opt; split; auto|].
      - intros c Ec. apply (Hc k s c); auto; lra.
      - intros c Ec. unfold prev_cod in Ec. destruct k as [|k']; [discriminate|].
        unfold cod_at in Ec. destruct (nth_error (sample u x) k') as [q'|] eqn:E'; [|discriminate].
        apply (Hc k' q'); auto.
        + assert (List.In q' (sample u x)) as Hin' by (eapply nth_error_In; eauto).
          destruct (chain_in_bounds _ _ _ _ (ok_chain _ _ _ Hok) Hin') as (C1 & C2 & C3).
          pose proof (chain_from_nth _ _ _ _ _ _ (ok_chain _ _ _ Hok) E' E). lra.
        + unfold cod_at. rewrite E'. auto. }
    destruct (Nat.eqb_spec j k) as [->|].
    + rewrite E. intros Eq; inversion Eq; subst q. destruct (Hq _ _ E) as (F1 & F2 & F3).
      repeat split; simpl; auto. rewrite <- Er. auto.
    + destruct (Nat.eqb_spec (S j) k) as [Hk|]; [|apply Hq].
      destruct (nth_error (sample u x) j) as [q'|] eqn:E'; [|discriminate]. intros Eq; inversion Eq; subst q.
      destruct (Hq _ _ E') as (F1 & F2 & F3). rewrite <- Hk in E.
      pose proof (chain_from_nth _ _ _ _ _ _ (ok_chain _ _ _ Hok) E' E) as Hn.
      repeat split; simpl; auto. rewrite Hn, <- Er. auto.
  - apply Reqb_false in Er. assert (u = s_ub s /\ u = b) as (Eu & Eb) by (destruct C as [C|[C C']]; [congruence|auto]).
    unfold set_output_gate. apply has_nth. intros j q. rewrite put_gate_nth.
    destruct (nth_error (sample u x) (S k)) as [q'|] eqn:E'.
    { exfalso. assert (List.In q' (sample u x)) as Hin' by (eapply nth_error_In; eauto).
      destruct (chain_in_bounds _ _ _ _ (ok_chain _ _ _ Hok) Hin') as (C1 & C2 & C3).
      pose proof (chain_from_nth _ _ _ _ _ _ (ok_chain _ _ _ Hok) E E'). lra. }
    assert (In (f u) (inter_opt (inter_opt y (cod_at (sample u x) k)) (cod_at (sample u x) (S k)))) as Hg.
    { apply In_inter_opt. split; [apply In_inter_opt; split; auto|].
      - intros c Ec. apply (Hc k s c); auto; lra.
      - intros c Ec. unfold cod_at in Ec. rewrite E' in Ec. discriminate. }
    destruct (Nat.eqb_spec j (S k)) as [->|]; [rewrite E'; discriminate|].
    destruct (Nat.eqb_spec (S j) (S k)) as [Hk|]; [|apply Hq].
    assert (j = k) by lia. subst j. rewrite E. intros Eq; inversion Eq; subst q. destruct (Hq _ _ E) as (F1 & F2 & F3).
    repeat split; simpl; auto. rewrite <- Eu. auto.
Qed.

(** C07, set(y) *)
Theorem set_eval a b x y t : tube_ok a b x -> wf y -> a <= t <= b -> eval_t (tube_set y x) t = y.
Proof.
  intros H Hw Ht. pose proof (tube_set_ok a b y x Hw H) as Hok.
  destruct (cover _ a b t Hok Ht) as (k & s & E & B). rewrite (eval_t_slice a b _ k s) by auto.
  rewrite tube_set_eq in E by auto. rewrite nth_error_map in E. destruct (nth_error x k); [|discriminate].
  inversion E; subst s. unfold slice_eval. simpl in *.
  rewrite (proj2 (Rleb_true _ _) (proj1 B)), (proj2 (Rleb_true _ _) (proj2 B)). simpl.
  destruct (Reqb t (s_lb s0)); auto. destruct (Reqb t (s_ub s0)); auto.
Qed.

(** ** C05 eval() *)
Lemma add_bound_in p b v : In v p \/ b = Some v -> In v (add_bound p b).
Proof. intros [H| ->]; [destruct b; simpl; auto; apply In_hull_l; auto|simpl; apply In_hull_r, In_pt; auto]. Qed.
Lemma add_bound_mono p b v : In v p -> In v (add_bound p b).
Proof. intros; apply add_bound_in; auto. Qed.

Lemma slice_eval_bounds_in s u v t : s_lb s < s_ub s -> u <= t <= v -> s_lb s <= t <= s_ub s ->
  let q := slice_eval_bounds s (inter (bnd u v) (s_dom s)) in
  (forall r, lbound (slice_eval s t) = Some r -> In r (fst q)) /\
  (forall r, ubound (slice_eval s t) = Some r -> In r (snd q)).
Proof.
  intros Hs Ht Bt. cbv zeta.
  assert (In t (inter (bnd u v) (s_dom s))) as Hin by (apply In_inter; split; [apply In_bnd; lra|simpl; lra]).
  set (w := inter (bnd u v) (s_dom s)) in *.
  assert (sub w (s_dom s)) as Hsub by (apply sub_inter_r).
  assert (wf w) as Hw by apply wf_inter.
  unfold slice_eval_bounds.
  destruct (Req_dec t (s_lb s)) as [->|H1].
  { rewrite slice_eval_lb by lra. rewrite (proj2 (contains_true w (s_lb s))) by auto.
    split; intros r Hr; destruct (contains w (s_ub s)); destruct (_ && _ && _); simpl; auto using add_bound_mono, add_bound_in. }
  destruct (Req_dec t (s_ub s)) as [->|H2].
  { rewrite slice_eval_ub by lra. rewrite (proj2 (contains_true w (s_ub s))) by auto.
    split; intros r Hr; destruct (contains w (s_lb s)); destruct (_ && _ && _); simpl; auto using add_bound_mono, add_bound_in. }
  rewrite slice_eval_mid by lra.
  replace (is_subset w (s_dom s) && negb (itv_eqb w (pt (s_lb s))) && negb (itv_eqb w (pt (s_ub s)))) with true.
  - split; intros r Hr; destruct (contains w (s_lb s)); destruct (contains w (s_ub s)); simpl; auto using add_bound_in.
  - symmetry. rewrite !andb_true_iff, !negb_true_iff. split; [split|].
    + apply is_subset_spec; auto.
    + apply itv_eqb_false. intros E. rewrite E in Hin. apply In_pt in Hin. lra.
    + apply itv_eqb_false. intros E. rewrite E in Hin. apply In_pt in Hin. lra.
Qed.

Lemma eval_bounds_loop_mono v1 : forall x u v p,
  In v1 (fst p) -> In v1 (fst (eval_bounds_loop x u v p)) .
Proof.
  induction x as [|s x IH]; intros u v p H; simpl; auto. destruct (Rleb (s_lb s) v); auto. apply IH. simpl. apply In_hull_l; auto.
Qed.
Lemma eval_bounds_loop_mono' v1 : forall x u v p,
  In v1 (snd p) -> In v1 (snd (eval_bounds_loop x u v p)) .
Proof.
  induction x as [|s x IH]; intros u v p H; simpl; auto. destruct (Rleb (s_lb s) v); auto. apply IH. simpl. apply In_hull_l; auto.
Qed.

Lemma eval_bounds_loop_in : forall x u v p k s t,
  (forall j q, (j <= k)%nat -> nth_error x j = Some q -> s_lb q <= v) ->
  nth_error x k = Some s -> s_lb s < s_ub s -> u <= t <= v -> s_lb s <= t <= s_ub s ->
  (forall r, lbound (slice_eval s t) = Some r -> In r (fst (eval_bounds_loop x u v p))) /\
  (forall r, ubound (slice_eval s t) = Some r -> In r (snd (eval_bounds_loop x u v p))).
Proof.
  induction x as [|s0 x IH]; intros u v p k s t Hle E Hs Ht Bt; [destruct k; discriminate|].
  simpl. rewrite (proj2 (Rleb_true (s_lb s0) v)) by (apply (Hle 0%nat); auto; lia).
  destruct k; simpl in E.
  - inversion E; subst s0. destruct (slice_eval_bounds_in s u v t Hs Ht Bt) as [A1 A2].
    split; intros r Hr; [apply eval_bounds_loop_mono; auto|apply eval_bounds_loop_mono']; simpl; apply In_hull_r; auto.
  - apply IH with (k := k); auto. intros j q Hj Ej. apply (Hle (S j)); auto; lia.
Qed.

Theorem eval_bounds_in a b x u v t : tube_ok a b x -> a <= u -> v <= b -> u <= t <= v ->
  (forall r, lbound (eval_t x t) = Some r -> In r (fst (eval_bounds x u v))) /\
  (forall r, ubound (eval_t x t) = Some r -> In r (snd (eval_bounds x u v))).
Proof.
  intros H Hu Hv Ht. unfold eval_bounds.
  destruct (idx_spec x a b t) as (s & E & B & _); try apply H; try lra.
  destruct (idx_spec x a b u) as (su & Eu & Bu & _); try apply H; try lra.
  assert (time_to_index u x <= time_to_index t x)%nat as Hle by (apply (idx_ge x a b t _ su); auto; [apply H|lra]).
  rewrite (eval_t_slice a b x _ s t H E B).
  assert (List.In s x) as Hin by (eapply nth_error_In; eauto).
  destruct (chain_in_bounds _ _ _ _ (ok_chain _ _ _ H) Hin) as (G1 & G2 & G3).
  apply eval_bounds_loop_in with (k := (time_to_index t x - time_to_index u x)%nat); auto.
  - intros j q Hj Ej. rewrite nth_error_skipn' in Ej.
    assert (time_to_index u x + j <= time_to_index t x)%nat as Hj' by lia.
    apply Nat.lt_eq_cases in Hj'. destruct Hj' as [Hj'|Hj'].
    + pose proof (chain_order _ _ _ _ _ _ _ (ok_chain _ _ _ H) Ej E Hj').
      assert (List.In q x) as Hq by (eapply nth_error_In; eauto).
      destruct (chain_in_bounds _ _ _ _ (ok_chain _ _ _ H) Hq). lra.
    + rewrite Hj', E in Ej. inversion Ej; subst. lra.
  - rewrite nth_error_skipn'. rewrite <- E. f_equal. lia.
Qed.

(** ** C16 truncation *)
Lemma inter_dom u v s : u <= v -> Rmax u (s_lb s) <= Rmin v (s_ub s) ->
  inter (bnd u v) (s_dom s) = Itv (Some (Rmax u (s_lb s))) (Some (Rmin v (s_ub s))).
Proof.
  intros H H'. unfold bnd, s_dom, mk. destruct (Rle_dec u v); [|lra]. simpl. unfold mk.
  destruct (Rle_dec _ _); auto. lra.
Qed.
Lemma outside_true u v e s : u < v -> (s_ub s <= u \/ v <= s_lb s) -> s_lb s < s_ub s -> is_outside_of u v e s = true.
Proof.
  intros Huv Ho Hs. unfold is_outside_of. destruct (contains (s_dom s) e); auto. simpl.
  unfold bnd, s_dom, mk. destruct (Rle_dec u v); [|lra]. simpl. unfold mk.
  destruct (Rle_dec (Rmax u (s_lb s)) (Rmin v (s_ub s))) as [Hle|]; auto. simpl. apply Reqb_true.
  unfold Rmax, Rmin in *. destruct (Rle_dec u (s_lb s)); destruct (Rle_dec v (s_ub s)); lra.
Qed.
Lemma outside_false u v e s : u < v -> s_lb s <= e <= s_ub s -> s_lb s < v -> u < s_ub s -> s_lb s < s_ub s -> is_outside_of u v e s = false.
Proof.
  intros Huv He H1 H2 H3. unfold is_outside_of. replace (contains (s_dom s) e) with true by (symmetry; apply contains_true; simpl; lra).
  rewrite inter_dom; try lra.
  - simpl. apply Reqb_false. unfold Rmax, Rmin. destruct (Rle_dec u (s_lb s)); destruct (Rle_dec v (s_ub s)); lra.
  - unfold Rmax, Rmin. destruct (Rle_dec u (s_lb s)); destruct (Rle_dec v (s_ub s)); lra.
Qed.

Lemma drop_first_spec u v : forall x a b, chain_from a x b -> a <= u -> u < v -> v <= b ->
  exists l1 s r, x = l1 ++ s :: r /\ drop_first u v x = s :: r /\ s_lb s <= u < s_ub s.
Proof.
  induction x as [|s x IH]; intros a b Hc Ha Huv Hb; simpl in Hc; [lra|].
  destruct Hc as (<- & H1 & H2). simpl. destruct (Rlt_dec u (s_ub s)) as [Hl|Hl].
  - rewrite outside_false by lra. exists [], s, x. repeat split; auto; lra.
  - rewrite outside_true by (auto; lra). destruct (IH _ _ H2) as (l1 & q & r & E1 & E2 & B); auto; try lra.
    exists (s :: l1), q, r. rewrite E1 at 1. auto.
Qed.
Lemma drop_last_app u v : forall l r, (forall s, List.In s l -> is_outside_of u v v s = true) ->
  drop_last u v (l ++ r) = drop_last u v r.
Proof.
  induction l as [|s l IH]; intros r H; simpl; auto. rewrite H by (left; auto). apply IH. intros; apply H; right; auto.
Qed.
Lemma split_last v : forall x a b, chain_from a x b -> a < v -> v <= b ->
  exists l1 q l2, x = l1 ++ q :: l2 /\ s_lb q < v <= s_ub q /\ (forall s, List.In s l2 -> v <= s_lb s /\ s_lb s < s_ub s).
Proof.
  induction x as [|s x IH]; intros a b Hc Ha Hb; simpl in Hc; [lra|].
  destruct Hc as (<- & H1 & H2). destruct (Rle_dec v (s_ub s)).
  - exists [], s, x. repeat split; auto; try lra; destruct (chain_in_bounds _ _ _ _ H2 H); lra.
  - destruct (IH _ _ H2) as (l1 & q & l2 & E & B & C); auto; try lra.
    exists (s :: l1), q, l2. rewrite E at 1. auto.
Qed.

(** The result, in both cases: one slice, or several. *)
Lemma truncate_shape a b x u v : chain_from a x b -> a <= u -> u < v -> v <= b ->
  (exists l1 s l2, x = l1 ++ s :: l2 /\ s_lb s <= u /\ v <= s_ub s /\ truncate_tdomain u v x = [set_dom u v s]) \/
  (exists l1 s m q l2, x = l1 ++ s :: m ++ q :: l2 /\ s_lb s <= u < s_ub s /\ s_lb q < v <= s_ub q /\ truncate_tdomain u v x = set_dom u (s_ub s) s :: m ++ [set_dom (s_lb q) v q]).
Proof.
  intros Hc Ha Huv Hb. unfold truncate_tdomain.
  destruct (drop_first_spec u v x a b Hc Ha Huv Hb) as (l1 & s & r & E1 & E2 & B). rewrite E2.
  cbn [upd]. rewrite E1 in Hc. apply chain_app in Hc. destruct Hc as (c & Hc1 & Hc2). simpl in Hc2.
  destruct Hc2 as (<- & Hs & Hr).
  assert (clip_dom u v s = set_dom u (Rmin v (s_ub s)) s) as Ec.
  { unfold clip_dom. rewrite inter_dom; try lra.
    - rewrite Rmax_left by lra. auto.
    - rewrite Rmax_left by lra. unfold Rmin; destruct (Rle_dec _ _); lra. }
  rewrite Ec. cbn [rev]. destruct (Rle_dec v (s_ub s)) as [Hv|Hv].
  - left. exists l1, s, r. rewrite Rmin_left by auto. repeat split; auto; try lra.
    rewrite drop_last_app.
    + cbn [drop_last]. rewrite outside_false by (simpl; lra). cbn.
      unfold clip_dom. rewrite inter_dom; simpl; rewrite ?Rmax_left, ?Rmin_left by lra; auto; lra.
    + intros q Hq. apply in_rev in Hq. destruct (chain_in_bounds _ _ _ _ Hr Hq). apply outside_true; auto; try lra. 
  - right. rewrite Rmin_right by lra.
    destruct (split_last v r (s_ub s) b Hr) as (m & q & l2 & E & Bq & Hl2); try lra.
    exists l1, s, m, q, l2. rewrite E in E1. repeat split; auto; try lra.
    rewrite E. rewrite rev_app_distr. cbn [rev]. rewrite <- !app_assoc.
    rewrite drop_last_app.
    + cbn [drop_last app]. 
      assert (List.In q r) as Hq by (rewrite E; apply in_or_app; right; left; auto).
      destruct (chain_in_bounds _ _ _ _ Hr Hq) as (C1 & C2 & C3).
      rewrite outside_false by lra. cbn [rev]. rewrite rev_app_distr, rev_involutive. cbn [rev app].
      change (set_dom u (s_ub s) s :: m ++ [q]) with ((set_dom u (s_ub s) s :: m) ++ [q]).
      replace (length ((set_dom u (s_ub s) s :: m) ++ [q]) - 1)%nat with (length (set_dom u (s_ub s) s :: m)).
      * rewrite upd_app. cbn [app]. f_equal. f_equal. f_equal.
        unfold clip_dom. rewrite inter_dom; simpl; rewrite ?Rmax_right, ?Rmin_left by lra; auto; lra.
      * rewrite app_length. simpl. lia.
    + intros z Hz. apply in_rev in Hz. destruct (Hl2 _ Hz). apply outside_true; auto.
Qed.

Lemma chain_mid : forall m a q l2 b c, chain_from a (m ++ q :: l2) b -> s_lb q < c -> chain_from a (m ++ [set_dom (s_lb q) c q]) c.
Proof.
  induction m as [|s m IH]; intros a q l2 b c H Hc; simpl in *; [tauto|].
  destruct H as (H1 & H2 & H3). repeat split; auto. eapply IH; eauto.
Qed.
(** the new domain is [u,v] and the tube stays well formed *)
Theorem truncate_ok a b x u v : tube_ok a b x -> a <= u -> u < v -> v <= b -> tube_ok u v (truncate_tdomain u v x).
Proof.
  intros H Ha Huv Hb.
  destruct (truncate_shape a b x u v) as [(l1 & s & l2 & E & B1 & B2 & ->)|(l1 & s & m & q & l2 & E & B1 & B2 & ->)]; auto; try apply H.
  - constructor; simpl; try tauto; try discriminate. constructor; auto.
    assert (List.In s x) as Hin by (rewrite E; apply in_or_app; right; left; auto).
    exact (ok_in _ _ _ _ H Hin).
  - destruct H as [H1 H2 H3 H4]. rewrite E in H2, H3, H4.
    apply chain_app in H2. destruct H2 as (c & Hc1 & Hc2). destruct Hc2 as (<- & Hs & Hc2).
    assert (gates_shared (s :: m ++ q :: l2)) as Hg.
    { apply gates_shared_app in H3. tauto. }
    apply Forall_app in H4. destruct H4 as [_ H4].
    constructor.
    + discriminate.
    + simpl. repeat split; try lra. eapply chain_mid; eauto; lra.
    + assert (gates_shared ((s :: m) ++ [q])) as Hg2.
      { change (s :: m ++ q :: l2) with ((s :: m) ++ q :: l2) in Hg. rewrite gates_shared_app in *. 
        destruct Hg as (G1 & G2 & G3). split; [auto|split; [|auto]]. simpl; auto. }
      rewrite gates_shared_nth in *. intros k s1 s2 E1 E2.
      change (set_dom u (s_ub s) s :: m ++ [set_dom (s_lb q) v q]) with ((set_dom u (s_ub s) s :: m) ++ [set_dom (s_lb q) v q]) in *.
      assert (forall k z, nth_error ((set_dom u (s_ub s) s :: m) ++ [set_dom (s_lb q) v q]) k = Some z ->
         exists z', nth_error ((s :: m) ++ [q]) k = Some z' /\ s_in z' = s_in z /\ s_out z' = s_out z) as A.
      { clear. intros k z Ez. destruct (Nat.lt_ge_cases k (S (length m))).
        - rewrite nth_error_app1 in Ez by (simpl; auto). rewrite nth_error_app1 by (simpl; auto).
          destruct k; simpl in *; [inversion Ez; subst; exists s; auto|exists z; auto].
        - rewrite nth_error_app2 in Ez by (simpl; auto). rewrite nth_error_app2 by (simpl; auto). simpl in *.
          destruct (k - S (length m))%nat as [|n]; simpl in *; [inversion Ez; subst; exists q; auto|destruct n; discriminate]. }
      destruct (A _ _ E1) as (z1 & F1 & I1 & O1). destruct (A _ _ E2) as (z2 & F2 & I2 & O2).
      rewrite <- O1, <- I2. eapply Hg2; eauto.
    + inversion H4 as [|? ? K1 K2]; subst. apply Forall_app in K2. destruct K2 as [K2 K3]. inversion K3; subst.
      constructor; [exact K1|]. apply Forall_app. split; auto.
Qed.

(** Trajectories are kept when the new bounds are existing gates. *)
Theorem truncate_gates_has a b x u v f : tube_ok a b x -> a <= u -> u < v -> v <= b ->
  (u = a \/ List.In u (ubs x)) -> (v = b \/ List.In v (map s_lb x)) ->
  has x f -> has (truncate_tdomain u v x) f.
Proof.
  intros H Ha Huv Hb Hgu Hgv Hf.
  assert (forall s, List.In s x -> s_lb s <= u < s_ub s -> s_lb s = u) as Lu.
  { intros s Hs B. destruct Hgu as [->|Hu].
    - destruct (chain_in_bounds _ _ _ _ (ok_chain _ _ _ H) Hs). lra.
    - apply in_map_iff in Hu. destruct Hu as (q & Eq & Hq).
      apply In_nth_error in Hq, Hs. destruct Hq as [j Ej], Hs as [k Ek].
      destruct (Nat.lt_trichotomy j k) as [Hl|[->|Hl]].
      + pose proof (chain_order _ _ _ _ _ _ _ (ok_chain _ _ _ H) Ej Ek Hl). lra.
      + assert (q = s) by congruence. subst q. lra.
      + pose proof (chain_order _ _ _ _ _ _ _ (ok_chain _ _ _ H) Ek Ej Hl).
        apply nth_error_In in Ej. destruct (chain_in_bounds _ _ _ _ (ok_chain _ _ _ H) Ej). lra. }
  assert (forall s, List.In s x -> s_lb s < v <= s_ub s -> s_ub s = v) as Lv.
  { intros s Hs B. destruct Hgv as [->|Hv].
    - destruct (chain_in_bounds _ _ _ _ (ok_chain _ _ _ H) Hs). lra.
    - apply in_map_iff in Hv. destruct Hv as (q & Eq & Hq).
      apply In_nth_error in Hq, Hs. destruct Hq as [j Ej], Hs as [k Ek].
      destruct (Nat.lt_trichotomy j k) as [Hl|[->|Hl]].
      + pose proof (chain_order _ _ _ _ _ _ _ (ok_chain _ _ _ H) Ej Ek Hl).
        apply nth_error_In in Ej. destruct (chain_in_bounds _ _ _ _ (ok_chain _ _ _ H) Ej). lra.
      + assert (q = s) by congruence. subst q. lra.
      + pose proof (chain_order _ _ _ _ _ _ _ (ok_chain _ _ _ H) Ek Ej Hl). lra. }
  destruct (truncate_shape a b x u v) as [(l1 & s & l2 & E & B1 & B2 & ->)|(l1 & s & m & q & l2 & E & B1 & B2 & ->)]; auto; try apply H.
  - assert (List.In s x) as Hin by (rewrite E; apply in_or_app; right; left; auto).
    pose proof (Lu _ Hin ltac:(lra)) as E1. pose proof (Lv _ Hin ltac:(lra)) as E2.
    apply has_cons. split; [|apply has_nil]. rewrite <- E1, <- E2. destruct s; apply (Hf _ Hin).
  - assert (List.In s x) as Hin by (rewrite E; apply in_or_app; right; left; auto).
    assert (List.In q x) as Hinq by (rewrite E; apply in_or_app; right; right; apply in_or_app; right; left; auto).
    pose proof (Lu _ Hin ltac:(lra)) as E1. pose proof (Lv _ Hinq ltac:(lra)) as E2.
    apply has_cons. rewrite has_app, has_cons. rewrite <- E1, <- E2. split; [|split; [|split; [|apply has_nil]]].
    + destruct s; apply (Hf _ Hin).
    + intros z Hz. apply Hf. rewrite E. apply in_or_app; right; right; apply in_or_app; auto.
    + destruct q; apply (Hf _ Hinq).
Qed.

(** With bounds inside slices, only the two end gates can exclude a trajectory. *)
Theorem truncate_has a b x u v f : tube_ok a b x -> a <= u -> u < v -> v <= b -> has x f ->
  In (f u) (eval_t (truncate_tdomain u v x) u) -> In (f v) (eval_t (truncate_tdomain u v x) v) ->
  has (truncate_tdomain u v x) f.
Proof.
  intros H Ha Huv Hb Hf Gu Gv. pose proof (truncate_ok a b x u v H Ha Huv Hb) as Hok.
  assert (forall s, nth_error (truncate_tdomain u v x) 0 = Some s -> s_lb s <= u <= s_ub s -> eval_t (truncate_tdomain u v x) u = slice_eval s u) as Au
    by (intros; eapply eval_t_slice; eauto).
  assert (forall k s, nth_error (truncate_tdomain u v x) k = Some s -> s_lb s <= v <= s_ub s -> eval_t (truncate_tdomain u v x) v = slice_eval s v) as Av
    by (intros; eapply eval_t_slice; eauto).
  destruct (truncate_shape a b x u v) as [(l1 & s & l2 & E & B1 & B2 & Et)|(l1 & s & m & q & l2 & E & B1 & B2 & Et)]; auto; try apply H; rewrite Et in *.
  - assert (List.In s x) as Hin by (rewrite E; apply in_or_app; right; left; auto).
    destruct (Hf _ Hin) as (F1 & F2 & F3).
    rewrite (Au (set_dom u v s)) in Gu by (simpl; auto; lra). rewrite (Av 0%nat (set_dom u v s)) in Gv by (simpl; auto; lra).
    change (slice_eval (set_dom u v s) u) with (slice_eval (set_dom u v s) (s_lb (set_dom u v s))) in Gu.
    change (slice_eval (set_dom u v s) v) with (slice_eval (set_dom u v s) (s_ub (set_dom u v s))) in Gv.
    rewrite (slice_eval_lb (set_dom u v s)) in Gu by (simpl; lra). rewrite (slice_eval_ub (set_dom u v s)) in Gv by (simpl; lra).
    apply has_cons. split; [|apply has_nil]. repeat split; simpl in *; auto. intros t Ht. apply F3; lra.
  - assert (List.In s x) as Hin by (rewrite E; apply in_or_app; right; left; auto).
    assert (List.In q x) as Hinq by (rewrite E; apply in_or_app; right; right; apply in_or_app; right; left; auto).
    destruct (Hf _ Hin) as (F1 & F2 & F3). destruct (Hf _ Hinq) as (F4 & F5 & F6).
    assert (nth_error (set_dom u (s_ub s) s :: m ++ [set_dom (s_lb q) v q]) (S (length m)) = Some (set_dom (s_lb q) v q)) as En.
    { simpl. rewrite nth_error_app2, Nat.sub_diag by lia. auto. }
    rewrite (Au (set_dom u (s_ub s) s)) in Gu by (simpl; auto; lra). rewrite (Av _ _ En) in Gv by (simpl; auto; lra).
    change (slice_eval (set_dom u (s_ub s) s) u) with (slice_eval (set_dom u (s_ub s) s) (s_lb (set_dom u (s_ub s) s))) in Gu.
    change (slice_eval (set_dom (s_lb q) v q) v) with (slice_eval (set_dom (s_lb q) v q) (s_ub (set_dom (s_lb q) v q))) in Gv.
    rewrite (slice_eval_lb (set_dom u (s_ub s) s)) in Gu by (simpl; lra). rewrite (slice_eval_ub (set_dom (s_lb q) v q)) in Gv by (simpl; lra).
    apply has_cons. rewrite has_app, has_cons. split; [|split; [|split; [|apply has_nil]]].
    + repeat split; simpl in *; auto. intros t Ht. apply F3; lra.
    + intros z Hz. apply Hf. rewrite E. apply in_or_app; right; right; apply in_or_app; auto.
    + repeat split; simpl in *; auto. intros t Ht. apply F6; lra.
Qed.

(** ** C07, set(y,[u,v]) *)
Lemma cod_at_slice_set k y x j : cod_at (slice_set k y x) j =
  if Nat.eqb j k then match nth_error x j with Some _ => Some y | None => None end else cod_at x j.
Proof. unfold slice_set. rewrite !put_gate_cod. apply cod_at_upd. Qed.

Lemma slice_set_eval a b x k s y : tube_ok a b x -> wf y -> nth_error x k = Some s ->
  eval_t (slice_set k y x) (s_lb s) = inter_opt y (prev_cod x k) /\
  eval_t (slice_set k y x) (s_ub s) = inter_opt y (cod_at x (S k)) /\
  (forall t, s_lb s < t < s_ub s -> eval_t (slice_set k y x) t = y) /\
  (forall t, t < s_lb s \/ s_ub s < t -> eval_t (slice_set k y x) t = eval_t x t).
Proof.
  intros H Hw E.
  assert (k < length x)%nat as Hk by (apply nth_error_Some; congruence).
  pose proof (slice_set_ok a b x k y H Hk Hw) as Hok.
  assert (List.In s x) as Hin by (eapply nth_error_In; eauto).
  destruct (chain_in_bounds _ _ _ _ (ok_chain _ _ _ H) Hin) as (B1 & B2 & B3).
  set (s' := mkS (s_lb s) (s_ub s) y (inter_opt y (prev_cod x k)) (inter_opt y (cod_at x (S k)))).
  assert (nth_error (slice_set k y x) k = Some s') as E'.
  { rewrite (slice_set_nth k y x s k E), Nat.eqb_refl. auto. }
  split; [|split; [|split]].
  - rewrite (eval_t_slice a b _ k s'); auto; [|simpl; lra]. apply (slice_eval_lb s'). simpl; lra.
  - rewrite (eval_t_slice a b _ k s'); auto; [|simpl; lra]. apply (slice_eval_ub s'). simpl; lra.
  - intros t Ht. rewrite (eval_t_slice a b _ k s'); auto; [|simpl; lra]. apply (slice_eval_mid s'). simpl; lra.
  - intros t Ht. apply (eval_t_same a b); auto. intros j q Eq Bq.
    assert (List.In q x) as Hinq by (eapply nth_error_In; eauto).
    destruct (chain_in_bounds _ _ _ _ (ok_chain _ _ _ H) Hinq) as (C1 & C2 & C3).
    rewrite (slice_set_nth k y x s j E), Eq. cbn [option_map].
    destruct (Nat.eqb_spec j k) as [->|]. { assert (q = s) by congruence. subst q. lra. }
    destruct (Nat.eqb_spec (S j) k) as [<-|].
    { pose proof (chain_from_nth _ _ _ _ _ _ (ok_chain _ _ _ H) Eq E) as Hn.
      set (g := inter_opt y (prev_cod x (S j))). exists (set_out g q). simpl. repeat split; auto.
      destruct (Req_dec t (s_lb q)) as [->|].
      - rewrite (slice_eval_lb q) by lra. apply (slice_eval_lb (set_out g q)). simpl; lra.
      - rewrite (slice_eval_mid q), (slice_eval_mid (set_out g q)) by (simpl; lra). auto. }
    destruct (Nat.eqb_spec j (S k)) as [->|]; [|exists q; auto].
    pose proof (chain_from_nth _ _ _ _ _ _ (ok_chain _ _ _ H) E Eq) as Hn.
    set (g := inter_opt y (cod_at x (S k))). exists (set_in g q). simpl. repeat split; auto.
    destruct (Req_dec t (s_ub q)) as [->|].
    + rewrite (slice_eval_ub q) by lra. apply (slice_eval_ub (set_in g q)). simpl; lra.
    + rewrite (slice_eval_mid q), (slice_eval_mid (set_in g q)) by (simpl; lra). auto.
Qed.

Lemma degenerated_inter u v s : u < v -> s_lb s < s_ub s ->
  is_degenerated (inter (bnd u v) (s_dom s)) = false -> s_lb s < v /\ u < s_ub s.
Proof.
  intros Huv Hs. unfold bnd, s_dom, mk. destruct (Rle_dec u v); [|lra]. simpl. unfold mk.
  destruct (Rle_dec (Rmax u (s_lb s)) (Rmin v (s_ub s))) as [Hle|]; simpl; [|discriminate]. intros E; apply Reqb_false in E.
  unfold Rmax, Rmin in *. destruct (Rle_dec u (s_lb s)); destruct (Rle_dec v (s_ub s)); lra.
Qed.
Lemma degenerated_inter' u v s : u < v -> s_lb s < s_ub s -> s_lb s < v -> u < s_ub s ->
  is_degenerated (inter (bnd u v) (s_dom s)) = false.
Proof.
  intros Huv Hs H1 H2. rewrite inter_dom; try lra.
  - simpl. apply Reqb_false. unfold Rmax, Rmin in *. destruct (Rle_dec u (s_lb s)); destruct (Rle_dec v (s_ub s)); lra.
  - unfold Rmax, Rmin in *. destruct (Rle_dec u (s_lb s)); destruct (Rle_dec v (s_ub s)); lra.
Qed.

Lemma set_itv_loop_eval a b u v y : u < v -> wf y -> forall n k x s, tube_ok a b x ->
  nth_error x k = Some s -> u <= s_lb s -> s_lb s < v -> (v = b \/ List.In v (map s_lb x)) ->
  v <= b -> (length x <= k + n)%nat ->
  let x' := set_itv_loop n k y (bnd u v) x in
  eval_t x' (s_lb s) = inter_opt y (prev_cod x k) /\
  (forall t, s_lb s < t < v -> eval_t x' t = y) /\
  sub (eval_t x' v) y /\
  (forall t, t < s_lb s \/ v < t -> eval_t x' t = eval_t x t).
Proof.
  intros Huv Hw. induction n as [|n IH]; intros k x s H E Hu Hv Hg Hb Hn; cbv zeta.
  - exfalso. assert (k < length x)%nat by (apply nth_error_Some; congruence). lia.
  - cbn [set_itv_loop]. rewrite E.
    assert (List.In s x) as Hin by (eapply nth_error_In; eauto).
    destruct (chain_in_bounds _ _ _ _ (ok_chain _ _ _ H) Hin) as (B1 & B2 & B3).
    rewrite degenerated_inter' by lra.
    assert (k < length x)%nat as Hk by (apply nth_error_Some; congruence).
    pose proof (slice_set_ok a b x k y H Hk Hw) as Hok.
    destruct (slice_set_eval a b x k s y H Hw E) as (A1 & A2 & A3 & A4).
    assert (s_ub s <= v) as Hsv.
    { destruct Hg as [->|Hg]; [lra|]. apply in_map_iff in Hg. destruct Hg as (q & Eq & Hq).
      apply In_nth_error in Hq. destruct Hq as [j Ej]. destruct (Nat.lt_trichotomy j k) as [Hl|[->|Hl]].
      - pose proof (chain_order _ _ _ _ _ _ _ (ok_chain _ _ _ H) Ej E Hl).
        apply nth_error_In in Ej. destruct (chain_in_bounds _ _ _ _ (ok_chain _ _ _ H) Ej). lra.
      - assert (q = s) by congruence. subst q. lra.
      - pose proof (chain_order _ _ _ _ _ _ _ (ok_chain _ _ _ H) E Ej Hl). lra. }
    destruct (nth_error x (S k)) as [s2|] eqn:E2.
    + pose proof (chain_from_nth _ _ _ _ _ _ (ok_chain _ _ _ H) E E2) as Hn2.
      assert (exists s2', nth_error (slice_set k y x) (S k) = Some s2' /\ s_lb s2' = s_lb s2 /\ s_ub s2' = s_ub s2) as (s2' & E2' & L2 & U2).
      { apply (nth_dom x (slice_set k y x)); auto. symmetry. apply slice_set_dom. }
      destruct (Rlt_dec (s_lb s2) v) as [Hlt|Hlt].
      * destruct (IH (S k) (slice_set k y x) s2') as (I1 & I2 & I3 & I4); auto; try lra.
        { destruct Hg as [Hg|Hg]; auto. right. pose proof (slice_set_dom k y x) as D.
          apply (f_equal (map fst)) in D. rewrite !map_map in D. change (map s_lb (slice_set k y x) = map s_lb x) in D. rewrite D. auto. }
        { rewrite slice_set_length. lia. }
        rewrite L2 in *. 
        assert (prev_cod (slice_set k y x) (S k) = Some y) as Ep.
        { unfold prev_cod. rewrite cod_at_slice_set, Nat.eqb_refl, E. auto. }
        rewrite Ep in I1. simpl in I1.
        replace (inter y y) with y in I1 by (symmetry; apply inter_sub_eq; auto using sub_refl).
        split; [|split; [|split; [auto|]]].
        -- rewrite I4 by lra. auto.
        -- intros t Ht. destruct (Rtotal_order t (s_lb s2)) as [Hl|[->|Hl]]; auto.
           ++ rewrite I4 by lra. apply A3. lra.
           ++ apply I2; lra.
        -- intros t Ht. rewrite I4 by lra. apply A4. lra.
      * assert (s_lb s2 = v) as Ev by lra.
        assert (set_itv_loop n (S k) y (bnd u v) (slice_set k y x) = slice_set k y x) as El.
        { destruct n; auto. cbn [set_itv_loop]. rewrite E2'.
          destruct (is_degenerated _) eqn:Ed; auto. exfalso.
          assert (List.In s2 x) as Hin2 by (eapply nth_error_In; eauto).
          destruct (chain_in_bounds _ _ _ _ (ok_chain _ _ _ H) Hin2).
          apply degenerated_inter in Ed; lra. }
        rewrite El. assert (s_ub s = v) as Es by lra. rewrite <- Es in *. 
        split; [|split; [|split]]; auto. rewrite A2. apply inter_opt_sub_l.
    + assert (s_ub s = b) as Eb.
      { apply nth_error_None in E2. assert (length x - 1 = k)%nat as El by lia.
        destruct (idx_spec x a b b) as (q & Eq & Bq & Cq); try apply H; [pose proof (chain_from_lt x a b (ok_chain _ _ _ H) (ok_ne _ _ _ H)); lra|].
        pose proof (nth_error_Some x (time_to_index b x)) as Hlt. rewrite Eq in Hlt.
        assert (time_to_index b x < length x)%nat by (apply Hlt; discriminate).
        destruct (Nat.eq_dec (time_to_index b x) k) as [Ek|Ek].
        - rewrite Ek, E in Eq. inversion Eq; subst q. lra.
        - pose proof (chain_order _ _ _ _ _ _ _ (ok_chain _ _ _ H) Eq E ltac:(lia)). lra. }
      assert (set_itv_loop n (S k) y (bnd u v) (slice_set k y x) = slice_set k y x) as El.
      { destruct n; auto. cbn [set_itv_loop].
        replace (nth_error (slice_set k y x) (S k)) with (@None slice); auto.
        symmetry. apply nth_error_None. rewrite slice_set_length. apply nth_error_None; auto. }
      rewrite El. assert (v = b) by lra. subst v. rewrite <- Eb in *.
      split; [|split; [|split]]; auto. rewrite A2. apply inter_opt_sub_l.
Qed.

Lemma sample_lbs a b x t u : tube_ok a b x -> a <= t <= b ->
  List.In u (map s_lb x) -> List.In u (map s_lb (sample t x)).
Proof.
  intros H Ht Hu. destruct (sample_shape x a b t) as [->|(l1 & s & l2 & E1 & B & ->)]; try apply H; auto.
  rewrite E1 in Hu. rewrite map_app in *. simpl in *. apply in_app_or in Hu. apply in_or_app.
  destruct Hu as [Hu|[Hu|Hu]]; auto; right; [left|right; right]; auto.
Qed.

Theorem set_itv_eval a b x y u v : tube_ok a b x -> wf y -> a <= u -> u < v -> v <= b ->
  (forall t, u < t < v -> eval_t (tube_set_itv y u v x) t = y) /\
  sub (eval_t (tube_set_itv y u v x) u) y /\ sub (eval_t (tube_set_itv y u v x) v) y /\
  (forall t, t < u \/ v < t -> eval_t (tube_set_itv y u v x) t = eval_t x t).
Proof.
  intros H Hw Ha Huv Hb. unfold tube_set_itv.
  replace (Reqb u v) with false by (symmetry; apply Reqb_false; lra).
  assert (tube_ok a b (sample u x)) as H1 by (apply sample_ok; auto; lra).
  assert (tube_ok a b (sample v (sample u x))) as H2 by (apply sample_ok; auto; lra).
  set (x1 := sample v (sample u x)) in *.
  assert (List.In u (map s_lb x1)) as Lu.
  { apply (sample_lbs a b); auto; try lra. destruct (sample_gate_at a b x u H) as (k & s & E & _ & C); [lra|].
    destruct C as [C|C]; [|lra]. apply in_map_iff. exists s. split; auto. eapply nth_error_In; eauto. }
  assert (v = b \/ List.In v (map s_lb x1)) as Lv.
  { destruct (sample_gate_at a b (sample u x) v H1) as (k & s & E & _ & C); [lra|].
    destruct C as [C|C]; [|tauto]. right. apply in_map_iff. exists s. split; auto. eapply nth_error_In; eauto. }
  apply in_map_iff in Lu. destruct Lu as (s & Es & Hs). apply In_nth_error in Hs. destruct Hs as [k Ek].
  assert (time_to_index u x1 = k) as Ei.
  { apply Nat.le_antisymm.
    - apply (idx_le x1 u k s Ek). apply nth_error_In in Ek. destruct (chain_in_bounds _ _ _ _ (ok_chain _ _ _ H2) Ek). lra.
    - apply (idx_ge x1 a b u k s); auto; [apply H2|lra]. }
  rewrite Ei.
  destruct (set_itv_loop_eval a b u v y Huv Hw (length x1) k x1 s) as (A1 & A2 & A3 & A4); auto; try lra; try lia.
  rewrite Es in *. split; [|split; [|split]]; auto.
  - rewrite A1. apply inter_opt_sub_l.
  - intros t Ht. rewrite A4 by auto. unfold x1. rewrite (sample_eval a b), (sample_eval a b) by (auto; lra). auto.
Qed.

(** ** tightness of the evaluation over an interval *)
Theorem eval_itv_least a b x u v K : tube_ok a b x -> a <= u -> u < v -> v <= b -> wf K ->
  (forall s, List.In s x -> s_lb s < v -> u < s_ub s -> sub (s_cod s) K) ->
  sub (eval_itv x (Itv (Some u) (Some v))) K.
Proof.
  intros H Ha Huv Hb HK Hs. unfold eval_itv. rewrite (chain_t0 x a b), (chain_tf x a b) by apply H.
  rewrite (proj2 (Rltb_false u a)), (proj2 (Rltb_false b v)) by lra. simpl.
  replace (Reqb u v) with false by (symmetry; apply Reqb_false; lra).
  apply fold_hull_least; auto. { exact I. }
  - apply Forall_forall. intros i Hi. apply in_map_iff in Hi. destruct Hi as (s & <- & Hi).
    assert (List.In s x) as Hin by (eapply in_skipn; rewrite <- (firstn_skipn (match nth_error x (time_to_index v x) with Some s0 => if Reqb (s_lb s0) v then time_to_index v x else S (time_to_index v x) | None => S (time_to_index v x) end - time_to_index u x) (skipn (time_to_index u x) x)); apply in_or_app; left; eauto).
    apply (ok_in _ _ _ _ H Hin).
  - intros y Hy; destruct Hy.
  - intros i Hi. apply in_map_iff in Hi. destruct Hi as (s & <- & Hi).
    apply In_nth_error in Hi. destruct Hi as [j Ej].
    match type of Ej with nth_error (firstn ?n _) _ = _ => set (m := n) in * end.
    assert (j < m)%nat as Hj.
    { destruct (Nat.lt_ge_cases j m); auto. exfalso.
      assert (nth_error (firstn m (skipn (time_to_index u x) x)) j = None) as En; [|congruence].
      apply nth_error_None. rewrite firstn_length. lia. }
    rewrite nth_error_firstn', nth_error_skipn' in Ej by auto.
    assert (List.In s x) as Hin by (eapply nth_error_In; eauto).
    destruct (chain_in_bounds _ _ _ _ (ok_chain _ _ _ H) Hin) as (B1 & B2 & B3).
    apply Hs; auto.
    + destruct (idx_spec x a b v) as (sv & Ev & C1 & C2); try apply H; try lra.
      unfold m in Hj. rewrite Ev in Hj. destruct (Reqb (s_lb sv) v) eqn:Er.
      * apply Reqb_true in Er. pose proof (chain_order _ _ _ _ _ _ _ (ok_chain _ _ _ H) Ej Ev ltac:(lia)). lra.
      * apply Reqb_false in Er. destruct (Nat.eq_dec (time_to_index u x + j) (time_to_index v x)) as [Eq|Ne].
        -- rewrite Eq, Ev in Ej. inversion Ej; subst. lra.
        -- pose proof (chain_order _ _ _ _ _ _ _ (ok_chain _ _ _ H) Ej Ev ltac:(lia)). lra.
    + destruct (idx_spec x a b u) as (su & Eu & C1 & C2); try apply H; try lra.
      destruct (Req_dec u (s_ub su)) as [Eq|Ne]; [specialize (C2 Eq); lra|].
      destruct j.
      * rewrite Nat.add_0_r, Eu in Ej. inversion Ej; subst. lra.
      * pose proof (chain_order _ _ _ _ _ _ _ (ok_chain _ _ _ H) Eu Ej ltac:(lia)). lra.
Qed.

Theorem codomain_least a b x K : tube_ok a b x -> wf K -> (forall s, List.In s x -> sub (s_cod s) K) -> sub (codomain x) K.
Proof.
  intros H HK Hs. unfold codomain. apply fold_hull_least; auto. { exact I. }
  - apply Forall_forall. intros i Hi. apply in_map_iff in Hi. destruct Hi as (s & <- & Hi). apply (ok_in _ _ _ _ H Hi).
  - intros y Hy; destruct Hy.
  - intros i Hi. apply in_map_iff in Hi. destruct Hi as (s & <- & Hi). auto.
Qed.

(** ** the inverse is inside of the search domain *)
Lemma slice_invert_sub s y search : wf search -> sub search (s_dom s) -> sub (slice_invert s y search) search.
Proof.
  intros Hw Hs t. unfold slice_invert. destruct (is_empty search) eqn:E0; [intros []|].
  assert (lb_lt search (s_lb s) || ub_gt search (s_ub s) = false) as ->.
  { apply orb_false_iff. apply is_empty_false in E0. destruct search as [|[l|] [h|]]; [congruence| | | | ]; simpl in *.
    - split; apply Rltb_false; [destruct (Hs l)|destruct (Hs h)]; simpl in *; lra.
    - destruct (Hs (Rmax l (s_ub s + 1))) as [_ Hx]; [split; simpl; auto; apply Rmax_l|]. simpl in Hx.
      pose proof (Rmax_r l (s_ub s + 1)). lra.
    - destruct (Hs (Rmin h (s_lb s - 1))) as [Hx _]; [split; simpl; auto; apply Rmin_l|]. simpl in Hx.
      pose proof (Rmin_r h (s_lb s - 1)). lra.
    - destruct (Hs (s_ub s + 1)) as [_ Hx]; [split; simpl; auto|]. simpl in Hx. lra. }
  destruct (itv_eqb (inter (s_dom s) search) (s_dom s) && is_subset (s_cod s) y) eqn:E1.
  { apply andb_true_iff in E1. destruct E1 as [E1 _]. apply itv_eqb_true in E1. rewrite <- E1. intros Ht. apply In_inter in Ht. tauto. }
  destruct (itv_eqb search (pt (s_lb s))) eqn:E2.
  { apply itv_eqb_true in E2. rewrite E2. destruct (intersects y (s_in s)); [auto|intros []]. }
  destruct (itv_eqb search (pt (s_ub s))) eqn:E3.
  { apply itv_eqb_true in E3. rewrite E3. destruct (intersects y (s_out s)); [auto|intros []]. }
  destruct (intersects y (s_cod s)); [|intros []]. intros Ht; apply In_inter in Ht; tauto.
Qed.
Lemma slice_invert_wf s y search : s_lb s <= s_ub s -> wf (slice_invert s y search).
Proof.
  intros Hs. unfold slice_invert. destruct (is_empty search); [exact I|]. destruct (_ || _); [exact I|].
  destruct (_ && _); [exact Hs|]. destruct (itv_eqb _ _). { destruct (intersects _ _); [apply wf_pt|exact I]. }
  destruct (itv_eqb _ _). { destruct (intersects _ _); [apply wf_pt|exact I]. }
  destruct (intersects _ _); [apply wf_inter|exact I].
Qed.
Theorem invert_sub a b x y u v : tube_ok a b x -> a <= u -> u <= v -> v <= b ->
  sub (invert x y (Itv (Some u) (Some v))) (Itv (Some u) (Some v)).
Proof.
  intros H Ha Huv Hb. unfold invert. rewrite (chain_t0 x a b), (chain_tf x a b) by apply H.
  rewrite (proj2 (Rltb_false u a)), (proj2 (Rltb_false b v)) by lra. simpl.
  assert (forall l, (forall s, List.In s l -> s_lb s <= s_ub s) -> 
    sub (invert_loop l y u v) (Itv (Some u) (Some v)) /\ wf (invert_loop l y u v)) as A.
  { induction l as [|s l IH]; intros Hl; simpl. { split; [intros t []|exact I]. }
    destruct (Rltb (s_lb s) v); [|split; [intros t []|exact I]].
    destruct IH as [I1 I2]; [intros; apply Hl; right; auto|].
    assert (s_lb s <= s_ub s) as Hs by (apply Hl; left; auto).
    split.
    - apply hull_least; auto using slice_invert_wf. eapply sub_trans; [apply slice_invert_sub; auto using wf_inter, sub_inter_r|].
      eapply sub_trans; [apply sub_inter_l|]. intros t Ht. apply In_bnd in Ht. simpl; lra.
    - apply wf_hull; auto using slice_invert_wf. }
  apply A. intros s Hs. apply in_skipn in Hs. destruct (chain_in_bounds _ _ _ _ (ok_chain _ _ _ H) Hs). lra.
Qed.
(** ... and empty when no value of the tube meets y *)
Theorem invert_none a b x y u v : tube_ok a b x -> a <= u -> u <= v -> v <= b ->
  (forall s w, List.In s x -> In w (s_cod s) -> ~ In w y) ->
  (forall s, List.In s x -> s_cod s <> Emp) ->
  invert x y (Itv (Some u) (Some v)) = Emp.
Proof.
  intros H Ha Huv Hb Hn He. unfold invert. rewrite (chain_t0 x a b), (chain_tf x a b) by apply H.
  rewrite (proj2 (Rltb_false u a)), (proj2 (Rltb_false b v)) by lra. simpl.
  assert (forall l, (forall s, List.In s l -> List.In s x) -> invert_loop l y u v = Emp) as A.
  { induction l as [|s l IH]; intros Hl; simpl; auto. destruct (Rltb (s_lb s) v); auto.
    rewrite IH by (intros; apply Hl; right; auto).
    assert (List.In s x) as Hin by (apply Hl; left; auto).
    destruct (ok_in _ _ _ _ H Hin) as (W1 & W2 & W3 & S1 & S2).
    assert (forall g, sub g (s_cod s) -> intersects y g = false) as K.
    { intros g Hg. apply intersects_false. intros w Hw1 Hw2. apply (Hn s w); auto. }
    assert (slice_invert s y (inter (bnd u v) (s_dom s)) = Emp) as ->; auto.
    unfold slice_invert. rewrite !K by auto using sub_refl.
    destruct (is_empty _) eqn:E0; auto.
    replace (lb_lt (inter (bnd u v) (s_dom s)) (s_lb s) || ub_gt (inter (bnd u v) (s_dom s)) (s_ub s)) with false.
    - replace (is_subset (s_cod s) y) with false; [rewrite andb_false_r; destruct (itv_eqb _ _); auto; destruct (itv_eqb _ _); auto|].
      symmetry. destruct (is_subset (s_cod s) y) eqn:Es; auto. apply is_subset_sub in Es.
      destruct (wf_witness (s_cod s) W1) as [w Hw]; auto. exfalso; apply (Hn s w); auto.
    - symmetry. unfold bnd, s_dom, mk in *. destruct (Rle_dec u v); [|lra]. simpl in *. unfold mk in *.
      destruct (Rle_dec _ _); auto. simpl. apply orb_false_iff. split; apply Rltb_false; [apply Rmax_r|apply Rmin_r]. }
  apply A. intros s Hs. eapply in_skipn; eauto.
Qed.
