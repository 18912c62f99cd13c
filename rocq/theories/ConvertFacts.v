(** * Exact values written by Tube::set at an instant and over an interval

    Complements of TubeQueries2.v, in terms of the values just before and just after an instant. *)

From Coq Require Import Reals Lra Lia Bool List Arith.
From Verif Require Import Itv Tube TubeOps TubeSpec TubeFacts TubeOpsFacts TubeOpsFacts2 TubeQueries TubeQueries2.
Import ListNotations.
Open Scope R_scope.

(** [v] is a value of the tube just before (after) [u] *)
Definition Ll (x : tube) (u v : R) : Prop := exists w, w < u /\ forall t, w < t < u -> In v (eval_t x t).
Definition Rl (x : tube) (u v : R) : Prop := exists w, u < w /\ forall t, u < t < w -> In v (eval_t x t).

Lemma In_inter_opt y o v : In v (inter_opt y o) <-> In v y /\ (forall c, o = Some c -> In v c).
Proof.
  destruct o as [c|]; cbn [inter_opt]; [rewrite In_inter|]; split; try tauto.
  - intros [H1 H2]. split; auto. intros c' E. injection E as <-. auto.
  - intros [H1 H2]. auto.
  - intros H. split; auto. discriminate.
Qed.
Lemma between w l u : w < u -> l < u -> exists t, w < t < u /\ l < t < u.
Proof. intros H1 H2. exists ((Rmax w l + u) / 2). unfold Rmax. destruct (Rle_dec w l); split; lra. Qed.
Lemma cod_left a b x k s v : tube_ok a b x -> nth_error x k = Some s -> (In v (s_cod s) <-> Ll x (s_ub s) v).
Proof.
  intros H E. destruct (chain_in_bounds _ _ _ _ (ok_chain _ _ _ H) (nth_error_In _ _ E)) as (B1 & B2 & B3). split.
  - intros Hv. exists (s_lb s). split; [lra|]. intros t Ht. rewrite (eval_t_slice a b x k s t H E) by lra. rewrite slice_eval_mid by lra. auto.
  - intros (w & Hw & F). destruct (between w (s_lb s) (s_ub s) Hw ltac:(lra)) as (t & T1 & T2). specialize (F t T1).
    rewrite (eval_t_slice a b x k s t H E), slice_eval_mid in F by lra. auto.
Qed.
Lemma cod_right a b x k s v : tube_ok a b x -> nth_error x k = Some s -> (In v (s_cod s) <-> Rl x (s_lb s) v).
Proof.
  intros H E. destruct (chain_in_bounds _ _ _ _ (ok_chain _ _ _ H) (nth_error_In _ _ E)) as (B1 & B2 & B3). split.
  - intros Hv. exists (s_ub s). split; [lra|]. intros t Ht. rewrite (eval_t_slice a b x k s t H E) by lra. rewrite slice_eval_mid by lra. auto.
  - intros (w & Hw & F). destruct (between (- w) (- s_ub s) (- s_lb s)) as (t & T1 & T2); [lra|lra|]. specialize (F (- t) ltac:(lra)).
    rewrite (eval_t_slice a b x k s (- t) H E), slice_eval_mid in F by lra. auto.
Qed.
Lemma first_lb a b x s : tube_ok a b x -> nth_error x 0 = Some s -> s_lb s = a.
Proof. intros H E. pose proof (ok_chain _ _ _ H) as C. destruct x; [discriminate|]. cbn in *. injection E as ->. tauto. Qed.
Lemma last_ub a b x k s : tube_ok a b x -> nth_error x k = Some s -> nth_error x (S k) = None -> s_ub s = b.
Proof.
  intros H E E2. pose proof (ok_chain _ _ _ H) as C. clear H. revert a x C E E2. induction k as [|k IH]; intros a [|q x] C E E2; try discriminate; cbn in *.
  - injection E as ->. destruct x; [|discriminate]. cbn in C. tauto.
  - apply (IH (s_ub q) x); tauto.
Qed.
Lemma prev_lim a b x k s y v : tube_ok a b x -> nth_error x k = Some s ->
  (In v (inter_opt y (prev_cod x k)) <-> In v y /\ (a < s_lb s -> Ll x (s_lb s) v)).
Proof.
  intros H E. rewrite In_inter_opt. destruct k as [|j]; cbn [prev_cod].
  - rewrite (first_lb a b x s H E). split; intros [H1 H2]; split; auto; [lra|discriminate].
  - destruct (nth_error x j) as [q|] eqn:Ej.
    + pose proof (chain_from_nth _ _ _ _ _ _ (ok_chain _ _ _ H) Ej E) as En. unfold cod_at. rewrite Ej. cbn [option_map]. rewrite <- En.
      rewrite <- (cod_left a b x j q v H Ej). destruct (chain_in_bounds _ _ _ _ (ok_chain _ _ _ H) (nth_error_In _ _ Ej)) as (B1 & B2 & B3).
      split; intros [H1 H2]; split; auto. intros c Ec. injection Ec as <-. apply H2. lra.
    + exfalso. apply nth_error_None in Ej. assert (S j < length x)%nat by (apply nth_error_Some; congruence). lia.
Qed.
Lemma next_lim a b x k s y v : tube_ok a b x -> nth_error x k = Some s ->
  (In v (inter_opt y (cod_at x (S k))) <-> In v y /\ (s_ub s < b -> Rl x (s_ub s) v)).
Proof.
  intros H E. rewrite In_inter_opt. unfold cod_at. destruct (nth_error x (S k)) as [q|] eqn:Eq; cbn [option_map].
  - pose proof (chain_from_nth _ _ _ _ _ _ (ok_chain _ _ _ H) E Eq) as En. rewrite En. rewrite <- (cod_right a b x (S k) q v H Eq).
    destruct (chain_in_bounds _ _ _ _ (ok_chain _ _ _ H) (nth_error_In _ _ Eq)) as (B1 & B2 & B3).
    split; intros [H1 H2]; split; auto. intros c Ec. injection Ec as <-. apply H2. lra.
  - rewrite (last_ub a b x k s H E Eq). split; intros [H1 H2]; split; auto; [lra|discriminate].
Qed.
Lemma Ll_ext x y u v : (forall t, eval_t x t = eval_t y t) -> (Ll x u v <-> Ll y u v).
Proof. intros H. unfold Ll. split; intros (w & Hw & F); exists w; split; auto; intros t Ht; [rewrite <- H|rewrite H]; auto. Qed.
Lemma Rl_ext x y u v : (forall t, eval_t x t = eval_t y t) -> (Rl x u v <-> Rl y u v).
Proof. intros H. unfold Rl. split; intros (w & Hw & F); exists w; split; auto; intros t Ht; [rewrite <- H|rewrite H]; auto. Qed.

(** the value written by set(y,u) at u: y and the values just before and just after *)
Lemma set_at_exact a b x y u v : tube_ok a b x -> wf y -> a <= u <= b ->
  (In v (eval_t (tube_set_at y u x) u) <-> In v y /\ (a < u -> Ll x u v) /\ (u < b -> Rl x u v)).
Proof.
  intros H Hw Hu. unfold tube_set_at, sample_gate.
  destruct (sample_gate_at a b x u H Hu) as (k & s & E & <- & C). rewrite E.
  pose proof (sample_ok a b x u H Hu) as Hok.
  assert (X : forall t, eval_t (sample u x) t = eval_t x t) by (intros t; apply (sample_eval a b); auto).
  set (k := time_to_index u (sample u x)) in *.
  destruct (chain_in_bounds _ _ _ _ (ok_chain _ _ _ Hok) (nth_error_In _ _ E)) as (B1 & B2 & B3).
  destruct (Reqb u (s_lb s)) eqn:Er.
  - apply Reqb_true in Er. destruct (set_input_gate_eval a b _ _ s y Hok Hw E) as [A1 _]. rewrite <- Er in A1. rewrite A1.
    rewrite (prev_lim a b _ k s _ v Hok E), In_inter_opt. unfold cod_at. rewrite E. cbn [option_map]. rewrite <- Er in *.
    rewrite <- (Ll_ext _ _ u v X), <- (Rl_ext _ _ u v X).
    assert (Q : (forall c, Some (s_cod s) = Some c -> In v c) <-> (u < b -> Rl (sample u x) u v)).
    { pose proof (cod_right a b _ k s v Hok E) as CL. rewrite <- Er in CL. rewrite <- CL. split; [intros F _; auto|]. intros F c Ec. injection Ec as <-. apply F. lra. }
    rewrite Q. tauto.
  - apply Reqb_false in Er. assert (u = s_ub s /\ u = b) as [Eu Eb] by (destruct C as [C|[C D]]; [congruence|auto]).
    destruct (set_output_gate_eval a b _ _ s y Hok Hw E) as [A1 _]. rewrite <- Eu in A1. rewrite A1.
    rewrite (next_lim a b _ k s _ v Hok E), In_inter_opt. unfold cod_at. rewrite E. cbn [option_map]. rewrite <- Eu in *.
    rewrite <- (Ll_ext _ _ u v X), <- (Rl_ext _ _ u v X).
    assert (Q : (forall c, Some (s_cod s) = Some c -> In v c) <-> (a < u -> Ll (sample u x) u v)).
    { pose proof (cod_left a b _ k s v Hok E) as CL. rewrite <- Eu in CL. rewrite <- CL. split; [intros F _; auto|]. intros F c Ec. injection Ec as <-. apply F. lra. }
    rewrite Q. tauto.
Qed.

Lemma set_itv_loop_end a b u y : u < b -> wf y -> forall n k x s, tube_ok a b x ->
  nth_error x k = Some s -> u <= s_lb s -> (length x <= k + n)%nat ->
  eval_t (set_itv_loop n k y (bnd u b) x) b = y.
Proof.
  intros Huv Hw. induction n as [|n IH]; intros k x s H E Hu Hn.
  - exfalso. assert (k < length x)%nat by (apply nth_error_Some; congruence). lia.
  - cbn [set_itv_loop]. rewrite E.
    destruct (chain_in_bounds _ _ _ _ (ok_chain _ _ _ H) (nth_error_In _ _ E)) as (B1 & B2 & B3).
    rewrite degenerated_inter' by lra.
    assert (k < length x)%nat as Hk by (apply nth_error_Some; congruence).
    pose proof (slice_set_ok a b x k y H Hk Hw) as Hok.
    destruct (slice_set_eval a b x k s y H Hw E) as (A1 & A2 & A3 & A4).
    destruct (nth_error x (S k)) as [s2|] eqn:E2.
    + pose proof (chain_from_nth _ _ _ _ _ _ (ok_chain _ _ _ H) E E2) as Hn2.
      assert (exists s2', nth_error (slice_set k y x) (S k) = Some s2' /\ s_lb s2' = s_lb s2 /\ s_ub s2' = s_ub s2) as (s2' & E2' & L2 & U2).
      { apply (nth_dom x (slice_set k y x)); auto. symmetry. apply slice_set_dom. }
      apply (IH (S k) _ s2'); auto; [lra|rewrite slice_set_length; lia].
    + assert (El : set_itv_loop n (S k) y (bnd u b) (slice_set k y x) = slice_set k y x).
      { destruct n; auto. cbn [set_itv_loop].
        replace (nth_error (slice_set k y x) (S k)) with (@None slice); auto.
        symmetry. apply nth_error_None. rewrite slice_set_length. apply nth_error_None; auto. }
      rewrite El. rewrite <- (last_ub a b x k s H E E2), A2. unfold cod_at. rewrite E2. reflexivity.
Qed.

(** the values written by set(y,[u,w]) at u, and at w if it is the end of the tube *)
Lemma set_itv_exact a b x y u w v : tube_ok a b x -> wf y -> a <= u -> u < w -> w <= b ->
  (In v (eval_t (tube_set_itv y u w x) u) <-> In v y /\ (a < u -> Ll x u v)) /\
  (w = b -> eval_t (tube_set_itv y u w x) w = y).
Proof.
  intros H Hw Ha Huv Hb. unfold tube_set_itv.
  replace (Reqb u w) with false by (symmetry; apply Reqb_false; lra).
  assert (tube_ok a b (sample u x)) as H1 by (apply sample_ok; auto; lra).
  assert (tube_ok a b (sample w (sample u x))) as H2 by (apply sample_ok; auto; lra).
  assert (X : forall t, eval_t (sample w (sample u x)) t = eval_t x t) by (intros t; rewrite (sample_eval a b), (sample_eval a b) by (auto; lra); auto).
  set (x1 := sample w (sample u x)) in *.
  assert (List.In u (map s_lb x1)) as Lu.
  { apply (sample_lbs a b); auto; try lra. destruct (sample_gate_at a b x u H) as (k & s & E & _ & C); [lra|].
    destruct C as [C|C]; [|lra]. apply in_map_iff. exists s. split; auto. eapply nth_error_In; eauto. }
  assert (w = b \/ List.In w (map s_lb x1)) as Lv.
  { destruct (sample_gate_at a b (sample u x) w H1) as (k & s & E & _ & C); [lra|].
    destruct C as [C|C]; [|tauto]. right. apply in_map_iff. exists s. split; auto. eapply nth_error_In; eauto. }
  apply in_map_iff in Lu. destruct Lu as (s & Es & Hs). apply In_nth_error in Hs. destruct Hs as [k Ek].
  assert (time_to_index u x1 = k) as Ei.
  { apply Nat.le_antisymm.
    - apply (idx_le x1 u k s Ek). apply nth_error_In in Ek. destruct (chain_in_bounds _ _ _ _ (ok_chain _ _ _ H2) Ek). lra.
    - apply (idx_ge x1 a b u k s); auto; [apply H2|lra]. }
  rewrite Ei.
  destruct (set_itv_loop_eval a b u w y Huv Hw (length x1) k x1 s) as (A1 & _); auto; try lra; try lia.
  rewrite Es in *. split.
  - rewrite A1, (prev_lim a b x1 k s y v H2 Ek), Es, (Ll_ext _ _ u v X). tauto.
  - intros ->. apply (set_itv_loop_end a b u y Huv Hw (length x1) k x1 s); auto; [lra|lia].
Qed.
