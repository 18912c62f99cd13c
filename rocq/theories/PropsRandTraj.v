(** * C121: random trajectories *)

From Coq Require Import Reals Lra Bool List ZArith Lia.
From Verif Require Import Itv Arith Trajectory TrajFacts Concrete PropsTraj RandTraj.
Import ListNotations.
Open Scope R_scope.

Lemma rand_bounds lo hi u : lo <= hi -> lo <= rand_in_bounds lo hi u <= hi.
Proof. intros H. unfold rand_in_bounds. split; [apply Rmax_l|]. apply Rmax_lub; auto. apply Rmin_l. Qed.
Lemma rand_exact lo hi u : lo <= hi -> 0 <= u <= 1 -> rand_in_bounds lo hi u = lo + u * (hi - lo).
Proof.
  intros H U. unfold rand_in_bounds. assert (0 <= u * (hi - lo) <= hi - lo).
  { split; [apply Rmult_le_pos; lra|]. rewrite <- (Rmult_1_l (hi - lo)) at 2. apply Rmult_le_compat_r; lra. }
  rewrite Rmin_right by lra. rewrite Rmax_right by lra. lra.
Qed.

(** the samples after [j] iterations *)
Definition filled (rnd : nat -> R) (a b dt lo hi : R) (j : nat) (m : smap) (c : itv) : Prop :=
  sorted m /\ smallest (is_val m) c /\
  (forall k v, List.In (k, v) m <-> exists i, (i < j)%nat /\ k = Rmin (a + INR i * dt) b /\ v = rand_in_bounds lo hi (rnd i)) /\
  (forall i, (i < j)%nat -> a + INR i * dt < b + dt).
Lemma rand_loop_spec rnd a b dt lo hi : 0 < dt -> forall n j m c, filled rnd a b dt lo hi j m c -> b + dt <= a + INR (j + n) * dt ->
  exists m' c' J, rand_loop (S n) rnd j (a + INR j * dt) b dt lo hi m c = Some (m', c') /\ filled rnd a b dt lo hi J m' c' /\ b + dt <= a + INR J * dt.
Proof.
  intros Hdt. induction n as [|n IH]; intros j m c F L.
  - exists m, c, j. rewrite Nat.add_0_r in L. cbn [rand_loop]. rewrite (proj2 (Rltb_false _ _)) by lra. auto.
  - remember (S n) as n1. cbn [rand_loop]. subst n1. destruct (Rltb (a + INR j * dt) (b + dt)) eqn:E.
    + apply Rltb_true in E. replace (a + INR j * dt + dt) with (a + INR (S j) * dt) by (rewrite S_INR; lra).
      apply IH; [|replace (S j + n)%nat with (j + S n)%nat by lia; auto].
      destruct F as (So & Sm & K & Lt).
      assert (B : forall i, (i < j)%nat -> a + INR i * dt < Rmin (a + INR j * dt) b).
      { intros i Hi. assert (G : INR i + 1 <= INR j) by (rewrite <- S_INR; apply le_INR; lia).
        assert ((INR i + 1) * dt <= INR j * dt) by (apply Rmult_le_compat_r; lra). apply Rmin_glb_lt; lra. }
      assert (Nk : ~ is_key m (Rmin (a + INR j * dt) b)).
      { intros (v & Hv). apply K in Hv. destruct Hv as (i & Hi & Ei & _). specialize (B i Hi). pose proof (Rmin_l (a + INR i * dt) b). lra. }
      split; [apply sorted_put; auto|]. split; [|split].
      * apply (smallest_ext (fun v => is_val m v \/ v = rand_in_bounds lo hi (rnd j))); [intros v; symmetry; apply is_val_put_new; auto|apply smallest_add; auto].
      * intros k v. rewrite in_put by auto. rewrite K. split.
        -- intros [(-> & ->)|(_ & i & Hi & E1 & E2)]; [exists j; split; auto; lia|exists i; split; auto].
        -- intros (i & Hi & -> & ->). destruct (Nat.eq_dec i j) as [->|Ne]; [left; auto|right]. split; [|exists i; repeat split; auto; lia].
           assert (Hi' : (i < j)%nat) by lia. specialize (B i Hi'). pose proof (Rmin_l (a + INR i * dt) b). lra.
      * intros i Hi. destruct (Nat.eq_dec i j) as [->|Ne]; auto. apply Lt. lia.
    + apply Rltb_false in E. exists m, c, j. auto.
Qed.

(** C121: the construction always ends without a failed assertion. The samples are at the times [a], [a+dt], [a+2dt], ... and [b], one draw for each.
    The trajectory is defined exactly on [a,b], its values are within the bounds and the codomain is the hull of the values taken. *)
Theorem C121_random : forall rnd a b dt lo hi, a < b -> 0 < dt -> lo <= hi ->
  exists x, rand_traj rnd a b dt lo hi = Some x /\ t_dom x = bnd a b /\
    (forall k v, List.In (k, v) (t_map x) <-> exists i, a + INR i * dt < b + dt /\ k = Rmin (a + INR i * dt) b /\ v = rand_in_bounds lo hi (rnd i)) /\
    (forall t, a <= t <= b <-> exists v, traj_at x t = Some v) /\
    (forall t v, traj_at x t = Some v -> lo <= v <= hi) /\
    smallest (taken x (fun t => a <= t <= b)) (t_cod x).
Proof.
  intros rnd a b dt lo hi Hab Hdt Hlh. unfold rand_traj. rewrite (proj2 (Rltb_true _ _) Hab), (proj2 (Rltb_true _ _) Hdt), (proj2 (Rleb_true _ _) Hlh). cbn [andb].
  destruct (rand_loop_spec rnd a b dt lo hi Hdt (S (Z.to_nat (up ((b - a) / dt)))) 0 [] Emp) as (m & c & J & E & (So & Sm & K & Lt) & HJ).
  - split; [exact I|]. split; [apply smallest_none; intros v (t & [])|]. split; [|intros i Hi; lia]. intros k v. split; [intros []|intros (i & Hi & _); lia].
  - rewrite Nat.add_0_l, S_INR. assert (G : (b - a) / dt < INR (Z.to_nat (up ((b - a) / dt)))).
    { destruct (archimed ((b - a) / dt)) as (G & _). apply Rgt_lt in G. rewrite INR_IZR_INZ, Z2Nat.id; auto.
      apply le_IZR. left. apply Rle_lt_trans with ((b - a) / dt); auto. apply Rlt_le, Rdiv_lt_0_compat; lra. }
    assert ((b - a) / dt * dt = b - a) by (field; lra). assert ((b - a) / dt * dt < INR (Z.to_nat (up ((b - a) / dt))) * dt) by (apply Rmult_lt_compat_r; auto). lra.
  - cbn [INR] in E. replace (a + 0 * dt) with a in E by lra. rewrite E.
    assert (HJ' : forall i, a + INR i * dt < b + dt <-> (i < J)%nat).
    { intros i. split; auto. intros Hi. destruct (Nat.lt_ge_cases i J) as [|G]; auto. exfalso. apply le_INR in G.
      assert (INR J * dt <= INR i * dt) by (apply Rmult_le_compat_r; lra). lra. }
    assert (K' : forall k v, List.In (k, v) m <-> exists i, a + INR i * dt < b + dt /\ k = Rmin (a + INR i * dt) b /\ v = rand_in_bounds lo hi (rnd i)).
    { intros k v. rewrite K. split; intros (i & Hi & Q); exists i; split; auto; apply HJ'; auto. }
    assert (Vb : forall v, is_val m v -> lo <= v <= hi). { intros v (t & Hv). apply K in Hv. destruct Hv as (i & _ & _ & ->). apply rand_bounds; auto. }
    assert (Sub : is_subset c (bnd lo hi) = true). { apply sub_is_subset; [apply Sm|]. apply Sm. intros v Hv. apply In_bnd. auto. }
    rewrite Sub. eexists. split; [reflexivity|]. cbn [t_dom t_map t_cod]. split; auto. split; auto.
    set (x := mkT (bnd a b) c None m).
    assert (Ka : is_key m a). { exists (rand_in_bounds lo hi (rnd 0%nat)). apply K'. exists 0%nat. cbn. rewrite Rmin_left by lra. repeat split; lra. }
    assert (Kb : is_key m b).
    { destruct J as [|J]; [cbn in HJ; lra|]. exists (rand_in_bounds lo hi (rnd J)). apply K. exists J. split; [lia|]. rewrite S_INR in HJ. rewrite Rmin_right by lra. auto. }
    assert (Kab : forall k, is_key m k -> a <= k <= b).
    { intros k (v & Hv). apply K in Hv. destruct Hv as (i & _ & -> & _). split; [|apply Rmin_r]. apply Rmin_glb; [|lra]. assert (0 <= INR i * dt) by (apply Rmult_le_pos; [apply pos_INR|lra]). lra. }
    assert (Ok : traj_ok x).
    { split; auto. split; auto. split; auto. cbn [x t_dom t_map]. split; [apply wf_mk|]. split; [intros k Hk; apply In_bnd; auto|].
      intros j Hj t Ht. apply In_bnd in Ht. apply (In_convex a t b); auto. }
    assert (D : forall t, a <= t <= b <-> exists v, traj_at x t = Some v).
    { intros t. rewrite (traj_at_pl x t Ok). rewrite <- (dom_contains x t Ok). cbn [x t_dom]. symmetry. apply In_bnd. }
    split; auto.
    assert (V : forall t v, traj_at x t = Some v -> exists p q, is_val m p /\ is_val m q /\ p <= v <= q).
    { intros t v Hv. rewrite (traj_at_pl x t Ok) in Hv. apply (pl_vals m t v); auto. }
    split.
    + intros t v Hv. destruct (V t v Hv) as (p & q & Hp & Hq & G). apply Vb in Hp, Hq. lra.
    + destruct Sm as (W & A & B). split; auto. split.
      * intros v (t & _ & Hv). destruct (V t v Hv) as (p & q & Hp & Hq & G). apply (In_convex p v q); auto.
      * intros j Hj. apply B. intros v (t & Hv). apply Hj. exists t. split; [apply Kab; exists v; auto|]. rewrite (traj_at_pl x t Ok). apply pl_key; auto.
Qed.
(** C121: when the draw is a number of [0,1], the sample is at the same place in the bounds; each value of the bounds can be drawn. *)
Theorem C121_draw : forall lo hi, lo <= hi -> (forall u, 0 <= u <= 1 -> rand_in_bounds lo hi u = lo + u * (hi - lo)) /\
  (forall y, lo <= y <= hi -> exists u, 0 <= u <= 1 /\ rand_in_bounds lo hi u = y).
Proof.
  intros lo hi H. split; [intros u U; apply rand_exact; auto|]. intros y Hy. destruct (Req_dec lo hi) as [E|Ne].
  - exists 0. split; [lra|]. rewrite rand_exact by lra. lra.
  - exists ((y - lo) / (hi - lo)). assert (U : 0 <= (y - lo) / (hi - lo) <= 1).
    { split; [apply Rmult_le_pos; [lra|apply Rlt_le, Rinv_0_lt_compat; lra]|]. apply Rmult_le_reg_r with (hi - lo); [lra|]. unfold Rdiv. rewrite Rmult_assoc, Rinv_l by lra. lra. }
    split; auto. rewrite rand_exact by auto. field. lra.
Qed.
(** the last step is shorter when the time step does not divide the width of the temporal domain *)
Example C121_ex : exists x, rand_traj (fun i => / (1 + INR i)) 0 1 (2/5) (-1) 3 = Some x /\ traj_at x (2/5) = Some 1 /\ traj_at x 1 = Some 0 /\
  ~ is_key (t_map x) (6/5).
Proof.
  destruct (C121_random (fun i => / (1 + INR i)) 0 1 (2/5) (-1) 3) as (x & E & D & K & De & _); try lra. exists x. split; auto.
  assert (Q : forall i v, 0 + INR i * (2/5) < 1 + 2/5 -> rand_in_bounds (-1) 3 (/ (1 + INR i)) = v -> List.In (Rmin (0 + INR i * (2/5)) 1, v) (t_map x)).
  { intros i v Hi Hv. apply K. exists i. auto. }
  assert (Ok : sampled x).
  { unfold rand_traj in E. destruct (_ && _); [|discriminate]. destruct (rand_loop _ _ _ _ _ _ _ _ _ _) as [[m c]|] eqn:L; [|discriminate]. destruct (is_subset _ _); [|discriminate].
    injection E as <-. cbn [t_map t_dom] in *. destruct (rand_loop_spec (fun i => / (1 + INR i)) 0 1 (2/5) (-1) 3 ltac:(lra) (S (Z.to_nat (up ((1 - 0) / (2/5))))) 0 [] Emp) as (m' & c' & J & E' & (So & _) & _).
    - split; [exact I|]. split; [apply smallest_none; intros v (t & [])|]. split; [|intros i Hi; lia]. intros k v. split; [intros []|intros (i & Hi & _); lia].
    - rewrite Nat.add_0_l, S_INR. assert (G : (1 - 0) / (2/5) < INR (Z.to_nat (up ((1 - 0) / (2/5))))).
      { destruct (archimed ((1 - 0) / (2/5))) as (G & _). apply Rgt_lt in G. rewrite INR_IZR_INZ, Z2Nat.id; auto. apply le_IZR. lra. }
      lra.
    - cbn [INR] in E'. replace (0 + 0 * (2/5)) with 0 in E' by lra. rewrite L in E'. injection E' as <- <-. split; [reflexivity|]. split; [exact So|].
      cbn [t_dom t_map]. split; [apply wf_mk|]. split.
      + intros k (v & Hv). apply K in Hv. destruct Hv as (i & _ & -> & _). apply In_bnd. split; [|apply Rmin_r]. apply Rmin_glb; [|lra]. assert (0 <= INR i) by apply pos_INR. lra.
      + intros j Hj t Ht. apply In_bnd in Ht. apply (In_convex 0 t 1); auto; apply Hj.
        * specialize (Q 0%nat 3). eexists. replace 0 with (Rmin (0 + INR 0 * (2/5)) 1) by (cbn; rewrite Rmin_left; lra). apply Q; [cbn; lra|]. rewrite rand_exact; cbn; lra.
        * specialize (Q 3%nat 0). eexists. replace 1 with (Rmin (0 + INR 3 * (2/5)) 1) by (cbn; rewrite Rmin_right; lra). apply Q; [cbn; lra|]. rewrite rand_exact; cbn; lra. }
  destruct (C34_eval x Ok) as (Ev & _). split; [|split].
  - apply Ev. specialize (Q 1%nat 1). cbn in Q. rewrite Rmin_left in Q by lra. replace (2/5) with (0 + 1 * (2/5)) at 1 by lra. apply Q; [lra|]. rewrite rand_exact; lra.
  - apply Ev. specialize (Q 3%nat 0). cbn in Q. rewrite Rmin_right in Q by lra. apply Q; [lra|]. rewrite rand_exact; lra.
  - intros (v & Hv). apply K in Hv. destruct Hv as (i & _ & G & _). pose proof (Rmin_r (0 + INR i * (2/5)) 1). lra.
Qed.

Print Assumptions C121_random.
Print Assumptions C121_draw.
