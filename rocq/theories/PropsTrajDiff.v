(** * C37: primitives and finite differences of sampled trajectories *)

From Coq Require Import Reals Lra Bool List ZArith Lia Arith.
From Coquelicot Require Import Coquelicot.
From Verif Require Import Itv Trajectory TrajFacts Concrete PropsTraj.
Import ListNotations.
Set Bullet Behavior "Strict Subproofs".
Open Scope R_scope.

(** ** Primitive *)

(** the value of a trajectory as a total function *)
Definition val (x : traj) (t : R) : R := match traj_at x t with Some v => v | None => 0 end.
Definition plv (m : smap) (t : R) : R := match pl m t with Some v => v | None => 0 end.

Lemma seg_integral k1 v1 k2 v2 : k1 < k2 ->
  is_RInt (fun t => lerp t (k1, v1) (k2, v2)) k1 k2 ((v1 + v2) * (k2 - k1) / 2).
Proof.
  intros H.
  set (F := fun t => v1 * (t - k1) + (t - k1) * (t - k1) * ((v2 - v1) / (k2 - k1)) / 2).
  replace ((v1 + v2) * (k2 - k1) / 2) with (minus (F k2) (F k1)).
  - apply (is_RInt_derive F).
    + intros t _. unfold F, lerp. cbn [fst snd]. auto_derive; auto. field. lra.
    + intros t _. unfold lerp. cbn [fst snd]. apply (ex_derive_continuous (fun t => v1 + (t - k1) * (v2 - v1) / (k2 - k1))).
      auto_derive. lra.
  - unfold F, minus, plus, opp. cbn. field. lra.
Qed.

Lemma prim_integral : forall r k v c k' w, sorted ((k, v) :: r) -> List.In (k', w) (prim_loop (Some (k, v)) c r) ->
  is_RInt (plv ((k, v) :: r)) k k' (w - c).
Proof.
  induction r as [|[k2 v2] r IH]; intros k v c k' w Hs H; [destruct H|]. cbn [prim_loop] in H.
  assert (Hk : k < k2) by (apply (sorted_head _ _ _ k2 v2 Hs); left; auto).
  set (c' := c + (v + v2) * (k2 - k) / 2) in *.
  assert (A : is_RInt (plv ((k, v) :: (k2, v2) :: r)) k k2 (c' - c)).
  { replace (c' - c) with ((v + v2) * (k2 - k) / 2) by (unfold c'; ring).
    apply (is_RInt_ext (fun t => lerp t (k, v) (k2, v2))); [|apply seg_integral; auto].
    intros t Ht. rewrite Rmin_left, Rmax_right in Ht by lra. unfold plv.
    rewrite (pl_seg _ [] k v k2 v2 r t Hs eq_refl) by lra. auto. }
  destruct H as [E|H].
  - injection E as <- <-. auto.
  - specialize (IH k2 v2 c' k' w (sorted_tail _ _ Hs) H).
    replace (w - c) with (plus (c' - c : R_NormedModule) (w - c' : R_NormedModule)) by (unfold plus; cbn; ring).
    apply (is_RInt_Chasles (plv ((k, v) :: (k2, v2) :: r)) k k2 k' (c' - c) (w - c')); auto.
    assert (k2 <= k').
    { assert (G : is_key r k') by (apply is_key_fst; rewrite <- (prim_keys r (Some (k2, v2)) c'); apply (in_map fst) in H; auto).
      destruct G as [u Hu]. apply Rlt_le, (sorted_head _ _ _ _ _ (sorted_tail _ _ Hs) Hu). }
    apply (is_RInt_ext (plv ((k2, v2) :: r))); auto. intros t Ht. rewrite Rmin_left in Ht by lra. unfold plv.
    rewrite (pl_cons k v). rewrite (proj2 (Reqb_false k t)) by lra. rewrite (proj2 (Rltb_false t k)) by lra.
    rewrite (proj2 (Rltb_false t k2)) by lra. auto.
Qed.

(** primitive(c) has the same sample times; at each of them its value is c plus the integral of the
    trajectory (of its linear interpolation) since its first sample. *)
Theorem C37_primitive c x k0 v0 r : traj_ok x -> t_map x = (k0, v0) :: r ->
  exists p, traj_primitive c x = Some p /\ map fst (t_map p) = map fst (t_map x) /\
    forall k, is_key (t_map x) k -> exists w, traj_at p k = Some w /\ is_RInt (val x) k0 k (w - c).
Proof.
  intros Hx E. destruct (primitive_def c x Hx) as (p & Ep & Mp & Op). exists p. split; auto. rewrite Mp. split; [apply prim_keys|].
  intros k Hk. pose proof Hx as (Hf & Hs & _).
  assert (Ep' : exists w, List.In (k, w) (prim_loop None c (t_map x))).
  { apply (proj2 (is_key_fst (prim_loop None c (t_map x)) k)). rewrite prim_keys. apply is_key_fst; auto. }
  destruct Ep' as [w Hw]. exists w. split; [rewrite traj_at_pl by auto; apply pl_key; [apply Op|rewrite Mp; auto]|].
  apply (is_RInt_ext (plv (t_map x))); [intros t _; unfold val, plv; rewrite traj_at_pl by auto; auto|].
  rewrite E in *. cbn [prim_loop] in Hw. destruct Hw as [Hw|Hw].
  - injection Hw as <- <-. replace (c - c) with (@zero R_NormedModule) by (unfold zero; cbn; ring). apply (is_RInt_point (plv ((k0, v0) :: r)) k0).
  - apply prim_integral; auto.
Qed.
Example C37_primitive_case : traj_ok (traj_map mE) /\ t_map (traj_map mE) = (0, 1) :: [(1, 3); (3, -1)].
Proof. split; [apply ok_map, mE_sorted|reflexivity]. Qed.

(** ** Finite differences *)

(** a polynomial given by its coefficients, lowest degree first *)
Fixpoint peval (p : list R) (t : R) : R := match p with [] => 0 | c :: q => c + t * peval q t end.
Fixpoint pderiv (p : list R) (t : R) : R := match p with [] => 0 | c :: q => peval q t + t * pderiv q t end.
Lemma pderiv_ok : forall p t, derivable_pt_lim (peval p) t (pderiv p t).
Proof.
  induction p as [|c q IH]; intros t; cbn [peval pderiv]; [apply derivable_pt_lim_const|].
  replace (peval q t + t * pderiv q t) with (0 + (1 * peval q t + t * pderiv q t)) by ring.
  apply (derivable_pt_lim_plus (fun _ => c) (fun t => t * peval q t)); [apply derivable_pt_lim_const|].
  apply (derivable_pt_lim_mult (fun t => t) (peval q)); auto. apply derivable_pt_lim_id.
Qed.

(** the samples of [p] at a, a+h, ..., a+(n-1)h *)
Definition psample (p : list R) (a h : R) (n : nat) : smap :=
  map (fun i => (a + INR i * h, peval p (a + INR i * h))) (seq 0 n).
(** the number of samples used before and after the i-th one, and the degree up to which the formula
    must be exact: twice the number for a central formula, the number for a one-sided one *)
Definition before (i : nat) : nat := Nat.min 4 i.
Definition after (n i : nat) : nat := Nat.min 4 (n - 1 - i).
Definition exact_degree (n i : nat) : nat :=
  if Nat.eqb (before i) (after n i) then 2 * before i else Nat.max (before i) (after n i).

Lemma around_spec p a h : 0 < h -> forall n j i acc, (i < n)%nat ->
  around acc (a + INR (j + i) * h) (map (fun i => (a + INR i * h, peval p (a + INR i * h))) (seq j n)) =
  Some (rev (map (fun i => peval p (a + INR i * h)) (seq j i)) ++ acc, peval p (a + INR (j + i) * h),
        map (fun i => peval p (a + INR i * h)) (seq (j + S i) (n - S i))).
Proof.
  intros Hh. induction n as [|n IH]; intros j i acc Hi; [lia|]. cbn [seq map around].
  destruct i as [|i].
  - rewrite Nat.add_0_r, Reqb_refl. cbn [seq map rev app]. do 3 f_equal. rewrite map_map. cbn [snd]. replace (j + 1)%nat with (S j) by lia. replace (S n - 1)%nat with n by lia. auto.
  - assert (Ne : Reqb (a + INR j * h) (a + INR (j + S i) * h) = false).
    { apply Reqb_false. rewrite plus_INR, S_INR. pose proof (pos_INR i). nra. }
    rewrite Ne. replace (j + S i)%nat with (S j + i)%nat by lia. rewrite IH by lia. cbn [seq map rev]. rewrite <- app_assoc. cbn [app].
    do 3 f_equal. replace (S j + S i)%nat with (j + S (S i))%nat by lia. replace (S n - S (S i))%nat with (n - S i)%nat by lia. auto.
Qed.
Lemma firstn_seq : forall n k j, firstn k (seq j n) = seq j (Nat.min k n).
Proof. induction n as [|n IH]; intros [|k] j; cbn; auto. rewrite IH. auto. Qed.
Lemma rev_seq_map (f : nat -> R) : forall i, rev (map f (seq 0 i)) = map (fun k => f (i - 1 - k)%nat) (seq 0 i).
Proof.
  induction i as [|i IH]; auto. rewrite (seq_S i 0) at 1. rewrite map_app, rev_app_distr. cbn [map rev app]. rewrite IH.
  cbn [seq map]. f_equal; [f_equal; lia|].
  rewrite <- seq_shift, map_map. apply map_ext_in. intros k Hk. apply in_seq in Hk. f_equal. lia.
Qed.

(** the formulas, for a polynomial and a step *)
Ltac deg_cases p :=
  destruct p as [|?c p]; [|destruct p as [|?c p]; [|destruct p as [|?c p]; [|destruct p as [|?c p]; [|destruct p as [|?c p]; [|
  destruct p as [|?c p]; [|destruct p as [|?c p]; [|destruct p as [|?c p]; [|destruct p as [|?c p]; [|destruct p as [|?c p]]]]]]]]]].
Lemma fd_exact p t h nb na : h <> 0 -> (nb <= 4)%nat -> (na <= 4)%nat -> (2 <= nb + na)%nat ->
  (length p <= S (if Nat.eqb nb na then 2 * nb else Nat.max nb na))%nat ->
  fd_formula (map (fun k => peval p (t - INR (S k) * h)) (seq 0 nb)) (peval p t) (map (fun k => peval p (t + INR (S k) * h)) (seq 0 na)) h
  = Some (pderiv p t).
Proof.
  intros Hh Hb Ha Hn Hd.
  destruct nb as [|[|[|[|[|nb]]]]]; try lia; destruct na as [|[|[|[|[|na]]]]]; try lia; cbn [Nat.eqb Nat.max Nat.mul Nat.add] in Hd;
    cbn [seq map fd_formula length Nat.eqb Nat.ltb Nat.leb]; f_equal;
    deg_cases p; try (cbn [length] in Hd; lia); cbn [peval pderiv INR]; field; auto.
Qed.

(** finite_diff at the i-th of n >= 3 samples of a polynomial of degree at most exact_degree, with a
    constant step, is the derivative of the polynomial there. *)
Theorem C37_finite_diff p a h n i : 0 < h -> (3 <= n)%nat -> (i < n)%nat -> (length p <= S (exact_degree n i))%nat ->
  exists d, finite_diff (psample p a h n) (a + INR i * h) h = Some d /\ derivable_pt_lim (peval p) (a + INR i * h) d.
Proof.
  intros Hh Hn Hi Hd. exists (pderiv p (a + INR i * h)). split; [|apply pderiv_ok].
  assert (E : finite_diff (psample p a h n) (a + INR i * h) h =
    match around [] (a + INR i * h) (psample p a h n) with
    | Some (bwd, x, fwd) => fd_formula (firstn 4 bwd) x (firstn 4 fwd) h | None => None end).
  { destruct n as [|[|[|n]]]; try lia. reflexivity. }
  rewrite E. unfold psample. pose proof (around_spec p a h Hh n 0 i [] Hi) as E'. cbn [Nat.add] in E'. rewrite E', app_nil_r. clear E E'.
  set (t := a + INR i * h) in *.
  assert (Eb : firstn 4 (rev (map (fun i => peval p (a + INR i * h)) (seq 0 i))) = map (fun k => peval p (t - INR (S k) * h)) (seq 0 (before i))).
  { rewrite rev_seq_map, firstn_map, firstn_seq. apply map_ext_in. intros k Hk. apply in_seq in Hk. unfold before in Hk. f_equal. unfold t.
    replace (i - 1 - k)%nat with (i - S k)%nat by lia. rewrite minus_INR by lia. ring. }
  assert (Ea : firstn 4 (map (fun i => peval p (a + INR i * h)) (seq (S i) (n - S i))) = map (fun k => peval p (t + INR (S k) * h)) (seq 0 (after n i))).
  { rewrite firstn_map, firstn_seq. unfold after. replace (n - 1 - i)%nat with (n - S i)%nat by lia.
    assert (G : forall l j, map (fun i => peval p (a + INR i * h)) (seq (j + S i) l) = map (fun k => peval p (t + INR (S k) * h)) (seq j l)).
    { induction l as [|l IH]; intros j; cbn [seq map]; auto. f_equal; [|apply (IH (S j))]. f_equal. unfold t. rewrite plus_INR, !S_INR. ring. }
    apply (G (Nat.min 4 (n - S i)) 0%nat). }
  rewrite Eb, Ea. apply fd_exact; unfold before, after in *; try lra; try lia. exact Hd.
Qed.

(** With a constant step and at least three samples, diff() gives the exact derivative of each
    polynomial of degree at most 2 at each sample. *)
Lemma psample_sorted p a h n j : 0 < h -> sorted (map (fun i => (a + INR i * h, peval p (a + INR i * h))) (seq j n)).
Proof.
  intros Hh. revert j. induction n as [|n IH]; intros j; cbn [seq map]; [exact I|]. split; [|apply IH].
  apply Forall_forall. intros q Hq. apply in_map_iff in Hq. destruct Hq as (k & <- & Hk). apply in_seq in Hk. cbn.
  assert (INR (S j) <= INR k) by (apply le_INR; lia). rewrite S_INR in H. nra.
Qed.
Lemma psample_steps p a h n : forall j, steps_are h (map (fun i => (a + INR i * h, peval p (a + INR i * h))) (seq j n)) = true.
Proof.
  induction n as [|n IH]; intros j; cbn [seq map steps_are]; auto. destruct n as [|n]; auto. cbn [seq map] in *.
  rewrite IH, andb_true_r. apply Reqb_true. rewrite S_INR. ring.
Qed.
Lemma diff_loop_spec m h (D : R -> R -> Prop) : forall l d, traj_ok d -> sorted l ->
  (forall k v k' v', List.In (k, v) (t_map d) -> List.In (k', v') l -> k < k') ->
  (forall k v, List.In (k, v) l -> exists w, finite_diff m k h = Some w /\ D k w) ->
  (forall k v, List.In (k, v) (t_map d) -> D k v) ->
  exists d', diff_loop m h l d = Some d' /\ traj_ok d' /\ map fst (t_map d') = map fst (t_map d) ++ map fst l /\
    forall k v, List.In (k, v) (t_map d') -> D k v.
Proof.
  induction l as [|[k v] l IH]; intros d Hd Hs Hlt Hl HD; cbn [diff_loop].
  - exists d. rewrite app_nil_r. auto.
  - destruct (Hl k v (or_introl eq_refl)) as (w & -> & Hw). destruct (set_def w k d Hd) as [d1 E1]. rewrite E1.
    assert (M1 : t_map d1 = t_map d ++ [(k, w)]).
    { rewrite (set_map _ _ _ _ E1). apply put_last. apply Forall_forall. intros [a va] Ha. cbn. apply (Hlt a va k v); auto. left; auto. }
    destruct (IH d1) as (d' & E' & O' & K' & V').
    + apply (ok_set _ _ _ _ Hd E1).
    + apply (sorted_tail _ _ Hs).
    + rewrite M1. intros b vb c vc Hb Hc. apply in_app_or in Hb. destruct Hb as [Hb|[Hb|[]]].
      * apply (Hlt b vb c vc); auto. right; auto.
      * injection Hb as <- <-. apply (sorted_head _ _ _ _ _ Hs Hc).
    + intros; eapply Hl. right; eauto.
    + rewrite M1. intros b vb Hb. apply in_app_or in Hb. destruct Hb as [Hb|[Hb|[]]]; auto. injection Hb as <- <-. auto.
    + exists d'. split; auto. split; auto. split; auto. rewrite K', M1, map_app, <- app_assoc. auto.
Qed.
Lemma exact_degree_ge n i : (3 <= n)%nat -> (i < n)%nat -> (2 <= exact_degree n i)%nat.
Proof. intros Hn Hi. unfold exact_degree, before, after. destruct (Nat.eqb_spec (Nat.min 4 i) (Nat.min 4 (n - 1 - i))); lia. Qed.

Theorem C37_diff p a h n : 0 < h -> (3 <= n)%nat -> (length p <= 3)%nat -> exists d, traj_diff (traj_map (psample p a h n)) = Some d /\ traj_ok d /\
  forall i, (i < n)%nat -> exists w, traj_at d (a + INR i * h) = Some w /\ derivable_pt_lim (peval p) (a + INR i * h) w.
Proof.
  intros Hh Hn Hp.
  assert (Hs : sorted (psample p a h n)) by (apply psample_sorted; auto).
  assert (Em : t_map (traj_map (psample p a h n)) = psample p a h n) by (destruct (psample p a h n) as [|[? ?] ?]; auto).
  assert (Ef : t_fun (traj_map (psample p a h n)) = None) by (destruct (psample p a h n) as [|[? ?] ?]; auto).
  assert (Ec : constant_timestep (psample p a h n) = Some (true, h)).
  { pose proof (psample_steps p a h n 0) as Hst. unfold psample in *. destruct n as [|[|[|n]]]; try lia. cbn [seq map constant_timestep] in *.
    replace (a + INR 1 * h - (a + INR 0 * h)) with h by (cbn; ring). rewrite Hst. auto. }
  unfold traj_diff. rewrite Ef, Em, Ec.
  destruct (diff_loop_spec (psample p a h n) h (fun k w => derivable_pt_lim (peval p) k w) (psample p a h n) traj_new) as (d & Ed & Od & Kd & Vd).
  - apply ok_new.
  - auto.
  - intros ? ? ? ? [].
  - intros k v Hk. unfold psample in Hk. apply in_map_iff in Hk. destruct Hk as (i & E & Hi). apply in_seq in Hi. injection E as <- <-.
    apply C37_finite_diff; auto; [lia|]. pose proof (exact_degree_ge n i Hn). lia.
  - intros ? ? [].
  - exists d. split; auto. split; auto. intros i Hi.
    assert (Hk : is_key (t_map d) (a + INR i * h)).
    { apply is_key_fst. rewrite Kd. cbn [traj_new t_map map app]. apply in_map_iff. exists (a + INR i * h, peval p (a + INR i * h)). split; auto.
      unfold psample. apply in_map_iff. exists i. split; auto. apply in_seq. lia. }
    destruct Hk as [w Hw]. exists w. split; [rewrite traj_at_pl by auto; apply pl_key; auto; apply Od|]. apply (Vd _ _ Hw).
Qed.
Example C37_case : (3 <= 6)%nat /\ (2 < 6)%nat /\ exact_degree 6 2 = 3%nat /\ exact_degree 9 4 = 8%nat /\ (length [1; 2; 3; 4] <= S (exact_degree 6 2))%nat.
Proof. unfold exact_degree, before, after. cbn. repeat split; lia. Qed.

(** With samples that are not regularly spaced, diff() is not exact even on x(t) = t: with the samples at
    0, 1 and 5/2 it resamples with the first step, the last value being duplicated beyond the end; the
    value at time 0 is 5/6. *)
Lemma up_nat r n : IZR (Z.of_nat n) <= r < IZR (Z.of_nat n) + 1 -> Z.to_nat (up r) = S n.
Proof.
  intros H. assert (E : up r = Z.of_nat (S n)); [|rewrite E, Nat2Z.id; auto].
  symmetry. apply tech_up; rewrite Nat2Z.inj_succ, succ_IZR; lra.
Qed.
Theorem C37_diff_refuted : exists x d, traj_ok x /\ (forall t, In t (t_dom x) -> traj_at x t = Some t) /\ In 0 (t_dom x) /\
  traj_diff x = Some d /\ traj_at d 0 = Some (5/6).
Proof.
  set (m := [(0, 0); (1, 1); (5/2, 5/2)]). assert (Sm : sorted m) by (repeat split; repeat (constructor; cbn; try lra)).
  pose proof (ok_map m Sm) as Ox. set (x := traj_map m) in *.
  assert (Ed : t_dom x = I2 0 (5/2)) by (unfold x, m; cbn; unfold bnd, mk; reval; auto).
  assert (Hid : forall t, 0 <= t <= 5/2 -> traj_at x t = Some t).
  { intros t Ht. rewrite traj_at_pl by auto. change (t_map x) with m. destruct (Rle_dec t 1).
    - rewrite (pl_seg m [] 0 0 1 1 [(5/2, 5/2)] t Sm eq_refl) by lra. unfold lerp; cbn; f_equal; field.
    - rewrite (pl_seg m [(0,0)] 1 1 (5/2) (5/2) [] t Sm eq_refl) by lra. unfold lerp; cbn; f_equal; field. }
  assert (Hsteps : constant_timestep m = Some (false, 1)).
  { unfold constant_timestep, m. cbn [steps_are]. rewrite (Reqb_t (0 + (1 - 0)) 1), (Reqb_f (1 + (1 - 0)) (5/2)) by lra. cbn. do 2 f_equal. lra. }
  (* the resampled trajectory *)
  set (mc := [(0, 0); (1, 1); (2, 2); (3, 5/2)]). assert (Smc : sorted mc) by (repeat split; repeat (constructor; cbn; try lra)).
  assert (Hres : exists dc, resample_loop (S (Z.to_nat (up ((5/2 + 1 - 0) / 1)))) x 0 (5/2) 1 traj_new = Some dc /\ t_map dc = mc).
  { rewrite (up_nat _ 3) by (cbn; lra).
    destruct (set_def 0 0 traj_new ok_new) as [d1 E1]. pose proof (ok_set _ _ _ _ ok_new E1) as O1. assert (M1 : t_map d1 = [(0, 0)]) by (rewrite (set_map _ _ _ _ E1); reflexivity).
    destruct (set_def 1 1 d1 O1) as [d2 E2]. pose proof (ok_set _ _ _ _ O1 E2) as O2. assert (M2 : t_map d2 = [(0, 0); (1, 1)]) by (rewrite (set_map _ _ _ _ E2), M1; cbn; reval; auto).
    destruct (set_def 2 2 d2 O2) as [d3 E3]. pose proof (ok_set _ _ _ _ O2 E3) as O3. assert (M3 : t_map d3 = [(0, 0); (1, 1); (2, 2)]) by (rewrite (set_map _ _ _ _ E3), M2; cbn; reval; auto).
    destruct (set_def (5/2) 3 d3 O3) as [d4 E4]. pose proof (ok_set _ _ _ _ O3 E4) as O4. assert (M4 : t_map d4 = mc) by (rewrite (set_map _ _ _ _ E4), M3; cbn; reval; auto).
    cbn [resample_loop]. rewrite (Rltb_t 0 (5/2 + 1)) by lra. rewrite (Rmin_right (5/2) 0) by lra. rewrite Hid by lra. rewrite E1.
    replace (0 + 1) with 1 by ring. rewrite (Rltb_t 1 (5/2 + 1)) by lra. rewrite (Rmin_right (5/2) 1) by lra. rewrite Hid by lra. rewrite E2.
    replace (1 + 1) with 2 by ring. rewrite (Rltb_t 2 (5/2 + 1)) by lra. rewrite (Rmin_right (5/2) 2) by lra. rewrite Hid by lra. rewrite E3.
    replace (2 + 1) with 3 by ring. rewrite (Rltb_t 3 (5/2 + 1)) by lra. rewrite (Rmin_left (5/2) 3) by lra. rewrite Hid by lra. rewrite E4.
    replace (3 + 1) with 4 by ring. rewrite (Rltb_f 4 (5/2 + 1)) by lra. exists d4. auto. }
  destruct Hres as (dc & Hres & Mdc).
  assert (Hc2 : constant_timestep mc = Some (true, 1)).
  { unfold constant_timestep, mc. cbn [steps_are]. rewrite (Reqb_t (0 + (1 - 0)) 1), (Reqb_t (1 + (1 - 0)) 2), (Reqb_t (2 + (1 - 0)) 3) by lra. cbn. do 2 f_equal. lra. }
  destruct (diff_loop_spec mc 1 (fun k w => finite_diff mc k 1 = Some w) mc traj_new) as (d & Hd & Od & Kd & Vd).
  { apply ok_new. } { auto. } { intros ? ? ? ? []. }
  { intros k v Hk. assert (G : forall k v, List.In (k, v) mc -> exists w, finite_diff mc k 1 = Some w); [|destruct (G k v Hk); eauto].
    clear. intros k v Hk. unfold mc in Hk. cbn in Hk. unfold finite_diff, mc.
    destruct Hk as [E|[E|[E|[E|[]]]]]; injection E as <- <-; cbn [around map snd].
    - rewrite (Reqb_t 0 0) by lra. cbn. eauto.
    - rewrite (Reqb_f 0 1), (Reqb_t 1 1) by lra. cbn. eauto.
    - rewrite (Reqb_f 0 2), (Reqb_f 1 2), (Reqb_t 2 2) by lra. cbn. eauto.
    - rewrite (Reqb_f 0 3), (Reqb_f 1 3), (Reqb_f 2 3), (Reqb_t 3 3) by lra. cbn. eauto. }
  { intros ? ? []. }
  assert (D0 : traj_at d 0 = Some (5/6)).
  { assert (Hk : is_key (t_map d) 0) by (apply is_key_fst; rewrite Kd; left; auto). destruct Hk as [w Hw].
    rewrite traj_at_pl by auto. rewrite (pl_key _ _ _ (proj1 (proj2 Od)) Hw). apply Vd in Hw. rewrite <- Hw.
    unfold finite_diff, mc. cbn [around map snd]. rewrite (Reqb_t 0 0) by lra. cbn. f_equal. field. }
  assert (Dd : forall t, 0 <= t <= 3 -> In t (t_dom d)).
  { intros t Ht. destruct Od as (_ & _ & (_ & A & _) & _). apply (In_convex 0 t 3); auto; apply A; apply is_key_fst; rewrite Kd; cbn; auto. }
  assert (Htr : exists d', traj_truncate 0 (5/2) d = Some d').
  { unfold traj_truncate. assert (Hs : is_superset (t_dom d) (bnd 0 (5/2)) = true).
    { apply sub_is_subset; [apply wf_mk|]. intros t Ht. apply In_bnd in Ht. apply Dd. lra. }
    rewrite Hs, (Rltb_t 0 (5/2)) by lra. cbn [andb]. pose proof Od as (-> & _). rewrite !traj_at_pl by auto.
    destruct (proj1 (dom_contains d 0 Od)) as [u ->]; [apply Dd; lra|]. destruct (proj1 (dom_contains d (5/2) Od)) as [w ->]; [apply Dd; lra|]. eauto. }
  destruct Htr as [d' Htr]. exists x, d'. split; auto. split; [|split; [|split]].
  - intros t Ht. rewrite Ed in Ht. cbn in Ht. apply Hid. auto.
  - rewrite Ed. cbn. lra.
  - unfold traj_diff. change (t_fun x) with (@None tfun). change (t_map x) with m. rewrite Hsteps, Ed. unfold I2. rewrite Hres, Mdc, Hc2, Hd. auto.
  - pose proof (C61_values d Od) as (_ & _ & T & _). destruct (T _ _ _ Htr) as [_ T']. rewrite T' by lra. auto.
Qed.

Print Assumptions C37_primitive.
Print Assumptions C37_finite_diff.
Print Assumptions C37_diff.
Print Assumptions C37_diff_refuted.
