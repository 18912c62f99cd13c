(** * Facts about [CtcEval] *)
From Coq Require Import Reals Lra Bool List Arith Lia.
From Verif Require Import Itv Arith Tube TubeSpec TubeFacts TubeOps TubeOpsFacts TubeOpsFacts2
  TubeQueries TubeQueries2 TubeCtc DynSpec CtcDeriv CtcDerivFacts CtcEval.
Import ListNotations.
Open Scope R_scope.
Local Arguments Nat.eqb : simpl never.
Local Arguments seq : simpl never.

(** What is expected of the intersection of a slice's polygon with a box: no point of a feasible
    trajectory is lost. *)
Definition pint_ok (pint : slice -> slice -> itv -> itv -> itv * itv) : Prop :=
  forall s sv f T Y t, slice_ok s -> wf (s_cod sv) -> slice_has s f -> rises f (s_cod sv) (s_lb s) (s_ub s) ->
    In t T -> s_lb s <= t <= s_ub s -> In (f t) Y ->
    In t (fst (pint s sv T Y)) /\ In (f t) (snd (pint s sv T Y)).
(** the box itself meets it *)
Definition pint_box (s sv : slice) (T Y : itv) : itv * itv := (T, Y).
Lemma pint_box_ok : pint_ok pint_box.
Proof. intros s sv f T Y t _ _ _ _ H1 _ H2. split; auto. Qed.

Lemma pt_of_degenerated i t : is_degenerated i = true -> In t i -> i = pt t.
Proof.
  destruct i as [|[l|] [h|]]; simpl; try discriminate; try tauto. intros E [H1 H2]. apply Reqb_true in E.
  unfold pt. f_equal; f_equal; lra.
Qed.

Lemma bnd_eq a b : a <= b -> bnd a b = Itv (Some a) (Some b).
Proof. intros H. unfold bnd, mk. destruct (Rle_dec a b); auto; lra. Qed.

Lemma slice_interpol_in c s sv f T t : arith_ok (e_arith c) -> pint_ok (e_pint c) -> slice_ok s -> wf (s_cod sv) -> s_lb s < s_ub s ->
  slice_has s f -> rises f (s_cod sv) (s_lb s) (s_ub s) -> In t T -> s_lb s <= t <= s_ub s ->
  In (f t) (slice_interpol c s sv T).
Proof.
  intros HA HP Ok Wv Hlt H Hr HT Ht. unfold slice_interpol. pose proof (slice_has_closed s f Ok H) as Hc.
  destruct (_ || _); [apply In_ALL|]. destruct (is_subset _ _) eqn:Es; [auto|].
  destruct (is_degenerated T) eqn:Ed.
  - rewrite (pt_of_degenerated T t Ed HT) in *. destruct H as (F1 & F2 & F3). apply In_inter. split.
    + destruct (Req_EM_T t (s_ub s)) as [->|n].
      * destruct (rises_step f _ _ _ (s_lb s) (s_ub s) Hr) as (p & P1 & P2); try lra.
        replace (f (s_ub s)) with (f (s_ub s) - (s_ub s - s_ub s) * p) at 1 by ring.
        apply (isub_in _ HA); auto. apply (imul_in _ HA); auto. apply (isub_in _ HA); (apply In_pt; reflexivity).
      * destruct (rises_step f _ _ _ t (s_ub s) Hr) as (p & P1 & P2); try lra.
        replace (f t) with (f (s_ub s) - (s_ub s - t) * p) by lra.
        apply (isub_in _ HA); auto. apply (imul_in _ HA); auto. apply (isub_in _ HA); (apply In_pt; reflexivity).
    + destruct (Req_EM_T t (s_lb s)) as [->|n].
      * destruct (rises_step f _ _ _ (s_lb s) (s_ub s) Hr) as (p & P1 & P2); try lra.
        replace (f (s_lb s)) with (f (s_lb s) + (s_lb s - s_lb s) * p) at 1 by ring.
        apply (iadd_in _ HA); auto. apply (imul_in _ HA); auto. apply (isub_in _ HA); (apply In_pt; reflexivity).
      * destruct (rises_step f _ _ _ (s_lb s) t Hr) as (p & P1 & P2); try lra.
        replace (f t) with (f (s_lb s) + (t - s_lb s) * p) by lra.
        apply (iadd_in _ HA); auto. apply (imul_in _ HA); auto. apply (isub_in _ HA); (apply In_pt; reflexivity).
  - apply (HP s sv f (inter (s_dom s) T) (s_cod s) t); auto. apply In_inter. split; auto.
Qed.

Lemma slice_invert_v_in c s sv f y search t : pint_ok (e_pint c) -> slice_ok s -> wf (s_cod sv) -> slice_has s f ->
  rises f (s_cod sv) (s_lb s) (s_ub s) ->
  In t search -> s_lb s <= t <= s_ub s -> sub search (s_dom s) -> In (f t) y ->
  In t (slice_invert_v c s sv y search).
Proof.
  intros HP Ok Wv H Hr Ht Hs Hsub Hy. unfold slice_invert_v.
  pose proof (slice_has_closed s f Ok H) as Hc. pose proof H as (F1 & F2 & F3).
  destruct (is_empty search) eqn:E0. { apply is_empty_true in E0; subst; destruct Ht. }
  destruct (lb_lt search (s_lb s) || ub_gt search (s_ub s)); [apply In_ALL|].
  destruct (itv_eqb (inter (s_dom s) search) (s_dom s) && is_subset (s_cod s) y); [simpl; lra|].
  destruct (itv_eqb search (pt (s_lb s))) eqn:E1.
  { apply itv_eqb_true in E1; subst. apply In_pt in Ht; subst.
    replace (intersects y (s_in s)) with true; [apply In_pt; auto|]. symmetry. apply intersects_spec. eauto. }
  destruct (itv_eqb search (pt (s_ub s))) eqn:E2.
  { apply itv_eqb_true in E2; subst. apply In_pt in Ht; subst.
    replace (intersects y (s_out s)) with true; [apply In_pt; auto|]. symmetry. apply intersects_spec. eauto. }
  destruct (itv_eqb (s_cod sv) ALL).
  - replace (intersects y (s_cod s)) with true.
    + apply In_inter. split; [exact Ht|simpl; lra].
    + symmetry. apply intersects_spec. exists (f t). split; auto.
  - apply (HP s sv f search y t); auto.
Qed.

(** ** loops over the slices of two tubes *)
Lemma pick a b x u v t : tube_ok a b x -> a <= u -> u <= v -> v <= b -> u <= t <= v ->
  (u < v \/ forall s, List.In s x -> s_lb s <> u) ->
  exists k s, nth_error x k = Some s /\ (time_to_index u x <= k)%nat /\ s_lb s < v /\ s_lb s <= t <= s_ub s.
Proof.
  intros H Ha Huv Hb Ht Hd.
  destruct (cover x a b t H) as (k & s & E & B); [lra|].
  destruct (Rle_dec (s_ub s) u) as [Hu|Hu].
  - (* t = u is the end of this slice *)
    assert (t = u) by lra. subst t. assert (s_ub s = u) as Eu by lra.
    destruct (idx_spec x a b u) as (s' & E' & B' & _); try apply H; try lra.
    exists (time_to_index u x), s'. repeat split; try lra; auto.
    destruct Hd as [Hd|Hd]; [|specialize (Hd _ (nth_error_In _ _ E')); lra].
    destruct (Req_EM_T (s_lb s') v); [|]; lra.
  - destruct (Rlt_dec (s_lb s) v) as [Hl|Hl].
    + exists k, s. repeat split; auto; try lra. apply (idx_le x u k s); auto; lra.
    + assert (s_lb s = t /\ t = v) as [E1 E2] by lra.
      destruct Hd as [Hd|Hd].
      * destruct k as [|k].
        { destruct x as [|q r]; [discriminate|]. injection E as ->. pose proof (ok_chain _ _ _ H) as Hch. simpl in Hch. lra. }
        assert (exists q, nth_error x k = Some q) as [q Eq].
        { destruct (nth_error x k) eqn:Eq; eauto. apply nth_error_None in Eq.
          assert (nth_error x (S k) <> None) as N by congruence. apply nth_error_Some in N. lia. }
        pose proof (chain_from_nth x a b k q s (ok_chain _ _ _ H) Eq E) as Hq.
        destruct (chain_in_bounds _ _ _ _ (ok_chain _ _ _ H) (nth_error_In _ _ Eq)) as (G1 & G2 & G3).
        exists k, q. repeat split; auto; try lra. apply (idx_le x u k q); auto; lra.
      * assert (u = v \/ u < v) as [Eu|Eu] by lra.
        { specialize (Hd _ (nth_error_In _ _ E)). lra. }
        { destruct k as [|k].
          { destruct x as [|q r]; [discriminate|]. injection E as ->. pose proof (ok_chain _ _ _ H) as Hch. simpl in Hch. lra. }
          assert (exists q, nth_error x k = Some q) as [q Eq].
          { destruct (nth_error x k) eqn:Eq; eauto. apply nth_error_None in Eq.
            assert (nth_error x (S k) <> None) as N by congruence. apply nth_error_Some in N. lia. }
          pose proof (chain_from_nth x a b k q s (ok_chain _ _ _ H) Eq E) as Hq.
          destruct (chain_in_bounds _ _ _ _ (ok_chain _ _ _ H) (nth_error_In _ _ Eq)) as (G1 & G2 & G3).
          exists k, q. repeat split; auto; try lra. apply (idx_le x u k q); auto; lra. }
Qed.

Lemma idx_dom t : forall x y, map dom x = map dom y -> time_to_index t x = time_to_index t y.
Proof.
  induction x as [|s x IH]; destruct y as [|q y]; simpl; intros H; try discriminate; auto.
  injection H as H1 H2 H3. rewrite H2. destruct (Rltb t (s_ub q)); auto.
  destruct x, y; try discriminate; auto.
Qed.

Lemma interpol_loop_in c a b w : forall x v k s sv,
  (forall j s', (j <= k)%nat -> nth_error x j = Some s' -> s_lb s' < b) ->
  nth_error x k = Some s -> nth_error v k = Some sv ->
  In w (slice_interpol c s sv (inter (bnd a b) (s_dom s))) -> In w (interpol_loop c x v a b).
Proof.
  induction x as [|s0 r IH]; intros v k s sv Hlt E Ev Hw; [destruct k; discriminate|].
  destruct v as [|sv0 rv]; [destruct k; discriminate|]. simpl.
  rewrite (proj2 (Rltb_true (s_lb s0) b)) by (apply (Hlt 0%nat); auto; lia).
  destruct k; simpl in E, Ev.
  - injection E as ->. injection Ev as ->. apply In_hull_l; auto.
  - apply In_hull_r. apply (IH rv k s sv); auto. intros j s' Hj Ej. apply (Hlt (S j)); auto. lia.
Qed.
Lemma invert_v_loop_in c y a b w : forall x v k s sv,
  (forall j s', (j <= k)%nat -> nth_error x j = Some s' -> s_lb s' < b) ->
  nth_error x k = Some s -> nth_error v k = Some sv ->
  In w (slice_invert_v c s sv y (inter (bnd a b) (s_dom s))) -> In w (invert_v_loop c x v y a b).
Proof.
  induction x as [|s0 r IH]; intros v k s sv Hlt E Ev Hw; [destruct k; discriminate|].
  destruct v as [|sv0 rv]; [destruct k; discriminate|]. simpl.
  rewrite (proj2 (Rltb_true (s_lb s0) b)) by (apply (Hlt 0%nat); auto; lia).
  destruct k; simpl in E, Ev.
  - injection E as ->. injection Ev as ->. apply In_hull_l; auto.
  - apply In_hull_r. apply (IH rv k s sv); auto. intros j s' Hj Ej. apply (Hlt (S j)); auto. lia.
Qed.

Lemma chain_lb_mono x a b j k s' s : tube_ok a b x -> nth_error x j = Some s' -> nth_error x k = Some s -> (j <= k)%nat -> s_lb s' <= s_lb s.
Proof.
  intros H E' E Hj. destruct (Nat.eq_dec j k) as [->|n]; [rewrite E in E'; injection E' as ->; lra|].
  pose proof (chain_order x a b j k s' s (ok_chain _ _ _ H) E' E ltac:(lia)).
  destruct (chain_in_bounds _ _ _ _ (ok_chain _ _ _ H) (nth_error_In _ _ E')). lra.
Qed.

(** the solution: [f] in [y], [g] in [w], [g] the derivative of [f] *)
Definition esol (a b : R) (y w : tube) (f g : R -> R) : Prop :=
  tube_ok a b y /\ tube_ok a b w /\ map dom y = map dom w /\ has y f /\ has w g /\ follows a b f g.

Lemma esol_slice a b y w f g k s sw : esol a b y w f g -> nth_error y k = Some s -> nth_error w k = Some sw ->
  slice_ok s /\ slice_has s f /\ wf (s_cod sw) /\ s_lb s < s_ub s /\ rises f (s_cod sw) (s_lb s) (s_ub s) /\
  s_lb sw = s_lb s /\ s_ub sw = s_ub s.
Proof.
  intros (Hy & Hw & D & Hf & Hg & HF) E Ew. pose proof (nth_error_In _ _ E) as Hin. pose proof (nth_error_In _ _ Ew) as Hinw.
  destruct (chain_in_bounds _ _ _ _ (ok_chain _ _ _ Hy) Hin) as (B1 & B2 & B3).
  destruct (dom_nth y w k s sw D E Ew) as [L U].
  repeat match goal with |- _ /\ _ => split end; auto; try lra.
  - exact (ok_in _ _ _ _ Hy Hin).
  - exact (proj1 (ok_in _ _ _ _ Hw Hinw)).
  - apply HF; auto. intros t Ht. apply (Hg _ Hinw). lra.
Qed.

Theorem interpol_in c a b y w f g u v t : arith_ok (e_arith c) -> pint_ok (e_pint c) -> esol a b y w f g ->
  a <= u -> u <= v -> v <= b -> u <= t <= v -> (u < v \/ forall s, List.In s y -> s_lb s <> u) ->
  In (f t) (interpol c y w u v).
Proof.
  intros HA HP HS Ha Huv Hb Ht Hd. pose proof HS as (Hy & Hw & D & _). unfold interpol.
  destruct (pick a b y u v t Hy Ha Huv Hb Ht Hd) as (k & s & E & Hk & Hl & B).
  destruct (nth_dom y w k s D E) as (sw & Ew & _).
  destruct (esol_slice a b y w f g k s sw HS E Ew) as (Ok & Hs & Wv & Hlt & Hr & _).
  rewrite <- (idx_dom u y w D).
  apply (interpol_loop_in c u v (f t) _ _ (k - time_to_index u y)%nat s sw).
  - intros j s' Hj Ej. rewrite nth_error_skipn' in Ej.
    pose proof (chain_lb_mono y a b _ k s' s Hy Ej E ltac:(lia)). lra.
  - rewrite nth_error_skipn'. replace (time_to_index u y + (k - time_to_index u y))%nat with k by lia. auto.
  - rewrite nth_error_skipn'. replace (time_to_index u y + (k - time_to_index u y))%nat with k by lia. auto.
  - apply slice_interpol_in; auto. apply In_inter. split; [apply In_bnd; lra|simpl; lra].
Qed.
Theorem invert_v_in c a b y w f g z u v t : pint_ok (e_pint c) -> esol a b y w f g ->
  u <= v -> u <= t <= v -> (u < v \/ forall s, List.In s y -> s_lb s <> u) -> In (f t) z ->
  In t (invert_v c y w z (bnd u v)).
Proof.
  intros HP HS Huv Ht Hd Hz. pose proof HS as (Hy & Hw & D & _). unfold invert_v. rewrite bnd_eq by auto.
  rewrite (chain_t0 y a b), (chain_tf y a b) by apply Hy.
  destruct (Rltb u a) eqn:E1; [apply In_ALL|]. destruct (Rltb b v) eqn:E2; [apply In_ALL|]. simpl.
  apply Rltb_false in E1. apply Rltb_false in E2.
  destruct (pick a b y u v t Hy E1 Huv E2 Ht Hd) as (k & s & E & Hk & Hl & B).
  destruct (nth_dom y w k s D E) as (sw & Ew & _).
  destruct (esol_slice a b y w f g k s sw HS E Ew) as (Ok & Hs & Wv & Hlt & Hr & _).
  rewrite <- (idx_dom u y w D).
  apply (invert_v_loop_in c z u v t _ _ (k - time_to_index u y)%nat s sw).
  - intros j s' Hj Ej. rewrite nth_error_skipn' in Ej.
    pose proof (chain_lb_mono y a b _ k s' s Hy Ej E ltac:(lia)). lra.
  - rewrite nth_error_skipn'. replace (time_to_index u y + (k - time_to_index u y))%nat with k by lia. auto.
  - rewrite nth_error_skipn'. replace (time_to_index u y + (k - time_to_index u y))%nat with k by lia. auto.
  - apply slice_invert_v_in with (f := f); auto.
    + apply In_inter. split; [apply In_bnd; lra|simpl; lra].
    + apply sub_inter_r.
Qed.
Theorem interpol_t_in c a b y w f g t : arith_ok (e_arith c) -> pint_ok (e_pint c) -> esol a b y w f g -> a <= t <= b ->
  In (f t) (interpol_t c y w t).
Proof.
  intros HA HP HS Ht. pose proof HS as (Hy & Hw & D & Hf & _). unfold interpol_t.
  destruct (idx_spec y a b t) as (s & E & B & _); try apply Hy; auto. rewrite E.
  destruct (Reqb (s_lb s) t || Reqb (s_ub s) t) eqn:Eg.
  - rewrite <- (eval_t_slice a b y (time_to_index t y) s t) by auto. eapply eval_t_in; eauto.
  - apply orb_false_elim in Eg. destruct Eg as [G1 G2]. apply Reqb_false in G1. apply Reqb_false in G2.
    apply (interpol_in c a b y w f g t t t); auto; try lra. right. intros s' Hs' Hc.
    apply In_nth_error in Hs'. destruct Hs' as [k Ek].
    pose proof (nth_error_In _ _ Ek) as Hin. destruct (chain_in_bounds _ _ _ _ (ok_chain _ _ _ Hy) Hin) as (C1 & C2 & C3).
    assert (time_to_index t y <= k)%nat by (apply (idx_le y t k s'); auto; lra).
    assert (k <= time_to_index t y)%nat by (apply (idx_ge y a b t k s'); auto; try apply Hy; lra).
    assert (k = time_to_index t y) by lia. subst k. rewrite E in Ek. injection Ek as ->. lra.
Qed.

(** ** operations that keep the solution *)
Lemma chain_rest_dom s r : dom (fst (chain_rest s r)) = dom s /\ map dom (snd (chain_rest s r)) = map dom r.
Proof. destruct r; simpl; auto. Qed.
Lemma sample_slice_dom t s q r r' : dom s = dom q -> map dom r = map dom r' ->
  map dom (sample_slice t s r) = map dom (sample_slice t q r').
Proof.
  intros H Hr. assert (s_lb s = s_lb q /\ s_ub s = s_ub q) as [L U] by (unfold dom in H; split; congruence).
  unfold sample_slice. rewrite L, U. destruct (_ || _); [simpl; congruence|].
  pose proof (chain_rest_dom (set_dom t (s_ub q) s) r) as [C1 C2].
  pose proof (chain_rest_dom (set_dom t (s_ub q) q) r') as [C3 C4].
  destruct (chain_rest _ r) as [n1 r1]. destruct (chain_rest _ r') as [n2 r2]. cbn [fst snd] in *.
  cbn [map]. unfold dom in *. cbn in *. congruence.
Qed.
Lemma sample_dom t : forall x y, map dom x = map dom y -> map dom (sample t x) = map dom (sample t y).
Proof.
  induction x as [|s x IH]; destruct y as [|q y]; intros H; try discriminate; auto.
  cbn [map] in H. assert (dom s = dom q) as Hd by congruence. assert (map dom x = map dom y) as Hr by congruence.
  cbn [sample]. assert (s_ub s = s_ub q) as -> by (unfold dom in Hd; congruence).
  destruct (Rltb t (s_ub q)); [apply sample_slice_dom; auto|].
  destruct x as [|s1 x]; destruct y as [|q1 y]; try discriminate; [apply sample_slice_dom; auto|].
  cbn [map]. cbn [map] in IH, Hr. rewrite (IH (q1 :: y)) by auto. congruence.
Qed.
Lemma tube_set_at_dom z t x : map dom (tube_set_at z t x) = map dom (sample t x).
Proof.
  unfold tube_set_at, sample_gate. destruct (nth_error _ _); auto. destruct (Reqb _ _); [apply set_input_gate_dom|apply set_output_gate_dom].
Qed.
Lemma merge_at_dom a b k : forall x y, tube_ok a b x -> tube_ok a b y -> map dom x = map dom y ->
  map dom (merge_at k x) = map dom (merge_at k y).
Proof.
  intros x y Hx Hy D. 
  destruct (nth_error x k) as [s1|] eqn:E1.
  2:{ unfold merge_at. rewrite E1. assert (nth_error y k = None) as ->; auto.
      apply nth_error_None. rewrite <- (length_dom x y D). apply nth_error_None; auto. }
  destruct (nth_dom x y k s1 D E1) as (q1 & F1 & L1 & U1).
  destruct (nth_error x (S k)) as [s2|] eqn:E2.
  2:{ unfold merge_at. rewrite E1, E2, F1. assert (nth_error y (S k) = None) as ->; auto.
      apply nth_error_None. rewrite <- (length_dom x y D). apply nth_error_None; auto. }
  destruct (nth_dom x y (S k) s2 D E2) as (q2 & F2 & L2 & U2).
  destruct (merge_at_shape a b x k s1 s2 Hx E1 E2) as (l1 & l2 & -> & Hl & ->).
  destruct (merge_at_shape a b y k q1 q2 Hy F1 F2) as (m1 & m2 & -> & Hm & ->).
  rewrite !map_app in *. cbn [map] in *.
  assert (map dom l1 = map dom m1 /\ map dom l2 = map dom m2) as [-> ->].
  { clear - D Hl Hm. rewrite <- Hl in Hm. clear Hl. revert m1 Hm D. induction l1 as [|c l1 IH]; destruct m1 as [|d m1]; simpl; intros Hm D; try discriminate.
    - split; congruence.
    - injection Hm as Hm. injection D as D1 D2 D. destruct (IH m1 Hm D) as [I1 I2]. split; [|auto]. unfold dom at 1 3. congruence. }
  unfold merged, dom. cbn. congruence.
Qed.
Lemma remove_gate_dom a b t x y : tube_ok a b x -> tube_ok a b y -> map dom x = map dom y -> map dom (remove_gate t x) = map dom (remove_gate t y).
Proof.
  intros Hx Hy D. unfold remove_gate. rewrite (idx_dom t x y D). destruct (time_to_index t y); auto. eapply merge_at_dom; eauto.
Qed.

Definition bounded_on (a b : R) (f : R -> R) := forall t, a <= t <= b -> - binf <= f t <= binf.

Lemma esol_deriv_tube A a b rt y w f g : arith_ok A -> bounded_on a b f -> esol a b y w f g -> esol a b (deriv_tube A rt true true w y) w f g.
Proof.
  intros HA HB HS. pose proof HS as (Hy & Hw & D & Hf & Hg & HF). destruct (deriv_tube_ok A a b rt true true w y HA Hy) as [O1 D1].
  split; [auto|split; [auto|split; [exact (eq_trans D1 D)|split; [|auto]]]].
  apply (deriv_tube_has A a b); auto. eapply follows_sol; eauto.
Qed.
Lemma esol_deriv_slice A a b rt y w f g k : arith_ok A -> bounded_on a b f -> esol a b y w f g -> esol a b (deriv_slice A rt w y k) w f g.
Proof.
  intros HA HB HS. pose proof HS as (Hy & Hw & D & Hf & Hg & HF).
  split; [apply deriv_slice_ok; auto|split; [auto|split; [exact (eq_trans (deriv_slice_dom A rt w y k) D)|split; [|auto]]]].
  destruct (follows_sol a b f g w y HF Hy Hw D Hg HB) as [_ HR].
  apply (deriv_slice_has A a b); auto.
  - intros sv E. apply (ok_in _ _ _ _ Hw (nth_error_In _ _ E)).
  - intros s sv E E'. apply (HR k s sv E E').
Qed.
Lemma esol_deriv_gates A a b y w f g k : arith_ok A -> esol a b y w f g -> esol a b (deriv_gates A w y k) w f g.
Proof.
  intros HA HS. pose proof HS as (Hy & Hw & D & Hf & Hg & HF).
  destruct (deriv_gates_spec A a b w y k f HA Hy) as (S1 & S2 & S3).
  split; [auto|split; [auto|split; [exact (eq_trans (tsub_dom _ _ S2) D)|split; [|auto]]]].
  apply S3; auto. intros s sv E E'. apply (esol_slice a b y w f g k s sv HS E E').
Qed.
Lemma esol_set_at a b y w f g z t : esol a b y w f g -> a <= t <= b -> wf z -> In (f t) z ->
  esol a b (tube_set_at z t y) (sample t w) f g.
Proof.
  intros (Hy & Hw & D & Hf & Hg & HF) Ht Wz Hz.
  split; [apply sample_gate_ok; auto|split; [apply sample_ok; auto|split; [|split; [apply (set_at_has a b); auto|split; [|auto]]]]].
  - eapply eq_trans; [apply tube_set_at_dom|apply sample_dom; auto].
  - apply (sample_has a b w t g Hw Ht); auto.
Qed.
Lemma esol_remove a b y w f g t : esol a b y w f g -> esol a b (remove_gate t y) (remove_gate t w) f g.
Proof.
  intros (Hy & Hw & D & Hf & Hg & HF). destruct (remove_gate_ok a b y t Hy) as [O1 P1]. destruct (remove_gate_ok a b w t Hw) as [O2 P2].
  split; [auto|split; [auto|split; [apply (remove_gate_dom a b); auto|split; [auto|split; [auto|auto]]]]].
Qed.
Lemma has_not_empty x f : x <> [] -> (forall s, List.In s x -> s_lb s < s_ub s) -> has x f -> tube_is_empty x = false.
Proof.
  intros Hne Hlt H. assert (forall i v, In v i -> is_empty i = false) as Hi.
  { intros i v Hv. apply is_empty_false. intros ->. destruct Hv. }
  destruct x as [|s r]; [congruence|]. unfold tube_is_empty.
  destruct (H s (or_introl eq_refl)) as (F1 & F2 & F3). rewrite (Hi _ _ F1). cbn [orb].
  apply Bool.not_true_is_false. intros E. apply existsb_exists in E. destruct E as (q & Hq & E).
  destruct (H q Hq) as (G1 & G2 & G3). specialize (Hlt q Hq). rewrite (Hi _ _ G2), orb_false_r in E.
  rewrite (Hi (s_cod q) (f ((s_lb q + s_ub q) / 2))) in E by (apply G3; lra). discriminate.
Qed.
Lemma ok_not_empty a b x f : tube_ok a b x -> has x f -> tube_is_empty x = false.
Proof.
  intros H Hf. eapply has_not_empty; eauto; [apply H|]. intros s Hs. apply (chain_in_bounds _ _ _ _ (ok_chain _ _ _ H) Hs).
Qed.
Lemma not_emp v i : In v i -> is_empty i = false.
Proof. intros Hv. apply is_empty_false. intros ->. destruct Hv. Qed.

(** ** a known instant *)
Theorem ctc_eval_t_sound c a b t z y w f g : arith_ok (e_arith c) -> pint_ok (e_pint c) -> esol a b y w f g -> bounded_on a b f ->
  a <= t <= b -> In (f t) z ->
  let '(z', y', w') := ctc_eval_t c t z y w in In (f t) z' /\ esol a b y' w' f g.
Proof.
  intros HA HP HS HB Ht Hz. pose proof HS as (Hy & Hw & D & Hf & Hg & HF). unfold ctc_eval_t.
  rewrite (not_emp _ _ Hz), (ok_not_empty a b y f), (ok_not_empty a b w g) by auto. cbn [orb].
  set (z1 := inter z (interpol_t c y w t)). set (y1 := tube_set_at z1 t y). set (w1 := sample t w).
  assert (In (f t) z1) as Hz1 by (apply In_inter; split; auto; eapply interpol_t_in; eauto).
  assert (esol a b y1 w1 f g) as S1 by (apply esol_set_at; auto; apply wf_inter).
  set (p2 := if e_propag c then _ else _).
  assert (esol a b (fst p2) (snd p2) f g) as S2.
  { unfold p2. destruct (e_propag c); [cbn [fst snd]; apply esol_deriv_tube; auto|].
    destruct (_ && _); [|auto]. cbn [fst snd]. apply esol_remove. repeat apply esol_deriv_slice; auto. }
  destruct p2 as [y2 w2]. cbn [fst snd] in S2. pose proof S2 as (Hy2 & _ & _ & Hf2 & _).
  rewrite (not_emp _ _ Hz1), (ok_not_empty a b y2 f) by auto. cbn [orb]. auto.
Qed.
