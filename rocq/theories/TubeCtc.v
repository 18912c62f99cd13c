(** * Toolkit: elementary writes as contractions of the set of trajectories *)
From Coq Require Import Reals Lra Bool List Arith Lia ZArith.
From Verif Require Import Itv Arith Tube TubeSpec TubeFacts TubeOps TubeOpsFacts TubeOpsFacts2 TubeQueries TubeQueries2.
Import ListNotations.
Open Scope R_scope.
Local Arguments Nat.eqb : simpl never.
Local Arguments seq : simpl never.

(** ** [x'] is a contraction of [x]: same slicing, smaller values *)
Definition slice_sub (s' s : slice) : Prop :=
  s_lb s' = s_lb s /\ s_ub s' = s_ub s /\ sub (s_cod s') (s_cod s) /\ sub (s_in s') (s_in s) /\ sub (s_out s') (s_out s).
Definition tsub (x' x : tube) : Prop := Forall2 slice_sub x' x.

Lemma slice_sub_refl s : slice_sub s s.
Proof. unfold slice_sub; auto 7 using sub_refl. Qed.
Lemma slice_sub_trans s1 s2 s3 : slice_sub s1 s2 -> slice_sub s2 s3 -> slice_sub s1 s3.
Proof. intros (A1 & A2 & A3 & A4 & A5) (B1 & B2 & B3 & B4 & B5). repeat split; try congruence; eapply sub_trans; eauto. Qed.
Lemma tsub_refl x : tsub x x.
Proof. unfold tsub. induction x; constructor; auto using slice_sub_refl. Qed.
Lemma tsub_trans x y z : tsub x y -> tsub y z -> tsub x z.
Proof.
  unfold tsub. intros H; revert z. induction H; intros z Hz; inversion Hz; subst; constructor; eauto using slice_sub_trans.
Qed.
Lemma tsub_nth x' x : tsub x' x <-> length x' = length x /\
  forall k s' s, nth_error x' k = Some s' -> nth_error x k = Some s -> slice_sub s' s.
Proof.
  unfold tsub. split.
  - intros H. split; [induction H; simpl; auto|]. induction H; intros [|k] s' s; simpl; try discriminate; eauto.
    intros E1 E2; inversion E1; inversion E2; subst; auto.
  - revert x; induction x' as [|s' x' IH]; intros [|s x] [Hl H]; simpl in *; try discriminate; constructor.
    + apply (H 0%nat); auto.
    + apply IH. split; [lia|]. intros k q' q E1 E2. apply (H (S k)); auto.
Qed.
Lemma tsub_dom x' x : tsub x' x -> map dom x' = map dom x.
Proof.
  induction 1 as [|s' s x' x (A1 & A2 & _) _ IH]; auto. simpl. unfold dom at 1 3. rewrite A1, A2, IH. auto.
Qed.
Lemma slice_sub_has s' s f : slice_sub s' s -> slice_has s' f -> slice_has s f.
Proof.
  intros (A1 & A2 & A3 & A4 & A5) (F1 & F2 & F3). rewrite A1, A2 in *. repeat split; auto.
Qed.
Lemma tsub_has x' x f : tsub x' x -> has x' f -> has x f.
Proof.
  induction 1 as [|s' s x' x Hs _ IH]; auto. rewrite !has_cons. intros [H1 H2]. split; auto. eapply slice_sub_has; eauto.
Qed.
Lemma tsub_eval a b x' x t : tube_ok a b x' -> tube_ok a b x -> tsub x' x -> sub (eval_t x' t) (eval_t x t).
Proof.
  intros H' H Hs. destruct (Rle_dec a t) as [H1|H1]; [destruct (Rle_dec t b) as [H2|H2]|].
  2,3: rewrite (eval_t_out a b x), (eval_t_out a b x') by (auto; lra); apply sub_refl.
  destruct (cover x a b t H) as (k & s & E & B); [lra|].
  pose proof Hs as Hd. apply tsub_dom in Hd. 
  destruct (nth_dom x x' k s) as (s' & E' & L & U); auto.
  apply tsub_nth in Hs. destruct Hs as [_ Hs]. destruct (Hs k s' s E' E) as (_ & _ & A3 & A4 & A5).
  rewrite (eval_t_slice a b x k s), (eval_t_slice a b x' k s') by (auto; lra).
  unfold slice_eval. rewrite L, U. destruct (negb _); [apply sub_refl|].
  destruct (Reqb t (s_lb s)); auto. destruct (Reqb t (s_ub s)); auto.
Qed.

(** ** gates *)
Lemma gates_agree x k s q : gates_shared x -> nth_error x k = Some q -> nth_error x (S k) = Some s -> s_out q = s_in s.
Proof. intros H. rewrite gates_shared_nth in H. eauto. Qed.

Lemma put_gate_has a b x k g f : tube_ok a b x -> has x f ->
  (forall s, nth_error x k = Some s -> In (f (s_lb s)) g) ->
  (forall k' s, k = S k' -> nth_error x k' = Some s -> In (f (s_ub s)) g) ->
  has (put_gate k g x) f.
Proof.
  intros H Hf H1 H2. rewrite has_nth in *. intros j s. rewrite put_gate_nth.
  destruct (Nat.eqb_spec j k) as [->|].
  - destruct (nth_error x k) as [q|] eqn:E; [|discriminate]. intros Es; inversion Es; subst.
    destruct (Hf _ _ E) as (F1 & F2 & F3). repeat split; simpl; auto.
  - destruct (Nat.eqb_spec (S j) k) as [Hk|]; [|apply Hf].
    destruct (nth_error x j) as [q|] eqn:E; [|discriminate]. intros Es; inversion Es; subst.
    destruct (Hf _ _ E) as (F1 & F2 & F3). repeat split; simpl; eauto.
Qed.

Lemma put_gate_tsub x k g : 
  (forall s, nth_error x k = Some s -> sub g (s_in s)) ->
  (forall k' s, k = S k' -> nth_error x k' = Some s -> sub g (s_out s)) ->
  tsub (put_gate k g x) x.
Proof.
  intros H1 H2. apply tsub_nth. split; [apply put_gate_length|]. intros j s' s. rewrite put_gate_nth. intros E1 E2. rewrite E2 in E1.
  destruct (Nat.eqb_spec j k) as [->|].
  - inversion E1; subst s'. unfold slice_sub; simpl. auto 7 using sub_refl.
  - destruct (Nat.eqb_spec (S j) k) as [Hk|].
    + inversion E1; subst s'. unfold slice_sub; simpl. eauto 7 using sub_refl.
    + inversion E1; subst. apply slice_sub_refl.
Qed.

Lemma set_input_gate_has a b x k s g c f : tube_ok a b x -> nth_error x k = Some s ->
  has x f -> In (f (s_lb s)) g -> has (set_input_gate k g c x) f.
Proof.
  intros H E Hf Hg. unfold set_input_gate.
  assert (In (f (s_lb s)) (if c then inter_opt (inter_opt g (cod_at x k)) (prev_cod x k) else g)) as Hi.
  { destruct c; auto. apply In_inter_opt. split; [apply In_inter_opt; split; auto|].
    - unfold cod_at; rewrite E. intros y Ey; inversion Ey; subst. apply (slice_has_closed s f).
      eapply ok_in; eauto. eapply nth_error_In; eauto. apply Hf. eapply nth_error_In; eauto.
      apply nth_error_In in E. destruct (chain_in_bounds _ _ _ _ (ok_chain _ _ _ H) E); lra.
    - destruct k as [|k]; simpl; [discriminate|]. unfold cod_at. destruct (nth_error x k) as [q|] eqn:Eq; [|discriminate].
      intros y Ey; inversion Ey; subst. rewrite <- (chain_from_nth _ _ _ _ _ _ (ok_chain _ _ _ H) Eq E).
      apply (slice_has_closed q f). eapply ok_in; eauto. eapply nth_error_In; eauto. apply Hf. eapply nth_error_In; eauto.
      apply nth_error_In in Eq. destruct (chain_in_bounds _ _ _ _ (ok_chain _ _ _ H) Eq); lra. }
  apply (put_gate_has a b); auto.
  - intros q Eq. rewrite E in Eq; inversion Eq; subst. auto.
  - intros k' q -> Eq. rewrite (chain_from_nth _ _ _ _ _ _ (ok_chain _ _ _ H) Eq E). auto.
Qed.
Lemma set_output_gate_has a b x k s g c f : tube_ok a b x -> nth_error x k = Some s ->
  has x f -> In (f (s_ub s)) g -> has (set_output_gate k g c x) f.
Proof.
  intros H E Hf Hg. unfold set_output_gate.
  assert (In (f (s_ub s)) (if c then inter_opt (inter_opt g (cod_at x k)) (cod_at x (S k)) else g)) as Hi.
  { destruct c; auto. apply In_inter_opt. split; [apply In_inter_opt; split; auto|].
    - unfold cod_at; rewrite E. intros y Ey; inversion Ey; subst. apply (slice_has_closed s f).
      eapply ok_in; eauto. eapply nth_error_In; eauto. apply Hf. eapply nth_error_In; eauto.
      apply nth_error_In in E. destruct (chain_in_bounds _ _ _ _ (ok_chain _ _ _ H) E); lra.
    - unfold cod_at. destruct (nth_error x (S k)) as [q|] eqn:Eq; [|discriminate].
      intros y Ey; inversion Ey; subst. rewrite (chain_from_nth _ _ _ _ _ _ (ok_chain _ _ _ H) E Eq).
      apply (slice_has_closed q f). eapply ok_in; eauto. eapply nth_error_In; eauto. apply Hf. eapply nth_error_In; eauto.
      apply nth_error_In in Eq. destruct (chain_in_bounds _ _ _ _ (ok_chain _ _ _ H) Eq); lra. }
  apply (put_gate_has a b); auto.
  - intros q Eq. rewrite <- (chain_from_nth _ _ _ _ _ _ (ok_chain _ _ _ H) E Eq). auto.
  - intros k' q Ek Eq. inversion Ek; subst. rewrite E in Eq; inversion Eq; subst. auto.
Qed.
Lemma set_input_gate_tsub x k s g c : gates_shared x -> nth_error x k = Some s -> sub g (s_in s) ->
  tsub (set_input_gate k g c x) x.
Proof.
  intros Hs E Hg. unfold set_input_gate.
  assert (sub (if c then inter_opt (inter_opt g (cod_at x k)) (prev_cod x k) else g) (s_in s)) as Hi.
  { destruct c; auto. eapply sub_trans; [apply inter_opt_sub_l|]. eapply sub_trans; [apply inter_opt_sub_l|auto]. }
  apply put_gate_tsub.
  - intros q Eq. rewrite E in Eq; inversion Eq; subst; auto.
  - intros k' q -> Eq. rewrite (gates_agree x k' s q); auto.
Qed.
Lemma set_output_gate_tsub x k s g c : gates_shared x -> nth_error x k = Some s -> sub g (s_out s) ->
  tsub (set_output_gate k g c x) x.
Proof.
  intros Hs E Hg. unfold set_output_gate.
  assert (sub (if c then inter_opt (inter_opt g (cod_at x k)) (cod_at x (S k)) else g) (s_out s)) as Hi.
  { destruct c; auto. eapply sub_trans; [apply inter_opt_sub_l|]. eapply sub_trans; [apply inter_opt_sub_l|auto]. }
  apply put_gate_tsub.
  - intros q Eq. rewrite <- (gates_agree x k q s); auto.
  - intros k' q Ek Eq. inversion Ek; subst. rewrite E in Eq; inversion Eq; subst; auto.
Qed.

(** ** envelopes *)
Lemma set_envelope_has a b x k s y f : tube_ok a b x -> nth_error x k = Some s ->
  has x f -> (forall t, s_lb s <= t <= s_ub s -> In (f t) y) -> has (set_envelope k y true x) f.
Proof.
  intros H E Hf Hy. rewrite has_nth in *. intros j q. rewrite (set_envelope_nth k y x s j E).
  destruct (Hf _ _ E) as (F1 & F2 & F3).
  pose proof (nth_error_In _ _ E) as Hin. destruct (chain_in_bounds _ _ _ _ (ok_chain _ _ _ H) Hin) as (B1 & B2 & B3).
  destruct (Nat.eqb_spec j k) as [->|].
  - intros Eq; inversion Eq; subst. split; [|split]; simpl.
    + apply In_inter; split; auto. apply Hy; lra.
    + apply In_inter; split; auto. apply Hy; lra.
    + intros t Ht. apply Hy; lra.
  - destruct (Nat.eqb_spec (S j) k) as [<-|].
    + destruct (nth_error x j) as [z|] eqn:Ez; [|discriminate]. intros Eq; inversion Eq; subst.
      destruct (Hf _ _ Ez) as (G1 & G2 & G3). 
      repeat split; simpl; auto. rewrite (chain_from_nth _ _ _ _ _ _ (ok_chain _ _ _ H) Ez E).
      apply In_inter; split; auto. apply Hy; lra.
    + destruct (Nat.eqb_spec j (S k)) as [->|]; [|apply Hf].
      destruct (nth_error x (S k)) as [z|] eqn:Ez; [|discriminate]. intros Eq; inversion Eq; subst.
      destruct (Hf _ _ Ez) as (G1 & G2 & G3). 
      repeat split; simpl; auto. rewrite <- (chain_from_nth _ _ _ _ _ _ (ok_chain _ _ _ H) E Ez).
      apply In_inter; split; auto. apply Hy; lra.
Qed.
Lemma set_envelope_false_has x k s y f : nth_error x k = Some s ->
  has x f -> (forall t, s_lb s < t < s_ub s -> In (f t) y) -> has (set_envelope k y false x) f.
Proof.
  intros E Hf Hy. rewrite has_nth in *. intros j q. rewrite set_env_false_nth.
  destruct (Nat.eqb_spec j k) as [->|]; [|apply Hf]. rewrite E. intros Eq; inversion Eq; subst.
  destruct (Hf _ _ E) as (F1 & F2 & F3). repeat split; simpl; auto.
Qed.
Lemma set_envelope_tsub x k s y c : gates_shared x -> nth_error x k = Some s -> sub y (s_cod s) -> tsub (set_envelope k y c x) x.
Proof.
  intros Hs E Hy. apply tsub_nth. destruct c.
  - split. { rewrite (length_dom _ x); auto. apply set_envelope_dom. }
    intros j q' q. rewrite (set_envelope_nth k y x s j E). intros E1 E2. rewrite E2 in E1.
    destruct (Nat.eqb_spec j k) as [->|].
    + inversion E1; subst. assert (q = s) by congruence. subst q. unfold slice_sub; simpl. auto 7 using sub_inter_l.
    + destruct (Nat.eqb_spec (S j) k) as [<-|].
      * inversion E1; subst. unfold slice_sub; simpl. rewrite (gates_agree x j s q) by auto. auto 7 using sub_inter_l, sub_refl.
      * destruct (Nat.eqb_spec j (S k)) as [->|].
        -- inversion E1; subst. unfold slice_sub; simpl. rewrite <- (gates_agree x k q s) by auto. auto 7 using sub_inter_l, sub_refl.
        -- inversion E1; subst. apply slice_sub_refl.
  - split. { rewrite (length_dom _ x); auto. apply set_envelope_dom. }
    intros j q' q. rewrite set_env_false_nth. intros E1 E2. rewrite E2 in E1. 
    destruct (Nat.eqb_spec j k) as [->|]; inversion E1; subst; [|apply slice_sub_refl].
    assert (q = s) by congruence. subst q. unfold slice_sub; simpl. auto 7 using sub_refl.
Qed.
Lemma set_envelope_has_inv a b x k s y f : tube_ok a b x -> nth_error x k = Some s -> wf y -> sub y (s_cod s) ->
  has (set_envelope k y true x) f -> has x f /\ (forall t, s_lb s <= t <= s_ub s -> In (f t) y).
Proof.
  intros H E Hw Hy Hf. split.
  - eapply tsub_has; [|exact Hf]. eapply set_envelope_tsub; eauto. apply H.
  - pose proof (set_envelope_ok a b x k y H Hw) as Hok.
    set (s' := mkS (s_lb s) (s_ub s) y (inter (s_in s) y) (inter (s_out s) y)).
    assert (nth_error (set_envelope k y true x) k = Some s') as E'.
    { rewrite (set_envelope_nth k y x s k E), Nat.eqb_refl. auto. }
    intros t Ht. apply (slice_has_closed s' f); auto.
    + eapply ok_in; eauto. eapply nth_error_In; eauto.
    + apply Hf. eapply nth_error_In; eauto.
Qed.

(** ** Tube(v_tdomains, v_codomains) *)
(** the list of upper bounds is increasing, starts after [c] and ends at [b] *)
Fixpoint increasing (c : R) (l : list (R * itv)) (b : R) : Prop :=
  match l with
  | [] => False
  | [(u, y)] => c < u /\ u = b /\ wf y
  | (u, y) :: r => c < u /\ wf y /\ increasing u r b
  end.
(** the trajectory [f] is in each given codomain over the corresponding closed domain *)
Fixpoint in_each (c : R) (l : list (R * itv)) (f : R -> R) : Prop :=
  match l with
  | [] => True
  | (u, y) :: r => (forall t, c <= t <= u -> In (f t) y) /\ in_each u r f
  end.
Lemma increasing_lt l : forall c b, increasing c l b -> c < b.
Proof.
  induction l as [|(u & y) l IH]; intros c b H; [destruct H|]. destruct l as [|p l]; [simpl in H; lra|].
  destruct H as (H1 & H2 & H3). apply IH in H3. lra.
Qed.
Lemma increasing_last l : forall c b d, increasing c l b -> last (map fst l) d = b.
Proof.
  induction l as [|(u & y) l IH]; intros c b d H; [destruct H|]. destruct l as [|p l]; [simpl in *; tauto|].
  destruct H as (H1 & H2 & H3). change (last (map fst (p :: l)) d = b). eapply IH; eauto.
Qed.

Lemma vectors_loop_spec a b : forall l k x c s, tube_ok a b x -> length x = S k -> nth_error x k = Some s ->
  s_lb s = c -> s_ub s = b -> s_cod s = ALL -> increasing c l b ->
  tube_ok a b (vectors_loop k l x) /\
  (forall f, has (vectors_loop k l x) f <-> has x f /\ in_each c l f) /\
  map s_ub (vectors_loop k l x) = firstn k (map s_ub x) ++ map fst l.
Proof.
  induction l as [|(u & y) l IH]; intros k x c s H Hl E Hc Hb Hcod Hi; [destruct Hi|].
  assert (c < u /\ u <= b /\ wf y /\ (l = [] -> u = b)) as (Hcu & Hub & Hw & Hlast).
  { destruct l as [|p l]; [simpl in Hi; repeat split; try tauto; lra|]. destruct Hi as (I1 & I2 & I3).
    apply increasing_lt in I3. repeat split; auto; try lra. discriminate. }
  pose proof (nth_error_In _ _ E) as Hin. destruct (chain_in_bounds _ _ _ _ (ok_chain _ _ _ H) Hin) as (B1 & B2 & B3).
  assert (tube_ok a b (sample u x)) as H1 by (apply sample_ok; auto; lra).
  assert (x = firstn k x ++ [s]) as Ex.
  { rewrite <- (firstn_skipn k x) at 1. f_equal. apply nth_error_ext. intros j. rewrite nth_error_skipn'.
    destruct j; simpl; [rewrite Nat.add_0_r; auto|]. destruct j; simpl; apply nth_error_None; lia. }
  assert (length (firstn k x) = k) as Hlk by (rewrite firstn_length; lia).
  cbn [vectors_loop].
  destruct l as [|p l].
  - assert (u = b) by auto. subst u.
    assert (sample b x = x) as Es.
    { destruct (sample_shape x a b b) as [Es|(l1 & q & l2 & E1 & B & _)]; try apply H; auto; [lra|].
      exfalso. assert (List.In q x) as Hq by (rewrite E1; apply in_or_app; right; left; auto).
      destruct (chain_in_bounds _ _ _ _ (ok_chain _ _ _ H) Hq). lra. }
    rewrite Es. cbn [vectors_loop]. split; [apply set_envelope_ok; auto|split].
    + intros f. simpl. split.
      * intros Hf. apply (set_envelope_has_inv a b x k s y f) in Hf; auto; [|rewrite Hcod; apply sub_ALL].
        rewrite Hb, Hc in Hf. tauto.
      * intros (Hf & Hy & _). apply (set_envelope_has a b x k s); auto. rewrite Hb, Hc. auto.
    + simpl. pose proof (set_envelope_dom k y true x) as D. apply (f_equal (map snd)) in D. rewrite !map_map in D.
      change (map s_ub (set_envelope k y true x) = map s_ub x) in D. rewrite D.
      rewrite Ex at 1. rewrite map_app. simpl. rewrite Hb. f_equal. rewrite firstn_map. auto.
  - assert (u < b) as Hlt by (destruct Hi as (_ & _ & Hi); apply increasing_lt in Hi; auto).
    assert (sample u x = firstn k x ++ [left_part u s; right_part u s]) as Es.
    { destruct (sample_shape x a b u) as [Es|(l1 & q & l2 & E1 & B & E2)]; try apply H; auto; [lra| |].
      - exfalso. destruct (sample_gate_at a b x u H) as (j & z & Ez & _ & C); [lra|]. rewrite Es in Ez.
        assert (j < length x)%nat by (apply nth_error_Some; congruence).
        destruct C as [C|C]; [|lra].
        destruct (Nat.eq_dec j k) as [->|]; [assert (z = s) by congruence; subst; lra|].
        pose proof (chain_order _ _ _ _ _ _ _ (ok_chain _ _ _ H) Ez E ltac:(lia)).
        apply nth_error_In in Ez. destruct (chain_in_bounds _ _ _ _ (ok_chain _ _ _ H) Ez). lra.
      - assert (nth_error x (length l1) = Some q) as Eq by (rewrite E1, nth_error_app2, Nat.sub_diag by lia; auto).
        assert (length x = (length l1 + S (length l2))%nat) as Hlx by (rewrite E1, app_length; auto).
        destruct (Nat.eq_dec (length l1) k) as [Hk|Hk].
        + assert (l2 = []) by (destruct l2; auto; simpl in *; lia). subst l2. rewrite Hk in Eq.
          assert (q = s) by congruence. subst q. rewrite E2. f_equal.
          rewrite E1, firstn_app, Hk, Nat.sub_diag, <- Hk, firstn_all. simpl. rewrite app_nil_r. auto.
        + exfalso. pose proof (chain_order _ _ _ _ _ _ _ (ok_chain _ _ _ H) Eq E ltac:(lia)). lra. }
    set (x1 := sample u x) in *.
    assert (nth_error x1 k = Some (left_part u s)) as E1 by (rewrite Es, nth_error_app2, Hlk, Nat.sub_diag by lia; auto).
    assert (nth_error x1 (S k) = Some (right_part u s)) as E2.
    { rewrite Es, nth_error_app2, Hlk by lia. replace (S k - k)%nat with 1%nat by lia. auto. }
    pose proof (set_envelope_ok a b x1 k y H1 Hw) as Hok.
    destruct (IH (S k) (set_envelope k y true x1) u (set_in (inter ALL y) (right_part u s))) as (I1 & I2 & I3); auto.
    + rewrite (length_dom _ x1) by apply set_envelope_dom. rewrite Es, app_length. simpl. lia.
    + rewrite (set_envelope_nth k y x1 _ (S k) E1). neq. rewrite E2. simpl. rewrite Hcod. auto.
    + destruct Hi as (_ & _ & Hi). auto.
    + split; [auto|split].
      * intros f. rewrite I2. cbn [in_each].
        assert (has (set_envelope k y true x1) f <-> has x f /\ forall t, c <= t <= u -> In (f t) y) as K.
        { rewrite <- (sample_has a b x u f H) by lra. fold x1. split.
          - intros Hf. apply (set_envelope_has_inv a b x1 k (left_part u s) y f) in Hf; auto.
            + simpl in Hf. rewrite Hc in Hf. auto.
            + simpl. rewrite Hcod. apply sub_ALL.
          - intros (Hf & Hy). apply (set_envelope_has a b x1 k (left_part u s)); auto. simpl. rewrite Hc. auto. }
        rewrite K. tauto.
      * rewrite I3. pose proof (set_envelope_dom k y true x1) as D. apply (f_equal (map snd)) in D. rewrite !map_map in D.
        change (map s_ub (set_envelope k y true x1) = map s_ub x1) in D. rewrite D, Es.
        change ([left_part u s; right_part u s]) with ([left_part u s] ++ [right_part u s]). rewrite app_assoc, map_app.
        rewrite firstn_app. 
        assert (length (map s_ub (firstn k x ++ [left_part u s])) = S k) as Hll by (rewrite map_length, app_length, Hlk; simpl; lia).
        rewrite Hll, Nat.sub_diag. rewrite firstn_all2 by lia. rewrite map_app. simpl. rewrite app_nil_r, <- app_assoc. 
        rewrite firstn_map. auto.
Qed.

Theorem tube_vectors_spec a l b : increasing a l b ->
  tube_ok a b (tube_vectors a l) /\ map s_ub (tube_vectors a l) = map fst l /\
  forall f, has (tube_vectors a l) f <-> in_each a l f.
Proof.
  intros Hi. unfold tube_vectors. rewrite (increasing_last l a b a Hi).
  pose proof (increasing_lt l a b Hi) as Hlt.
  destruct (vectors_loop_spec a b l 0 (tube_one a b ALL) a (slice_new a b ALL)) as (I1 & I2 & I3); auto.
  - apply tube_one_ok; auto. apply I.
  - split; [auto|split; [exact I3|]]. intros f. rewrite I2. split; [tauto|]. intros Hf; split; auto.
    apply has_cons. split; [|apply has_nil]. repeat split; simpl; auto.
Qed.

(** ** Tube(lb, ub) from two trajectories *)
Lemma sl_map_loop ec ei eo x k s : nth_error x k = Some s ->
  sl (map_loop ec ei eo x) k = mkS (s_lb s) (s_ub s) (ec k) (ei k) (if Nat.eqb (S k) (length x) then eo else ei (S k)).
Proof. intros E. apply sl_nth. rewrite map_loop_nth, E. auto. Qed.

Theorem tube_between_has a b dt lb ub l u f : a < b -> 0 <= dt ->
  (forall i t, In t i -> In (l t) (lb i)) -> (forall i t, In t i -> In (u t) (ub i)) ->
  (forall t, a <= t <= b -> l t <= f t <= u t) -> has (tube_between a b dt lb ub) f.
Proof.
  intros Hab Hdt Hl Hu Hf. unfold tube_between.
  pose proof (tube_timestep_ok a b dt ALL Hab Hdt I) as H0.
  pose proof (tube_set_ok a b Emp _ I H0) as H1. set (x := tube_set Emp (tube_timestep a b dt ALL)) in *.
  unfold tube_assign_traj at 1. 
  assert (forall A B v w z, In v A -> In w B -> v <= z <= w -> In z (hull A B)) as Hh.
  { intros A B v w z HA HB Hz. apply (In_convex v z w (hull A B)); auto; try lra. apply In_hull_l; auto. apply In_hull_r; auto. }
  assert (map dom (tube_assign_traj hull x lb) = map dom x) as D by apply map_loop_dom.
  assert (length (tube_assign_traj hull x lb) = length x) as L by (apply length_dom; auto).
  apply (map_loop_has a b). { eapply chain_from_dom; [symmetry; exact D|apply H1]. }
  intros k s' E'. destruct (nth_dom _ x k s' D E') as (s & E & Elb & Eub).
  assert (List.In s x) as Hin by (eapply nth_error_In; eauto).
  destruct (chain_in_bounds _ _ _ _ (ok_chain _ _ _ H1) Hin) as (B1 & B2 & B3).
  rewrite (sl_nth _ _ _ E').
  assert (s' = sl (tube_assign_traj hull x lb) k) as Es' by (symmetry; apply sl_nth; auto).
  unfold tube_assign_traj in Es'. rewrite (sl_map_loop _ _ _ _ _ _ E) in Es'. rewrite (sl_nth _ _ _ E) in Es'.
  rewrite <- Elb, <- Eub. split; [|split].
  - apply Hh with (v := l (s_lb s)) (w := u (s_lb s)).
    + rewrite Es'. simpl. apply In_hull_r. apply Hl, In_pt; auto.
    + apply Hu, In_pt; auto.
    + apply Hf. lra.
  - intros t Ht. apply Hh with (v := l t) (w := u t).
    + rewrite Es'. simpl. apply In_hull_r. apply Hl. simpl; lra.
    + apply Hu. simpl. lra.
    + apply Hf. lra.
  - intros Hk. rewrite L in Hk. rewrite L. replace (length x - 1)%nat with k by lia. rewrite (sl_nth _ _ _ E').
    apply Hh with (v := l (s_ub s)) (w := u (s_ub s)).
    + rewrite Es'. simpl. replace (Nat.eqb (S k) (length x)) with true by (symmetry; apply Nat.eqb_eq; auto).
      replace (length x - 1)%nat with k by lia. rewrite (sl_nth _ _ _ E). apply In_hull_r. apply Hl, In_pt; auto.
    + apply Hu, In_pt; auto.
    + apply Hf. lra.
Qed.

(** ** well-formedness of the results of tube arithmetic *)
Definition mono1 (F : itv -> itv) : Prop :=
  (forall X, wf X -> wf (F X)) /\ (forall X X', wf X -> wf X' -> sub X X' -> sub (F X) (F X')).
Theorem tube_unary_ok a b F x : mono1 F -> tube_ok a b x -> tube_ok a b (tube_unary F x).
Proof.
  intros [M1 M2] H. unfold tube_unary.
  assert (forall k s, nth_error x k = Some s -> slice_ok s) as Hs.
  { intros k s E. eapply ok_in; eauto. eapply nth_error_In; eauto. }
  apply map_loop_ok; auto.
  - intros k s E. rewrite (sl_nth _ _ _ E). destruct (Hs _ _ E) as (W1 & W2 & W3 & S1 & S2). auto.
  - intros k s s' E E'. rewrite (sl_nth _ _ _ E), (sl_nth _ _ _ E').
    destruct (Hs _ _ E) as (W1 & W2 & W3 & S1 & S2). destruct (Hs _ _ E') as (W1' & W2' & W3' & S1' & S2').
    apply M2; auto. rewrite <- (gates_agree x k s' s) by (auto; apply H). auto.
  - destruct (nth_error_last x (ok_ne _ _ _ H)) as [s E]. rewrite (sl_nth _ _ _ E). destruct (Hs _ _ E) as (W1 & W2 & W3 & S1 & S2). auto.
  - destruct (nth_error_last x (ok_ne _ _ _ H)) as [s E]. rewrite (sl_nth _ _ _ E). destruct (Hs _ _ E) as (W1 & W2 & W3 & S1 & S2). auto.
Qed.
